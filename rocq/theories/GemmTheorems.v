(** Consequences of the gemm correctness theorem in the form used by the property files. *)
From Coq Require Import List Arith ZArith QArith Lia Bool Ring_theory Ring Setoid Morphisms.
From Verif Require Import Prelude Ring MatFun MatSetoid Matrix MatOps MatSpec MatOpsProofs Lapack Gemm GemmSpec GemmProofs GemmCorrect.
Import ListNotations.
Local Open Scope nat_scope.

Section Theorems.
Context {R : cring}.
Add Ring Rr : (cr_th R).
Notation dense := (dense R).
Notation lowrank := (lowrank R).
Notation matrix := (matrix R).
Notation mat := (mat R).

(** Approximating routines that lose nothing. *)
Definition lr_of (d : dense) : lowrank := lr_make d (eye (d_c d)) (eye (d_c d)).
Definition exact_oracles : oracles R := {|
  crank := fun d _ => Ok (lr_of d);
  ceps := fun d _ => Ok (lr_of d);
  lr_add := fun a b => Ok (lr_of (Dn (l_r a) (l_c a) (madd (lr_ent a) (lr_ent b))))
|}.

Lemma lr_of_ent (d : dense) : feq (d_r d) (d_c d) (lr_ent (lr_of d)) (d_e d).
Proof.
  intros i j Hi Hj. unfold lr_of, lr_make, lr_ent. cbn [l_U l_S l_V d_c d_e d_r eye].
  assert (E : forall x, x < d_c d -> mmul (d_c d) mid mid x j = (mid x j : R)).
  { intros x Hx. unfold mmul. rewrite (sum_single _ x _ Hx).
    - unfold mid. rewrite Nat.eqb_refl. ring.
    - intros y _ Hn. unfold mid. destruct (Nat.eqb_spec x y); [lia|ring]. }
  unfold mmul at 1. rewrite (sum_single _ j _ Hj).
  - rewrite E by auto. unfold mid. rewrite Nat.eqb_refl. ring.
  - intros y Hy Hn. rewrite E by auto. unfold mid. destruct (Nat.eqb_spec y j); [lia|ring].
Qed.

Lemma lr_of_wf (d : dense) : lr_wf (lr_of d).
Proof. unfold lr_wf. simpl. auto. Qed.

Lemma exact_oracles_near : oracles_near exact exact_oracles.
Proof.
  split.
  - intros a b c Wa Wb E1 E2 E. inversion E; subst c. split; [apply lr_of_wf|].
    split; auto. split; auto. match goal with |- context[lr_of ?d] => exact (lr_of_ent d) end.
  - intros d r c E. inversion E; subst c. split; [apply lr_of_wf|].
    split; auto. split; auto. match goal with |- context[lr_of ?d] => exact (lr_of_ent d) end.
  - intros d r c E. inversion E; subst c. split; [apply lr_of_wf|].
    split; auto. split; auto. match goal with |- context[lr_of ?d] => exact (lr_of_ent d) end.
Qed.

Variable Or : oracles R.

(** Exact low-rank arithmetic: gemm is exact. *)
Lemma gemm_exact : oracles_near exact Or -> forall fuel A B C alpha beta tA tB C',
  wf A -> wf B -> wf C -> trans_ok tA tB A B C -> gemm Or fuel A B C alpha beta tA tB = Ok C' ->
  wf C' /\ same_layout C C' /\
  feq (nrows C) (ncols C) (ent C') (gemm_value (opc tA A) (ent A) (ent B) (ent C) alpha beta tA tB).
Proof.
  intros HO fuel A B C alpha beta tA tB C' WA WB WC T E.
  destruct (gemm_pair_ok exact Or HO fuel) as [G _].
  destruct (G _ _ _ _ _ _ _ _ WA WB WC T E) as [_ [_ [_ [W [L [H _]]]]]]. auto.
Qed.

(** Low-rank arithmetic of any quality: the deviation is a sum of the errors of
    individual calls, placed in blocks. *)
Lemma gemm_upto : oracles_shape Or -> forall fuel A B C alpha beta tA tB C',
  wf A -> wf B -> wf C -> trans_ok tA tB A B C -> gemm Or fuel A B C alpha beta tA tB = Ok C' ->
  wf C' /\ same_layout C C' /\
  err_sum (call_error Or) (nrows C) (ncols C)
    (msub (ent C') (gemm_value (opc tA A) (ent A) (ent B) (ent C) alpha beta tA tB)).
Proof.
  intros HO fuel A B C alpha beta tA tB C' WA WB WC T E.
  destruct (gemm_pair_ok _ Or (shape_near_upto Or HO) fuel) as [G _].
  destruct (G _ _ _ _ _ _ _ _ WA WB WC T E) as [_ [_ [_ [W [L [H _]]]]]]. auto.
Qed.

(** A result without LowRank blocks is exact whatever the low-rank arithmetic does. *)
Lemma gemm_no_lr : oracles_shape Or -> forall fuel A B C alpha beta tA tB C',
  wf A -> wf B -> wf C -> no_lr C -> trans_ok tA tB A B C -> gemm Or fuel A B C alpha beta tA tB = Ok C' ->
  wf C' /\ same_layout C C' /\
  feq (nrows C) (ncols C) (ent C') (gemm_value (opc tA A) (ent A) (ent B) (ent C) alpha beta tA tB).
Proof.
  intros HO fuel A B C alpha beta tA tB C' WA WB WC NC T E.
  destruct (gemm_pair_ok _ Or (shape_near_upto Or HO) fuel) as [G _].
  destruct (G _ _ _ _ _ _ _ _ WA WB WC T E) as [_ [_ [_ [W [L [_ H]]]]]]. auto.
Qed.

(** gemm only returns normally if the dimensions fit. *)
Lemma gemm_dims : oracles_shape Or -> forall fuel A B C alpha beta tA tB C',
  wf A -> wf B -> wf C -> trans_ok tA tB A B C -> gemm Or fuel A B C alpha beta tA tB = Ok C' ->
  opr tA A = nrows C /\ opc tA A = opr tB B /\ opc tB B = ncols C /\
  nrows C' = nrows C /\ ncols C' = ncols C.
Proof.
  intros HO fuel A B C alpha beta tA tB C' WA WB WC T E.
  destruct (gemm_pair_ok _ Or (shape_near_upto Or HO) fuel) as [G _].
  destruct (G _ _ _ _ _ _ _ _ WA WB WC T E) as [E1 [E2 [E3 [W [L _]]]]].
  destruct (same_layout_dims _ _ WC L) as [D1 D2]. auto.
Qed.

Lemma gemm_new_spec : oracles_shape Or -> forall fuel A B alpha tA tB C',
  wf A -> wf B -> trans_ok tA tB A B (MD (d_zeros 0 0)) -> gemm_new Or fuel A B alpha tA tB = Ok C' ->
  wf C' /\ nrows C' = opr tA A /\ ncols C' = opc tB B /\
  feq (opr tA A) (opc tB B) (ent C') (mscale alpha (mmul (opc tA A) (mop tA (ent A)) (mop tB (ent B)))).
Proof.
  intros HO fuel A B alpha tA tB C' WA WB T E.
  destruct (gemm_pair_ok _ Or (shape_near_upto Or HO) fuel) as [_ G].
  destruct (G _ _ _ _ _ _ WA WB T E) as [_ [W [_ [D1 [D2 F]]]]]. auto.
Qed.

(** Without approximation the result of the product is independent of the routines. *)
Lemma madd_exact : oracles_near exact Or -> forall A B C : matrix, wf A -> wf B -> nrows A = nrows B -> ncols A = ncols B ->
  madd_to Or A B = Ok C ->
  wf C /\ same_layout A C /\ feq (nrows A) (ncols A) (ent C) (madd (ent A) (ent B)).
Proof.
  intros HO A B C WA WB E1 E2 E. destruct (madd_layout _ Or HO A B C WA WB E) as [W L].
  destruct (madd_spec _ Or HO A B C WA WB E1 E2 E) as [F _]. auto.
Qed.

Lemma madd_upto : oracles_shape Or -> forall A B C : matrix, wf A -> wf B -> nrows A = nrows B -> ncols A = ncols B ->
  madd_to Or A B = Ok C ->
  wf C /\ same_layout A C /\
  err_sum (call_error Or) (nrows A) (ncols A) (msub (ent C) (madd (ent A) (ent B))) /\
  (no_lr A -> feq (nrows A) (ncols A) (ent C) (madd (ent A) (ent B))).
Proof.
  intros HO A B C WA WB E1 E2 E. pose proof (shape_near_upto Or HO) as HN.
  destruct (madd_layout _ Or HN A B C WA WB E) as [W L].
  destruct (madd_spec _ Or HN A B C WA WB E1 E2 E) as [F F']. auto.
Qed.

(** The combinations for which operator+= has an implementation. *)
Definition add_supported (A B : matrix) : Prop :=
  match A, B with
  | MD _, MD _ | MD _, ML _ | MH _ _ _, MH _ _ _ | MH _ _ _, ML _ | ML _, ML _ => True
  | _, _ => False
  end.

Lemma madd_unsupported (A B : matrix) : ~ add_supported A B -> madd_to Or A B = Abort.
Proof. destruct A, B; simpl; auto; intros H; exfalso; apply H; exact I. Qed.

Lemma sub_spec (a b : dense) : d_r a = d_r b -> d_c a = d_c b ->
  exists c, subtraction (MD a) (MD b) = Ok (MD c) /\ d_r c = d_r a /\ d_c c = d_c a /\
    forall i j, i < d_r a -> j < d_c a -> d_e c i j = (d_e a i j - d_e b i j)%r.
Proof.
  intros E1 E2. unfold subtraction. simpl nrows. simpl ncols. rewrite E1, E2, !Nat.eqb_refl.
  exists (d_sub a b). split; auto. repeat split; simpl; auto. intros i j Hi Hj. apply (d_sub_ent a b); auto; congruence.
Qed.

Lemma sub_unsupported (A B : matrix) C : subtraction A B = Ok C -> exists a b, A = MD a /\ B = MD b.
Proof.
  unfold subtraction. intros H. apply assert_Ok in H. destruct H as [_ H].
  apply assert_Ok in H. destruct H as [_ H]. destruct A, B; try discriminate. eauto.
Qed.

End Theorems.
