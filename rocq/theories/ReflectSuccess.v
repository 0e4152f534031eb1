(** The kernels succeed on operands that fit together. *)
From Coq Require Import List Arith ZArith QArith Lia Bool Ring_theory Ring Setoid Morphisms.
From Verif Require Import Prelude Ring MatFun MatSetoid Matrix MatOps MatSpec MatOpsProofs Lapack Gemm GemmSpec GemmProofs
  GemmCorrect GemmTheorems Triangular TriAlgebra TriSpec TriProofs TriTheorems Reflect ReflectSpec ReflectProofs ReflectTile.
Import ListNotations.
Local Open Scope nat_scope.

Section Success.
Context {R : cring}.
Add Ring Rr : (cr_th R).
Notation dense := (dense R).
Notation lowrank := (lowrank R).
Notation matrix := (matrix R).
Notation mat := (mat R).

(** Low-rank arithmetic that never fails. *)
Record oracles_total (O : oracles R) : Prop := {
  ot_add : forall a b, lr_wf a -> lr_wf b -> l_r a = l_r b -> l_c a = l_c b -> exists c, lr_add O a b = Ok c;
  ot_rank : forall d r, exists c, crank O d r = Ok c;
  ot_eps : forall d e, exists c, ceps O d e = Ok c
}.

Variable Or : oracles R.
Hypothesis HS : oracles_shape Or.
Hypothesis HT : oracles_total Or.

Lemma acc_lr_ok (c x : lowrank) beta : lr_wf c -> lr_wf x -> l_r c = l_r x -> l_c c = l_c x ->
  exists C', acc_lr Or c beta x = Ok C'.
Proof.
  intros Wc Wx E1 E2. unfold acc_lr, lr_acc. cbn [lr_scale l_r l_c].
  apply Nat.eqb_eq in E1 as B1. apply Nat.eqb_eq in E2 as B2.
  change (l_r (lr_scale c beta)) with (l_r c). change (l_c (lr_scale c beta)) with (l_c c).
  rewrite B1, B2. destruct (ot_add _ HT (lr_scale c beta) x) as [d Hd]; auto. rewrite Hd. simpl. eauto.
Qed.

Ltac mul a b := let D := fresh "D" in let H := fresh "H" in
  match goal with |- context[dd_mul ?x ?y ?al ?ta ?tb] =>
    destruct (dd_mul_ok x y al ta tb) as [D H];
    [|rewrite H; simpl bind; apply dd_mul_inv in H; cbv iota in H; destruct H as [? [? [? _]]]] end.

Lemma gemm_flat_ok (A B C : matrix) alpha beta tA tB : flat A -> flat B -> flat C -> wf A -> wf B -> wf C ->
  opr tA A = nrows C -> opc tA A = opr tB B -> opc tB B = ncols C ->
  exists C', gemm Or 1 A B C alpha beta tA tB = Ok C'.
Proof.
  intros FA FB FC WA WB WC E1 E2 E3. unfold gemm. cbn [gemm_pair fst]. unfold gemm_step.
  rewrite (proj2 (Nat.eqb_eq _ _) E1), (proj2 (Nat.eqb_eq _ _) E2), (proj2 (Nat.eqb_eq _ _) E3).
  destruct A as [a|a|? ? ?|? ?]; try destruct FA; destruct B as [b|b|? ? ?|? ?]; try destruct FB;
    destruct C as [c|c|? ? ?|? ?]; try destruct FC; unfold opr, opc in E1, E2, E3; cbn [nrows ncols] in E1, E2, E3;
    try destruct WA as [WA1 [WA2 [WA3 WA4]]]; try destruct WB as [WB1 [WB2 [WB3 WB4]]].
  - destruct (dd_gemm_ok a b c alpha beta tA tB) as [d Hd]; auto. rewrite Hd. simpl. eauto.
  - destruct (dd_mul_ok a b alpha tA tB) as [d Hd]; auto. rewrite Hd. simpl.
    apply dd_mul_inv in Hd. destruct Hd as [_ [D1 [D2 _]]].
    unfold compress_like. destruct (use_eps c).
    + destruct (ot_eps _ HT d (l_eps c)) as [x Hx]. rewrite Hx. simpl.
      destruct (os_eps _ HS _ _ _ Hx) as [X1 [X2 X3]]. apply acc_lr_ok; auto; destruct tA, tB; congruence.
    + destruct (ot_rank _ HT d (l_rank c)) as [x Hx]. rewrite Hx. simpl.
      destruct (os_rank _ HS _ _ _ Hx) as [X1 [X2 X3]]. apply acc_lr_ok; auto; destruct tA, tB; congruence.
  - destruct tA, tB; (mul x y; [simpl; congruence|]); (mul x y; [simpl; congruence|]);
      match goal with |- context[dd_gemm ?x ?y ?z ?al ?be ?ta ?tb] =>
        destruct (dd_gemm_ok x y z al be ta tb) as [d Hd]; try (simpl in *; congruence); rewrite Hd; simpl; eauto end.
  - destruct tA, tB; (mul x y; [simpl; congruence|]); apply acc_lr_ok; auto;
      unfold lr_wf, lr_make, lr_mid, lr_right; cbn [l_U l_S l_V l_r l_c]; simpl in *; try congruence;
      (split; [congruence|]; split; [congruence|]; split; congruence).
  - destruct tA, tB; (mul x y; [simpl; congruence|]); (mul x y; [simpl; congruence|]);
      match goal with |- context[dd_gemm ?x ?y ?z ?al ?be ?ta ?tb] =>
        destruct (dd_gemm_ok x y z al be ta tb) as [d Hd]; try (simpl in *; congruence); rewrite Hd; simpl; eauto end.
  - destruct tA, tB; (mul x y; [simpl; congruence|]); apply acc_lr_ok; auto;
      unfold lr_wf, lr_make, lr_mid, lr_left; cbn [l_U l_S l_V l_r l_c]; simpl in *; try congruence;
      (split; [congruence|]; split; [congruence|]; split; congruence).
  - destruct tA, tB; (mul x y; [simpl; congruence|]); (mul x y; [simpl; congruence|]); (mul x y; [simpl; congruence|]);
      (mul x y; [simpl; congruence|]);
      match goal with |- context[dd_gemm ?x ?y ?z ?al ?be ?ta ?tb] =>
        destruct (dd_gemm_ok x y z al be ta tb) as [d Hd]; try (simpl in *; congruence); rewrite Hd; simpl; eauto end.
  - unfold lr_lr_mid. destruct tA, tB; (mul x y; [simpl; congruence|]); (mul x y; [simpl; congruence|]); (mul x y; [simpl; congruence|]);
      apply acc_lr_ok; auto;
      unfold lr_wf, lr_make, lr_left, lr_right; cbn [l_U l_S l_V l_r l_c]; simpl in *; try congruence;
      (split; [congruence|]; split; [congruence|]; split; congruence).
Qed.

Lemma trmm_flat_ok (t : dense) (C : matrix) u tr un alpha : flat C -> wf C -> d_r t = d_c t -> d_r t = nrows C ->
  exists X, trmm Or 1 false 1 (MD t) C SLeft u tr un alpha = Ok X.
Proof.
  intros FC WC E1 E2. cbn [trmm]. unfold d_trmm.
  destruct C as [c|c|? ? ?|? ?]; try destruct FC; cbn [nrows] in E2.
  - rewrite (proj2 (Nat.eqb_eq _ _) E1). cbn [along]. rewrite (proj2 (Nat.eqb_eq _ _) E2). simpl. eauto.
  - rewrite (proj2 (Nat.eqb_eq _ _) E1). cbn [along side_factor]. rewrite (proj2 (Nat.eqb_eq _ _) E2).
    destruct WC as [W1 _]. rewrite W1. rewrite (proj2 (Nat.eqb_eq _ _) E2). simpl. eauto.
Qed.

Hypothesis HO : oracles_near exact Or.

Lemma tpm_finish_succ (V A B C : matrix) (t : dense) tr :
  wf V -> wf A -> wf B -> wf C -> flat V -> flat A -> flat B -> flat C ->
  nrows V = nrows B -> d_r t = ncols V -> d_c t = ncols V -> nrows A = ncols V -> ncols A = ncols B ->
  nrows C = ncols V -> ncols C = ncols B ->
  exists x, tpm_finish Or V (MD t) A B C tr = Ok x.
Proof.
  intros WV WA WB WC FV FA FB FC E1 E2 E3 E4 E5 E6 E7. unfold tpm_finish.
  destruct (trmm_flat_ok t C Upper tr false 1%r FC WC) as [X HX]; try congruence. rewrite HX. simpl bind.
  apply (trmm_exact Or 1 HO) in HX; auto; [|apply andb_false_r|exact I|simpl; congruence|simpl; congruence].
  destruct HX as [WX [LX _]]. destruct (layout_dims_flat _ _ FC LX) as [X1 X2]. assert (FX := flat_layout _ _ LX FC).
  destruct (gemm_flat_ok (MD (eye (nrows X))) X A (- (1))%r 1%r false false) as [A' HA]; auto; try exact I;
    try (unfold opr, opc; simpl; congruence).
  rewrite HA. simpl bind.
  destruct (gemm_flat_ok V X B (- (1))%r 1%r false false) as [B' HB]; auto; try (unfold opr, opc; simpl; congruence).
  rewrite HB. simpl. eauto.
Qed.

(** n = ncols V is at most the height of A, and equal to it unless V, A and B are all
    Dense. *)
Lemma tpmqrt_succ (V A B : matrix) (t : dense) tr :
  wf V -> wf A -> wf B -> flat V -> flat A -> flat B ->
  nrows V = nrows B -> d_r t = ncols V -> d_c t = ncols V -> nrows A = ncols V -> ncols A = ncols B ->
  exists x, tpmqrt Or V (MD t) A B tr = Ok x.
Proof.
  intros WV WA WB FV FA FB E1 E2 E3 E4 E5.
  assert (Via : no_empty V -> exists x,
    (let* Vt := transpose V in
     let* C := gemm Or 1 Vt B A 1%r 1%r false false in
     tpm_finish Or V (MD t) A B C tr) = Ok x).
  { intros NV. destruct (transpose_spec V WV NV) as [Vt [HV [W1 [_ [D1 [D2 _]]]]]]. rewrite HV. simpl bind.
    assert (F1 : flat Vt) by (destruct V; simpl in HV; inversion HV; try exact I; destruct FV).
    destruct (gemm_flat_ok Vt B A 1%r 1%r false false) as [C HC]; auto; try (unfold opr, opc; congruence).
    rewrite HC. simpl bind.
    apply (gemm_exact Or HO) in HC; auto; [|apply trans_ok_notrans]. destruct HC as [WC [LC _]].
    destruct (layout_dims_flat _ _ FA LC) as [Y1 Y2]. assert (FC := flat_layout _ _ LC FA).
    apply tpm_finish_succ; auto; congruence. }
  destruct V as [v|v|? ? ?|? ?]; try destruct FV; destruct A as [a|a|? ? ?|? ?]; try destruct FA;
    destruct B as [b|b|? ? ?|? ?]; try destruct FB; try (apply Via; exact I); cbn [nrows ncols] in E1, E2, E3, E4, E5.
  - unfold tpmqrt, dtprfb. rewrite E3.
    replace (_ && _) with true; [simpl; eauto|]. symmetry.
    repeat (apply andb_true_intro; split); apply Nat.leb_le; lia.
  - unfold tpmqrt. destruct (densify_spec (ML a) WA) as [c [Hc [D1 [D2 _]]]]. rewrite Hc. simpl bind.
    cbn [nrows ncols] in D1, D2.
    destruct (gemm_flat_ok (MD v) (MD b) (MD c) 1%r 1%r true false) as [C HC]; auto; try exact I;
      try (unfold opr, opc; simpl; congruence).
    rewrite HC. simpl bind.
    apply (gemm_exact Or HO) in HC; auto; try exact I. destruct HC as [WC [LC _]].
    destruct (layout_dims_flat (MD c) C I LC) as [Y1 Y2]. assert (FC := flat_layout (MD c) C LC I).
    cbn [nrows ncols] in Y1, Y2. apply tpm_finish_succ; auto; try exact I; simpl; congruence.
Qed.

Lemma larfb_succ (v t : dense) (C : matrix) tr : flat C -> wf C -> nrows C <= d_r v -> d_c t <= d_c v ->
  d_c t <= d_r t -> d_c t <= nrows C -> exists C', larfb (MD v) (MD t) C tr = Ok C'.
Proof.
  intros FC WC L1 L2 L3 L4. unfold larfb, dlarfb. destruct C as [c|c|? ? ?|? ?]; try destruct FC; cbn [nrows] in L1, L4.
  - replace (_ && _) with true; [simpl; eauto|]. symmetry.
    repeat (apply andb_true_intro; split); apply Nat.leb_le; lia.
  - destruct WC as [W1 _]. rewrite W1. replace (_ && _) with true; [simpl; eauto|]. symmetry.
    repeat (apply andb_true_intro; split); apply Nat.leb_le; lia.
Qed.
End Success.

(** Low-rank arithmetic that is exact, never fails and keeps the left basis orthonormal. *)
Section Left.
Context {R : cring}.
Add Ring Rl : (cr_th R).
Notation dense := (dense R).
Notation lowrank := (lowrank R).

Definition lr_left_of (d : dense) : lowrank := lr_make (eye (d_r d)) (eye (d_r d)) d.
Definition left_oracles : oracles R := {|
  crank := fun d _ => Ok (lr_left_of d);
  ceps := fun d _ => Ok (lr_left_of d);
  lr_add := fun a b => Ok (lr_left_of (Dn (l_r a) (l_c a) (madd (lr_ent a) (lr_ent b))))
|}.

Lemma lr_left_of_ent (d : dense) : feq (d_r d) (d_c d) (lr_ent (lr_left_of d)) (d_e d).
Proof.
  intros i j Hi Hj. unfold lr_ent, lr_left_of, lr_make, eye. cbn [l_U l_S l_V d_c d_e].
  rewrite mmul_id_l by auto. apply mmul_id_l; auto.
Qed.
Lemma lr_left_of_wf (d : dense) : lr_wf (lr_left_of d).
Proof. repeat split. Qed.
Lemma left_oracles_near : oracles_near exact left_oracles.
Proof.
  split.
  - intros a b c Wa Wb E1 E2 E. inversion E; subst c. split; [apply lr_left_of_wf|].
    split; auto. split; auto. match goal with |- context[lr_left_of ?d] => exact (lr_left_of_ent d) end.
  - intros d r c E. inversion E; subst c. split; [apply lr_left_of_wf|].
    split; auto. split; auto. match goal with |- context[lr_left_of ?d] => exact (lr_left_of_ent d) end.
  - intros d r c E. inversion E; subst c. split; [apply lr_left_of_wf|].
    split; auto. split; auto. match goal with |- context[lr_left_of ?d] => exact (lr_left_of_ent d) end.
Qed.
Lemma left_oracles_total : oracles_total left_oracles.
Proof. split; intros; simpl; eauto. Qed.
Lemma left_oracles_orthU : keeps_orthU left_oracles.
Proof.
  intros a b c _ _ _ _ E _. inversion E; subst c. split; [reflexivity|].
  unfold orth_cols. cbn. intros i j Hi Hj. rewrite mmul_id_r by auto. unfold mtr, mid. rewrite Nat.eqb_sym. reflexivity.
Qed.
End Left.
