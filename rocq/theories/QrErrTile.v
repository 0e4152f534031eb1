(** Reflectors applied to tiles with low-rank arithmetic that truncates: how far the result is
    from the exact product. *)
From Coq Require Import List Arith ZArith QArith Lia Bool Reals Lra Ring_theory Ring.
From Verif Require Import Prelude Ring MatFun MatSetoid Matrix MatOps MatSpec MatOpsProofs Lapack Gemm GemmSpec GemmProofs
  GemmCorrect GemmTheorems Triangular TriAlgebra TriSpec TriProofs TriTheorems Reflect ReflectSpec ReflectProofs ReflectTile ReflectSuccess
  QrBig QrTiled QrStep QrApply QrTheorems RealQr SvdRank Householder HouseQr HouseReal Rrqr RrqrRank EckartYoung FroNorm.
Import ListNotations.
Local Open Scope nat_scope.

Section Flat.
Context {R : cring}.
Add Ring Rr : (cr_th R).
Notation dense := (dense R).
Notation lowrank := (lowrank R).
Notation matrix := (matrix R).
Notation mat := (mat R).

Definition both_dense (A B : matrix) : Prop := match A, B with MD _, MD _ => True | _, _ => False end.

(** A product with a LowRank factor is added to C as a LowRank that is exact. *)
Lemma gemm_factor (A B : matrix) (c : lowrank) alpha beta tA tB : flat A -> flat B -> ~ both_dense A B -> wf A -> wf B -> lr_wf c ->
  opr tA A = l_r c -> opc tA A = opr tB B -> opc tB B = l_c c ->
  exists x, lr_wf x /\ l_r x = l_r c /\ l_c x = l_c c /\
    feq (l_r c) (l_c c) (lr_ent x) (mscale alpha (mmul (opc tA A) (mop tA (ent A)) (mop tB (ent B)))) /\
    forall Or, gemm Or 1 A B (ML c) alpha beta tA tB = acc_lr Or c beta x.
Proof.
  intros FA FB ND WA WB WC E1 E2 E3.
  assert (K : exists x, lr_wf x /\ l_r x = l_r c /\ l_c x = l_c c /\
    forall Or, gemm Or 1 A B (ML c) alpha beta tA tB = acc_lr Or c beta x).
  { assert (G : forall Or, gemm Or 1 A B (ML c) alpha beta tA tB = gemm_step Or (gemm Or 0) (gemm_new Or 0) A B (ML c) alpha beta tA tB) by reflexivity.
    destruct A as [a|a|? ? ?|? ?]; try destruct FA; destruct B as [b|b|? ? ?|? ?]; try destruct FB.
    - exfalso. apply ND. exact I.
    - destruct WB as [W1 [W2 [W3 W4]]].
      destruct (dd_mul_ok a (if tB then l_V b else l_U b) alpha tA tB) as [u Hu].
      { unfold opr, opc in E2. cbn [nrows ncols] in E2. destruct tA, tB; congruence. }
      destruct (dd_mul_inv _ _ _ _ _ _ Hu) as [U1 [U2 [U3 _]]].
      exists (lr_make u (lr_mid tB b) (lr_right tB b)).
      unfold opr, opc in *. cbn [nrows ncols] in *. unfold lr_wf, lr_make, lr_mid, lr_right. cbn [l_U l_S l_V l_r l_c].
      split; [|split; [|split]].
      + destruct tB; simpl; simpl in U2, U3; split; auto; split; try congruence; split; congruence.
      + destruct tA; congruence.
      + destruct tB; simpl; congruence.
      + intros Or. rewrite G. unfold gemm_step. unfold opr, opc. cbn [nrows ncols].
        rewrite (proj2 (Nat.eqb_eq _ _) E1), (proj2 (Nat.eqb_eq _ _) E2), (proj2 (Nat.eqb_eq _ _) E3). rewrite Hu. reflexivity.
    - destruct WA as [W1 [W2 [W3 W4]]].
      destruct (dd_mul_ok (if tA then l_U a else l_V a) b alpha tA tB) as [u Hu].
      { unfold opr, opc in E2. cbn [nrows ncols] in E2. destruct tA, tB; congruence. }
      destruct (dd_mul_inv _ _ _ _ _ _ Hu) as [U1 [U2 [U3 _]]].
      exists (lr_make (lr_left tA a) (lr_mid tA a) u).
      unfold opr, opc in *. cbn [nrows ncols] in *. unfold lr_wf, lr_make, lr_mid, lr_left. cbn [l_U l_S l_V l_r l_c].
      split; [|split; [|split]].
      + destruct tA; simpl; simpl in U2, U3; split; auto; split; try congruence; split; congruence.
      + destruct tA; simpl; congruence.
      + destruct tB; congruence.
      + intros Or. rewrite G. unfold gemm_step. unfold opr, opc. cbn [nrows ncols].
        rewrite (proj2 (Nat.eqb_eq _ _) E1), (proj2 (Nat.eqb_eq _ _) E2), (proj2 (Nat.eqb_eq _ _) E3). rewrite Hu. reflexivity.
    - destruct WA as [W1 [W2 [W3 W4]]]. destruct WB as [X1 [X2 [X3 X4]]].
      unfold opr, opc in *. cbn [nrows ncols] in *.
      assert (S0 : exists s, lr_lr_mid a b alpha tA tB = Ok s /\ d_r s = (if tA then d_c (l_S a) else d_r (l_S a)) /\ d_c s = (if tB then d_r (l_S b) else d_c (l_S b))).
      { unfold lr_lr_mid.
        destruct (dd_mul_ok (l_S a) (if tA then l_U a else l_V a) 1%r tA tA) as [x Hx]; [destruct tA; congruence|].
        destruct (dd_mul_ok (if tB then l_V b else l_U b) (l_S b) 1%r tB tB) as [y Hy]; [destruct tB; congruence|].
        destruct (dd_mul_inv _ _ _ _ _ _ Hx) as [_ [P2 [P3 _]]]. destruct (dd_mul_inv _ _ _ _ _ _ Hy) as [_ [Q2 [Q3 _]]].
        rewrite Hx, Hy. cbn [bind].
        destruct (dd_mul_ok x y alpha false false) as [s Hs]; [destruct tA, tB; congruence|].
        destruct (dd_mul_inv _ _ _ _ _ _ Hs) as [_ [S2 [S3 _]]]. exists s. split; auto. split; destruct tA, tB; congruence. }
      destruct S0 as [s [Hs [S1 S2]]].
      exists (lr_make (lr_left tA a) s (lr_right tB b)).
      unfold lr_wf, lr_make, lr_left, lr_right. cbn [l_U l_S l_V l_r l_c].
      split; [|split; [|split]].
      + destruct tA, tB; simpl; split; auto; split; try congruence; split; congruence.
      + destruct tA; simpl; congruence.
      + destruct tB; simpl; congruence.
      + intros Or. rewrite G. unfold gemm_step. unfold opr, opc. cbn [nrows ncols].
        rewrite (proj2 (Nat.eqb_eq _ _) E1), (proj2 (Nat.eqb_eq _ _) E2), (proj2 (Nat.eqb_eq _ _) E3). rewrite Hs. reflexivity. }
  destruct K as [x [WX [D1 [D2 K]]]]. exists x. split; auto. split; auto. split; auto. split; auto.
  destruct (acc_lr_ok left_oracles (proj1 (proj2 left_oracles_good)) c x beta WC WX (eq_sym D1) (eq_sym D2)) as [C' HC].
  pose proof HC as HG. rewrite <- K in HG.
  assert (NE : oracles_near exact (@left_oracles R)) by apply left_oracles_near.
  apply (gemm_exact left_oracles NE) in HG; auto; [|destruct A, B; simpl in *; tauto].
  destruct HG as [_ [_ V]]. cbn [nrows ncols ent] in V.
  destruct (acc_lr_spec exact left_oracles NE c x beta C' WC WX HC) as [_ [_ [_ [_ RL]]]].
  destruct RL as [RL _]. cbn [nrows ncols near exact] in RL.
  intros i j Hi Hj. pose proof (V i j Hi Hj) as V'. rewrite (RL i j Hi Hj) in V'. unfold gemm_value, madd in V'.
  match goal with |- ?x = ?y => assert (E : (mscale beta (lr_ent c) i j + x)%r = (mscale beta (lr_ent c) i j + y)%r) by exact V' end.
  match type of E with (?a + ?x)%r = (?a + ?y)%r => replace x with (- a + (a + x))%r by ring; rewrite E; ring end.
Qed.

(** A Dense result does not depend on the low-rank arithmetic. *)
Lemma gemm_into_dense (Or : oracles R) (A B : matrix) (c : dense) alpha beta tA tB : flat A -> flat B ->
  gemm Or 1 A B (MD c) alpha beta tA tB = gemm left_oracles 1 A B (MD c) alpha beta tA tB.
Proof.
  intros FA FB. destruct A as [a|a|? ? ?|? ?]; try destruct FA; destruct B as [b|b|? ? ?|? ?]; try destruct FB; reflexivity.
Qed.

Lemma trmm_flat (Or : oracles R) (t : dense) (C : matrix) u tr un alpha : flat C ->
  trmm Or 1 false 1 (MD t) C SLeft u tr un alpha = trmm left_oracles 1 false 1 (MD t) C SLeft u tr un alpha.
Proof. intros FC. destruct C as [c|c|? ? ?|? ?]; try destruct FC; reflexivity. Qed.
End Flat.

Local Open Scope R_scope.

(** ** Real matrices *)

(** The tiles of a factorization: LowRank with accuracy e and orthonormal left bases. *)
Definition good (e : Q) (A : matrix Rring) : Prop :=
  match A with
  | MD _ => True
  | ML l => l_eps l = e /\ (0 < l_r l)%nat /\ (0 < l_c l)%nat /\ (0 < d_c (l_S l))%nat /\ orthU (ML l)
  | _ => False
  end.
Lemma good_flat e A : good e A -> flat A.
Proof. destruct A; simpl; tauto. Qed.
Lemma good_orthU e A : good e A -> orthU A.
Proof. destruct A; simpl; tauto. Qed.

(** Low-rank arithmetic of relative accuracy u: additions to a LowRank of accuracy e, and
    compressions of a Dense with sides up to nb, which may add tau. *)
Record accurate (e : Q) (u tau : R) (nb : nat) (Or : oracles Rring) : Prop := {
  ac_shape : oracles_shape Or;
  ac_add : forall a b c, lr_wf a -> lr_wf b -> l_r a = l_r b -> l_c a = l_c b -> good e (ML a) -> lr_add Or a b = Ok c ->
    good e (ML c) /\
    fro (l_r a) (l_c a) (msub (R := Rring) (lr_ent c) (madd (R := Rring) (lr_ent a) (lr_ent b)))
      <= u * fro (l_r a) (l_c a) (madd (R := Rring) (lr_ent a) (lr_ent b));
  ac_eps : forall d c, (d_r d <= nb)%nat -> (d_c d <= nb)%nat -> ceps Or d e = Ok c ->
    fro (d_r d) (d_c d) (msub (R := Rring) (lr_ent c) (d_e d)) <= u * fro (d_r d) (d_c d) (d_e d) + tau
}.

Section Err.
Notation dense := (dense Rring).
Notation lowrank := (lowrank Rring).
Notation matrix := (matrix Rring).
Notation mat := (mat Rring).
Notation madd := (madd (R := Rring)).
Notation msub := (msub (R := Rring)).
Notation mmul := (mmul (R := Rring)).
Notation feq := (feq (R := Rring)).
Variables (e : Q) (u tau : R) (nb : nat).
Hypothesis He : Qeq_bool e 0 = false.
Hypothesis Hu : 0 <= u <= 1.
Hypothesis Htau : 0 <= tau.
Variable Or : oracles Rring.
Hypothesis HA : accurate e u tau nb Or.

Lemma fro_feq_sub r c (a b a' b' : mat) : feq r c a a' -> feq r c b b' -> fro r c (msub a b) = fro r c (msub a' b').
Proof. intros H1 H2. apply fro_ext. apply (feq_sub (R := Rring)); auto. Qed.

Lemma fro_sub0 r c (a b : mat) : feq r c a b -> fro r c (msub a b) = 0.
Proof.
  intros H. rewrite <- (fro_zero r c). apply fro_ext. intros i j Hi Hj. unfold MatFun.msub. rewrite (H i j Hi Hj). unfold mzero. rr.
Qed.

Lemma good_scale1 l : good e (ML l) -> good e (ML (lr_scale l 1)).
Proof. intros [H1 [H2 [H3 [H4 H5]]]]. simpl. repeat (split; auto); apply H5. Qed.

(** One addition to a LowRank C. *)
Lemma acc_err (c x : lowrank) (C' : matrix) : lr_wf c -> lr_wf x -> l_r x = l_r c -> l_c x = l_c c -> good e (ML c) ->
  acc_lr Or c (1%r : car Rring) x = Ok C' ->
  wf C' /\ same_layout (ML c) C' /\ good e C' /\
  fro (l_r c) (l_c c) (msub (ent C') (madd (lr_ent c) (lr_ent x))) <= u * fro (l_r c) (l_c c) (madd (lr_ent c) (lr_ent x)).
Proof.
  intros WC WX D1 D2 G H. unfold acc_lr in H. apply bind_Ok in H. destruct H as [c' [Hc H]]. inversion H; subst C'; clear H.
  unfold lr_acc in Hc. apply assert_Ok in Hc. destruct Hc as [_ Hc]. apply assert_Ok in Hc. destruct Hc as [_ Hc].
  destruct (lr_scale_spec (R := Rring) c (1%r : car Rring) WC) as [Ws Es].
  destruct (os_add _ (ac_shape _ _ _ _ _ HA) _ _ _ Ws WX ltac:(simpl; auto) ltac:(simpl; auto) Hc) as [W1 [W2 W3]]. cbn [lr_scale l_r l_c] in W2, W3.
  destruct (ac_add _ _ _ _ _ HA _ _ _ Ws WX ltac:(simpl; auto) ltac:(simpl; auto) (good_scale1 c G) Hc) as [G' B].
  cbn [lr_scale l_r l_c] in B.
  assert (E : feq (l_r c) (l_c c) (madd (lr_ent (lr_scale c (1%r : car Rring))) (lr_ent x)) (madd (lr_ent c) (lr_ent x))).
  { apply (feq_add (R := Rring)); [|apply (feq_refl (R := Rring))]. eapply feq_trans; [exact Es|]. intros i j _ _. unfold mscale. rr. }
  split; [exact W1|]. split; [simpl; auto|]. split; [exact G'|].
  cbn [ent]. rewrite <- (fro_ext _ _ _ _ E).
  rewrite <- (fro_feq_sub _ _ _ _ _ _ (feq_refl (R := Rring) _ _ (lr_ent c')) E). exact B.
Qed.

Definition prod (alpha : car Rring) (tA tB : bool) (A B : matrix) : mat := mscale (R := Rring) alpha (mmul (opc tA A) (mop tA (ent A)) (mop tB (ent B))).

Lemma gemm_err (A B C : matrix) alpha tA tB (C' : matrix) : flat A -> flat B -> good e C -> wf A -> wf B -> wf C ->
  (nrows C <= nb)%nat -> (ncols C <= nb)%nat ->
  gemm Or 1 A B C alpha (1%r : car Rring) tA tB = Ok C' ->
  let r := nrows C in let c := ncols C in
  let P := prod alpha tA tB A B in
  let X := madd (ent C) P in
  wf C' /\ same_layout C C' /\ good e C' /\
  (forall d, C = MD d -> feq r c (ent C') X) /\
  (~ both_dense A B -> fro r c (msub (ent C') X) <= u * fro r c X) /\
  (let d := u * fro r c P + tau in fro r c (msub (ent C') X) <= d + u * (fro r c X + d)).
Proof.
  intros FA FB GC WA WB WC N1 N2 H r c P X.
  assert (TO : trans_ok tA tB A B C) by (pose proof (good_flat _ _ GC); destruct A, B, C; simpl in *; tauto).
  pose proof H as HD. apply (gemm_dims Or (ac_shape _ _ _ _ _ HA)) in HD; auto.
  destruct HD as [D1 [D2 [D3 _]]].
  assert (P0 : forall x y z : R, 0 <= x -> 0 <= y -> z <= u * y -> z <= (u * x + tau) + u * (y + (u * x + tau))).
  { intros x y z Px Py Hz. assert (0 <= u * x) by (apply Rmult_le_pos; lra).
    assert (0 <= u * (u * x + tau)) by (apply Rmult_le_pos; lra). lra. }
  destruct C as [d|cc|? ? ?|? ?]; try destruct GC.
  - rewrite (gemm_into_dense Or A B d alpha _ tA tB FA FB) in H.
    apply (gemm_exact left_oracles left_oracles_near) in H; auto. destruct H as [W [L V]].
    assert (V' : feq r c (ent C') X).
    { intros i j Hi Hj. rewrite (V i j Hi Hj). unfold gemm_value, X, P, prod, MatFun.madd, mscale. rr. }
    split; auto. split; auto. split; [destruct C'; simpl in L; try contradiction; exact I|].
    assert (Z : fro r c (msub (ent C') X) <= u * fro r c X).
    { rewrite (fro_sub0 _ _ _ _ V'). apply Rmult_le_pos; [lra|apply fro_nonneg]. }
    split; [auto|]. split; [auto|]. apply P0; auto; apply fro_nonneg.
  - assert (GC : good e (ML cc)) by (simpl; tauto).
    destruct (match A, B with MD _, MD _ => true | _, _ => false end) eqn:BD.
    + destruct A as [a|?|? ? ?|? ?]; try discriminate. destruct B as [b|?|? ? ?|? ?]; try discriminate.
      unfold gemm in H. cbn [gemm_pair fst] in H. unfold gemm_step in H.
      apply assert_Ok in H. destruct H as [_ H]. apply assert_Ok in H. destruct H as [_ H]. apply assert_Ok in H. destruct H as [_ H].
      apply bind_Ok in H. destruct H as [ab [Hab H]]. apply bind_Ok in H. destruct H as [x [Hx H]].
      destruct GC as [G1 G2]. assert (UE : use_eps cc = true) by (unfold use_eps; rewrite G1, He; reflexivity).
      unfold compress_like in Hx. rewrite UE, G1 in Hx.
      destruct (dd_mul_inv (R := Rring) _ _ _ _ _ _ Hab) as [_ [A1 [A2 A3]]].
      unfold opr, opc in D1, D2, D3. cbn [nrows ncols] in D1, D2, D3, N1, N2.
      assert (R1 : d_r ab = l_r cc) by (rewrite A1; exact D1). assert (R2 : d_c ab = l_c cc) by (rewrite A2; exact D3).
      destruct (os_eps _ (ac_shape _ _ _ _ _ HA) _ _ _ Hx) as [X1 [X2 X3]].
      pose proof (ac_eps _ _ _ _ _ HA ab x ltac:(rewrite R1; auto) ltac:(rewrite R2; auto) Hx) as BX. rewrite R1, R2 in BX.
      destruct (acc_err cc x C' WC X1 ltac:(congruence) ltac:(congruence) ltac:(simpl; auto) H) as [W [L [G B]]].
      split; auto. split; auto. split; auto. split; [intros d E; discriminate|]. split; [intros ND; exfalso; apply ND; exact I|].
      assert (EP : feq (l_r cc) (l_c cc) (d_e ab) P).
      { intros i j Hi Hj. rewrite A3. unfold P, prod, opc. cbn [ent ncols nrows]. try reflexivity. }
      assert (EB : fro (l_r cc) (l_c cc) (msub (lr_ent x) P) <= u * fro (l_r cc) (l_c cc) P + tau).
      { rewrite <- (fro_ext _ _ _ _ EP). rewrite <- (fro_feq_sub _ _ _ _ _ _ (feq_refl (R := Rring) _ _ (lr_ent x)) EP). exact BX. }
      cbv zeta. unfold r, c. cbn [nrows ncols]. set (dd := u * fro (l_r cc) (l_c cc) P + tau) in *.
      assert (EX : fro (l_r cc) (l_c cc) (msub (madd (lr_ent cc) (lr_ent x)) X) = fro (l_r cc) (l_c cc) (msub (lr_ent x) P)).
      { apply fro_ext. intros i j _ _. unfold X, MatFun.msub, MatFun.madd. cbn [ent]. rr. }
      pose proof (fro_via (l_r cc) (l_c cc) (ent C') (madd (lr_ent cc) (lr_ent x)) X) as T1.
      pose proof (fro_dist (l_r cc) (l_c cc) (madd (lr_ent cc) (lr_ent x)) X) as T2.
      rewrite EX in T1, T2.
      assert (u * fro (l_r cc) (l_c cc) (madd (lr_ent cc) (lr_ent x)) <= u * (fro (l_r cc) (l_c cc) X + dd)) by (apply Rmult_le_compat_l; lra).
      lra.
    + assert (ND : ~ both_dense A B) by (destruct A, B; simpl; try tauto; discriminate).
      destruct (gemm_factor A B cc alpha (1%r : car Rring) tA tB FA FB ND WA WB WC D1 D2 D3) as [x [WX [X1 [X2 [EX EG]]]]].
      rewrite EG in H. destruct (acc_err cc x C' WC WX X1 X2 GC H) as [W [L [G BB]]].
      assert (E : feq (l_r cc) (l_c cc) (madd (lr_ent cc) (lr_ent x)) X).
      { unfold X. cbn [ent]. apply (feq_add (R := Rring)); [apply (feq_refl (R := Rring))|exact EX]. }
      rewrite (fro_ext _ _ _ _ E), (fro_feq_sub _ _ _ _ _ _ (feq_refl (R := Rring) _ _ (ent C')) E) in BB.
      split; auto. split; auto. split; auto. split; [intros d Ed; discriminate|]. split; [auto|].
      apply P0; auto; apply fro_nonneg.
Qed.

Definition is_dense (A : matrix) : Prop := exists d, A = MD d.

(** The reflector with a perturbed sum A + V^T B: what goes wrong is bounded by the
    perturbation, whatever the factor T is. *)
Lemma pair_perturbed n m c (V T a b w d : mat) : orthogonal (R := Rring) (n + m) (refl (R := Rring) n (vst (R := Rring) n mid V) T) ->
  feq n c w (mmul n T (madd (madd a (mmul m (mtr V) b)) d)) ->
  fro (n + m) c (msub (vst (R := Rring) n (msub a w) (msub b (mmul n V w)))
                      (mmul (n + m) (refl (R := Rring) n (vst (R := Rring) n mid V) T) (vst (R := Rring) n a b))) <= 2 * fro n c d.
Proof.
  intros HO HW. set (H := refl (R := Rring) n (vst (R := Rring) n mid V) T) in *.
  assert (HW' : feq n c w (mmul n T (madd (madd a d) (mmul m (mtr V) b)))).
  { eapply feq_trans; [exact HW|]. apply (feq_mmul (R := Rring)); [apply (feq_refl (R := Rring))|].
    intros i j _ _. unfold MatFun.madd. rr. }
  pose proof (pair_apply (R := Rring) n m c V T (madd a d) b w HW') as PA. fold H in PA.
  set (D := vst (R := Rring) n d mzero).
  assert (E : feq (n + m) c (msub (vst (R := Rring) n (msub a w) (msub b (mmul n V w))) (mmul (n + m) H (vst (R := Rring) n a b)))
                  (msub (mmul (n + m) H D) D)).
  { assert (L : feq (n + m) c (mmul (n + m) H (vst (R := Rring) n (madd a d) b)) (madd (mmul (n + m) H (vst (R := Rring) n a b)) (mmul (n + m) H D))).
    { assert (L0 : meq (R := Rring) (mmul (n + m) H (madd (vst (R := Rring) n a b) D)) (madd (mmul (n + m) H (vst (R := Rring) n a b)) (mmul (n + m) H D)))
        by (intros i j; apply (mmul_add_r (R := Rring))).
      intros i j Hi Hj. rewrite <- (L0 i j). apply (mmul_ext (R := Rring)); [reflexivity|]. intros x _.
      unfold D, vst, MatFun.madd, mzero. destruct (x <? n); rr. }
    intros i j Hi Hj. pose proof (PA i j Hi Hj) as P1.
    assert (P2 : mmul (n + m) H (vst (R := Rring) n (madd a d) b) i j =
                 (mmul (n + m) H (vst (R := Rring) n a b) i j + mmul (n + m) H D i j)%r) by exact (L i j Hi Hj).
    rewrite P2 in P1.
    change ((vst (R := Rring) n (msub a w) (msub b (mmul n V w)) i j - mmul (n + m) H (vst (R := Rring) n a b) i j)%r =
            (mmul (n + m) H D i j - D i j)%r).
    assert (P3 : vst (R := Rring) n (msub (madd a d) w) (msub b (mmul n V w)) i j =
                 (vst (R := Rring) n (msub a w) (msub b (mmul n V w)) i j + D i j)%r).
    { unfold D, vst, MatFun.msub, MatFun.madd, mzero. destruct (i <? n); rr. }
    rewrite P3 in P1. revert P1. cbn. intros P1. lra. }
  rewrite (fro_ext _ _ _ _ E). eapply Rle_trans; [apply fro_sub|].
  pose proof (fro_orth (n + m) c H D false HO) as EO. cbn [mop] in EO. rewrite EO. unfold D. rewrite fro_vst_zero. lra.
Qed.

Lemma tpm_finish_err nu (V A B C : matrix) (t : dense) tr (A' B' : matrix) (E0 : mat) : 0 <= nu ->
  wf V -> wf A -> wf B -> wf C -> flat V -> flat C -> good e A -> good e B ->
  let n := ncols V in
  let m := nrows B in
  let c := ncols B in
  nrows V = m -> d_r t = n -> d_c t = n -> nrows A = n -> ncols A = c -> nrows C = n -> ncols C = c ->
  (n <= nb)%nat -> (m <= nb)%nat -> (c <= nb)%nat ->
  orthogonal (R := Rring) (n + m) (pair_refl (R := Rring) n (ent V) (d_e t)) ->
  let X := vst (R := Rring) n (ent A) (ent B) in
  feq n c (ent C) (madd (madd (ent A) (mmul m (mtr (ent V)) (ent B))) E0) ->
  fro n c E0 <= u * (1 + nu) * fro (n + m) c X ->
  (is_dense C -> fro n c E0 = 0 /\ (is_dense A \/ is_dense B)) ->
  tpm_finish Or V (MD t) A B C tr = Ok (A', B') ->
  wf A' /\ wf B' /\ same_layout A A' /\ same_layout B B' /\ good e A' /\ good e B' /\
  fro (n + m) c (msub (vst (R := Rring) n (ent A') (ent B'))
      (mmul (n + m) (mop tr (pair_refl (R := Rring) n (ent V) (d_e t))) X)) <= (8 + 6 * nu) * u * fro (n + m) c X + 2 * tau.
Proof.
  intros Hn WV WA WB WC FV FC GA GB n m c DV T1 T2 A1 A2 C1 C2 N1 N2 N3 HQ X HC B0 HD H.
  unfold tpm_finish in H. apply bind_Ok in H. destruct H as [W [HX H]].
  apply bind_Ok in H. destruct H as [A1' [HA' H]]. apply bind_Ok in H. destruct H as [B1' [HB' H]].
  inversion H; subst A1' B1'; clear H.
  rewrite (trmm_flat Or) in HX by auto.
  apply (trmm_exact left_oracles 1 left_oracles_near) in HX; auto; [|apply andb_false_r|exact I|simpl; congruence|simpl; congruence].
  destruct HX as [WW [LX EX]].
  destruct (layout_dims_flat _ _ FC LX) as [X1 X2]. assert (FW := flat_layout _ _ LX FC).
  set (T := mop tr (tri (R := Rring) Upper false (d_e t))).
  assert (EX' : feq n c (ent W) (mmul n T (madd (madd (ent A) (mmul m (mtr (ent V)) (ent B))) E0))).
  { rewrite C1, C2 in EX. eapply feq_trans; [exact EX|]. simpl nrows. rewrite T1. simpl ent.
    eapply feq_trans; [apply (feq_meq (R := Rring)); apply (meq_scale_1 (R := Rring))|]. unfold tri_prod. fold T.
    apply (feq_mmul (R := Rring)); [apply (feq_refl (R := Rring))|exact HC]. }
  assert (EQ : mop tr (pair_refl (R := Rring) n (ent V) (d_e t)) = mop tr (refl (R := Rring) n (vst (R := Rring) n mid (ent V)) (tri (R := Rring) Upper false (d_e t)))) by reflexivity.
  assert (EM : feq (n + m) (n + m) (mop tr (pair_refl (R := Rring) n (ent V) (d_e t))) (refl (R := Rring) n (vst (R := Rring) n mid (ent V)) T)).
  { apply (feq_meq (R := Rring)). unfold pair_refl. apply (refl_op (R := Rring)). }
  set (H := mop tr (pair_refl (R := Rring) n (ent V) (d_e t))) in *.
  assert (HO' : orthogonal (R := Rring) (n + m) (refl (R := Rring) n (vst (R := Rring) n mid (ent V)) T)).
  { eapply (orthogonal_feq (R := Rring)); [exact EM|]. unfold H. destruct tr; [apply (orthogonal_tr (R := Rring))|]; exact HQ. }
  pose proof (pair_perturbed n m c (ent V) T (ent A) (ent B) (ent W) E0 HO' EX') as PP.
  fold X in PP.
  set (Z := vst (R := Rring) n (msub (ent A) (ent W)) (msub (ent B) (mmul n (ent V) (ent W)))) in *.
  assert (PP' : fro (n + m) c (msub Z (mmul (n + m) H X)) <= 2 * fro n c E0).
  { erewrite fro_feq_sub; [exact PP|apply (feq_refl (R := Rring))|]. apply (feq_mmul (R := Rring)); [exact EM|apply (feq_refl (R := Rring))]. }
  assert (NH : fro (n + m) c (mmul (n + m) H X) = fro (n + m) c X) by (unfold H; apply fro_orth; exact HQ).
  set (x := fro (n + m) c X) in *. set (e0 := fro n c E0) in *.
  assert (P0 : 0 <= e0) by apply fro_nonneg. assert (Px : 0 <= x) by apply fro_nonneg.
  pose proof (fro_dist (n + m) c Z (mmul (n + m) H X)) as ZB. rewrite NH in ZB.
  pose proof (fro_vst_top n m c (msub (ent A) (ent W)) (msub (ent B) (mmul n (ent V) (ent W)))) as ZA. fold Z in ZA.
  pose proof (fro_vst_bot n m c (msub (ent A) (ent W)) (msub (ent B) (mmul n (ent V) (ent W)))) as ZC. fold Z in ZC.
  pose proof (fro_vst_top n m c (ent A) (ent B)) as XA. fold X x in XA.
  pose proof (fro_vst_bot n m c (ent A) (ent B)) as XB. fold X x in XB.
  set (za := fro n c (msub (ent A) (ent W))) in *. set (zb := fro m c (msub (ent B) (mmul n (ent V) (ent W)))) in *.
  apply gemm_err in HA'; auto; [|exact I|apply eye_wf|rewrite A1; auto|rewrite A2; auto].
  apply gemm_err in HB'; auto.
  cbv zeta in HA', HB'. rewrite A1, A2 in HA'. fold m c in HB'.
  destruct HA' as [WA' [LA [GA' [DA [NA SA]]]]]. destruct HB' as [WB' [LB [GB' [DB [NB SB]]]]].
  set (PA := prod (- (1))%r false false (MD (eye (nrows W))) W) in *.
  set (PB := prod (- (1))%r false false V W) in *.
  assert (EA : feq n c (madd (ent A) PA) (msub (ent A) (ent W))).
  { intros i j Hi Hj. unfold PA, prod, opc, MatFun.madd, mscale, MatFun.msub. cbn [mop ent ncols]. rewrite X1, C1.
    change (d_c (eye n)) with n.
    replace (mmul n (d_e (eye n)) (ent W) i j) with (ent W i j) by (symmetry; apply (mmul_id_l (R := Rring) n); auto). rr. }
  assert (EB : feq m c (madd (ent B) PB) (msub (ent B) (mmul n (ent V) (ent W)))).
  { intros i j Hi Hj. unfold PB, prod, opc, MatFun.madd, mscale, MatFun.msub. cbn [mop]. fold n. rr. }
  assert (BPA : fro n c PA <= x + za).
  { replace (fro n c PA) with (fro n c (msub (madd (ent A) PA) (ent A))) by (apply fro_ext; intros i j _ _; unfold MatFun.msub, MatFun.madd; rr).
    rewrite (fro_feq_sub _ _ _ _ _ _ EA (feq_refl (R := Rring) _ _ (ent A))). eapply Rle_trans; [apply fro_sub|]. fold za. lra. }
  assert (BPB : fro m c PB <= x + zb).
  { replace (fro m c PB) with (fro m c (msub (madd (ent B) PB) (ent B))) by (apply fro_ext; intros i j _ _; unfold MatFun.msub, MatFun.madd; rr).
    rewrite (fro_feq_sub _ _ _ _ _ _ EB (feq_refl (R := Rring) _ _ (ent B))). eapply Rle_trans; [apply fro_sub|]. fold zb. lra. }
  rewrite (fro_ext _ _ _ _ EA) in NA, SA. rewrite (fro_ext _ _ _ _ EB) in NB, SB. fold za in NA, SA. fold zb in NB, SB.
  rewrite (fro_feq_sub _ _ _ _ _ _ (feq_refl (R := Rring) _ _ (ent A')) EA) in NA, SA.
  rewrite (fro_feq_sub _ _ _ _ _ _ (feq_refl (R := Rring) _ _ (ent B')) EB) in NB, SB.
  set (ea := fro n c (msub (ent A') (msub (ent A) (ent W)))) in *.
  set (eb := fro m c (msub (ent B') (msub (ent B) (mmul n (ent V) (ent W))))) in *.
  assert (TT : fro (n + m) c (msub (vst (R := Rring) n (ent A') (ent B')) (mmul (n + m) H X)) <= ea + eb + 2 * e0).
  { eapply Rle_trans; [apply (fro_via _ _ _ Z)|].
    assert (fro (n + m) c (msub (vst (R := Rring) n (ent A') (ent B')) Z) <= ea + eb); [|lra].
    eapply Rle_trans; [|apply fro_vst_le]. right. apply fro_ext. intros i j _ _. unfold Z, vst, MatFun.msub. destruct (i <? n); reflexivity. }
  do 6 (split; [assumption|]).
  eapply Rle_trans; [exact TT|]. clear TT.
  assert (Pza : 0 <= za) by apply fro_nonneg. assert (Pzb : 0 <= zb) by apply fro_nonneg.
  assert (Pu : 0 <= u * x) by (apply Rmult_le_pos; lra).
  assert (Pn : 0 <= nu * u * x) by (apply Rmult_le_pos; [apply Rmult_le_pos|]; lra).
  destruct C as [dc|lc|? ? ?|? ?]; try destruct FC.
  - destruct (HD ltac:(eexists; reflexivity)) as [Z0 DD]. rewrite Z0 in *.
    assert (Ha : za <= x) by lra. assert (Hb : zb <= x) by lra.
    assert (Q1 : forall y z d f, 0 <= y -> y <= x + z -> 0 <= z <= x -> d = u * y + tau -> f <= d + u * (z + d) -> f <= 5 * (u * x) + 2 * tau).
    { intros y z d f Hy0 Hy Hz Hd Hf.
      assert (u * y <= u * (2 * x)) by (apply Rmult_le_compat_l; lra).
      assert (u * z <= u * x) by (apply Rmult_le_compat_l; lra).
      assert (0 <= u * y) by (apply Rmult_le_pos; lra).
      assert (u * d <= 1 * d) by (apply Rmult_le_compat_r; lra). lra. }
    assert (Ea : ea <= 5 * (u * x) + 2 * tau) by (apply (Q1 (fro n c PA) za _ _ ltac:(apply fro_nonneg) ltac:(lra) ltac:(lra) eq_refl SA)).
    assert (Eb : eb <= 5 * (u * x) + 2 * tau) by (apply (Q1 (fro m c PB) zb _ _ ltac:(apply fro_nonneg) ltac:(lra) ltac:(lra) eq_refl SB)).
    destruct DD as [[d Ed]|[d Ed]].
    + assert (ea = 0); [|lra]. unfold ea. apply fro_sub0. eapply feq_trans; [apply (DA d Ed)|exact EA].
    + assert (eb = 0); [|lra]. unfold eb. apply fro_sub0. eapply feq_trans; [apply (DB d Ed)|exact EB].
  - destruct W as [?|lw|? ? ?|? ?]; simpl in LX; try contradiction.
    assert (Ea : ea <= u * za) by (apply NA; simpl; tauto).
    assert (Eb : eb <= u * zb) by (apply NB; destruct V; simpl; tauto).
    assert (u * za <= u * (x + 2 * e0)) by (apply Rmult_le_compat_l; lra).
    assert (u * zb <= u * (x + 2 * e0)) by (apply Rmult_le_compat_l; lra).
    assert (u * e0 <= 1 * e0) by (apply Rmult_le_compat_r; lra). lra.
Qed.

Lemma tpmqrt_err nu (V A B T : matrix) tr (A' B' : matrix) : 0 <= nu ->
  wf V -> wf A -> wf B -> good e A -> good e B ->
  let n := ncols V in
  let m := nrows B in
  let c := ncols B in
  nrows V = m -> nrows T = n -> ncols T = n -> ncols A = c ->
  (n <= nb)%nat -> (m <= nb)%nat -> (c <= nb)%nat ->
  orthogonal (R := Rring) (n + m) (pair_refl (R := Rring) n (ent V) (ent T)) ->
  fro m n (ent V) <= nu ->
  tpmqrt Or V T A B tr = Ok (A', B') ->
  let X := vst (R := Rring) n (ent A) (ent B) in
  (n <= nrows A)%nat /\
  wf A' /\ wf B' /\ same_layout A A' /\ same_layout B B' /\ good e A' /\ good e B' /\
  fro (n + m) c (msub (vst (R := Rring) n (ent A') (ent B'))
      (mmul (n + m) (mop tr (pair_refl (R := Rring) n (ent V) (ent T))) X)) <= (8 + 6 * nu) * u * fro (n + m) c X + 2 * tau /\
  (forall i j, (n <= i)%nat -> (i < nrows A)%nat -> (j < ncols A)%nat -> ent A' i j = ent A i j).
Proof.
  intros Hn WV WA WB GA GB n m c DV T1 T2 A2 N1 N2 N3 HQ HV H X. unfold tpmqrt in H.
  assert (Px : 0 <= fro (n + m) c X) by apply fro_nonneg.
  assert (FA := good_flat _ _ GA). assert (FB := good_flat _ _ GB).
  assert (PB : fro n c (mmul m (mtr (ent V)) (ent B)) <= nu * fro (n + m) c X).
  { eapply Rle_trans; [apply fro_mul|]. apply Rmult_le_compat; try apply fro_nonneg.
    - unfold fro. rewrite <- (sumsq_tr (R := Rring)). exact HV.
    - apply (fro_vst_bot n m c (ent A) (ent B)). }
  assert (PA : fro n c (madd (ent A) (mmul m (mtr (ent V)) (ent B))) <= (1 + nu) * fro (n + m) c X).
  { eapply Rle_trans; [apply fro_triangle|]. pose proof (fro_vst_top n m c (ent A) (ent B)) as Q1. fold X in Q1. lra. }
  assert (PE : 0 <= u * (1 + nu) * fro (n + m) c X) by (apply Rmult_le_pos; [apply Rmult_le_pos|]; lra).
  assert (Via : forall t, T = MD t -> flat V -> no_empty V -> (is_dense A \/ ~ (is_dense V /\ is_dense B)) ->
    (let* Vt := transpose V in
     let* C := gemm Or 1 Vt B A (1%r : car Rring) (1%r : car Rring) false false in
     tpm_finish Or V T A B C tr) = Ok (A', B') ->
    (n <= nrows A)%nat /\
    wf A' /\ wf B' /\ same_layout A A' /\ same_layout B B' /\ good e A' /\ good e B' /\
    fro (n + m) c (msub (vst (R := Rring) n (ent A') (ent B'))
      (mmul (n + m) (mop tr (pair_refl (R := Rring) n (ent V) (ent T))) X)) <= (8 + 6 * nu) * u * fro (n + m) c X + 2 * tau /\
    (forall i j, (n <= i)%nat -> (i < nrows A)%nat -> (j < ncols A)%nat -> ent A' i j = ent A i j)).
  { clear H. intros t ET FV NV ND H. apply bind_Ok in H. destruct H as [Vt [HT H]].
    apply bind_Ok in H. destruct H as [C [HC H]].
    destruct (transpose_spec (R := Rring) V WV NV) as [Vt' [E [WT [NT [R1 [R2 RE]]]]]].
    assert (FVt : flat Vt /\ (is_dense Vt -> is_dense V)).
    { clear E. destruct V as [v|v|? ? ?|? ?]; simpl in HT; try destruct FV; inversion HT; subst Vt; split; try exact I; intros [d Hd]; [eexists; reflexivity|discriminate]. }
    destruct FVt as [FVt DVt].
    rewrite E in HT. inversion HT; subst Vt'; clear HT E.
    pose proof HC as HD. apply (gemm_dims Or (ac_shape _ _ _ _ _ HA)) in HD; auto; [|apply trans_ok_notrans].
    destruct HD as [D1 [D2 [D3 _]]]. unfold opr, opc in D1, D2, D3. rewrite R1 in D1. fold n in D1.
    apply gemm_err in HC; auto; try lia.
    cbv zeta in HC. rewrite <- D1, A2 in HC. destruct HC as [WC [LC [GC [DC [NC _]]]]].
    destruct (layout_dims_flat _ _ FA LC) as [Y1 Y2]. assert (FC := flat_layout _ _ LC FA).
    set (P := prod (1%r : car Rring) false false Vt B) in *.
    assert (EP : feq n c (madd (ent A) P) (madd (ent A) (mmul m (mtr (ent V)) (ent B)))).
    { apply (feq_add (R := Rring)); [apply (feq_refl (R := Rring))|]. unfold P, prod, opc. cbn [mop]. rewrite R2, DV. fold m.
      assert (E : feq n c (mmul m (ent Vt) (ent B)) (mmul m (mtr (ent V)) (ent B))).
      { apply (feq_mmul (R := Rring)); [|apply (feq_refl (R := Rring))]. rewrite <- DV. exact RE. }
      intros i j Hi Hj. unfold mscale. rewrite (E i j Hi Hj). rr. }
    set (E0 := msub (ent C) (madd (ent A) (mmul m (mtr (ent V)) (ent B)))).
    assert (B0 : fro n c E0 <= u * (1 + nu) * fro (n + m) c X /\ (is_dense C -> fro n c E0 = 0 /\ (is_dense A \/ is_dense B))).
    { destruct A as [a|a|? ? ?|? ?]; try destruct FA.
      - assert (Z : fro n c E0 = 0).
        { unfold E0. apply fro_sub0. eapply feq_trans; [apply (DC a eq_refl)|exact EP]. }
        rewrite Z. split; auto. intros _. split; auto. left. eexists; reflexivity.
      - split.
        + assert (NN : ~ both_dense Vt B).
          { destruct ND as [[d Ed]|ND]; [discriminate|]. intros BD. apply ND. destruct Vt; try destruct BD. destruct B; try destruct BD.
            split; [apply DVt|]; eexists; reflexivity. }
          specialize (NC NN). unfold E0. rewrite (fro_ext _ _ _ _ EP) in NC.
          rewrite (fro_feq_sub _ _ _ _ _ _ (feq_refl (R := Rring) _ _ (ent C)) EP) in NC.
          eapply Rle_trans; [exact NC|]. rewrite Rmult_assoc. apply Rmult_le_compat_l; [lra|exact PA].
        + intros [d Ed]. subst C. simpl in LC. contradiction. }
    destruct B0 as [B0 B1].
    subst T. apply (tpm_finish_err nu V A B C t tr A' B' E0) in H; auto; try (simpl in T1, T2; congruence); try (rewrite Y1; symmetry; exact D1); try congruence.
    - destruct H as [Z1 [Z2 [Z3 [Z4 [Z5 [Z6 Z7]]]]]]. split; [lia|]. do 6 (split; auto). split; auto. intros i j Hi Hi'. lia.
    - fold n m c. intros i j _ _. unfold E0, MatFun.madd, MatFun.msub. rr. }
  destruct T as [t|?|? ? ?|? ?]; try (destruct V as [?|?|? ? ?|? ?]; discriminate).
  destruct V as [v|v|? ? ?|? ?]; try discriminate; destruct A as [a|a|? ? ?|? ?]; try discriminate;
    destruct B as [b|b|? ? ?|? ?]; try discriminate;
    try (apply (Via t); auto; try exact I; [right; intros [[d1 E1] [d2 E2]]; discriminate]);
    try (apply (Via t); auto; try exact I; left; eexists; reflexivity).
  - apply bind_Ok in H. destruct H as [[x y] [Hx H]]. inversion H; subst A' B'; clear H.
    apply (dtprfb_ok (R := Rring)) in Hx; auto. simpl in T2. change (d_c v) with n in T2. cbv zeta in Hx. rewrite T2 in Hx.
    destruct Hx as [H1 [H2 [H3 [H4 [H5 [H6 H7]]]]]].
    split; [exact H1|]. split; [exact I|]. split; [exact I|]. split; [simpl; auto|]. split; [simpl; auto|].
    split; [exact I|]. split; [exact I|]. split; [|exact H7].
    rewrite fro_sub0; [|exact H6].
    assert (0 <= nu * u * fro (n + m) c X) by (apply Rmult_le_pos; [apply Rmult_le_pos|]; lra).
    assert (0 <= u * fro (n + m) c X) by (apply Rmult_le_pos; lra). lra.
  - apply bind_Ok in H. destruct H as [dc [HD H]]. apply bind_Ok in H. destruct H as [C [HC H]].
    destruct (densify_spec (R := Rring) (ML a) WA) as [dc' [E [E1 [E2 E3]]]]. rewrite E in HD. inversion HD; subst dc'; clear HD E.
    assert (TO : trans_ok true false (MD v) (MD b) (MD dc)) by (simpl; auto).
    pose proof HC as HD. apply (gemm_dims Or (ac_shape _ _ _ _ _ HA)) in HD; auto.
    destruct HD as [D1 [D2 [D3 _]]]. unfold opr, opc in D1, D2, D3.
    change (nrows (MD dc)) with (d_r dc) in *. change (ncols (MD dc)) with (d_c dc) in *.
    rewrite E1 in *. rewrite E2 in *. fold n in D1.
    apply gemm_err in HC; auto; try exact I; try (cbn [nrows ncols]; rewrite ?E1, ?E2; lia).
    cbv zeta in HC. change (nrows (MD dc)) with (d_r dc) in *. change (ncols (MD dc)) with (d_c dc) in *. rewrite E1, E2 in HC.
    destruct HC as [WC [LC [GC [DC _]]]].
    destruct (layout_dims_flat (MD dc) C I LC) as [Y1 Y2]. assert (FC := flat_layout (MD dc) C LC I).
    simpl in Y1, Y2.
    set (E0 := msub (ent C) (madd (ent (ML a)) (mmul m (mtr (ent (MD v))) (ent (MD b))))).
    assert (Z : fro n c E0 = 0).
    { unfold E0. apply fro_sub0. rewrite <- D1, A2 in DC. eapply feq_trans; [apply (DC dc eq_refl)|].
      rewrite <- D1, A2 in E3. unfold prod, opc. rewrite DV. fold m. intros i j Hi Hj.
      unfold MatFun.madd, mscale. cbn [ent mop]. rewrite (E3 i j Hi Hj). cbn [ent]. rr. }
    apply (tpm_finish_err nu (MD v) (ML a) (MD b) C t tr A' B' E0) in H; auto; try exact I; try (simpl in T1, T2; congruence);
      try (rewrite Y1, E1; symmetry; exact D1); try congruence; try lia.
    + destruct H as [Z1 [Z2 [Z3 [Z4 [Z5 [Z6 Z7]]]]]]. split; [rewrite <- D1; auto|]. do 6 (split; auto). split; auto.
      intros i j Hi Hi'. rewrite <- D1 in Hi'. lia.
    + fold n m c. intros i j _ _. unfold E0, MatFun.madd, MatFun.msub. rr.
    + fold n m c. rewrite Z. exact PE.
    + intros _. split; [exact Z|]. right. eexists; reflexivity.
Qed.
End Err.
