(** The tile kernels and the truncating low-rank arithmetic of the code are accurate in the
    sense of QrErrTile.v; and with LowRank tiles off the diagonal the tiled factorization
    always returns. *)
From Coq Require Import List Arith ZArith QArith Qreals Lia Bool Reals Lra String Ring_theory Ring.
From Verif Require Import Prelude Ring MatFun MatSetoid Matrix MatOps MatSpec MatOpsProofs Lapack LowRankAdd LowRankAddProofs Gemm GemmSpec GemmProofs
  GemmCorrect GemmTheorems Triangular TriAlgebra TriSpec TriProofs TriTheorems Reflect ReflectSpec ReflectProofs ReflectTile ReflectSuccess
  QrBig QrTiled QrStep QrApply QrTheorems QrSuccess RealQr SvdRank Householder HouseQr HouseReal TileKernels Rrqr RrqrRank RrqrLr EckartYoung
  RealAdd RealLapack Sampled FixedRank ConstructError Prop_RealAdd Prop_FixedRank FroNorm QrErrTile QrErrStep QrErrApply.
Import ListNotations.
Local Open Scope R_scope.

(** ** The vectors of dlarfg *)

Lemma dlarfg_tail m (x : nat -> R) : let '(y, _) := dlarfg (S m) x in rsum m (fun i => y (S i) * y (S i)) <= 1.
Proof.
  unfold dlarfg. destruct (Nat.leb_spec (S m) 1) as [L|L].
  { replace m with 0%nat by lia. cbn. lra. }
  set (s := tailsq (S m) x). assert (Es : s = rsum m (fun i => x (S i) * x (S i))) by (unfold s, tailsq; simpl; rewrite Nat.sub_0_r; reflexivity).
  pose proof (tailsq_pos (S m) x) as Ps. fold s in Ps. destruct (Req_EM_T s 0) as [Z|Z]; [rewrite <- Es; lra|].
  set (a := x 0%nat). set (b := if Rle_dec 0 a then - sqrt (a * a + s) else sqrt (a * a + s)).
  assert (Pa : 0 <= a * a) by (apply Rle_0_sqr). assert (Sq : 0 < sqrt (a * a + s)) by (apply sqrt_lt_R0; lra).
  assert (Bb : b * b = a * a + s).
  { pose proof (sqrt_sqrt (a * a + s) ltac:(lra)) as E. unfold b. destruct (Rle_dec 0 a); [|exact E].
    replace (- sqrt (a * a + s) * - sqrt (a * a + s)) with (sqrt (a * a + s) * sqrt (a * a + s)) by ring. exact E. }
  assert (Ab : a * b <= 0).
  { unfold b. destruct (Rle_dec 0 a) as [P|P]; [assert (0 <= a * sqrt (a * a + s)) by (apply Rmult_le_pos; lra)|assert (0 <= (- a) * sqrt (a * a + s)) by (apply Rmult_le_pos; lra)]; lra. }
  assert (D : s <= (a - b) * (a - b)) by nra.
  assert (D0 : a - b <> 0) by (intros E; rewrite E in D; lra).
  assert (E : rsum m (fun i => (if (S i =? 0)%nat then b else x (S i) / (a - b)) * (if (S i =? 0)%nat then b else x (S i) / (a - b))) = / ((a - b) * (a - b)) * s).
  { rewrite Es. rewrite <- (rsum_mul_l m (/ ((a - b) * (a - b))) (fun i => x (S i) * x (S i))). apply (sum_ext (R := Rring)). intros i _. cbn [Nat.eqb car Rring]. match goal with |- ?l = ?r => change (@eq R l r) end. field. exact D0. }
  rewrite E. assert (Pd : 0 < (a - b) * (a - b)) by (apply Rsqr_pos_lt; auto).
  apply (Rmult_le_reg_l ((a - b) * (a - b))); auto. rewrite <- Rmult_assoc, Rinv_r by lra. lra.
Qed.

Lemma tp_small m n k (st : mat Rring * mat Rring * (nat -> R)) : let '(_, B, _) := tp_loop (R := Rring) dlarfg m n k st in
  forall s, (s < k)%nat -> rsum m (fun i => B i s * B i s) <= 1.
Proof.
  induction k as [|k IH]; cbn [tp_loop].
  - destruct st as [[A B] t]. intros; lia.
  - destruct (tp_loop (R := Rring) dlarfg m n k st) as [[A B] t]. unfold tp_step.
    pose proof (dlarfg_tail m (fun i => if (i =? 0)%nat then A k k else B (i - 1)%nat k)) as DT.
    match goal with |- context[dlarfg (S m) ?f] => change (dlarfg (S m) f) with (dlarfg (S m) (fun i => if (i =? 0)%nat then A k k else B (i - 1)%nat k)) end.
    destruct (dlarfg (S m) (fun i => if (i =? 0)%nat then A k k else B (i - 1)%nat k)) as [y t0].
    intros s Hs. destruct (Nat.eqb_spec s k) as [->|Ns]; [exact DT|].
    destruct (Nat.ltb_spec k s); [lia|]. cbn [andb]. apply IH. lia.
Qed.

Lemma dlarfg_small : small_vectors (wy_qrt (R := Rring) dlarfg).
Proof.
  intros a b a' v t H _ _. cbn [wy_qrt tpqrt2] in H. unfold dtpqrt2 in H.
  pose proof (tp_small (d_r b) (d_c b) (d_c b) (d_e a, d_e b, fun _ => (0%r : car Rring))) as S.
  destruct (tp_loop _ _ _ _ _) as [[A B] tau]. inversion H; subst a' v t; clear H. cbn [d_e].
  unfold fro. apply sqrt_le_1_alt. rewrite (sumsq_tr (R := Rring)).
  change (rsum (d_c b) (fun j => rsum (d_r b) (fun i => B i j * B i j)) <= INR (d_c b)).
  revert S. generalize (d_c b) as n. induction n as [|n IH]; intros S; [cbn; lra|].
  rewrite S_INR. change (rsum n (fun j => rsum (d_r b) (fun i => B i j * B i j)) + rsum (d_r b) (fun i => B i n * B i n) <= INR n + 1).
  apply Rplus_le_compat; [apply IH; intros s Hs; apply S; lia|apply S; lia].
Qed.

(** ** The low-rank arithmetic *)

Lemma real_shape setting rn tol : setting <> "naive"%string -> oracles_shape (real_arith setting rn tol).
Proof.
  intros N. apply (ranked_shape real_lapack real_lapack_ok real_lapack_orth).
  - intros d r. eauto.
  - intros d e c H. destruct (lowrank_eps_any tol e d c H) as [W [E1 [E2 _]]]. auto.
  - destruct (String.eqb_spec setting "naive"); auto. contradiction.
Qed.

Lemma orth_dist_sq (a b c : rlowrank) : sqrt (add_err a b (lr_ent c)) =
  fro (l_r a) (l_c a) (msub (R := Rring) (lr_ent c) (madd (R := Rring) (lr_ent a) (lr_ent b))).
Proof. rewrite fro_swap. reflexivity. Qed.

(** Additions with an accuracy: they return, and the relative error is at most e. *)
Lemma real_add_good setting rn tol e : setting <> "naive"%string -> Qeq_bool e 0 = false -> 0 <= Q2R e ->
  forall a b : rlowrank, lr_wf a -> lr_wf b -> l_r a = l_r b -> l_c a = l_c b -> good e (ML a) ->
  exists c, lr_add (real_arith setting rn tol) a b = Ok c /\ good e (ML c) /\
    fro (l_r a) (l_c a) (msub (R := Rring) (lr_ent c) (madd (R := Rring) (lr_ent a) (lr_ent b)))
      <= Q2R e * fro (l_r a) (l_c a) (madd (R := Rring) (lr_ent a) (lr_ent b)).
Proof.
  intros NS He E0 a b WA WB Er Ec [G1 [G2 [G3 [G4 G5]]]].
  assert (UE : use_eps a = true) by (unfold use_eps; rewrite G1, He; reflexivity).
  destruct (rounded_real real_lapack real_lapack_ok real_lapack_orth real_lapack_sorted a b WA WB Er Ec) as
    [c [E [W [R1 [R2 [R3 [_ [R4 [R5 [_ [[[R6 R7] _] [_ R8]]]]]]]]]]]].
  { rewrite UE. unfold rounded_width. lia. }
  rewrite UE in R4. exists c. split; [|split].
  - cbn [real_arith lr_add]. unfold lr_addition. destruct (String.eqb_spec setting "naive"); [contradiction|].
    destruct (String.eqb setting "rounded_addition"); auto. unfold fast_rounded_addition. rewrite UE. exact E.
  - split; [congruence|]. split; [lia|]. split; [lia|]. split; [lia|]. split; [congruence|].
    destruct W as [_ [W2 _]]. rewrite W2, R6, R1. exact R5.
  - rewrite G1 in R8. specialize (R8 UE E0). rewrite orth_dist_sq in R8. exact R8.
Qed.

Lemma real_accurate setting rn tol e nb : setting <> "naive"%string -> Qeq_bool e 0 = false -> 0 <= Q2R e -> 0 <= tol -> (0 < nb)%nat ->
  accurate e (sqrt (INR nb) * Q2R e) (tol * INR nb) nb (real_arith setting rn tol).
Proof.
  intros NS He E0 T0 Hn. assert (N1 : 1 <= INR nb) by (replace 1 with (INR 1) by reflexivity; apply le_INR; lia).
  assert (S1 : 1 <= sqrt (INR nb)) by (rewrite <- sqrt_1; apply sqrt_le_1_alt; auto).
  split; [apply real_shape; auto| |].
  - intros a b c WA WB Er Ec G H. destruct (real_add_good setting rn tol e NS He E0 a b WA WB Er Ec G) as [c' [E [G' B]]].
    rewrite E in H. inversion H; subst c'. split; auto. eapply Rle_trans; [exact B|]. apply Rmult_le_compat_r; [apply fro_nonneg|].
    rewrite <- (Rmult_1_l (Q2R e)) at 1. apply Rmult_le_compat_r; auto.
  - intros d c D1 D2 H. cbn [real_arith ceps] in H. destruct (lowrank_eps_any tol e d c H) as [_ [_ [_ B]]].
    rewrite fro_swap. set (x := fro (d_r d) (d_c d) (d_e d)).
    assert (X0 : 0 <= x) by apply fro_nonneg. assert (Xs : x * x = sumsq (R := Rring) (d_r d) (d_c d) (d_e d)) by apply fro_sq.
    assert (Sn : sqrt (INR nb) * sqrt (INR nb) = INR nb) by (apply sqrt_sqrt; lra).
    assert (P1 : 0 <= sqrt (INR nb) * Q2R e * x + tol * INR nb).
    { apply Rplus_le_le_0_compat; [apply Rmult_le_pos; auto; apply Rmult_le_pos; lra|apply Rmult_le_pos; lra]. }
    unfold fro. rewrite <- (sqrt_Rsqr _ P1). apply sqrt_le_1_alt. eapply Rle_trans; [exact B|]. rewrite <- Xs. unfold Rsqr.
    assert (C1 : INR (d_c d) <= INR nb) by (apply le_INR; auto). assert (C2 : INR (d_r d) <= INR nb) by (apply le_INR; auto).
    pose proof (pos_INR (d_c d)) as C3. pose proof (pos_INR (d_r d)) as C4.
    assert (Pe : 0 <= Q2R e * Q2R e) by (apply Rmult_le_pos; auto).
    assert (Q1 : INR (d_c d) * (Q2R e * Q2R e) * (x * x) <= INR nb * (Q2R e * Q2R e) * (x * x)).
    { apply Rmult_le_compat_r; [apply Rmult_le_pos; auto|]. apply Rmult_le_compat_r; auto. }
    assert (Q2 : tol * tol * (INR (d_r d) * INR (d_c d)) <= tol * tol * (INR nb * INR nb)).
    { apply Rmult_le_compat_l; [apply Rmult_le_pos; auto|]. apply Rmult_le_compat; auto. }
    assert (Q3 : 0 <= (sqrt (INR nb) * Q2R e * x) * (tol * INR nb)) by (apply Rmult_le_pos; [apply Rmult_le_pos; auto; apply Rmult_le_pos; lra|apply Rmult_le_pos; lra]).
    replace ((sqrt (INR nb) * Q2R e * x + tol * INR nb) * (sqrt (INR nb) * Q2R e * x + tol * INR nb)) with
      ((sqrt (INR nb) * sqrt (INR nb)) * (Q2R e * Q2R e) * (x * x) + tol * tol * (INR nb * INR nb) + 2 * ((sqrt (INR nb) * Q2R e * x) * (tol * INR nb))) by ring.
    rewrite Sn. lra.
Qed.

(** The same additions without compression of Dense matrices. *)
Definition no_compression (Or : oracles Rring) : oracles Rring :=
  {| crank := fun _ _ => UB; ceps := fun _ _ => UB; lr_add := lr_add Or |}.

Lemma real_accurate_add setting rn tol e nb : setting <> "naive"%string -> Qeq_bool e 0 = false -> 0 <= Q2R e ->
  accurate e (Q2R e) 0 nb (no_compression (real_arith setting rn tol)).
Proof.
  intros NS He E0. destruct (real_shape setting rn tol NS) as [S1 _ _].
  split; [split; [exact S1|discriminate|discriminate]| |discriminate].
  intros a b c WA WB Er Ec G H. destruct (real_add_good setting rn tol e NS He E0 a b WA WB Er Ec G) as [c' [E [G' B]]].
  cbn [no_compression lr_add] in H. rewrite E in H. inversion H; subst c'. auto.
Qed.

(** A run without compression is a run. *)
Section Less.
Variable Or : oracles Rring.
Let Or0 := no_compression Or.
Notation matrix := (matrix Rring).
Notation grid := (grid Rring).
Definition le_out {A} (x y : outcome A) : Prop := forall r, x = Ok r -> y = Ok r.
Lemma le_refl {A} (x : outcome A) : le_out x x.
Proof. intros r H. exact H. Qed.
Lemma le_bind {A B} (x y : outcome A) (f g : A -> outcome B) : le_out x y -> (forall a, le_out (f a) (g a)) ->
  le_out (bind x f) (bind y g).
Proof. intros H1 H2 r H. apply bind_Ok in H. destruct H as [a [E H]]. rewrite (H1 a E). cbn [bind]. apply H2. exact H. Qed.
Lemma le_assert {A} (b : bool) (f g : outcome A) : le_out f g -> le_out (assert! b in f) (assert! b in g).
Proof. intros H. destruct b; [exact H|apply le_refl]. Qed.
Lemma le_for {A} n (f g : nat -> A -> outcome A) : (forall i a, le_out (f i a) (g i a)) -> forall a, le_out (for_loop n f a) (for_loop n g a).
Proof.
  intros H. induction n as [|n IH]; intros a; cbn [for_loop]; [apply le_refl|]. apply le_bind; auto.
Qed.
Lemma gemm_le (A B C : matrix) al be tA tB : flat A -> flat B -> flat C -> le_out (gemm Or0 1 A B C al be tA tB) (gemm Or 1 A B C al be tA tB).
Proof.
  intros FA FB FC. destruct A as [a|a|? ? ?|? ?]; try destruct FA; destruct B as [b|b|? ? ?|? ?]; try destruct FB;
    destruct C as [c|c|? ? ?|? ?]; try destruct FC; try apply le_refl.
  unfold gemm. cbn [gemm_pair fst]. unfold gemm_step. do 3 apply le_assert. apply le_bind; [apply le_refl|]. intros d.
  apply le_bind; [|intros; apply le_refl]. unfold compress_like. destruct (use_eps c); intros r H; discriminate.
Qed.
Lemma gemm_flat_out (O : oracles Rring) (A B C C' : matrix) al be tA tB : flat A -> flat B -> flat C ->
  gemm O 1 A B C al be tA tB = Ok C' -> flat C'.
Proof.
  intros FA FB FC H. unfold gemm in H. cbn [gemm_pair fst] in H. unfold gemm_step in H.
  do 3 (apply assert_Ok in H; destruct H as [_ H]).
  destruct A as [a|a|? ? ?|? ?]; try destruct FA; destruct B as [b|b|? ? ?|? ?]; try destruct FB;
    destruct C as [c|c|? ? ?|? ?]; try destruct FC; repeat (apply bind_Ok in H; destruct H as [? [_ H]]); 
    unfold acc_lr in H; repeat (apply bind_Ok in H; destruct H as [? [_ H]]); inversion H; exact I.
Qed.
Lemma finish_le (V A B C : matrix) (t : dense Rring) tr : flat V -> flat A -> flat B -> flat C ->
  le_out (tpm_finish Or0 V (MD t) A B C tr) (tpm_finish Or V (MD t) A B C tr).
Proof.
  intros FV FA FB FC r H. unfold tpm_finish in *. apply bind_Ok in H. destruct H as [X [HX H]].
  rewrite (trmm_flat Or0) in HX by auto. rewrite (trmm_flat Or) by auto. rewrite HX. cbn [bind].
  assert (FX : flat X).
  { cbn [trmm] in HX. destruct C as [c|c|? ? ?|? ?]; try destruct FC;
      repeat (apply assert_Ok in HX; destruct HX as [_ HX]); repeat (apply bind_Ok in HX; destruct HX as [? [_ HX]]); inversion HX; exact I. }
  revert r H. match goal with |- forall r, ?x = Ok r -> ?y = Ok r => change (le_out x y) end.
  apply le_bind; [apply gemm_le; auto; exact I|]. intros a. apply le_bind; [apply gemm_le; auto|]. intros b. apply le_refl.
Qed.
Lemma tpmqrt_le (V T A B : matrix) tr : le_out (tpmqrt Or0 V T A B tr) (tpmqrt Or V T A B tr).
Proof.
  destruct V as [v|v|? ? ?|? ?]; try apply le_refl; (destruct T as [t|?|? ? ?|? ?]; try apply le_refl);
    (destruct A as [a|a|? ? ?|? ?]; try apply le_refl); (destruct B as [b|b|? ? ?|? ?]; try apply le_refl);
  unfold tpmqrt; intros r H; apply bind_Ok in H; destruct H as [Vt [HV H]]; rewrite HV; cbn [bind]; apply bind_Ok in H; destruct H as [C [HC H]];
  try (assert (FV : flat Vt) by (inversion HV; exact I));
  pose proof HC as FC; apply gemm_flat_out in FC; try assumption; try exact I;
  apply gemm_le in HC; try assumption; try exact I; rewrite HC; cbn [bind]; apply finish_le in H; try assumption; try exact I.
Qed.
Lemma tiled_tpmqrt_le q k i tr from (Y T C : grid) : le_out (tiled_tpmqrt Or0 q k i tr from Y T C) (tiled_tpmqrt Or q k i tr from Y T C).
Proof.
  unfold tiled_tpmqrt. apply le_for. intros t D. apply le_bind; [apply tpmqrt_le|]. intros [x y]. apply le_refl.
Qed.
Lemma tiled_qr_le K p q (A : grid) pt qt T : le_out (tiled_qr Or0 K p q A pt qt T) (tiled_qr Or K p q A pt qt T).
Proof.
  unfold tiled_qr. do 2 apply le_assert. apply le_for. intros k s. unfold tiled_step. apply le_assert.
  apply le_bind; [apply le_refl|]. intros [x y]. apply le_bind; [apply le_refl|]. intros B. apply le_for. intros t s'.
  apply le_bind; [apply le_refl|]. intros [[x' v] y']. apply le_bind; [apply tiled_tpmqrt_le|]. intros D. apply le_refl.
Qed.
Lemma tiled_apply_le p q (Y T C : grid) tr : le_out (tiled_apply Or0 p q Y T C tr) (tiled_apply Or p q Y T C tr).
Proof.
  unfold tiled_apply. apply le_assert. destruct tr; apply le_for; intros k D; apply le_bind; try apply le_refl; try intros B.
  - apply le_for. intros t E. apply tiled_tpmqrt_le.
  - apply le_for. intros t E. apply tiled_tpmqrt_le.
  - apply le_refl.
Qed.
End Less.
