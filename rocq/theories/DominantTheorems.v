(** Dominant columns: factorization and solution, put together. *)
From Coq Require Import List Arith ZArith QArith Lia Bool Reals Lra.
From Verif Require Import Prelude IndexRange Ring MatFun MatSetoid Matrix MatOps MatSpec MatOpsProofs Gemm GemmSpec
  GemmProofs Triangular TriAlgebra TriSpec TriProofs LuProofs LuCorrect TriTheorems
  CommonTree GemmSucc SvdRank HouseReal Rrqr Spectral Dominant PartialPivot BlockSchur BlockDominant.
Import ListNotations.
Local Open Scope nat_scope.

Section Shapes.
Context {R : cring}.
Notation matrix := (matrix R).
Variable QS : nat -> nat -> Prop.
Notation fit := (fit QS).

Lemma fit_conf_left (A : matrix) : forall r c B, fit r r A -> fit r c B -> conf SLeft A B.
Proof.
  induction A as [d|l|m n a IH|er ec]; intros ra ca B FA FB; simpl; auto. destruct B as [|?|m' n' b|]; auto.
  destruct FA as [-> [-> FA]]. destruct FB as [-> [-> FB]]. split; auto. intros i j Hi Hj. simpl.
  apply (IH i i (sub ra i) (sub ca j)); auto.
Qed.
Lemma fit_conf_right (A : matrix) : forall r c B, fit r r A -> fit c r B -> conf SRight A B.
Proof.
  induction A as [d|l|m n a IH|er ec]; intros ra ca B FA FB; simpl; auto. destruct B as [|?|m' n' b|]; auto.
  destruct FA as [-> [-> FA]]. destruct FB as [-> [-> FB]]. split; auto. intros i j Hi Hj. simpl.
  apply (IH j j (sub ra j) (sub ca i)); auto.
Qed.

Lemma fit_lu_shape (A : matrix) : forall r, valid r -> fit r r A -> lu_shape A.
Proof.
  induction A as [d|l|m n a IH|er ec]; intros r Vr F; pose proof (fit_dims QS r r _ Vr Vr F) as [D1 D2].
  - cbn in *. congruence.
  - cbn in *. congruence.
  - destruct F as [-> [-> F]]. split; auto.
    assert (P : 0 < deg r) by (destruct r; simpl in *; lia).
    assert (V : forall i, i < deg r -> valid (sub r i)) by (intros; apply valid_sub; auto).
    split; [|split].
    + intros i Hi. unfold bheight, bwidth.
      destruct (fit_dims QS (sub r i) (sub r 0) (a i 0)) as [-> _]; auto.
      destruct (fit_dims QS (sub r 0) (sub r i) (a 0 i)) as [_ ->]; auto.
    + intros i Hi. apply (IH i i (sub r i)); auto.
    + intros i j Hij Hj. assert (Hi : i < deg r) by lia. split.
      * apply (fit_conf_left _ (sub r i) (sub r j)); auto.
      * apply (fit_conf_right _ (sub r i) (sub r j)); auto.
  - destruct F.
Qed.
End Shapes.

Section Thm.
Notation matrix := (matrix Rring).
Variable Or : oracles Rring.

(** Factors of a matrix with dominant columns. *)
Definition lu_factors (A L U : matrix) : Prop :=
  nrows L = nrows A /\ ncols L = nrows A /\ nrows U = nrows A /\ ncols U = nrows A /\
  (forall i j, i < nrows A -> j < nrows A -> (i < j -> ent L i j = 0%R) /\ (i = j -> ent L i j = 1%R)) /\
  (forall i j, i < nrows A -> j < nrows A -> (j < i -> ent U i j = 0%R) /\ (i = j -> ent U i j <> 0%R)) /\
  feq (nrows A) (ncols A) (mmul (nrows A) (ent L) (ent U)) (ent A).

Lemma factors_of N gfuel fuel (A L U : matrix) : oracles_near N Or -> tight N A -> wf A -> lu_shape A ->
  cdom (nrows A) (ent A) -> getrf inv_of Or gfuel dgetf2 fuel A = Ok (L, U) ->
  getrf inv_of Or gfuel (no_exchange dgetf2) fuel A = Ok (L, U) /\ udiag inv_of U /\ lu_factors A L U.
Proof.
  intros HO HT W HS HD H. destruct (dominant_run N Or HO gfuel fuel A L U W HS HT HD H) as [H1 H2].
  split; auto. split; auto.
  destruct (getrf_ok N Or HO inv_of gfuel dgetf2 dgetf2_contract fuel A L U W HS H2 H1)
    as [WL [WU [_ [TU [_ [_ [[D1 [D2 [D3 D4]]] [Lo [Up Rl]]]]]]]]].
  repeat (split; [assumption|]). split; [|split].
  - intros i j Hi Hj. rewrite (Lo i j Hi Hj). unfold tri. split.
    + intros Hij. destruct (Nat.eqb_spec i j); [lia|]. destruct (Nat.ltb_spec j i); [lia|]. reflexivity.
    + intros ->. rewrite Nat.eqb_refl. reflexivity.
  - intros i j Hi Hj. split.
    + rewrite (Up i j Hi Hj). unfold tri. intros Hij. destruct (Nat.eqb_spec i j); [lia|]. destruct (Nat.ltb_spec i j); [lia|]. reflexivity.
    + intros <-. pose proof (udiag_diag inv_of U WU TU H2 eq_refl i ltac:(lia)) as G.
      intros E. change (ent U i i * / ent U i i = 1)%R in G. change (car Rring) with Rdefinitions.R in *. rewrite E in G. lra.
  - apply (tight_rel N A); auto.
Qed.

(** And solutions. *)
Lemma solution_of N gfuel fuel (A L U b y x : matrix) : oracles_near N Or -> tight N A -> wf A -> lu_shape A ->
  cdom (nrows A) (ent A) -> wf b -> conf SLeft A b -> nrows b = nrows A -> no_lr b ->
  getrf inv_of Or gfuel dgetf2 fuel A = Ok (L, U) ->
  trsm inv_of Or gfuel L b Lower SLeft = Ok y -> trsm inv_of Or gfuel U y Upper SLeft = Ok x ->
  feq (nrows A) (ncols b) (mmul (nrows A) (ent A) (ent x)) (ent b).
Proof.
  intros HO HT W HS HD Wb Cb Eb Nb H Hy Hx.
  destruct (dominant_run N Or HO gfuel fuel A L U W HS HT HD H) as [H1 H2].
  destruct (solve_ok N Or HO inv_of gfuel dgetf2 dgetf2_contract fuel A L U b y x) as [G1 [G2 G3]]; auto.
  apply (tight_rel N A) in G3; auto. eapply feq_trans; [|exact G2].
  apply feq_mmul with (k := nrows A); [|apply feq_refl]. apply feq_sym.
  rewrite <- (lu_shape_square A HS) in G3. exact G3.
Qed.

(** Dominant columns leave one solution. *)
Lemma dominant_kernel n F (x : nat -> R) : cdom n F -> (forall i, i < n -> rsum n (fun j => (F i j * x j)%R) = 0%R) ->
  forall j, j < n -> x j = 0%R.
Proof.
  intros HD HZ.
  (* sum of |x_j| |F j j| <= sum over i of the off-diagonal parts *)
  assert (K : forall i, i < n -> (Rabs (F i i) * Rabs (x i) <= off n i (fun j => Rabs (F i j) * Rabs (x j)))%R).
  { intros i Hi. rewrite <- Rabs_mult.
    assert (E : (F i i * x i = - off n i (fun j => F i j * x j))%R).
    { pose proof (HZ i Hi) as Z. rewrite (rsum_off n i _ Hi) in Z. lra. }
    rewrite E, Rabs_Ropp. unfold off. eapply Rle_trans; [apply rsum_abs|]. apply rsum_le. intros j Hj.
    destruct (j =? i); [rewrite Rabs_R0; lra|rewrite Rabs_mult; lra]. }
  assert (S1 : (rsum n (fun i => Rabs (F i i) * Rabs (x i)) <= rsum n (fun i => off n i (fun j => Rabs (F i j) * Rabs (x j))))%R).
  { apply rsum_le. exact K. }
  unfold off in S1. rewrite rsum_swap in S1.
  (* exchanged: column sums *)
  assert (C : forall j, j < n -> (rsum n (fun i => if j =? i then 0 else Rabs (F i j) * Rabs (x j)) = off n j (fun i => Rabs (F i j)) * Rabs (x j))%R).
  { intros j Hj. unfold off. rewrite (rsum_ext n _ (fun i => (Rabs (x j) * (if i =? j then 0 else Rabs (F i j)))%R)).
    - rewrite rsum_mul_l. apply Rmult_comm.
    - intros i Hi. rewrite (Nat.eqb_sym j i). destruct (i =? j); lra. }
  rewrite (rsum_ext n _ _ C) in S1.
  assert (Z : forall j, j < n -> ((Rabs (F j j) - off n j (fun i => Rabs (F i j))) * Rabs (x j) = 0)%R).
  { assert (P : forall j, j < n -> (0 <= (Rabs (F j j) - off n j (fun i => Rabs (F i j))) * Rabs (x j))%R).
    { intros j Hj. apply Rmult_le_pos; [|apply Rabs_pos]. specialize (HD j Hj). lra. }
    assert (T : (rsum n (fun j => (Rabs (F j j) - off n j (fun i => Rabs (F i j))) * Rabs (x j)) <= 0)%R).
    { rewrite (rsum_ext n _ (fun j => (Rabs (F j j) * Rabs (x j) + -1 * (off n j (fun i => Rabs (F i j)) * Rabs (x j)))%R)) by (intros; lra).
      rewrite rsum_add, rsum_mul_l. lra. }
    intros j Hj. apply Rle_antisym; [|apply P; exact Hj]. eapply Rle_trans; [|exact T].
    rewrite (rsum_off n j _ Hj).
    assert (0 <= off n j (fun j => (Rabs (F j j) - off n j (fun i => Rabs (F i j))) * Rabs (x j)))%R.
    { unfold off at 1. apply rsum_pos. intros k Hk. destruct (k =? j); [lra|apply P; exact Hk]. }
    lra. }
  intros j Hj. specialize (HD j Hj). destruct (Rmult_integral _ _ (Z j Hj)) as [E|E]; [lra|].
  destruct (Req_dec (x j) 0) as [|NE]; auto. exfalso. apply (Rabs_no_R0 _ NE). exact E.
Qed.
End Thm.
