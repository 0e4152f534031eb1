(** l2_error over the real numbers: src/util/l2_error.cpp:36-43. *)
From Coq Require Import List Arith ZArith Lia Bool Reals Lra.
From Verif Require Import Prelude Ring MatFun Matrix MatOps MatSpec MatOpsProofs SvdRank L2Error.
Import ListNotations.
Local Open Scope nat_scope.

(** std::numeric_limits<double>::epsilon() = 2^-52 *)
Definition dbl_eps : R := (/ 2 ^ 52)%R.

Definition l2_error (fuel : nat) (A B : matrix Rring) : outcome R :=
  let* (diff, nrm) := @l2_parts Rring fuel A B in Ok (sqrt (diff / (nrm + dbl_eps)))%R.

Lemma dbl_eps_pos : (0 < dbl_eps)%R.
Proof. apply Rinv_0_lt_compat. apply pow_lt. lra. Qed.

Lemma sumsq_nonneg r c (f : mat Rring) : (0 <= sumsq (R := Rring) r c f)%R.
Proof. apply sum_nonneg. intros i _. apply sum_nonneg. intros j _. apply Rle_0_sqr. Qed.

Lemma sum_zero_all n (f : nat -> R) : (forall i, i < n -> (0 <= f i)%R) -> sum (R := Rring) n f = 0%R -> forall i, i < n -> f i = 0%R.
Proof.
  induction n as [|n IH]; intros H E i Hi; [lia|]. simpl in E.
  assert (H1 : (0 <= sum (R := Rring) n f)%R) by (apply sum_nonneg; intros; apply H; lia).
  assert (H2 : (0 <= f n)%R) by (apply H; lia).
  destruct (Nat.eq_dec i n) as [->|]; [lra|]. apply IH; auto; [lra|lia].
Qed.

Lemma sumsq_zero r c (f : mat Rring) : sumsq (R := Rring) r c f = 0%R <-> feq r c f mzero.
Proof.
  split.
  - intros E i j Hi Hj.
    assert (E1 : sum (R := Rring) c (fun j => (f i j * f i j)%R) = 0%R).
    { apply (sum_zero_all r (fun i => sum (R := Rring) c (fun j => (f i j * f i j)%R))); auto.
      intros i' _. apply sum_nonneg. intros j' _. apply Rle_0_sqr. }
    assert (E2 : (f i j * f i j)%R = 0%R).
    { apply (sum_zero_all c (fun j => (f i j * f i j)%R)); auto. intros j' _. apply Rle_0_sqr. }
    apply Rsqr_0_uniq. exact E2.
  - intros H. apply (sum_zero' (R := Rring)). intros i Hi. apply (sum_zero' (R := Rring)). intros j Hj. rewrite H by auto. simpl. ring.
Qed.

Lemma l2_parts_inv fuel (A B : matrix Rring) d x : l2_parts fuel A B = Ok (d, x) -> cdn fuel A B = Ok (d, x) /\ nrows A = nrows B /\ ncols A = ncols B.
Proof.
  unfold l2_parts. destruct (Nat.eqb_spec (nrows A) (nrows B)); [|discriminate]. destruct (Nat.eqb_spec (ncols A) (ncols B)); [|discriminate]. auto.
Qed.

Theorem l2_value fuel (A B : matrix Rring) e : wf A -> wf B -> l2_error fuel A B = Ok e ->
  e = sqrt (sumsq (R := Rring) (nrows A) (ncols A) (fun i j => (ent A i j - ent B i j)%R) /
            (sumsq (R := Rring) (nrows A) (ncols A) (ent A) + dbl_eps))%R.
Proof.
  intros WA WB H. unfold l2_error in H. apply bind_Ok in H. destruct H as [[d x] [H E]]. inversion E; subst e.
  apply l2_parts_inv in H. destruct H as [H _]. destruct (cdn_spec fuel A B d x WA WB H) as [_ [_ [-> ->]]]. reflexivity.
Qed.

Theorem l2_zero fuel (A B : matrix Rring) e : wf A -> wf B -> l2_error fuel A B = Ok e ->
  (e = 0%R <-> feq (nrows A) (ncols A) (ent A) (ent B)).
Proof.
  intros WA WB H. rewrite (l2_value fuel A B e WA WB H).
  set (D := sumsq (R := Rring) (nrows A) (ncols A) (fun i j => (ent A i j - ent B i j)%R)).
  set (N := sumsq (R := Rring) (nrows A) (ncols A) (ent A)).
  assert (HD : (0 <= D)%R) by apply sumsq_nonneg. assert (HN : (0 <= N)%R) by apply sumsq_nonneg. pose proof dbl_eps_pos as HE.
  assert (Z : D = 0%R <-> feq (nrows A) (ncols A) (ent A) (ent B)).
  { unfold D. rewrite sumsq_zero. split; intros K i j Hi Hj; specialize (K i j Hi Hj); simpl in *; unfold mzero in *; simpl in *; lra. }
  rewrite <- Z. split.
  - intros E. apply sqrt_eq_0 in E; [|apply Rmult_le_pos; [auto|left; apply Rinv_0_lt_compat; lra]].
    apply Rmult_integral in E. destruct E as [E|E]; auto. exfalso. apply Rinv_neq_0_compat in E; auto. lra.
  - intros ->. unfold Rdiv. rewrite Rmult_0_l. apply sqrt_0.
Qed.

Theorem l2_structure fuel fuel' (A B A' B' : matrix Rring) e e' : wf A -> wf B -> wf A' -> wf B' ->
  nrows A' = nrows A -> ncols A' = ncols A ->
  feq (nrows A) (ncols A) (ent A') (ent A) -> feq (nrows A) (ncols A) (ent B') (ent B) ->
  l2_error fuel A B = Ok e -> l2_error fuel' A' B' = Ok e' -> e' = e.
Proof.
  intros WA WB WA' WB' E1 E2 FA FB H H'. rewrite (l2_value _ _ _ _ WA WB H), (l2_value _ _ _ _ WA' WB' H'), E1, E2.
  rewrite (sumsq_ext (R := Rring) _ _ _ _ FA).
  rewrite (sumsq_ext (R := Rring) (nrows A) (ncols A) (fun i j => (ent A' i j - ent B' i j)%R) (fun i j => (ent A i j - ent B i j)%R)); [reflexivity|].
  intros i j Hi Hj. rewrite FA, FB; auto.
Qed.

Theorem l2_ok (A B : matrix Rring) : comparable A B -> wf A -> wf B -> no_empty A -> no_empty B ->
  nrows A = nrows B -> ncols A = ncols B ->
  exists F, forall f, F <= f -> exists e, l2_error f A B = Ok e.
Proof.
  intros HC WA WB NA NB E1 E2. destruct (cdn_ok A B HC WA WB NA NB) as [F H]. exists F. intros f Hf.
  destruct (H f Hf) as [[d x] E]. unfold l2_error, l2_parts. rewrite E1, E2, !Nat.eqb_refl, E. cbn [bind]. eauto.
Qed.
