(** Cutting off a singular value decomposition gives a best approximation among all matrices of
    the rank (Eckart, Young), in the Frobenius norm. *)
From Coq Require Import List Arith Lia Bool Reals Lra Ring_theory Ring Setoid Morphisms.
From Verif Require Import Prelude Ring MatFun MatSetoid Matrix MatOps Lapack LowRankAddProofs Reflect ReflectSpec SampledTheorems SvdRank Householder HouseQr HouseReal Rrqr RrqrRank Spectral RealSvd RealLapack.
Import ListNotations.
Local Open Scope nat_scope.

Section Iso.
Context {R : cring}.
Add Ring Rr : (cr_th R).
Notation mat := (mat R).

Lemma sumsq_tr m n (X : mat) : sumsq m n X = sumsq n m (mtr X).
Proof. unfold sumsq, mtr. apply sum_swap. Qed.

(** Columns: the sum of squares is the trace of X^T X. *)
Lemma sumsq_gram m n (X : mat) : sumsq m n X = sum n (fun j => mmul m (mtr X) X j j).
Proof. unfold sumsq, mmul, mtr. apply sum_swap. Qed.

(** Factors that keep scalar products of the columns of M keep norms. *)
Lemma iso_cols m k n (U X : mat) : orth_cols m k U -> sumsq m n (mmul k U X) = sumsq k n X.
Proof.
  intros HU. rewrite !sumsq_gram. apply sum_ext. intros j Hj.
  assert (E : meq (mmul m (mtr (mmul k U X)) (mmul k U X)) (mmul k (mtr X) (mmul k (mmul m (mtr U) U) X))).
  { rewrite meq_tr, meq_assoc. rewrite <- (meq_assoc m k (mtr U) U X). reflexivity. }
  rewrite (E j j). apply mmul_ext; auto. intros x Hx.
  transitivity (mmul k mid X x j); [|apply mmul_id_l; auto]. apply mmul_ext; auto.
Qed.

Lemma iso_rows m k n (X V : mat) : orth_rows k n V -> sumsq m n (mmul k X V) = sumsq m k X.
Proof.
  intros HV. rewrite sumsq_tr. rewrite (sumsq_tr m k).
  transitivity (sumsq n m (mmul k (mtr V) (mtr X))).
  - apply sumsq_ext. apply meq_feq. apply meq_tr.
  - apply iso_cols. apply orth_rows_cols. exact HV.
Qed.

(** |A - Q W|^2 = |perp|^2 + |Q^T A - W|^2. *)
Lemma perp_split m n k (Q A W : mat) : orth_cols m k Q ->
  sumsq m n (msub A (mmul k Q W)) = (sumsq m n (perp m k Q A) + sumsq k n (msub (mmul m (mtr Q) A) W))%r.
Proof.
  intros HQ. rewrite <- (iso_cols m k n Q (msub (mmul m (mtr Q) A) W) HQ).
  rewrite <- (sumsq_pyth m n k (perp m k Q A) Q (msub (mmul m (mtr Q) A) W)) by (apply perp_zero; auto).
  apply sumsq_ext. intros i j Hi Hj. unfold madd.
  rewrite (meq_sub_r k Q (mmul m (mtr Q) A) W i j). unfold perp, msub. ring.
Qed.

Lemma perp_norm m n k (Q A : mat) : orth_cols m k Q ->
  sumsq m n A = (sumsq m n (perp m k Q A) + sumsq k n (mmul m (mtr Q) A))%r.
Proof.
  intros HQ. transitivity (sumsq m n (msub A (mmul k Q mzero))).
  - apply sumsq_ext. intros i j _ _. unfold msub. rewrite (meq_zero_r k Q i j). unfold mzero. ring.
  - rewrite (perp_split m n k Q A mzero HQ). f_equal. apply sumsq_ext. intros i j _ _. unfold msub, mzero. ring.
Qed.
End Iso.

Lemma sumsq_pos m n (X : rmat) : (0 <= sumsq (R := Rring) m n X)%R.
Proof. apply sum_nonneg. intros. apply sum_nonneg. intros. apply Rle_0_sqr. Qed.

(** Projections shorten. *)
Lemma bessel m n k (Q A : rmat) : orth_cols (R := Rring) m k Q ->
  (sumsq (R := Rring) k n (mmul m (mtr Q) A) <= sumsq (R := Rring) m n A)%R.
Proof.
  intros HQ. rewrite (perp_norm (R := Rring) m n k Q A HQ). pose proof (sumsq_pos m n (perp (R := Rring) m k Q A)). simpl. lra.
Qed.

Lemma sumsq_one_col m (X : rmat) : sumsq (R := Rring) m 1 X = rsum m (fun i => (X i 0%nat * X i 0%nat)%R).
Proof. unfold sumsq. apply rsum_ext. intros i Hi. simpl. ring. Qed.

Lemma bessel_col m k (Q A : rmat) j : orth_cols (R := Rring) m k Q ->
  (rsum k (fun l => mmul (R := Rring) m (mtr Q) A l j * mmul (R := Rring) m (mtr Q) A l j) <= rsum m (fun i => A i j * A i j))%R.
Proof.
  intros HQ. pose proof (bessel m 1 k Q (fun i _ => A i j) HQ) as B. rewrite !sumsq_one_col in B. exact B.
Qed.

Lemma col_norm m k (Q : rmat) j : orth_cols (R := Rring) m k Q -> j < k -> rsum m (fun i => (Q i j * Q i j)%R) = 1%R.
Proof.
  intros HQ Hj. pose proof (HQ j j Hj Hj) as H. unfold mid in H. rewrite Nat.eqb_refl in H. exact H.
Qed.

(** Weights between 0 and 1 of total at most r, on a sequence that does not increase. *)
Lemma weights (k r : nat) (s p : vec) : (forall i, i < k -> (0 <= s i)%R) -> (forall i j, i <= j -> j < k -> (s j <= s i)%R) ->
  (forall i, i < k -> (0 <= p i <= 1)%R) -> (rsum k p <= INR r)%R -> r <= k ->
  (rsum k (fun j => s j * p j) <= rsum r s)%R.
Proof.
  intros H1 H2 H3 H4 Hr.
  destruct (Nat.eq_dec r k) as [->|Hne].
  { apply sum_le. intros i Hi. specialize (H1 i Hi). specialize (H3 i Hi). rewrite <- (Rmult_1_r (s i)) at 2.
    apply Rmult_le_compat_l; lra. }
  assert (E : forall f : vec, rsum k f = (rsum r f + rsum (k - r) (fun i => f (r + i)%nat))%R).
  { intros f. replace k with (r + (k - r)) at 1 by lia. exact (sum_split (R := Rring) r (k - r) f). }
  assert (T : (rsum (k - r) (fun i => s (r + i)%nat * p (r + i)%nat) <= s r * rsum (k - r) (fun i => p (r + i)%nat))%R).
  { rewrite <- rsum_mul_l. apply sum_le. intros i Hi. apply Rmult_le_compat_r; [apply H3; lia|apply H2; lia]. }
  assert (P : (rsum (k - r) (fun i => p (r + i)%nat) <= rsum r (fun i => 1 - p i))%R).
  { rewrite E in H4. rewrite rsum_sub.
    assert (C : rsum r (fun _ => 1%R) = INR r).
    { clear. induction r as [|r IH]; [reflexivity|]. rewrite S_INR, <- IH. reflexivity. }
    rewrite C. lra. }
  assert (Sr : (0 <= s r)%R) by (apply H1; lia).
  rewrite E.
  assert (G : (rsum r (fun j => s j * p j) + s r * rsum r (fun i => 1 - p i) <= rsum r s)%R).
  { rewrite <- rsum_mul_l, <- rsum_add. apply sum_le. intros i Hi.
    assert (A1 : (0 <= p i <= 1)%R) by (apply H3; lia). assert (A2 : (s r <= s i)%R) by (apply H2; lia).
    assert (A3 : (s r * (1 - p i) <= s i * (1 - p i))%R) by (apply Rmult_le_compat_r; lra). lra. }
  assert (M : (s r * rsum (k - r) (fun i => p (r + i)%nat) <= s r * rsum r (fun i => 1 - p i))%R) by (apply Rmult_le_compat_l; auto).
  lra.
Qed.

Definition tsq (s : vec) (r k : nat) : R := rsum (k - r) (fun l => (s (r + l)%nat * s (r + l)%nat)%R).

Lemma tsq_split s r k : r <= k -> tsq s 0 k = (rsum r (fun l => (s l * s l)%R) + tsq s r k)%R.
Proof.
  intros Hr. unfold tsq. rewrite Nat.sub_0_r. replace k with (r + (k - r)) at 1 by lia.
  rewrite (sum_split (R := Rring)). reflexivity.
Qed.

Lemma dg_r k s (X : rmat) i j : j < k -> mmul (R := Rring) k X (dg s) i j = (X i j * s j)%R.
Proof.
  intros Hj. unfold mmul. rewrite (sum_single (R := Rring) k j _ Hj).
  - unfold dg. rewrite Nat.eqb_refl. reflexivity.
  - intros l Hl Hn. unfold dg. destruct (Nat.eqb_spec l j); [contradiction|]. rring.
Qed.
Lemma dg_l k s (X : rmat) i j : i < k -> mmul (R := Rring) k (dg s) X i j = (s i * X i j)%R.
Proof.
  intros Hi. unfold mmul. rewrite (sum_single (R := Rring) k i _ Hi).
  - unfold dg. rewrite Nat.eqb_refl. reflexivity.
  - intros l Hl Hn. unfold dg. destruct (Nat.eqb_spec i l); [congruence|]. rring.
Qed.

Lemma svd_norm m n k (U : rmat) s (V : rmat) : orth_cols (R := Rring) m k U -> orth_rows (R := Rring) k n V ->
  sumsq (R := Rring) m n (mmul k U (mmul k (dg s) V)) = tsq s 0 k.
Proof.
  intros HU HV. rewrite (iso_cols (R := Rring)) by auto. rewrite (iso_rows (R := Rring)) by auto.
  unfold sumsq, tsq. rewrite Nat.sub_0_r. apply rsum_ext. intros i Hi.
  rewrite (sum_single (R := Rring) k i _ Hi).
  - unfold dg. rewrite Nat.eqb_refl. reflexivity.
  - intros j Hj Hn. unfold dg. destruct (Nat.eqb_spec i j); [congruence|]. rring.
Qed.

Lemma eckart_young_orth m n k r (U : rmat) s (V A Q W : rmat) q : orth_cols (R := Rring) m k U -> orth_rows (R := Rring) k n V ->
  (forall i, i < k -> (0 <= s i)%R) -> (forall i j, i <= j -> j < k -> (s j <= s i)%R) ->
  feq (R := Rring) m n (mmul k U (mmul k (dg s) V)) A ->
  orth_cols (R := Rring) m q Q -> q <= r -> r <= k ->
  (tsq s r k <= sumsq (R := Rring) m n (msub A (mmul q Q W)))%R.
Proof.
  intros HU HV H1 H2 HA HQ Hq Hr.
  rewrite (perp_split (R := Rring) m n q Q A W HQ).
  assert (N : sumsq (R := Rring) m n A = tsq s 0 k).
  { rewrite <- (sumsq_ext (R := Rring) m n _ _ HA). apply svd_norm; auto. }
  pose proof (perp_norm (R := Rring) m n q Q A HQ) as P. rewrite N in P. rewrite (tsq_split s r k Hr) in P.
  pose proof (sumsq_pos q n (msub (R := Rring) (mmul m (mtr Q) A) W)) as PW.
  set (p := fun j => rsum q (fun l => (mmul (R := Rring) m (mtr Q) U l j * mmul (R := Rring) m (mtr Q) U l j)%R)).
  assert (E : sumsq (R := Rring) q n (mmul m (mtr Q) A) = rsum k (fun j => (s j * s j * p j)%R)).
  { transitivity (sumsq (R := Rring) q n (mmul k (mmul k (mmul m (mtr Q) U) (dg s)) V)).
    - apply (sumsq_ext (R := Rring)). eapply feq_trans.
      + apply feq_mul; [apply feq_refl|]. apply feq_sym. exact HA.
      + rewrite <- !meq_assoc. apply feq_refl.
    - rewrite (iso_rows (R := Rring)) by auto. unfold sumsq. rewrite (sum_swap (R := Rring)). apply rsum_ext. intros j Hj.
      unfold p. rewrite <- rsum_mul_l. apply rsum_ext. intros l Hl. rewrite !dg_r by auto. rring. }
  rewrite E in P.
  assert (G : (rsum k (fun j => s j * s j * p j) <= rsum r (fun j => s j * s j))%R).
  { apply (weights k r (fun j => (s j * s j)%R) p); auto.
    - intros i Hi. apply Rle_0_sqr.
    - intros i j Hij Hj. specialize (H2 i j Hij Hj). specialize (H1 j Hj). apply Rmult_le_compat; lra.
    - intros i Hi. split.
      + apply sum_nonneg. intros. apply Rle_0_sqr.
      + unfold p. eapply Rle_trans; [apply bessel_col; exact HQ|]. apply Req_le. apply (col_norm m k); auto.
    - apply Rle_trans with (INR q); [|apply le_INR; auto]. unfold p. rewrite (sum_swap (R := Rring)).
      apply Rle_trans with (rsum q (fun _ => 1%R)).
      + apply sum_le. intros l Hl. rewrite <- (col_norm m q Q l HQ Hl).
        eapply Rle_trans; [|apply (bessel_col m k U Q l HU)]. apply Req_le. apply rsum_ext. intros i Hi.
        assert (X : mmul (R := Rring) m (mtr Q) U l i = mmul (R := Rring) m (mtr U) Q i l).
        { unfold mmul, mtr. apply rsum_ext. intros. rring. }
        rewrite X. reflexivity.
      + apply Req_le. clear. induction q as [|q IH]; [reflexivity|]. rewrite S_INR, <- IH. reflexivity. }
  simpl in *. lra.
Qed.

(** Any product with r inner columns. *)
Lemma eckart_young m n k r (U : rmat) s (V A Y Z : rmat) : orth_cols (R := Rring) m k U -> orth_rows (R := Rring) k n V ->
  (forall i, i < k -> (0 <= s i)%R) -> (forall i j, i <= j -> j < k -> (s j <= s i)%R) ->
  feq (R := Rring) m n (mmul k U (mmul k (dg s) V)) A -> r <= k ->
  (tsq s r k <= sumsq (R := Rring) m n (msub A (mmul r Y Z)))%R.
Proof.
  intros HU HV H1 H2 HA Hr.
  destruct (real_qr_ok (Dn m r Y)) as [Q [Rf [_ [HQ [HO _]]]]]. unfold is_qr in HQ. cbn [d_r d_c d_e] in HQ.
  destruct HQ as [Q1 [Q2 [Q3 [Q4 Q5]]]]. rewrite Q1, Q2 in HO.
  eapply Rle_trans; [apply (eckart_young_orth m n k r U s V A (d_e Q) (mmul (R := Rring) r (d_e Rf) Z) (Nat.min m r)); auto; lia|].
  apply Req_le. apply (sumsq_ext (R := Rring)). intros i j Hi Hj. unfold msub. f_equal.
  rewrite <- (mmul_assoc (R := Rring) (Nat.min m r) r (d_e Q) (d_e Rf) Z i j).
  apply (mmul_ext (R := Rring)); auto.
Qed.

(** ** Factors orthonormal where the singular value is not zero *)

Record ess_svd (m n k : nat) (A U : rmat) (s : vec) (V : rmat) : Prop := {
  es_U : forall i j, i < k -> j < k -> s i <> 0%R -> s j <> 0%R -> mmul (R := Rring) m (mtr U) U i j = mid (R := Rring) i j;
  es_V : forall i j, i < k -> j < k -> s i <> 0%R -> s j <> 0%R -> mmul (R := Rring) n V (mtr V) i j = mid (R := Rring) i j;
  es_A : feq (R := Rring) m n (mmul k U (mmul k (dg s) V)) A;
  es_pos : forall i, i < k -> (0 <= s i)%R;
  es_dec : forall i j, i <= j -> j < k -> (s j <= s i)%R
}.

(** The number of non-zero values. *)
Lemma nonzero_count k (s : vec) : (forall i, i < k -> (0 <= s i)%R) -> (forall i j, i <= j -> j < k -> (s j <= s i)%R) ->
  exists q, q <= k /\ (forall i, i < q -> s i <> 0%R) /\ (forall i, q <= i -> i < k -> s i = 0%R).
Proof.
  induction k as [|k IH]; intros H1 H2.
  - exists 0. split; [lia|]. split; intros; lia.
  - destruct IH as [q [A [B C]]]; auto.
    destruct (Nat.eq_dec q k) as [->|Hne].
    + destruct (Req_EM_T (s k) 0) as [E|E].
      * exists k. split; [lia|]. split; auto. intros i Hi Hk. replace i with k by lia. auto.
      * exists (S k). split; [lia|]. split; [|intros; lia]. intros i Hi. destruct (Nat.eq_dec i k) as [->|]; auto. apply B. lia.
    + exists q. split; [lia|]. split; auto. intros i Hi Hk. destruct (Nat.eq_dec i k) as [->|]; [|apply C; lia].
      assert (S1 : s q = 0%R) by (apply C; lia). assert (S2 : (0 <= s k)%R) by (apply H1; lia).
      assert (S3 : (s k <= s q)%R) by (apply H2; lia). lra.
Qed.

Lemma zero_tail k q (U : rmat) s (V : rmat) : q <= k -> (forall i, q <= i -> i < k -> s i = 0%R) ->
  forall i j, mmul (R := Rring) k U (mmul k (dg s) V) i j = mmul (R := Rring) q U (mmul q (dg s) V) i j.
Proof.
  intros Hq Hz i j. rewrite (truncation (R := Rring) q k) by (auto; apply dg_diagonal).
  unfold dropped. rewrite (sum_zero' (R := Rring)); [rring|]. intros l Hl. unfold dg. rewrite Nat.eqb_refl.
  rewrite Hz by lia. rring.
Qed.

Lemma tsq_zero s r q k : q <= k -> (forall i, q <= i -> i < k -> s i = 0%R) -> tsq s r k = tsq s r q.
Proof.
  intros Hq Hz. unfold tsq. replace (k - r) with ((q - r) + (k - r - (q - r))) by lia.
  rewrite (sum_split (R := Rring)). rewrite (sum_zero' (R := Rring) (k - r - (q - r))); [rring|].
  intros l Hl. rewrite Hz by lia. rring.
Qed.

Lemma ess_restrict m n k A U s V : ess_svd m n k A U s V -> exists q, q <= k /\
  (forall i, q <= i -> i < k -> s i = 0%R) /\ (forall i, i < q -> s i <> 0%R) /\
  orth_cols (R := Rring) m q U /\ orth_rows (R := Rring) q n V /\
  feq (R := Rring) m n (mmul q U (mmul q (dg s) V)) A.
Proof.
  intros [H1 H2 H3 H4 H5]. destruct (nonzero_count k s H4 H5) as [q [A1 [A2 A3]]].
  exists q. split; auto. split; auto. split; auto. split; [|split].
  - intros i j Hi Hj. apply H1; auto; lia.
  - intros i j Hi Hj. apply H2; auto; lia.
  - intros i j Hi Hj. rewrite <- (H3 i j Hi Hj). symmetry. apply zero_tail; auto.
Qed.

(** What is cut off has the norm of the values cut off ... *)
Lemma ess_dropped m n k A U s V r : ess_svd m n k A U s V -> r <= k ->
  sumsq (R := Rring) m n (dropped r k U (dg s) V) = tsq s r k.
Proof.
  intros HE Hr. destruct (ess_restrict _ _ _ _ _ _ _ HE) as [q [A1 [A2 [_ [A3 [A4 A5]]]]]].
  rewrite (tsq_zero s r q k) by auto.
  destruct (le_lt_dec q r) as [Hqr|Hqr].
  - transitivity (sumsq (R := Rring) m n mzero).
    + apply (sumsq_ext (R := Rring)). intros i j _ _. unfold dropped. apply (sum_zero' (R := Rring)). intros l Hl.
      unfold dg. rewrite Nat.eqb_refl, A2 by lia. rring.
    + unfold sumsq, mzero, tsq. replace (q - r) with 0 by lia. apply (sum_zero' (R := Rring)). intros i _.
      apply (sum_zero' (R := Rring)). intros. rring.
  - transitivity (sumsq (R := Rring) m n (dropped r q U (dg s) V)).
    + apply (sumsq_ext (R := Rring)). intros i j _ _. unfold dropped. replace (k - r) with ((q - r) + (k - q)) by lia.
      rewrite (sum_split (R := Rring)). rewrite (sum_zero' (R := Rring) (k - q)); [rring|].
      intros l Hl. unfold dg. rewrite Nat.eqb_refl, A2 by lia. rring.
    + rewrite (dropped_norm (R := Rring)) by (auto; lia). unfold tsq. apply rsum_ext. intros l Hl.
      unfold dg. rewrite Nat.eqb_refl. reflexivity.
Qed.

(** ... and no matrix of rank r is closer. *)
Lemma ess_best m n k A U s V r (Y Z : rmat) : ess_svd m n k A U s V -> r <= k ->
  (tsq s r k <= sumsq (R := Rring) m n (msub A (mmul r Y Z)))%R.
Proof.
  intros HE Hr. destruct (ess_restrict _ _ _ _ _ _ _ HE) as [q [A1 [A2 [_ [A3 [A4 A5]]]]]].
  rewrite (tsq_zero s r q k) by auto.
  destruct (le_lt_dec q r) as [Hqr|Hqr].
  - unfold tsq. replace (q - r) with 0 by lia. apply sumsq_pos.
  - apply (eckart_young m n q r U s V A Y Z); auto; try lia.
    + intros i Hi. apply (es_pos _ _ _ _ _ _ _ HE). lia.
    + intros i j Hij Hj. apply (es_dec _ _ _ _ _ _ _ HE); lia.
Qed.

Lemma ess_norm m n k A U s V : ess_svd m n k A U s V -> sumsq (R := Rring) m n A = tsq s 0 k.
Proof.
  intros HE. rewrite <- (ess_dropped m n k A U s V 0 HE) by lia. symmetry. apply (sumsq_ext (R := Rring)).
  eapply feq_trans; [|exact (es_A _ _ _ _ _ _ _ HE)]. intros i j _ _.
  rewrite (truncation (R := Rring) 0 k) by (try lia; apply dg_diagonal). unfold mmul at 1. simpl. rring.
Qed.

(** Factors that need only be isometric on the range of M. *)
Lemma ess_compose m n p q k (M Um Vm Uc Vc : rmat) s :
  orth_cols (R := Rring) p k Um -> orth_rows (R := Rring) k q Vm ->
  (forall i, i < k -> (0 <= s i)%R) -> (forall i j, i <= j -> j < k -> (s j <= s i)%R) ->
  feq (R := Rring) p q (mmul k Um (mmul k (dg s) Vm)) M ->
  feq (R := Rring) q q (mmul m (mtr (mmul p Uc M)) (mmul p Uc M)) (mmul p (mtr M) M) ->
  feq (R := Rring) p p (mmul n (mmul q M Vc) (mtr (mmul q M Vc))) (mmul q M (mtr M)) ->
  ess_svd m n k (mmul (R := Rring) p Uc (mmul q M Vc)) (mmul (R := Rring) p Uc Um) s (mmul (R := Rring) q Vm Vc).
Proof.
  intros HU HV H1 H2 HM IU IV.
  (* columns of M: M Vm^T = Um diag(s) *)
  assert (CU : feq (R := Rring) p k (mmul q M (mtr Vm)) (mmul k Um (dg s))).
  { eapply feq_trans; [apply feq_mul; [apply feq_sym; exact HM|apply feq_refl]|].
    rewrite !meq_assoc. apply feq_mul; [apply feq_refl|].
    eapply feq_trans; [apply feq_mul; [apply feq_refl|exact HV]|]. intros i j Hi Hj. apply (mmul_id_r (R := Rring)); auto. }
  assert (CV : feq (R := Rring) k q (mmul p (mtr Um) M) (mmul k (dg s) Vm)).
  { eapply feq_trans; [apply feq_mul; [apply feq_refl|apply feq_sym; exact HM]|].
    rewrite <- !meq_assoc. apply feq_mul; [|apply feq_refl].
    eapply feq_trans; [apply feq_mul; [exact HU|apply feq_refl]|]. intros i j Hi Hj. apply (mmul_id_l (R := Rring)); auto. }
  (* scaled columns of Uc Um *)
  set (G := mmul (R := Rring) p Uc Um). set (H := mmul (R := Rring) q Vm Vc).
  assert (GU : feq (R := Rring) m k (mmul q (mmul p Uc M) (mtr Vm)) (mmul k G (dg s))).
  { unfold G. rewrite !meq_assoc. apply feq_mul; [apply feq_refl|exact CU]. }
  assert (GV : feq (R := Rring) k n (mmul p (mtr Um) (mmul q M Vc)) (mmul k (dg s) H)).
  { unfold H. rewrite <- !meq_assoc. apply feq_mul; [exact CV|apply feq_refl]. }
  assert (EU : feq (R := Rring) k k (mmul m (mtr (mmul k G (dg s))) (mmul k G (dg s))) (mmul k (dg s) (dg s))).
  { eapply feq_trans.
    - apply feq_mul; [apply feq_tr|]; apply feq_sym; exact GU.
    - rewrite meq_tr, meq_assoc. rewrite <- (meq_assoc m q (mtr (mmul p Uc M))).
      rewrite meq_tr_tr.
      eapply feq_trans; [apply feq_mul; [apply feq_refl|apply feq_mul; [exact IU|apply feq_refl]]|].
      rewrite meq_assoc. rewrite <- (meq_assoc q p Vm).
      assert (T : feq (R := Rring) k p (mmul q Vm (mtr M)) (mtr (mmul k Um (dg s)))).
      { intros i j Hi Hj. unfold mtr. rewrite <- (CU j i Hj Hi). unfold mmul, mtr. apply rsum_ext. intros. rring. }
      eapply feq_trans; [apply feq_mul; [exact T|exact CU]|].
      rewrite meq_tr, meq_assoc. rewrite <- (meq_assoc p k (mtr Um)).
      eapply feq_trans; [apply feq_mul; [|apply feq_mul; [exact HU|apply feq_refl]]|].
      { intros i j Hi Hj. unfold mtr, dg. instantiate (1 := dg s). unfold dg.
        destruct (Nat.eqb_spec i j), (Nat.eqb_spec j i); congruence. }
      apply feq_mul; [apply feq_refl|]. intros i j Hi Hj. apply (mmul_id_l (R := Rring)); auto. }
  assert (EV : feq (R := Rring) k k (mmul n (mmul k (dg s) H) (mtr (mmul k (dg s) H))) (mmul k (dg s) (dg s))).
  { eapply feq_trans.
    - apply feq_mul; [|apply feq_tr]; apply feq_sym; exact GV.
    - rewrite meq_tr, meq_assoc. rewrite <- (meq_assoc n p (mmul q M Vc)). rewrite meq_tr_tr.
      eapply feq_trans; [apply feq_mul; [apply feq_refl|apply feq_mul; [exact IV|apply feq_refl]]|].
      rewrite meq_assoc. rewrite <- (meq_assoc p q (mtr Um)).
      assert (T : feq (R := Rring) q k (mmul p (mtr M) Um) (mtr (mmul k (dg s) Vm))).
      { intros i j Hi Hj. unfold mtr. rewrite <- (CV j i Hj Hi). unfold mmul, mtr. apply rsum_ext. intros. rring. }
      eapply feq_trans; [apply feq_mul; [exact CV|exact T]|].
      rewrite meq_tr, meq_assoc. rewrite <- (meq_assoc q k Vm).
      eapply feq_trans; [apply feq_mul; [apply feq_refl|apply feq_mul; [exact HV|]]|].
      { intros i j Hi Hj. unfold mtr, dg. instantiate (1 := dg s). unfold dg.
        destruct (Nat.eqb_spec i j), (Nat.eqb_spec j i); congruence. }
      apply feq_mul; [apply feq_refl|]. intros i j Hi Hj. apply (mmul_id_l (R := Rring)); auto. }
  split; auto.
  - intros i j Hi Hj Si Sj. pose proof (EU i j Hi Hj) as E. rewrite (dg_l k s (dg s) i j Hi) in E.
    assert (F : mmul (R := Rring) m (mtr (mmul k G (dg s))) (mmul k G (dg s)) i j = (s i * s j * mmul (R := Rring) m (mtr G) G i j)%R).
    { unfold mmul at 1. unfold mtr. rewrite (rsum_ext m _ (fun l => (s i * s j * (G l i * G l j))%R)).
      - rewrite rsum_mul_l. reflexivity.
      - intros l Hl. rewrite !dg_r by auto. rring. }
    rewrite F in E. unfold dg in E. unfold mid. destruct (Nat.eqb_spec i j) as [->|Hn].
    + apply (Rmult_eq_reg_l (s j * s j)); [rewrite E; rring|]. apply Rmult_integral_contrapositive; auto.
    + apply (Rmult_eq_reg_l (s i * s j)); [rewrite E; rring|]. apply Rmult_integral_contrapositive; auto.
  - intros i j Hi Hj Si Sj. pose proof (EV i j Hi Hj) as E. rewrite (dg_l k s (dg s) i j Hi) in E.
    assert (F : mmul (R := Rring) n (mmul k (dg s) H) (mtr (mmul k (dg s) H)) i j = (s i * s j * mmul (R := Rring) n H (mtr H) i j)%R).
    { unfold mmul at 1. unfold mtr. rewrite (rsum_ext n _ (fun l => (s i * s j * (H i l * H j l))%R)).
      - rewrite rsum_mul_l. reflexivity.
      - intros l Hl. rewrite !dg_l by auto. rring. }
    rewrite F in E. unfold dg in E. unfold mid. destruct (Nat.eqb_spec i j) as [->|Hn].
    + apply (Rmult_eq_reg_l (s j * s j)); [rewrite E; rring|]. apply Rmult_integral_contrapositive; auto.
    + apply (Rmult_eq_reg_l (s i * s j)); [rewrite E; rring|]. apply Rmult_integral_contrapositive; auto.
  - unfold G, H. rewrite !meq_assoc. apply feq_mul; [apply feq_refl|].
    rewrite <- (meq_assoc k q (dg s)). rewrite <- (meq_assoc k q Um).
    apply feq_mul; [|apply feq_refl]. exact HM.
Qed.

Lemma ess_of_orth m n k (A U : rmat) s (V : rmat) : orth_cols (R := Rring) m k U -> orth_rows (R := Rring) k n V ->
  (forall i, i < k -> (0 <= s i)%R) -> (forall i j, i <= j -> j < k -> (s j <= s i)%R) ->
  feq (R := Rring) m n (mmul k U (mmul k (dg s) V)) A -> ess_svd m n k A U s V.
Proof. intros. split; auto; intros; auto. Qed.
