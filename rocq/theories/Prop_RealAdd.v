(** Properties C63-C66: the truncating additions of LowRank matrices over the real numbers. *)
From Coq Require Import List Arith ZArith Lia Bool String QArith Reals Qreals Lra.
From Verif Require Import Prelude Ring MatFun Matrix MatOps MatSpec Lapack Gemm LowRankAdd LowRankAddProofs SvdRank Householder HouseReal Rrqr RrqrRank RrqrLr Spectral RealSvd RealLapack EckartYoung RealAdd RealAddEx.
Import ListNotations.
Local Open Scope nat_scope.

(** Squared Frobenius norm, and squared distance of the matrices a + b and X. *)
Definition frob2 (m n : nat) (A : rmat) : R := rsum m (fun i => rsum n (fun j => (A i j * A i j)%R)).
Definition sum_of (a b : rlowrank) : rmat := fun i j => (lr_ent a i j + lr_ent b i j)%R.
Definition dist2 (a b : rlowrank) (X : rmat) : R := frob2 (l_r a) (l_c a) (fun i j => (sum_of a b i j - X i j)%R).

(** Columns of U, and rows of V, are orthonormal. *)
Definition ortho_cols (m k : nat) (U : rmat) : Prop :=
  forall i j, i < k -> j < k -> rsum m (fun l => (U l i * U l j)%R) = if Nat.eqb i j then 1%R else 0%R.
Definition ortho_rows (k n : nat) (V : rmat) : Prop :=
  forall i j, i < k -> j < k -> rsum n (fun l => (V i l * V j l)%R) = if Nat.eqb i j then 1%R else 0%R.

(** The routines of LAPACK return what their documentation says. *)
Definition library (L : lapack Rring) : Prop := lapack_ok L /\ lapack_orth L /\ lapack_sorted L.

Lemma dist2_err a b X : dist2 a b X = add_err a b X.
Proof.
  unfold dist2, frob2, add_err, sumsq. apply rsum_ext. intros i Hi. apply rsum_ext. intros j Hj.
  unfold sum_of, msub, madd. rring.
Qed.
Lemma frob2_sum a b : frob2 (l_r a) (l_c a) (sum_of a b) = sumsq (R := Rring) (l_r a) (l_c a) (madd (lr_ent a) (lr_ent b)).
Proof. reflexivity. Qed.
Lemma best_dist a b c : best_sum a b c -> forall Y Z : rmat, (dist2 a b (lr_ent c) <= dist2 a b (mmul (R := Rring) (l_rank c) Y Z))%R.
Proof. intros H Y Z. rewrite !dist2_err. apply H. Qed.
Lemma ortho_cols_eq m k U : ortho_cols m k U <-> orth_cols (R := Rring) m k U.
Proof. reflexivity. Qed.
Lemma ortho_rows_eq k n V : ortho_rows k n V <-> orth_rows (R := Rring) k n V.
Proof. reflexivity. Qed.

(** ** C63: best approximation *)

(** rounded_addition: whatever the operands, no matrix of the rank of the result is closer to
    the sum. *)
Lemma rounded_best L (a b : rlowrank) : library L -> lr_wf a -> lr_wf b -> l_r a = l_r b -> l_c a = l_c b ->
  (if use_eps a then 0 < rounded_width a b else l_rank a <= rounded_width a b) ->
  exists c, rounded_addition L a b = Ok c /\ l_r c = l_r a /\ l_c c = l_c a /\
    (use_eps a = false -> l_rank c = l_rank a) /\
    forall Y Z : rmat, (dist2 a b (lr_ent c) <= dist2 a b (mmul (R := Rring) (l_rank c) Y Z))%R.
Proof.
  intros [H1 [H2 H3]] WA WB Er Ec Hk.
  destruct (rounded_real L H1 H2 H3 a b WA WB Er Ec Hk) as [c [E [W [E1 [E2 [E3 [E4 [E5 [E6 [E7 [E8 [E9 _]]]]]]]]]]]].
  exists c. split; auto. split; auto. split; auto. split; [intros He; rewrite He in E5; exact E5|]. apply best_dist; auto.
Qed.

Theorem C63_rounded : forall L (a b : rlowrank), library L -> lr_wf a -> lr_wf b -> l_r a = l_r b -> l_c a = l_c b ->
  (let k := d_c (l_S a) + d_c (l_S b) in let w := Nat.min (Nat.min (l_r a) k) (Nat.min k (l_c a)) in
   if use_eps a then 0 < w else l_rank a <= w) ->
  exists c, rounded_addition L a b = Ok c /\ l_r c = l_r a /\ l_c c = l_c a /\
    (use_eps a = false -> l_rank c = l_rank a) /\
    forall Y Z : rmat, (dist2 a b (lr_ent c) <= dist2 a b (mmul (R := Rring) (l_rank c) Y Z))%R.
Proof. exact rounded_best. Qed.
Print Assumptions C63_rounded.

(** fast_rounded_addition: the same if the first operand, to which is added, has orthonormal
    bases. Nothing is asked of the bases of the second operand. *)
Lemma fast_best L (a b : rlowrank) : library L -> lr_wf a -> lr_wf b -> l_r a = l_r b -> l_c a = l_c b ->
  use_eps a = false -> d_r (l_S b) <= l_r a -> d_c (l_S b) <= l_c a ->
  l_rank a <= Nat.min (d_r (l_S a) + d_r (l_S b)) (d_c (l_S a) + d_c (l_S b)) ->
  ortho_cols (l_r a) (d_r (l_S a)) (d_e (l_U a)) -> ortho_rows (d_c (l_S a)) (l_c a) (d_e (l_V a)) ->
  exists c, fast_rounded_addition L a b = Ok c /\ l_r c = l_r a /\ l_c c = l_c a /\ l_rank c = l_rank a /\
    forall Y Z : rmat, (dist2 a b (lr_ent c) <= dist2 a b (mmul (R := Rring) (l_rank c) Y Z))%R.
Proof.
  intros [H1 [H2 H3]] WA WB Er Ec He Hb0 Hb1 Hk OA OV.
  destruct (fast_real L H1 H2 H3 a b WA WB Er Ec He Hb0 Hb1 Hk OA OV) as [c [E [W [E1 [E2 [E3 [E4 [E5 [E6 _]]]]]]]]].
  exists c. repeat (split; [assumption|]). apply best_dist; auto.
Qed.

Theorem C63_fast : forall L (a b : rlowrank), library L -> lr_wf a -> lr_wf b -> l_r a = l_r b -> l_c a = l_c b ->
  use_eps a = false -> d_r (l_S b) <= l_r a -> d_c (l_S b) <= l_c a ->
  l_rank a <= Nat.min (d_r (l_S a) + d_r (l_S b)) (d_c (l_S a) + d_c (l_S b)) ->
  ortho_cols (l_r a) (d_r (l_S a)) (d_e (l_U a)) -> ortho_rows (d_c (l_S a)) (l_c a) (d_e (l_V a)) ->
  exists c, fast_rounded_addition L a b = Ok c /\ l_r c = l_r a /\ l_c c = l_c a /\ l_rank c = l_rank a /\
    forall Y Z : rmat, (dist2 a b (lr_ent c) <= dist2 a b (mmul (R := Rring) (l_rank c) Y Z))%R.
Proof. exact fast_best. Qed.
Print Assumptions C63_fast.

(** LowRank += LowRank with every setting of FRANK_LRA but "naive". *)
Lemma addition_best L compress setting (a b : rlowrank) : library L -> setting <> "naive"%string ->
  fits a -> fits b -> l_r a = l_r b -> l_c a = l_c b ->
  (use_eps a = false -> setting <> "rounded_addition"%string ->
     ortho_cols (l_r a) (l_rank a) (d_e (l_U a)) /\ ortho_rows (l_rank a) (l_c a) (d_e (l_V a))) ->
  exists c, lr_addition L compress setting a b = Ok c /\ l_r c = l_r a /\ l_c c = l_c a /\
    (use_eps a = false -> l_rank c = l_rank a) /\
    forall Y Z : rmat, (dist2 a b (lr_ent c) <= dist2 a b (mmul (R := Rring) (l_rank c) Y Z))%R.
Proof.
  intros [H1 [H2 H3]] Hn FA FB Er Ec HO.
  destruct (lr_addition_real L H1 H2 H3 compress setting a b Hn FA FB Er Ec HO) as [c [E [W [E1 [E2 [E3 [E4 [E5 [E6 _]]]]]]]]].
  exists c. repeat (split; [assumption|]). split; [intros He; rewrite He in E4; exact E4|]. apply best_dist; auto.
Qed.

Theorem C63_addition : forall L compress setting (a b : rlowrank), library L -> setting <> "naive"%string ->
  fits a -> fits b -> l_r a = l_r b -> l_c a = l_c b ->
  (use_eps a = false -> setting <> "rounded_addition"%string ->
     ortho_cols (l_r a) (l_rank a) (d_e (l_U a)) /\ ortho_rows (l_rank a) (l_c a) (d_e (l_V a))) ->
  exists c, lr_addition L compress setting a b = Ok c /\ l_r c = l_r a /\ l_c c = l_c a /\
    (use_eps a = false -> l_rank c = l_rank a) /\
    forall Y Z : rmat, (dist2 a b (lr_ent c) <= dist2 a b (mmul (R := Rring) (l_rank c) Y Z))%R.
Proof. exact addition_best. Qed.
Print Assumptions C63_addition.

(** Without orthonormal bases the fast addition can keep the wrong part of the sum, whatever
    the library. The operands are diag(2, 0), as product of (2, 0)^T and (1, 0), and
    diag(0, 3/2); the result is diag(0, 3/2). *)
Lemma fast_not_best : exists a b : rlowrank, fits a /\ fits b /\ l_r a = l_r b /\ l_c a = l_c b /\ use_eps a = false /\
  forall L, library L -> exists c, fast_rounded_addition L a b = Ok c /\
    ~ forall Y Z : rmat, (dist2 a b (lr_ent c) <= dist2 a b (mmul (R := Rring) (l_rank c) Y Z))%R.
Proof.
  exists lr_two, lr_three. split; [|split].
  - split; [exact lr_two_wf|]. repeat split; cbn; lia.
  - split; [exact lr_three_wf|]. repeat split; cbn; lia.
  - do 3 (split; [reflexivity|]); intros L [H1 [H2 H3]].
    destruct (fast_needs_orth L H1 H2 H3) as [c [E HN]]. exists c. split; [exact E|exact HN].
Qed.

Theorem C63_orthonormal_needed_refuted : exists a b : rlowrank, fits a /\ fits b /\ l_r a = l_r b /\ l_c a = l_c b /\ use_eps a = false /\
  forall L, library L -> exists c, fast_rounded_addition L a b = Ok c /\
    ~ forall Y Z : rmat, (dist2 a b (lr_ent c) <= dist2 a b (mmul (R := Rring) (l_rank c) Y Z))%R.
Proof. exact fast_not_best. Qed.
Print Assumptions C63_orthonormal_needed_refuted.

(** ** C64: bases and singular values of the result *)

Lemma values_of c : sorted_values c ->
  (forall i j, i < l_rank c -> j < l_rank c -> i <> j -> d_e (l_S c) i j = 0%R) /\
  (forall i, i < l_rank c -> (0 <= d_e (l_S c) i i)%R) /\
  (forall i j, i <= j -> j < l_rank c -> (d_e (l_S c) j j <= d_e (l_S c) i i)%R).
Proof. intros [[E1 E2] H]. unfold singular in H. rewrite E1, E2, Nat.min_id in H. exact H. Qed.

(** rounded_addition returns orthonormal bases and sorted singular values. *)
Lemma rounded_bases L (a b : rlowrank) : library L -> lr_wf a -> lr_wf b -> l_r a = l_r b -> l_c a = l_c b ->
  (if use_eps a then 0 < rounded_width a b else l_rank a <= rounded_width a b) ->
  exists c, rounded_addition L a b = Ok c /\ lr_wf c /\
    ortho_cols (l_r a) (l_rank c) (d_e (l_U c)) /\ ortho_rows (l_rank c) (l_c a) (d_e (l_V c)) /\
    (forall i j, i < l_rank c -> j < l_rank c -> i <> j -> d_e (l_S c) i j = 0%R) /\
    (forall i, i < l_rank c -> (0 <= d_e (l_S c) i i)%R) /\
    (forall i j, i <= j -> j < l_rank c -> (d_e (l_S c) j j <= d_e (l_S c) i i)%R).
Proof.
  intros [H1 [H2 H3]] WA WB Er Ec Hk.
  destruct (rounded_real L H1 H2 H3 a b WA WB Er Ec Hk) as [c [E [W [E1 [E2 [E3 [E4 [E5 [E6 [E7 [E8 _]]]]]]]]]]].
  exists c. split; auto. split; auto. split; auto. split; auto. exact (values_of c E8).
Qed.

Theorem C64_rounded : forall L (a b : rlowrank), library L -> lr_wf a -> lr_wf b -> l_r a = l_r b -> l_c a = l_c b ->
  (let k := d_c (l_S a) + d_c (l_S b) in let w := Nat.min (Nat.min (l_r a) k) (Nat.min k (l_c a)) in
   if use_eps a then 0 < w else l_rank a <= w) ->
  exists c, rounded_addition L a b = Ok c /\ lr_wf c /\
    ortho_cols (l_r a) (l_rank c) (d_e (l_U c)) /\ ortho_rows (l_rank c) (l_c a) (d_e (l_V c)) /\
    (forall i j, i < l_rank c -> j < l_rank c -> i <> j -> d_e (l_S c) i j = 0%R) /\
    (forall i, i < l_rank c -> (0 <= d_e (l_S c) i i)%R) /\
    (forall i j, i <= j -> j < l_rank c -> (d_e (l_S c) j j <= d_e (l_S c) i i)%R).
Proof. exact rounded_bases. Qed.
Print Assumptions C64_rounded.

(** fast_rounded_addition preserves orthonormal bases as long as it keeps no singular value 0. *)
Lemma fast_bases L (a b : rlowrank) : library L -> lr_wf a -> lr_wf b -> l_r a = l_r b -> l_c a = l_c b ->
  use_eps a = false -> d_r (l_S b) <= l_r a -> d_c (l_S b) <= l_c a ->
  l_rank a <= Nat.min (d_r (l_S a) + d_r (l_S b)) (d_c (l_S a) + d_c (l_S b)) ->
  ortho_cols (l_r a) (d_r (l_S a)) (d_e (l_U a)) -> ortho_rows (d_c (l_S a)) (l_c a) (d_e (l_V a)) ->
  exists c, fast_rounded_addition L a b = Ok c /\ lr_wf c /\
    ((forall i, i < l_rank c -> d_e (l_S c) i i <> 0%R) ->
       ortho_cols (l_r a) (l_rank c) (d_e (l_U c)) /\ ortho_rows (l_rank c) (l_c a) (d_e (l_V c))) /\
    (forall i j, i < l_rank c -> j < l_rank c -> i <> j -> d_e (l_S c) i j = 0%R) /\
    (forall i, i < l_rank c -> (0 <= d_e (l_S c) i i)%R) /\
    (forall i j, i <= j -> j < l_rank c -> (d_e (l_S c) j j <= d_e (l_S c) i i)%R).
Proof.
  intros [H1 [H2 H3]] WA WB Er Ec He Hb0 Hb1 Hk OA OV.
  destruct (fast_real L H1 H2 H3 a b WA WB Er Ec He Hb0 Hb1 Hk OA OV) as [c [E [W [E1 [E2 [E3 [E4 [E5 [E6 E7]]]]]]]]].
  exists c. split; auto. split; auto. split; auto. exact (values_of c E5).
Qed.

Theorem C64_fast : forall L (a b : rlowrank), library L -> lr_wf a -> lr_wf b -> l_r a = l_r b -> l_c a = l_c b ->
  use_eps a = false -> d_r (l_S b) <= l_r a -> d_c (l_S b) <= l_c a ->
  l_rank a <= Nat.min (d_r (l_S a) + d_r (l_S b)) (d_c (l_S a) + d_c (l_S b)) ->
  ortho_cols (l_r a) (d_r (l_S a)) (d_e (l_U a)) -> ortho_rows (d_c (l_S a)) (l_c a) (d_e (l_V a)) ->
  exists c, fast_rounded_addition L a b = Ok c /\ lr_wf c /\
    ((forall i, i < l_rank c -> d_e (l_S c) i i <> 0%R) ->
       ortho_cols (l_r a) (l_rank c) (d_e (l_U c)) /\ ortho_rows (l_rank c) (l_c a) (d_e (l_V c))) /\
    (forall i j, i < l_rank c -> j < l_rank c -> i <> j -> d_e (l_S c) i j = 0%R) /\
    (forall i, i < l_rank c -> (0 <= d_e (l_S c) i i)%R) /\
    (forall i j, i <= j -> j < l_rank c -> (d_e (l_S c) j j <= d_e (l_S c) i i)%R).
Proof. exact fast_bases. Qed.
Print Assumptions C64_fast.

(** With a library that chooses other vectors for the singular value 0, they can get lost: the
    result of diag(1, 0) - diag(1, 0) has a U with two equal columns. *)
Lemma fast_bases_lost : exists L (a b c : rlowrank), library L /\ fits a /\ fits b /\ l_r a = l_r b /\ l_c a = l_c b /\
  use_eps a = false /\ ortho_cols (l_r a) (l_rank a) (d_e (l_U a)) /\ ortho_rows (l_rank a) (l_c a) (d_e (l_V a)) /\
  fast_rounded_addition L a b = Ok c /\ ~ ortho_cols (l_r a) (l_rank a) (d_e (l_U c)).
Proof.
  destruct fast_loses_orth as [c [E HN]]. exists other_lapack, lr_one, lr_minus, c.
  split; [exact (conj other_ok (conj other_orth other_sorted))|].
  split; [split; [exact lr_one_wf|]; repeat split; cbn; lia|].
  split; [split; [exact lr_minus_wf|]; repeat split; cbn; lia|].
  do 3 (split; [reflexivity|]). split; [exact lr_one_U|]. split; [exact lr_one_V|]. split; [exact E|exact HN].
Qed.

Theorem C64_fast_bases_refuted : exists L (a b c : rlowrank), library L /\ fits a /\ fits b /\ l_r a = l_r b /\ l_c a = l_c b /\
  use_eps a = false /\ ortho_cols (l_r a) (l_rank a) (d_e (l_U a)) /\ ortho_rows (l_rank a) (l_c a) (d_e (l_V a)) /\
  fast_rounded_addition L a b = Ok c /\ ~ ortho_cols (l_r a) (l_rank a) (d_e (l_U c)).
Proof. exact fast_bases_lost. Qed.
Print Assumptions C64_fast_bases_refuted.

(** ** C65: fixed accuracy *)

(** With a nonzero eps, LowRank += LowRank loses at most eps |a + b|_F, whatever the setting
    (but "naive") and whatever the bases. *)
Lemma addition_accuracy L compress setting (a b : rlowrank) : library L -> setting <> "naive"%string ->
  fits a -> fits b -> l_r a = l_r b -> l_c a = l_c b -> ~ (l_eps a == 0)%Q -> (0 <= Q2R (l_eps a))%R ->
  exists c, lr_addition L compress setting a b = Ok c /\ l_r c = l_r a /\ l_c c = l_c a /\ l_eps c = l_eps a /\ 0 < l_rank c /\
    (sqrt (dist2 a b (lr_ent c)) <= Q2R (l_eps a) * sqrt (frob2 (l_r a) (l_c a) (sum_of a b)))%R.
Proof.
  intros [H1 [H2 H3]] Hn FA FB Er Ec Hq Hp.
  assert (He : use_eps a = true).
  { unfold use_eps. destruct (Qeq_bool (l_eps a) 0) eqn:E; auto. apply Qeq_bool_eq in E. contradiction. }
  destruct (lr_addition_real L H1 H2 H3 compress setting a b Hn FA FB Er Ec) as [c [E [W [E1 [E2 [E3 [E4 [E5 [E6 E7]]]]]]]]].
  { congruence. }
  exists c. rewrite He in E4. repeat (split; [assumption|]). rewrite dist2_err, frob2_sum. auto.
Qed.

Theorem C65_accuracy : forall L compress setting (a b : rlowrank), library L -> setting <> "naive"%string ->
  fits a -> fits b -> l_r a = l_r b -> l_c a = l_c b -> ~ (l_eps a == 0)%Q -> (0 <= Q2R (l_eps a))%R ->
  exists c, lr_addition L compress setting a b = Ok c /\ l_r c = l_r a /\ l_c c = l_c a /\ l_eps c = l_eps a /\ 0 < l_rank c /\
    (sqrt (dist2 a b (lr_ent c)) <= Q2R (l_eps a) * sqrt (frob2 (l_r a) (l_c a) (sum_of a b)))%R.
Proof. exact addition_accuracy. Qed.
Print Assumptions C65_accuracy.

(** ** C66: such a library exists *)

(** Every real matrix has a singular value decomposition. *)
Lemma svd_exists m n (A : rmat) : exists (U V : rmat) (s : nat -> R), let k := Nat.min m n in
  ortho_cols m k U /\ ortho_rows k n V /\
  (forall i, i < k -> (0 <= s i)%R) /\ (forall i j, i <= j -> j < k -> (s j <= s i)%R) /\
  forall i j, i < m -> j < n -> A i j = rsum k (fun l => (U i l * (s l * V l j))%R).
Proof.
  destruct (real_svd_dense_ok (Dn m n A)) as [U [S1 [V [_ [HS [HU [HV HO]]]]]]].
  destruct HS as [E1 [E2 [E3 [E4 [E5 [E6 [E7 E8]]]]]]]. cbn [d_r d_c d_e] in *.
  exists (d_e U), (d_e V), (fun i => d_e S1 i i). cbv zeta. rewrite E1, E2 in HU. rewrite E5, E6 in HV.
  destruct HO as [O1 [O2 O3]]. rewrite E3, E4, Nat.min_id in O2, O3.
  split; [exact HU|]. split; [exact HV|]. split; [exact O2|]. split; [exact O3|].
  intros i j Hi Hj. rewrite <- (E8 i j Hi Hj). unfold mmul at 1. apply rsum_ext. intros l Hl.
  rewrite (diag_mul (R := Rring) _ _ _ _ _ E7 Hl). reflexivity.
Qed.

Theorem C66_svd_exists : forall m n (A : rmat), exists (U V : rmat) (s : nat -> R), let k := Nat.min m n in
  ortho_cols m k U /\ ortho_rows k n V /\
  (forall i, i < k -> (0 <= s i)%R) /\ (forall i j, i <= j -> j < k -> (s j <= s i)%R) /\
  forall i j, i < m -> j < n -> A i j = rsum k (fun l => (U i l * (s l * V l j))%R).
Proof. exact svd_exists. Qed.
Print Assumptions C66_svd_exists.

(** The modelled qr (qr.cpp:65-90) and rq (rq.cpp:43-70) with the reflectors of dlarfg, this
    decomposition, and find_svd_truncation_rank (misc.cpp:134-147) meet the contract. *)
Theorem C66_library : library real_lapack.
Proof. exact (conj real_lapack_ok (conj real_lapack_orth real_lapack_sorted)). Qed.
Print Assumptions C66_library.

(** So nothing is left to assume: *)
Theorem C66_addition : forall compress setting (a b : rlowrank), setting <> "naive"%string ->
  fits a -> fits b -> l_r a = l_r b -> l_c a = l_c b ->
  (use_eps a = false -> setting <> "rounded_addition"%string ->
     ortho_cols (l_r a) (l_rank a) (d_e (l_U a)) /\ ortho_rows (l_rank a) (l_c a) (d_e (l_V a))) ->
  exists c, lr_addition real_lapack compress setting a b = Ok c /\ l_r c = l_r a /\ l_c c = l_c a /\
    (use_eps a = false -> l_rank c = l_rank a) /\
    forall Y Z : rmat, (dist2 a b (lr_ent c) <= dist2 a b (mmul (R := Rring) (l_rank c) Y Z))%R.
Proof. exact (fun compress setting a b => addition_best real_lapack compress setting a b C66_library). Qed.
Print Assumptions C66_addition.

(** ** Examples *)

(** diag(1, 0) in bases with two columns: the fast addition of its negative gives 0. *)
Example fast_example : exists c, fast_rounded_addition real_lapack lr_one lr_minus = Ok c /\ dist2 lr_one lr_minus (lr_ent c) = 0%R.
Proof.
  destruct (fast_best real_lapack lr_one lr_minus C66_library lr_one_wf lr_minus_wf eq_refl eq_refl eq_refl) as [c [E [_ [_ [Ek H]]]]];
    try (cbn; lia); [exact lr_one_U|exact lr_one_V|].
  exists c. split; auto. specialize (H rzero rzero). apply Rle_antisym.
  - eapply Rle_trans; [exact H|]. right. rewrite Ek. unfold dist2, frob2, sum_of. cbn [lr_one l_r l_c l_rank].
    apply (sum_zero' (R := Rring)). intros i Hi. apply (sum_zero' (R := Rring)). intros j Hj.
    pose proof (one_minus i j Hi Hj) as A. unfold madd, mzero in A. simpl in A.
    replace (mmul (R := Rring) 2 rzero rzero i j) with 0%R by (unfold mmul, rzero; simpl; ring).
    simpl. change (lr_ent (R := Rring) lr_one i j + lr_ent (R := Rring) lr_minus i j = 0)%R in A. rewrite A. ring.
  - unfold dist2, frob2. apply sum_nonneg. intros. apply sum_nonneg. intros. apply Rle_0_sqr.
Qed.

(** diag(2, 0) + diag(0, 3/2) by rounded_addition, which does not ask for orthonormal bases:
    the distance to the sum is at most 3/2. *)
Example rounded_example : exists c, rounded_addition real_lapack lr_two lr_three = Ok c /\ l_rank c = 1 /\
  (dist2 lr_two lr_three (lr_ent c) <= 9 / 4)%R.
Proof.
  destruct (rounded_best real_lapack lr_two lr_three C66_library lr_two_wf lr_three_wf eq_refl eq_refl) as [c [E [_ [_ [Ek H]]]]]; [cbn; lia|].
  specialize (Ek eq_refl). exists c. split; auto. split; auto.
  specialize (H (fun i _ => if i =? 0 then 2%R else 0%R) (fun _ j => if j =? 0 then 1%R else 0%R)).
  eapply Rle_trans; [exact H|]. rewrite Ek. right.
  unfold dist2, frob2, sum_of, lr_ent, mmul. simpl. field.
Qed.
