(** LowRank += LowRank over the real numbers: how good an approximation of the sum is kept. *)
From Coq Require Import List Arith ZArith Lia Bool String QArith Reals Qreals Lra Ring_theory Ring.
From Verif Require Import Prelude Ring MatFun MatSetoid Matrix MatOps MatSpec Lapack Gemm LowRankAdd LowRankAddProofs Reflect ReflectSpec SampledTheorems SvdRank Householder HouseQr HouseReal Rrqr RrqrRank RrqrLr Spectral RealSvd RealLapack EckartYoung.
Import ListNotations.
Local Open Scope nat_scope.

Notation rlowrank := (lowrank Rring).

(** Square of the Frobenius norm of a + b - X. *)
Definition add_err (a b : rlowrank) (X : rmat) : R :=
  sumsq (R := Rring) (l_r a) (l_c a) (msub (madd (lr_ent a) (lr_ent b)) X).

(** c is as close to a + b as any product of two matrices with [l_rank c] columns and rows. *)
Definition best_sum (a b c : rlowrank) : Prop :=
  forall Y Z : rmat, (add_err a b (lr_ent c) <= add_err a b (mmul (l_rank c) Y Z))%R.

(** The middle factor holds singular values, as many as the rank says. *)
Definition sorted_values (c : rlowrank) : Prop := square_rank c /\ singular (l_S c).

Lemma singular_dg (S1 : rdense) k : singular S1 -> d_r S1 = k -> d_c S1 = k -> feq (R := Rring) k k (d_e S1) (dg (fun i => d_e S1 i i)).
Proof.
  intros [H _] E1 E2 i j Hi Hj. unfold dg. destruct (Nat.eqb_spec i j) as [->|Hn]; auto. apply H; congruence.
Qed.

Lemma rounds_dropped (a b c : rlowrank) r k (U : rmat) (Sd : rdense) (V : rmat) :
  rounds a b c r k U (d_e Sd) V -> add_err a b (lr_ent c) = sumsq (R := Rring) (l_r a) (l_c a) (dropped r k U (d_e Sd) V).
Proof.
  intros [_ [_ [_ [_ [_ [_ [_ [_ [_ [_ [_ [_ [_ F]]]]]]]]]]]]].
  apply (sumsq_ext (R := Rring)). intros i j Hi Hj. unfold msub. rewrite <- (F i j Hi Hj). unfold madd. rring.
Qed.

Section Ess.
Variables (a b c : rlowrank) (r k : nat) (U : rmat) (Sd : rdense) (V : rmat).
Hypothesis HR : rounds a b c r k U (d_e Sd) V.
Hypothesis HS : singular Sd.
Hypothesis D1 : d_r Sd = k.
Hypothesis D2 : d_c Sd = k.
Hypothesis HE : ess_svd (l_r a) (l_c a) k (madd (lr_ent a) (lr_ent b)) U (fun i => d_e Sd i i) V.

Lemma ess_err : add_err a b (lr_ent c) = tsq (fun i => d_e Sd i i) r k.
Proof.
  rewrite (rounds_dropped a b c r k U Sd V HR). rewrite <- (ess_dropped _ _ _ _ _ _ _ r HE).
  - apply (sumsq_ext (R := Rring)). intros i j _ _. unfold dropped. apply rsum_ext. intros l Hl.
    unfold dg. rewrite Nat.eqb_refl. reflexivity.
  - apply HR.
Qed.

Lemma ess_best_sum : best_sum a b c.
Proof.
  intros Y Z. rewrite ess_err. assert (Er : l_rank c = r) by apply HR. rewrite Er.
  apply (ess_best _ _ _ _ _ _ _ r Y Z HE). apply HR.
Qed.

Lemma ess_sorted : sorted_values c.
Proof.
  destruct HR as [_ [_ [_ [E0 [_ [E1 [E2 [Hk [_ [_ [_ [FS _]]]]]]]]]]]].
  destruct HS as [S1 [S2 S3]]. split; [split; congruence|]. unfold singular. rewrite E1, E2.
  rewrite D1, D2 in *. rewrite Nat.min_id in *. split; [|split].
  - intros i j Hi Hj Hn. rewrite FS by auto. apply S1; lia.
  - intros i Hi. rewrite FS by auto. apply S2; lia.
  - intros i j Hij Hj. rewrite !FS by lia. apply S3; lia.
Qed.

Lemma ess_sum_norm : sumsq (R := Rring) (l_r a) (l_c a) (madd (lr_ent a) (lr_ent b)) = tsq (fun i => d_e Sd i i) 0 k.
Proof. exact (ess_norm _ _ _ _ _ _ _ HE). Qed.

Lemma ess_accuracy eps : r = svd_rank Sd eps -> (0 <= eps)%R ->
  (sqrt (add_err a b (lr_ent c)) <= eps * sqrt (sumsq (R := Rring) (l_r a) (l_c a) (madd (lr_ent a) (lr_ent b))))%R.
Proof.
  intros Hr He. pose proof (svd_rank_accuracy Sd eps HS He) as A. cbv zeta in A.
  rewrite (sumsq_diag Sd HS) in A. rewrite D1, D2, Nat.min_id in A. rewrite <- Hr in A.
  rewrite ess_err, ess_sum_norm. exact A.
Qed.
End Ess.

Section Add.
Variable L : lapack Rring.
Hypothesis HL : lapack_ok L.
Hypothesis HO : lapack_orth L.
Hypothesis HS : lapack_sorted L.

Definition rounded_width (a b : rlowrank) : nat :=
  Nat.min (Nat.min (l_r a) (d_c (l_S a) + d_c (l_S b))) (Nat.min (d_c (l_S a) + d_c (l_S b)) (l_c a)).

Lemma rounded_real (a b : rlowrank) : lr_wf a -> lr_wf b -> l_r a = l_r b -> l_c a = l_c b ->
  (if use_eps a then 0 < rounded_width a b else l_rank a <= rounded_width a b) ->
  exists c, rounded_addition L a b = Ok c /\ lr_wf c /\ l_r c = l_r a /\ l_c c = l_c a /\ l_eps c = l_eps a /\
    l_rank c <= rounded_width a b /\ (if use_eps a then 0 < l_rank c else l_rank c = l_rank a) /\
    orth_cols (R := Rring) (l_r a) (l_rank c) (d_e (l_U c)) /\ orth_rows (R := Rring) (l_rank c) (l_c a) (d_e (l_V c)) /\
    sorted_values c /\ best_sum a b c /\
    (use_eps a = true -> (0 <= Q2R (l_eps a))%R ->
      (sqrt (add_err a b (lr_ent c)) <= Q2R (l_eps a) * sqrt (sumsq (R := Rring) (l_r a) (l_c a) (madd (lr_ent a) (lr_ent b))))%R).
Proof.
  intros WA WB Er Ec Hk.
  destruct (rounded_full L HL a b WA WB Er Ec Hk) as [c [r [U [Sm [V [E [HR [Hr [HUV [M [Um [Sd [Vm [ES [D1 [D2 [<- Hrk]]]]]]]]]]]]]]]]].
  fold (rounded_width a b) in *. set (k := rounded_width a b) in *.
  destruct (HUV HO) as [OU OV]. pose proof (ls_svd _ HS _ _ _ _ ES) as SD.
  pose proof (singular_dg Sd k SD D1 D2) as FD.
  pose proof HR as [R1 [R2 [R3 [R4 [R5 [R6 [R7 [R8 [R9 [R10 [R11 [R12 [R13 R14]]]]]]]]]]]]].
  assert (HE : ess_svd (l_r a) (l_c a) k (madd (lr_ent a) (lr_ent b)) U (fun i => d_e Sd i i) V).
  { destruct SD as [_ [S2 S3]]. rewrite D1, D2, Nat.min_id in *. apply ess_of_orth; auto.
    eapply feq_trans; [|exact R10]. apply feq_mul; [apply feq_refl|]. apply feq_mul; [apply feq_sym; exact FD|apply feq_refl]. }
  exists c. split; auto. split; auto. do 3 (split; [congruence|]). rewrite R4. split; auto. split; auto.
  split; [|split; [|split; [|split]]].
  - intros i j Hi Hj. rewrite <- (OU i j) by lia. unfold mmul, mtr. apply rsum_ext. intros l Hl. rewrite !R11 by auto. reflexivity.
  - intros i j Hi Hj. rewrite <- (OV i j) by lia. unfold mmul, mtr. apply rsum_ext. intros l Hl. rewrite !R13 by auto. reflexivity.
  - exact (ess_sorted a b c r k U Sd V HR SD D1 D2).
  - exact (ess_best_sum a b c r k U Sd V HR HE).
  - intros He Hp. apply (ess_accuracy a b c r k U Sd V HR SD D1 D2 HE); auto. rewrite (Hrk He). apply (ls_rank _ HS).
Qed.

(** The fast variant: only a has to have orthonormal bases. *)
Lemma fast_real (a b : rlowrank) : lr_wf a -> lr_wf b -> l_r a = l_r b -> l_c a = l_c b ->
  use_eps a = false -> d_r (l_S b) <= l_r a -> d_c (l_S b) <= l_c a ->
  l_rank a <= Nat.min (d_r (l_S a) + d_r (l_S b)) (d_c (l_S a) + d_c (l_S b)) ->
  orth_cols (R := Rring) (l_r a) (d_r (l_S a)) (d_e (l_U a)) -> orth_rows (R := Rring) (d_c (l_S a)) (l_c a) (d_e (l_V a)) ->
  exists c, fast_rounded_addition L a b = Ok c /\ lr_wf c /\ l_r c = l_r a /\ l_c c = l_c a /\ l_eps c = l_eps a /\
    l_rank c = l_rank a /\ sorted_values c /\ best_sum a b c /\
    ((forall i, i < l_rank c -> d_e (l_S c) i i <> 0%R) ->
       orth_cols (R := Rring) (l_r a) (l_rank c) (d_e (l_U c)) /\ orth_rows (R := Rring) (l_rank c) (l_c a) (d_e (l_V c))).
Proof.
  intros WA WB Er Ec He Hb0 Hb1 Hk OA OV.
  destruct (fast_full L HL a b WA WB Er Ec He Hb0 Hb1 Hk) as [c [M [Um [Sd [Vm [Uc [Vc [E [HR [ES [HSV [MR [MC [FS [IU [IV _]]]]]]]]]]]]]]]].
  assert (KM : Nat.min (d_r M) (d_c M) = Nat.min (d_r (l_S a) + d_r (l_S b)) (d_c (l_S a) + d_c (l_S b))) by congruence.
  set (k := Nat.min (d_r (l_S a) + d_r (l_S b)) (d_c (l_S a) + d_c (l_S b))) in *.
  specialize (IU HO OA). specialize (IV HO OV). pose proof (ls_svd _ HS _ _ _ _ ES) as SD.
  destruct (lh_svd _ HO _ _ _ _ ES) as [OU OVm].
  destruct HSV as [V1 [V2 [V3 [V4 [V5 [V6 [V7 V8]]]]]]]. rewrite KM in *. rewrite V1, V2 in OU. rewrite V5, V6 in OVm.
  pose proof (singular_dg Sd k SD V3 V4) as FD.
  pose proof HR as [R1 [R2 [R3 [R4 [R5 [R6 [R7 [R8 [R9 [R10 [R11 [R12 [R13 R14]]]]]]]]]]]]].
  assert (HE : ess_svd (l_r a) (l_c a) k (madd (lr_ent a) (lr_ent b)) (mmul (R := Rring) (d_r M) Uc (d_e Um)) (fun i => d_e Sd i i) (mmul (R := Rring) (d_c M) (d_e Vm) Vc)).
  { pose proof SD as [_ [S2 S3]]. rewrite V3, V4, Nat.min_id in S2, S3.
    destruct (ess_compose (l_r a) (l_c a) (d_r M) (d_c M) k (d_e M) (d_e Um) (d_e Vm) Uc Vc (fun i => d_e Sd i i)) as [A1 A2 A3 A4 A5]; auto.
    - eapply feq_trans; [|exact V8]. apply feq_mul; [apply feq_refl|]. apply feq_mul; [apply feq_sym; exact FD|apply feq_refl].
    - split; auto. eapply feq_trans; [exact A3|exact FS]. }
  exists c. split; auto. split; auto. do 4 (split; [congruence|]).
  split; [exact (ess_sorted a b c _ k _ Sd _ HR SD V3 V4)|].
  split; [exact (ess_best_sum a b c _ k _ Sd _ HR HE)|].
  rewrite R4. intros HN. split.
  - intros i j Hi Hj. rewrite <- (es_U _ _ _ _ _ _ _ HE i j); try lia.
    + unfold mmul at 1, mtr at 1. unfold mmul at 1, mtr at 1. apply rsum_ext. intros l Hl. rewrite !R11 by auto. reflexivity.
    + rewrite <- R12 by auto. auto.
    + rewrite <- R12 by auto. auto.
  - intros i j Hi Hj. rewrite <- (es_V _ _ _ _ _ _ _ HE i j); try lia.
    + unfold mmul at 1, mtr at 1. unfold mmul at 1, mtr at 1. apply rsum_ext. intros l Hl. rewrite !R13 by auto. reflexivity.
    + rewrite <- R12 by auto. auto.
    + rewrite <- R12 by auto. auto.
Qed.

(** The choice by the setting, apart from naive addition. *)
Lemma lr_addition_real compress setting (a b : rlowrank) : setting <> "naive"%string ->
  fits a -> fits b -> l_r a = l_r b -> l_c a = l_c b ->
  (use_eps a = false -> setting <> "rounded_addition"%string ->
     orth_cols (R := Rring) (l_r a) (l_rank a) (d_e (l_U a)) /\ orth_rows (R := Rring) (l_rank a) (l_c a) (d_e (l_V a))) ->
  exists c, lr_addition L compress setting a b = Ok c /\ lr_wf c /\ l_r c = l_r a /\ l_c c = l_c a /\ l_eps c = l_eps a /\
    (if use_eps a then 0 < l_rank c else l_rank c = l_rank a) /\
    sorted_values c /\ best_sum a b c /\
    (use_eps a = true -> (0 <= Q2R (l_eps a))%R ->
      (sqrt (add_err a b (lr_ent c)) <= Q2R (l_eps a) * sqrt (sumsq (R := Rring) (l_r a) (l_c a) (madd (lr_ent a) (lr_ent b))))%R).
Proof.
  intros Hn [WA [[QA1 QA2] [PA [RA1 RA2]]]] [WB [[QB1 QB2] [PB [RB1 RB2]]]] Er Ec Hor. unfold lr_addition.
  destruct (String.eqb_spec setting "naive") as [|_]; [contradiction|].
  assert (HR : exists c, rounded_addition L a b = Ok c /\ lr_wf c /\ l_r c = l_r a /\ l_c c = l_c a /\ l_eps c = l_eps a /\
    (if use_eps a then 0 < l_rank c else l_rank c = l_rank a) /\
    sorted_values c /\ best_sum a b c /\
    (use_eps a = true -> (0 <= Q2R (l_eps a))%R ->
      (sqrt (add_err a b (lr_ent c)) <= Q2R (l_eps a) * sqrt (sumsq (R := Rring) (l_r a) (l_c a) (madd (lr_ent a) (lr_ent b))))%R)).
  { destruct (rounded_real a b) as [c [E [W [E1 [E2 [E3 [_ [E4 [_ [_ [E5 [E6 E7]]]]]]]]]]]]; auto.
    - unfold rounded_width. destruct (use_eps a); lia.
    - exists c. auto 10. }
  destruct (String.eqb_spec setting "rounded_addition") as [|Hr]; auto.
  destruct (use_eps a) eqn:He.
  - unfold fast_rounded_addition. rewrite He. exact HR.
  - destruct (Hor eq_refl Hr) as [OU OV].
    destruct (fast_real a b) as [c [E [W [E1 [E2 [E3 [E4 [E5 [E6 _]]]]]]]]]; auto; try lia.
    + rewrite QA1. exact OU.
    + rewrite QA2. exact OV.
    + exists c. repeat (split; [assumption|]). discriminate.
Qed.
End Add.
