(** Additions that show what the premises of RealAdd.v are needed for. *)
From Coq Require Import List Arith ZArith Lia Bool QArith Reals Qreals Lra Ring_theory Ring Psatz.
From Verif Require Import Prelude Ring MatFun MatSetoid Matrix MatOps MatSpec Lapack Gemm LowRankAdd LowRankAddProofs Reflect ReflectSpec SampledTheorems SvdRank Householder HouseQr HouseReal Rrqr RrqrRank RrqrLr Spectral RealSvd RealLapack EckartYoung RealAdd.
Import ListNotations.
Local Open Scope nat_scope.

(** Matrices of literals. *)
Definition lit (r c : nat) (l : list (list R)) : rdense := @Dn Rring r c (fun i j => nth j (nth i l []) 0%R).

(** ** A basis with a column of norm 2 *)

(** diag(2, 0) and diag(0, 3/2). *)
Definition lr_two : rlowrank := @Lr Rring 2 2 1 0%Q (lit 2 1 [[2]; [0]])%R (lit 1 1 [[1]])%R (lit 1 2 [[1; 0]])%R.
Definition lr_three : rlowrank := @Lr Rring 2 2 1 0%Q (lit 2 1 [[0]; [1]])%R (lit 1 1 [[3/2]])%R (lit 1 2 [[0; 1]])%R.

Lemma lr_two_wf : lr_wf lr_two.
Proof. repeat split. Qed.
Lemma lr_three_wf : lr_wf lr_three.
Proof. repeat split. Qed.

(** The second singular value of M belongs to the first row and column. *)
Lemma two_values (u00 u01 u10 u11 v00 v01 v10 v11 s0 s1 m : R) :
  (0 <= s1)%R -> (s1 <= s0)%R -> (m * m = 9 / 4)%R ->
  (u00 * s0 * v00 + u01 * s1 * v10 = 1)%R -> (u00 * s0 * v01 + u01 * s1 * v11 = 0)%R ->
  (u10 * s0 * v00 + u11 * s1 * v10 = 0)%R -> (u10 * s0 * v01 + u11 * s1 * v11 = m)%R ->
  (u00 * u00 + u10 * u10 = 1)%R -> (u01 * u01 + u11 * u11 = 1)%R -> (u00 * u01 + u10 * u11 = 0)%R ->
  (v00 * v00 + v01 * v01 = 1)%R -> (v10 * v10 + v11 * v11 = 1)%R -> (v00 * v10 + v01 * v11 = 0)%R ->
  v00 = 0%R.
Proof.
  intros P1 P2 Hm M00 M01 M10 M11 U0 U1 U2 V0 V1 V2.
  (* U^T M = S V *)
  assert (A0 : (u00 = s0 * v00)%R).
  { transitivity (u00 * 1 + u10 * 0)%R; [ring|]. rewrite <- M00, <- M10.
    transitivity ((u00 * u00 + u10 * u10) * s0 * v00 + (u00 * u01 + u10 * u11) * s1 * v10)%R; [ring|]. rewrite U0, U2. ring. }
  assert (A1 : (u10 * m = s0 * v01)%R).
  { transitivity (u00 * 0 + u10 * m)%R; [ring|]. rewrite <- M01, <- M11.
    transitivity ((u00 * u00 + u10 * u10) * s0 * v01 + (u00 * u01 + u10 * u11) * s1 * v11)%R; [ring|]. rewrite U0, U2. ring. }
  assert (A3 : (u11 * m = s1 * v11)%R).
  { transitivity (u01 * 0 + u11 * m)%R; [ring|]. rewrite <- M01, <- M11.
    transitivity ((u00 * u01 + u10 * u11) * s0 * v01 + (u01 * u01 + u11 * u11) * s1 * v11)%R; [ring|]. rewrite U1, U2. ring. }
  (* M V^T = U S *)
  assert (B0 : (v00 = s0 * u00)%R).
  { transitivity (1 * v00 + 0 * v01)%R; [ring|]. rewrite <- M00, <- M01.
    transitivity (u00 * s0 * (v00 * v00 + v01 * v01) + u01 * s1 * (v00 * v10 + v01 * v11))%R; [ring|]. rewrite V0, V2. ring. }
  assert (B1 : (m * v01 = s0 * u10)%R).
  { transitivity (0 * v00 + m * v01)%R; [ring|]. rewrite <- M10, <- M11.
    transitivity (u10 * s0 * (v00 * v00 + v01 * v01) + u11 * s1 * (v00 * v10 + v01 * v11))%R; [ring|]. rewrite V0, V2. ring. }
  assert (B3 : (m * v11 = s1 * u11)%R).
  { transitivity (0 * v10 + m * v11)%R; [ring|]. rewrite <- M10, <- M11.
    transitivity (u10 * s0 * (v00 * v10 + v01 * v11) + u11 * s1 * (v10 * v10 + v11 * v11))%R; [ring|]. rewrite V1, V2. ring. }
  assert (C0 : ((s0 * s0 - 1) * v00 = 0)%R).
  { transitivity (s0 * (s0 * v00) - v00)%R; [ring|]. rewrite <- A0, <- B0. ring. }
  assert (C1 : ((s0 * s0 - m * m) * v01 = 0)%R).
  { transitivity (s0 * (s0 * v01) - m * (m * v01))%R; [ring|]. rewrite <- A1, B1. ring. }
  assert (C3 : ((s1 * s1 - m * m) * v11 = 0)%R).
  { transitivity (s1 * (s1 * v11) - m * (m * v11))%R; [ring|]. rewrite <- A3, B3. ring. }
  destruct (Req_EM_T v00 0) as [|N]; auto. exfalso.
  assert (S0 : (s0 * s0 = 1)%R) by (apply Rmult_integral in C0; destruct C0; [lra|contradiction]).
  assert (Z : v01 = 0%R).
  { apply Rmult_integral in C1. destruct C1 as [C1|]; auto. rewrite S0, Hm in C1. lra. }
  rewrite Z in V2. assert (Y : v10 = 0%R).
  { assert (E : (v00 * v10 = 0)%R) by lra. apply Rmult_integral in E. destruct E; [contradiction|auto]. }
  rewrite Y in V1. assert (S1 : (s1 * s1 = 9 / 4)%R).
  { apply Rmult_integral in C3. destruct C3 as [C3|C3]; [lra|]. rewrite C3 in V1. lra. }
  assert (X : (s1 * s1 <= s0 * s0)%R) by (apply Rmult_le_compat; lra). lra.
Qed.

Section Any.
Variable L : lapack Rring.
Hypothesis HL : lapack_ok L.
Hypothesis HO : lapack_orth L.
Hypothesis HS : lapack_sorted L.

Lemma sq1 (x : R) : (x * x = 1)%R -> x <> 0%R.
Proof. intros H E. rewrite E in H. lra. Qed.

(** The fast addition keeps diag(0, 3/2), though diag(2, 0) is closer to the sum. *)
Lemma fast_needs_orth : exists c, fast_rounded_addition L lr_two lr_three = Ok c /\ ~ best_sum lr_two lr_three c.
Proof.
  destruct (fast_full L HL lr_two lr_three lr_two_wf lr_three_wf eq_refl eq_refl eq_refl ltac:(simpl; lia) ltac:(simpl; lia) ltac:(simpl; lia))
    as [c [M [Um [Sd [Vm [Uc [Vc [E [HR [ES [HSV [MR [MC [FS [_ [_ [HYu HYv]]]]]]]]]]]]]]]]].
  destruct HYu as [Yu [Qu [Ru [EQ [Y1 [Y2 [Y3 EU]]]]]]]. destruct HYv as [Yv [Rv [Qv [EV [W1 [W2 [W3 EW]]]]]]].
  exists c. split; auto. intros HB.
  destruct (lh_svd _ HO _ _ _ _ ES) as [OU OV]. pose proof (ls_svd _ HS _ _ _ _ ES) as [_ [SP SD]].
  destruct HSV as [V1 [V2 [V3 [V4 [V5 [V6 [V7 V8]]]]]]]. rewrite V1, V2 in OU. rewrite V5, V6 in OV.
  rewrite MR, MC in *. cbn [lr_two lr_three l_S l_U l_V l_r l_c l_rank lit d_r d_c Nat.add Nat.min] in *. rewrite V3, V4 in SP, SD. cbn [Nat.min] in SP, SD.
  destruct (lo_qr _ HL Yu) as [Qu' [Ru' [EQ' HQ]]]. rewrite EQ in EQ'. inversion EQ'; subst Qu' Ru'; clear EQ'.
  pose proof (lh_qr _ HO _ _ _ EQ) as OQ. unfold is_qr in HQ. rewrite Y1, Y2 in HQ. cbn [Nat.min] in HQ.
  destruct HQ as [Q1 [Q2 [Q3 [Q4 Q5]]]]. rewrite Q1, Q2 in OQ.
  destruct (lo_rq _ HL Yv) as [Rv' [Qv' [EV' HQ]]]. rewrite EV in EV'. inversion EV'; subst Qv' Rv'; clear EV'.
  pose proof (lh_rq _ HO _ _ _ EV) as OQv. unfold is_rq in HQ. rewrite W1, W2 in HQ. cbn [Nat.min] in HQ.
  destruct HQ as [P1 [P2 [P3 [P4 P5]]]]. rewrite P3, P4 in OQv.
  (* the new basis vectors are (0, q) and (0, w) *)
  set (q := d_e Qu 1 0). set (w := d_e Qv 0 1). set (rr := d_e Ru 0 0). set (rv := d_e Rv 0 0).
  assert (Eq0 : (d_e Qu 0%nat 0%nat * rr = 0)%R /\ (q * rr = 1)%R).
  { pose proof (Q5 0 0 ltac:(lia) ltac:(lia)) as A0. pose proof (Q5 1 0 ltac:(lia) ltac:(lia)) as A1.
    rewrite Y3 in A0, A1 by lia. unfold perp, msub, mmul, mtr in A0, A1. simpl in A0, A1. split.
    - unfold rr. lra.
    - unfold q, rr. lra. }
  assert (Ew0 : (rv * d_e Qv 0%nat 0%nat = 0)%R /\ (rv * w = 1)%R).
  { pose proof (P5 0 0 ltac:(lia) ltac:(lia)) as A0. pose proof (P5 0 1 ltac:(lia) ltac:(lia)) as A1.
    rewrite W3 in A0, A1 by lia. unfold perp, msub, mmul, mtr in A0, A1. simpl in A0, A1. split.
    - unfold rv. lra.
    - unfold w, rv. lra. }
  assert (q00 : d_e Qu 0 0 = 0%R).
  { destruct Eq0 as [A B]. apply Rmult_integral in A. destruct A as [|A]; auto. rewrite A in B. lra. }
  assert (w00 : d_e Qv 0 0 = 0%R).
  { destruct Ew0 as [A B]. apply Rmult_integral in A. destruct A as [A|]; auto. rewrite A in B. lra. }
  assert (qq : (q * q = 1)%R).
  { pose proof (OQ 0 0 ltac:(lia) ltac:(lia)) as A. unfold mmul, mtr, mid in A. simpl in A. fold q in A. rewrite q00 in A. lra. }
  assert (ww : (w * w = 1)%R).
  { pose proof (OQv 0 0 ltac:(lia) ltac:(lia)) as A. unfold mmul, mtr, mid in A. simpl in A. fold w in A. rewrite w00 in A. lra. }
  destruct HR as [WC [C1 [C2 [C3 [_ [C5 [C6 [_ [_ [_ [C7 [C8 [C9 _]]]]]]]]]]]]].
  cbn [lr_two lr_three l_S l_U l_V l_r l_c l_rank lit d_r d_c Nat.add Nat.min] in *.
  (* entries of M *)
  assert (ME : forall i j, i < 2 -> j < 2 -> d_e M i j = (d_e Um i 0%nat * d_e Sd 0%nat 0%nat * d_e Vm 0%nat j + d_e Um i 1%nat * d_e Sd 1%nat 1%nat * d_e Vm 1%nat j)%R).
  { intros i j Hi Hj. rewrite <- (V8 i j Hi Hj). unfold mmul. simpl.
    rewrite (V7 0 1), (V7 1 0) by lia. simpl. ring. }
  assert (F : forall i j, i < 2 -> j < 2 -> mmul (R := Rring) 2 Uc (mmul 2 (d_e M) Vc) i j = madd (R := Rring) (lr_ent lr_two) (lr_ent lr_three) i j).
  { intros i j Hi Hj. apply (FS i j Hi Hj). }
  rewrite EU, EW in F.
  pose proof (F 0 0 ltac:(lia) ltac:(lia)) as F00. pose proof (F 0 1 ltac:(lia) ltac:(lia)) as F01.
  pose proof (F 1 0 ltac:(lia) ltac:(lia)) as F10. pose proof (F 1 1 ltac:(lia) ltac:(lia)) as F11.
  unfold madd, lr_ent, mmul in F00, F01, F10, F11. simpl in F00, F01, F10, F11.
  rewrite ?q00, ?w00 in F00. rewrite ?q00, ?w00 in F01. rewrite ?q00, ?w00 in F10. rewrite ?q00, ?w00 in F11. fold q w in F00, F01, F10, F11.
  assert (M00 : d_e M 0 0 = 1%R) by lra.
  assert (M01 : d_e M 0 1 = 0%R).
  { assert (X : (d_e M 0%nat 1%nat * w = 0)%R) by lra. apply Rmult_integral in X. destruct X as [|X]; auto. exfalso. apply (sq1 w ww X). }
  assert (M10 : d_e M 1 0 = 0%R).
  { assert (X : (q * d_e M 1%nat 0%nat = 0)%R) by lra. apply Rmult_integral in X. destruct X as [X|]; auto. exfalso. apply (sq1 q qq X). }
  assert (M11 : (q * w * d_e M 1%nat 1%nat = 3 / 2)%R) by lra.
  assert (MM : (d_e M 1%nat 1%nat * d_e M 1%nat 1%nat = 9 / 4)%R).
  { transitivity ((q * q) * (w * w) * (d_e M 1%nat 1%nat * d_e M 1%nat 1%nat))%R; [rewrite qq, ww; ring|].
    transitivity ((q * w * d_e M 1%nat 1%nat) * (q * w * d_e M 1%nat 1%nat))%R; [ring|]. rewrite M11. lra. }
  assert (OUe : forall i j, i < 2 -> j < 2 -> (d_e Um 0%nat i * d_e Um 0%nat j + d_e Um 1%nat i * d_e Um 1%nat j = if i =? j then 1 else 0)%R).
  { intros i j Hi Hj. pose proof (OU i j Hi Hj) as A. unfold mmul, mtr, mid in A. simpl in A. rewrite <- A. ring. }
  assert (OVe : forall i j, i < 2 -> j < 2 -> (d_e Vm i 0%nat * d_e Vm j 0%nat + d_e Vm i 1%nat * d_e Vm j 1%nat = if i =? j then 1 else 0)%R).
  { intros i j Hi Hj. pose proof (OV i j Hi Hj) as A. unfold mmul, mtr, mid in A. simpl in A. rewrite <- A. ring. }
  assert (v0 : d_e Vm 0 0 = 0%R).
  { apply (two_values (d_e Um 0 0) (d_e Um 0 1) (d_e Um 1 0) (d_e Um 1 1) (d_e Vm 0 0) (d_e Vm 0 1) (d_e Vm 1 0) (d_e Vm 1 1)
      (d_e Sd 0 0) (d_e Sd 1 1) (d_e M 1 1)); auto; try (rewrite <- ME by lia; auto).
    - exact (OUe 0 0 ltac:(lia) ltac:(lia)).
    - exact (OUe 1 1 ltac:(lia) ltac:(lia)).
    - exact (OUe 0 1 ltac:(lia) ltac:(lia)).
    - exact (OVe 0 0 ltac:(lia) ltac:(lia)).
    - exact (OVe 1 1 ltac:(lia) ltac:(lia)).
    - exact (OVe 0 1 ltac:(lia) ltac:(lia)). }
  assert (c0 : forall i, i < 2 -> lr_ent c i 0 = 0%R).
  { intros i Hi. unfold lr_ent. destruct WC as [_ [D2 [_ _]]]. rewrite D2, C5, C6. unfold mmul. simpl.
    rewrite (C9 0 0) by lia. rewrite EW. unfold mmul. simpl. rewrite v0, w00. ring. }
  specialize (HB (fun i _ => if i =? 0 then 2%R else 0%R) (fun _ j => if j =? 0 then 1%R else 0%R)).
  rewrite C3 in HB. unfold add_err, sumsq, msub, madd in HB. simpl in HB.
  rewrite (c0 0), (c0 1) in HB by lia.
  generalize dependent (lr_ent c 0 1). generalize dependent (lr_ent c 1 1). intros y x HB.
  unfold lr_ent, mmul in HB. simpl in HB. pose proof (Rle_0_sqr x) as X. pose proof (Rle_0_sqr (3 / 2 - y)) as Y. unfold Rsqr in X, Y.
  nra.
Qed.
End Any.

(** ** A sum of smaller rank *)

(** diag(1, 0) in orthonormal bases with two columns, and the negative of it. *)
Definition lr_one : rlowrank := @Lr Rring 2 2 2 0%Q (lit 2 2 [[1; 0]; [0; 1]])%R (lit 2 2 [[1; 0]; [0; 0]])%R (lit 2 2 [[1; 0]; [0; 1]])%R.
Definition lr_minus : rlowrank := @Lr Rring 2 2 1 0%Q (lit 2 1 [[1]; [0]])%R (lit 1 1 [[-1]])%R (lit 1 2 [[1; 0]])%R.

Lemma gram_norm m p n q (N M X : rmat) : feq (R := Rring) q q (mmul m (mtr N) N) (mmul p (mtr M) M) ->
  sumsq (R := Rring) m n (mmul q N X) = sumsq (R := Rring) p n (mmul q M X).
Proof.
  intros H. rewrite !(sumsq_gram (R := Rring)). apply rsum_ext. intros j Hj.
  assert (E : forall k (A : rmat), meq (R := Rring) (mmul k (mtr (mmul q A X)) (mmul q A X)) (mmul q (mtr X) (mmul q (mmul k (mtr A) A) X))).
  { intros k A. rewrite meq_tr, meq_assoc. rewrite <- (meq_assoc k q (mtr A) A X). reflexivity. }
  rewrite (E m N j j), (E p M j j). apply (mmul_ext (R := Rring)); auto. intros x Hx.
  apply (mmul_ext (R := Rring)); auto.
Qed.

Definition is_zero (m n : nat) (A : rdense) : bool :=
  (d_r A =? m) && (d_c A =? n) && if Req_EM_T (sumsq (R := Rring) m n (d_e A)) 0 then true else false.

Lemma sumsq_zero m n (X : rmat) : sumsq (R := Rring) m n X = 0%R -> feq (R := Rring) m n X mzero.
Proof.
  intros H i j Hi Hj. apply (sqsum_zero n (X i)); auto.
  apply (sum_zero_terms m (fun i => rsum n (fun j => (X i j * X i j)%R))); auto.
  intros k _. apply sum_nonneg. intros. apply Rle_0_sqr.
Qed.

Lemma is_zero_true m n A : is_zero m n A = true -> d_r A = m /\ d_c A = n /\ feq (R := Rring) m n (d_e A) mzero.
Proof.
  unfold is_zero. rewrite !andb_true_iff. intros [[H1 H2] H3]. apply Nat.eqb_eq in H1, H2.
  destruct (Req_EM_T _ _) as [E|]; [|discriminate]. split; auto. split; auto. apply sumsq_zero; auto.
Qed.
Lemma is_zero_intro m n A : d_r A = m -> d_c A = n -> feq (R := Rring) m n (d_e A) mzero -> is_zero m n A = true.
Proof.
  intros H1 H2 H3. unfold is_zero. rewrite H1, H2, !Nat.eqb_refl. simpl.
  destruct (Req_EM_T _ _) as [|N]; auto. exfalso. apply N.
  unfold sumsq. apply (sum_zero' (R := Rring)). intros i Hi. apply (sum_zero' (R := Rring)). intros j Hj. rewrite H3 by auto. unfold mzero. rring.
Qed.

(** A library that starts a decomposition of zero with the third vector: like real_lapack
    otherwise. *)
Definition third : list (list R) := ([[0; 1; 0]; [0; 0; 1]; [1; 0; 0]])%R.
Definition other_lapack : lapack Rring := Lapack (R := Rring)
  (fun A => if is_zero 2 1 A then Ok (lit 2 1 [[1]; [0]]%R, lit 1 1 [[0]]%R) else real_qr A)
  real_rq
  (fun A => if is_zero 3 3 A then Ok (lit 3 3 third, Dn 3 3 rzero, lit 3 3 [[0; 0; 1]; [1; 0; 0]; [0; 1; 0]]%R) else real_svd_dense A)
  (lp_rank real_lapack).

Lemma lt_2_cases i : i < 2 -> i = 0 \/ i = 1.
Proof. lia. Qed.
Lemma lt_3_cases i : i < 3 -> i = 0 \/ i = 1 \/ i = 2.
Proof. lia. Qed.

Lemma other_ok : lapack_ok other_lapack.
Proof.
  split; cbn [other_lapack lp_qr lp_rq lp_svd lp_rank].
  - intros A. destruct (is_zero 2 1 A) eqn:E; [|apply (lo_qr _ real_lapack_ok)].
    apply is_zero_true in E. destruct E as [E1 [E2 E3]]. do 2 eexists. split; [reflexivity|]. unfold is_qr. rewrite E1, E2. simpl.
    repeat (split; auto). intros i j Hi Hj. rewrite E3 by auto.
    assert (j = 0) by lia. subst j. destruct (lt_2_cases i Hi) as [->| ->]; unfold mmul; simpl; unfold mzero; simpl; ring.
  - apply (lo_rq _ real_lapack_ok).
  - intros A. destruct (is_zero 3 3 A) eqn:E; [|apply (lo_svd _ real_lapack_ok)].
    apply is_zero_true in E. destruct E as [E1 [E2 E3]]. do 3 eexists. split; [reflexivity|]. unfold is_svd. rewrite E1, E2. simpl.
    repeat (split; [solve [auto]|]). split; [intros i j _ _ _; reflexivity|].
    intros i j Hi Hj. rewrite E3 by auto. unfold mmul at 1. apply (sum_zero' (R := Rring)). intros l Hl.
    assert (X : mmul (R := Rring) 3 rzero (d_e (lit 3 3 [[0; 0; 1]; [1; 0; 0]; [0; 1; 0]]%R)) l j = 0%R).
    { apply (sum_zero' (R := Rring)). intros. unfold rzero. rring. }
    simpl in X. rewrite X. rring.
  - apply (lo_rank _ real_lapack_ok).
Qed.

Lemma other_orth : lapack_orth other_lapack.
Proof.
  split; cbn [other_lapack lp_qr lp_rq lp_svd lp_rank].
  - intros A Q Rf H. destruct (is_zero 2 1 A) eqn:E; [|eapply (lh_qr _ real_lapack_orth); exact H].
    inversion H; subst. simpl. intros i j Hi Hj. assert (i = 0) by lia. assert (j = 0) by lia. subst. unfold mmul, mtr, mid. simpl. ring.
  - intros A Rf Q H. eapply (lh_rq _ real_lapack_orth); exact H.
  - intros A U S1 V H. destruct (is_zero 3 3 A) eqn:E; [|eapply (lh_svd _ real_lapack_orth); exact H].
    inversion H; subst. simpl. split; intros i j Hi Hj;
      destruct (lt_3_cases i Hi) as [->|[->| ->]]; destruct (lt_3_cases j Hj) as [->|[->| ->]]; unfold mmul, mtr, mid; simpl; ring.
Qed.

Lemma other_sorted : lapack_sorted other_lapack.
Proof.
  split; cbn [other_lapack lp_qr lp_rq lp_svd lp_rank].
  - intros A U S1 V H. destruct (is_zero 3 3 A) eqn:E; [|eapply (ls_svd _ real_lapack_sorted); exact H].
    inversion H; subst. split; [|split]; simpl; intros; unfold rzero; try reflexivity; lra.
  - reflexivity.
Qed.

Lemma lr_one_wf : lr_wf lr_one.
Proof. repeat split. Qed.
Lemma lr_minus_wf : lr_wf lr_minus.
Proof. repeat split. Qed.
Lemma lr_one_U : orth_cols (R := Rring) 2 2 (d_e (l_U lr_one)).
Proof. intros i j Hi Hj. destruct (lt_2_cases i Hi) as [->| ->]; destruct (lt_2_cases j Hj) as [->| ->]; unfold mmul, mtr, mid; simpl; ring. Qed.
Lemma lr_one_V : orth_rows (R := Rring) 2 2 (d_e (l_V lr_one)).
Proof. intros i j Hi Hj. destruct (lt_2_cases i Hi) as [->| ->]; destruct (lt_2_cases j Hj) as [->| ->]; unfold mmul, mtr, mid; simpl; ring. Qed.
Lemma one_minus : feq (R := Rring) 2 2 (madd (lr_ent lr_one) (lr_ent lr_minus)) mzero.
Proof.
  intros i j Hi Hj. destruct (lt_2_cases i Hi) as [->| ->]; destruct (lt_2_cases j Hj) as [->| ->];
    unfold madd, lr_ent, mmul, mzero; simpl; ring.
Qed.

(** The columns of the new U are equal. *)
Lemma fast_loses_orth : exists c, fast_rounded_addition other_lapack lr_one lr_minus = Ok c /\ ~ orth_cols (R := Rring) 2 2 (d_e (l_U c)).
Proof.
  destruct (fast_full other_lapack other_ok lr_one lr_minus lr_one_wf lr_minus_wf eq_refl eq_refl eq_refl ltac:(simpl; lia) ltac:(simpl; lia) ltac:(simpl; lia))
    as [c [M [Um [Sd [Vm [Uc [Vc [E [HR [ES [HSV [MR [MC [FS [IU [IV [HYu _]]]]]]]]]]]]]]]]].
  destruct HYu as [Yu [Qu [Ru [EQ [Y1 [Y2 [Y3 EU]]]]]]].
  specialize (IU other_orth lr_one_U). specialize (IV other_orth lr_one_V).
  cbn [lr_one lr_minus l_S l_U l_V l_r l_c l_rank lit d_r d_c Nat.add Nat.min] in *.
  exists c. split; auto. intros HB. rewrite MR, MC in *. cbn [Nat.add Nat.min] in *.
  (* Yu = 0, hence Qu *)
  assert (ZY : is_zero 2 1 Yu = true).
  { apply is_zero_intro; auto. intros i j Hi Hj. rewrite Y3 by auto. assert (j = 0) by lia. subst j.
    destruct (lt_2_cases i Hi) as [->| ->]; unfold perp, msub, mmul, mtr, mzero; simpl; ring. }
  cbn [other_lapack lp_qr] in EQ. rewrite ZY in EQ. inversion EQ; subst Qu Ru; clear EQ.
  (* M = 0, hence Um *)
  assert (ZM : is_zero 3 3 M = true).
  { apply is_zero_intro; auto. apply sumsq_zero.
    transitivity (sumsq (R := Rring) 2 2 (mmul 3 Uc (mmul 3 (d_e M) Vc))).
    2:{ rewrite (sumsq_ext (R := Rring) 2 2 _ mzero).
        - unfold sumsq, mzero. simpl. ring.
        - eapply feq_trans; [exact FS|exact one_minus]. }
    (* |M| = |M Vc| = |Uc M Vc| *)
    transitivity (sumsq (R := Rring) 3 2 (mmul 3 (d_e M) Vc)).
    - rewrite (sumsq_tr (R := Rring) 3 3), (sumsq_tr (R := Rring) 3 2), !(sumsq_gram (R := Rring)).
      apply rsum_ext. intros j Hj. symmetry. exact (IV j j Hj Hj).
    - rewrite <- (gram_norm 2 3 2 3 (mmul (R := Rring) 3 Uc (d_e M)) (d_e M) Vc IU).
      apply (sumsq_ext (R := Rring)). apply meq_feq. apply meq_assoc. }
  cbn [other_lapack lp_svd] in ES. rewrite ZM in ES. inversion ES; subst Um Sd Vm; clear ES.
  destruct HR as [_ [_ [_ [_ [_ [_ [_ [_ [_ [_ [C7 _]]]]]]]]]]].
  pose proof (HB 0 1 ltac:(lia) ltac:(lia)) as A. unfold mmul, mtr, mid in A. simpl in A.
  cbn [lr_one l_r] in C7. rewrite !C7 in A by lia. rewrite EU in A. unfold mmul in A. simpl in A. lra.
Qed.
