(** Two sided interpolative decomposition, randomized SVD, compression. *)
From Coq Require Import List Arith ZArith QArith Lia Bool Ring_theory Ring Setoid Morphisms.
From Verif Require Import Prelude Ring MatFun MatSetoid Matrix MatOps MatSpec MatOpsProofs Lapack Gemm GemmSpec GemmProofs
  GemmTheorems Triangular TriAlgebra TriSpec TriProofs Sampled SampledProofs.
Import ListNotations.
Local Open Scope nat_scope.

Section Two.
Context {R : cring}.
Add Ring Rr : (cr_th R).
Notation dense := (dense R).
Notation lowrank := (lowrank R).
Notation matrix := (matrix R).
Notation mat := (mat R).

Variable dgeqp3 : dense -> outcome (dense * list nat).
Hypothesis HP : pivot_ok dgeqp3.
Variable rinv : R -> R.

(** U S V is A(:,cols) W for the column decomposition A(:,cols) W of A: the second step
    loses nothing. *)
Lemma id_ok (A : dense) k (U D V : dense) : id dgeqp3 rinv A k = Ok (U, D, V) ->
  let m := d_r A in
  let n := d_c A in
  exists cols rows AC, one_sided_id dgeqp3 rinv A k = Ok (V, cols) /\ get_cols A cols = Ok AC /\
    length cols = k /\ length rows = k /\ NoDup cols /\ NoDup rows /\
    (forall c, In c cols -> c < n) /\ (forall r, In r rows -> r < m) /\
    d_r U = m /\ d_c U = k /\ d_r D = k /\ d_c D = k /\ d_r V = k /\ d_c V = n /\
    (forall a b, a < k -> b < k -> d_e D a b = d_e A (nth a rows 0) (nth b cols 0)) /\
    (forall a b, a < k -> b < k -> d_e U (nth a rows 0) b = if a =? b then rI else rO) /\
    (forall Rf P, geqp3 dgeqp3 (d_transpose AC) = Ok (Rf, P) -> diag_ok rinv Upper k (d_e Rf) ->
       feq m n (mmul k (d_e U) (mmul k (d_e D) (d_e V))) (mmul k (pick cols (d_e A)) (d_e V))).
Proof.
  intros H m n. unfold id in H. apply bind_Ok in H. destruct H as [[V' cols] [HV H]].
  apply bind_Ok in H. destruct H as [AC [HA H]]. apply bind_Ok in H. destruct H as [[Ut rows] [HU H]].
  apply bind_Ok in H. destruct H as [D' [HD H]]. inversion H; subst U D' V'; clear H.
  exists cols, rows, AC. split; auto. split; auto.
  pose proof HV as HV'. apply (one_sided_ok dgeqp3 HP rinv) in HV'. cbv zeta in HV'. fold m n in HV'.
  destruct HV' as [Lk [Rf1 [P1 [HG1 [Es [V1 [V2 [V3 [V4 [V5 _]]]]]]]]]].
  unfold get_cols in HA. destruct (forallb _ _); [|discriminate]. inversion HA; subst AC; clear HA.
  pose proof HU as HU'. apply (one_sided_ok dgeqp3 HP rinv) in HU'. cbv zeta in HU'. cbn [d_transpose d_r d_c] in HU'.
  destruct HU' as [Lk2 [Rf2 [P2 [HG2 [Es2 [U1 [U2 [U3 [U4 [U5 [U6 U7]]]]]]]]]]].
  unfold get_rows in HD. destruct (forallb _ _); [|discriminate]. inversion HD; subst D; clear HD.
  set (AC := Dn (d_r A) (length cols) (fun i j => d_e A i (nth j cols 0))) in *.
  change (d_r (d_transpose Ut)) with (d_c Ut). change (d_c (d_transpose Ut)) with (d_r Ut). cbn [d_r d_c] in U2, U5 |- *. cbn [d_e] in Lk2.
  split; auto. split; auto. split; auto. split; auto. split; auto. split; auto. split; auto. split; auto. split; auto.
  split; auto. split; auto. split; auto. split; auto.
  assert (TE : forall i b, i < m -> b < k -> d_e (d_transpose Ut) i b = d_e Ut b i).
  { intros i b Hi Hb. rewrite (d_transpose_ent Ut) by (rewrite ?U1, ?U2; auto). reflexivity. }
  assert (Hrow : forall b, b < k -> nth b rows 0 < m) by (intros b Hb; apply U5, nth_In; lia).
  split. { intros a b Ha Hb. etransitivity; [apply TE; auto|]. rewrite U6 by auto. rewrite Nat.eqb_sym. reflexivity. }
  intros Rf P EB Hd.
  assert (X := one_sided_exact dgeqp3 HP rinv (d_transpose AC) k Ut rows Rf P HU EB Hd).
  change (d_r (d_transpose AC)) with (length cols) in X. change (d_c (d_transpose AC)) with m in X. rewrite V3 in X. assert (Y := X ltac:(intros; lia)). clear X.
  intros i j Hi Hj.
  transitivity (mmul k (mmul k (d_e (d_transpose Ut)) (fun i j => d_e A (nth i rows 0) (nth j cols 0))) (d_e V) i j).
  { symmetry. apply mmul_assoc. }
  apply mmul_ext; auto. intros b Hb. unfold pick at 1.
  specialize (Y b i Hb Hi).
  transitivity (d_e (d_transpose AC) b i); [|rewrite (d_transpose_ent AC) by (unfold AC; cbn [d_r d_c]; auto; lia); reflexivity].
  rewrite <- Y. unfold mmul. apply sum_ext. intros l Hl. rewrite TE by auto.
  transitivity (pick rows (d_e (d_transpose AC)) b l * d_e Ut l i)%r; [|reflexivity].
  unfold pick at 1. rewrite (d_transpose_ent AC) by (unfold AC; cbn [d_r d_c]; auto; try lia; apply Hrow; auto). unfold mtr. cbn [AC d_e]. ring.
Qed.
End Two.

(** What a returned QR or SVD is assumed to be. *)
Record lapack_sound {R : cring} (L : lapack R) : Prop := {
  ls_qr : forall A Q Rf, lp_qr L A = Ok (Q, Rf) -> is_qr A Q Rf /\ orth_cols (d_r Q) (d_c Q) (d_e Q);
  ls_svd : forall A U D V, lp_svd L A = Ok (U, D, V) ->
    is_svd A U D V /\ orth_cols (d_r U) (d_c U) (d_e U) /\ orth_rows (d_r V) (d_c V) (d_e V)
}.

Lemma lapack_ok_sound {R : cring} (L : lapack R) : lapack_ok L -> lapack_orth L -> lapack_sound L.
Proof.
  intros HL HH. split.
  - intros A Q Rf E. destruct (lo_qr _ HL A) as [Q' [R' [E' HQ]]]. rewrite E in E'. inversion E'; subst. split; auto.
    eapply lh_qr; eauto.
  - intros A U D V E. destruct (lo_svd _ HL A) as [U' [D' [V' [E' HQ]]]]. rewrite E in E'. inversion E'; subst. split; auto.
    eapply lh_svd; eauto.
Qed.

Section Rand.
Context {R : cring}.
Add Ring Rs : (cr_th R).
Notation dense := (dense R).
Notation lowrank := (lowrank R).
Notation matrix := (matrix R).
Notation mat := (mat R).

Variable L : lapack R.
Hypothesis HL : lapack_sound L.

Lemma thin_qr_ok (Y Q Rf : dense) : thin_qr L Y = Ok (Q, Rf) ->
  d_c Y <= d_r Y /\ d_r Q = d_r Y /\ d_c Q = d_c Y /\ d_r Rf = d_c Y /\ d_c Rf = d_c Y /\
  orth_cols (d_r Y) (d_c Y) (d_e Q) /\ feq (d_r Y) (d_c Y) (mmul (d_c Y) (d_e Q) (d_e Rf)) (d_e Y).
Proof.
  unfold thin_qr. destruct (Nat.ltb_spec (d_r Y) (d_c Y)); [discriminate|]. intros E.
  destruct (ls_qr _ HL _ _ _ E) as [[H1 [H2 [H3 [H4 H5]]]] HO]. rewrite Nat.min_r in * by lia.
  split; auto. split; auto. split; auto. split; auto. split; auto. split; auto.
  rewrite <- H1, <- H2. auto.
Qed.

Lemma svd_ok (A U D V : dense) : svd L A = Ok (U, D, V) ->
  is_svd A U D V /\ orth_cols (d_r A) (Nat.min (d_r A) (d_c A)) (d_e U) /\
  orth_rows (Nat.min (d_r A) (d_c A)) (d_c A) (d_e V).
Proof.
  unfold svd. destruct (_ =? 0); [discriminate|]. intros E.
  destruct (ls_svd _ HL _ _ _ _ E) as [HS [O1 O2]]. split; auto.
  destruct HS as [H1 [H2 [H3 [H4 [H5 [H6 _]]]]]]. rewrite H1, H2 in O1. rewrite H5, H6 in O2. auto.
Qed.

(** Q is an orthonormal basis of s columns with A*RN = Q*(...). *)
Definition samples (rn : mat) (A : dense) (s : nat) (Q : mat) : Prop :=
  orth_cols (d_r A) s Q /\
  exists Rf : mat, feq (d_r A) s (mmul s Q Rf) (mmul (d_c A) (d_e A) rn).

(** The projection of A to the range of Q. *)
Definition project (A : dense) (s : nat) (Q : mat) : mat := mmul s Q (mmul (d_r A) (mtr Q) (d_e A)).

Lemma rsvd_full (rn : mat) (A : dense) s (U D V : dense) : rsvd L rn A s = Ok (U, D, V) ->
  let m := d_r A in
  let n := d_c A in
  let k := Nat.min s n in
  s <= m /\ exists (Q Ub : mat), samples rn A s Q /\
    d_r U = m /\ d_c U = k /\ d_r D = k /\ d_c D = k /\ d_r V = k /\ d_c V = n /\
    orth_cols m k (d_e U) /\ orth_rows k n (d_e V) /\ diagonal k (d_e D) /\
    orth_cols s k Ub /\ feq m k (d_e U) (mmul s Q Ub) /\
    feq m n (mmul k (d_e U) (mmul k (d_e D) (d_e V))) (project A s Q).
Proof.
  intros H m n k. unfold rsvd in H. apply bind_Ok in H. destruct H as [Y [HY H]].
  apply bind_Ok in H. destruct H as [[Q Rf] [HQ H]]. apply bind_Ok in H. destruct H as [B [HB H]].
  apply bind_Ok in H. destruct H as [[[Ub D'] V'] [HS H]]. apply bind_Ok in H. destruct H as [U' [HU H]].
  inversion H; subst U' D' V'; clear H.
  apply dd_mul_inv in HY. cbv iota in HY. cbn [d_r d_c d_e mop] in HY. destruct HY as [_ [Y1 [Y2 Y3]]].
  apply thin_qr_ok in HQ. rewrite Y1, Y2 in HQ. destruct HQ as [Ls [Q1 [Q2 [R1 [R2 [OQ FQ]]]]]].
  apply dd_mul_inv in HB. cbv iota in HB. destruct HB as [B0 [B1 [B2 B3]]]. rewrite Q1 in *. rewrite Q2 in B1.
  apply svd_ok in HS. rewrite B1, B2 in HS. destruct HS as [[S1 [S2 [S3 [S4 [S5 [S6 [S7 S8]]]]]]] [OU OV]].
  rewrite B1, B2 in *. change (Nat.min s (d_c A)) with k in *.
  apply dd_mul_inv in HU. cbv iota in HU. cbn [mop] in HU. destruct HU as [U0 [U1 [U2 U3]]]. rewrite Q1 in U1. rewrite Q2 in U3.
  split; auto. exists (d_e Q), (d_e Ub). 
  assert (EU : feq m k (d_e U) (mmul s (d_e Q) (d_e Ub))). { intros i j _ _. rewrite U3. ring. }
  assert (EB : feq s n (d_e B) (mmul m (mtr (d_e Q)) (d_e A))). { intros i j _ _. rewrite B3. simpl mop. unfold m. ring. }
  split.
  { split; auto. exists (d_e Rf). eapply feq_trans; [exact FQ|]. intros i j _ _. rewrite Y3. ring. }
  split; auto. split; [congruence|]. split; auto. split; auto. split; auto. split; auto. split.
  { intros i j Hi Hj. rewrite <- (orth_cols_mul m s k _ _ OQ OU i j Hi Hj).
    apply mmul_ext; intros x Hx; [unfold mtr|]; apply EU; auto. }
  split; auto. split; auto. split; auto. split; auto.
  eapply feq_trans; [apply feq_mmul; [exact EU|apply feq_refl]|].
  intros i j Hi Hj. rewrite mmul_assoc. unfold project. apply mmul_ext; auto. intros x Hx.
  etransitivity; [|exact (EB x j Hx Hj)]. apply S8; auto.
Qed.

Lemma rsvd_ok (rn : mat) (A : dense) s (U D V : dense) : rsvd L rn A s = Ok (U, D, V) ->
  let m := d_r A in
  let n := d_c A in
  let k := Nat.min s n in
  d_r U = m /\ d_c U = k /\ d_r D = k /\ d_c D = k /\ d_r V = k /\ d_c V = n /\
  orth_cols m k (d_e U) /\ orth_rows k n (d_e V) /\ diagonal k (d_e D) /\
  exists Q : mat, samples rn A s Q /\
    feq m n (mmul k (d_e U) (mmul k (d_e D) (d_e V))) (mmul s Q (mmul m (mtr Q) (d_e A))).
Proof.
  intros H. apply rsvd_full in H. cbv zeta in *.
  destruct H as [_ [Q [Ub [HS [H1 [H2 [H3 [H4 [H5 [H6 [H7 [H8 [H9 [_ [_ H10]]]]]]]]]]]]]]].
  do 9 (split; [assumption|]). exists Q. auto.
Qed.

(** The projection is A itself when the sample spans the columns of A. *)
Lemma project_exact (rn : mat) (A : dense) s (Q W : mat) : samples rn A s Q ->
  feq (d_r A) (d_c A) (mmul s (mmul (d_c A) (d_e A) rn) W) (d_e A) ->
  feq (d_r A) (d_c A) (project A s Q) (d_e A).
Proof.
  intros [OQ [Rf E]] HW.
  assert (EA : feq (d_r A) (d_c A) (mmul s Q (mmul s Rf W)) (d_e A)).
  { eapply feq_trans; [|exact HW]. intros i j Hi Hj. rewrite <- mmul_assoc. apply mmul_ext; auto. }
  intros i j Hi Hj. unfold project. transitivity (mmul s Q (mmul s Rf W) i j); [|apply EA; auto].
  apply mmul_ext; auto. intros x Hx.
  transitivity (mmul (d_r A) (mtr Q) (mmul s Q (mmul s Rf W)) x j).
  { apply mmul_ext; auto. intros y Hy. symmetry. apply EA; auto. }
  rewrite <- mmul_assoc. transitivity (mmul s mid (mmul s Rf W) x j); [|apply mmul_id_l; auto].
  apply mmul_ext; auto.
Qed.

Lemma rsvd_exact (rn : mat) (A : dense) s (U D V : dense) (W : mat) : rsvd L rn A s = Ok (U, D, V) ->
  feq (d_r A) (d_c A) (mmul s (mmul (d_c A) (d_e A) rn) W) (d_e A) ->
  feq (d_r A) (d_c A) (mmul (Nat.min s (d_c A)) (d_e U) (mmul (Nat.min s (d_c A)) (d_e D) (d_e V))) (d_e A).
Proof.
  intros H HW. apply rsvd_full in H. destruct H as [_ [Q [Ub [HS [_ [_ [_ [_ [_ [_ [_ [_ [_ [_ [_ H]]]]]]]]]]]]]]].
  eapply feq_trans; [exact H|]. eapply project_exact; eauto.
Qed.

(** ** Compression to a given rank *)

Lemma sumsq_ext m n (f g : mat) : feq m n f g -> sumsq m n f = sumsq m n g.
Proof. intros H. unfold sumsq. apply sum_ext. intros i Hi. apply sum_ext. intros j Hj. rewrite H by auto. reflexivity. Qed.

Lemma sumsq_pyth m n s (X Q E : mat) : feq s n (mmul m (mtr Q) X) mzero ->
  sumsq m n (madd X (mmul s Q E)) = (sumsq m n X + sumsq m n (mmul s Q E))%r.
Proof.
  intros H.
  assert (C : sum m (fun i => sum n (fun j => (X i j * mmul s Q E i j)%r)) = 0%r).
  { transitivity (sum s (fun l => sum n (fun j => (E l j * mmul m (mtr Q) X l j)%r))).
    - transitivity (sum m (fun i => sum n (fun j => sum s (fun l => (X i j * (Q i l * E l j))%r)))).
      { apply sum_ext. intros i _. apply sum_ext. intros j _. unfold mmul. rewrite <- sum_mul_l. reflexivity. }
      transitivity (sum m (fun i => sum s (fun l => sum n (fun j => (X i j * (Q i l * E l j))%r)))).
      { apply sum_ext. intros i _. apply sum_swap. }
      rewrite sum_swap. apply sum_ext. intros l _. rewrite sum_swap. apply sum_ext. intros j _.
      unfold mmul, mtr. rewrite <- sum_mul_l. apply sum_ext. intros i _. ring.
    - apply sum_zero'. intros l Hl. apply sum_zero'. intros j Hj. rewrite H by auto. unfold mzero. ring. }
  unfold sumsq. 
  transitivity (sum m (fun i => (sum n (fun j => X i j * X i j) + sum n (fun j => mmul s Q E i j * mmul s Q E i j)
     + (sum n (fun j => X i j * mmul s Q E i j) + sum n (fun j => X i j * mmul s Q E i j)))%r)).
  - apply sum_ext. intros i _. rewrite <- !sum_add. apply sum_ext. intros j _. unfold madd. ring.
  - rewrite !sum_add. rewrite C. ring.
Qed.

Lemma lr_of_dense_ok (rn : mat) (A : dense) rank (l : lowrank) : lr_of_dense L rn A rank = Ok l ->
  let m := d_r A in
  let n := d_c A in
  let s := Nat.min (Nat.min (rank + 5) m) n in
  lr_wf l /\ l_r l = m /\ l_c l = n /\ l_rank l = rank /\ rank <= s /\
  d_c (l_U l) = rank /\ d_r (l_S l) = rank /\ d_c (l_S l) = rank /\ d_r (l_V l) = rank /\
  orth_cols m rank (d_e (l_U l)) /\ orth_rows rank n (d_e (l_V l)) /\
  exists (U D V : dense) (Q : mat), rsvd L rn A s = Ok (U, D, V) /\ samples rn A s Q /\
    feq m n (mmul s (d_e U) (mmul s (d_e D) (d_e V))) (project A s Q) /\
    (forall i, i < rank -> d_e (l_S l) i i = d_e D i i) /\
    sumsq m n (msub (d_e A) (lr_ent l)) =
      (sumsq m n (msub (d_e A) (project A s Q)) +
       sum (s - rank) (fun i => d_e D (rank + i)%nat (rank + i)%nat * d_e D (rank + i)%nat (rank + i)%nat))%r.
Proof.
  intros H m n s. unfold lr_of_dense in H. apply bind_Ok in H. destruct H as [[[U D] V] [HR H]].
  fold m n in HR, H. fold s in HR. pose proof HR as HR0.
  apply rsvd_full in HR. cbv zeta in HR. fold m n in HR. assert (Emin : Nat.min s n = s) by lia. rewrite Emin in HR.
  destruct HR as [Ls [Q [Ub [HS [U1 [U2 [D1 [D2 [V1 [V2 [OU [OV [DD [OB [EU EP]]]]]]]]]]]]]]].
  apply bind_Ok in H. destruct H as [U' [HU H]]. apply bind_Ok in H. destruct H as [V' [HV H]].
  apply bind_Ok in H. destruct H as [D' [HD H]]. inversion H; subst l; clear H.
  assert (Lrk : rank <= s).
  { unfold d_resize in HU. apply assert_Ok in HU. destruct HU as [_ HU]. apply assert_Ok in HU. destruct HU as [B _].
    apply Nat.leb_le in B. lia. }
  destruct (d_resize_spec U m rank) as [u [Hu [Ur [Uc Ue]]]]; try lia. rewrite HU in Hu. inversion Hu; subst u; clear Hu.
  destruct (d_resize_spec V rank n) as [v [Hv [Vr [Vc Ve]]]]; try lia. rewrite HV in Hv. inversion Hv; subst v; clear Hv.
  destruct (d_resize_spec D rank rank) as [d [Hd [Dr [Dc De]]]]; try lia. rewrite HD in Hd. inversion Hd; subst d; clear Hd.
  cbn [l_r l_c l_rank l_U l_S l_V]. split.
  { unfold lr_wf. cbn [l_r l_c l_rank l_U l_S l_V]. repeat split; congruence. }
  do 8 (split; [auto|]). split.
  { intros i j Hi Hj. rewrite <- (OU i j) by lia. apply mmul_ext; intros x Hx; [unfold mtr|]; apply Ue; auto. }
  split.
  { intros i j Hi Hj. rewrite <- (OV i j) by lia. apply mmul_ext; intros x Hx; [|unfold mtr]; apply Ve; auto. }
  exists U, D, V, Q. split; [exact HR0|]. split; auto. split; auto. split. { intros i Hi. apply De; auto. }
  assert (EL : feq m n (lr_ent (Lr m n rank 0 U' D' V')) (mmul rank (d_e U) (mmul rank (d_e D) (d_e V)))).
  { unfold lr_ent. cbn [l_U l_S l_V]. rewrite Uc, Dc. apply feq_mmul; auto. apply feq_mmul; auto. }
  assert (ED : feq m n (dropped rank s (d_e U) (d_e D) (d_e V)) (mmul s Q (dropped rank s Ub (d_e D) (d_e V)))).
  { intros i j Hi Hj. unfold dropped, mmul.
    transitivity (sum (s - rank) (fun l => sum s (fun x => (Q i x * (Ub x (rank + l)%nat * (d_e D (rank + l)%nat (rank + l)%nat * d_e V (rank + l)%nat j)))%r))).
    - apply sum_ext. intros l Hl. rewrite EU by lia. unfold mmul. rewrite <- sum_mul_r. apply sum_ext. intros x _. ring.
    - rewrite sum_swap. apply sum_ext. intros x _. rewrite <- sum_mul_l. reflexivity. }
  assert (EX : feq m n (msub (d_e A) (lr_ent (Lr m n rank 0 U' D' V')))
     (madd (msub (d_e A) (project A s Q)) (mmul s Q (dropped rank s Ub (d_e D) (d_e V))))).
  { intros i j Hi Hj. unfold madd, msub. rewrite <- (ED i j Hi Hj). rewrite (EL i j Hi Hj). rewrite <- (EP i j Hi Hj).
    rewrite (truncation rank s (d_e U) (d_e D) (d_e V) i j Lrk DD). ring. }
  rewrite (sumsq_ext _ _ _ _ EX). rewrite sumsq_pyth.
  - f_equal. rewrite <- (sumsq_ext _ _ _ _ ED). apply dropped_norm; auto.
  - intros i j Hi Hj. unfold mzero. destruct HS as [OQ _].
    transitivity (mmul m (mtr Q) (d_e A) i j - mmul m (mtr Q) (project A s Q) i j)%r; [apply mmul_sub_r|].
    unfold project. fold m. rewrite <- (mmul_assoc m s (mtr Q) Q).
    replace (mmul s (mmul m (mtr Q) Q) (mmul m (mtr Q) (d_e A)) i j) with (mmul m (mtr Q) (d_e A) i j); [ring|].
    symmetry. transitivity (mmul s mid (mmul m (mtr Q) (d_e A)) i j); [|apply mmul_id_l; auto]. apply mmul_ext; auto.
Qed.

(** More columns asked for than the matrix has: the assert in resize fails. *)
Lemma lr_of_dense_rank (rn : mat) (A : dense) rank (l : lowrank) : lr_of_dense L rn A rank = Ok l ->
  rank <= d_r A /\ rank <= d_c A.
Proof. intros H. apply lr_of_dense_ok in H. cbv zeta in H. destruct H as [_ [_ [_ [_ [H _]]]]]. lia. Qed.

Lemma lr_of_dense_succ (rn : mat) (A : dense) rank : lapack_ok L -> 0 < rank -> rank <= d_r A -> rank <= d_c A ->
  exists l, lr_of_dense L rn A rank = Ok l.
Proof.
  intros HT L0 L1 L2. unfold lr_of_dense. set (s := Nat.min (Nat.min (rank + 5) (d_r A)) (d_c A)).
  assert (HR : exists U D V, rsvd L rn A s = Ok (U, D, V)).
  { unfold rsvd. destruct (dd_mul_ok A (Dn (d_c A) s rn) 1%r false false eq_refl) as [Y HY]. rewrite HY. simpl bind.
    apply dd_mul_inv in HY. cbv iota in HY. cbn [d_r d_c] in HY. destruct HY as [_ [Y1 [Y2 _]]].
    unfold thin_qr. rewrite Y1, Y2. destruct (Nat.ltb_spec (d_r A) s); [lia|].
    destruct (lo_qr _ HT Y) as [Q [Rf [HQ [Q1 [Q2 _]]]]]. rewrite HQ. simpl bind. rewrite Y1, Y2 in *.
    destruct (dd_mul_ok Q A 1%r true false Q1) as [B HB]. rewrite HB. simpl bind.
    apply dd_mul_inv in HB. cbv iota in HB. destruct HB as [_ [B1 [B2 _]]].
    unfold svd. rewrite B1, B2, Q2. destruct (Nat.eqb_spec (Nat.min (Nat.min (d_r A) s) (d_c A)) 0); [lia|].
    destruct (lo_svd _ HT B) as [Ub [D [V [HS [S1 _]]]]]. rewrite HS. simpl bind.
    destruct (dd_mul_ok Q Ub 1%r false false) as [U HU]; [congruence|]. rewrite HU. simpl. eauto. }
  destruct HR as [U [D [V HR]]]. rewrite HR. simpl bind.
  apply rsvd_full in HR. cbv zeta in HR. destruct HR as [_ [Q [Ub [_ [U1 [U2 [D1 [D2 [V1 [V2 _]]]]]]]]]].
  destruct (d_resize_spec U (d_r A) rank) as [u [Hu _]]; try lia. rewrite Hu. simpl bind.
  destruct (d_resize_spec V rank (d_c A)) as [v [Hv _]]; try lia. rewrite Hv. simpl bind.
  destruct (d_resize_spec D rank rank) as [d [Hd _]]; try lia. rewrite Hd. simpl. eauto.
Qed.

(** ** Randomized interpolative decompositions *)

Variable dgeqp3 : dense -> outcome (dense * list nat).
Hypothesis HP : pivot_ok dgeqp3.
Variable rinv : R -> R.

(** The pivoted QR of B is exact at rank k: an invertible leading part, nothing below. *)
Definition drops_nothing (B : dense) (k : nat) : Prop :=
  exists Rf P, geqp3 dgeqp3 B = Ok (Rf, P) /\ diag_ok rinv Upper k (d_e Rf) /\
    forall i j, k <= i -> i < Nat.min (d_r B) (d_c B) -> k <= j -> j < d_c B -> d_e Rf i j = 0%r.

Lemma one_sided_drops (B : dense) k (W : dense) sel : one_sided_id dgeqp3 rinv B k = Ok (W, sel) -> drops_nothing B k ->
  feq (d_r B) (d_c B) (mmul k (pick sel (d_e B)) (d_e W)) (d_e B).
Proof. intros H [Rf [P [HG [Hd HZ]]]]. eapply one_sided_exact; eauto. Qed.

Lemma pick_mmul (m k : nat) (X Y : mat) sel i j : pick sel (mmul k X Y) i j = mmul k X (pick sel Y) i j.
Proof. reflexivity. Qed.

(** Interpolation carries over from Y to Z*Y. *)
Lemma interpolate_left m n p k (A Y Z W : mat) sel : length sel = k -> (forall c, In c sel -> c < n) ->
  feq m n A (mmul p Z Y) -> feq p n (mmul k (pick sel Y) W) Y -> feq m n (mmul k (pick sel A) W) A.
Proof.
  intros Ls Hs HA HY i j Hi Hj.
  transitivity (mmul k (mmul p Z (pick sel Y)) W i j).
  { apply mmul_ext; auto. intros x Hx. unfold pick at 1. rewrite HA; auto. apply Hs, nth_In. lia. }
  rewrite mmul_assoc. rewrite HA by auto. apply mmul_ext; auto.
Qed.

Definition interpolates (n k : nat) (W : dense) (sel : list nat) : Prop :=
  d_r W = k /\ d_c W = n /\ length sel = k /\ NoDup sel /\ (forall c, In c sel -> c < n) /\
  forall a b, a < k -> b < k -> d_e W a (nth b sel 0) = if a =? b then rI else rO.

Lemma one_sided_interpolates (B : dense) k (W : dense) sel : one_sided_id dgeqp3 rinv B k = Ok (W, sel) ->
  interpolates (d_c B) k W sel.
Proof.
  intros H. apply (one_sided_ok _ HP) in H. cbv zeta in H.
  destruct H as [_ [Rf [P [_ [_ [H1 [H2 [H3 [H4 [H5 [H6 _]]]]]]]]]]]. unfold interpolates. auto 8.
Qed.

(** Columns: exact whenever the rows of A are combinations of the sampled rows. *)
Lemma one_sided_rid_col (rn : mat) (A : dense) s k (W : dense) sel :
  one_sided_rid dgeqp3 rinv rn A s k true = Ok (W, sel) ->
  let m := d_r A in
  let n := d_c A in
  interpolates n k W sel /\
  exists Y : dense, d_r Y = s /\ d_c Y = n /\ feq s n (d_e Y) (mmul m (mtr rn) (d_e A)) /\
    (drops_nothing Y k -> forall Z : mat, feq m n (d_e A) (mmul s Z (mmul m (mtr rn) (d_e A))) ->
     feq m n (mmul k (pick sel (d_e A)) (d_e W)) (d_e A)).
Proof.
  intros H m n. unfold one_sided_rid in H. apply bind_Ok in H. destruct H as [Y [HY H]].
  apply dd_mul_inv in HY. cbv iota in HY. cbn [d_r d_c d_e mop] in HY. destruct HY as [_ [Y1 [Y2 Y3]]].
  pose proof (one_sided_interpolates _ _ _ _ H) as HI. rewrite Y2 in HI. fold n in HI. split; auto.
  assert (EY : feq s n (d_e Y) (mmul m (mtr rn) (d_e A))). { intros i j _ _. rewrite Y3. unfold m. ring. }
  exists Y. split; auto. split; auto. split; auto. intros Hd Z HZ.
  pose proof (one_sided_drops _ _ _ _ H Hd) as F. rewrite Y1, Y2 in F. fold n in F.
  destruct HI as [_ [_ [H1 [_ [H2 _]]]]].
  eapply (interpolate_left m n s k (d_e A) (d_e Y) Z); eauto.
  eapply feq_trans; [exact HZ|]. intros i j Hi Hj. apply mmul_ext; auto. intros x Hx. symmetry. apply EY; auto.
Qed.

(** Rows: exact whenever the columns of A are combinations of the sampled columns. *)
Lemma one_sided_rid_row (rn : mat) (A : dense) s k (W : dense) sel :
  one_sided_rid dgeqp3 rinv rn A s k false = Ok (W, sel) ->
  let m := d_r A in
  let n := d_c A in
  interpolates m k W sel /\
  exists Y : dense, d_r Y = s /\ d_c Y = m /\ feq s m (d_e Y) (mtr (mmul n (d_e A) rn)) /\
    (drops_nothing Y k -> forall Z : mat, feq m n (d_e A) (mmul s (mmul n (d_e A) rn) Z) ->
     feq m n (mmul k (mtr (d_e W)) (fun i j => d_e A (nth i sel 0) j)) (d_e A)).
Proof.
  intros H m n. unfold one_sided_rid in H. apply bind_Ok in H. destruct H as [Y [HY H]].
  apply bind_Ok in HY. destruct HY as [Y' [HY HT]]. inversion HT; subst Y; clear HT.
  apply dd_mul_inv in HY. cbv iota in HY. cbn [d_r d_c d_e mop] in HY. destruct HY as [_ [Y1 [Y2 Y3]]].
  pose proof (one_sided_interpolates _ _ _ _ H) as HI. change (d_c (d_transpose Y')) with (d_r Y') in HI. rewrite Y1 in HI. fold m in HI. split; auto.
  assert (EY : feq s m (d_e (d_transpose Y')) (mtr (mmul n (d_e A) rn))).
  { intros i j Hi Hj. rewrite (d_transpose_ent Y') by (rewrite ?Y1, ?Y2; auto). unfold mtr. rewrite Y3. unfold n. ring. }
  exists (d_transpose Y'). split; auto. split; auto. split; auto. intros Hd Z HZ.
  pose proof (one_sided_drops _ _ _ _ H Hd) as F. change (d_r (d_transpose Y')) with (d_c Y') in F. change (d_c (d_transpose Y')) with (d_r Y') in F.
  rewrite Y1, Y2 in F. fold m in F.
  destruct HI as [_ [_ [H1 [_ [H2 _]]]]].
  assert (G : feq n m (mmul k (pick sel (mtr (d_e A))) (d_e W)) (mtr (d_e A))).
  { eapply (interpolate_left n m s k (mtr (d_e A)) (d_e (d_transpose Y')) (mtr Z)); eauto.
    intros i j Hi Hj. unfold mtr at 1. rewrite HZ by auto.
    transitivity (mmul s (mtr Z) (mtr (mmul n (d_e A) rn)) i j); [apply mmul_tr|].
    apply mmul_ext; auto. intros x Hx. symmetry. apply EY; auto. }
  intros i j Hi Hj. etransitivity; [|exact (G j i Hj Hi)]. unfold mmul, pick, mtr. apply sum_ext. intros x _. ring.
Qed.

Lemma old_one_sided_rid_ok (rn : mat) (A : dense) s k tA (W : dense) sel :
  old_one_sided_rid dgeqp3 rinv L rn A s k tA = Ok (W, sel) ->
  let m := if tA then d_c A else d_r A in
  let n := if tA then d_r A else d_c A in
  let A' := mop tA (d_e A) in
  interpolates n k W sel /\
  exists (Q : mat) (Y : dense), orth_cols m s Q /\ (exists Rf : mat, feq m s (mmul s Q Rf) (mmul n A' rn)) /\
    d_r Y = s /\ d_c Y = n /\ feq s n (d_e Y) (mmul m (mtr Q) A') /\
    (drops_nothing Y k -> forall Z : mat, feq m n (mmul s (mmul n A' rn) Z) A' ->
     feq m n (mmul k (pick sel A') (d_e W)) A').
Proof.
  intros H m n A'. unfold old_one_sided_rid in H. apply bind_Ok in H. destruct H as [Y [HY H]].
  apply bind_Ok in H. destruct H as [[Q Rf] [HQ H]]. apply bind_Ok in H. destruct H as [B [HB H]].
  apply dd_mul_inv in HY. cbv iota in HY. cbn [d_r d_c d_e mop] in HY. destruct HY as [_ [Y1 [Y2 Y3]]].
  assert (EY1 : d_r Y = m) by (rewrite Y1; destruct tA; reflexivity). clear Y1.
  assert (EY3 : feq m s (d_e Y) (mmul n A' rn)).
  { intros i j _ _. rewrite Y3. unfold n, A'. destruct tA; ring. }
  apply thin_qr_ok in HQ. rewrite EY1, Y2 in HQ. destruct HQ as [Ls [Q1 [Q2 [_ [_ [OQ FQ]]]]]].
  apply dd_mul_inv in HB. cbv iota in HB. destruct HB as [_ [B1 [B2 B3]]].
  rewrite Q2 in B1. assert (EB2 : d_c B = n) by (rewrite B2; destruct tA; reflexivity). clear B2.
  assert (EB3 : feq s n (d_e B) (mmul m (mtr (d_e Q)) A')).
  { intros i j _ _. rewrite B3, Q1. unfold A'. simpl mop at 1. ring. }
  pose proof (one_sided_interpolates _ _ _ _ H) as HI. rewrite EB2 in HI. split; auto.
  assert (HQ : feq m s (mmul s (d_e Q) (d_e Rf)) (mmul n A' rn)) by (eapply feq_trans; eauto).
  exists (d_e Q), B. split; auto. split; eauto. split; auto. split; auto. split; auto. intros Hd Z HZ.
  pose proof (one_sided_drops _ _ _ _ H Hd) as F. rewrite B1, EB2 in F.
  destruct HI as [_ [_ [H1 [_ [H2 _]]]]].
  eapply (interpolate_left m n s k A' (d_e B) (d_e Q)); eauto.
  (* A' = Q Q^T A' *)
  assert (EA : feq m n (mmul s (d_e Q) (mmul s (d_e Rf) Z)) A').
  { eapply feq_trans; [|exact HZ]. intros i j Hi Hj. rewrite <- mmul_assoc. apply mmul_ext; auto. }
  intros i j Hi Hj. rewrite <- EA by auto. apply mmul_ext; auto. intros x Hx. rewrite EB3 by auto.
  transitivity (mmul m (mtr (d_e Q)) (mmul s (d_e Q) (mmul s (d_e Rf) Z)) x j).
  2:{ apply mmul_ext; auto. }
  rewrite <- mmul_assoc. symmetry. transitivity (mmul s mid (mmul s (d_e Rf) Z) x j); [|apply mmul_id_l; auto].
  apply mmul_ext; auto.
Qed.

Lemma rid_ok (rn : mat) (A : dense) s k (U D V : dense) : rid dgeqp3 rinv L rn A s k = Ok (U, D, V) ->
  let m := d_r A in
  let n := d_c A in
  exists (Q : mat) (B : dense) (cols : list nat), samples rn A s Q /\ interpolates n k V cols /\
    d_r U = m /\ d_c U = k /\ d_r D = k /\ d_c D = k /\
    d_r B = s /\ d_c B = n /\ feq s n (d_e B) (mmul m (mtr Q) (d_e A)) /\
    (drops_nothing B k -> (forall AC, get_cols B cols = Ok AC -> drops_nothing (d_transpose AC) k) ->
     feq m n (mmul k (d_e U) (mmul k (d_e D) (d_e V))) (mmul s Q (mmul m (mtr Q) (d_e A)))).
Proof.
  intros H m n. unfold rid in H. apply bind_Ok in H. destruct H as [Y [HY H]].
  apply bind_Ok in H. destruct H as [[Q Rf] [HQ H]]. apply bind_Ok in H. destruct H as [B [HB H]].
  apply bind_Ok in H. destruct H as [[[Ub D'] V'] [HI H]]. apply bind_Ok in H. destruct H as [U' [HU H]].
  inversion H; subst U' D' V'; clear H.
  apply dd_mul_inv in HY. cbv iota in HY. cbn [d_r d_c d_e mop] in HY. destruct HY as [_ [Y1 [Y2 Y3]]].
  apply thin_qr_ok in HQ. rewrite Y1, Y2 in HQ. destruct HQ as [Ls [Q1 [Q2 [R1 [R2 [OQ FQ]]]]]].
  apply dd_mul_inv in HB. cbv iota in HB. destruct HB as [B0 [B1 [B2 B3]]]. rewrite Q1 in *. rewrite Q2 in B1.
  apply dd_mul_inv in HU. cbv iota in HU. cbn [mop] in HU. destruct HU as [U0 [U1 [U2 U3]]]. rewrite Q1 in U1. rewrite Q2 in U3.
  assert (EU : feq m k (d_e U) (mmul s (d_e Q) (d_e Ub))). { intros i j _ _. rewrite U3. ring. }
  assert (EB : feq s n (d_e B) (mmul m (mtr (d_e Q)) (d_e A))). { intros i j _ _. rewrite B3. simpl mop. unfold m. ring. }
  apply (id_ok _ HP) in HI. cbv zeta in HI. rewrite B1, B2 in HI. fold n in HI.
  destruct HI as [cols [rows [AC [HV [HA [_ [_ [_ [_ [_ [_ [I1 [I2 [I3 [I4 [I5 [I6 [_ [_ I7]]]]]]]]]]]]]]]]]]].
  pose proof (one_sided_interpolates _ _ _ _ HV) as HI. rewrite B2 in HI. fold n in HI.
  exists (d_e Q), B, cols. split.
  { split; auto. exists (d_e Rf). eapply feq_trans; [exact FQ|]. intros i j _ _. rewrite Y3. ring. }
  split; auto. split; auto. split; [congruence|]. split; auto. split; auto. split; auto. split; auto. split; auto.
  intros Hd Hd'. pose proof (one_sided_drops _ _ _ _ HV Hd) as F. rewrite B1, B2 in F. fold n in F.
  destruct (Hd' AC HA) as [Rf' [P' [HG [Hi' _]]]]. specialize (I7 _ _ HG Hi').
  eapply feq_trans; [apply feq_mmul; [exact EU|apply feq_refl]|].
  intros i j Hi Hj. rewrite mmul_assoc. apply mmul_ext; auto. intros x Hx.
  etransitivity; [apply I7; auto|]. etransitivity; [apply F; auto|]. apply EB; auto.
Qed.

(** ** Compression of a Hierarchical matrix *)

Variable Or : oracles R.

Lemma lr_of_h_refused fuel (rn : mat) m n (a : nat -> nat -> matrix) rank : ncols (MH m n a) <> n ->
  lr_of_h L Or (S fuel) rn m n a rank = AssertFail.
Proof.
  intros H. unfold lr_of_h, rsvd_h.
  assert (E : gemm_new Or (S fuel) (MH m n a) (MD (Dn n (Nat.min (Nat.min (rank + 5) m) n) rn)) 1%r false false = AssertFail).
  { unfold gemm_new. cbn [gemm_pair snd]. unfold new_step.
    change (opc false (MH m n a)) with (ncols (MH m n a)). change (opr false (MD (Dn n (Nat.min (Nat.min (rank + 5) m) n) rn))) with n.
    destruct (Nat.eqb_spec (ncols (MH m n a)) n); [contradiction|reflexivity]. }
  rewrite E. reflexivity.
Qed.

Lemma lr_of_h_dims fuel (rn : mat) m n (a : nat -> nat -> matrix) rank (l : lowrank) :
  lr_of_h L Or fuel rn m n a rank = Ok l -> l_r l = m /\ l_c l = n /\ ncols (MH m n a) = n.
Proof.
  intros H. destruct fuel as [|fuel].
  { unfold lr_of_h, rsvd_h in H. unfold gemm_new in H. simpl in H. discriminate. }
  destruct (Nat.eq_dec (ncols (MH m n a)) n) as [E|E].
  2:{ rewrite lr_of_h_refused in H by auto. discriminate. }
  unfold lr_of_h in H. apply bind_Ok in H. destruct H as [[[U D] V] [_ H]].
  apply bind_Ok in H. destruct H as [U' [_ H]]. apply bind_Ok in H. destruct H as [V' [_ H]].
  apply bind_Ok in H. destruct H as [D' [_ H]]. inversion H; subst l. auto.
Qed.

(** Only a matrix of single numbers gets a LowRank matrix of its own dimensions. *)
Lemma lr_of_h_wrong fuel (rn : mat) m n (a : nat -> nat -> matrix) rank (l : lowrank) :
  nrows (MH m n a) <> m \/ ncols (MH m n a) <> n -> lr_of_h L Or fuel rn m n a rank = Ok l ->
  ncols (MH m n a) = n /\ l_r l <> nrows (MH m n a).
Proof.
  intros H1 H2. apply lr_of_h_dims in H2. destruct H2 as [E1 [E2 E3]]. split; auto. rewrite E1. destruct H1; congruence.
Qed.
End Rand.
