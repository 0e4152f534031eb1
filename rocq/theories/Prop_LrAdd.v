(** Property C79: additions that fit into the rank lose nothing, and the example lr_add. *)
From Coq Require Import List Arith ZArith QArith Lia Bool String Reals Qreals Lra.
From Verif Require Import Prelude Ring MatFun Matrix MatOps MatSpec MatOpsProofs Lapack Gemm LowRankAdd LowRankAddProofs
  Sampled SampledTheorems SvdRank HouseReal Rrqr RealLapack EckartYoung RealAdd Kernels L2Error L2Real BlrCompare Prop_Real Prop_RealAdd.
Import ListNotations.
Local Open Scope nat_scope.

(** A sum that is a product with as many inner terms as a has recorded ranks. *)
Definition sum_fits (a b : rlowrank) : Prop :=
  exists Y Z : rmat, feq (R := Rring) (l_r a) (l_c a) (sum_of a b) (mmul (R := Rring) (l_rank a) Y Z).

Lemma dist2_zero a b X : dist2 a b X = 0%R -> feq (R := Rring) (l_r a) (l_c a) X (sum_of a b).
Proof.
  intros H i j Hi Hj. change (sumsq (R := Rring) (l_r a) (l_c a) (fun i j => (sum_of a b i j - X i j)%R) = 0%R) in H.
  apply sumsq_zero in H. specialize (H i j Hi Hj). unfold mzero in H. cbn in H. lra.
Qed.
Lemma dist2_fits a b X : feq (R := Rring) (l_r a) (l_c a) (sum_of a b) X -> dist2 a b X = 0%R.
Proof.
  intros H. change (sumsq (R := Rring) (l_r a) (l_c a) (fun i j => (sum_of a b i j - X i j)%R) = 0%R).
  apply sumsq_zero. intros i j Hi Hj. rewrite <- (H i j Hi Hj). unfold mzero. cbn. lra.
Qed.
Lemma dist2_nonneg a b X : (0 <= dist2 a b X)%R.
Proof. apply (sumsq_nonneg (l_r a) (l_c a) (fun i j => (sum_of a b i j - X i j)%R)). Qed.

(** ** C79 *)

(** With a fixed rank, whatever the setting (but "naive"): if the sum has that rank, the
    result is the sum. *)
Theorem C79_lossless : forall L compress setting (a b : rlowrank), library L -> setting <> "naive"%string ->
  fits a -> fits b -> l_r a = l_r b -> l_c a = l_c b -> use_eps a = false ->
  (setting <> "rounded_addition"%string ->
     ortho_cols (l_r a) (l_rank a) (d_e (l_U a)) /\ ortho_rows (l_rank a) (l_c a) (d_e (l_V a))) ->
  sum_fits a b ->
  exists c, lr_addition L compress setting a b = Ok c /\ lr_wf c /\ l_r c = l_r a /\ l_c c = l_c a /\ l_rank c = l_rank a /\
    feq (R := Rring) (l_r a) (l_c a) (lr_ent c) (sum_of a b).
Proof.
  intros L compress setting a b HL Hn FA FB Er Ec He HO [Y [Z HS]]. destruct HL as [H1 [H2 H3]].
  destruct (lr_addition_real L H1 H2 H3 compress setting a b Hn FA FB Er Ec (fun _ => HO)) as [c [E [W [E1 [E2 [E3 [E4 [E5 [E6 _]]]]]]]]].
  rewrite He in E4. exists c. repeat (split; [assumption|]). apply dist2_zero.
  pose proof (best_dist a b c E6 Y Z) as B. rewrite E4 in B. rewrite (dist2_fits a b _ HS) in B.
  pose proof (dist2_nonneg a b (lr_ent c)). lra.
Qed.
Print Assumptions C79_lossless.

(** Twice a matrix has no larger rank than the matrix. *)
Lemma double_fits (a : rlowrank) : lr_wf a -> square_rank a -> sum_fits a a.
Proof.
  intros [W1 [W2 [W3 W4]]] [S1 S2]. exists (d_e (l_U a)), (fun i j => 2 * mmul (R := Rring) (d_c (l_S a)) (d_e (l_S a)) (d_e (l_V a)) i j)%R.
  intros i j Hi Hj. unfold sum_of, lr_ent.
  replace (d_c (l_U a)) with (l_rank a) by congruence.
  set (X := mmul (R := Rring) (d_c (l_S a)) (d_e (l_S a)) (d_e (l_V a))). unfold mmul.
  change (@sum Rring) with rsum. 
  transitivity (2 * rsum (l_rank a) (fun l => (d_e (l_U a) i l * X l j)%R))%R; [cbn; ring|].
  rewrite <- rsum_mul_l. apply (sum_ext (R := Rring)). intros l _. cbn. ring.
Qed.

(** ** The program examples/lr_add.cpp *)

(** Lines 11-45: D is a block of the kernel matrix beside the diagonal, A and B are the same
    compression of it (the generator is seeded anew for every sample, functions.cpp:35-50, so
    that the samples are a function [rn] of their dimensions); B is added to A with the
    default, the naive and the rounded addition and the result compared with D + D. *)
Definition lr_add_example (L : lapack Rring) (rn : nat -> nat -> rmat) (pts : list (list R)) (n rank : nat)
  : outcome (R * R * R) :=
  let compress := fun d r => lr_of_dense L (rn (d_c d) (Nat.min (Nat.min (r + 5) (d_r d)) (d_c d))) d r in
  let* D := kernel_fill KLaplace pts n n 0 n in
  let* A := compress D rank in
  let* B := compress D rank in
  let* DD := d_plus D D in
  let* W := lr_addition L compress "" A B in
  let* e1 := l2_error 2 (MD DD) (ML W) in
  let* W := lr_addition L compress "naive" A B in
  let* e2 := l2_error 2 (MD DD) (ML W) in
  let* W := lr_addition L compress "rounded_addition" A B in
  let* e3 := l2_error 2 (MD DD) (ML W) in
  Ok (e1, e2, e3).

(** It returns for every rank that is not larger than N.  The first and the third number are
    the same, and the error of the compression of D + D by A + A; so is the second if twice
    the rank is smaller than N. *)
Theorem C79_program : forall L rn pts n rank, library L -> enough pts (2 * n) -> 0 < rank <= n ->
  exists D A e e2, kernel_fill KLaplace pts n n 0 n = Ok D /\
    lr_of_dense L (rn n (Nat.min (rank + 5) n)) D rank = Ok A /\
    lr_add_example L rn pts n rank = Ok (e, e2, e) /\
    e = sqrt (frob2 n n (fun i j => 2 * (d_e D i j - lr_ent A i j)) / (frob2 n n (fun i j => 2 * d_e D i j) + dbl_eps))%R /\
    (2 * rank < n -> e2 = e).
Proof.
  intros L rn pts n rank HL HP [H0 Hr]. pose proof HL as [H1 [H2 H3]].
  destruct (fill_succeeds KLaplace pts n n 0 n (2 * n) HP ltac:(lia) ltac:(lia)) as [D HD]; [discriminate|].
  destruct (kernel_fill_inv _ _ _ _ _ _ _ HD) as [D1 [D2 _]].
  pose proof (lapack_ok_sound L H1 H2) as LS.
  set (compress := fun (d : dense Rring) r => lr_of_dense L (rn (d_c d) (Nat.min (Nat.min (r + 5) (d_r d)) (d_c d))) d r).
  assert (CS : forall d r, 0 < r -> r <= d_r d -> r <= d_c d -> exists l, compress d r = Ok l).
  { intros d r R0 R1 R2. apply (lr_of_dense_succ L LS); auto. }
  destruct (CS D rank) as [A HA]; try lia.
  pose proof (lr_of_dense_ok L LS _ D rank A HA) as P. cbv zeta in P. rewrite D1, D2 in P.
  destruct P as [WA [A1 [A2 [A3 [_ [A4 [A5 [A6 [A7 [OU [OV _]]]]]]]]]]].
  assert (UE : use_eps A = false).
  { unfold compress, lr_of_dense in HA. apply bind_Ok in HA. destruct HA as [[[U Dg] V] [_ HA]].
    do 3 (apply bind_Ok in HA; destruct HA as [? [_ HA]]). inversion HA. reflexivity. }
  assert (SQ : square_rank A) by (split; congruence).
  assert (FA : fits A) by (split; [auto|split; [auto|lia]]).
  pose proof (double_fits A WA SQ) as DF.
  destruct (d_plus_spec D D eq_refl eq_refl) as [DD [EDD [DD1 [DD2 DD3]]]].
  assert (EX : forall st, st <> "naive"%string -> exists c, lr_addition L compress st A A = Ok c /\ lr_wf c /\ l_r c = n /\ l_c c = n /\
    feq (R := Rring) n n (lr_ent c) (sum_of A A)).
  { intros st Hs. destruct (C79_lossless L compress st A A HL Hs FA FA eq_refl eq_refl UE) as [c [E [W [C1 [C2 [_ F]]]]]]; auto.
    - intros _. rewrite A1, A2, A3. split; [apply ortho_cols_eq|apply ortho_rows_eq]; auto.
    - rewrite A1, A2 in *. exists c. auto. }
  assert (L2 : forall c, lr_wf c -> l_r c = n -> l_c c = n -> exists x, l2_error 2 (MD DD) (ML c) = Ok x).
  { intros c Wc C1 C2. apply l2_from_cdn; [cbn [nrows]; congruence|cbn [ncols]; congruence|].
    apply cdn_leaves; try exact I; auto. split; cbn [nrows ncols]; congruence. }
  set (v := sqrt (frob2 n n (fun i j => 2 * (d_e D i j - lr_ent A i j)) / (frob2 n n (fun i j => 2 * d_e D i j) + dbl_eps))%R).
  assert (VAL : forall c x, lr_wf c -> l_r c = n -> l_c c = n -> feq (R := Rring) n n (lr_ent c) (sum_of A A) ->
    l2_error 2 (MD DD) (ML c) = Ok x -> x = v).
  { intros c x Wc C1 C2 F E. rewrite (l2_value 2 (MD DD) (ML c) x I Wc E). unfold v. cbn [nrows ncols].
    rewrite DD1, DD2, D1, D2 in *. f_equal. f_equal; [|f_equal; f_equal].
    - apply (sumsq_ext (R := Rring)). intros i j Hi Hj. change (ent (MD DD)) with (d_e DD). change (ent (ML c)) with (lr_ent c).
      rewrite (DD3 i j Hi Hj), (F i j Hi Hj). unfold madd, sum_of. cbn. ring.
    - apply (sumsq_ext (R := Rring)). intros i j Hi Hj. change (ent (MD DD)) with (d_e DD). rewrite (DD3 i j Hi Hj). unfold madd. cbn. ring. }
  destruct (EX ""%string ltac:(discriminate)) as [c1 [E1 [W1 [R1 [S1 F1]]]]].
  destruct (EX "rounded_addition"%string ltac:(discriminate)) as [c3 [E3 [W3 [R3 [S3 F3]]]]].
  destruct (L2 c1 W1 R1 S1) as [x1 X1]. destruct (L2 c3 W3 R3 S3) as [x3 X3].
  pose proof (VAL c1 x1 W1 R1 S1 F1 X1) as V1. pose proof (VAL c3 x3 W3 R3 S3 F3 X3) as V3.
  assert (NV : exists c2, lr_addition L compress "naive" A A = Ok c2 /\ lr_wf c2 /\ l_r c2 = n /\ l_c c2 = n /\
    (2 * rank < n -> feq (R := Rring) n n (lr_ent c2) (sum_of A A))).
  { change (lr_addition L compress "naive" A A) with (naive_addition compress A A).
    destruct (le_lt_dec n (2 * rank)) as [G|G].
    - destruct (naive_full compress A A WA WA eq_refl eq_refl) as [s [M1 [M2 [_ M4]]]]; [lia|]. rewrite M4, A3.
      destruct (CS s rank) as [c Hc]; try lia. exists c. split; auto.
      pose proof (lr_of_dense_ok L LS _ s rank c Hc) as P. cbv zeta in P. destruct P as [Wc [Q1 [Q2 _]]].
      split; auto. split; [congruence|]. split; [congruence|]. lia.
    - destruct (naive_below compress A A WA WA eq_refl eq_refl SQ SQ) as [c [E [W [C1 [C2 [_ [_ [_ F]]]]]]]]; try lia.
      exists c. rewrite A1, A2 in *. auto 6. }
  destruct NV as [c2 [E2 [W2 [R2 [S2 F2]]]]]. destruct (L2 c2 W2 R2 S2) as [x2 X2].
  exists D, A, v, x2. split; auto. split.
  { unfold compress in HA. rewrite D1, D2 in HA. replace (Nat.min (rank + 5) n) with (Nat.min (Nat.min (rank + 5) n) n) by lia. exact HA. }
  split; [|split; [reflexivity|intros G; exact (VAL c2 x2 W2 R2 S2 (F2 G) X2)]].
  unfold lr_add_example. rewrite HD. cbn [bind]. change (lr_of_dense L (rn (d_c D) (Nat.min (Nat.min (rank + 5) (d_r D)) (d_c D))) D rank) with (compress D rank).
  rewrite HA. cbn [bind]. rewrite EDD. cbn [bind]. fold compress. rewrite E1. cbn [bind]. rewrite X1. cbn [bind].
  rewrite E2. cbn [bind]. rewrite X2. cbn [bind]. rewrite E3. cbn [bind]. rewrite X3. cbn [bind]. congruence.
Qed.
Print Assumptions C79_program.

(** A larger rank does not work. *)
Theorem C79_rank_too_large : forall L rn pts n rank, library L -> n < rank -> forall r, lr_add_example L rn pts n rank <> Ok r.
Proof.
  intros L rn pts n rank [H1 [H2 _]] Hr r H. unfold lr_add_example in H.
  apply bind_Ok in H. destruct H as [D [HD H]]. apply bind_Ok in H. destruct H as [A [HA _]].
  destruct (kernel_fill_inv _ _ _ _ _ _ _ HD) as [D1 [D2 _]].
  destruct (lr_of_dense_rank L (lapack_ok_sound L H1 H2) _ D rank A HA). lia.
Qed.
Print Assumptions C79_rank_too_large.

Lemma real_library : library real_lapack.
Proof. split; [exact real_lapack_ok|]. split; [exact real_lapack_orth|exact real_lapack_sorted]. Qed.

(** The default parameters N = 128, rank = 16: three times the same number, whatever the
    points and the samples. *)
Example C79_ex : forall rn pts, enough pts (2 * 128) -> exists e, lr_add_example real_lapack rn pts 128 16 = Ok (e, e, e).
Proof.
  intros rn pts HP. destruct (C79_program real_lapack rn pts 128 16 real_library HP ltac:(lia)) as [D [A [e [e2 [_ [_ [E [_ N]]]]]]]].
  exists e. rewrite E, (N ltac:(lia)). reflexivity.
Qed.

(** diag(1, 0) plus diag(2, 0) fits into rank 1; diag(1, 0) plus diag(0, 1) does not. *)
Definition corner (x y : R) : rlowrank :=
  Lr (R := Rring) 2 2 1 0 (@Dn Rring 2 1 (fun i _ => if i =? 0 then x else y)) (@Dn Rring 1 1 (fun _ _ => 1%R)) (@Dn Rring 1 2 (fun _ j => if j =? 0 then x else y)).
Example C79_ex_fits : sum_fits (corner 1 0) (corner 2 0) /\ ~ sum_fits (corner 1 0) (corner 0 1).
Proof.
  split.
  - exists (fun i _ => if i =? 0 then 1%R else 0%R), (fun _ j => if j =? 0 then 5%R else 0%R).
    intros [|[|i]] [|[|j]] Hi Hj; cbn in Hi, Hj; try lia; unfold sum_of, lr_ent, mmul; cbn [corner l_r l_c l_rank l_U l_S l_V d_r d_c d_e sum Nat.eqb]; rring.
  - intros [Y [Z H]].
    assert (V : forall i j, i < 2 -> j < 2 -> sum_of (corner 1 0) (corner 0 1) i j = (if i =? j then 1 else 0)%R).
    { intros [|[|i]] [|[|j]] Hi Hj; try lia; unfold sum_of, lr_ent, mmul; cbn [corner l_r l_c l_rank l_U l_S l_V d_r d_c d_e sum Nat.eqb]; rring. }
    assert (T : forall i j, i < 2 -> j < 2 -> (Y i 0%nat * Z 0%nat j)%R = (if i =? j then 1 else 0)%R).
    { intros i j Hi Hj. rewrite <- V by auto. rewrite (H i j Hi Hj). unfold mmul. cbn [corner l_rank sum]. rring. }
    pose proof (T 0%nat 0%nat ltac:(lia) ltac:(lia)) as E1. pose proof (T 1%nat 1%nat ltac:(lia) ltac:(lia)) as E2.
    pose proof (T 0%nat 1%nat ltac:(lia) ltac:(lia)) as E3. cbn [Nat.eqb] in E1, E2, E3.
    assert (K : (Y 0%nat 0%nat * Z 0%nat 0%nat * (Y 1%nat 0%nat * Z 0%nat 1%nat) = Y 0%nat 0%nat * Z 0%nat 1%nat * (Y 1%nat 0%nat * Z 0%nat 0%nat))%R) by ring.
    rewrite E1, E2, E3 in K. lra.
Qed.
