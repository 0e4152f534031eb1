(** C84: the numbers printed by examples/blocked_mgs_blr_qr.cpp. *)
From Coq Require Import List Arith ZArith QArith Qreals Lia Bool Reals Lra String Ring_theory Ring.
From Verif Require Import Prelude Ring MatFun MatSetoid Matrix MatOps MatSpec MatOpsProofs IndexRange IndexRangeSpec
  IndexRangeProofs ClusterTree ClusterTreeSpec ClusterTreeProofs ClusterTreeRegular Admissible Construct ConstructProofs
  Lapack LowRankAdd Gemm GemmSpec GemmTheorems Triangular TriSpec Kernels ConstructKernel ConstructError FixedRank L2Error L2Real
  Reflect ReflectSpec ReflectProofs ReflectSuccess QrBig QrTiled QrStep QrApply QrTheorems QrSuccess RealQr
  EckartYoung SvdRank HouseReal TileKernels Rrqr RrqrLr RrqrDeficient RealLapack Prop_RealAdd Prop_FixedRank
  FroNorm QrErrTile QrErrStep QrErrApply QrErrReal QrErrSucc QrErrWhole TrmmErr GramErr BlrBuild BlrCompare QrProgram
  Sampled SampledTheorems Mgs MgsProofs MgsNested MgsProgram MgsOne.
From Verif Require Prop_MgsError Prop_QrProgram.
Import ListNotations.
Local Open Scope R_scope.

(** Hierarchical A(kernel, randpts, m, n, b, eps, admis, p, q) (lines 33, 38, 39 and 52). *)
Definition blr_of (K : kernel) (tol : R) (fuel : nat) (pts : list (list R)) (m n b : nat) (eps admis : Q) : outcome (matrix Rring) :=
  hierarchical (kernel_init K pts (is_admissible PositionBased [] admis) (lowrank_eps tol eps)) fuel (rng m) (rng n)
    (Z.of_nat (m / b)) (Z.of_nat (n / b)) (Z.of_nat b).

(** Lines 13-57.  [K] is the kernel (laplacend in the code), [pts] the points, [rn] the random
    samples of the construction by rank, [tol] the machine epsilon, [nd] whether asserts are
    compiled out in trmm. *)
Definition blr_mgs (rn : nat -> nat -> rmat) (tol : R) (nd : bool) (fuel : nat) (K : kernel) (pts : list (list R))
  (m n b : nat) (eps admis : Q) : outcome (R * R * R) :=
  let Or := real_arith "rounded_addition" rn tol in
  assert! (n <=? m)%nat in
  if (b =? 0)%nat then UB else
  assert! (m mod b =? 0)%nat in
  assert! (n mod b =? 0)%nat in
  let p := (m / b)%nat in
  let q := (n / b)%nat in
  let* D := hierarchical (kernel_init K pts (is_admissible PositionBased [] (inject_Z (Z.of_nat p))) (fun d => crank Or d b)) fuel
    (rng m) (rng n) (Z.of_nat p) (Z.of_nat q) (Z.of_nat b) in                  (* 32 *)
  let* A := blr_of K tol fuel pts m n b eps admis in                            (* 33 *)
  let* compression := l2_error fuel D A in                                      (* 35 *)
  let* Q0 := blr_of KZeros tol fuel pts m n b eps admis in                      (* 38 *)
  let* R0 := blr_of KZeros tol fuel pts n n b eps admis in                      (* 39 *)
  let* (_, Q, R) := mgs_qr real_lapack Or fuel fuel A Q0 R0 in                  (* 43 *)
  let* QR := trmm Or fuel nd fuel R Q SRight Upper false false (1%r : car Rring) in            (* 48-49 *)
  let* residual := l2_error fuel D QR in                                        (* 50 *)
  let* QtQ0 := blr_of KZeros tol fuel pts n n b eps admis in                    (* 52 *)
  let* Qt := transpose Q in                                                     (* 53 *)
  let* QtQ := gemm Or fuel Qt Q QtQ0 (1%r : car Rring) (0%r : car Rring) false false in   (* 54 *)
  let* one := kernel_fill KIdentity [] n n 0 0 in
  let* orthogonality := l2_error fuel (MD one) QtQ in                           (* 55 *)
  Ok (compression, residual, orthogonality).

(** A number printed by l2_error, times what it is relative to. *)
Lemma l2_exact fuel (A B : matrix Rring) e : wf A -> wf B -> l2_error fuel A B = Ok e ->
  let x := fro (nrows A) (ncols A) (ent A) in
  e * sqrt (x * x + dbl_eps) = fro (nrows A) (ncols A) (msub (R := Rring) (ent A) (ent B)).
Proof.
  intros WA WB H x. rewrite (l2_value fuel A B e WA WB H). unfold x. rewrite fro_sq. unfold fro.
  set (N := sumsq (R := Rring) (nrows A) (ncols A) (ent A)).
  change (sumsq (R := Rring) (nrows A) (ncols A) (msub (R := Rring) (ent A) (ent B))) with (sumsq (R := Rring) (nrows A) (ncols A) (fun i j => (ent A i j - ent B i j)%R)).
  set (D := sumsq (R := Rring) (nrows A) (ncols A) (fun i j => (ent A i j - ent B i j)%R)).
  assert (HD : 0 <= D) by apply sumsq_nonneg. assert (HN : 0 <= N) by apply sumsq_nonneg. pose proof dbl_eps_pos as HE.
  assert (HQ : 0 <= D / (N + dbl_eps)) by (apply Rmult_le_pos; [auto|left; apply Rinv_0_lt_compat; lra]).
  rewrite <- sqrt_mult by lra. f_equal. field. lra.
Qed.

Lemma fro_near r c (f g h : mat Rring) : Rabs (fro r c (msub (R := Rring) f g) - fro r c (msub (R := Rring) f h)) <= fro r c (msub (R := Rring) g h).
Proof.
  pose proof (fro_via r c f h g) as P1. pose proof (fro_via r c f g h) as P2. rewrite (fro_swap r c h g) in P1.
  apply Rabs_le. lra.
Qed.

(** The norm of a block column of Q. *)
Definition col_size (u tau : R) (p b : nat) : R :=
  (sqrt (INR b) + sqrt (INR p) * Prop_MgsError.mgs_extra u tau) / (1 - Prop_MgsError.mgs_rate u).

(** All positional kernels, tile sizes b >= 2, numbers of tiles p >= q, weak admissibility and
    accuracies with 2u + u^2 < 1 for u = sqrt b * eps.  The zero matrices are always built.
    When the compressed matrix is built and the factorization returns, the program prints three
    numbers.  The first is the error of the compression relative to |F|.  The second and the third are, up to
    the rounding of the two products, |F - Q R| relative to |F| and |I - Q^T Q| relative to |I|,
    where F is the kernel matrix, and |F - Q R| is bounded. *)
Theorem C84_program : forall rn tol nd K pts p q b eps admis F f M,
  (2 <= b)%nat -> (0 < q)%nat -> (q <= p)%nat -> positional K = true -> kernel_fill K pts (p * b) (q * b) 0 0 = Ok F ->
  0 <= tol -> Qeq_bool eps 0 = false -> 0 <= Q2R eps -> (0 <= admis < 1)%Q ->
  let m := (p * b)%nat in let n := (q * b)%nat in
  let u := sqrt (INR b) * Q2R eps in let tau := tol * INR b in
  2 * u + u * u < 1 ->
  let fuel := (4 + f)%nat in
  let Or := real_arith "rounded_addition" rn tol in
  blr_of K tol fuel pts m n b eps admis = Ok M ->
  exists Q0 R0, blr_of KZeros tol fuel pts m n b eps admis = Ok Q0 /\ blr_of KZeros tol fuel pts n n b eps admis = Ok R0 /\
  forall A' Q R, mgs_qr real_lapack Or fuel fuel M Q0 R0 = Ok (A', Q, R) ->
  let x := fro m n (d_e F) in
  let d := Prop_QrProgram.left_out b (Q2R eps) tol m n x in
  let fQ := fro m n (ent Q) in
  let fR := fro n n (ent R) in
  let res := fro m n (msub (R := Rring) (d_e F) (mmul (R := Rring) n (ent Q) (ent R))) in
  let loss := fro n n (msub (R := Rring) (mid (R := Rring)) (mmul (R := Rring) m (mtr (ent Q)) (ent Q))) in
  exists compression residual orthogonality,
    blr_mgs rn tol nd fuel K pts m n b eps admis = Ok (compression, residual, orthogonality) /\
    compression * sqrt (x * x + dbl_eps) = fro m n (msub (R := Rring) (d_e F) (ent M)) /\
    fro m n (msub (R := Rring) (d_e F) (ent M)) <= d /\ 0 <= compression /\ compression * x <= d /\
    res <= d + Prop_MgsError.mgs_bound u tau p q fQ fR /\
    Rabs (residual * sqrt (x * x + dbl_eps) - res) <= Prop_QrProgram.mul_growth (Q2R eps) q * (fQ * fR) /\
    Rabs (orthogonality * sqrt (INR n + dbl_eps) - loss) <= Prop_QrProgram.mul_growth (Q2R eps) p * (fQ * fQ) /\
    (forall j, (j < q)%nat -> let B := mwin (R := Rring) 0 (j * b) (ent Q) in exists X, orth_cols (R := Rring) m b X /\
      fro m b (msub (R := Rring) B X) <= Prop_MgsError.mgs_rate u * fro m b B + sqrt (INR p) * Prop_MgsError.mgs_extra u tau) /\
    (Prop_MgsError.mgs_rate u < 1 -> fQ <= sqrt (INR q) * col_size u tau p b).
Proof.
  intros rn tol nd K pts p q b eps admis F f M Hb Hq Hqp HK HF Ht He E0 Ha m n u tau U1 fuel Or HM.
  assert (B1 : 1 <= INR b) by (replace 1 with (INR 1) by reflexivity; apply le_INR; lia).
  assert (SB : sqrt (INR b) * sqrt (INR b) = INR b) by (apply sqrt_sqrt; lra).
  assert (U0 : 0 <= u) by (apply Rmult_le_pos; auto; apply sqrt_pos).
  assert (U2 : 0 <= u * u) by (apply Rmult_le_pos; auto).
  assert (Es : Q2R eps * Q2R eps * INR b < 1).
  { apply Rle_lt_trans with (u * u); [right|lra]. unfold u. transitivity (Q2R eps * Q2R eps * (sqrt (INR b) * sqrt (INR b))); [rewrite SB; reflexivity|ring]. }
  assert (E1 : Q2R eps <= 1).
  { destruct (Rle_lt_dec (Q2R eps) 1); auto. exfalso. nra. }
  assert (T0 : 0 <= tau) by (apply Rmult_le_pos; lra).
  set (w := fun _ : nat => b).
  unfold blr_of in *. unfold m, n in *. rewrite !Nat.div_mul in * by lia.
  destruct (weak_built K pts p q b F tol eps admis Hb HK HF Ht E0 Es Ha _ M HM) as [A [-> [GA [DA [LA BA]]]]]. fold w in GA.
  destruct (weak_zeros pts p q b tol eps admis (S (S f)) Hb Ht E0 Es Ha) as [Z [HZ [GZ [DZ [LZ ZZ]]]]]. fold w in GZ.
  destruct (weak_zeros pts q q b tol eps admis (S (S f)) Hb Ht E0 Es Ha) as [R0 [HR0 [GR [DR [LR ZR]]]]]. fold w in GR.
  exists (MH p q Z), (MH q q R0). split; [exact HZ|]. split; [exact HR0|].
  intros A' Q R HMG. set (x := fro (p * b) (q * b) (d_e F)). set (d := Prop_QrProgram.left_out b (Q2R eps) tol (p * b) (q * b) x).
  set (fQ := fro (p * b) (q * b) (ent Q)). set (fR := fro (q * b) (q * b) (ent R)).
  set (res := fro (p * b) (q * b) (msub (R := Rring) (d_e F) (mmul (R := Rring) (q * b) (ent Q) (ent R)))).
  set (loss := fro (q * b) (q * b) (msub (R := Rring) (mid (R := Rring)) (mmul (R := Rring) (p * b) (mtr (ent Q)) (ent Q)))).
  destruct (mgs_factors "rounded_addition" rn tol eps b He p q Hq Hqp u tau (Prop_MgsError.mgs_rate u) (Prop_MgsError.mgs_extra u tau)
    fuel fuel A Z R0 A' Q R (real_accurate "rounded_addition" rn tol eps b ltac:(discriminate) He E0 Ht ltac:(lia))
    ltac:(lra) T0 U1 ltac:(unfold Prop_MgsError.mgs_rate; right; field; lra) ltac:(unfold Prop_MgsError.mgs_extra; right; field; lra)
    GA GZ LZ GR DR LR ZR HMG) as [Qg [Rg [EQ [ER [GQ [LQ [RB [OC BD]]]]]]]]. subst Q R.
  destruct (product_checked "rounded_addition" rn tol eps b ltac:(discriminate) He (conj E0 E1) p q Hq Hqp (S (S (S f))) nd (S (S f)) Rg Qg RB GQ) as [X [EX [GX BX]]].
  destruct (gram_checked "rounded_addition" rn tol eps b ltac:(discriminate) He (conj E0 E1) p q Hq Hqp (S (S f)) Qg R0 GQ LQ GR DR) as [Qt [Y [ET [EY [GY BY]]]]].
  cbv zeta in BY.
  destruct (blr_dense K pts p q b F ltac:(lia) HK HF (fun d => crank Or d b) (inject_Z (Z.of_nat p)) (S (S f)) (Prop_QrProgram.none_admissible p q b Hb Hq Hqp))
    as [D [HD TD]].
  assert (GD : gtiles eps p q w w D).
  { intros i j Hi Hj. destruct (TD i j Hi Hj) as [t [-> [T1 [T2 _]]]]. split; [exact I|]. split; [exact T1|]. split; [exact T2|exact I]. }
  assert (FD : feq (R := Rring) (p * b) (q * b) (ent (MH p q D)) (d_e F)).
  { apply (Prop_QrProgram.whole_feq p q b Hb Hq Hqp p q D); [exact (gtiles_shaped eps p q w w D GD)|]. intros i j Hi Hj. destruct (TD i j Hi Hj) as [t [-> [T1 [T2 T3]]]]. exact T3. }
  destruct (Prop_QrProgram.grid_wf b eps p q A ltac:(lia) Hq GA) as [WA [NA1 [NA2 TA]]].
  destruct (Prop_QrProgram.grid_wf b eps p q D ltac:(lia) Hq GD) as [WD [ND1 [ND2 TD']]].
  destruct (Prop_QrProgram.grid_wf b eps p q X ltac:(lia) Hq GX) as [WX [NX1 [NX2 TX]]].
  destruct (Prop_QrProgram.grid_wf b eps q q Y Hq Hq GY) as [WY [NY1 [NY2 TY]]].
  destruct (kernel_fill_intro KIdentity [] (q * b) (q * b) 0 0) as [one Hone]. { intros i j Hi Hj. cbn. eauto. }
  destruct (kernel_fill_inv _ _ _ _ _ _ _ Hone) as [O1 [O2 O3]].
  destruct (l2_from_cdn fuel (MH p q D) (MH p q A)) as [e1 H1]; [congruence|congruence|apply cdn_tiles|].
  { intros i j Hi Hj. destruct (TA i j Hi Hj) as [? [? [? ?]]], (TD' i j Hi Hj) as [? [? [? ?]]]. repeat (split; auto); congruence. }
  destruct (l2_from_cdn fuel (MH p q D) (MH p q X)) as [e2 H2]; [congruence|congruence|apply cdn_tiles|].
  { intros i j Hi Hj. destruct (TX i j Hi Hj) as [? [? [? ?]]], (TD' i j Hi Hj) as [? [? [? ?]]]. repeat (split; auto); congruence. }
  destruct (l2_from_cdn fuel (MD one) (MH q q Y)) as [e3 H3]; [cbn [nrows] in *; congruence|cbn [ncols] in *; congruence| |].
  { apply cdn_dense_tiles; auto.
    - exact (Prop_QrProgram.grid_even p q b Hb Hq Hqp eps q q Y Hq Hq GY).
    - split; [cbn [nrows] in *; congruence|cbn [ncols] in *; congruence].
    - intros i j Hi Hj. apply TY; auto. }
  exists e1, e2, e3. split.
  - unfold blr_mgs, blr_of. replace (q * b <=? p * b)%nat with true by (symmetry; apply Nat.leb_le; nia).
    destruct (Nat.eqb_spec b 0); [lia|]. rewrite !Nat.mod_mul, !Nat.div_mul by lia. rewrite !Nat.eqb_refl. fold Or.
    change (S (S (S (S f)))) with fuel in HD, HZ, HR0, EX, EY. fold Or in EX, EY.
    rewrite HD. cbn [bind]. rewrite HM. cbn [bind]. rewrite H1. cbn [bind]. rewrite HZ. cbn [bind]. rewrite HR0. cbn [bind].
    rewrite HMG. cbn [bind]. rewrite EX. cbn [bind]. rewrite H2. cbn [bind]. rewrite ?HR0. cbn [bind]. rewrite ET. cbn [bind]. rewrite EY. cbn [bind].
    rewrite Hone. cbn [bind]. rewrite H3. reflexivity.
  - unfold w in BX, BY, BD, OC. rewrite !offs_const in BX, BY, BD. fold w in BX, BY, BD, OC.
    change (fro (p * b) (q * b) (msub (R := Rring) (d_e F) (ent (MH p q A))) <= d) in BA.
    destruct (l2_bound _ _ _ _ WD WA H1) as [P1 L1]. pose proof (l2_exact _ _ _ _ WD WX H2) as L2. cbv zeta in L2.
    pose proof (l2_exact _ _ _ _ WD WA H1) as L0. cbv zeta in L0.
    rewrite ND1, ND2, (fro_ext _ _ _ _ FD) in L0, L1, L2. fold x in L0, L1, L2.
    assert (SF : forall G : mat Rring, fro (p * b) (q * b) (msub (R := Rring) (ent (MH p q D)) G) = fro (p * b) (q * b) (msub (R := Rring) (d_e F) G)).
    { intros G. apply fro_ext. intros r s Hr Hs. unfold msub. rewrite (FD r s Hr Hs). reflexivity. }
    rewrite SF in L0, L1, L2.
    split; [exact L0|]. split; [exact BA|]. split; [exact P1|]. split; [lra|]. split; [|split; [|split; [|split]]].
    + unfold res. eapply Rle_trans; [apply (fro_via _ _ _ (ent (MH p q A)))|]. apply Rplus_le_compat; [exact BA|exact BD].
    + rewrite L2. eapply Rle_trans; [apply fro_near|exact BX].
    + pose proof (l2_exact _ (MD one) _ _ I WY H3) as L3. cbv zeta in L3. cbn [nrows ncols] in L3. change (ent (MD one)) with (d_e one) in L3. rewrite O1, O2 in L3.
      assert (FO : feq (R := Rring) (q * b) (q * b) (d_e one) (mid (R := Rring))).
      { intros r s Hr Hs. specialize (O3 r s Hr Hs). cbn in O3. inversion O3 as [O4]. unfold mid. destruct (Nat.eqb_spec r s); reflexivity. }
      assert (NO : fro (q * b) (q * b) (d_e one) * fro (q * b) (q * b) (d_e one) = INR (q * b)).
      { rewrite (fro_ext _ _ _ _ FO), fro_sq. unfold sumsq. transitivity (rsum (q * b) (fun _ => 1)); [|rewrite (rsum_const (q * b) 1); apply Rmult_1_r].
        apply (sum_ext (R := Rring)). intros r Hr. rewrite (sum_single (R := Rring) (q * b) r); auto.
        - unfold mid. rewrite Nat.eqb_refl. apply Rmult_1_r.
        - intros s Hs Ns. unfold mid. destruct (Nat.eqb_spec r s); [congruence|]. apply Rmult_0_r. }
      rewrite NO in L3. rewrite L3.
      rewrite (fro_ext _ _ _ (msub (R := Rring) (mid (R := Rring)) (ent (MH q q Y)))) by (intros r s Hr Hs; unfold msub; rewrite (FO r s Hr Hs); reflexivity).
      eapply Rle_trans; [apply fro_near|exact BY].
    + intros j Hj. destruct (OC j Hj) as [X' [OX BXj]]. exists X'. unfold w in OX, BXj. cbv zeta in BXj. rewrite !offs_const in OX, BXj. rewrite ?(offs_const b j) in BXj. split; [exact OX|exact BXj].
    + intros V1. pose proof (q_norm b p q _ _ (ent (MH p q Qg)) (conj (Prop_MgsError.mgs_rate_pos u U0 U1) V1) (Prop_MgsError.mgs_extra_pos u tau U0 U1 T0) OC) as N.
      rewrite !offs_const in N. exact N.
Qed.
Print Assumptions C84_program.

(** One block column (n = b): the factorization always returns, since the compression to an
    accuracy never returns full rank. *)
Lemma one_column : forall rn tol K pts p b eps admis F f M Q0 R0,
  (2 <= b)%nat -> (0 < p)%nat -> positional K = true -> kernel_fill K pts (p * b) (1 * b) 0 0 = Ok F ->
  0 <= tol -> Qeq_bool eps 0 = false -> 0 <= Q2R eps -> Q2R eps * Q2R eps * INR b < 1 -> (0 <= admis < 1)%Q ->
  blr_of K tol (4 + f) pts (p * b) (1 * b) b eps admis = Ok M ->
  blr_of KZeros tol (4 + f) pts (p * b) (1 * b) b eps admis = Ok Q0 -> blr_of KZeros tol (4 + f) pts (1 * b) (1 * b) b eps admis = Ok R0 ->
  exists A' Q R, mgs_qr real_lapack (real_arith "rounded_addition" rn tol) (4 + f) (4 + f) M Q0 R0 = Ok (A', Q, R).
Proof.
  intros rn tol K pts p b eps admis F f M Q0 R0 Hb Hp HK HF Ht He E0 Es Ha HM HQ HR.
  unfold blr_of in *. rewrite !Nat.div_mul in * by lia. set (fuel := (4 + f)%nat) in *.
  destruct (weak_zeros pts p 1 b tol eps admis (S (S f)) Hb Ht E0 Es Ha) as [Z [HZ [GZ [DZ [LZ _]]]]].
  destruct (weak_zeros pts 1 1 b tol eps admis (S (S f)) Hb Ht E0 Es Ha) as [R1 [HR1 [GR [DR _]]]].
  change (S (S (S (S f)))) with fuel in HZ, HR1. rewrite HQ in HZ. rewrite HR in HR1. inversion HZ; subst Q0. inversion HR1; subst R0. clear HZ HR1 HQ HR.
  destruct (blr_inv _ p 1 b ltac:(lia) fuel M HM) as [A [-> HA]].
  assert (DS : forall d : dense Rring, nrows (MD d) = b -> ncols (MD d) = b -> sq b (MD d)) by (intros d D1 D2; exists d; auto).
  unfold fuel. apply (mgs_one "rounded_addition" rn tol eps b ltac:(discriminate) He E0 Hb p Hp).
  - destruct (weak_block K pts p 1 b F ltac:(lia) HK HF (lowrank_eps tol eps) admis 0%nat 0%nat _ Hb Ha Hp ltac:(lia) (HA 0%nat 0%nat Hp ltac:(lia)))
      as [B [_ [B1 [B2 [_ [D1 _]]]]]]. rewrite (D1 eq_refl). exists B. auto.
  - destruct (DZ 0%nat ltac:(lia) Hp) as [d Ed]. destruct (GZ 0%nat 0%nat Hp ltac:(lia)) as [_ [N1 [N2 _]]]. rewrite Ed in N1, N2 |- *. apply DS; auto.
  - destruct (DR 0%nat ltac:(lia) ltac:(lia)) as [d Ed]. destruct (GR 0%nat 0%nat ltac:(lia) ltac:(lia)) as [_ [N1 [N2 _]]]. rewrite Ed in N1, N2 |- *. apply DS; auto.
  - intros i Hi. destruct (weak_block K pts p 1 b F ltac:(lia) HK HF (lowrank_eps tol eps) admis i 0%nat _ Hb Ha ltac:(lia) ltac:(lia) (HA i 0%nat ltac:(lia) ltac:(lia)))
      as [B [_ [B1 [B2 [_ [_ D2]]]]]]. destruct (D2 ltac:(lia)) as [l [El ->]]. exists l. split; auto.
    destruct (lowrank_eps_any tol eps B l El) as [W [L1 [L2 _]]]. pose proof (lowrank_eps_below tol eps B l ltac:(lia) ltac:(lia) El) as L3.
    split; auto. split; [congruence|]. split; [congruence|]. lia.
  - intros i Hi. split; [apply LZ; lia|]. destruct (GZ i 0%nat ltac:(lia) ltac:(lia)) as [? [? [? ?]]]. auto.
Qed.

(** How far the block column is from orthonormal, and the norm of R, for one block column. *)
Definition col_loss (u tau : R) (p b : nat) : R :=
  Prop_MgsError.mgs_rate u * col_size u tau p b + sqrt (INR p) * Prop_MgsError.mgs_extra u tau.
Definition col_shrink (u tau : R) (p b : nat) : R :=
  col_loss u tau p b + Prop_MgsError.mgs_rate u * col_size u tau p b + sqrt (INR p) * (Prop_MgsError.mgs_extra u tau * (1 + Prop_MgsError.mgs_rate u)).
Definition r_size (u tau : R) (p b : nat) (y : R) : R :=
  (y + sqrt (INR p) * (Prop_MgsError.mgs_extra u tau * (1 + Prop_MgsError.mgs_rate u))) / (1 - col_shrink u tau p b).

Lemma orth_norm m k (X : mat Rring) : orth_cols (R := Rring) m k X -> fro m k X = sqrt (INR k).
Proof.
  intros OX. unfold fro. f_equal. rewrite (sumsq_tr (R := Rring)). unfold sumsq, mtr.
  transitivity (rsum k (fun _ => 1)); [|rewrite (rsum_const k 1); apply Rmult_1_r]. apply (sum_ext (R := Rring)).
  intros i Hi. specialize (OX i i Hi Hi). unfold mmul, mtr, mid in OX. rewrite Nat.eqb_refl in OX. exact OX.
Qed.

(** |I - B^T B| for a matrix B near X with orthonormal columns. *)
Lemma near_gram m k (B X : mat Rring) t : orth_cols (R := Rring) m k X -> fro m k (msub (R := Rring) B X) <= t ->
  fro k k (msub (R := Rring) (mid (R := Rring)) (mmul (R := Rring) m (mtr B) B)) <= t * (fro m k B + sqrt (INR k)).
Proof.
  intros OX HB. pose proof (fro_nonneg m k B) as P1. pose proof (sqrt_pos (INR k)) as P2.
  assert (TT : forall f : mat Rring, fro k m (mtr f) = fro m k f) by (intros f; unfold fro; rewrite <- (sumsq_tr (R := Rring)); reflexivity).
  eapply Rle_trans; [apply (fro_via k k _ (mmul (R := Rring) m (mtr X) B))|].
  rewrite (fro_ext k k _ (mmul (R := Rring) m (mtr X) (msub (R := Rring) X B))).
  2:{ intros i j Hi Hj. unfold msub at 1. rewrite <- (OX i j Hi Hj). unfold mmul, msub. rewrite <- (sum_sub (R := Rring)). apply (sum_ext (R := Rring)).
      intros l Hl. cbn. ring. }
  rewrite (fro_ext k k (msub (R := Rring) (mmul (R := Rring) m (mtr X) B) _) (mmul (R := Rring) m (mtr (msub (R := Rring) X B)) B)).
  2:{ intros i j Hi Hj. unfold mmul, msub, mtr. rewrite <- (sum_sub (R := Rring)). apply (sum_ext (R := Rring)). intros l Hl. cbn. ring. }
  pose proof (fro_mul k m k (mtr X) (msub (R := Rring) X B)) as M1. pose proof (fro_mul k m k (mtr (msub (R := Rring) X B)) B) as M2.
  rewrite !TT in M1, M2. rewrite (orth_norm m k X OX), fro_swap in M1. rewrite fro_swap in M2.
  assert (M3 : sqrt (INR k) * fro m k (msub (R := Rring) B X) <= sqrt (INR k) * t) by (apply Rmult_le_compat_l; auto).
  assert (M4 : fro m k (msub (R := Rring) B X) * fro m k B <= t * fro m k B) by (apply Rmult_le_compat_r; auto).
  lra.
Qed.

(** One block column: no hypothesis on the factorization, and everything is bounded. *)
Theorem C84_one_column : forall rn tol nd K pts p b eps admis F f M,
  (2 <= b)%nat -> (0 < p)%nat -> positional K = true -> kernel_fill K pts (p * b) (1 * b) 0 0 = Ok F ->
  0 <= tol -> Qeq_bool eps 0 = false -> 0 <= Q2R eps -> (0 <= admis < 1)%Q ->
  let u := sqrt (INR b) * Q2R eps in let tau := tol * INR b in
  2 * u + u * u < 1 -> Prop_MgsError.mgs_rate u < 1 ->
  blr_of K tol (4 + f) pts (p * b) (1 * b) b eps admis = Ok M ->
  let x := fro (p * b) (1 * b) (d_e F) in
  let d := Prop_QrProgram.left_out b (Q2R eps) tol (p * b) (1 * b) x in
  let c := col_size u tau p b in
  let r := r_size u tau p b (x + d) in
  exists compression residual orthogonality,
    blr_mgs rn tol nd (4 + f) K pts (p * b) (1 * b) b eps admis = Ok (compression, residual, orthogonality) /\
    0 <= compression /\ compression * x <= d /\
    orthogonality * sqrt (INR b + dbl_eps) <= col_loss u tau p b * (c + sqrt (INR b)) + Prop_QrProgram.mul_growth (Q2R eps) p * (c * c) /\
    (col_shrink u tau p b < 1 ->
      residual * sqrt (x * x + dbl_eps) <= d + Prop_MgsError.mgs_bound u tau p 1 c r + Q2R eps * (c * r)).
Proof.
  intros rn tol nd K pts p b eps admis F f M Hb Hp HK HF Ht He E0 Ha u tau U1 V1 HM x d c r.
  assert (B1 : 1 <= INR b) by (replace 1 with (INR 1) by reflexivity; apply le_INR; lia).
  assert (U0 : 0 <= u) by (apply Rmult_le_pos; auto; apply sqrt_pos).
  assert (T0 : 0 <= tau) by (apply Rmult_le_pos; lra).
  assert (Es : Q2R eps * Q2R eps * INR b < 1).
  { apply Rle_lt_trans with (u * u); [right|lra]. unfold u. transitivity (Q2R eps * Q2R eps * (sqrt (INR b) * sqrt (INR b))); [rewrite sqrt_sqrt by lra; reflexivity|ring]. }
  destruct (C84_program rn tol nd K pts p 1 b eps admis F f M Hb ltac:(lia) ltac:(lia) HK HF Ht He E0 Ha U1 HM) as [Q0 [R0 [HQ [HR H]]]].
  destruct (one_column rn tol K pts p b eps admis F f M Q0 R0 Hb Hp HK HF Ht He E0 Es Ha HM HQ HR) as [A' [Q [R HMG]]].
  destruct (H A' Q R HMG) as [e1 [e2 [e3 [E [_ [_ [P1 [P2 [P3 [P4 [P5 [P6 P7]]]]]]]]]]]]. clear H. fold u tau in P3, P6, P7. fold x d in P2, P3, P4.
  specialize (P7 V1). cbn [INR] in P7. rewrite sqrt_1, Rmult_1_l in P7. fold c in P7.
  set (v := Prop_MgsError.mgs_rate u) in *. set (om := Prop_MgsError.mgs_extra u tau) in *.
  assert (V0 : 0 <= v) by (apply Prop_MgsError.mgs_rate_pos; auto). assert (O0 : 0 <= om) by (apply Prop_MgsError.mgs_extra_pos; auto).
  destruct (P6 0%nat ltac:(lia)) as [X [OX BX]]. cbn [Nat.mul] in BX.
  change (mwin (R := Rring) 0 0 (ent Q)) with (ent Q) in BX.
  set (m := (p * b)%nat) in *. set (n := (1 * b)%nat) in *. assert (En : n = b) by (unfold n; lia).
  rewrite <- En in OX, BX at 1. rewrite <- En in BX.
  set (fQ := fro m n (ent Q)) in *. set (fR := fro n n (ent R)) in *.
  assert (Q1 : 0 <= fQ) by apply fro_nonneg. assert (R1 : 0 <= fR) by apply fro_nonneg.
  assert (C0 : 0 <= c) by lra.
  set (s := sqrt (INR p)) in *. assert (S0 : 0 <= s) by apply sqrt_pos.
  assert (so : 0 <= s * om) by (apply Rmult_le_pos; auto).
  set (dl := col_loss u tau p b). assert (Ed : dl = v * c + s * om) by reflexivity.
  assert (BX' : fro m n (msub (R := Rring) (ent Q) X) <= dl).
  { eapply Rle_trans; [exact BX|]. rewrite Ed. apply Rplus_le_compat_r. apply Rmult_le_compat_l; auto. }
  assert (D0 : 0 <= dl). { eapply Rle_trans; [apply fro_nonneg|exact BX']. }
  exists e1, e2, e3. split; [exact E|]. split; [exact P1|]. split; [exact P2|]. split.
  - pose proof (near_gram m n (ent Q) X dl OX BX') as G. fold fQ in G. pose proof (Rle_abs (e3 * sqrt (INR n + dbl_eps) - fro n n (msub (R := Rring) (mid (R := Rring)) (mmul (R := Rring) m (mtr (ent Q)) (ent Q))))) as A3.
    rewrite En in A3, G, P5.
    assert (G2 : dl * (fQ + sqrt (INR b)) <= dl * (c + sqrt (INR b))) by (apply Rmult_le_compat_l; lra).
    assert (MG : 0 <= Prop_QrProgram.mul_growth (Q2R eps) p).
    { unfold Prop_QrProgram.mul_growth. pose proof (pow_R1_Rle (1 + Q2R eps) p ltac:(lra)). lra. }
    assert (G3 : Prop_QrProgram.mul_growth (Q2R eps) p * (fQ * fQ) <= Prop_QrProgram.mul_growth (Q2R eps) p * (c * c)).
    { apply Rmult_le_compat_l; auto. apply Rmult_le_compat; auto. }
    fold dl. lra.
  - intros K1. set (ka := col_shrink u tau p b) in *. assert (Ek : ka = dl + v * c + s * (om * (1 + v))) by reflexivity.
    set (res := fro m n (msub (R := Rring) (d_e F) (mmul (R := Rring) n (ent Q) (ent R)))) in *.
    set (mb := fun a y => v * (a * y) + s * (om * (1 + v) * (y + 1))).
    assert (EB : forall a y, Prop_MgsError.mgs_bound u tau p 1 a y = mb a y).
    { intros a y. unfold Prop_MgsError.mgs_bound. fold v om. cbn [INR pow]. rewrite !Rmult_1_r. fold s. unfold mb. ring. }
    rewrite EB in P3 |- *.
    assert (NR : fR <= x + res + dl * fR).
    { unfold fR at 1. rewrite <- (fro_cols m n n X (ent R) OX).
      eapply Rle_trans; [apply (fro_dist m n _ (mmul (R := Rring) n (ent Q) (ent R)))|].
      pose proof (fro_dist m n (mmul (R := Rring) n (ent Q) (ent R)) (d_e F)) as T1. rewrite fro_swap in T1. fold res x in T1.
      assert (T2 : fro m n (msub (R := Rring) (mmul (R := Rring) n X (ent R)) (mmul (R := Rring) n (ent Q) (ent R))) <= dl * fR).
      { rewrite (fro_ext m n _ (mmul (R := Rring) n (msub (R := Rring) X (ent Q)) (ent R))).
        - eapply Rle_trans; [apply fro_mul|]. rewrite fro_swap. apply Rmult_le_compat_r; auto.
        - intros i j Hi Hj. unfold mmul, msub. rewrite <- (sum_sub (R := Rring)). apply (sum_ext (R := Rring)). intros l Hl. cbn. ring. }
      lra. }
    assert (CR : fR <= r).
    { unfold r, r_size. fold ka v om s. apply Rmult_le_reg_r with (1 - ka); [lra|].
      replace ((x + d + s * (om * (1 + v))) / (1 - ka) * (1 - ka)) with (x + d + s * (om * (1 + v))) by (field; lra).
      assert (VR : v * (fQ * fR) <= v * c * fR). { rewrite Rmult_assoc. apply Rmult_le_compat_l; auto. apply Rmult_le_compat_r; auto. }
      unfold mb in P3. rewrite Ek. lra. }
    assert (R0' : 0 <= r) by lra.
    assert (QR : fQ * fR <= c * r) by (apply Rmult_le_compat; auto).
    assert (MB : mb fQ fR <= mb c r).
    { unfold mb. apply Rplus_le_compat; [apply Rmult_le_compat_l; auto|]. apply Rmult_le_compat_l; auto. apply Rmult_le_compat_l; [|lra].
      apply Rmult_le_pos; lra. }
    pose proof (Rle_abs (e2 * sqrt (x * x + dbl_eps) - res)) as A2.
    assert (MG : Prop_QrProgram.mul_growth (Q2R eps) 1 * (fQ * fR) <= Q2R eps * (c * r)).
    { unfold Prop_QrProgram.mul_growth. cbn [pow]. replace ((1 + Q2R eps) * 1 - 1) with (Q2R eps) by ring. apply Rmult_le_compat_l; auto. }
    lra.
Qed.
Print Assumptions C84_one_column.

(** The default kernel on 4 points in two places, tiles of 2 and accuracy 1e-6: the program
    returns, and it reports a loss of orthogonality below 1/2000. *)
Example C84_ex : forall rn f, exists e1 e2 e3,
  blr_mgs rn 0 false (4 + f) KLaplace [[0; 0; 1; 1]] 4 2 2 (1 # 1000000) 0 = Ok (e1, e2, e3) /\ 0 <= e1 /\ e3 <= / 2000.
Proof.
  intros rn f.
  destruct (kernel_fill_intro KLaplace [[0; 0; 1; 1]] (2 * 2) (1 * 2) 0 0) as [F HF].
  { intros i j Hi Hj. do 4 (destruct i as [|i]; [do 2 (destruct j as [|j]; [cbn; eauto|]); lia|]). lia. }
  assert (QE : Q2R (1 # 1000000) = / 1000000) by (unfold Q2R; cbn; lra).
  destruct (Prop_QrProgram.C78_deficient 0 KLaplace [[0; 0; 1; 1]] 2 1 2 (1 # 1000000) 0 F ltac:(lia) eq_refl HF) with (f := S (S f)) as [M HM].
  - rewrite QE. lra.
  - split; [apply Qle_refl|reflexivity].
  - intros i j Hi Hj Nij. assert (i = 1%nat /\ j = 0%nat) as [-> ->] by lia.
    destruct (kernel_fill_inv _ _ _ _ _ _ _ HF) as [_ [_ EF]].
    exists 1%nat, (fun _ _ => 1 / (sqrt (0 + (1 - 0) * (1 - 0)) + 1 / 1000)), (fun _ _ => 1). split; [lia|]. intros r s Hr Hs.
    pose proof (EF (2 + r)%nat s ltac:(lia) ltac:(lia)) as E. unfold mwin, mmul. cbn [sum].
    do 2 (destruct r as [|r]; [do 2 (destruct s as [|s]; [cbn in E |- *; injection E as E; rewrite <- E; ring|]); lia|]). lia.
  - assert (S2 : sqrt (INR 2) <= 3 / 2). { cbn [INR]. rewrite <- (sqrt_square (3 / 2)) by lra. apply sqrt_le_1_alt. lra. }
    assert (S1 : 1 <= sqrt (INR 2)). { cbn [INR]. rewrite <- sqrt_1 at 1. apply sqrt_le_1_alt. lra. }
    set (u := sqrt (INR 2) * Q2R (1 # 1000000)). assert (U0 : 0 <= u <= 3 / 2000000) by (unfold u; rewrite QE; lra).
    assert (U2 : 0 <= u * u <= 3 / 2000000) by nra.
    set (t := 2 * u + u * u). assert (T : 0 <= t <= 5 / 1000000) by (unfold t; lra).
    assert (V : 0 <= Prop_MgsError.mgs_rate u <= 6 / 1000000).
    { change (0 <= t / (1 - t) <= 6 / 1000000). split; [apply Rmult_le_pos; [lra|left; apply Rinv_0_lt_compat; lra]|].
      apply Rmult_le_reg_r with (1 - t); [lra|]. replace (t / (1 - t) * (1 - t)) with t by (field; lra). lra. }
    assert (EX : Prop_MgsError.mgs_extra u (0 * INR 2) = 0) by (unfold Prop_MgsError.mgs_extra; rewrite Rmult_0_l, Rmult_0_r; unfold Rdiv; apply Rmult_0_l).
    destruct (C84_one_column rn 0 false KLaplace [[0; 0; 1; 1]] 2 2 (1 # 1000000) 0 F f M) as [e1 [e2 [e3 [E [P1 [_ [P3 _]]]]]]]; auto; try lia; try lra.
    + split; [apply Qle_refl|reflexivity].
    + change (t < 1). lra.
    + change (Prop_MgsError.mgs_rate u < 1). lra.
    + exists e1, e2, e3. split; [exact E|]. split; [exact P1|]. fold u in P3.
      set (v := Prop_MgsError.mgs_rate u) in *.
      assert (C : 0 <= col_size u (0 * INR 2) 2 2 <= 8 / 5).
      { unfold col_size. rewrite EX. fold v. rewrite Rmult_0_r, Rplus_0_r. split; [apply Rmult_le_pos; [lra|left; apply Rinv_0_lt_compat; lra]|].
        apply Rmult_le_reg_r with (1 - v); [lra|]. replace (sqrt (INR 2) / (1 - v) * (1 - v)) with (sqrt (INR 2)) by (field; lra). lra. }
      unfold col_loss in P3. rewrite EX in P3. fold v in P3. rewrite Rmult_0_r, Rplus_0_r in P3.
      set (c := col_size u (0 * INR 2) 2 2) in *. unfold Prop_QrProgram.mul_growth in P3. rewrite QE in P3. cbn [pow] in P3.
      assert (VC : 0 <= v * c <= 1 / 100000) by nra.
      assert (X1 : v * c * (c + sqrt (INR 2)) <= 1 / 100000 * (31 / 10)) by (apply Rmult_le_compat; lra).
      assert (X2 : c * c <= 8 / 5 * (8 / 5)) by (apply Rmult_le_compat; lra).
      assert (X3 : 0 <= c * c) by (apply Rmult_le_pos; lra).
      assert (SD : 1 <= sqrt (INR 2 + dbl_eps)).
      { rewrite <- sqrt_1 at 1. apply sqrt_le_1_alt. pose proof dbl_eps_pos. cbn [INR]. lra. }
      destruct (Rle_lt_dec e3 (/ 2000)) as [|N]; auto. exfalso.
      assert (e3 <= e3 * sqrt (INR 2 + dbl_eps)) by nra. lra.
Qed.
