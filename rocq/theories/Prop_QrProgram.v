(** C78: the program examples/tiled_householder_blr_qr.cpp returns, and the three numbers
    it prints are bounded. *)
From Coq Require Import List Arith ZArith QArith Qreals Lia Bool Reals Lra String Ring_theory Ring.
From Verif Require Import Prelude Ring MatFun MatSetoid Matrix MatOps MatSpec MatOpsProofs IndexRange IndexRangeSpec
  IndexRangeProofs ClusterTree ClusterTreeSpec ClusterTreeProofs ClusterTreeRegular Admissible Construct ConstructProofs
  Lapack LowRankAdd Gemm GemmSpec GemmTheorems Triangular TriSpec Kernels ConstructKernel ConstructError FixedRank L2Error L2Real
  Reflect ReflectSpec ReflectSuccess QrBig QrTiled QrStep QrApply QrTheorems QrSuccess RealQr
  SvdRank HouseReal TileKernels Rrqr RrqrLr RrqrDeficient RealLapack Prop_RealAdd Prop_FixedRank
  FroNorm QrErrTile QrErrStep QrErrApply QrErrReal QrErrSucc QrErrWhole Prop_QrError TrmmErr BlrBuild BlrCompare QrProgram.
Import ListNotations.
Local Open Scope R_scope.

(** The blocks of a Hierarchical. *)
Definition grid_of (M : matrix Rring) : outcome (grid Rring) :=
  match M with MH _ _ a => Ok a | _ => Abort end.

(** Lines 12-77 with FRANK_LRA=rounded_addition.  [K] is the kernel (laplacend in the code),
    [pts] the points, [rn] the random samples of the construction by rank, [tol] the machine
    epsilon, [nd] whether asserts are compiled out in trmm. *)
Definition blr_qr (rn : nat -> nat -> rmat) (tol : R) (nd : bool) (fuel : nat) (K : kernel) (pts : list (list R))
  (m n b : nat) (eps admis : Q) : outcome (R * R * R) :=
  let Or := real_arith "rounded_addition" rn tol in
  assert! (n <=? m)%nat in
  if (b =? 0)%nat then UB else
  assert! (m mod b =? 0)%nat in
  assert! (n mod b =? 0)%nat in
  let p := (m / b)%nat in
  let q := (n / b)%nat in
  let build := fun k adm comp =>
    hierarchical (kernel_init k pts (is_admissible PositionBased [] adm) comp) fuel (rng m) (rng n)
      (Z.of_nat p) (Z.of_nat q) (Z.of_nat b) in
  let* D := build K (inject_Z (Z.of_nat p)) (fun d => crank Or d b) in       (* 29 *)
  let* A := build K admis (lowrank_eps tol eps) in                            (* 30 *)
  let* compression := l2_error fuel D A in                                    (* 32 *)
  let* a := grid_of A in
  let T := fun i j => let k := if (i <? j)%nat then 0%nat else b in MD (d_zeros k k) in   (* 34-39 *)
  let* (a', T') := tiled_qr Or (wy_qrt (R := Rring) dlarfg) p q a p q T in    (* 43 *)
  let* Q := build KIdentity admis (lowrank_eps tol eps) in                    (* 47 *)
  let* c := grid_of Q in
  let* c' := tiled_apply Or p q a' T' c false in                              (* 48 *)
  let R := MH q q (fun i j => if (i <=? j)%nat then a' i j else ME 0 0) in    (* 54-59 *)
  let* QR := trmm Or fuel nd fuel R (MH p q c') SRight Upper false false (1%r : car Rring) in     (* 61 *)
  let* residual := l2_error fuel D QR in                                      (* 62 *)
  let* c2 := tiled_apply Or p q a' T' c' true in                              (* 65 *)
  let* one := kernel_fill KIdentity [] n n 0 0 in
  let* orthogonality := l2_error fuel (MD one) (MH q q c2) in                   (* 67-73 *)
  Ok (compression, residual, orthogonality).

Section Program.
Variables (p q b : nat).
Hypothesis Hb : (2 <= b)%nat.
Hypothesis Hq : (0 < q)%nat.
Hypothesis Hqp : (q <= p)%nat.
Let w : nat -> nat := fun _ => b.

Lemma good_leaf e (x : matrix Rring) : good e x -> leaf x.
Proof. destruct x; simpl; auto; tauto. Qed.

Lemma grid_wf e r c (C : grid Rring) : (0 < r)%nat -> (0 < c)%nat -> gtiles e r c w w C ->
  wf (MH r c C) /\ nrows (MH r c C) = (r * b)%nat /\ ncols (MH r c C) = (c * b)%nat /\
  forall i j, (i < r)%nat -> (j < c)%nat -> leaf (C i j) /\ wf (C i j) /\ nrows (C i j) = b /\ ncols (C i j) = b.
Proof.
  intros Hr Hc G.
  assert (L : forall i j, (i < r)%nat -> (j < c)%nat -> leaf (C i j) /\ wf (C i j) /\ nrows (C i j) = b /\ ncols (C i j) = b).
  { intros i j Hi Hj. destruct (G i j Hi Hj) as [W [N1 [N2 GD]]]. split; [exact (good_leaf e _ GD)|auto]. }
  split.
  - split; [auto|split; [auto|]]. intros i j Hi Hj. destruct (L i j Hi Hj) as [_ [W [N1 N2]]].
    destruct (L i 0%nat Hi Hc) as [_ [_ [X1 _]]]. destruct (L 0%nat j Hr Hj) as [_ [_ [_ X2]]].
    split; auto. unfold bheight, bwidth. split; congruence.
  - split; [|split; auto].
    + cbn [nrows]. rewrite <- (offs_const b). apply offs_ext. intros i Hi. destruct (L i 0%nat Hi Hc) as [_ [_ [X1 _]]]. exact X1.
    + cbn [ncols]. rewrite <- (offs_const b). apply offs_ext. intros j Hj. destruct (L 0%nat j Hr Hj) as [_ [_ [_ X2]]]. exact X2.
Qed.

Lemma rng_child k i : (i < k)%nat -> ir_n (ir_split_child (rng (k * b)) (Z.of_nat k) (Z.of_nat i)) = Z.of_nat b.
Proof. intros Hi. apply split_child_div; cbn [rng ir_n]; lia. Qed.

Lemma rng_tiles k : (0 < k)%nat -> IndexRangeSpec.tiles (rng (k * b)) (ir_split (rng (k * b)) (Z.of_nat k)).
Proof. intros Hk. apply ir_split_tiles; [lia|]. apply (ir_split_nonneg_div _ _ (Z.of_nat b)); cbn [rng ir_n]; lia. Qed.

Lemma grid_even e r c (C : grid Rring) : (0 < r)%nat -> (0 < c)%nat -> gtiles e r c w w C -> even (MH r c C).
Proof.
  intros Hr Hc G. destruct (grid_wf e r c C Hr Hc G) as [_ [N1 [N2 L]]].
  change (let rr := IR 0 (Z.of_nat (nrows (MH r c C))) in let cr := IR 0 (Z.of_nat (ncols (MH r c C))) in
    IndexRangeSpec.tiles rr (ir_split rr (Z.of_nat r)) /\ IndexRangeSpec.tiles cr (ir_split cr (Z.of_nat c)) /\
    (forall i, (i < r)%nat -> Z.of_nat (bheight C i) = ir_n (ir_split_child rr (Z.of_nat r) (Z.of_nat i))) /\
    (forall j, (j < c)%nat -> Z.of_nat (bwidth C j) = ir_n (ir_split_child cr (Z.of_nat c) (Z.of_nat j))) /\
    (forall i j, (i < r)%nat -> (j < c)%nat -> even (C i j))).
  rewrite N1, N2. cbv zeta. fold (rng (r * b)) (rng (c * b)). split; [apply rng_tiles; auto|]. split; [apply rng_tiles; auto|].
  split; [|split].
  - intros i Hi. rewrite rng_child by auto. destruct (L i 0%nat Hi Hc) as [_ [_ [X1 _]]]. unfold bheight. rewrite X1. reflexivity.
  - intros j Hj. rewrite rng_child by auto. destruct (L 0%nat j Hr Hj) as [_ [_ [_ X2]]]. unfold bwidth. rewrite X2. reflexivity.
  - intros i j Hi Hj. destruct (L i j Hi Hj) as [X _]. destruct (C i j); simpl in *; auto; contradiction.
Qed.

(** A matrix from its tiles. *)
Lemma whole_feq r c (C : grid Rring) (f : mat Rring) : shaped (R := Rring) r c w w C ->
  (forall i j, (i < r)%nat -> (j < c)%nat -> feq (R := Rring) b b (ent (C i j)) (mwin (R := Rring) (i * b) (j * b) f)) ->
  feq (R := Rring) (r * b) (c * b) (ent (MH r c C)) f.
Proof.
  intros SC H x y Hx Hy.
  assert (X : (x / b < r)%nat) by (apply Nat.div_lt_upper_bound; lia). assert (Y : (y / b < c)%nat) by (apply Nat.div_lt_upper_bound; lia).
  assert (X1 : (x mod b < b)%nat) by (apply Nat.mod_upper_bound; lia). assert (Y1 : (y mod b < b)%nat) by (apply Nat.mod_upper_bound; lia).
  pose proof (whole_win r c w w C (x / b) (y / b) SC X Y (x mod b) (y mod b) X1 Y1) as E. unfold mwin, w in E. rewrite !offs_const in E.
  rewrite (H _ _ X Y _ _ X1 Y1) in E. unfold mwin in E.
  replace (x / b * b + x mod b)%nat with x in E by (rewrite (Nat.div_mod x b) at 1; lia).
  replace (y / b * b + y mod b)%nat with y in E by (rewrite (Nat.div_mod y b) at 1; lia). exact E.
Qed.

Lemma fro_rows_mono n m c f : (n <= m)%nat -> fro n c f <= fro m c f.
Proof.
  intros L. unfold fro. apply sqrt_le_1_alt. unfold sumsq. induction L as [|m L IH]; [lra|]. eapply Rle_trans; [exact IH|].
  cbn [sum]. assert (0 <= rsum c (fun j => f m j * f m j)) by (apply sum_nonneg; intros j _; apply Rle_0_sqr). cbn in *. lra.
Qed.

(** The tiles are further apart than p nowhere. *)
Lemma none_admissible i j : (i < p)%nat -> (j < q)%nat -> is_admissible PositionBased [] (inject_Z (Z.of_nat p)) (blr_node p q b i j) = Ok false.
Proof.
  intros Hi Hj. unfold is_admissible. f_equal. destruct (blr_node_pos p q b i j) as [P1 P2].
  apply andb_false_iff. right. unfold position_admissible, dist_to_diag. rewrite P1, P2.
  rewrite Z.gtb_ltb. apply Z.ltb_ge. unfold Qtrunc, inject_Z. cbn [Qnum Qden]. rewrite Z.quot_1_r. lia.
Qed.
End Program.

(** The errors that accumulate: [qr_growth] of the multiplications by reflectors, [mul_growth]
    of the product by R, and what the compression of the kernel matrix F leaves out. *)
Definition qr_growth (b : nat) (u : R) (p q : nat) : R := (1 + rate b u) ^ pairs p q - 1.
Definition mul_growth (u : R) (q : nat) : R := (1 + u) ^ q - 1.
Definition left_out (b : nat) (u tol : R) (m n : nat) (x : R) : R := sqrt (INR b) * u * x + tol * sqrt (INR m * INR n).

(** The program.  All positional kernels (those of FRANK but random_* and arange), all tile
    sizes and numbers of tiles with p >= q, weak admissibility (the default 0), any accuracy
    eps > 0 below 1/sqrt b.  If the compressed matrix is built, the program prints three
    numbers: the error of the compression, the residual of the factorization and the loss of
    orthogonality, relative to the norm of the kernel matrix F and of the identity. *)
Theorem C78_program : forall rn tol nd K pts p q b eps admis F f0 M,
  (2 <= b)%nat -> (0 < q)%nat -> (q <= p)%nat -> positional K = true -> kernel_fill K pts (p * b) (q * b) 0 0 = Ok F ->
  0 <= tol -> Qeq_bool eps 0 = false -> 0 <= Q2R eps -> Q2R eps * Q2R eps * INR b < 1 -> (0 <= admis < 1)%Q ->
  hierarchical (kernel_init K pts (is_admissible PositionBased [] admis) (lowrank_eps tol eps)) f0
    (rng (p * b)) (rng (q * b)) (Z.of_nat p) (Z.of_nat q) (Z.of_nat b) = Ok M ->
  let x := fro (p * b) (q * b) (d_e F) in
  let g := qr_growth b (Q2R eps) p q in
  let h := mul_growth (Q2R eps) q in
  let d := left_out b (Q2R eps) tol (p * b) (q * b) x in
  exists f1, forall fuel, (f1 <= fuel)%nat -> exists compression residual orthogonality,
    blr_qr rn tol nd fuel K pts (p * b) (q * b) b eps admis = Ok (compression, residual, orthogonality) /\
    0 <= compression /\ compression * x <= d /\
    0 <= residual /\ residual * x <= d + (g + (g + h * (1 + g)) * sqrt (INR (q * b)) * (1 + g)) * (x + d) /\
    0 <= orthogonality <= 2 * g + g * g.
Proof.
  intros rn tol nd K pts p q b eps admis F f0 M Hb Hq Hqp HK HF Ht He E0 Es Ha HM x g h d.
  assert (E1 : Q2R eps <= 1).
  { destruct (Rle_lt_dec (Q2R eps) 1); auto. exfalso. assert (1 <= INR b) by (replace 1 with (INR 1) by reflexivity; apply le_INR; lia). nra. }
  set (w := fun _ : nat => b).
  destruct (weak_built K pts p q b F tol eps admis Hb HK HF Ht E0 Es Ha f0 M HM) as [A [-> [GA [DA [LA BA]]]]]. fold w in GA.
  exists (S (S (S (S f0)))). intros fuel Hfu.
  destruct fuel as [|[|[|[|fuel]]]]; try lia.
  destruct (blr_dense K pts p q b F ltac:(lia) HK HF (fun d => crank (real_arith "rounded_addition" rn tol) d b) (inject_Z (Z.of_nat p)) (S (S fuel)) (none_admissible p q b Hb Hq Hqp))
    as [D [HD TD]].
  destruct (weak_identity pts p q b tol eps admis (S (S fuel)) Hb Ht E0 Es Ha) as [E [HE [GE EE]]]. fold w in GE.
  assert (GD : gtiles eps p q w w D).
  { intros i j Hi Hj. destruct (TD i j Hi Hj) as [t [-> [T1 [T2 _]]]]. split; [exact I|]. split; [exact T1|]. split; [exact T2|exact I]. }
  assert (FD : feq (R := Rring) (p * b) (q * b) (ent (MH p q D)) (d_e F)).
  { apply (whole_feq p q b Hb Hq Hqp p q D); [exact (gtiles_shaped eps p q w w D GD)|]. intros i j Hi Hj. destruct (TD i j Hi Hj) as [t [-> [T1 [T2 T3]]]]. exact T3. }
  set (T := fun i j : nat => let k := if (i <? j)%nat then 0%nat else b in MD (d_zeros (R := Rring) k k)).
  assert (DT : dense_factors (R := Rring) p q w T).
  { intros i j Hi Hj Hij. unfold T. destruct (Nat.ltb_spec i j); [lia|]. eexists. split; [reflexivity|]. split; reflexivity. }
  destruct (qr_back "rounded_addition" rn tol eps b ltac:(discriminate) He (conj E0 E1) p q Hq Hqp (S (S (S fuel))) nd (S (S fuel)) A T E GA DA LA DT GE EE)
    as [A' [T' [Q1 [X [Q2 [EQ [EA [ET [EB [GX [G2 [BX B2]]]]]]]]]]]].
  destruct (grid_wf b eps p q A ltac:(lia) Hq GA) as [WA [NA1 [NA2 TA]]].
  destruct (grid_wf b eps p q D ltac:(lia) Hq GD) as [WD [ND1 [ND2 TD']]].
  destruct (grid_wf b eps p q X ltac:(lia) Hq GX) as [WX [NX1 [NX2 TX]]].
  assert (G2' : gtiles eps q q w w Q2) by (intros i j Hi Hj; apply G2; lia).
  destruct (grid_wf b eps q q Q2 Hq Hq G2') as [W2 [N21 [N22 T2]]].
  destruct (kernel_fill_intro KIdentity [] (q * b) (q * b) 0 0) as [one Hone]. { intros i j Hi Hj. cbn. eauto. }
  destruct (kernel_fill_inv _ _ _ _ _ _ _ Hone) as [O1 [O2 O3]].
  destruct (l2_from_cdn (S (S (S (S fuel)))) (MH p q D) (MH p q A)) as [e1 H1]; [congruence|congruence|apply cdn_tiles|].
  { intros i j Hi Hj. destruct (TA i j Hi Hj) as [? [? [? ?]]], (TD' i j Hi Hj) as [? [? [? ?]]]. repeat (split; auto); congruence. }
  destruct (l2_from_cdn (S (S (S (S fuel)))) (MH p q D) (MH p q X)) as [e2 H2]; [congruence|congruence|apply cdn_tiles|].
  { intros i j Hi Hj. destruct (TX i j Hi Hj) as [? [? [? ?]]], (TD' i j Hi Hj) as [? [? [? ?]]]. repeat (split; auto); congruence. }
  destruct (l2_from_cdn (S (S (S (S fuel)))) (MD one) (MH q q Q2)) as [e3 H3]; [cbn [nrows] in *; congruence|cbn [ncols] in *; congruence| |].
  { apply cdn_dense_tiles; auto.
    - exact (grid_even p q b Hb Hq Hqp eps q q Q2 Hq Hq G2').
    - split; [cbn [nrows] in *; congruence|cbn [ncols] in *; congruence].
    - intros i j Hi Hj. apply T2; auto. }
  exists e1, e2, e3. split.
  - unfold blr_qr. replace (q * b <=? p * b)%nat with true by (symmetry; apply Nat.leb_le; nia).
    destruct (Nat.eqb_spec b 0); [lia|]. rewrite !Nat.mod_mul, !Nat.div_mul by lia. rewrite !Nat.eqb_refl.
    rewrite HD. cbn [bind].
    rewrite (hierarchical_mono _ f0 (S (S (S (S fuel)))) _ _ _ _ _ (MH p q A) ltac:(lia) HM). cbn [bind].
    rewrite H1. cbn [bind grid_of]. fold T. rewrite EQ. cbn [bind]. rewrite HE. cbn [bind grid_of]. rewrite EA. cbn [bind].
    fold (upper_tiles q A'). rewrite ET. cbn [bind]. rewrite H2. cbn [bind]. rewrite EB. cbn [bind]. rewrite Hone. cbn [bind]. rewrite H3. reflexivity.
  - assert (G0 : 0 <= g).
    { unfold g, qr_growth. assert (HR : 0 <= rate b (Q2R eps)) by (unfold rate; apply Rmult_le_pos; auto; pose proof (sqrt_pos (INR b)); lra).
      pose proof (pow_R1_Rle (1 + rate b (Q2R eps)) (pairs p q) ltac:(lra)). lra. }
    assert (H0 : 0 <= h). { unfold h, mul_growth. pose proof (pow_R1_Rle (1 + Q2R eps) q ltac:(lra)). lra. }
    assert (x0 : 0 <= x) by apply fro_nonneg.
    set (c := g + (g + h * (1 + g)) * sqrt (INR (q * b)) * (1 + g)).
    assert (C0 : 0 <= c).
    { unfold c. pose proof (sqrt_pos (INR (q * b))). assert (0 <= h * (1 + g)) by (apply Rmult_le_pos; lra).
      assert (0 <= (g + h * (1 + g)) * sqrt (INR (q * b)) * (1 + g)) by (repeat apply Rmult_le_pos; lra). lra. }
    fold w in BX, B2. unfold w in BX, B2. rewrite !offs_const in BX, B2. fold w in BX, B2.
    change (fro (p * b) (q * b) (msub (R := Rring) (d_e F) (ent (MH p q A))) <= d) in BA.
    destruct (l2_bound _ _ _ _ WD WA H1) as [P1 L1]. destruct (l2_bound _ _ _ _ WD WX H2) as [P2 L2].
    rewrite ND1, ND2, (fro_ext _ _ _ _ FD) in L1, L2. fold x in L1, L2.
    assert (SF : forall Y : mat Rring, fro (p * b) (q * b) (msub (R := Rring) (ent (MH p q D)) Y) = fro (p * b) (q * b) (msub (R := Rring) (d_e F) Y)).
    { intros Y. apply fro_ext. intros r s Hr Hs. unfold msub. rewrite (FD r s Hr Hs). reflexivity. }
    rewrite SF in L1, L2.
    assert (NA : fro (p * b) (q * b) (ent (MH p q A)) <= x + d).
    { eapply Rle_trans; [apply (fro_dist _ _ _ (d_e F))|]. rewrite fro_swap. fold x. lra. }
    split; [exact P1|]. split; [lra|]. split; [exact P2|]. split.
    + eapply Rle_trans; [exact L2|]. eapply Rle_trans; [apply (fro_via _ _ _ (ent (MH p q A)))|].
      apply Rplus_le_compat; [exact BA|]. eapply Rle_trans; [exact BX|]. apply Rmult_le_compat_l; [exact C0|exact NA].
    + destruct (l2_bound _ (MD one) _ _ I W2 H3) as [P3 L3]. split; [exact P3|]. cbn [nrows ncols] in L3. change (ent (MD one)) with (d_e one) in L3. rewrite O1, O2 in L3.
      assert (FO : feq (R := Rring) (q * b) (q * b) (d_e one) (ent (MH q q E))).
      { apply (feq_sym (R := Rring)). apply (whole_feq p q b Hb Hq Hqp q q E).
        - intros i j Hi Hj. destruct (GE i j ltac:(lia) Hj) as [_ [? [? _]]]. auto.
        - intros i j Hi Hj. eapply (feq_trans (R := Rring)); [apply EE; lia|]. intros r s Hr Hs. unfold mwin.
          specialize (O3 (i * b + r)%nat (j * b + s)%nat ltac:(nia) ltac:(nia)). cbn in O3. inversion O3 as [O4].
          destruct (Nat.eqb_spec i j) as [->|Nij].
          + unfold mid. destruct (Nat.eqb_spec (j * b + r) (j * b + s)); destruct (Nat.eqb_spec r s); try lia; reflexivity.
          + destruct (Nat.eqb_spec (i * b + r) (j * b + s)) as [EC|]; [exfalso|reflexivity].
            apply Nij. assert (EC' : ((i * b + r) / b = (j * b + s) / b)%nat) by congruence. rewrite !Nat.div_add_l, !Nat.div_small in EC' by lia. lia. }
      assert (TOP : forall C : grid Rring, gtiles eps p q w w C -> feq (R := Rring) (q * b) (q * b) (ent (MH q q C)) (ent (MH p q C))).
      { intros C GC. apply (whole_feq p q b Hb Hq Hqp q q C).
        - intros i j Hi Hj. destruct (GC i j ltac:(lia) Hj) as [_ [? [? _]]]. auto.
        - intros i j Hi Hj. apply (feq_sym (R := Rring)). pose proof (whole_win p q w w C i j (gtiles_shaped eps p q w w C GC) ltac:(lia) Hj) as WW.
          unfold w in WW. rewrite !offs_const in WW. exact WW. }
      assert (NO : fro (q * b) (q * b) (d_e one) = sqrt (INR (q * b))).
      { rewrite (fro_ext _ _ _ _ FO). pose proof (eye_norm eps b q q Hq (le_n q) E ltac:(intros i j Hi Hj; apply GE; lia) ltac:(intros i j Hi Hj; apply EE; lia)) as NE.
        rewrite !offs_const in NE. exact NE. }
      rewrite NO in L3.
      assert (BD : fro (q * b) (q * b) (msub (R := Rring) (d_e one) (ent (MH q q Q2))) <= (2 * g + g * g) * sqrt (INR (q * b))).
      { rewrite fro_swap. eapply Rle_trans; [|exact B2]. eapply Rle_trans; [|apply (fro_rows_mono (q * b)); nia]. right. apply fro_ext.
        intros r s Hr Hs. unfold msub. rewrite (TOP Q2 G2 r s Hr Hs), (FO r s Hr Hs), (TOP E GE r s Hr Hs). reflexivity. }
      apply Rmult_le_reg_r with (sqrt (INR (q * b))); [|lra]. apply sqrt_lt_R0. apply lt_0_INR. nia.
Qed.
Print Assumptions C78_program.

(** When the compressed matrix is built: no tile off the diagonal has full rank. *)
Theorem C78_deficient : forall tol K pts p q b eps admis F, (2 <= b)%nat -> positional K = true ->
  kernel_fill K pts (p * b) (q * b) 0 0 = Ok F -> 0 <= Q2R eps -> (0 <= admis < 1)%Q ->
  (forall i j, (i < p)%nat -> (j < q)%nat -> i <> j -> exists k (X Y : mat Rring), (k < b)%nat /\
     feq (R := Rring) b b (mwin (R := Rring) (i * b) (j * b) (d_e F)) (mmul (R := Rring) k X Y)) ->
  forall f, exists M, hierarchical (kernel_init K pts (is_admissible PositionBased [] admis) (lowrank_eps tol eps)) (S (S f))
    (rng (p * b)) (rng (q * b)) (Z.of_nat p) (Z.of_nat q) (Z.of_nat b) = Ok M.
Proof.
  intros tol K pts p q b eps admis F Hb HK HF E0 Ha HR f.
  destruct (blr_total (kernel_init K pts (is_admissible PositionBased [] admis) (lowrank_eps tol eps)) p q b ltac:(lia) f) as [A [HA _]]; [|eauto].
  intros i j Hi Hj. apply (weak_block_ok K pts p q b F ltac:(lia) HK HF); auto. intros Nij B HB.
  destruct (kernel_tile K pts p q b F ltac:(lia) HK HF i j Hi Hj) as [B' [EB [B1 [B2 B3]]]]. rewrite HB in EB. inversion EB; subst B'.
  destruct (HR i j Hi Hj Nij) as [k [X [Y [Hk HXY]]]].
  destruct (truncated_geqp3_deficient tol (Q2R eps) B k X Y) as [y Hy]; try lia; auto.
  { rewrite B1, B2. eapply (feq_trans (R := Rring)); [exact B3|exact HXY]. }
  apply (lowrank_eps_total tol eps B y Hy); lia.
Qed.
Print Assumptions C78_deficient.

(** The default kernel on 4 points in two places, tiles of 2 and accuracy 1e-6: the program
    returns, and it reports a loss of orthogonality below 1e-4. *)
Example C78_ex : forall rn, exists f1, forall fuel, (f1 <= fuel)%nat -> exists e1 e2 e3,
  blr_qr rn 0 false fuel KLaplace [[0; 0; 1; 1]] 4 2 2 (1 # 1000000) 0 = Ok (e1, e2, e3) /\ 0 <= e3 <= / 10000.
Proof.
  intros rn.
  destruct (kernel_fill_intro KLaplace [[0; 0; 1; 1]] (2 * 2) (1 * 2) 0 0) as [F HF].
  { intros i j Hi Hj. do 4 (destruct i as [|i]; [do 2 (destruct j as [|j]; [cbn; eauto|]); lia|]). lia. }
  assert (QE : Q2R (1 # 1000000) = / 1000000) by (unfold Q2R; cbn; lra).
  destruct (C78_deficient 0 KLaplace [[0; 0; 1; 1]] 2 1 2 (1 # 1000000) 0 F ltac:(lia) eq_refl HF) with (f := 0%nat) as [M HM].
  - rewrite QE. lra.
  - split; [apply Qle_refl|reflexivity].
  - intros i j Hi Hj Nij. assert (i = 1%nat /\ j = 0%nat) as [-> ->] by lia.
    destruct (kernel_fill_inv _ _ _ _ _ _ _ HF) as [_ [_ EF]].
    exists 1%nat, (fun _ _ => 1 / (sqrt (0 + (1 - 0) * (1 - 0)) + 1 / 1000)), (fun _ _ => 1). split; [lia|]. intros r s Hr Hs.
    pose proof (EF (2 + r)%nat s ltac:(lia) ltac:(lia)) as E. unfold mwin, mmul. cbn [sum].
    do 2 (destruct r as [|r]; [do 2 (destruct s as [|s]; [cbn in E |- *; injection E as E; rewrite <- E; ring|]); lia|]). lia.
  - destruct (C78_program rn 0 false KLaplace [[0; 0; 1; 1]] 2 1 2 (1 # 1000000) 0 F 2 M) as [f1 H]; auto; try lia; try reflexivity.
    + lra.
    + rewrite QE. lra.
    + rewrite QE. cbn [INR]. lra.
    + split; [apply Qle_refl|reflexivity].
    + exists f1. intros fuel Hf. destruct (H fuel Hf) as [e1 [e2 [e3 [E [_ [_ [_ [_ [P1 P2]]]]]]]]]. exists e1, e2, e3. split; [exact E|].
      split; [exact P1|]. eapply Rle_trans; [exact P2|]. unfold qr_growth, rate. rewrite QE. cbn [pairs INR pow Nat.sub Nat.add].
      assert (S2 : sqrt (1 + 1) <= 2). { rewrite <- (sqrt_square 2) by lra. apply sqrt_le_1_alt. lra. }
      pose proof (sqrt_pos (1 + 1)). nra.
Qed.
