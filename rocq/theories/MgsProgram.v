(** What examples/blocked_mgs_blr_qr.cpp does with its factors: the zero matrices it starts
    from, the product Q R and the product Q^T Q. *)
From Coq Require Import List Arith ZArith QArith Qreals Lia Bool Reals Lra String Ring_theory Ring.
From Verif Require Import Prelude Ring MatFun MatSetoid Matrix MatOps MatSpec MatOpsProofs IndexRange IndexRangeSpec
  IndexRangeProofs ClusterTree ClusterTreeSpec ClusterTreeProofs ClusterTreeRegular Admissible Construct ConstructProofs
  Lapack LowRankAdd Gemm GemmSpec GemmTheorems Triangular TriSpec Kernels ConstructKernel ConstructError FixedRank L2Error L2Real
  Reflect ReflectSpec ReflectProofs ReflectSuccess QrBig QrTiled QrStep QrApply QrTheorems QrSuccess RealQr
  EckartYoung SvdRank HouseReal TileKernels Rrqr RrqrLr RrqrDeficient RealLapack Prop_RealAdd Prop_FixedRank
  FroNorm QrErrTile QrErrStep QrErrApply QrErrReal QrErrSucc QrErrWhole TrmmErr GramErr BlrBuild BlrCompare
  Sampled SampledTheorems Mgs MgsProofs MgsNested.
From Verif Require MgsErr LuErr.
Import ListNotations.
Local Open Scope R_scope.

(** ** Hierarchical Q(zeros, ...) *)
Theorem weak_zeros pts p q b tol e admis fuel : (2 <= b)%nat -> 0 <= tol -> 0 <= Q2R e -> Q2R e * Q2R e * INR b < 1 -> (0 <= admis < 1)%Q ->
  exists E, hierarchical (kernel_init KZeros pts (is_admissible PositionBased [] admis) (lowrank_eps tol e)) (S (S fuel))
      (rng (p * b)) (rng (q * b)) (Z.of_nat p) (Z.of_nat q) (Z.of_nat b) = Ok (MH p q E) /\
    gtiles e p q (fun _ => b) (fun _ => b) E /\ dense_diag (R := Rring) p q E /\
    (forall i j, (i < p)%nat -> (j < q)%nat -> i <> j -> is_lr (E i j)) /\
    (forall i j, (i < p)%nat -> (j < q)%nat -> feq (R := Rring) b b (ent (E i j)) (mzero (R := Rring))).
Proof.
  intros Hb Ht He Hs Ha.
  destruct (kernel_fill_intro KZeros pts (p * b) (q * b) 0 0) as [F HF]. { intros i j Hi Hj. cbn. eauto. }
  assert (EF : forall i j, (i < p)%nat -> (j < q)%nat -> feq (R := Rring) b b (tile b F i j) (mzero (R := Rring))).
  { intros i j Hi Hj r s Hr Hs'. unfold tile, mwin. destruct (kernel_fill_inv _ _ _ _ _ _ _ HF) as [_ [_ E]].
    specialize (E (i * b + r)%nat (j * b + s)%nat ltac:(nia) ltac:(nia)). cbn in E. inversion E as [E']. reflexivity. }
  set (ini := kernel_init KZeros pts (is_admissible PositionBased [] admis) (lowrank_eps tol e)).
  assert (TK : forall i j, (i < p)%nat -> (j < q)%nat -> forall B, kernel_block KZeros pts (part_of b i) (part_of b j) = Ok B ->
    exists l, lowrank_eps tol e B = Ok l /\ feq (R := Rring) b b (lr_ent l) mzero).
  { intros i j Hi Hj B HB. destruct (kernel_tile KZeros pts p q b F ltac:(lia) eq_refl HF i j Hi Hj) as [B' [EB [B1 [B2 B3]]]].
    rewrite HB in EB. inversion EB; subst B'. pose proof (EF i j Hi Hj) as Z.
    destruct (lowrank_eps_zero tol e B) as [l [El Zl]]; try lia; auto. { rewrite B1, B2. eapply (feq_trans (R := Rring)); eauto. }
    rewrite B1, B2 in Zl. eauto. }
  destruct (blr_total ini p q b ltac:(lia) fuel) as [E [HE BE]].
  { intros i j Hi Hj. apply (weak_block_ok KZeros pts p q b F ltac:(lia) eq_refl HF); auto. intros Nij B HB. destruct (TK i j Hi Hj B HB) as [l [El _]]. eauto. }
  destruct (weak_built KZeros pts p q b F tol e admis Hb eq_refl HF Ht He Hs Ha _ _ HE) as [E' [EQ [G [D [LR _]]]]]. inversion EQ; subst E'.
  exists E. split; auto. split; auto. split; auto. split; auto. intros i j Hi Hj.
  destruct (weak_block KZeros pts p q b F ltac:(lia) eq_refl HF (lowrank_eps tol e) admis i j (E i j) Hb Ha Hi Hj (BE i j Hi Hj)) as [B [HB [B1 [B2 [B3 [D1 D2]]]]]].
  destruct (Nat.eqb_spec i j) as [Eij|Nij].
  - rewrite (D1 Eij). cbn [ent]. eapply (feq_trans (R := Rring)); [exact B3|apply EF; auto].
  - destruct (D2 Nij) as [l [El ->]]. destruct (TK i j Hi Hj B HB) as [l' [El' Zl]]. rewrite El in El'. inversion El'; subst l'. exact Zl.
Qed.

(** ** The checks *)
Section Checks.
Variables (setting : string) (rn : nat -> nat -> rmat) (tol : R) (e : Q) (b : nat).
Hypothesis NS : setting <> "naive"%string.
Hypothesis He : Qeq_bool e 0 = false.
Hypothesis E0 : 0 <= Q2R e <= 1.
Let Or := real_arith setting rn tol.
Let w : nat -> nat := fun _ => b.
Variables p q : nat.
Hypothesis Hq : (0 < q)%nat.
Hypothesis Hqp : (q <= p)%nat.
Notation grid := (grid Rring).

(** R has triangular Dense blocks on the diagonal, LowRank blocks above and zeros below. *)
Definition r_blocks (Rg : grid) : Prop :=
  (forall i j, (i < q)%nat -> (j < q)%nat -> wf (Rg i j) /\ nrows (Rg i j) = b /\ ncols (Rg i j) = b) /\
  (forall j, (j < q)%nat -> exists d, Rg j j = MD d /\ forall x y, (x < b)%nat -> (y < x)%nat -> d_e d x y = 0) /\
  (forall i j, (i < j < q)%nat -> is_lr (Rg i j)) /\
  (forall i j, (j < i < q)%nat -> feq (R := Rring) b b (ent (Rg i j)) (mzero (R := Rring))).

Lemma upper_same (Rg : grid) : r_blocks Rg -> feq (R := Rring) (offs w q) (offs w q) (ent (MH q q (upper_of w Rg))) (ent (MH q q Rg)).
Proof.
  intros [R1 [R2 [R3 R4]]].
  assert (SR : shaped (R := Rring) q q w w Rg) by (intros i j Hi Hj; apply R1; auto).
  assert (SU : shaped (R := Rring) q q w w (upper_of w Rg)).
  { intros i j Hi Hj. unfold upper_of. destruct (Nat.eqb_spec i j); [split; reflexivity|]. destruct (Nat.ltb_spec i j); [apply SR; auto|split; reflexivity]. }
  assert (B : forall i j, (i < q)%nat -> (j < q)%nat -> feq (R := Rring) b b (ent (upper_of w Rg i j)) (ent (Rg i j))).
  { intros i j Hi Hj. unfold upper_of. destruct (Nat.eqb_spec i j) as [->|Nij].
    - destruct (R2 j Hj) as [d [Ed Z]]. rewrite Ed. cbn [ent d_e]. intros x y Hx Hy. unfold tri. destruct (Nat.leb_spec x y).
      + destruct (Nat.ltb_spec x y); destruct (Nat.eqb_spec x y); try lia; reflexivity.
      + destruct (Nat.ltb_spec x y); destruct (Nat.eqb_spec x y); try lia. symmetry. apply Z; auto.
    - destruct (Nat.ltb_spec i j); [apply (feq_refl (R := Rring))|]. cbn [ent d_e]. apply (feq_sym (R := Rring)). apply R4. lia. }
  intros x y Hx Hy. unfold w in Hx, Hy. rewrite offs_const in Hx, Hy.
  assert (b0 : (0 < b)%nat) by nia.
  assert (X : (x / b < q)%nat) by (apply Nat.div_lt_upper_bound; lia). assert (Y : (y / b < q)%nat) by (apply Nat.div_lt_upper_bound; lia).
  assert (X1 : (x mod b < b)%nat) by (apply Nat.mod_upper_bound; lia). assert (Y1 : (y mod b < b)%nat) by (apply Nat.mod_upper_bound; lia).
  pose proof (whole_win q q w w Rg _ _ SR X Y _ _ X1 Y1) as E1. pose proof (whole_win q q w w _ _ _ SU X Y _ _ X1 Y1) as E2.
  rewrite (B _ _ X Y _ _ X1 Y1), <- E1 in E2. unfold mwin, w in E2. rewrite !offs_const in E2.
  replace (x / b * b + x mod b)%nat with x in E2 by (rewrite (Nat.div_mod x b) at 1; lia).
  replace (y / b * b + y mod b)%nat with y in E2 by (rewrite (Nat.div_mod y b) at 1; lia). exact E2.
Qed.

Lemma add_facts : accurate e (Q2R e) 0 b (no_compression Or) /\
  forall x y : lowrank Rring, lr_wf x -> lr_wf y -> l_r x = l_r y -> l_c x = l_c y -> good e (ML x) -> exists c, lr_add Or x y = Ok c.
Proof.
  split; [exact (real_accurate_add setting rn tol e b NS He (proj1 E0))|].
  intros x y WA WB Er Ec G. destruct (real_add_good setting rn tol e NS He (proj1 E0) x y WA WB Er Ec G) as [d [Ed _]]. exists d. exact Ed.
Qed.

(** Line 49. *)
Lemma product_checked f nd ft (Rg Qg : grid) : r_blocks Rg -> gtiles e p q w w Qg ->
  exists X, trmm Or (S f) nd (S (S ft)) (MH q q Rg) (MH p q Qg) SRight Upper false false (1%r : car Rring) = Ok (MH p q X) /\
    gtiles e p q w w X /\
    fro (offs w p) (offs w q) (msub (R := Rring) (ent (MH p q X)) (mmul (R := Rring) (offs w q) (ent (MH p q Qg)) (ent (MH q q Rg)))) <=
      ((1 + Q2R e) ^ q - 1) * (fro (offs w p) (offs w q) (ent (MH p q Qg)) * fro (offs w q) (offs w q) (ent (MH q q Rg))).
Proof.
  intros HR GQ. destruct add_facts as [AC AT]. pose proof (upper_same Rg HR) as EU. pose proof HR as [R1 [R2 [R3 R4]]].
  destruct (trmm_right_upper e (Q2R e) 0 b He E0 (Rle_refl 0) Or AC AT f nd ft p q w w Rg Qg) as [X [EX [GX BX]]]; auto; try lia.
  { intros j Hj. destruct (R2 j Hj) as [d [Ed _]]. exists d. split; auto. destruct (R1 j j Hj Hj) as [_ [D1 D2]]. rewrite Ed in D1, D2. auto. }
  { intros i j Hij. split; [apply R3; auto|]. apply R1; lia. }
  exists X. split; auto. split; auto. rewrite (fro_ext _ _ _ _ EU) in BX.
  eapply Rle_trans; [|exact BX]. right. apply fro_ext. apply (feq_sub (R := Rring)); [apply (feq_refl (R := Rring))|].
  apply (feq_mmul (R := Rring)); [apply (feq_refl (R := Rring))|]. apply (feq_sym (R := Rring)). exact EU.
Qed.

(** Lines 52-54. *)
Lemma gram_checked f (Qg Z : grid) : gtiles e p q w w Qg -> (forall i j, (i < p)%nat -> (j < q)%nat -> i <> j -> is_lr (Qg i j)) ->
  gtiles e q q w w Z -> dense_diag (R := Rring) q q Z ->
  exists Qt X, transpose (MH p q Qg) = Ok Qt /\
    gemm Or (S (S f)) Qt (MH p q Qg) (MH q q Z) (1%r : car Rring) (0%r : car Rring) false false = Ok (MH q q X) /\
    gtiles e q q w w X /\
    let Q := ent (MH p q Qg) in
    fro (offs w q) (offs w q) (msub (R := Rring) (ent (MH q q X)) (mmul (R := Rring) (offs w p) (mtr Q) Q)) <=
      ((1 + Q2R e) ^ p - 1) * (fro (offs w p) (offs w q) Q * fro (offs w p) (offs w q) Q).
Proof.
  intros GQ LQ GZ DZ. destruct add_facts as [AC AT].
  assert (TQ : MgsProofs.mtiles p q w w Qg) by (intros i j Hi Hj; destruct (GQ i j Hi Hj) as [? [? [? _]]]; auto).
  destruct (grid_dims p q w w Qg ltac:(lia) Hq TQ) as [WQ [Q1 Q2]].
  assert (FQ : forall i j, (i < p)%nat -> (j < q)%nat -> flat (Qg i j)) by (intros i j Hi Hj; destruct (GQ i j Hi Hj) as [_ [_ [_ G]]]; exact (good_flat _ _ G)).
  assert (NE : no_empty (MH p q Qg)).
  { simpl. intros i j Hi Hj. specialize (FQ i j Hi Hj). destruct (Qg i j); try destruct FQ; exact I. }
  destruct (transpose_spec (R := Rring) _ WQ NE) as [Qt [EQ [WT [_ [T1 [T2 T3]]]]]]. exists Qt.
  pose proof EQ as EQ'. cbn [transpose] in EQ'. apply bind_Ok in EQ'. destruct EQ' as [t [Ht E]]. inversion E; subst Qt; clear E.
  assert (TT : forall i j, (i < p)%nat -> (j < q)%nat -> flat (t i j) /\ wf (t i j) /\ nrows (t i j) = b /\ ncols (t i j) = b /\ (is_lr (Qg i j) -> is_lr (t i j))).
  { intros i j Hi Hj. pose proof (collect_spec _ _ _ _ Ht i j Hi Hj) as E. cbv beta in E.
    destruct (GQ i j Hi Hj) as [W [D1 [D2 _]]]. specialize (FQ i j Hi Hj).
    assert (NEi : no_empty (Qg i j)) by (destruct (Qg i j); try destruct FQ; exact I).
    destruct (transpose_spec (R := Rring) _ W NEi) as [y [Ey [Wy [_ [Y1 [Y2 _]]]]]]. rewrite E in Ey. inversion Ey; subst y.
    split; [destruct (Qg i j); try destruct FQ; cbn in E; inversion E; exact I|]. split; auto.
    split; [rewrite Y1; exact D2|]. split; [rewrite Y2; exact D1|]. intros [l El]. rewrite El in E. cbn in E. inversion E. eexists. reflexivity. }
  destruct (gram_err e (Q2R e) 0 b He E0 (Rle_refl 0) Or AC AT f q q p w w w (fun i j => t j i) Qg Z) as [X [EX [GX BX]]]; auto; try lia.
  { intros i k Hi Hk. destruct (TT k i Hk Hi) as [? [? [? [? _]]]]. auto. }
  { intros i k j Hi Hk Hj. destruct (Nat.eq_dec k i) as [->|]; [|left; apply TT; auto].
    destruct (Nat.eq_dec i j) as [->|]; [|right; left; apply LQ; auto]. right. right. apply DZ; lia. }
  exists X. split; auto. split; auto. split; auto. cbv zeta.
  rewrite Q1, Q2 in T3.
  set (Q := ent (MH p q Qg)) in *.
  assert (FT : fro (offs w q) (offs w p) (ent (MH q p (fun i j => t j i))) = fro (offs w p) (offs w q) Q).
  { rewrite (fro_ext _ _ _ _ T3). unfold fro. rewrite <- (sumsq_tr (R := Rring)). reflexivity. }
  rewrite FT in BX. eapply Rle_trans; [|exact BX]. right. apply fro_ext. apply (feq_sub (R := Rring)); [apply (feq_refl (R := Rring))|].
  apply (feq_mmul (R := Rring)); [|apply (feq_refl (R := Rring))]. apply (feq_sym (R := Rring)). exact T3.
Qed.

(** ** The factors *)
Lemma mgs_factors u tau v om gf fuel (A Z R0 : grid) A' Q' R' :
  accurate e u tau b Or -> 0 <= u <= 1 -> 0 <= tau -> 2 * u + u * u < 1 ->
  2 * u + u * u <= v * (1 - (2 * u + u * u)) -> (1 + u) * tau <= om * (1 - (2 * u + u * u)) ->
  gtiles e p q w w A -> gtiles e p q w w Z -> (forall i j, (i < p)%nat -> (j < q)%nat -> i <> j -> is_lr (Z i j)) ->
  gtiles e q q w w R0 -> dense_diag (R := Rring) q q R0 -> (forall i j, (i < q)%nat -> (j < q)%nat -> i <> j -> is_lr (R0 i j)) ->
  (forall i j, (i < q)%nat -> (j < q)%nat -> feq (R := Rring) b b (ent (R0 i j)) (mzero (R := Rring))) ->
  mgs_qr real_lapack Or gf fuel (MH p q A) (MH p q Z) (MH q q R0) = Ok (A', Q', R') ->
  exists Qg Rg, Q' = MH p q Qg /\ R' = MH q q Rg /\ gtiles e p q w w Qg /\
    (forall i j, (i < p)%nat -> (j < q)%nat -> i <> j -> is_lr (Qg i j)) /\ r_blocks Rg /\
    (forall j, (j < q)%nat -> exists X : mat Rring, orth_cols (R := Rring) (offs w p) b X /\
      let B := mwin (R := Rring) 0 (offs w j) (ent Q') in fro (offs w p) b (msub (R := Rring) B X) <= v * fro (offs w p) b B + sqrt (INR p) * om) /\
    fro (offs w p) (offs w q) (msub (R := Rring) (ent (MH p q A)) (mmul (R := Rring) (offs w q) (ent Q') (ent R'))) <=
      ((1 + v) ^ q - 1) * (fro (offs w p) (offs w q) (ent Q') * fro (offs w q) (offs w q) (ent R')) +
      sqrt (INR p * INR q) * (om * (1 + v) ^ q * (fro (offs w q) (offs w q) (ent R') + INR q)).
Proof.
  intros AC Hu Htau U1 U2 U3 GA GZ LZ GR DR LR ZR H.
  assert (TA : MgsProofs.mtiles p q w w A) by (intros i j Hi Hj; destruct (GA i j Hi Hj) as [? [? [? _]]]; auto).
  assert (TZ : MgsProofs.mtiles p q w w Z) by (intros i j Hi Hj; destruct (GZ i j Hi Hj) as [? [? [? _]]]; auto).
  assert (GGA : MgsErr.ggood e p q A) by (intros i j Hi Hj; apply GA; auto).
  assert (GGZ : MgsErr.ggood e p q Z) by (intros i j Hi Hj; apply GZ; auto).
  assert (EW : forall j, (j < q)%nat -> ncols (R0 0%nat j) = w j) by (intros j Hj; apply GR; auto).
  assert (DD : forall j, (j < q)%nat -> exists d, R0 j j = MD d) by (intros j Hj; apply DR; auto).
  assert (RS : rshape (R := Rring) (MH q q R0)).
  { cbn [rshape]. split; [reflexivity|]. split; [exact Hq|]. split.
    - intros i j Hi Hj. destruct (GR i j Hi Hj) as [W [N1 [N2 _]]]. rewrite !EW by auto. split; auto. split; auto. split; auto.
      intros _. rewrite N1, N2. apply ZR; auto.
    - intros j Hj. destruct (DD j Hj) as [d Ed]. destruct (GR j j Hj Hj) as [_ [N1 [N2 _]]]. rewrite Ed in N1, N2 |- *. cbn in *. congruence. }
  assert (FR : MgsErr.rflat q R0) by (intros i k Hi Hk; destruct (GR i k ltac:(lia) Hk) as [_ [_ [_ G]]]; exact (good_flat _ _ G)).
  pose proof (lapack_ok_sound _ real_lapack_ok real_lapack_orth) as LS.
  assert (Hw : forall i, (w i <= b)%nat) by (intros; apply le_n).
  destruct (MgsErr.mgs_grid_inv e u tau b He Hu Htau Or AC v om U1 U2 U3 real_lapack LS gf p q w w ltac:(lia) (fun i _ => Hw i) (fun i _ => Hw i) Hq fuel
    A Z R0 A' Q' R' TA TZ GGA GGZ RS EW FR DD H) as [a' [Qg [Rg [EA [EQ [ER INV]]]]]].
  pose proof (MgsErr.mgs_grid_err e u tau b He Hu Htau Or AC v om U1 U2 U3 real_lapack LS gf p q w w ltac:(lia) (fun i _ => Hw i) (fun i _ => Hw i) Hq fuel
    A Z R0 A' Q' R' TA TZ GGA GGZ RS EW FR DD H) as [_ [_ [_ [_ [_ [_ [OC BD]]]]]]].
  exists Qg, Rg. split; auto. split; auto.
  destruct INV as [_ _ IQ IG IR _ IR0 ILQ ILR IT _ _ _].
  split; [|split; [|split; [|split; auto]]].
  - intros i j Hi Hj. destruct (IQ i j Hi Hj) as [? [? ?]]. split; [assumption|]. split; [assumption|]. split; [assumption|]. apply IG; assumption.
  - intros i j Hi Hj Nij. destruct (LZ i j Hi Hj Nij) as [l El]. pose proof (ILQ i j Hi Hj) as Y. rewrite El in Y.
    destruct (Qg i j); try destruct Y. eexists. reflexivity.
  - split; [|split; [|split]].
    + intros i j Hi Hj. destruct (le_lt_dec i j) as [Lij|Lij]; [apply IR; auto|]. rewrite IR0 by lia. destruct (GR i j Hi Hj) as [? [? [? _]]]. auto.
    + intros j Hj. destruct (IT j Hj) as [Y [Qb [Rb [ET EJ]]]]. exists Rb. split; auto.
      destruct (IR j j Hj Hj (le_n j)) as [_ [N1 N2]]. rewrite EJ in N1, N2. cbn [nrows ncols] in N1, N2.
      unfold thin_qr in ET. destruct (d_r Y <? d_c Y)%nat; [discriminate|]. change (real_qr Y = Ok (Qb, Rb)) in ET.
      destruct (real_qr_ok Y) as [Q1 [R1 [E1 [_ [_ T]]]]]. rewrite ET in E1. inversion E1; subst Q1 R1.
      intros x y Hx Hy. apply T; unfold w in *; lia.
    + intros i j Hij. destruct (LR i j ltac:(lia) ltac:(lia) ltac:(lia)) as [l El]. pose proof (ILR i j ltac:(lia) ltac:(lia)) as Y. rewrite El in Y.
      destruct (Rg i j); try destruct Y. eexists. reflexivity.
    + intros i j Hij. rewrite IR0 by lia. apply ZR; lia.
Qed.

(** The size of Q. *)
Lemma q_norm v om (f : mat Rring) : 0 <= v < 1 -> 0 <= om ->
  (forall j, (j < q)%nat -> exists X : mat Rring, orth_cols (R := Rring) (offs w p) b X /\
    let B := mwin (R := Rring) 0 (offs w j) f in fro (offs w p) b (msub (R := Rring) B X) <= v * fro (offs w p) b B + sqrt (INR p) * om) ->
  fro (offs w p) (offs w q) f <= sqrt (INR q) * ((sqrt (INR b) + sqrt (INR p) * om) / (1 - v)).
Proof.
  intros Hv Ho H. set (c := (sqrt (INR b) + sqrt (INR p) * om) / (1 - v)).
  pose proof (sqrt_pos (INR b)) as S1. pose proof (Rmult_le_pos _ _ (sqrt_pos (INR p)) Ho) as S2.
  assert (C0 : 0 <= c) by (apply Rmult_le_pos; [lra|left; apply Rinv_0_lt_compat; lra]).
  pose proof (fro_cols_err (offs w p) w q f f 0 c (Rle_refl 0) C0) as P. rewrite Rmult_0_l, Rplus_0_l in P. apply P.
  intros j Hj. rewrite Rmult_0_l, Rplus_0_l. destruct (H j Hj) as [X [OX B]]. cbv zeta in B.
  change (fro (offs w p) b (mwin (R := Rring) 0 (offs w j) f) <= c). set (Bj := mwin (R := Rring) 0 (offs w j) f) in *.
  assert (NX : fro (offs w p) b X = sqrt (INR b)).
  { unfold fro. f_equal. rewrite (sumsq_tr (R := Rring)). unfold sumsq, mtr.
    transitivity (rsum b (fun _ => 1)); [|rewrite (rsum_const b 1); apply Rmult_1_r]. apply (sum_ext (R := Rring)).
    intros i Hi. specialize (OX i i Hi Hi). unfold mmul, mtr, mid in OX. rewrite Nat.eqb_refl in OX. exact OX. }
  pose proof (fro_dist (offs w p) b Bj X) as D. rewrite NX in D.
  apply Rmult_le_reg_r with (1 - v); [lra|]. unfold c. replace ((sqrt (INR b) + sqrt (INR p) * om) / (1 - v) * (1 - v)) with (sqrt (INR b) + sqrt (INR p) * om) by (field; lra).
  lra.
Qed.
End Checks.
