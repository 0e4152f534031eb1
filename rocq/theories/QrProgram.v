(** The product and the orthogonality check of examples/tiled_householder_blr_qr.cpp:44-73:
    the identity multiplied by the stored reflectors, that multiplied by R, and back. *)
From Coq Require Import List Arith ZArith QArith Qreals Lia Bool Reals Lra String Ring_theory Ring.
From Verif Require Import Prelude Ring MatFun MatSetoid Matrix MatOps MatSpec MatOpsProofs Lapack LowRankAdd Gemm GemmSpec
  GemmTheorems Triangular TriSpec Reflect ReflectSpec ReflectSuccess QrBig QrTiled QrStep QrApply QrTheorems QrSuccess RealQr
  SvdRank HouseReal TileKernels Rrqr RrqrLr RealLapack Prop_RealAdd Prop_FixedRank
  FroNorm QrErrTile QrErrStep QrErrApply QrErrReal QrErrSucc QrErrWhole TrmmErr BlrBuild.
Import ListNotations.
Local Open Scope R_scope.

(** Tiles of the identity. *)
Definition eye_tiles (p q : nat) (E : grid Rring) (b : nat) : Prop := forall i j, (i < p)%nat -> (j < q)%nat ->
  feq (R := Rring) b b (ent (E i j)) (if (i =? j)%nat then mid (R := Rring) else mzero (R := Rring)).

Definition upper_tiles (q : nat) (A : grid Rring) : grid Rring := fun i j => if (i <=? j)%nat then A i j else ME 0 0.

Section Back.
Variables (setting : string) (rn : nat -> nat -> rmat) (tol : R) (e : Q) (b : nat).
Hypothesis NS : setting <> "naive"%string.
Hypothesis He : Qeq_bool e 0 = false.
Hypothesis E0 : 0 <= Q2R e <= 1.
Let Or := real_arith setting rn tol.
Let K := wy_qrt (R := Rring) dlarfg.
Let w : nat -> nat := fun _ => b.
Variables p q : nat.
Hypothesis Hq : (0 < q)%nat.
Hypothesis Hqp : (q <= p)%nat.
Notation xmat := (mat Rring).
Notation xsub := (msub (R := Rring)).
Notation xmul := (mmul (R := Rring)).
Notation xfeq := (feq (R := Rring)).
Notation whole C := (ent (MH p q C)).
Let N := offs w p.
Let M := offs w q.
Let g := grow (Q2R e) b (pairs p q).
Let hq := (1 + Q2R e) ^ q - 1.

Lemma eye_norm (E : grid Rring) : gtiles e p q w w E -> eye_tiles p q E b -> fro N M (whole E) = sqrt (INR M).
Proof.
  intros GE EE. assert (SE := gtiles_shaped e p q w w E GE). unfold N, M. rewrite (fro_tiles w w p q).
  transitivity (fro p q (fun i j => if (i =? j)%nat then sqrt (INR b) else 0)).
  - apply fro_ext. intros i j Hi Hj. rewrite (fro_ext _ _ _ _ (whole_win p q w w E i j SE Hi Hj)). unfold w at 1 2. rewrite (fro_ext _ _ _ _ (EE i j Hi Hj)).
    destruct (Nat.eqb_spec i j); [|apply fro_zero]. unfold fro. f_equal. apply eye_sumsq.
  - unfold fro. f_equal. unfold w. rewrite offs_const, mult_INR. unfold sumsq. 
    rewrite (sum_swap (R := Rring)). rewrite (sum_ext (R := Rring) q _ (fun _ => INR b)).
    + rewrite rsum_const. reflexivity.
    + intros j Hj. rewrite (sum_single (R := Rring) p j); [|lia|].
      * rewrite Nat.eqb_refl. apply sqrt_sqrt. apply pos_INR.
      * intros i Hi Nij. destruct (Nat.eqb_spec i j); [contradiction|]. rr.
Qed.

(** The identity times the upper part. *)
Lemma eye_upper (E A' U : grid Rring) : gtiles e p q w w E -> eye_tiles p q E b -> gtiles e p q w w A' ->
  (forall i j, U i j = upper_of w A' i j) ->
  fro N M (xsub (xmul M (whole E) (ent (MH q q U))) (whole (Rgrid (R := Rring) w w A'))) = 0.
Proof.
  intros GE EE GA HU. assert (SE := gtiles_shaped e p q w w E GE).
  assert (SU : shaped (R := Rring) q q w w U).
  { intros i j Hi Hj. rewrite HU. unfold upper_of. destruct (Nat.eqb_spec i j); [split; reflexivity|]. destruct (Nat.ltb_spec i j); [|split; reflexivity].
    destruct (GA i j ltac:(lia) Hj) as [_ [? [? _]]]. auto. }
  unfold N, M. rewrite (fro_tiles w w p q). rewrite <- (fro_zero p q). apply fro_ext. intros i j Hi Hj. unfold mzero at 1.
  change (mwin (R := Rring) (offs w i) (offs w j) (xsub (xmul (offs w q) (whole E) (ent (MH q q U))) (whole (Rgrid (R := Rring) w w A'))))
    with (xsub (mwin (R := Rring) (offs w i) (offs w j) (xmul (offs w q) (whole E) (ent (MH q q U))))
               (mwin (R := Rring) (offs w i) (offs w j) (whole (Rgrid (R := Rring) w w A')))).
  apply fro_sub0.
  eapply (feq_trans (R := Rring)); [exact (prod_win p q q w w w E U i j SE SU Hi Hj)|].
  eapply (feq_trans (R := Rring)); [|apply (feq_sym (R := Rring)); exact (whole_win p q w w _ i j (Rgrid_shaped (R := Rring) p q w w A') Hi Hj)].
  intros r s Hr Hs. unfold Rgrid. cbn [ent d_e]. unfold w in Hr, Hs. unfold Rtile.
  assert (Z : forall k, (k < q)%nat -> k <> i -> xmul (w k) (ent (E i k)) (ent (U k j)) r s = 0).
  { intros k Hk Nk. unfold w, mmul. rewrite (sum_ext (R := Rring) b _ (fun _ => 0)); [apply (sum_zero (R := Rring))|].
    intros l Hl. rewrite (EE i k Hi Hk r l Hr Hl). destruct (Nat.eqb_spec i k); [lia|]. unfold mzero. rr. }
  destruct (Nat.lt_ge_cases i q) as [Hiq|Hiq].
  - rewrite (sum_single (R := Rring) q i); auto.
    unfold w at 1. transitivity (xmul b (mid (R := Rring)) (ent (U i j)) r s).
    + apply (mmul_ext (R := Rring)); auto. intros l Hl. rewrite (EE i i Hi Hiq r l Hr Hl). rewrite Nat.eqb_refl. reflexivity.
    + rewrite (mmul_id_l (R := Rring)) by auto. rewrite HU. unfold upper_of. destruct (Nat.eqb_spec i j) as [->|].
      * rewrite Nat.ltb_irrefl. reflexivity.
      * destruct (Nat.ltb_spec i j); reflexivity.
  - rewrite (sum_ext (R := Rring) q _ (fun _ => 0)) by (intros k Hk; apply Z; lia).
    rewrite (sum_zero (R := Rring)). destruct (Nat.ltb_spec i j); [lia|]. destruct (Nat.eqb_spec i j); [lia|]. reflexivity.
Qed.

Lemma upper_norm (A' U : grid Rring) : gtiles e p q w w A' -> (forall i j, U i j = upper_of w A' i j) ->
  fro M M (ent (MH q q U)) <= fro N M (whole (Rgrid (R := Rring) w w A')).
Proof.
  intros GA HU.
  assert (SU : shaped (R := Rring) q q w w U).
  { intros i j Hi Hj. rewrite HU. unfold upper_of. destruct (Nat.eqb_spec i j); [split; reflexivity|]. destruct (Nat.ltb_spec i j); [|split; reflexivity].
    destruct (GA i j ltac:(lia) Hj) as [_ [? [? _]]]. auto. }
  unfold N, M. rewrite (fro_tiles w w p q), (fro_tiles w w q q).
  assert (MR : forall n m c f, (n <= m)%nat -> fro n c f <= fro m c f).
  { intros n m c f L. unfold fro. apply sqrt_le_1_alt. unfold sumsq. induction L as [|m L IH]; [lra|]. eapply Rle_trans; [exact IH|].
    cbn [sum]. assert (0 <= rsum c (fun j => f m j * f m j)) by (apply sum_nonneg; intros j _; apply Rle_0_sqr). cbn in *. lra. }
  eapply Rle_trans; [|apply MR; exact Hqp]. right. apply fro_ext. intros i j Hi Hj.
  rewrite (fro_ext _ _ _ _ (whole_win q q w w _ i j SU Hi Hj)), (fro_ext _ _ _ _ (whole_win p q w w _ i j (Rgrid_shaped (R := Rring) p q w w A') ltac:(lia) Hj)).
  apply fro_ext. intros r s Hr Hs. rewrite HU. unfold upper_of, Rgrid, Rtile. cbn [ent d_e]. destruct (Nat.eqb_spec i j) as [->|].
  - rewrite Nat.ltb_irrefl. reflexivity.
  - destruct (Nat.ltb_spec i j); reflexivity.
Qed.

(** Everything after the factorization. *)
Theorem qr_back f nd ft (A T E : grid Rring) : gtiles e p q w w A -> dense_diag (R := Rring) p q A ->
  (forall i j, (i < p)%nat -> (j < q)%nat -> i <> j -> is_lr (A i j)) -> dense_factors (R := Rring) p q w T ->
  gtiles e p q w w E -> eye_tiles p q E b ->
  exists A' T' Q1 X Q2, tiled_qr Or K p q A p q T = Ok (A', T') /\
    tiled_apply Or p q A' T' E false = Ok Q1 /\
    trmm Or (S f) nd (S (S ft)) (MH q q (upper_tiles q A')) (MH p q Q1) SRight Upper false false (1%r : car Rring) = Ok (MH p q X) /\
    tiled_apply Or p q A' T' Q1 true = Ok Q2 /\
    gtiles e p q w w X /\ gtiles e p q w w Q2 /\
    fro N M (xsub (whole A) (whole X)) <= (g + (g + hq * (1 + g)) * sqrt (INR M) * (1 + g)) * fro N M (whole A) /\
    fro N M (xsub (whole Q2) (whole E)) <= (2 * g + g * g) * sqrt (INR M).
Proof.
  intros GA DA LA DT GE EE. assert (NE := eye_norm E GE EE).
  set (Or0 := no_compression Or).
  assert (AC := real_accurate_add setting rn tol e b NS He (proj1 E0)).
  assert (AT : forall a b : lowrank Rring, lr_wf a -> lr_wf b -> l_r a = l_r b -> l_c a = l_c b -> good e (ML a) -> exists c, lr_add Or0 a b = Ok c).
  { intros a c WA WB Er Ec G. destruct (real_add_good setting rn tol e NS He (proj1 E0) a c WA WB Er Ec G) as [d [Ed _]]. exists d. exact Ed. }
  assert (KO := wy_qrt_ok (R := Rring) dlarfg dlarfg_ok). assert (KT := wy_qrt_total (R := Rring) dlarfg).
  assert (Hh : forall i, (i < p)%nat -> (w i <= b)%nat) by (intros; unfold w; lia).
  assert (Hw : forall i, (i < q)%nat -> (w i <= b)%nat) by (intros; unfold w; lia).
  assert (SD : forall k, (k < q)%nat -> (w k <= w k)%nat /\ ((S k < q)%nat -> w k = w k)) by (intros; split; auto; lia).
  assert (LL : lower_lr p q A) by (intros i j Hi Hj Hij; apply LA; auto; lia).
  destruct (weak_qr_succ e (Q2R e) 0 b He E0 (Rle_refl 0) Or0 AC AT K KO KT dlarfg_small p q w w Hh Hw A T Hqp SD GA DA LL DT)
    as [A' [T' [EQ [GA' [L' DT']]]]].
  destruct (tiled_err_whole e (Q2R e) 0 b He E0 (Rle_refl 0) Or0 AC K KO dlarfg_small p q w w Hh Hw Hq A T p q A' T') as [_ [_ [ST [Q [Q1 [Q2 [Q3 _]]]]]]]; auto.
  { apply (dense_factors_factors (R := Rring) p q w); auto. }
  assert (AP : forall C tr, gtiles e p q w w C -> exists C', tiled_apply Or0 p q A' T' C tr = Ok C').
  { intros C tr GC.
    destruct (weak_apply_succ e (Q2R e) 0 b He E0 (Rle_refl 0) Or0 AC AT p q w w Hh Hw w A' T' C tr) as [C' [EC _]]; auto.
    - exact (layouts_diag (R := Rring) p q _ _ L' DA).
    - exact (layouts_lower p q _ _ L' LL).
    - exact (st_orth _ _ _ _ _ _ _ ST).
    - exact (st_small _ _ _ _ _ _ _ ST).
    - exists C'. exact EC. }
  destruct (AP E false GE) as [C1 EC1].
  assert (BU : block_upper (R := Rring) p q E).
  { intros i j Hi Hij Hj. destruct (GE i j Hi Hj) as [_ [R1 [R2 _]]]. rewrite R1, R2. unfold w.
    pose proof (EE i j Hi Hj) as Z. destruct (Nat.eqb_spec i j); [lia|]. exact Z. }
  assert (G1 : gtiles e p q w w C1).
  { destruct (apply_false_err e (Q2R e) 0 b He E0 (Rle_refl 0) Or0 AC p q w w w Hh Hw Hw A' T' ST E C1) as [_ [G1 _]]; auto. }
  destruct (AP C1 true G1) as [C2 EC2].
  destruct (round_trip_err e (Q2R e) 0 b He E0 (Rle_refl 0) Or0 AC p q w w Hh Hw Hq A' T' ST Hqp w E C1 C2 Hw GE BU EC1 EC2) as [_ [G2 RT]].
  destruct (trmm_right_upper e (Q2R e) 0 b He E0 (Rle_refl 0) Or AC AT f nd ft p q w w (upper_tiles q A') C1) as [X [EX [GX BX]]]; auto; try lia.
  { intros j Hj. unfold upper_tiles. rewrite Nat.leb_refl. destruct (layouts_diag (R := Rring) p q _ _ L' DA j Hj ltac:(lia)) as [d Ed].
    exists d. split; auto. destruct (GA' j j ltac:(lia) Hj) as [_ [D1 [D2 _]]]. rewrite Ed in D1, D2. auto. }
  { intros i j Hij. unfold upper_tiles. destruct (Nat.leb_spec i j); [|lia]. destruct (GA' i j ltac:(lia) ltac:(lia)) as [W1 [D1 [D2 _]]].
    split; [|auto]. destruct (LA i j ltac:(lia) ltac:(lia) ltac:(lia)) as [l El]. specialize (L' i j ltac:(lia) ltac:(lia)). rewrite El in L'.
    destruct (A' i j); try destruct L'. eexists. reflexivity. }
  exists A', T', C1, X, C2. split; [exact (tiled_qr_le Or K p q A p q T _ EQ)|]. split; [exact (tiled_apply_le Or p q A' T' E false _ EC1)|].
  split; [exact EX|]. split; [exact (tiled_apply_le Or p q A' T' C1 true _ EC2)|]. split; auto. split; auto.
  assert (DZ : drift (Q2R e) 0 b (pairs p q) = 0) by (unfold drift, theta; rewrite !Rmult_0_r; reflexivity).
  rewrite DZ in Q2, Q3, RT. fold g in Q2, Q3, RT. fold N M in Q2, RT, BX.
  split.
  - set (Rw := whole (Rgrid (R := Rring) w w A')) in *. set (U := ent (MH q q (upper_of w (upper_tiles q A')))) in *.
    assert (HU : forall i j, upper_of w (upper_tiles q A') i j = upper_of w A' i j).
    { intros i j. unfold upper_of, upper_tiles. destruct (Nat.eqb_spec i j) as [->|]; [rewrite Nat.leb_refl; reflexivity|].
      destruct (Nat.ltb_spec i j); auto. destruct (Nat.leb_spec i j); auto. lia. }
    pose proof (eye_upper E A' _ GE EE GA' HU) as V1. pose proof (upper_norm A' _ GA' HU) as V2. fold U Rw in V1, V2.
    pose proof (Q3 w E C1 Hw GE BU EC1) as V3. fold N M in V3. rewrite NE in V3.
    rewrite !Rmult_0_r, Rplus_0_r in Q2, V3. fold Rw in Q2.
    set (a := fro N M (whole A)) in *. set (sn := sqrt (INR M)) in *.
    assert (Sn : 0 <= sn) by apply sqrt_pos. assert (Ga : 0 <= a) by apply fro_nonneg.
    assert (Gg : 0 <= g) by (apply grow_nonneg; auto).
    assert (Gh : 0 <= hq) by (unfold hq; pose proof (upow_ge1 (Q2R e) E0 q); lra).
    assert (NR : fro N M Rw <= (1 + g) * a).
    { rewrite <- (fro_orth N M Q Rw false Q1). cbn [mop]. pose proof (fro_dist N M (xmul N Q Rw) (whole A)) as D. rewrite fro_swap in D. fold a in D. lra. }
    assert (NU : fro M M U <= (1 + g) * a) by lra.
    assert (NC : fro N M (whole C1) <= (1 + g) * sn).
    { pose proof (fro_dist N M (whole C1) (xmul N Q (whole E))) as D. pose proof (fro_orth N M Q (whole E) false Q1) as D'. cbn [mop] in D'.
      rewrite D', NE in D. lra. }
    assert (P1 : fro N M (xsub (xmul N Q Rw) (xmul N Q (xmul M (whole E) U))) = 0).
    { transitivity (fro N M (xmul N (mop false Q) (xsub (xmul M (whole E) U) Rw))); [|rewrite fro_orth by auto; exact V1].
      rewrite fro_swap. apply fro_ext. intros r s _ _. cbn [mop]. rewrite (mmul_sub_r (R := Rring)). reflexivity. }
    assert (P2 : fro N M (xsub (xmul N Q (xmul M (whole E) U)) (xmul M (whole C1) U)) <= g * sn * fro M M U).
    { eapply Rle_trans; [|apply Rmult_le_compat_r; [apply fro_nonneg|exact V3]]. eapply Rle_trans; [|apply (fro_mul N M M)].
      right. rewrite fro_swap. apply fro_ext. intros r s _ _. rewrite (mmul_sub_l (R := Rring)). unfold MatFun.msub. f_equal. symmetry. apply (mmul_assoc (R := Rring)). }
    pose proof (fro_via N M (whole A) (xmul N Q Rw) (whole X)) as W1.
    pose proof (fro_via N M (xmul N Q Rw) (xmul M (whole C1) U) (whole X)) as W2.
    pose proof (fro_via N M (xmul N Q Rw) (xmul N Q (xmul M (whole E) U)) (xmul M (whole C1) U)) as W3.
    rewrite (fro_swap N M (xmul M (whole C1) U)) in W2. fold hq in BX.
    assert (fro N M (whole C1) * fro M M U <= (1 + g) * sn * ((1 + g) * a)) by (apply Rmult_le_compat; auto; apply fro_nonneg).
    assert (hq * (fro N M (whole C1) * fro M M U) <= hq * ((1 + g) * sn * ((1 + g) * a))) by (apply Rmult_le_compat_l; auto).
    assert (g * sn * fro M M U <= g * sn * ((1 + g) * a)) by (apply Rmult_le_compat_l; auto; apply Rmult_le_pos; auto).
    apply Rle_trans with (g * a + (g * sn * ((1 + g) * a) + hq * ((1 + g) * sn * ((1 + g) * a)))); [lra|]. right. ring.
  - rewrite <- NE. eapply Rle_trans; [exact RT|]. lra.
Qed.
End Back.
