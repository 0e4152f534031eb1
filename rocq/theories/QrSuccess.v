(** The tiled Householder QR factorization and the multiplication by its Q always return, if
    the tile kernels and the low-rank arithmetic do. *)
From Coq Require Import List Arith ZArith QArith Lia Bool Ring_theory Ring Setoid Morphisms.
From Verif Require Import Prelude Ring MatFun MatSetoid Matrix MatOps MatSpec MatOpsProofs Lapack Gemm GemmSpec GemmProofs
  GemmCorrect GemmTheorems Triangular TriAlgebra TriSpec TriProofs TriTheorems Reflect ReflectSpec ReflectProofs ReflectTile
  ReflectSuccess QrBig QrTiled QrStep QrApply QrTheorems.
Import ListNotations.
Local Open Scope nat_scope.

Section Success.
Context {R : cring}.
Notation dense := (dense R).
Notation lowrank := (lowrank R).
Notation matrix := (matrix R).
Notation mat := (mat R).
Notation grid := (grid R).

Definition qrt_total (K : qrt R) : Prop :=
  (forall a, exists r, geqrt3 K a = Ok r) /\ (forall a b, exists r, tpqrt2 K a b = Ok r).

Variable Or : oracles R.
Hypothesis HS : oracles_shape Or.
Hypothesis HT : oracles_total Or.
Hypothesis HO : oracles_near exact Or.
Variable K : qrt R.
Hypothesis HK : qrt_ok K.
Hypothesis HKT : qrt_total K.
Variables p q : nat.
Variables h w : nat -> nat.

(** Dense and LowRank tiles of the given sizes; Dense ones on the diagonal; Dense T. *)
Definition flats (cw : nat -> nat) (C : grid) : Prop := forall i j, i < p -> j < q ->
  wf (C i j) /\ flat (C i j) /\ nrows (C i j) = h i /\ ncols (C i j) = cw j.
Definition dense_diag (A : grid) : Prop := forall k, k < q -> k < p -> exists d, A k k = MD d.
Definition dense_factors (T : grid) : Prop := forall i j, i < p -> j < q -> j <= i ->
  exists t, T i j = MD t /\ d_r t = w j /\ d_c t = w j.
Definition layouts (C C' : grid) : Prop := forall i j, i < p -> j < q -> same_layout (C i j) (C' i j).

Lemma layouts_refl C : layouts C C.
Proof. intros i j _ _. apply same_layout_refl. Qed.
Lemma layouts_trans A B C : layouts A B -> layouts B C -> layouts A C.
Proof. intros H1 H2 i j Hi Hj. eapply same_layout_trans; [apply H1|apply H2]; auto. Qed.

Lemma layouts_diag A B : layouts A B -> dense_diag A -> dense_diag B.
Proof.
  intros H D k Hq Hp. destruct (D k Hq Hp) as [d E]. specialize (H k k Hp Hq). rewrite E in H.
  destruct (B k k) as [b|?|? ? ?|? ?]; try destruct H. eauto.
Qed.

(** Replacing a tile by one of the same layout. *)
Lemma flats_upd cw C i j x : i < p -> j < q -> flats cw C -> wf x -> same_layout (C i j) x ->
  flats cw (bupd C i j x) /\ layouts C (bupd C i j x).
Proof.
  intros Hi Hj HC WX L. destruct (HC i j Hi Hj) as [W [F [D1 D2]]]. destruct (layout_dims_flat _ _ F L) as [E1 E2].
  split.
  - intros a b Ha Hb. destruct (Nat.eq_dec a i) as [->|]; [destruct (Nat.eq_dec b j) as [->|]|].
    + rewrite bupd_same. split; auto. split; [exact (flat_layout _ _ L F)|]. split; congruence.
    + rewrite bupd_other by auto. apply HC; auto.
    + rewrite bupd_other by auto. apply HC; auto.
  - intros a b Ha Hb. destruct (Nat.eq_dec a i) as [->|]; [destruct (Nat.eq_dec b j) as [->|]|].
    + rewrite bupd_same. exact L.
    + rewrite bupd_other by auto. apply same_layout_refl.
    + rewrite bupd_other by auto. apply same_layout_refl.
Qed.

Lemma tiled_larfb_succ cw k tr from (Y T C : grid) v t : k < p -> w k <= h k -> flats cw C ->
  Y k k = MD v -> d_r v = h k -> d_c v = w k -> T k k = MD t -> d_r t = w k -> d_c t = w k ->
  exists C', tiled_larfb q k tr from Y T C = Ok C' /\ flats cw C' /\ layouts C C'.
Proof.
  intros Hk L HC EY V1 V2 ET T1 T2. unfold tiled_larfb.
  apply (for_loop_inv _ _ _ (fun _ D => flats cw D /\ layouts C D)).
  - split; auto. apply layouts_refl.
  - intros u D Hu [HD LD]. assert (Hj : from + u < q) by lia.
    destruct (HD k (from + u) Hk Hj) as [W [F [D1 D2]]]. rewrite EY, ET.
    destruct (larfb_succ v t (D k (from + u)) tr F W) as [x Hx]; try lia. rewrite Hx. cbn [bind].
    destruct (larfb_exact _ _ _ _ _ W Hx) as [WX [LX _]].
    destruct (flats_upd cw D k (from + u) x Hk Hj HD WX LX) as [F1 F2].
    eexists. split; [reflexivity|]. split; auto. eapply layouts_trans; eauto.
Qed.

Lemma tiled_tpmqrt_succ cw k i tr from (Y T C : grid) t : k < p -> i < p -> k <> i -> h k = w k -> flats cw C ->
  wf (Y i k) -> flat (Y i k) -> nrows (Y i k) = h i -> ncols (Y i k) = w k -> T i k = MD t -> d_r t = w k -> d_c t = w k ->
  exists C', tiled_tpmqrt Or q k i tr from Y T C = Ok C' /\ flats cw C' /\ layouts C C'.
Proof.
  intros Hk Hi Hki E HC WY FY Y1 Y2 ET T1 T2. unfold tiled_tpmqrt.
  apply (for_loop_inv _ _ _ (fun _ D => flats cw D /\ layouts C D)).
  - split; auto. apply layouts_refl.
  - intros u D Hu [HD LD]. assert (Hj : from + u < q) by lia. set (j := from + u) in *.
    destruct (HD k j Hk Hj) as [WA [FA [A1 A2]]]. destruct (HD i j Hi Hj) as [WB [FB [B1 B2]]]. rewrite ET.
    destruct (tpmqrt_succ Or HS HT HO (Y i k) (D k j) (D i j) t tr) as [[x y] Hx]; auto; try congruence.
    rewrite Hx. cbn [bind].
    destruct (tpmqrt_exact Or HO (Y i k) (MD t) (D k j) (D i j) tr x y) as [WX [WZ [LX [LZ _]]]]; auto.
    { unfold tpm_fit. cbn [nrows ncols]. repeat (split; [solve [auto; congruence]|]). congruence. }
    destruct (flats_upd cw D k j x Hk Hj HD WX LX) as [F1 F2].
    destruct (flats_upd cw (bupd D k j x) i j y Hi Hj F1 WZ) as [F3 F4].
    { rewrite bupd_other by auto. exact LZ. }
    eexists. split; [reflexivity|]. split; auto.
    eapply layouts_trans; [exact LD|]. eapply layouts_trans; eauto.
Qed.

Lemma geqrt_succ (a t : dense) : d_r t = d_c a -> d_c t = d_c a -> d_c a <= d_r a ->
  exists x y, geqrt K (MD a) (MD t) = Ok (MD x, MD y) /\ is_geqrt a x y.
Proof.
  intros E1 E2 L. unfold geqrt. rewrite (proj2 (Nat.eqb_eq _ _) E1), (proj2 (Nat.eqb_eq _ _) E2).
  destruct (Nat.ltb_spec (d_r a) (d_c a)); [lia|].
  destruct HKT as [KT _]. destruct (KT a) as [[x y] Hx]. rewrite Hx. cbn [bind]. exists x, y. split; auto.
  apply (ok_geqrt _ HK) in Hx; auto.
Qed.

Lemma d_tpqrt_succ (a b t : dense) : d_c b <= d_r a -> d_c b <= d_c a -> d_r t = d_c b -> d_c t = d_c b ->
  exists r, d_tpqrt K a b t = Ok r.
Proof.
  intros L1 L2 E1 E2. unfold d_tpqrt. replace (_ && _) with true.
  - destruct HKT as [_ KT]. destruct (KT a b) as [[[a' v] y] Hx]. rewrite Hx. simpl. eauto.
  - symmetry. repeat (apply andb_true_intro; split); apply Nat.leb_le; lia.
Qed.

Lemma tpqrt_succ (a t : dense) (B : matrix) : wf B -> flat B -> ncols B <= d_r a -> ncols B <= d_c a ->
  d_r t = ncols B -> d_c t = ncols B -> exists r, tpqrt K (MD a) B (MD t) = Ok r.
Proof.
  intros W F L1 L2 E1 E2. unfold tpqrt. destruct B as [b|b|? ? ?|? ?]; try destruct F; cbn [ncols] in *.
  - destruct (d_tpqrt_succ a b t) as [[[x v] y] H]; auto. rewrite H. simpl. eauto.
  - destruct W as [W1 [W2 [W3 W4]]].
    destruct (dd_mul_ok (l_S b) (l_V b) 1%r false false W3) as [sv Hs]. rewrite Hs. cbn [bind].
    destruct (dd_mul_inv _ _ _ _ _ _ Hs) as [_ [S1 [S2 _]]]. cbn in S1, S2.
    destruct (d_tpqrt_succ a sv t) as [[[x v] y] H]; try congruence; try (rewrite S2, W4; auto). rewrite H. simpl. eauto.
Qed.

(** ** The factorization *)

Hypothesis HU : keeps_orthU Or.
Notation tilesO := (tiles True p q h w).
Notation factorsO := (factors p q w).

Lemma tiles_flats (A : grid) : tilesO A -> (forall i j, i < p -> j < q -> flat (A i j)) -> flats w A.
Proof. intros H F i j Hi Hj. destruct (H i j Hi Hj) as [H1 [H2 [H3 _]]]. auto. Qed.

Lemma flats_flat cw A : flats cw A -> forall i j, i < p -> j < q -> flat (A i j).
Proof. intros H i j Hi Hj. apply (H i j Hi Hj). Qed.

Lemma bupd_factors (T : grid) i j t : dense_factors T -> d_r t = w j -> d_c t = w j -> dense_factors (bupd T i j (MD t)).
Proof.
  intros H E1 E2 a b Ha Hb. destruct (Nat.eq_dec a i) as [->|]; [destruct (Nat.eq_dec b j) as [->|]|].
  - rewrite bupd_same. eauto.
  - rewrite bupd_other by auto. apply H; auto.
  - rewrite bupd_other by auto. apply H; auto.
Qed.
Lemma dense_factors_factors T : dense_factors T -> factorsO T.
Proof. intros H i j Hi Hj Hij. destruct (H i j Hi Hj Hij) as [t [-> [E1 E2]]]. auto. Qed.

(** Only the last tile of the diagonal may be higher than wide. *)
Definition square_diag : Prop := forall k, k < q -> w k <= h k /\ (S k < q -> h k = w k).

Lemma tiled_step_succ k (A T : grid) : k < q -> q <= p -> square_diag -> tilesO A -> flats w A -> dense_diag A -> dense_factors T ->
  exists A' T', tiled_step Or K p q k (A, T) = Ok (A', T') /\ flats w A' /\ dense_diag A' /\ dense_factors T'.
Proof.
  intros Hq Hqp SD HA FA DA DT. assert (Hk : k < p) by lia. destruct (SD k Hq) as [LK EK].
  unfold tiled_step. rewrite (proj2 (Nat.ltb_lt _ _) Hk). cbn [fst snd].
  destruct (DA k Hq Hk) as [a EA]. destruct (DT k k Hk Hq (le_n k)) as [t [ET [T1 T2]]].
  destruct (HA k k Hk Hq) as [_ [A1 [A2 _]]]. rewrite EA in A1, A2. cbn [nrows ncols] in A1, A2.
  assert (HG : exists x y, geqrt K (A k k) (T k k) = Ok (MD x, MD y) /\ is_geqrt a x y).
  { rewrite EA, ET. apply geqrt_succ; congruence || lia. }
  destruct HG as [x [y [HG IG]]]. rewrite HG. cbn [bind].
  destruct IG as [X1 [X2 [Y1 [Y2 _]]]]. rewrite A2 in Y1, Y2.
  assert (LX : same_layout (A k k) (MD x)) by (rewrite EA; split; assumption).
  destruct (flats_upd w A k k (MD x) Hk Hq FA I LX) as [F1 L1].
  pose proof (layouts_diag _ _ L1 DA) as D1. pose proof (bupd_factors T k k y DT Y1 Y2) as DT1.
  destruct (tiled_larfb_succ w k true (S k) (bupd A k k (MD x)) (bupd T k k (MD y)) (bupd A k k (MD x)) x y) as [A2' [HL [F2 L2]]]; auto;
    try (apply bupd_same); try congruence.
  rewrite HL. cbn [bind].
  assert (B0 : step_inv p q h w k A T 0 (A2', bupd T k k (MD y))).
  { eapply (step_base K HK p q h w k A T (MD x) (MD y)); eauto. apply dense_factors_factors; auto. }
  pose proof (layouts_diag _ _ L2 D1) as D2.
  destruct (for_loop_inv (p - S k) (fun t0 s =>
    let i := S k + t0 in
    let* (x, v, y) := tpqrt K (fst s k k) (fst s i k) (snd s i k) in
    let A := bupd (bupd (fst s) k k x) i k v in
    let T := bupd (snd s) i k y in
    let* A := tiled_tpmqrt Or q k i true (S k) A T A in
    Ok (A, T)) (A2', bupd T k k (MD y))
    (fun t0 s => step_inv p q h w k A T t0 s /\ flats w (fst s) /\ dense_diag (fst s) /\ dense_factors (snd s))) as [[A' T'] [E [I0 [I1 [I2 I3]]]]].
  - cbn [fst snd]. auto.
  - intros t0 [B U] Ht [SI [FB [DB DU]]]. cbn [fst snd] in *. cbv zeta. set (i := S k + t0) in *. assert (Hi : i < p) by lia.
    destruct (DB k Hq Hk) as [b EB]. destruct (DU i k Hi Hq ltac:(lia)) as [u [EU [U1 U2]]].
    destruct (FB k k Hk Hq) as [_ [_ [N1 N2]]]. rewrite EB in N1, N2. cbn [nrows ncols] in N1, N2.
    destruct (FB i k Hi Hq) as [WI [FI [M1 M2]]].
    destruct (tpqrt_succ b u (B i k) WI FI) as [[[x1 v1] y1] HP]; try congruence; try lia.
    assert (HP' : tpqrt K (B k k) (B i k) (U i k) = Ok (x1, v1, y1)) by (rewrite EB, EU; exact HP).
    rewrite HP'. cbn [bind].
    assert (OI : orthU (B i k)).
    { destruct SI as [ST _ _ _ _ _ _]. cbn [fst] in ST. destruct (ST i k Hi Hq) as [_ [_ [_ O]]]. auto. }
    destruct (tpqrt_ok K HK _ _ _ _ _ _ HP WI OI) as [a0 [a1 [t1 [t2 [Ea0 [Ea1 [Et1 [Et2 [_ [_ [R1 [R2 [R3 [R4 [_ [_ [WV [LV _]]]]]]]]]]]]]]]]]];
      [cbn [nrows]; congruence|cbn [ncols]; congruence|].
    injection Ea0 as <-. subst x1 y1.
    assert (LX1 : same_layout (B k k) (MD a1)) by (rewrite EB; split; assumption).
    destruct (flats_upd w B k k (MD a1) Hk Hq FB I LX1) as [F3 L3].
    assert (LV' : same_layout (bupd B k k (MD a1) i k) v1) by (rewrite bupd_other by (left; lia); exact LV).
    destruct (flats_upd w (bupd B k k (MD a1)) i k v1 Hi Hq F3 WV LV') as [F4 L4].
    pose proof (layouts_diag _ _ L4 (layouts_diag _ _ L3 DB)) as D4.
    rewrite M2 in R3, R4. pose proof (bupd_factors U i k t2 DU R3 R4) as DU4.
    assert (HM : exists A3, tiled_tpmqrt Or q k i true (S k) (bupd (bupd B k k (MD a1)) i k v1) (bupd U i k (MD t2)) (bupd (bupd B k k (MD a1)) i k v1) = Ok A3 /\
      flats w A3 /\ layouts (bupd (bupd B k k (MD a1)) i k v1) A3).
    { destruct (le_lt_dec q (S k)) as [Hlast|Hlast].
      - unfold tiled_tpmqrt. replace (q - S k) with 0 by lia. simpl. eexists. split; [reflexivity|]. split; auto. apply layouts_refl.
      - destruct (F4 i k Hi Hq) as [Z1 [Z2 [Z3 Z4]]].
        apply (tiled_tpmqrt_succ w k i true (S k) _ _ _ t2); auto; try lia. apply bupd_same. }
    destruct HM as [A3 [HM [F5 L5]]]. rewrite HM. cbn [bind]. eexists. split; [reflexivity|]. cbn [fst snd].
    split; [|split; [|split]]; auto.
    + eapply (step_next Or HO HU K HK p q h w k A T t0 B U (MD a1) v1 (MD t2) A3); auto.
    + exact (layouts_diag _ _ L5 D4).
  - cbn [fst snd] in *. exists A', T'. split; [exact E|]. auto.
Qed.

Theorem tiled_qr_succ (A T : grid) : q <= p -> square_diag -> tilesO A -> (forall i j, i < p -> j < q -> flat (A i j)) ->
  dense_diag A -> dense_factors T ->
  exists A' T', tiled_qr Or K p q A p q T = Ok (A', T') /\ flats w A' /\ dense_diag A' /\ dense_factors T'.
Proof.
  intros Hqp SD HA FA DA DT. pose proof (tiles_flats A HA FA) as FL. unfold tiled_qr. rewrite !Nat.eqb_refl.
  destruct (for_loop_inv q (fun k s => tiled_step Or K p q k s) (A, T)
    (fun k s => tilesO (fst s) /\ flats w (fst s) /\ dense_diag (fst s) /\ dense_factors (snd s))) as [[A' T'] [E [_ [I1 [I2 I3]]]]].
  - cbn [fst snd]. auto.
  - intros k [B U] Hk [TB [FB [DB DU]]]. cbn [fst snd] in *.
    destruct (tiled_step_succ k B U Hk Hqp SD TB FB DB DU) as [B' [U' [E [F' [D' DU']]]]].
    exists (B', U'). split; [exact E|]. cbn [fst snd].
    destruct (tiled_step_ok Or HO HU K HK p q h w k B U B' U') as [_ [ST _ _ _ _ _ _]]; auto.
    + intros _. apply SD; auto.
    + apply dense_factors_factors; auto.
  - cbn [fst snd] in *. eauto 8.
Qed.

(** ** Multiplying by Q *)

Theorem tiled_apply_succ cw (Y T C : grid) tr : q <= p -> (forall k, k < q -> h k = w k) ->
  flats w Y -> dense_diag Y -> dense_factors T -> flats cw C ->
  exists C', tiled_apply Or p q Y T C tr = Ok C' /\ flats cw C' /\ layouts C C'.
Proof.
  intros Hqp SQ FY DY DT FC. unfold tiled_apply. rewrite (proj2 (Nat.leb_le _ _) Hqp).
  assert (HL : forall k D, k < q -> flats cw D -> exists D', tiled_larfb q k tr k Y T D = Ok D' /\ flats cw D' /\ layouts D D').
  { intros k D Hk FD. assert (Hkp : k < p) by lia. destruct (DY k Hk Hkp) as [v EV]. destruct (DT k k Hkp Hk (le_n k)) as [t [ET [T1 T2]]].
    destruct (FY k k Hkp Hk) as [_ [_ [V1 V2]]]. rewrite EV in V1, V2.
    apply (tiled_larfb_succ cw k tr k Y T D v t); auto. rewrite SQ; auto. }
  assert (HP : forall k i D, k < q -> k < i -> i < p -> flats cw D -> exists D', tiled_tpmqrt Or q k i tr k Y T D = Ok D' /\ flats cw D' /\ layouts D D').
  { intros k i D Hk Hki Hi FD. destruct (DT i k Hi Hk ltac:(lia)) as [t [ET [T1 T2]]]. destruct (FY i k Hi Hk) as [Z1 [Z2 [Z3 Z4]]].
    apply (tiled_tpmqrt_succ cw k i tr k Y T D t); auto; lia. }
  destruct tr.
  - apply (for_loop_inv _ _ _ (fun _ D => flats cw D /\ layouts C D)).
    + split; auto. apply layouts_refl.
    + intros k D Hk [FD LD]. destruct (HL k D Hk FD) as [D1 [E1 [F1 L1]]]. rewrite E1. cbn [bind].
      destruct (for_loop_inv (p - S k) (fun t C => tiled_tpmqrt Or q k (S k + t) true k Y T C) D1 (fun _ D => flats cw D /\ layouts C D)) as [D2 [E2 I2]].
      * split; auto. eapply layouts_trans; eauto.
      * intros u E Hu [FE LE]. destruct (HP k (S k + u) E Hk ltac:(lia) ltac:(lia) FE) as [E' [X1 [X2 X3]]].
        exists E'. split; auto. split; auto. eapply layouts_trans; eauto.
      * exists D2. auto.
  - apply (for_loop_inv _ _ _ (fun _ D => flats cw D /\ layouts C D)).
    + split; auto. apply layouts_refl.
    + intros k' D Hk [FD LD]. set (k := q - 1 - k'). assert (Hkq : k < q) by lia.
      destruct (for_loop_inv (p - S k) (fun t C => tiled_tpmqrt Or q k (p - 1 - t) false k Y T C) D (fun _ D => flats cw D /\ layouts C D)) as [D2 [E2 [F2 L2]]].
      * split; auto.
      * intros u E Hu [FE LE]. destruct (HP k (p - 1 - u) E Hkq ltac:(lia) ltac:(lia) FE) as [E' [X1 [X2 X3]]].
        exists E'. split; auto. split; auto. eapply layouts_trans; eauto.
      * rewrite E2. cbn [bind]. destruct (HL k D2 Hkq F2) as [D3 [E3 [F3 L3]]]. exists D3. split; auto. split; auto. eapply layouts_trans; eauto.
Qed.
End Success.
