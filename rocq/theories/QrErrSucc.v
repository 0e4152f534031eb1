(** The tiled factorization of a matrix whose tiles below the diagonal are LowRank, with
    truncating low-rank arithmetic, always returns. *)
From Coq Require Import List Arith ZArith QArith Lia Bool Reals Lra Ring_theory Ring.
From Verif Require Import Prelude Ring MatFun MatSetoid Matrix MatOps MatSpec MatOpsProofs Lapack Gemm GemmSpec GemmProofs
  GemmCorrect GemmTheorems Triangular TriAlgebra TriSpec TriProofs TriTheorems Reflect ReflectSpec ReflectProofs ReflectTile ReflectSuccess
  QrBig QrTiled QrStep QrApply QrTheorems QrSuccess RealQr SvdRank Householder HouseQr HouseReal Rrqr RrqrRank EckartYoung FroNorm QrErrTile QrErrStep QrErrApply.
Import ListNotations.
Local Open Scope R_scope.

Section Succ.
Notation matrix := (matrix Rring).
Notation lowrank := (lowrank Rring).
Notation dense := (dense Rring).
Notation grid := (grid Rring).
Variables (e : Q) (u tau : R) (nb : nat).
Hypothesis He : Qeq_bool e 0 = false.
Hypothesis Hu : 0 <= u <= 1.
Hypothesis Htau : 0 <= tau.
Variable Or : oracles Rring.
Hypothesis HA : accurate e u tau nb Or.
Hypothesis HT : forall a b : lowrank, lr_wf a -> lr_wf b -> l_r a = l_r b -> l_c a = l_c b -> good e (ML a) -> exists c, lr_add Or a b = Ok c.

Definition is_lr (A : matrix) : Prop := exists l, A = ML l.

Lemma gemm_good_ok (A B C : matrix) al tA tB : flat A -> flat B -> good e C -> wf A -> wf B -> wf C ->
  is_lr A \/ is_lr B \/ is_dense C ->
  opr tA A = nrows C -> opc tA A = opr tB B -> opc tB B = ncols C ->
  exists C', gemm Or 1 A B C al (1%r : car Rring) tA tB = Ok C'.
Proof.
  intros FA FB GC WA WB WC HC E1 E2 E3. destruct C as [c|c|? ? ?|? ?]; try destruct GC.
  - rewrite (gemm_into_dense Or) by auto. apply (gemm_flat_ok left_oracles left_oracles_shape left_oracles_total); auto.
  - destruct (gemm_factor A B c al (1%r : car Rring) tA tB) as [x [WX [X1 [X2 [_ EG]]]]]; auto.
    { intros BD. destruct HC as [[l ->]|[[l ->]|[d HC]]]; [destruct B| destruct A|discriminate]; destruct BD. }
    rewrite EG. unfold acc_lr, lr_acc. change (l_r (lr_scale c (1%r : car Rring))) with (l_r c). change (l_c (lr_scale c (1%r : car Rring))) with (l_c c).
    rewrite (proj2 (Nat.eqb_eq _ _) (eq_sym X1)), (proj2 (Nat.eqb_eq _ _) (eq_sym X2)).
    destruct (lr_scale_spec (R := Rring) c (1%r : car Rring) WC) as [Ws _].
    destruct (HT (lr_scale c (1%r : car Rring)) x) as [d Hd]; auto; try (cbn [lr_scale l_r l_c]; congruence).
    { apply good_scale1. simpl. tauto. }
    rewrite Hd. cbn [bind]. eauto.
Qed.

Lemma finish_good_ok (v : lowrank) (A B C : matrix) (t : dense) tr : let V := ML v in
  wf V -> wf A -> wf B -> wf C -> good e A -> good e B -> flat C -> same_layout A C ->
  nrows V = nrows B -> d_r t = ncols V -> d_c t = ncols V -> nrows A = ncols V -> ncols A = ncols B ->
  exists x, tpm_finish Or V (MD t) A B C tr = Ok x.
Proof.
  intros V WV WA WB WC GA GB FC LC E1 E2 E3 E4 E5. unfold tpm_finish.
  destruct (layout_dims (R := Rring) _ _ WA WC LC) as [C1 C2].
  rewrite (trmm_flat Or) by auto.
  destruct (trmm_flat_ok left_oracles t C Upper tr false (1%r : car Rring) FC WC) as [X HX]; try congruence. rewrite HX. cbn [bind].
  apply (trmm_exact left_oracles 1 left_oracles_near) in HX; auto; [|apply andb_false_r|exact I|simpl; congruence|simpl; congruence].
  destruct HX as [WX [LX _]]. destruct (layout_dims_flat _ _ FC LX) as [X1 X2]. assert (FX := flat_layout _ _ LX FC).
  destruct (gemm_good_ok (MD (eye (nrows X))) X A (- (1))%r false false) as [A' HA']; auto; try exact I; try (unfold opr, opc; cbn; congruence).
  { right. destruct A as [a|a|? ? ?|? ?]; try destruct GA; [right; eexists; reflexivity|].
    destruct C as [?|c|? ? ?|? ?]; try destruct LC. destruct X as [?|x|? ? ?|? ?]; try destruct LX. left. eexists. reflexivity. }
  rewrite HA'. cbn [bind].
  destruct (gemm_good_ok V X B (- (1))%r false false) as [B' HB']; auto; try exact I; try (unfold opr, opc; cbn [nrows ncols]; congruence).
  { left. eexists. reflexivity. }
  rewrite HB'. cbn [bind]. eauto.
Qed.

Lemma tpmqrt_good_ok (v : lowrank) (A B : matrix) (t : dense) tr : let V := ML v in
  wf V -> wf A -> wf B -> good e A -> good e B -> (nrows A <= nb)%nat -> (ncols A <= nb)%nat ->
  nrows V = nrows B -> d_r t = ncols V -> d_c t = ncols V -> nrows A = ncols V -> ncols A = ncols B ->
  exists x, tpmqrt Or V (MD t) A B tr = Ok x.
Proof.
  intros V WV WA WB GA GB N1 N2 E1 E2 E3 E4 E5. assert (FA := good_flat _ _ GA). assert (FB := good_flat _ _ GB).
  assert (Via : exists x,
    (let* Vt := transpose V in
     let* C := gemm Or 1 Vt B A (1%r : car Rring) (1%r : car Rring) false false in
     tpm_finish Or V (MD t) A B C tr) = Ok x).
  { destruct (transpose_spec (R := Rring) V WV I) as [Vt [HV [W1 [_ [D1 [D2 _]]]]]]. rewrite HV. cbn [bind].
    assert (LV : is_lr Vt) by (simpl in HV; inversion HV; eexists; reflexivity).
    assert (FV : flat Vt) by (destruct LV as [l ->]; exact I).
    destruct (gemm_good_ok Vt B A (1%r : car Rring) false false) as [C HC]; auto; try (unfold opr, opc; congruence).
    rewrite HC. cbn [bind]. apply (gemm_err e u tau nb He Hu Htau Or HA) in HC; auto. destruct HC as [WC [LC [GC _]]].
    apply finish_good_ok; auto. exact (good_flat _ _ GC). }
  destruct A as [a|a|? ? ?|? ?]; try destruct FA; destruct B as [b|b|? ? ?|? ?]; try destruct FB; exact Via.
Qed.

Variables p q : nat.
Variables h w cw : nat -> nat.
Hypothesis Hh : forall i, (i < p)%nat -> (h i <= nb)%nat.
Hypothesis Hw : forall j, (j < q)%nat -> (w j <= nb)%nat.
Hypothesis Hcw : forall j, (j < q)%nat -> (cw j <= nb)%nat.
Notation gtiles := (gtiles e p q h).
Notation nu := (nu nb).
Notation layouts := (layouts p q).
Notation dense_diag := (dense_diag p q).
Notation dense_factors := (dense_factors p q w).

(** LowRank tiles below the diagonal. *)
Definition lower_lr (A : grid) : Prop := forall i j, (i < p)%nat -> (j < q)%nat -> (j < i)%nat -> is_lr (A i j).
Lemma layouts_lower A B : layouts A B -> lower_lr A -> lower_lr B.
Proof.
  intros L H i j Hi Hj Hij. destruct (H i j Hi Hj Hij) as [l E]. specialize (L i j Hi Hj). rewrite E in L.
  destruct (B i j) as [?|b|? ? ?|? ?]; try destruct L. eexists. reflexivity.
Qed.
Lemma gtiles_flats c C : gtiles c C -> flats p q h c C.
Proof. intros H i j Hi Hj. destruct (H i j Hi Hj) as [H1 [H2 [H3 H4]]]. split; auto. split; auto. exact (good_flat _ _ H4). Qed.

Lemma gtiles_upd c C i j x : gtiles c C -> (i < p)%nat -> (j < q)%nat -> wf x -> good e x -> same_layout (C i j) x ->
  gtiles c (bupd C i j x) /\ layouts C (bupd C i j x).
Proof.
  intros H Hi Hj WX GX L. destruct (flats_upd p q h c C i j x Hi Hj (gtiles_flats c C H) WX L) as [F1 F2]. split; auto.
  intros a b Ha Hb. destruct (F1 a b Ha Hb) as [W [_ [D1 D2]]]. split; auto. split; auto. split; auto.
  destruct (Nat.eq_dec a i) as [->|Na]; [destruct (Nat.eq_dec b j) as [->|Nb]|].
  - rewrite (bupd_same (R := Rring)). exact GX.
  - rewrite (bupd_other (R := Rring)) by auto. apply H; auto.
  - rewrite (bupd_other (R := Rring)) by auto. apply H; auto.
Qed.

Lemma tiled_tpmqrt_good_ok k i tr from (Y T C : grid) t : (k < p)%nat -> (i < p)%nat -> k <> i -> gtiles cw C -> (k < q)%nat ->
  wf (Y i k) -> is_lr (Y i k) -> nrows (Y i k) = h i -> ncols (Y i k) = w k -> T i k = MD t -> d_r t = w k -> d_c t = w k ->
  h k = w k ->
  orthogonal (R := Rring) (w k + h i) (pair_refl (R := Rring) (w k) (ent (Y i k)) (d_e t)) ->
  fro (h i) (w k) (ent (Y i k)) <= nu ->
  exists C', tiled_tpmqrt Or q k i tr from Y T C = Ok C' /\ gtiles cw C' /\ layouts C C'.
Proof.
  intros Hk Hi Hki HC Hkq WY [v LY] Y1 Y2 ET T1 T2 EK HQ HV. unfold tiled_tpmqrt. rewrite LY in *. rewrite ET.
  apply (for_loop_inv _ _ _ (fun _ D => gtiles cw D /\ layouts C D)).
  - split; auto. apply layouts_refl.
  - intros s D Hs [GD LD]. set (j := (from + s)%nat) in *. assert (Hj : (j < q)%nat) by lia.
    destruct (GD k j Hk Hj) as [WK [K1 [K2 K3]]]. destruct (GD i j Hi Hj) as [WI [I1 [I2 I3]]].
    destruct (tpmqrt_good_ok v (D k j) (D i j) t tr) as [[x y] Hx]; auto; try congruence; try (rewrite ?K1, ?K2; auto; fail).
    rewrite Hx. cbn [bind].
    apply (tpmqrt_err e u tau nb He Hu Htau Or HA nu) in Hx; auto; try (cbn [nrows ncols ent]; congruence); try apply nu_nonneg.
    2: congruence. 2: rewrite Y2; exact T1. 2: rewrite Y2; exact T2.
    2: rewrite Y2; auto. 2: rewrite I1; auto. 2: rewrite I2; auto. 2: rewrite Y2, I1; exact HQ. 2: rewrite Y2, I1; exact HV.
    cbv zeta in Hx. destruct Hx as [_ [WX [WZ [LX [LZ [GX [GZ _]]]]]]].
    destruct (gtiles_upd cw D k j x GD Hk Hj WX GX LX) as [G1 L1].
    destruct (gtiles_upd cw (bupd D k j x) i j y G1 Hi Hj WZ GZ) as [G2 L2].
    { rewrite (bupd_other (R := Rring)) by auto. exact LZ. }
    eexists. split; [reflexivity|]. split; auto. eapply layouts_trans; [exact LD|]. eapply layouts_trans; eauto.
Qed.
End Succ.

Section Factor.
Notation matrix := (matrix Rring).
Notation lowrank := (lowrank Rring).
Notation dense := (dense Rring).
Notation grid := (grid Rring).
Variables (e : Q) (u tau : R) (nb : nat).
Hypothesis He : Qeq_bool e 0 = false.
Hypothesis Hu : 0 <= u <= 1.
Hypothesis Htau : 0 <= tau.
Variable Or : oracles Rring.
Hypothesis HA : accurate e u tau nb Or.
Hypothesis HT : forall a b : lowrank, lr_wf a -> lr_wf b -> l_r a = l_r b -> l_c a = l_c b -> good e (ML a) -> exists c, lr_add Or a b = Ok c.
Variable K : qrt Rring.
Hypothesis HK : qrt_ok K.
Hypothesis HKT : qrt_total K.
Hypothesis HS : small_vectors K.
Variables p q : nat.
Variables h w : nat -> nat.
Hypothesis Hh : forall i, (i < p)%nat -> (h i <= nb)%nat.
Hypothesis Hw : forall j, (j < q)%nat -> (w j <= nb)%nat.
Notation gtiles := (gtiles e p q h).
Notation nu := (nu nb).
Notation layouts := (layouts p q).
Notation dense_diag := (dense_diag p q).
Notation dense_factors := (dense_factors p q w).
Notation lower_lr := (lower_lr p q).

Lemma weak_step k (A T : grid) : (k < q)%nat -> (q <= p)%nat -> square_diag q h w -> gtiles w A -> dense_diag A -> lower_lr A -> dense_factors T ->
  exists A' T', tiled_step Or K p q k (A, T) = Ok (A', T') /\ gtiles w A' /\ layouts A A' /\ dense_factors T'.
Proof.
  intros Hq Hqp SD GA DA LA DT. assert (Hk : (k < p)%nat) by lia. destruct (SD k Hq) as [LK EK].
  pose proof (dense_factors_factors p q w T DT) as FT.
  set (x := fun j => fro (offs h p) (w j) (column (R := Rring) p h A j)).
  unfold tiled_step. rewrite (proj2 (Nat.ltb_lt _ _) Hk). cbn [fst snd].
  destruct (DA k Hq Hk) as [a EA]. destruct (DT k k Hk Hq (le_n k)) as [t [ET [T1 T2]]].
  destruct (GA k k Hk Hq) as [_ [A1 [A2 _]]]. rewrite EA in A1, A2. cbn [nrows ncols] in A1, A2.
  assert (HG : exists x y, geqrt K (A k k) (T k k) = Ok (MD x, MD y) /\ is_geqrt a x y).
  { rewrite EA, ET. apply geqrt_succ; auto; congruence || lia. }
  destruct HG as [y [z [HG IG]]]. rewrite HG. cbn [bind].
  destruct IG as [X1 [X2 [Y1 [Y2 _]]]]. rewrite A2 in Y1, Y2.
  assert (LX : same_layout (A k k) (MD y)) by (rewrite EA; split; assumption).
  destruct (gtiles_upd e p q h w A k k (MD y) GA Hk Hq I I LX) as [F1 L1].
  pose proof (layouts_diag p q _ _ L1 DA) as D1. pose proof (bupd_factors p q w T k k z DT Y1 Y2) as DT1.
  destruct (tiled_larfb_succ p q h w w k true (S k) (bupd A k k (MD y)) (bupd T k k (MD z)) (bupd A k k (MD y)) y z) as [A2' [HL [_ L2]]]; auto;
    try (apply bupd_same); try congruence; [apply (gtiles_flats e); auto|].
  rewrite HL. cbn [bind].
  assert (B0 : err_inv e u tau nb p q h w 0 x k A T 0 (A2', bupd T k k (MD z))).
  { apply (err_base e u tau nb p q h w K HK 0 x k A T (MD y) (MD z)); auto. }
  pose proof (layouts_trans p q _ _ _ L1 L2) as L12.
  destruct (for_loop_inv (p - S k) (fun t0 s =>
    let i := (S k + t0)%nat in
    let* (x, v, y) := tpqrt K (fst s k k) (fst s i k) (snd s i k) in
    let A := bupd (bupd (fst s) k k x) i k v in
    let T := bupd (snd s) i k y in
    let* A := tiled_tpmqrt Or q k i true (S k) A T A in
    Ok (A, T)) (A2', bupd T k k (MD z))
    (fun t0 s => err_inv e u tau nb p q h w 0 x k A T t0 s /\ layouts A (fst s) /\ dense_factors (snd s))) as [[A' T'] [E [I0 [I1 I2]]]].
  - cbn [fst snd]. auto.
  - intros t0 [B U] Ht [SI [LB DU]]. cbn [fst snd] in *. cbv zeta. set (i := (S k + t0)%nat) in *. assert (Hi : (i < p)%nat) by lia.
    pose proof (ei_tiles _ _ _ _ _ _ _ _ _ _ _ _ _ _ _ SI) as GB. cbn [fst] in GB.
    pose proof (layouts_diag p q _ _ LB DA) as DB. pose proof (layouts_lower p q _ _ LB LA) as WB.
    destruct (DB k Hq Hk) as [b EB]. destruct (DU i k Hi Hq ltac:(lia)) as [uu [EU [U1 U2]]].
    destruct (GB k k Hk Hq) as [_ [N1 [N2 _]]]. rewrite EB in N1, N2. cbn [nrows ncols] in N1, N2.
    destruct (GB i k Hi Hq) as [WI [M1 [M2 GI]]].
    destruct (tpqrt_succ K HKT b uu (B i k) WI (good_flat _ _ GI)) as [[[x1 v1] y1] HP]; try congruence; try lia.
    assert (HP' : tpqrt K (B k k) (B i k) (U i k) = Ok (x1, v1, y1)) by (rewrite EB, EU; exact HP).
    rewrite HP'. cbn [bind].
    destruct (tpqrt_small e K HS _ _ _ _ _ _ HP WI GI) as [GV SV].
    destruct (tpqrt_ok K HK _ _ _ _ _ _ HP WI (good_orthU _ _ GI)) as [a0 [a1 [t1 [t2 [Ea0 [Ea1 [Et1 [Et2 [_ [_ [R1 [R2 [R3 [R4 [_ [_ [WV [LV [_ [RO _]]]]]]]]]]]]]]]]]]]];
      [cbn [nrows]; congruence|cbn [ncols]; congruence|].
    injection Ea0 as <-. subst x1 y1.
    assert (LX1 : same_layout (B k k) (MD a1)) by (rewrite EB; split; assumption).
    destruct (gtiles_upd e p q h w B k k (MD a1) GB Hk Hq I I LX1) as [F3 L3].
    assert (LV' : same_layout (bupd B k k (MD a1) i k) v1) by (rewrite (bupd_other (R := Rring)) by (left; lia); exact LV).
    destruct (gtiles_upd e p q h w (bupd B k k (MD a1)) i k v1 F3 Hi Hq WV GV LV') as [F4 L4].
    pose proof (layouts_trans p q _ _ _ LB (layouts_trans p q _ _ _ L3 L4)) as L5.
    rewrite M2 in R3, R4. pose proof (bupd_factors p q w U i k t2 DU R3 R4) as DU4. rewrite M1, M2 in RO.
    assert (HM : exists A3, tiled_tpmqrt Or q k i true (S k) (bupd (bupd B k k (MD a1)) i k v1) (bupd U i k (MD t2)) (bupd (bupd B k k (MD a1)) i k v1) = Ok A3 /\
      layouts (bupd (bupd B k k (MD a1)) i k v1) A3).
    { destruct (le_lt_dec q (S k)) as [Hlast|Hlast].
      - unfold tiled_tpmqrt. replace (q - S k)%nat with 0%nat by lia. simpl. eexists. split; [reflexivity|]. apply layouts_refl.
      - destruct (layout_dims (R := Rring) _ _ WI WV LV) as [V1 V2].
        destruct (tiled_tpmqrt_good_ok e u tau nb He Hu Htau Or HA HT p q h w w Hh Hw Hw k i true (S k)
          (bupd (bupd B k k (MD a1)) i k v1) (bupd U i k (MD t2)) (bupd (bupd B k k (MD a1)) i k v1) t2) as [A3 [E3 [_ E4]]]; auto; try lia;
          rewrite ?(bupd_same (R := Rring)); auto; try congruence.
        + pose proof (layouts_lower p q _ _ L5 LA i k Hi Hq ltac:(lia)) as P. rewrite (bupd_same (R := Rring)) in P. exact P.
        + rewrite M1, M2 in SV. eapply Rle_trans; [exact SV|]. apply sqrt_le_1_alt. apply le_INR. auto.
        + exists A3. auto. }
    destruct HM as [A3 [HM L6]]. rewrite HM. cbn [bind]. eexists. split; [reflexivity|]. cbn [fst snd].
    split; [|split]; auto.
    + eapply (err_next e u tau nb He Hu Htau Or HA p q h w Hh Hw K HK HS 0 x k A T t0 B U (MD a1) v1 (MD t2) A3); auto.
      intros j Lj Hj. split; [apply fro_nonneg|]. rewrite acc_0. unfold x. lra.
    + eapply layouts_trans; eauto.
  - cbn [fst snd] in *. exists A', T'. split; [exact E|]. split; [|auto]. exact (ei_tiles _ _ _ _ _ _ _ _ _ _ _ _ _ _ _ I0).
Qed.

Theorem weak_qr_succ (A T : grid) : (q <= p)%nat -> square_diag q h w -> gtiles w A -> dense_diag A -> lower_lr A -> dense_factors T ->
  exists A' T', tiled_qr Or K p q A p q T = Ok (A', T') /\ gtiles w A' /\ layouts A A' /\ dense_factors T'.
Proof.
  intros Hqp SD GA DA LA DT. unfold tiled_qr. rewrite !Nat.eqb_refl.
  destruct (for_loop_inv q (fun k s => tiled_step Or K p q k s) (A, T)
    (fun k s => gtiles w (fst s) /\ layouts A (fst s) /\ dense_factors (snd s))) as [[A' T'] [E [I1 [I2 I3]]]].
  - cbn [fst snd]. split; auto. split; auto. apply layouts_refl.
  - intros k [B U] Hk [GB [LB DU]]. cbn [fst snd] in *.
    destruct (weak_step k B U Hk Hqp SD GB (layouts_diag p q _ _ LB DA) (layouts_lower p q _ _ LB LA) DU) as [B' [U' [E [F' [D' DU']]]]].
    exists (B', U'). split; [exact E|]. cbn [fst snd]. split; auto. split; auto. eapply layouts_trans; eauto.
  - cbn [fst snd] in *. eauto 8.
Qed.

(** Multiplying by the factor. *)
Theorem weak_apply_succ cw (Y T C : grid) tr : (q <= p)%nat -> (forall j, (j < q)%nat -> (cw j <= nb)%nat) ->
  (forall k, (k < q)%nat -> h k = w k) -> gtiles w Y -> dense_diag Y -> lower_lr Y -> dense_factors T ->
  (forall k, (k < q)%nat -> orthogonal_tiles (R := Rring) h w Y T k (p - S k)) ->
  (forall i k, (k < q)%nat -> (k < i)%nat -> (i < p)%nat -> fro (h i) (w k) (ent (Y i k)) <= nu) ->
  gtiles cw C -> exists C', tiled_apply Or p q Y T C tr = Ok C' /\ gtiles cw C' /\ layouts C C'.
Proof.
  intros Hqp Hcw SQ GY DY LY DT OT SM GC. unfold tiled_apply. rewrite (proj2 (Nat.leb_le _ _) Hqp).
  assert (HL : forall k D, (k < q)%nat -> gtiles cw D -> exists D', tiled_larfb q k tr k Y T D = Ok D' /\ gtiles cw D' /\ layouts D D').
  { intros k D Hk FD. assert (Hkp : (k < p)%nat) by lia. destruct (DY k Hk Hkp) as [v EV]. destruct (DT k k Hkp Hk (le_n k)) as [t [ET [T1 T2]]].
    destruct (GY k k Hkp Hk) as [_ [V1 [V2 _]]]. pose proof V1 as V1'. pose proof V2 as V2'. rewrite EV in V1', V2'.
    destruct (tiled_larfb_succ p q h w cw k tr k Y T D v t) as [D' [E [_ L]]]; auto; [rewrite SQ; auto|apply (gtiles_flats e); auto|].
    exists D'. split; auto. split; auto. apply (tiled_larfb_good e p q h w cw k tr k Y T D D'); auto; [rewrite ET; exact T2|apply OT; auto]. }
  assert (HP : forall k i D, (k < q)%nat -> (k < i)%nat -> (i < p)%nat -> gtiles cw D ->
    exists D', tiled_tpmqrt Or q k i tr k Y T D = Ok D' /\ gtiles cw D' /\ layouts D D').
  { intros k i D Hk Hki Hi FD. destruct (DT i k Hi Hk ltac:(lia)) as [t [ET [T1 T2]]]. destruct (GY i k Hi Hk) as [Z1 [Z2 [Z3 Z4]]].
    destruct (OT k Hk) as [_ O2]. pose proof (O2 i Hki ltac:(lia)) as O3. rewrite ET in O3.
    apply (tiled_tpmqrt_good_ok e u tau nb He Hu Htau Or HA HT p q h w cw Hh Hw Hcw k i tr k Y T D t); auto; lia. }
  destruct tr.
  - apply (for_loop_inv _ _ _ (fun _ D => gtiles cw D /\ layouts C D)).
    + split; auto. apply layouts_refl.
    + intros k D Hk [FD LD]. destruct (HL k D Hk FD) as [D1 [E1 [F1 L1]]]. rewrite E1. cbn [bind].
      destruct (for_loop_inv (p - S k) (fun t C => tiled_tpmqrt Or q k (S k + t) true k Y T C) D1 (fun _ D => gtiles cw D /\ layouts C D)) as [D2 [E2 I2]].
      * split; auto. eapply layouts_trans; eauto.
      * intros s E Hs [FE LE]. destruct (HP k (S k + s)%nat E Hk ltac:(lia) ltac:(lia) FE) as [E' [X1 [X2 X3]]].
        exists E'. split; auto. split; auto. eapply layouts_trans; eauto.
      * exists D2. auto.
  - apply (for_loop_inv _ _ _ (fun _ D => gtiles cw D /\ layouts C D)).
    + split; auto. apply layouts_refl.
    + intros k' D Hk [FD LD]. set (k := (q - 1 - k')%nat). assert (Hkq : (k < q)%nat) by lia.
      destruct (for_loop_inv (p - S k) (fun t C => tiled_tpmqrt Or q k (p - 1 - t) false k Y T C) D (fun _ D => gtiles cw D /\ layouts C D)) as [D2 [E2 [F2 L2]]].
      * split; auto.
      * intros s E Hs [FE LE]. destruct (HP k (p - 1 - s)%nat E Hkq ltac:(lia) ltac:(lia) FE) as [E' [X1 [X2 X3]]].
        exists E'. split; auto. split; auto. eapply layouts_trans; eauto.
      * rewrite E2. cbn [bind]. destruct (HL k D2 Hkq F2) as [D3 [E3 [F3 L3]]]. exists D3. split; auto. split; auto. eapply layouts_trans; eauto.
Qed.
End Factor.
