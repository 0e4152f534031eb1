(** Block Gram-Schmidt on one block column returns when no LowRank block of A has full rank. *)
From Coq Require Import List Arith ZArith QArith Qreals Lia Bool Reals Lra String Ring_theory Ring.
From Verif Require Import Prelude Ring MatFun MatSetoid Matrix MatOps MatSpec MatOpsProofs
  Lapack LowRankAdd Gemm GemmSpec GemmTheorems Triangular Reflect ReflectSpec ReflectProofs QrTiled RealQr Kernels
  EckartYoung SvdRank HouseReal TileKernels Rrqr RrqrLr RrqrDeficient RealLapack Prop_RealAdd Prop_FixedRank
  FroNorm QrErrTile QrErrStep QrErrReal TrmmErr ConstructError BlockedSuccess Sampled SampledTheorems Mgs MgsProofs MgsNested QrSuccess QrErrSucc.
Import ListNotations.
Local Open Scope R_scope.

(** The accuracy-driven compression never returns full rank. *)
Lemma lowrank_eps_below tol e (A : rdense) l : (2 <= d_c A)%nat -> (0 < d_r A)%nat -> lowrank_eps tol e A = Ok l -> (d_c (l_U l) < d_c A)%nat.
Proof.
  intros Hn Hm H. pose proof H as H0. unfold lowrank_eps in H0. apply bind_Ok in H0. destruct H0 as [[U P] [HT H0]].
  apply bind_Ok in H0. destruct H0 as [[[X S1] V] [_ E]]. inversion E; subst l. cbn [l_U].
  destruct (classic_norm tol A) as [HB|HB].
  - destruct (truncated_geqp3_ok _ _ _ _ _ HT HB) as [D1 [D2 [D3 [D4 [D5 [D6 _]]]]]].
    destruct (lowrank_eps_ok tol e A _ H HB) as [_ [_ [_ [_ [_ [_ [L _]]]]]]]. exact L.
  - destruct (truncated_geqp3_tiny tol (Q2R e) A Hm ltac:(lia) HB) as [Q' [P' [E' [F1 [F2 _]]]]].
    rewrite HT in E'. inversion E'; subst. lia.
Qed.

Section One.
Variables (setting : string) (rn : nat -> nat -> rmat) (tol : R) (e : Q) (b : nat).
Hypothesis NS : setting <> "naive"%string.
Hypothesis He : Qeq_bool e 0 = false.
Hypothesis E0 : 0 <= Q2R e.
Hypothesis Hb : (2 <= b)%nat.
Let Or := real_arith setting rn tol.
Notation grid := (grid Rring).
Variable p : nat.
Hypothesis Hp : (0 < p)%nat.

Definition low (x : matrix Rring) : Prop := exists l, x = ML l /\ lr_wf l /\ l_r l = b /\ l_c l = b /\ (d_c (l_U l) < b)%nat.
Definition sq (x : matrix Rring) : Prop := exists d, x = MD d /\ d_r d = b /\ d_c d = b.

Lemma store_ok gf (U H : dense Rring) (Zt : matrix Rring) : d_r U = b -> d_c U = d_r H -> d_c H = b ->
  sq Zt \/ (is_lr Zt /\ wf Zt /\ nrows Zt = b /\ ncols Zt = b /\ good e Zt /\ (d_c U < b)%nat) ->
  exists x, gemm Or (S gf) (MD U) (MD H) Zt (1%r : car Rring) (0%r : car Rring) false false = Ok x /\ flat x.
Proof.
  intros U1 U2 H2 [HD|HL].
  - destruct HD as [d [-> [D1 D2]]].
    destruct (dd_gemm_ok (R := Rring) U H d (1%r : car Rring) (0%r : car Rring) false false) as [x Hx]; try (cbn; congruence).
    exists (MD x). split; [|exact Logic.I]. change (gemm Or (S gf)) with (gemm_step Or (gemm Or gf) (gemm_new Or gf)).
    unfold gemm_step, opr, opc. cbn [nrows ncols]. rewrite U1, D1, U2, H2, D2, !Nat.eqb_refl. rewrite Hx. reflexivity.
  - destruct HL as [[l ->] [W [N1 [N2 [G HR]]]]]. cbn [nrows ncols] in N1, N2.
    destruct (dd_mul_ok (R := Rring) U H (1%r : car Rring) false false U2) as [ab Hab].
    destruct (dd_mul_inv (R := Rring) U H (1%r : car Rring) false false ab Hab) as [_ [A1 [A2 A3]]]. cbv iota in A1, A2, A3.
    destruct (truncated_geqp3_deficient tol (Q2R e) ab (d_c U) (d_e U) (d_e H)) as [x Hx]; try lia; auto.
    { intros r s Hr Hs. rewrite (A3 r s). unfold mop. apply Rmult_1_l. }
    destruct (lowrank_eps_total tol e ab x Hx) as [y Hy]; try lia.
    destruct (lowrank_eps_any tol e ab y Hy) as [W1 [W2 [W3 _]]].
    pose proof G as G'. simpl in G'. destruct G' as [GE _].
    destruct (lr_scale_spec (R := Rring) l (0%r : car Rring) W) as [Ws _].
    destruct (real_add_good setting rn tol e NS He E0 (lr_scale l (0%r : car Rring)) y Ws W1) as [c [Hc _]]; try (cbn [lr_scale l_r l_c]; congruence).
    { exact G. }
    exists (ML c). split; [|exact Logic.I]. change (gemm Or (S gf)) with (gemm_step Or (gemm Or gf) (gemm_new Or gf)).
    unfold gemm_step, opr, opc. cbn [nrows ncols]. rewrite U1, N1, U2, H2, N2, !Nat.eqb_refl. rewrite Hab. cbn [bind].
    unfold compress_like, use_eps. rewrite GE, He. cbn [negb].
    change (ceps Or ab e) with (lowrank_eps tol e ab). rewrite Hy. cbn [bind]. unfold acc_lr, lr_acc. cbn [lr_scale l_r l_c].
    rewrite N1, N2, W2, W3, A1, A2, U1, H2, !Nat.eqb_refl. fold (lr_scale l (0%r : car Rring)). fold Or in Hc. rewrite Hc. reflexivity.
Qed.

(** A block column with a Dense block on top. *)
Lemma ortho_one gf (A Z : grid) : sq (A 0%nat 0%nat) -> sq (Z 0%nat 0%nat) ->
  (forall i, (0 < i < p)%nat -> low (A i 0%nat)) ->
  (forall i, (0 < i < p)%nat -> is_lr (Z i 0%nat) /\ wf (Z i 0%nat) /\ nrows (Z i 0%nat) = b /\ ncols (Z i 0%nat) = b /\ good e (Z i 0%nat)) ->
  exists Q' Rb, ortho_dense real_lapack Or (S gf) p 0 A Z = Ok (Q', Rb) /\ forall i, (i < p)%nat -> flat (Q' i 0%nat).
Proof.
  intros A0 Z0 LA LZ.
  set (z := d_zeros (R := Rring) 0 0).
  assert (ML : forall i, (i < p)%nat -> exists x, make_left_orthogonal (A i 0%nat) = Ok x /\
    d_r (fst x) = b /\ d_c (fst x) = d_r (snd x) /\ d_c (snd x) = b /\ (d_r (snd x) = b /\ i = 0%nat \/ (0 < i)%nat /\ (d_r (snd x) < b)%nat)).
  { intros i Hi. destruct (Nat.eq_dec i 0) as [->|N].
    - destruct A0 as [d [-> [D1 D2]]]. eexists. split; [reflexivity|]. cbn [fst snd eye d_r d_c]. auto 10.
    - destruct (LA i ltac:(lia)) as [l [-> [[W1 [W2 [W3 W4]]] [L1 [L2 L3]]]]].
      cbn [make_left_orthogonal]. destruct (dd_mul_ok (R := Rring) (l_S l) (l_V l) (1%r : car Rring) false false W3) as [sv Hsv].
      destruct (dd_mul_inv (R := Rring) _ _ _ _ _ _ Hsv) as [_ [S1 [S2 _]]]. cbv iota in S1, S2. rewrite Hsv. eexists. split; [reflexivity|]. cbn [fst snd].
      split; [congruence|]. split; [congruence|]. split; [congruence|]. right. split; lia. }
  destruct (collectv_all (z, z) p (fun i => make_left_orthogonal (A i 0%nat))) as [qb Hqb]. { intros i Hi. destruct (ML i Hi) as [x [Ex _]]. eauto. }
  assert (QB : forall i, (i < p)%nat -> d_r (fst (qb i)) = b /\ d_c (fst (qb i)) = d_r (snd (qb i)) /\ d_c (snd (qb i)) = b /\
    (d_r (snd (qb i)) = b /\ i = 0%nat \/ (0 < i)%nat /\ (d_r (snd (qb i)) < b)%nat)).
  { intros i Hi. destruct (ML i Hi) as [x [Ex Px]]. pose proof (collectv_spec _ _ _ _ Hqb i Hi) as E. cbv beta in E. rewrite Ex in E. inversion E; subst x. exact Px. }
  set (B := fun i => snd (qb i)). set (hs := fun k => d_r (B k)).
  assert (WB : wf (MH p 1 (fun i _ => MD (B i)))).
  { cbn [wf]. split; [exact Hp|]. split; [lia|]. intros i j Hi Hj. split; [exact Logic.I|]. unfold bheight, bwidth. cbn [nrows ncols].
    split; [reflexivity|]. unfold B. destruct (QB i Hi) as [_ [_ [-> _]]]. destruct (QB 0%nat Hp) as [_ [_ [-> _]]]. reflexivity. }
  destruct (densify_spec (R := Rring) _ WB) as [DB [HDB [N1 [N2 _]]]]. cbn [nrows ncols] in N1, N2.
  assert (N1' : d_r DB = offs hs p). { rewrite N1. apply offs_ext. intros i Hi. reflexivity. }
  assert (N2' : d_c DB = b). { rewrite N2. cbn [offs]. unfold bwidth. cbn [ncols]. unfold B. destruct (QB 0%nat Hp) as [_ [_ [-> _]]]. reflexivity. }
  assert (M : forall i, (i < p)%nat -> (offs hs i + hs i <= offs hs p)%nat).
  { intros i Hi. change (offs hs (S i) <= offs hs p)%nat. apply offs_mono. lia. }
  destruct (real_qr_ok DB) as [Qb [Rb [EQ [IQ _]]]].
  assert (TQ : thin_qr real_lapack DB = Ok (Qb, Rb)).
  { unfold thin_qr. destruct (Nat.ltb_spec (d_r DB) (d_c DB)) as [LT|_]; [|exact EQ]. exfalso. specialize (M 0%nat Hp). cbn [offs] in M.
    destruct (QB 0%nat Hp) as [_ [_ [_ [[X _]|[X _]]]]]; [|lia]. fold (B 0%nat) (hs 0%nat) in X. lia. }
  assert (DQ : d_r Qb = offs hs p /\ d_c Qb = b).
  { destruct IQ as [I1 [I2 _]]. rewrite I1, I2, N1', N2'. split; auto. specialize (M 0%nat Hp). cbn [offs] in M.
    destruct (QB 0%nat Hp) as [_ [_ [_ [[X _]|[X _]]]]]; [|lia]. fold (B 0%nat) (hs 0%nat) in X. lia. }
  assert (CP : forall i, (i < p)%nat -> exists x, d_copy_to Qb (d_zeros (R := Rring) (d_r (B i)) (d_c (B i))) (offs hs i) 0 = Ok x /\ d_r x = d_r (B i) /\ d_c x = d_c (B i)).
  { intros i Hi. destruct (d_copy_to_spec (R := Rring) Qb (d_zeros (R := Rring) (d_r (B i)) (d_c (B i))) (offs hs i) 0) as [x [Ex [X1 [X2 _]]]]; eauto.
    - cbn [d_zeros d_r]. specialize (M i Hi). destruct DQ as [-> _]. change (d_r (B i)) with (hs i). lia.
    - cbn [d_zeros d_c]. unfold B. destruct (QB i Hi) as [_ [_ [-> _]]]. destruct DQ as [_ ->]. lia. }
  destruct (collectv_all z p (fun i => d_copy_to Qb (d_zeros (R := Rring) (d_r (B i)) (d_c (B i))) (offs hs i) 0)) as [HQ HHQ].
  { intros i Hi. destruct (CP i Hi) as [x [Ex _]]. eauto. }
  assert (HQD : forall i, (i < p)%nat -> d_r (HQ i) = d_r (B i) /\ d_c (HQ i) = d_c (B i)).
  { intros i Hi. destruct (CP i Hi) as [x [Ex Px]]. pose proof (collectv_spec _ _ _ _ HHQ i Hi) as E. cbv beta in E. rewrite Ex in E. inversion E; subst x. exact Px. }
  destruct (for_loop_inv p (fun i Qg => let* x := gemm Or (S gf) (MD (fst (qb i))) (MD (HQ i)) (Qg i 0%nat) (1%r : car Rring) (0%r : car Rring) false false in
    Ok (bupd Qg i 0 x)) Z (fun t Qg => (forall i, (i < t)%nat -> flat (Qg i 0%nat)) /\ forall i, (t <= i)%nat -> Qg i 0%nat = Z i 0%nat)) as [Q' [HL [F _]]].
  - split; [intros; lia|reflexivity].
  - intros i Qg Hi [F1 F2]. destruct (QB i Hi) as [Q1 [Q2 [Q3 Q4]]]. destruct (HQD i Hi) as [H1 H2].
    destruct (store_ok gf (fst (qb i)) (HQ i) (Qg i 0%nat)) as [x [Ex Fx]]; auto.
    { unfold B in H1. congruence. } { unfold B in H2. congruence. }
    { rewrite F2 by lia. destruct Q4 as [[_ ->]|[G1 G2]]; [left; exact Z0|]. right. destruct (LZ i ltac:(lia)) as [L1 [L2 [L3 [L4 L5]]]].
      do 5 (split; [assumption|]). lia. }
    rewrite Ex. cbn [bind]. eexists. split; [reflexivity|]. unfold bupd. split.
    + intros k Hk. rewrite Nat.eqb_refl, andb_true_r. destruct (Nat.eqb_spec k i); [exact Fx|apply F1; lia].
    + intros k Hk. rewrite Nat.eqb_refl, andb_true_r. destruct (Nat.eqb_spec k i); [lia|apply F2; lia].
  - exists Q', Rb. split; [|exact F]. unfold ortho_dense. fold z. rewrite Hqb. cbn [bind]. unfold hs, B in HDB, HHQ. rewrite HDB. cbn [bind]. rewrite TQ. cbn [bind].
    rewrite HHQ. cbn [bind]. rewrite HL. reflexivity.
Qed.

Theorem mgs_one gf f (A Z R0 : grid) : sq (A 0%nat 0%nat) -> sq (Z 0%nat 0%nat) -> sq (R0 0%nat 0%nat) ->
  (forall i, (0 < i < p)%nat -> low (A i 0%nat)) ->
  (forall i, (0 < i < p)%nat -> is_lr (Z i 0%nat) /\ wf (Z i 0%nat) /\ nrows (Z i 0%nat) = b /\ ncols (Z i 0%nat) = b /\ good e (Z i 0%nat)) ->
  exists A' Q' R', mgs_qr real_lapack Or (S gf) (S f) (MH p 1 A) (MH p 1 Z) (MH 1 1 R0) = Ok (A', Q', R').
Proof.
  intros SA SZ [d [ER [D1 D2]]] LA LZ. destruct (ortho_one gf A Z SA SZ LA LZ) as [Q' [Rb [HO F]]].
  destruct (collectv_all (ME 0 0) p (fun i => transpose (Q' i 0%nat))) as [QT HQT].
  { intros i Hi. specialize (F i Hi). destruct (Q' i 0%nat); try destruct F; cbn; eauto. }
  cbn [mgs_qr]. rewrite !Nat.eqb_refl. cbn [for_loop bind mgs_step Nat.sub]. unfold mgs_step. rewrite ER, HO. cbn [bind]. rewrite HQT. cbn. eauto.
Qed.
End One.
