(** The building blocks of gemm over shared storage follow those on values. *)
From Coq Require Import List Arith ZArith QArith Lia Bool Ring_theory Ring.
From Verif Require Import Prelude Osim IndexRange Ring MatFun Matrix MatOps MatOpsProofs Gemm Heap HeapProofs HeapViews MgsHeap MgsHeapProofs.
From Verif Require Import Tree TreeProofs TreeScale TreeSim HGemm.
Import ListNotations.
Local Open Scope nat_scope.

Lemma osim_same {A} (x : outcome A) : osim (fun a b => a = b) x x.
Proof. destruct x; simpl; auto. Qed.

Section Proofs.
Context {R : cring}.
Add Ring Rr : (cr_th R).
Notation heap := (heap R).
Notation matrix := (matrix R).
Notation dense := (dense R).
Implicit Types (h : heap) (d e : hdense) (T : htree) (M : matrix) (tA tB : bool) (alpha beta : R).

Lemma sim_TD h d (D : dense) : sim h (TD d) (MD D) <-> good h d /\ deq (dread h d) D.
Proof. unfold sim. simpl. tauto. Qed.
Lemma sim_D_inv h d M : sim h (TD d) M -> exists D, M = MD D.
Proof. intros [_ [_ Q]]. destruct M; simpl in Q; try tauto. eauto. Qed.
Lemma tapart_TD d e : tapart (TD d) (TD e) <-> apart d e.
Proof.
  split; intros H b k H1 H2; apply (H b k); try (apply tcell_TD; auto); apply tcell_TD; auto.
Qed.

(** ** cblas_dgemm *)
Lemma hdot_spec h (a b : hdense) tA tB (k i j : nat) : good h a -> good h b ->
  k = (if tA then h_r a else h_c a) -> k = (if tB then h_c b else h_r b) ->
  i < (if tA then h_c a else h_r a) -> j < (if tB then h_r b else h_c b) ->
  hdot h a b tA tB k i j = Ok (mmul k (mop tA (hent h a)) (mop tB (hent h b)) i j).
Proof.
  intros Ga Gb E1 E2 Hi Hj. unfold hdot, mmul.
  apply (sumM_spec k _ (fun l => (mop tA (hent h a) i l * mop tB (hent h b) l j)%r)). intros l Hl.
  assert (X : (if tA then h_get h a l i else h_get h a i l) = Ok (mop tA (hent h a) i l))
    by (destruct tA; simpl in *; apply h_get_spec; auto; lia).
  assert (Y : (if tB then h_get h b j l else h_get h b l j) = Ok (mop tB (hent h b) l j))
    by (destruct tB; simpl in *; apply h_get_spec; auto; lia).
  rewrite X. simpl. rewrite Y. reflexivity.
Qed.

Lemma mmul_feq_ent (k r c : nat) tA tB (fa fb ga gb : mat R) (ra ca rb cb i j : nat) :
  feq ra ca fa ga -> feq rb cb fb gb ->
  r = (if tA then ca else ra) -> k = (if tA then ra else ca) -> k = (if tB then cb else rb) -> c = (if tB then rb else cb) ->
  i < r -> j < c -> mmul k (mop tA fa) (mop tB fb) i j = mmul k (mop tA ga) (mop tB gb) i j.
Proof.
  intros FA FB -> E1 E2 -> Hi Hj. unfold mmul. apply sum_ext. intros l Hl.
  f_equal; [destruct tA; simpl; [unfold mtr|]; apply FA; simpl in *; lia|destruct tB; simpl; [unfold mtr|]; apply FB; simpl in *; lia].
Qed.

Lemma hdd_gemm_sim h (a b c : hdense) (A B C : dense) alpha beta tA tB :
  sim h (TD a) (MD A) -> sim h (TD b) (MD B) -> sim h (TD c) (MD C) -> tapart (TD a) (TD c) -> tapart (TD b) (TD c) ->
  osim (fun h' D => upd h (TD c) (h', TD c) (MD D)) (hdd_gemm a b c alpha beta tA tB h) (dd_gemm A B C alpha beta tA tB).
Proof.
  rewrite !sim_TD, !tapart_TD. intros [Ga [A1 [A2 A3]]] [Gb [B1 [B2 B3]]] [Gc [C1 [C2 C3]]] Pa Pb. simpl in A1, A2, A3, B1, B2, B3, C1, C2, C3.
  unfold hdd_gemm, dd_gemm. rewrite <- A1, <- A2, <- B1, <- B2, <- C1, <- C2.
  apply osim_assert; auto. intros H1. apply osim_assert; auto. intros H2. apply osim_assert; auto. intros H3.
  apply Nat.eqb_eq in H1, H2, H3. set (k := if tA then h_r a else h_c a) in *.
  set (F := fun i j => (beta * hent h c i j + alpha * mmul k (mop tA (hent h a)) (mop tB (hent h b)) i j)%r).
  match goal with |- osim _ (h_loop ?l _ ?w _) _ => destruct (h_loop_in_place l c w F h Gc (nodup_ij _ _)) as [h' [E [FR [V _]]]] end.
  - intros i j Hin. apply in_ij_all in Hin. auto.
  - intros h1 i j Hin FR EQ. apply in_ij_all in Hin. destruct Hin as [Hi Hj].
    assert (SH : same_shape h h1) by apply FR.
    rewrite h_get_spec by (auto; eapply good_shape; eauto). simpl.
    rewrite hdot_spec; auto; try (eapply good_shape; eauto); try (rewrite H1; auto); try (rewrite H3; auto).
    simpl. rewrite EQ. unfold F. f_equal. f_equal. f_equal.
    eapply (mmul_feq_ent k (h_r c) (h_c c) tA tB _ _ _ _ (h_r a) (h_c a) (h_r b) (h_c b)); auto.
    + intros x y Hx Hy. apply (frame_hent h h1 c); auto.
    + intros x y Hx Hy. apply (frame_hent h h1 c); auto.
  - rewrite E. simpl.
    assert (G' : good h' c) by (eapply good_shape; eauto; apply FR).
    split; [|split; [|split; [|split]]]; simpl; auto.
    + eapply tfr_mono; [|apply frame_tfr; exact FR]. intros; apply tcell_TD; auto.
    + apply sim_TD. split; auto. split; auto. split; auto. intros i j Hi Hj. simpl in *.
      pose proof (V i j) as V'. unfold hent at 1 in V'. rewrite V' by (apply in_ij_all; auto). unfold F.
      rewrite <- (C3 i j Hi Hj). f_equal. f_equal.
      eapply (mmul_feq_ent k (h_r c) (h_c c) tA tB _ _ _ _ (h_r a) (h_c a) (h_r b) (h_c b)); auto.
Qed.

(** New objects. *)
Lemma mk_makes h h' d r c f (D : dense) : makes h h' d r c f -> deq (Dn r c f) D -> mk h (h', TD d) (MD D).
Proof.
  intros MK Q. pose proof MK as [X [G [_ [_ [B _]]]]]. split; [apply extends_tfr; auto|]. simpl. split; [apply sim_TD; split; auto|].
  - eapply deq_trans; [eapply makes_read; eauto|auto].
  - split; auto. intros b k H. apply tcell_TD in H. destruct H as [-> _]. lia.
Qed.
Lemma h_new_mk h r c h1 d : h_new h r c = (h1, d) -> mk h (h1, TD d) (MD (d_zeros r c)).
Proof.
  intros E. destruct (h_new_makes h r c) as [h2 [d2 [E2 MK]]]. rewrite E in E2. inversion E2; subst.
  eapply mk_makes; eauto. apply deq_refl.
Qed.
Lemma hdd_mul_sim h (a b : hdense) (A B : dense) alpha tA tB :
  sim h (TD a) (MD A) -> sim h (TD b) (MD B) ->
  osim (fun p D => mk h (fst p, TD (snd p)) (MD D)) (hdd_mul a b alpha tA tB h) (dd_mul A B alpha tA tB).
Proof.
  intros SA SB. pose proof SA as SA0. pose proof SB as SB0. apply sim_TD in SA0. apply sim_TD in SB0.
  destruct SA0 as [Ga [A1 [A2 _]]]. destruct SB0 as [Gb [B1 [B2 _]]]. simpl in A1, A2, B1, B2.
  unfold hdd_mul, dd_mul. rewrite <- A1, <- A2, <- B1, <- B2. apply osim_assert; auto. intros H1.
  destruct (h_new h _ _) as [h1 c] eqn:E. pose proof (h_new_mk _ _ _ _ _ E) as MK.
  destruct (mk_apart _ _ _ _ _ MK SA) as [SA' PA]. destruct (mk_apart _ _ _ _ _ MK SB) as [SB' PB]. simpl in SA', SB', PA, PB.
  assert (SC : sim h1 (TD c) (MD (d_zeros (if tA then h_c a else h_r a) (if tB then h_r b else h_c b)))) by apply MK.
  match goal with |- osim _ (bind ?x _) ?y => replace y with (bind y Ok) by (destruct y; reflexivity) end.
  eapply osim_bind; [apply (hdd_gemm_sim h1); eauto|]. intros h2 D _ _ U. simpl. eapply mk_upd; eauto.
Qed.

Lemma d_store_ok (D : dense) h : exists h' d, d_store D h = Ok (h', d) /\ mk h (h', TD d) (MD D).
Proof.
  unfold d_store. destruct (h_new_makes h (d_r D) (d_c D)) as [h1 [d [E MK]]]. rewrite E.
  pose proof MK as [X [G [E1 [E2 _]]]].
  destruct (h_loop_spec (ij_all (d_r D) (d_c D)) d (fun _ i j => Ok (d_e D i j)) (d_e D) h1) as [h2 [E3 [F [V _]]]]; auto.
  - apply nodup_ij.
  - intros i j Hin. apply in_ij_all in Hin. lia.
  - rewrite E3. simpl. exists h2, d. split; auto. eapply mk_makes.
    + eapply makes_write; eauto. intros i j Hi Hj. apply V. apply in_ij_all. auto.
    + destruct D; apply deq_refl.
Qed.
Lemma sim_TL h l (L : lowrank R) : sim h (TL l) (ML L) <->
  lr_fit L /\ q_r l = l_r L /\ q_c l = l_c L /\ q_rank l = l_rank L /\ q_eps l = l_eps L /\
  sim h (TD (q_U l)) (MD (l_U L)) /\ sim h (TD (q_S l)) (MD (l_S L)) /\ sim h (TD (q_V l)) (MD (l_V L)).
Proof. rewrite !sim_TD. unfold sim. simpl. unfold leq, lgood. simpl. tauto. Qed.
Lemma lr_store_ok (L : lowrank R) h : lr_fit L -> exists h' l, lr_store L h = Ok (h', l) /\ mk h (h', TL l) (ML L).
Proof.
  intros W. unfold lr_store. destruct (d_store_ok (l_U L) h) as [h1 [U [E1 M1]]]. rewrite E1. simpl bind.
  destruct (d_store_ok (l_S L) h1) as [h2 [D [E2 M2]]]. rewrite E2. simpl bind.
  destruct (d_store_ok (l_V L) h2) as [h3 [V [E3 M3]]]. rewrite E3. simpl bind.
  eexists. eexists. split; [reflexivity|].
  pose proof M1 as [F1 [S1 [_ Y1]]]. pose proof M2 as [F2 [S2 [_ Y2]]]. pose proof M3 as [F3 [S3 [_ Y3]]]. simpl in *.
  destruct (mk_apart _ _ _ _ _ M2 S1) as [S1' P1]. destruct (mk_apart _ _ _ _ _ M3 S1') as [S1'' P2]. destruct (mk_apart _ _ _ _ _ M3 S2) as [S2' P3].
  simpl in *.
  split; [eapply tfr_trans; [eauto|]; eapply tfr_trans; eauto|]. split; [|split].
  - apply sim_TL. simpl. tauto.
  - simpl. unfold lsep. simpl. rewrite <- !tapart_TD. split; [apply tapart_sym; auto|]. split; auto.
  - intros b k H. apply tcell_TL in H. simpl in H. rewrite <- !tcell_TD in H. destruct F1 as [N1 _]. destruct F2 as [N2 _].
    destruct H as [H|[H|H]]; [apply Y1 in H|apply Y2 in H|apply Y3 in H]; lia.
Qed.

(** ** Scaling *)
Lemma d_scale_deq h h' d (D : dense) (b : R) : deq (dread h d) D -> (forall i j, i < h_r d -> j < h_c d -> hent h' d i j = (hent h d i j * b)%r) ->
  deq (dread h' d) (d_scale D b).
Proof.
  intros [E1 [E2 E3]] V. split; auto. split; auto. intros i j Hi Hj. cbn [dread d_r d_c] in *.
  pose proof (d_scale_ent D b i j) as X. simpl in E1, E2. simpl in X. unfold d_scale in *. simpl in *.
  rewrite X by congruence. unfold hent in V. rewrite V by auto. unfold mscale. rewrite <- (E3 i j) by auto. try ring. 
Qed.

Lemma lr_fit_scale (L : lowrank R) (b : R) : lr_fit L -> lr_fit (lr_scale L b).
Proof. intros H; exact H. Qed.
Lemma apart_lsep_clear l d : lsep l -> d = q_U l \/ d = q_V l -> apart d (q_S l).
Proof. intros [H1 [H2 H3]] [->| ->]; apply apart_sym; auto. Qed.
Lemma sim_D_frame h h' d c (D : dense) : frame h h' c -> apart d c -> sim h (TD d) (MD D) -> sim h' (TD d) (MD D).
Proof.
  intros F P S. eapply sim_tfr; [apply frame_tfr; eauto| |exact S].
  intros b k H. apply tcell_TD in H. apply P; auto.
Qed.

(** operator*= on a LowRank multiplies S. *)
Lemma hscale_S_upd h c (C : lowrank R) (b : R) : sim h (TL c) (ML C) -> lsep c ->
  exists h', hscale (q_S c) b h = Ok h' /\ upd h (TL c) (h', TL c) (ML (lr_scale C b)).
Proof.
  intros SC LS. apply sim_TL in SC. destruct SC as [W [E1 [E2 [E3 [E4 [SU [SS SV]]]]]]].
  pose proof (proj1 (sim_TD _ _ _) SS) as [GS QS].
  destruct (hscale_spec h (q_S c) b GS) as [h' [E [F V]]]. exists h'. split; auto.
  split; [|split; [|split; [|split]]]; simpl; auto.
  - eapply tfr_mono; [|apply frame_tfr; exact F]. intros; apply tcell_TL; auto.
  - apply sim_TL. simpl. split; auto. repeat match goal with |- _ = _ /\ _ => split; [auto|] end.
    split; [eapply sim_D_frame; eauto; apply apart_lsep_clear; auto|]. split; [|eapply sim_D_frame; eauto; apply apart_lsep_clear; auto].
    apply sim_TD. split; [eapply good_shape; eauto; apply F|]. eapply d_scale_deq; eauto.
Qed.
Lemma hscale_D_upd h c (C : dense) (b : R) : sim h (TD c) (MD C) ->
  exists h', hscale c b h = Ok h' /\ upd h (TD c) (h', TD c) (MD (d_scale C b)).
Proof.
  intros SS. pose proof (proj1 (sim_TD _ _ _) SS) as [GS QS].
  destruct (hscale_spec h c b GS) as [h' [E [F V]]]. exists h'. split; auto.
  split; [|split; [|split; [|split]]]; simpl; auto.
  - eapply tfr_mono; [|apply frame_tfr; exact F]. intros; apply tcell_TD; auto.
  - apply sim_TD. split; [eapply good_shape; eauto; apply F|]. eapply d_scale_deq; eauto.
Qed.

Lemma tscale_sim T : forall h M (b : R), sim h T M -> separate T ->
  osim (fun h' M' => upd h T (h', T) M') (tscale T b h) (scale M b).
Proof.
  induction T as [d|l|m n f IH|r c|]; intros h M b S SP; pose proof S as [G [W Q]]; destruct M as [D|L|m' n' g|r' c']; simpl in Q; try tauto.
  - destruct (hscale_D_upd h d D b S) as [h' [E U]]. simpl. rewrite E. exact U.
  - destruct (hscale_S_upd h l L b S SP) as [h' [E U]]. simpl. rewrite E. exact U.
  - destruct Q as [<- [<- Q]]. cbn [tscale scale].
    pose proof (hlist_glist (fun i j h => tscale (f i j) b h) f (ij_all m n) h f (fun i j => eq_refl)) as HG.
    assert (X := grid_upd h m n f g (fun i j => scale (g i j) b) (fun i j h => let* h' := tscale (f i j) b h in Ok (h', f i j)) S SP).
    assert (X' : osim (upd h (TH m n f)) (let* (h', c') := glist (ij_all m n) (fun i j h0 => let* h' := tscale (f i j) b h0 in Ok (h', f i j)) h f in Ok (h', TH m n c'))
       (let* c' := collect m n (fun i j => scale (g i j) b) in Ok (MH m n c'))).
    { apply X. intros i j h2 Hi Hj F2 S2. replace (scale (g i j) b) with (bind (scale (g i j) b) Ok) by (destruct (scale (g i j) b); reflexivity).
      eapply osim_bind; [apply (IH i j h2 (g i j) b S2)|]. { apply SP; auto. } intros h3 M3 _ _ U3. exact U3. }
    clear X. destruct (hlist _ _ h) as [h1| | | |]; destruct (glist _ _ h f) as [[h2 f2]| | | |]; simpl in HG; try tauto.
    destruct HG as [-> HF]. simpl bind in X'. destruct (bind (collect _ _ _) _); simpl in X' |- *; auto.
    eapply upd_ext; eauto.
Qed.

(** ** transpose(X) or shallow_copy(X) *)
Lemma hfactor_ok t h (x y : hdense) (X Y : dense) : sim h (TD x) (MD X) -> sim h (TD y) (MD Y) ->
  exists h' d, hfactor t x y h = Ok (h', d) /\ tfr none h h' /\ sim h' (TD d) (MD (if t then d_transpose X else Y)) /\
    forall C MC, sim h C MC -> tapart (TD x) C -> tapart (TD y) C -> tapart (TD d) C.
Proof.
  intros SX SY. unfold hfactor. destruct t.
  - pose proof (proj1 (sim_TD _ _ _) SX) as [G [Q1 [Q2 Q3]]].
    destruct (h_transpose_spec h x G) as [h' [d [E MK]]]. exists h', d. split; auto.
    assert (K : mk h (h', TD d) (MD (d_transpose X))).
    { eapply mk_makes; eauto. split; [exact Q2|]. split; [exact Q1|]. intros i j Hi Hj. cbn [d_r d_c d_e] in *.
      simpl in Q1, Q2, Q3. pose proof (d_transpose_ent X) as TT. rewrite TT by congruence. unfold mtr. apply Q3; auto. }
    split; [apply K|]. split; [apply K|]. intros C MC SC _ _. apply tapart_sym. apply (mk_apart _ _ _ _ _ K SC).
  - rewrite h_shallow_eq. exists h, y. split; auto. split; [apply tfr_refl|]. split; auto.
Qed.

(** ** Splitting without copying *)
Lemma chain_covers rs w len : chain rs w len -> covers len rs.
Proof.
  intros [C1 C2]. split.
  - intros r Hin. apply In_nth with (d := (0, 0)) in Hin. destruct Hin as [i [Hi E]]. fold (rg rs i) in E. rewrite C1 in E by auto. subst r. simpl.
    rewrite <- C2. apply offs_lt; auto.
  - intros x Hx. rewrite <- C2 in Hx. destruct (locate_in _ _ _ Hx) as [p [r [_ [Hp [Hr ->]]]]].
    assert (N : forall i, i < length rs -> nth_error rs i = Some (offs w i, w i)).
    { intros i Hi. rewrite <- (C1 i Hi). unfold rg. apply nth_error_nth'. auto. }
    exists p, (offs w p, w p). split; [auto|]. split; [simpl; lia|]. intros p' r' Hp' Hr'.
    assert (Hl : p' < length rs) by (apply nth_error_Some; congruence). rewrite N in Hp' by auto. inversion Hp'; subst. simpl in Hr'.
    destruct (offs_unique w p r p' (offs w p + r - offs w p')); try lia.
Qed.
Lemma chain_nth rs w len i : chain rs w len -> i < length rs -> nth_error rs i = Some (offs w i, w i).
Proof. intros [C1 _] Hi. rewrite <- (C1 i Hi). unfold rg. apply nth_error_nth'. auto. Qed.

(** The blocks of a split Dense are windows of it. *)
Definition tiles (d : hdense) h nr nc (f : nat -> nat -> htree) (wr wc : nat -> nat) : Prop :=
  offs wr nr = h_r d /\ offs wc nc = h_c d /\
  forall i j, i < nr -> j < nc -> exists e, f i j = TD e /\ good h e /\ h_r e = wr i /\ h_c e = wc j /\ window e d (offs wr i) (offs wc j).

Lemma bufs_sim h h' T M : h_bufs h' = h_bufs h -> sim h T M -> sim h' T M.
Proof. intros E. apply sim_none. apply tfr_bufs; auto. Qed.
Lemma tiles_cells d h nr nc f wr wc b k : tiles d h nr nc f wr wc -> tcell (TH nr nc f) b k <-> (0 < nr /\ 0 < nc /\ cell d b k).
Proof.
  intros [T1 [T2 T3]]. rewrite tcell_TH. split.
  - intros [i [j [Hi [Hj H]]]]. split; [lia|]. split; [lia|]. destruct (T3 i j Hi Hj) as [e [E [G [E1 [E2 [W1 W2]]]]]]. rewrite E in H. apply tcell_TD in H.
    destruct H as [-> [x [y [Hx [Hy ->]]]]]. split; auto. exists (offs wr i + x), (offs wc j + y). rewrite W2. 
    pose proof (offs_lt wr i nr Hi). pose proof (offs_lt wc j nc Hj). split; [lia|]. split; [lia|]. auto.
  - intros [_ [_ [-> [x [y [Hx [Hy ->]]]]]]]. rewrite <- T1 in Hx. rewrite <- T2 in Hy.
    destruct (locate_in _ _ _ Hx) as [i [x' [_ [Hi [Hx' ->]]]]]. destruct (locate_in _ _ _ Hy) as [j [y' [_ [Hj [Hy' ->]]]]].
    exists i, j. split; auto. split; auto. destruct (T3 i j Hi Hj) as [e [E [G [E1 [E2 [W1 W2]]]]]]. rewrite E. apply tcell_TD.
    split; auto. exists x', y'. rewrite W2. repeat split; auto; lia.
Qed.
Lemma tiles_separate d h nr nc f wr wc : good h d -> tiles d h nr nc f wr wc -> separate (TH nr nc f).
Proof.
  intros G [T1 [T2 T3]]. simpl. split.
  - intros i j Hi Hj. destruct (T3 i j Hi Hj) as [e [-> _]]. exact I.
  - intros i j i' j' Hi Hj Hi' Hj' NE. destruct (T3 i j Hi Hj) as [e [-> [_ [E1 [E2 W]]]]]. destruct (T3 i' j' Hi' Hj') as [e' [-> [_ [E1' [E2' W']]]]].
    apply tapart_TD. pose proof (offs_lt wc j nc Hj). pose proof (offs_lt wc j' nc Hj').
    apply (windows_apart h d e e' _ _ _ _ G W W'); try lia.
    destruct (Nat.eq_dec i i') as [<-|NI].
    + assert (j <> j') as NJ by congruence. destruct (lt_dec j j'); [pose proof (offs_lt wc j j')|pose proof (offs_lt wc j' j)]; lia.
    + destruct (lt_dec i i'); [pose proof (offs_lt wr i i')|pose proof (offs_lt wr i' i)]; lia.
Qed.

Lemma split_D_sim h d (D : dense) nr nc : sim h (TD d) (MD D) -> 0 < nr -> 0 < nc ->
  osim (fun p M' => h_bufs (fst p) = h_bufs h /\ exists f mb wr wc, snd p = TH nr nc f /\ M' = MH nr nc mb /\
      sim (fst p) (TH nr nc f) (MH nr nc mb) /\ tiles d (fst p) nr nc f wr wc /\ separate (TH nr nc f))
    (tsplit_n (TD d) nr nc false h) (split (MD D) nr nc).
Proof.
  intros SD Hr Hc. pose proof (proj1 (sim_TD _ _ _) SD) as [G [Q1 [Q2 Q3]]]. simpl in Q1, Q2, Q3.
  unfold tsplit_n, split. cbn [trows tcols nrows ncols]. rewrite Q1, Q2.
  eapply osim_bind; [apply osim_same|]. intros rs rs' Ers _ <-.
  eapply osim_bind; [apply osim_same|]. intros cs cs' Ecs _ <-.
  destruct (uniform_ranges _ _ _ Hr Ers) as [Lr1 [wr [Cr _]]]. destruct (uniform_ranges _ _ _ Hc Ecs) as [Lc1 [wc [Cc _]]].
  cbn [tsplit split_ranges]. unfold split_dense. rewrite (chain_fit _ _ _ Cr), (chain_fit _ _ _ Cc). simpl andb. cbv iota.
  rewrite <- Q1 in Cr. rewrite <- Q2 in Cc.
  destruct (h_split_views h d rs cs G) as [h' [ds [E [HB [_ HD]]]]]; [apply (covers_fits _ _ (chain_covers _ _ _ Cr))|apply (covers_fits _ _ (chain_covers _ _ _ Cc))|].
  rewrite E. simpl bind. rewrite Lr1, Lc1 in *. cbn [osim fst snd].
  assert (G' : good h' d) by (eapply bufs_sim in SD; [|exact HB]; apply sim_TD in SD; apply SD).
  match goal with |- _ /\ exists f mb wr wc, TH _ _ ?f0 = _ /\ MH _ _ ?m0 = _ /\ _ => set (f := f0); set (mb := m0) end.
  assert (TL : tiles d h' nr nc f wr wc).
  { split; [rewrite <- Lr1; apply Cr|]. split; [rewrite <- Lc1; apply Cc|]. intros i j Hi Hj.
    destruct (HD i j _ _ (chain_nth _ _ _ i Cr ltac:(lia)) (chain_nth _ _ _ j Cc ltac:(lia))) as [e [E1 [E2 [E3 [E4 E5]]]]].
    exists e. split; [unfold f; f_equal; apply (nth_error_nth _ _ no_dense E1)|]. auto. }
  split; auto. exists f, mb, wr, wc. split; auto. split; auto. split; [|split; [exact TL|eapply tiles_separate; eauto]].
  apply sim_grid; auto. intros i j Hi Hj. destruct TL as [T1 [T2 T3]]. destruct (T3 i j Hi Hj) as [e [-> [Ge [E1 [E2 W]]]]].
  unfold mb. rewrite (proj1 Cr) by lia. rewrite (proj1 Cc) by lia. cbn [fst snd].
  apply sim_TD. split; auto. split; auto. split; auto. intros x y Hx Hy. simpl in Hx, Hy. cbn [d_e]. unfold mwin.
  pose proof (window_hent e d _ _ W h' x y) as WH. unfold hent in WH. simpl d_e at 1. rewrite WH.
  pose proof (offs_lt wr i nr Hi). pose proof (offs_lt wc j nc Hj). rewrite <- (Q3 (offs wr i + x) (offs wc j + y)) by lia.
  unfold val. rewrite HB. reflexivity.
Qed.

Lemma split_L_sim h l (L : lowrank R) nr nc : sim h (TL l) (ML L) -> 0 < nr -> 0 < nc ->
  osim (fun p M' => h_bufs (fst p) = h_bufs h /\ exists f mb, snd p = TH nr nc f /\ M' = MH nr nc mb /\
      sim (fst p) (TH nr nc f) (MH nr nc mb) /\ (forall b k, tcell (TH nr nc f) b k -> tcell (TL l) b k))
    (tsplit_n (TL l) nr nc false h) (split (ML L) nr nc).
Proof.
  intros SL Hr Hc. pose proof SL as [GL [[W1 W2] _]]. pose proof (proj1 (sim_TL _ _ _) SL) as [_ [E1 [E2 [E3 [E4 [SU [SS SV]]]]]]].
  pose proof (proj1 (sim_TD _ _ _) SU) as [GU QU]. pose proof (proj1 (sim_TD _ _ _) SS) as [GS QS]. pose proof (proj1 (sim_TD _ _ _) SV) as [GV QV].
  unfold tsplit_n, split. cbn [trows tcols nrows ncols]. rewrite E1, E2.
  eapply osim_bind; [apply osim_same|]. intros rs rs' Ers _ <-.
  eapply osim_bind; [apply osim_same|]. intros cs cs' Ecs _ <-.
  destruct (uniform_ranges _ _ _ Hr Ers) as [Lr1 [wr [Cr _]]]. destruct (uniform_ranges _ _ _ Hc Ecs) as [Lc1 [wc [Cc _]]].
  assert (CR : covers (h_r (q_U l)) rs). { apply (chain_covers _ wr). destruct QU as [HU _]. simpl in HU. rewrite HU, <- W1. auto. }
  assert (CC : covers (h_c (q_V l)) cs). { apply (chain_covers _ wc). destruct QV as [_ [HV _]]. simpl in HV. rewrite HV, <- W2. auto. }
  destruct (tsplit_low_shared h l rs cs GL CR CC) as [h' [f [E [HB HD]]]]. rewrite E. rewrite Lr1, Lc1 in *.
  cbn [split_ranges]. unfold split_lr.
  assert (XU : exists U, split_U (l_U L) rs = Ok U /\ forall i, i < nr -> deq (U i) (Dn (wr i) (d_c (l_U L)) (mwin (offs wr i) 0 (d_e (l_U L))))).
  { unfold split_U. rewrite <- W1, (chain_fit _ _ _ Cr). destruct (Nat.ltb_spec 1 (length rs)).
    - eexists. split; [reflexivity|]. intros i Hi. simpl. rewrite (proj1 Cr) by lia. apply deq_refl.
    - eexists. split; [reflexivity|]. intros i Hi. assert (nr = 1) by lia. assert (i = 0) by lia. subst i. destruct Cr as [_ Cr]. rewrite Lr1, H0 in Cr. simpl in Cr. simpl.
      split; [simpl; lia|]. split; auto. intros x y _ _. reflexivity. }
  assert (XV : exists V, split_V (l_V L) cs = Ok V /\ forall j, j < nc -> deq (V j) (Dn (d_r (l_V L)) (wc j) (mwin 0 (offs wc j) (d_e (l_V L))))).
  { unfold split_V. rewrite <- W2, (chain_fit _ _ _ Cc). destruct (Nat.ltb_spec 1 (length cs)).
    - eexists. split; [reflexivity|]. intros i Hi. simpl. rewrite (proj1 Cc) by lia. apply deq_refl.
    - eexists. split; [reflexivity|]. intros i Hi. assert (nc = 1) by lia. assert (i = 0) by lia. subst i. destruct Cc as [_ Cc]. rewrite Lc1, H0 in Cc. simpl in Cc. simpl.
      split; [simpl; lia|]. split; [simpl; lia|]. intros x y _ _. reflexivity. }
  destruct XU as [U [-> HU]]. destruct XV as [V [-> HV]]. simpl bind. rewrite ?Lr1, ?Lc1. cbn [osim fst snd].
  split; auto. eexists. eexists. split; [reflexivity|]. split; [reflexivity|].
  assert (SL' := bufs_sim _ _ _ _ HB SL). pose proof (proj1 (sim_TL _ _ _) SL') as [_ [_ [_ [_ [_ [SU' [SS' SV']]]]]]].
  pose proof (proj1 (sim_TD _ _ _) SU') as [_ QU']. pose proof (proj1 (sim_TD _ _ _) SV') as [_ QV'].
  split.
  - apply sim_grid; auto. intros i j Hi Hj.
    destruct (HD i j _ _ (chain_nth _ _ _ i Cr ltac:(lia)) (chain_nth _ _ _ j Cc ltac:(lia))) as [u [v [-> [PU PV]]]].
    pose proof (lread_parts h h' l u v _ _ HB PU PV h') as LQ. cbn [fst snd] in PU, PV.
    apply sim_TL. split; [split; reflexivity|]. simpl q_r. simpl q_c. simpl q_rank. simpl q_eps. simpl q_U. simpl q_S. simpl q_V.
    unfold leq in LQ. simpl in LQ. destruct LQ as [LQ1 [LQ2 [LQ3 [LQ4 [LQ5 [LQ6 LQ7]]]]]].
    assert (AU : deq (dread h' u) (U i)).
    { eapply deq_trans; [exact LQ5|]. eapply deq_trans; [|apply deq_sym; apply HU; auto].
      destruct QU' as [U1 [U2 U3]]. simpl in U1, U2. split; auto. split; auto. intros x y Hx Hy. simpl in Hx, Hy. simpl. unfold mwin. apply U3; simpl; [|lia].
      pose proof (offs_lt wr i nr Hi). destruct Cr as [_ Cr]. rewrite Lr1 in Cr. lia. }
    assert (AV : deq (dread h' v) (V j)).
    { eapply deq_trans; [exact LQ7|]. eapply deq_trans; [|apply deq_sym; apply HV; auto].
      destruct QV' as [U1 [U2 U3]]. simpl in U1, U2. split; auto. split; auto. intros x y Hx Hy. simpl in Hx, Hy. simpl. unfold mwin. apply U3; simpl; [lia|].
      pose proof (offs_lt wc j nc Hj). destruct Cc as [_ Cc]. rewrite Lc1 in Cc. lia. }
    unfold lr_make. simpl l_r. simpl l_c. simpl l_rank. simpl l_eps. simpl l_U. simpl l_S. simpl l_V.
    split; [apply AU|]. split; [apply AV|]. split; [apply QS|]. split; auto.
    split; [apply sim_TD; split; [apply PU|auto]|]. split; [auto|apply sim_TD; split; [apply PV|auto]].
  - intros b k H. apply tcell_TH in H. destruct H as [i [j [Hi [Hj H]]]].
    destruct (HD i j _ _ (chain_nth _ _ _ i Cr ltac:(lia)) (chain_nth _ _ _ j Cc ltac:(lia))) as [u [v [EQ [PU PV]]]]. rewrite EQ in H. cbn [fst snd] in PU, PV.
    apply tcell_TL in H. apply tcell_TL. simpl in H.
    pose proof (covers_fits _ _ CR _ (nth_error_In _ _ (chain_nth _ _ _ i Cr ltac:(lia)))) as FU. pose proof (covers_fits _ _ CC _ (nth_error_In _ _ (chain_nth _ _ _ j Cc ltac:(lia)))) as FV.
    simpl in FU, FV.
    destruct H as [H|[H|H]]; auto.
    + left. destruct PU as [_ [P1 [P2 [_ P3]]]]. destruct (P3 eq_refl) as [P4 P5]. destruct H as [-> [x [y [Hx [Hy ->]]]]].
      split; auto. exists (offs wr i + x), (0 + y). rewrite P5 by lia. split; [lia|]. split; [lia|]. auto.
    + right. right. destruct PV as [_ [P1 [P2 [_ P3]]]]. destruct (P3 eq_refl) as [P4 P5]. destruct H as [-> [x [y [Hx [Hy ->]]]]].
      split; auto. exists (0 + x), (offs wc j + y). rewrite P5 by lia. split; [lia|]. split; [lia|]. auto.
Qed.
End Proofs.
