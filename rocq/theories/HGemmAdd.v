(** operator+= over shared storage and the other parts of gemm that work on values. *)
From Coq Require Import List Arith ZArith QArith Lia Bool Ring_theory Ring.
From Verif Require Import Prelude Osim IndexRange Ring MatFun Matrix MatOps MatOpsProofs Gemm Heap HeapProofs HeapViews MgsHeap MgsHeapProofs.
From Verif Require Import Tree TreeProofs TreeScale TreeSim HGemm HGemmOps.
Import ListNotations.
Local Open Scope nat_scope.

Section Proofs.
Context {R : cring}.
Add Ring Rr : (cr_th R).
Notation heap := (heap R).
Notation matrix := (matrix R).
Notation dense := (dense R).
Notation lowrank := (lowrank R).
Implicit Types (h : heap) (d e : hdense) (T : htree) (M : matrix) (alpha beta : R).

(** The routines that are not modelled (SVD and the like) depend on the values of their
    arguments only, and return factors of the right outer dimensions. *)
Definition or_cong (Or : oracles R) : Prop :=
  (forall (x y : dense) r, deq x y -> osim (fun a b => leq a b /\ lr_fit b) (crank Or x r) (crank Or y r)) /\
  (forall (x y : dense) (e : Q), deq x y -> osim (fun a b => leq a b /\ lr_fit b) (ceps Or x e) (ceps Or y e)) /\
  (forall (x y x' y' : lowrank), leq x x' -> leq y y' -> lr_fit x' -> lr_fit y' ->
     osim (fun a b => leq a b /\ lr_fit b) (lr_add Or x y) (lr_add Or x' y')).

(** ** Dense += Dense *)
Lemma h_loop_fails (l : list (nat * nat)) (A : hdense) (w : heap -> nat -> nat -> outcome R) : forall h, good h A ->
  (forall i j, In (i, j) l -> i < h_r A /\ j < h_c A) ->
  (forall h1 i j, In (i, j) l -> same_shape h h1 -> w h1 i j = AssertFail \/ exists v, w h1 i j = Ok v) ->
  (exists i j, In (i, j) l /\ forall h1, same_shape h h1 -> w h1 i j = AssertFail) -> h_loop l A w h = AssertFail.
Proof.
  induction l as [|[i j] l IH]; intros h G HB HW [x [y [Hin HF]]]; [destruct Hin|]. simpl.
  assert (S0 : same_shape h h) by apply (frame_refl h A).
  destruct (HW h i j) as [E|[v E]]; [left; auto|auto| |]; rewrite E; simpl; auto.
  destruct Hin as [EQ|Hin]; [inversion EQ; subst; rewrite HF in E by auto; discriminate|].
  destruct (HB i j) as [Hi Hj]; [left; auto|].
  destruct (h_set_spec h A i j v G Hi Hj) as [h1 [E1 [SH _]]]. rewrite E1. simpl. apply IH.
  - eapply good_shape; eauto.
  - intros; apply HB; right; auto.
  - intros h2 i2 j2 H2 S2. apply HW; [right; auto|]. eapply same_shape_trans; eauto.
  - exists x, y. split; auto. intros h2 S2. apply HF. eapply same_shape_trans; eauto.
Qed.

Lemma hd_add_sim h (a b : hdense) (A B : dense) : sim h (TD a) (MD A) -> sim h (TD b) (MD B) -> tapart (TD b) (TD a) ->
  osim (fun h' D => upd h (TD a) (h', TD a) (MD D)) (hd_add a b h) (d_add A B).
Proof.
  rewrite !sim_TD, tapart_TD. intros [Ga [A1 [A2 A3]]] [Gb [B1 [B2 B3]]] P. simpl in A1, A2, A3, B1, B2, B3.
  unfold hd_add, d_add. rewrite <- A1, <- A2, <- B1, <- B2.
  destruct ((h_r a =? 0) || (h_c a =? 0) || ((h_r a <=? h_r b) && (h_c a <=? h_c b))) eqn:E0.
  - assert (FIT : forall i j, i < h_r a -> j < h_c a -> i < h_r b /\ j < h_c b).
    { intros i j Hi Hj. apply orb_true_iff in E0. rewrite orb_true_iff, andb_true_iff in E0. rewrite !Nat.eqb_eq, !Nat.leb_le in E0. lia. }
    set (F := fun i j => (hent h a i j + hent h b i j)%r).
    match goal with |- osim _ (h_loop ?l _ ?w _) _ => destruct (h_loop_in_place l a w F h Ga (nodup_ij _ _)) as [h' [E [FR [V _]]]] end.
    + intros i j Hin. apply in_ij_all in Hin. auto.
    + intros h1 i j Hin FR EQ. apply in_ij_all in Hin. destruct Hin as [Hi Hj]. destruct (FIT i j Hi Hj).
      assert (SH : same_shape h h1) by apply FR.
      rewrite h_get_spec by (auto; eapply good_shape; eauto). simpl.
      rewrite h_get_spec by (auto; eapply good_shape; eauto). simpl. rewrite EQ. unfold F. f_equal. f_equal.
      apply (frame_hent h h1 a); auto.
    + rewrite E. simpl.
      assert (G' : good h' a) by (eapply good_shape; eauto; apply FR).
      split; [|split; [|split; [|split]]]; simpl; auto.
      * eapply tfr_mono; [|apply frame_tfr; exact FR]. intros; apply tcell_TD; auto.
      * apply sim_TD. split; auto. split; auto. split; auto. intros i j Hi Hj. cbn [dread d_r d_c d_e] in *.
        rewrite loop_all_in; auto; [|intros f g x y ->; reflexivity].
        pose proof (V i j) as V'. unfold hent at 1 in V'. rewrite V' by (apply in_ij_all; auto). unfold F.
        destruct (FIT i j Hi Hj). rewrite <- (A3 i j), <- (B3 i j) by auto. reflexivity.
  - apply orb_false_iff in E0. destruct E0 as [E0 E3]. apply orb_false_iff in E0. destruct E0 as [E1 E2]. apply Nat.eqb_neq in E1, E2.
    apply andb_false_iff in E3. rewrite !Nat.leb_gt in E3.
    rewrite h_loop_fails; simpl; auto.
    + intros i j Hin. apply in_ij_all in Hin. auto.
    + intros h1 i j Hin SH. apply in_ij_all in Hin. destruct Hin as [Hi Hj]. rewrite h_get_spec by (auto; eapply good_shape; eauto). simpl bind.
      destruct (Nat.ltb_spec i (h_r b)) as [L1|L1].
      * destruct (Nat.ltb_spec j (h_c b)) as [L2|L2].
        -- right. rewrite h_get_spec by (auto; eapply good_shape; eauto). simpl. eauto.
        -- left. unfold h_get. destruct (Nat.ltb_spec i (h_r b)); [|lia]. destruct (Nat.ltb_spec j (h_c b)); [lia|]. reflexivity.
      * left. unfold h_get. destruct (Nat.ltb_spec i (h_r b)); [lia|]. reflexivity.
    + exists (h_r a - 1), (h_c a - 1). split; [apply in_ij_all; lia|]. intros h1 SH.
      rewrite h_get_spec by (auto; try lia; eapply good_shape; eauto). simpl bind. unfold h_get.
      destruct (Nat.ltb_spec (h_r a - 1) (h_r b)); [|reflexivity]. destruct (Nat.ltb_spec (h_c a - 1) (h_c b)); [lia|reflexivity].
Qed.

(** ** Parts of a LowRank *)
Lemma part_U l : forall b k, tcell (TD (q_U l)) b k -> tcell (TL l) b k.
Proof. intros b k H. apply tcell_TD in H. apply tcell_TL. auto. Qed.
Lemma part_S l : forall b k, tcell (TD (q_S l)) b k -> tcell (TL l) b k.
Proof. intros b k H. apply tcell_TD in H. apply tcell_TL. auto. Qed.
Lemma part_V l : forall b k, tcell (TD (q_V l)) b k -> tcell (TL l) b k.
Proof. intros b k H. apply tcell_TD in H. apply tcell_TL. auto. Qed.
Lemma sim_U h l (L : lowrank) : sim h (TL l) (ML L) -> sim h (TD (q_U l)) (MD (l_U L)).
Proof. intros H. apply sim_TL in H. tauto. Qed.
Lemma sim_S h l (L : lowrank) : sim h (TL l) (ML L) -> sim h (TD (q_S l)) (MD (l_S L)).
Proof. intros H. apply sim_TL in H. tauto. Qed.
Lemma sim_V h l (L : lowrank) : sim h (TL l) (ML L) -> sim h (TD (q_V l)) (MD (l_V L)).
Proof. intros H. apply sim_TL in H. tauto. Qed.
Lemma sim_make h (u s v : hdense) (U D V : dense) : sim h (TD u) (MD U) -> sim h (TD s) (MD D) -> sim h (TD v) (MD V) ->
  sim h (TL (low_make u s v)) (ML (lr_make U D V)).
Proof.
  intros SU SS SV. apply sim_TL. simpl. split; [split; reflexivity|].
  pose proof (proj1 (sim_TD _ _ _) SU) as [_ [U1 _]]. pose proof (proj1 (sim_TD _ _ _) SS) as [_ [S1 _]]. pose proof (proj1 (sim_TD _ _ _) SV) as [_ [_ [V1 _]]].
  simpl in U1, S1, V1. auto 10.
Qed.
Lemma tapart_make (u s v : hdense) C : tapart (TD u) C -> tapart (TD s) C -> tapart (TD v) C -> tapart (TL (low_make u s v)) C.
Proof. intros H1 H2 H3 b k H. apply tcell_TL in H. simpl in H. rewrite <- !tcell_TD in H. destruct H as [H|[H|H]]; auto. Qed.
Lemma tapart_parts l C : tapart (TL l) C -> tapart (TD (q_U l)) C /\ tapart (TD (q_S l)) C /\ tapart (TD (q_V l)) C.
Proof. intros H. split; [|split]; (eapply tapart_sub; [|exact H]); [apply part_U|apply part_S|apply part_V]. Qed.

Lemma mk_TL_upd h c (C : matrix) (h' : heap) l M : mk h (h', TL l) M -> sim h (TL c) C -> upd h (TL c) (h', TL l) M.
Proof.
  intros [F [S1 [P Y]]] SC. simpl in *. split; [eapply tfr_mono; [|exact F]; intros b k _ []|]. split; auto. split; auto. split; [|exact I].
  intros b k H Hb. pose proof (Y b k H). simpl in *. lia.
Qed.

Section Or.
Variable Or : oracles R.
Hypothesis OC : or_cong Or.

Lemma store_leq (La Lb : lowrank) h : leq La Lb -> lr_fit Lb -> exists h' l, lr_store La h = Ok (h', l) /\ mk h (h', TL l) (ML Lb).
Proof.
  intros Q W. assert (W' : lr_fit La). { exact (mateq_wf (ML La) (ML Lb) Q W). }
  destruct (lr_store_ok La h W') as [h' [l [E [F [S1 P]]]]]. exists h', l. split; auto. split; auto. simpl in *. split; auto.
  eapply sim_mateq; eauto.
Qed.
Lemma hlr_acc_sim h (a b : hlow) (A B : lowrank) : sim h (TL a) (ML A) -> sim h (TL b) (ML B) ->
  osim (upd h (TL a)) (hlr_acc Or a b h) (let* c := lr_acc Or A B in Ok (ML c)).
Proof.
  intros SA SB. pose proof SA as [GA [WA QA]]. pose proof SB as [GB [WB QB]]. cbn [tread mateq mwf] in QA, QB, WA, WB.
  unfold hlr_acc, lr_acc.
  pose proof (proj1 (sim_TL _ _ _) SA) as [_ [A1 [A2 _]]]. pose proof (proj1 (sim_TL _ _ _) SB) as [_ [B1 [B2 _]]]. rewrite A1, A2, B1, B2.
  destruct (l_r A =? l_r B); [|simpl; auto]. destruct (l_c A =? l_c B); [|simpl; auto].
  eapply osim_bind; [apply OC; eauto|]. intros La Lb _ _ [Q W]. destruct (store_leq La Lb h Q W) as [h' [l [E MK]]]. rewrite E. simpl.
  eapply mk_TL_upd; eauto.
Qed.

(** Using a new object. *)
Lemma step_mk {X Y} h (P : X -> Y -> Prop) (x : outcome (heap * hdense)) (y : outcome dense) f g :
  osim (fun p D => mk h (fst p, TD (snd p)) (MD D)) x y ->
  (forall h1 d D, mk h (h1, TD d) (MD D) -> osim P (f (h1, d)) (g D)) -> osim P (bind x f) (bind y g).
Proof. intros H K. eapply osim_bind; [exact H|]. intros [h1 d] D _ _ MK. apply K. exact MK. Qed.

Lemma hd_add_lr_sim h (a : hdense) (b : hlow) (A : dense) (B : lowrank) : sim h (TD a) (MD A) -> sim h (TL b) (ML B) -> tapart (TL b) (TD a) ->
  osim (fun h' D => upd h (TD a) (h', TD a) (MD D)) (hd_add_lr a b h) (d_add_lr A B).
Proof.
  intros SA SB P. unfold hd_add_lr, d_add_lr. eapply step_mk; [apply hdd_mul_sim; [apply sim_U|apply sim_S]; eauto|].
  intros h1 us US MK. destruct (mk_apart _ _ _ _ _ MK SA) as [SA' PA]. destruct (mk_apart _ _ _ _ _ MK SB) as [SB' _]. simpl in *.
  eapply osim_weaken; [apply (hdd_gemm_sim h1); eauto|].
  - apply MK.
  - apply sim_V; eauto.
  - apply tapart_sym; auto.
  - apply tapart_parts; auto.
  - intros h2 D U. apply (upd_from h h1); auto. apply MK.
Qed.

Lemma tapart_tclear A C : tapart A C -> tclear (tcell C) A.
Proof. intros H b k H1 H2. exact (H b k H1 H2). Qed.

(** ** operator+= *)
Lemma tadd_sim A : forall B h MA MB, sim h A MA -> separate A -> sim h B MB -> tapart B A ->
  osim (upd h A) (tadd Or A B h) (madd_to Or MA MB).
Proof.
  induction A as [a|a|m n a IH|r c|]; intros B h MA MB SA SP SB P; pose proof SA as [GA [WA QA]]; pose proof SB as [GB [WB QB]];
    destruct MA as [A|A|m0 n0 ma|r0 c0]; cbn [tread mateq] in QA; try tauto;
    destruct B as [b|b|m' n' b|r' c'|]; destruct MB as [B|B|m1 n1 mb|r1 c1]; cbn [tread mateq] in QB; try (simpl in QB; tauto); try (simpl; exact I); try (simpl in GB; tauto).
  - cbn [tadd madd_to]. eapply osim_bind; [apply hd_add_sim; eauto|]. intros h' D _ _ U. exact U.
  - cbn [tadd madd_to]. eapply osim_bind; [apply hd_add_lr_sim; eauto|]. intros h' D _ _ U. exact U.
  - cbn [tadd madd_to]. apply hlr_acc_sim; auto.
  - destruct QA as [<- [<- _]]. cbn [tadd madd_to].
    pose proof WA as [Hm [Hn _]].
    eapply osim_bind; [apply split_L_sim; eauto|]. intros [h1 BH] M1 _ _ [HB [f [mb [E1 [E2 [S1 CS]]]]]]. cbn [fst snd] in *. subst BH M1.
    pose proof (bufs_sim _ _ _ _ HB SA) as SA1.
    assert (U : osim (upd h1 (TH m n a)) (let* (h', c) := glist (ij_all m n) (fun i j => tadd Or (a i j) (f i j)) h1 a in Ok (h', TH m n c))
       (let* c := collect m n (fun i j => madd_to Or (ma i j) (mb i j)) in Ok (MH m n c))).
    { apply grid_upd with (mc := ma); auto. intros i j h2 Hi Hj F2 S2. apply IH; auto; [apply SP; auto| |].
      - eapply sim_tfr; [exact F2| |eapply sim_block; eauto]. apply tapart_tclear. apply (tapart_block_l m n f); auto. eapply tapart_sub; eauto.
      - apply (tapart_block m n a); auto. apply (tapart_block_l m n f); auto. eapply tapart_sub; eauto. }
    eapply osim_weaken; [exact U|]. intros p M2 UU. eapply upd_from; eauto. apply tfr_bufs; auto.
  - destruct QA as [<- [<- _]]. destruct QB as [<- [<- _]]. cbn [tadd madd_to].
    apply osim_if; auto; [|intros; exact I]. intros HL. apply andb_true_iff in HL. rewrite !Nat.leb_le in HL. destruct HL as [L1 L2].
    apply grid_upd with (mc := ma); auto. intros i j h2 Hi Hj F2 S2. apply IH; auto; [apply SP; auto| |].
    + eapply sim_tfr; [exact F2| |eapply sim_block; eauto; lia]. apply tapart_tclear. apply (tapart_block_l m' n' b); auto; lia.
    + apply (tapart_block m n a); auto. apply (tapart_block_l m' n' b); auto; lia.
Qed.

(** "C *= beta; C += x" *)
Lemma hacc_lr_sim h (c x : hlow) (C X : lowrank) beta : sim h (TL c) (ML C) -> lsep c -> sim h (TL x) (ML X) -> tapart (TL x) (TL c) ->
  osim (upd h (TL c)) (hacc_lr Or c beta x h) (acc_lr Or C beta X).
Proof.
  intros SC LS SX P. unfold hacc_lr, acc_lr. destruct (hscale_S_upd h c C beta SC LS) as [h1 [E U]]. rewrite E. simpl bind at 1.
  destruct (upd_other _ _ _ _ _ _ U SX P) as [SX' _]. simpl in SX'.
  eapply osim_weaken; [apply (hlr_acc_sim h1); eauto; apply U|]. intros p M U2. eapply upd_trans; eauto.
Qed.
Lemma hacc_h_sim h C MC (x : hlow) (X : lowrank) beta : sim h C MC -> separate C -> sim h (TL x) (ML X) -> tapart (TL x) C ->
  osim (upd h C) (hacc_h Or C beta x h) (acc_h Or MC beta X).
Proof.
  intros SC SP SX P. unfold hacc_h, acc_h. eapply osim_bind; [apply tscale_sim; eauto|]. intros h1 M1 _ _ U.
  destruct (upd_other _ _ _ _ _ _ U SX P) as [SX' _]. simpl in SX'.
  eapply osim_weaken; [apply (tadd_sim C (TL x) h1 M1 (ML X)); auto; apply U|]. intros p M U2. eapply upd_trans; [exact U|exact U2].
Qed.

(** ** Values only: densification and compression *)
Lemma clist_cong {X Y} (P : X -> Y -> Prop) (l : list (nat * nat)) f g :
  (forall i j, In (i, j) l -> osim P (f i j) (g i j)) -> osim (fun _ _ => True) (clist l f) (clist l g).
Proof.
  induction l as [|[i j] l IH]; intros H; simpl; auto. eapply osim_bind; [apply H; left; auto|]. intros x y _ _ _. apply IH. intros; apply H; right; auto.
Qed.
Lemma osim_Ok2 {X Y} (P : X -> Y -> Prop) a b x y : osim P x y -> x = Ok a -> y = Ok b -> P a b.
Proof. intros H -> ->. exact H. Qed.
Lemma collect_cong m n (f g : nat -> nat -> outcome matrix) : (forall i j, i < m -> j < n -> osim mateq (f i j) (g i j)) ->
  osim (fun a b : nat -> nat -> matrix => forall i j, i < m -> j < n -> mateq (a i j) (b i j)) (collect m n f) (collect m n g).
Proof.
  intros H.
  assert (K : osim (fun _ _ => True) (clist (ij_all m n) f) (clist (ij_all m n) g)).
  { apply (clist_cong mateq). intros i j Hin. apply in_ij_all in Hin. apply H; tauto. }
  assert (K' : osim (fun _ _ => True) (collect m n f) (collect m n g)).
  { rewrite !collect_clist. eapply osim_bind; [exact K|]. intros; exact I. }
  destruct (collect m n f) as [a| | | |] eqn:Ea; destruct (collect m n g) as [b| | | |] eqn:Eb; simpl in K'; try tauto; try exact I.
  simpl. intros i j Hi Hj. eapply osim_Ok2; [apply (H i j Hi Hj)|apply (collect_spec _ _ _ _ Ea); auto|apply (collect_spec _ _ _ _ Eb); auto].
Qed.

Lemma dd_gemm_cong (A B C A' B' C' : dense) alpha beta tA tB : deq A A' -> deq B B' -> deq C C' ->
  osim deq (dd_gemm A B C alpha beta tA tB) (dd_gemm A' B' C' alpha beta tA tB).
Proof.
  intros [A1 [A2 A3]] [B1 [B2 B3]] [C1 [C2 C3]]. unfold dd_gemm. rewrite <- A1, <- A2, <- B1, <- B2, <- C1, <- C2.
  apply osim_assert; auto. intros H1. apply osim_assert; auto. intros H2. apply osim_assert; auto. intros H3. apply Nat.eqb_eq in H1, H2, H3.
  simpl. split; auto. split; auto. intros i j Hi Hj. cbn [d_r d_c d_e] in *. rewrite <- (C3 i j Hi Hj). f_equal. f_equal.
  eapply (mmul_feq_ent _ (d_r C) (d_c C) tA tB _ _ _ _ (d_r A) (d_c A) (d_r B) (d_c B)); eauto.
Qed.
Lemma dd_mul_cong (A B A' B' : dense) alpha tA tB : deq A A' -> deq B B' -> osim deq (dd_mul A B alpha tA tB) (dd_mul A' B' alpha tA tB).
Proof.
  intros QA QB. pose proof QA as [A1 [A2 _]]. pose proof QB as [B1 [B2 _]]. unfold dd_mul. rewrite <- A1, <- A2, <- B1, <- B2.
  apply osim_assert; auto. intros _. apply dd_gemm_cong; auto. apply deq_refl.
Qed.

Lemma fill_dims M : forall (B D : dense), fill_dense_from M B = Ok D -> d_r D = d_r B /\ d_c D = d_c B.
Proof.
  destruct M as [d|l|m n a|r c]; intros B D H; simpl in H.
  - apply assert_Ok in H. destruct H as [_ H]. apply assert_Ok in H. destruct H as [_ H]. unfold d_copy_to in H.
    apply assert_Ok in H. destruct H as [_ H]. apply assert_Ok in H. destruct H as [_ H]. inversion H; subst. auto.
  - apply bind_Ok in H. destruct H as [US [_ H]]. unfold dd_gemm in H. apply assert_Ok in H. destruct H as [_ H]. apply assert_Ok in H. destruct H as [_ H]. apply assert_Ok in H. destruct H as [_ H].
    inversion H; subst; auto.
  - apply bind_Ok in H. destruct H as [BH [_ H]]. destruct BH; try discriminate. apply bind_Ok in H. destruct H as [b' [_ H]]. inversion H; subst; auto.
  - apply assert_Ok in H. destruct H as [_ H]. apply assert_Ok in H. destruct H as [_ H]. inversion H; subst. auto.
Qed.

Lemma offs_cong (w w' : nat -> nat) k : (forall i, i < k -> w i = w' i) -> forall i, i <= k -> offs w i = offs w' i.
Proof. intros H i Hi. apply offs_ext. intros; apply H; lia. Qed.

Lemma fill_cong M : forall M' (B B' : dense), mateq M M' -> mwf M' -> deq B B' -> osim deq (fill_dense_from M B) (fill_dense_from M' B').
Proof.
  induction M as [d|l|m n a IH|r c]; intros M' B B' Q W QB; destruct M' as [d'|l'|m' n' a'|r' c']; cbn [mateq] in Q; try (simpl in Q; tauto);
    pose proof QB as [B1 [B2 B3]].
  - pose proof Q as [D1 [D2 D3]]. cbn [fill_dense_from]. rewrite D1, D2, B1, B2.
    apply osim_assert; auto. intros H1. apply osim_assert; auto. intros H2. apply Nat.eqb_eq in H1, H2.
    unfold d_copy_to. rewrite D1, D2, B1, B2. apply osim_assert; auto. intros H3. apply osim_assert; auto. intros H4.
    simpl. split; auto. split; auto. intros i j Hi Hj. cbn [d_r d_c d_e] in *. rewrite !loop_all_in; auto; try (intros; reflexivity).
    apply D3; lia.
  - destruct Q as [_ [_ [_ [_ [QU [QS QV]]]]]]. cbn [fill_dense_from]. eapply osim_bind; [apply dd_mul_cong; eauto|].
    intros X Y _ _ QX. apply dd_gemm_cong; auto.
  - destruct Q as [<- [<- Q]]. pose proof W as [Hm [Hn W']].
    assert (QH : mateq (MH m n a) (MH m n a')) by (simpl; auto).
    destruct (mateq_rows _ _ QH W) as [R1 R2].
    assert (BR : forall i, i < m -> bheight a i = bheight a' i).
    { intros i Hi. unfold bheight. apply (mateq_rows _ _ (Q i 0 Hi Hn) (W' i 0 Hi Hn)). }
    assert (BC : forall j, j < n -> bwidth a j = bwidth a' j).
    { intros j Hj. unfold bwidth. apply (mateq_rows _ _ (Q 0 j Hm Hj) (W' 0 j Hm Hj)). }
    cbn [fill_dense_from].
    destruct (Nat.eq_dec (d_r B) (nrows (MH m n a))) as [E1|E1]; [destruct (Nat.eq_dec (d_c B) (ncols (MH m n a))) as [E2|E2]|].
    + destruct (split_like_dense B m n a Hm Hn E1 E2) as [bh [S1 H1]].
      assert (E1' : d_r B' = nrows (MH m n a')) by congruence. assert (E2' : d_c B' = ncols (MH m n a')) by congruence.
      destruct (split_like_dense B' m n a' Hm Hn E1' E2') as [bh' [S2 H2]]. rewrite S1, S2. simpl bind.
      change (offs (bheight a) m = offs (bheight a') m) in R1. change (offs (bwidth a) n = offs (bwidth a') n) in R2.
      change (d_r B = offs (bheight a) m) in E1. change (d_c B = offs (bwidth a) n) in E2.
      assert (CC : osim (fun x y : nat -> nat -> matrix => forall i j, i < m -> j < n -> mateq (x i j) (y i j))
        (collect m n (fun i j => match bh i j with MD bd => let* x := fill_dense_from (a i j) bd in Ok (MD x) | _ => Abort end))
        (collect m n (fun i j => match bh' i j with MD bd => let* x := fill_dense_from (a' i j) bd in Ok (MD x) | _ => Abort end))).
      { apply collect_cong. intros i j Hi Hj. rewrite H1, H2 by auto. eapply osim_bind; [apply IH; auto|].
        - pose proof (offs_lt (bheight a) i m Hi). pose proof (offs_lt (bwidth a) j n Hj).
          split; [simpl; auto|]. split; [simpl; auto|]. intros x y Hx Hy. simpl in Hx, Hy. cbn [d_e]. unfold mwin.
          rewrite <- (offs_cong _ _ m BR i), <- (offs_cong _ _ n BC j) by lia. apply B3; lia.
        - intros x y _ _ QX. exact QX. }
      eapply osim_bind; [exact CC|]. intros b b' Eb Eb' Qb. cbn [osim].
      assert (DB : forall i j, i < m -> j < n -> exists x, b i j = MD x /\ d_r x = bheight a i /\ d_c x = bwidth a j).
      { intros i j Hi Hj. pose proof (collect_spec _ _ _ _ Eb i j Hi Hj) as K. cbv beta in K. rewrite H1 in K by auto. apply bind_Ok in K.
        destruct K as [x [K1 K2]]. inversion K2. exists x. split; auto. apply fill_dims in K1. exact K1. }
      split; [exact B1|]. split; [exact B2|]. intros x y Hx Hy. cbn [join d_r d_c d_e] in *. rewrite E1 in Hx. rewrite E2 in Hy.
      destruct (locate_in _ _ _ Hx) as [i [x' [_ [Hi [Hx' ->]]]]]. destruct (locate_in _ _ _ Hy) as [j [y' [_ [Hj [Hy' ->]]]]].
      assert (HB : forall i, i < m -> bheight b i = bheight a i). { intros i0 Hi0. unfold bheight at 1. destruct (DB i0 0 Hi0 Hn) as [z [-> [Z1 _]]]. exact Z1. }
      assert (WB : forall j, j < n -> bwidth b j = bwidth a j). { intros i0 Hi0. unfold bwidth at 1. destruct (DB 0 i0 Hm Hi0) as [z [-> [_ Z1]]]. exact Z1. }
      assert (DB' : forall i j, i < m -> j < n -> exists x, b' i j = MD x /\ d_r x = bheight a i /\ d_c x = bwidth a j).
      { intros i0 j0 Hi0 Hj0. destruct (DB i0 j0 Hi0 Hj0) as [z [Ez [Z1 Z2]]]. pose proof (Qb i0 j0 Hi0 Hj0) as K. rewrite Ez in K. destruct (b' i0 j0) as [z'| | |]; simpl in K; try tauto.
        exists z'. split; auto. destruct K as [K1 [K2 _]]. split; congruence. }
      assert (HB' : forall i, i < m -> bheight b' i = bheight a i). { intros i0 Hi0. unfold bheight at 1. destruct (DB' i0 0 Hi0 Hn) as [z [-> [Z1 _]]]. exact Z1. }
      assert (WB' : forall j, j < n -> bwidth b' j = bwidth a j). { intros i0 Hi0. unfold bwidth at 1. destruct (DB' 0 i0 Hm Hi0) as [z [-> [_ Z1]]]. exact Z1. }
      transitivity (ent (b i j) x' y').
      * rewrite <- (offs_cong _ _ m HB i), <- (offs_cong _ _ n WB j) by lia. apply ent_block; auto; [rewrite HB|rewrite WB]; auto.
      * transitivity (ent (b' i j) x' y').
        -- destruct (DB i j Hi Hj) as [z [Ez [Z1 Z2]]]. pose proof (Qb i j Hi Hj) as K. rewrite Ez in K |- *. destruct (b' i j) as [z'| | |]; simpl in K; try tauto.
           simpl. apply K; lia.
        -- symmetry. rewrite <- (offs_cong _ _ m HB' i), <- (offs_cong _ _ n WB' j) by lia. apply ent_block; auto; [rewrite HB'|rewrite WB']; auto.
    + unfold split_like. rewrite <- R1, <- R2. cbn [nrows ncols] in *. rewrite <- B1, <- B2. rewrite E1, Nat.eqb_refl. apply Nat.eqb_neq in E2. rewrite E2. simpl. auto.
    + unfold split_like. rewrite <- R1, <- R2. cbn [nrows ncols] in *. rewrite <- B1, <- B2. apply Nat.eqb_neq in E1. rewrite E1. simpl. auto.
  - destruct Q as [-> ->]. cbn [fill_dense_from]. rewrite B1, B2. apply osim_assert; auto. intros _. apply osim_assert; auto. intros _.
    simpl. split; auto. split; auto. intros i j Hi Hj. cbn [d_fill d_r d_c d_e] in *. rewrite !loop_all_in; auto; lia.
Qed.
Lemma densify_cong M M' : mateq M M' -> mwf M' -> osim deq (densify M) (densify M').
Proof.
  intros Q W. destruct (mateq_rows _ _ Q W) as [E1 E2]. unfold densify. rewrite E1, E2. apply fill_cong; auto. apply deq_refl.
Qed.
Lemma crank_h_cong M M' r : mateq M M' -> mwf M' -> osim (fun a b => leq a b /\ lr_fit b) (crank_h Or M r) (crank_h Or M' r).
Proof.
  intros Q W. destruct (mateq_rows _ _ Q W) as [E1 E2]. pose proof (densify_cong M M' Q W) as D.
  destruct M as [d|l|m n a|x y]; destruct M' as [d'|l'|m' n' a'|x' y']; try (simpl in Q; tauto); try exact I.
  unfold crank_h. rewrite E1, E2. destruct Q as [<- [<- _]]. apply osim_assert; auto. intros _. apply osim_assert; auto. intros _.
  eapply osim_bind; [exact D|]. intros; apply OC; auto.
Qed.
End Or.
End Proofs.
