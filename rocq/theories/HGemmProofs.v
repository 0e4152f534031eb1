(** gemm over shared storage computes the values of gemm on matrices and changes nothing
    but its third operand. *)
From Coq Require Import List Arith ZArith QArith Lia Bool Ring_theory Ring.
From Verif Require Import Prelude Osim IndexRange Ring MatFun Matrix MatOps MatOpsProofs Gemm Heap HeapProofs HeapViews MgsHeap MgsHeapProofs.
From Verif Require Import Tree TreeProofs TreeScale TreeSim HGemm HGemmOps HGemmAdd.
Import ListNotations.
Local Open Scope nat_scope.

Section Proofs.
Context {R : cring}.
Add Ring Rr : (cr_th R).
Notation heap := (heap R).
Notation matrix := (matrix R).
Notation dense := (dense R).
Notation lowrank := (lowrank R).
Implicit Types (h : heap) (d e : hdense) (T A B C : htree) (M MA MB MC : matrix) (alpha beta : R) (t tA tB : bool).
Variable Or : oracles R.
Hypothesis OC : or_cong Or.

Lemma sim_inv h T M : sim h T M ->
  (exists d D, T = TD d /\ M = MD D) \/ (exists l L, T = TL l /\ M = ML L) \/
  (exists m n f b, T = TH m n f /\ M = MH m n b) \/ (exists r c, T = TE r c /\ M = ME r c).
Proof.
  intros [G [_ Q]]. destruct T as [d|l|m n f|r c|]; destruct M as [D|L|m' n' b|r' c']; simpl in Q; try tauto.
  - left. eauto.
  - right. left. eauto.
  - destruct Q as [<- [<- _]]. right. right. left. eauto 6.
  - destruct Q as [<- <-]. right. right. right. eauto.
  - destruct G.
Qed.

(** ** Steps that only make new objects *)
Lemma use_mul h C MC (a b : hdense) (A0 B0 : dense) alpha tA tB f g : sim h C MC -> sim h (TD a) (MD A0) -> sim h (TD b) (MD B0) ->
  (forall h1 d D, tfr none h h1 -> sim h1 (TD d) (MD D) -> tapart (TD d) C -> osim (upd h1 C) (f (h1, d)) (g D)) ->
  osim (upd h C) (bind (hdd_mul a b alpha tA tB h) f) (bind (dd_mul A0 B0 alpha tA tB) g).
Proof.
  intros SC SA SB K. eapply osim_bind; [apply hdd_mul_sim; eauto|]. intros [h1 d] D _ _ MK. simpl fst in MK. simpl snd in MK.
  eapply osim_weaken; [apply K|].
  - apply MK.
  - apply MK.
  - apply tapart_sym. apply (mk_apart _ _ _ _ _ MK SC).
  - intros p M U. apply (upd_from h h1); auto. apply MK.
Qed.
Lemma use_factor (t : bool) h C MC (x y : hdense) (X Y : dense) (f : heap * hdense -> outcome (heap * htree)) (g : outcome matrix) : sim h C MC -> sim h (TD x) (MD X) -> sim h (TD y) (MD Y) ->
  tapart (TD x) C -> tapart (TD y) C ->
  (forall h1 d, tfr none h h1 -> sim h1 (TD d) (MD (if t then d_transpose X else Y)) -> tapart (TD d) C -> osim (upd h1 C) (f (h1, d)) g) ->
  osim (upd h C) (bind (hfactor t x y h) f) g.
Proof.
  intros SC SX SY PX PY K. destruct (hfactor_ok t h x y X Y SX SY) as [h1 [d [E [F [S1 P]]]]]. rewrite E. simpl bind.
  eapply osim_weaken; [apply K; eauto|]. intros p M U. apply (upd_from h h1); auto.
Qed.
Lemma use_split h C (a : hdense) (A0 : dense) nr nc f g : sim h (TD a) (MD A0) -> 0 < nr -> 0 < nc ->
  (forall h1 b mb, tfr none h h1 -> sim h1 (TH nr nc b) (MH nr nc mb) -> (tapart (TD a) C -> tapart (TH nr nc b) C) ->
     osim (upd h1 C) (f (h1, TH nr nc b)) (g (MH nr nc mb))) ->
  osim (upd h C) (bind (tsplit_n (TD a) nr nc false h) f) (bind (split (MD A0) nr nc) g).
Proof.
  intros SA Hr Hc K. eapply osim_bind; [apply split_D_sim; eauto|]. intros [h1 T] M _ _ [HB [b [mb [wr [wc [E1 [E2 [S1 [TL SP]]]]]]]]]. simpl in *. subst T M.
  assert (F : tfr none h h1) by (apply tfr_bufs; auto).
  eapply osim_weaken; [apply K; auto|].
  - intros P. eapply tapart_sub; [|exact P]. intros x k H. apply (tiles_cells _ _ _ _ _ _ _ x k TL) in H. apply tcell_TD. apply H.
  - intros p M U. apply (upd_from h h1); auto.
Qed.

Lemma use_mk h C MC (x : outcome (heap * htree)) (y : outcome matrix) f g : sim h C MC -> osim (mk h) x y ->
  (forall h1 T M, tfr none h h1 -> sim h1 T M -> tapart T C -> osim (upd h1 C) (f (h1, T)) (g M)) ->
  osim (upd h C) (bind x f) (bind y g).
Proof.
  intros SC X K. eapply osim_bind; [exact X|]. intros [h1 T] M _ _ MK. 
  eapply osim_weaken; [apply K|].
  - apply MK.
  - apply MK.
  - apply tapart_sym. apply (mk_apart _ _ _ _ _ MK SC).
  - intros p M' U. apply (upd_from h h1); auto. apply MK.
Qed.
Lemma use_dense h C T M (f : hdense -> outcome (heap * htree)) (g : dense -> outcome matrix) : sim h T M ->
  (forall d D, T = TD d -> M = MD D -> osim (upd h C) (f d) (g D)) -> osim (upd h C) (bind (tdense T) f) (bind (to_dense M) g).
Proof.
  intros S1 K. destruct (sim_inv _ _ _ S1) as [[d [D [-> ->]]]|[[l [L [-> ->]]]|[[m [n [b [mb [-> ->]]]]]|[r [c [-> ->]]]]]]; simpl; auto.
Qed.

Lemma sim_UV h t l (L : lowrank) : sim h (TL l) (ML L) -> sim h (TD (if t then q_U l else q_V l)) (MD (if t then l_U L else l_V L)).
Proof. destruct t; [apply sim_U|apply sim_V]. Qed.
Lemma sim_VU h t l (L : lowrank) : sim h (TL l) (ML L) -> sim h (TD (if t then q_V l else q_U l)) (MD (if t then l_V L else l_U L)).
Proof. destruct t; [apply sim_V|apply sim_U]. Qed.
Lemma tapart_U l C : tapart (TL l) C -> tapart (TD (q_U l)) C.
Proof. intros H. apply (tapart_parts _ _ H). Qed.
Lemma tapart_S l C : tapart (TL l) C -> tapart (TD (q_S l)) C.
Proof. intros H. apply (tapart_parts _ _ H). Qed.
Lemma tapart_V l C : tapart (TL l) C -> tapart (TD (q_V l)) C.
Proof. intros H. apply (tapart_parts _ _ H). Qed.
Lemma tapart_UV t l C : tapart (TL l) C -> tapart (TD (if t then q_U l else q_V l)) C.
Proof. destruct t; [apply tapart_U|apply tapart_V]. Qed.
Lemma tapart_VU t l C : tapart (TL l) C -> tapart (TD (if t then q_V l else q_U l)) C.
Proof. destruct t; [apply tapart_V|apply tapart_U]. Qed.

Lemma sim_dims h t T M : sim h T M -> topr t T = opr t M /\ topc t T = opc t M.
Proof. intros S1. destruct (sim_rows _ _ _ S1) as [E1 E2]. unfold topr, topc, opr, opc. destruct t; auto. Qed.
Lemma sim_pos h m n f b : sim h (TH m n f) (MH m n b) -> 0 < m /\ 0 < n.
Proof. intros [_ [[H1 [H2 _]] _]]. auto. Qed.
Lemma dims_pos0 t m n : 0 < m -> 0 < n -> 0 < dim0 t m n /\ 0 < dim1 t m n.
Proof. destruct t; auto. Qed.
Lemma sim_opb h t m n f b i k : sim h (TH m n f) (MH m n b) -> i < dim0 t m n -> k < dim1 t m n -> sim h (topb t f i k) (opb t b i k).
Proof. destruct t; simpl; intros; eapply sim_block; eauto. Qed.
Lemma tapart_opb t m n f C i k : tapart (TH m n f) C -> i < dim0 t m n -> k < dim1 t m n -> tapart (topb t f i k) C.
Proof. destruct t; simpl; intros; apply (tapart_block_l m n f); auto. Qed.
Lemma tvec_sim h m n f b k : sim h (TH m n f) (MH m n b) ->
  osim (fun T M => sim h T M /\ forall C, tapart (TH m n f) C -> tapart T C) (tvec m n f k) (hvec m n b k).
Proof.
  intros S1. destruct (sim_pos _ _ _ _ _ S1). unfold tvec, hvec. apply osim_if; auto; [|intros _; apply osim_if; auto; [|intros; exact I]];
    intros _; apply osim_assert; auto; intros HK; apply Nat.ltb_lt in HK; (split; [eapply sim_block; eauto|intros C P; apply (tapart_block_l m n f); auto]).
Qed.

(** ** The step *)
Definition gsim (g : hgemm_t) (pg : gemm_t) : Prop := forall A B C MA MB MC alpha beta tA tB h,
  sim h A MA -> sim h B MB -> sim h C MC -> separate C -> tapart A C -> tapart B C ->
  osim (upd h C) (g A B C alpha beta tA tB h) (pg MA MB MC alpha beta tA tB).
Definition nsim (gn : hnew_t) (pgn : new_t) : Prop := forall A B MA MB alpha tA tB h,
  sim h A MA -> sim h B MB -> osim (mk h) (gn A B alpha tA tB h) (pgn MA MB alpha tA tB).

Section Step.
Variable g : @hgemm_t R.
Variable pg : @gemm_t R.
Variable gn : @hnew_t R.
Variable pgn : @new_t R.
Hypothesis HG : gsim g pg.
Hypothesis HN : nsim gn pgn.

Lemma into_views_sim A B (c : hdense) MA MB (C0 : dense) nr nc alpha beta tA tB h : 0 < nr -> 0 < nc ->
  sim h A MA -> sim h B MB -> sim h (TD c) (MD C0) -> tapart A (TD c) -> tapart B (TD c) ->
  osim (upd h (TD c)) (hinto_views g A B c nr nc alpha beta tA tB h) (into_views pg MA MB C0 nr nc alpha beta tA tB).
Proof.
  intros Hr Hc SA SB SC PA PB. unfold hinto_views, into_views.
  eapply osim_bind; [apply split_D_sim; eauto|]. intros [h1 T] M _ _ [HB [f [mb [wr [wc [E1 [E2 [S1 [TL SP]]]]]]]]]. simpl in *. subst T M.
  assert (F1 : tfr none h h1) by (apply tfr_bufs; auto).
  assert (CE : forall b k, tcell (TH nr nc f) b k <-> cell c b k).
  { intros b k. rewrite (tiles_cells _ _ _ _ _ _ _ b k TL). tauto. }
  assert (PT : forall T, tapart T (TD c) -> tapart T (TH nr nc f)).
  { intros T P b k H1 H2. apply (P b k H1). apply tcell_TD. apply CE. auto. }
  eapply osim_bind; [apply (HG A B (TH nr nc f) MA MB (MH nr nc mb)); auto; eapply sim_none; eauto|].
  intros [h2 CH] M2 _ _ [F2 [S2 [_ [_ K]]]]. simpl in F2, S2, K.
  destruct CH as [| |m' n' f'| |]; simpl in K; try tauto. destruct K as [<- [<- K]].
  pose proof S2 as [_ [W2 Q2]]. destruct M2 as [| |m' n' b2|]; simpl in Q2; try tauto. destruct Q2 as [<- [<- Q2]].
  cbn [osim]. destruct (proj1 (sim_TD _ _ _) SC) as [G [D1 [D2 D3]]]. simpl in D1, D2.
  assert (F : tfr (tcell (TD c)) h h2).
  { eapply tfr_trans; [eapply tfr_mono; [|exact F1]; intros b k _ []|]. eapply tfr_mono; [|exact F2]. intros b k _ H. apply tcell_TD. apply CE. auto. }
  split; [exact F|]. simpl fst. simpl snd. split; [|split; [exact I|split; [auto|reflexivity]]].
  apply sim_TD. split; [eapply tfr_good; eauto|]. split; [exact D1|]. split; [exact D2|].
  destruct TL as [T1 [T2 T3]].
  assert (BL : forall i j, i < nr -> j < nc -> exists e z, window e c (offs wr i) (offs wc j) /\ h_r e = wr i /\ h_c e = wc j /\ b2 i j = MD z /\ deq (dread h2 e) z).
  { intros i j Hi Hj. destruct (T3 i j Hi Hj) as [e [E [_ [E1 [E2 W]]]]]. pose proof (K i j Hi Hj) as Ke. rewrite E in Ke. pose proof (Q2 i j Hi Hj) as Qe.
    destruct (f' i j) as [e'| | | |]; simpl in Ke; try tauto. subst e'. destruct (b2 i j) as [z| | |]; simpl in Qe; try tauto. exists e, z. auto. }
  assert (H1 : forall i, i < nr -> bheight b2 i = wr i).
  { intros i Hi. unfold bheight. destruct (BL i 0 Hi Hc) as [e [z [_ [E1 [_ [-> [Z _]]]]]]]. simpl in Z |- *. congruence. }
  assert (H2 : forall j, j < nc -> bwidth b2 j = wc j).
  { intros j Hj. unfold bwidth. destruct (BL 0 j Hr Hj) as [e [z [_ [_ [E1 [-> [_ [Z _]]]]]]]]. simpl in Z |- *. congruence. }
  intros x y Hx Hy. cbn [dread join d_r d_c d_e] in *. rewrite <- T1 in Hx. rewrite <- T2 in Hy.
  destruct (locate_in _ _ _ Hx) as [i [x' [_ [Hi [Hx' ->]]]]]. destruct (locate_in _ _ _ Hy) as [j [y' [_ [Hj [Hy' ->]]]]].
  rewrite <- (offs_cong _ _ nr H1 i), <- (offs_cong _ _ nc H2 j) by lia.
  rewrite (ent_block nr nc b2 i j x' y') by (rewrite ?H1, ?H2; auto).
  destruct (BL i j Hi Hj) as [e [z [W [E1 [E2 [-> [Z1 [Z2 Z3]]]]]]]]. simpl ent. simpl in Z1, Z2, Z3. rewrite <- Z3 by lia.
  rewrite (offs_cong _ _ nr H1 i), (offs_cong _ _ nc H2 j) by lia.
  pose proof (window_hent e c _ _ W h2 x' y') as WH. unfold hent in WH. auto.
Qed.

Ltac mv F := repeat match type of F with tfr none ?h ?h1 =>
  match goal with S1 : sim h _ _ |- _ => apply (sim_none _ h1 _ _ F) in S1 end end.
Ltac part := first [eassumption | apply sim_U; eassumption | apply sim_S; eassumption | apply sim_V; eassumption
  | apply sim_UV; eassumption | apply sim_VU; eassumption | apply tapart_U; eassumption | apply tapart_S; eassumption | apply tapart_V; eassumption
  | apply tapart_UV; eassumption | apply tapart_VU; eassumption].
Ltac mul := eapply use_mul; [eassumption | part | part |]; let h := fresh "h" in let F := fresh "F" in intros h ? ? F ? ?; mv F; cbv beta iota.
Ltac fact := eapply use_factor; [eassumption | part | part | part | part |]; let h := fresh "h" in let F := fresh "F" in intros h ? F ? ?; mv F; cbv beta iota.
Ltac pos := repeat match goal with |- context [if ?b then _ else _] => destruct b end; auto.
Ltac spl := eapply use_split; [eassumption | pos | pos |]; let h := fresh "h" in let F := fresh "F" in intros h ? ? F ? ?; mv F; cbv beta iota.
Ltac fin := eapply osim_bind; [apply hdd_gemm_sim; part|]; let h := fresh "h" in intros h ? _ _ ?; assumption.

Lemma hlr_lr_mid_sim h (a b : hlow) (A0 B0 : lowrank) alpha tA tB : sim h (TL a) (ML A0) -> sim h (TL b) (ML B0) ->
  osim (fun p D => mk h (fst p, TD (snd p)) (MD D)) (hlr_lr_mid a b alpha tA tB h) (lr_lr_mid A0 B0 alpha tA tB).
Proof.
  intros SA SB. unfold hlr_lr_mid, lr_lr_mid.
  eapply osim_bind; [apply hdd_mul_sim; [apply sim_S|apply sim_UV]; eauto|]. intros [h1 x] X _ _ MX. simpl fst in MX. simpl snd in MX.
  assert (F1 : tfr none h h1) by apply MX. assert (SX : sim h1 (TD x) (MD X)) by apply MX. mv F1.
  eapply osim_bind; [apply hdd_mul_sim; [apply sim_VU|apply sim_S]; eauto|]. intros [h2 y] Y _ _ MY. simpl fst in MY. simpl snd in MY.
  assert (F2 : tfr none h1 h2) by apply MY. assert (SY : sim h2 (TD y) (MD Y)) by apply MY. mv F2.
  eapply osim_weaken; [apply hdd_mul_sim; eauto|]. intros p D MK. eapply mk_from; [|exact MK]. eapply tfr_trans; eauto.
Qed.
Lemma use_mid h C MC (a b : hlow) (A0 B0 : lowrank) alpha tA tB f k : sim h C MC -> sim h (TL a) (ML A0) -> sim h (TL b) (ML B0) ->
  (forall h1 d D, tfr none h h1 -> sim h1 (TD d) (MD D) -> tapart (TD d) C -> osim (upd h1 C) (f (h1, d)) (k D)) ->
  osim (upd h C) (bind (hlr_lr_mid a b alpha tA tB h) f) (bind (lr_lr_mid A0 B0 alpha tA tB) k).
Proof.
  intros SC SA SB K. eapply osim_bind; [apply hlr_lr_mid_sim; eauto|]. intros [h1 d] D _ _ MK. simpl fst in MK. simpl snd in MK.
  eapply osim_weaken; [apply K|].
  - apply MK.
  - apply MK.
  - apply tapart_sym. apply (mk_apart _ _ _ _ _ MK SC).
  - intros p M U. apply (upd_from h h1); auto. apply MK.
Qed.
Ltac mid := eapply use_mid; [eassumption | assumption | assumption |]; let h := fresh "h" in let F := fresh "F" in intros h ? ? F ? ?; mv F; cbv beta iota.
Ltac new := eapply use_mk; [eassumption | apply HN; part |]; let h := fresh "h" in let F := fresh "F" in intros h ? ? F ? ?; mv F; cbv beta iota;
  try (eapply use_dense; [eassumption|]; intros ? ? -> ->).
Ltac made := first [apply sim_make; part | apply tapart_make; part].
Ltac acc := first [apply hacc_lr_sim | apply hacc_h_sim]; auto; made.

Lemma use_eps_sim h (c : hlow) (C0 : lowrank) : sim h (TL c) (ML C0) -> tuse_eps c = use_eps C0 /\ q_eps c = l_eps C0 /\ q_rank c = l_rank C0.
Proof. intros S1. apply sim_TL in S1. destruct S1 as [_ [_ [_ [E1 [E2 _]]]]]. unfold tuse_eps, use_eps. rewrite E2. auto. Qed.

Lemma row_loop A MA bm bn b mb n c mc alpha beta tA tB h : sim h A MA -> sim h (TH bm bn b) (MH bm bn mb) -> sim h (TH 1 n c) (MH 1 n mc) ->
  separate (TH 1 n c) -> tapart A (TH 1 n c) -> tapart (TH bm bn b) (TH 1 n c) ->
  osim (upd h (TH 1 n c))
    (let* (h', c') := glist (ij_all 1 n) (fun _ j h => let* bj := tvec bm bn b j in let* cj := tvec 1 n c j in g A bj cj alpha beta tA tB h) h c in
     Ok (h', TH 1 n c'))
    (let* c' := collect 1 n (fun _ j => let* bj := hvec bm bn mb j in let* cj := hvec 1 n mc j in pg MA bj cj alpha beta tA tB) in Ok (MH 1 n c')).
Proof.
  intros SA SB SC SP PA PB. apply grid_upd with (mc := mc); auto. intros i j h2 Hi Hj F2 S2. assert (i = 0) by lia. subst i.
  assert (SB2 : sim h2 (TH bm bn b) (MH bm bn mb)) by (eapply sim_tfr; [exact F2|apply tapart_tclear; auto|auto]).
  assert (SA2 : sim h2 A MA) by (eapply sim_tfr; [exact F2|apply tapart_tclear; auto|auto]).
  eapply osim_bind; [apply tvec_sim; exact SB2|]. intros T M _ _ [S3 P3].
  unfold tvec, hvec. cbn [Nat.eqb]. assert (LT : (j <? n) = true) by (apply Nat.ltb_lt; auto). rewrite LT. simpl bind.
  apply HG; auto; [apply SP; auto| |]; apply (tapart_block 1 n c); auto.
Qed.
Lemma col_loop B MB am an a ma m c mc p alpha beta tA tB h : sim h B MB -> sim h (TH am an a) (MH am an ma) -> sim h (TH m 1 c) (MH m 1 mc) ->
  separate (TH m 1 c) -> tapart B (TH m 1 c) -> tapart (TH am an a) (TH m 1 c) ->
  osim (upd h (TH m 1 c))
    (let* (h', c') := glist (ij_all p 1) (fun i _ h => let* ai := tvec am an a i in let* ci := tvec m 1 c i in g ai B ci alpha beta tA tB h) h c in
     Ok (h', TH m 1 c'))
    (let* c' := collect p 1 (fun i _ => let* ai := hvec am an ma i in let* ci := hvec m 1 mc i in pg ai MB ci alpha beta tA tB) in
     Ok (MH m 1 (fun i j => if i <? p then c' i 0 else mc i j))).
Proof.
  intros SB SA SC SP PB PA. apply rows_upd; auto. intros i h2 Hi F2 S2.
  assert (SA2 : sim h2 (TH am an a) (MH am an ma)) by (eapply sim_tfr; [exact F2|apply tapart_tclear; auto|auto]).
  assert (SB2 : sim h2 B MB) by (eapply sim_tfr; [exact F2|apply tapart_tclear; auto|auto]).
  eapply osim_bind; [apply tvec_sim; exact SA2|]. intros T M _ _ [S3 P3].
  assert (CI : (tvec m 1 c i = AssertFail /\ hvec m 1 mc i = AssertFail) \/ (i < m /\ tvec m 1 c i = Ok (c i 0) /\ hvec m 1 mc i = Ok (mc i 0))).
  { unfold tvec, hvec. destruct (Nat.eqb_spec m 1) as [->|NE].
    - destruct (Nat.ltb_spec i 1) as [L|L]; [|auto]. right. assert (i = 0) by lia. subst i. auto.
    - simpl. destruct (Nat.ltb_spec i m); auto. }
  destruct CI as [[-> ->]|[Him [-> ->]]]; [exact I|]. simpl bind.
  eapply osim_weaken; [apply HG; eauto|].
  - apply SP; auto.
  - apply (tapart_block m 1 c); auto.
  - apply (tapart_block m 1 c); auto.
  - intros p0 M0 U. auto.
Qed.

Lemma hgemm_step_sim : gsim (hgemm_step Or g gn) (gemm_step Or pg pgn).
Proof.
  intros A B C MA MB MC alpha beta tA tB h SA SB SC SP PA PB.
  unfold hgemm_step, gemm_step.
  destruct (sim_dims h tA A MA SA) as [-> ->]. destruct (sim_dims h tB B MB SB) as [-> ->]. destruct (sim_rows _ _ _ SC) as [-> ->].
  apply osim_assert; auto. intros _. apply osim_assert; auto. intros _. apply osim_assert; auto. intros _.
  destruct (sim_inv _ _ _ SA) as [[a [A0 [-> ->]]]|[[a [A0 [-> ->]]]|[[am [an [a [ma [-> ->]]]]]|[r1 [c1 [-> ->]]]]]];
  destruct (sim_inv _ _ _ SB) as [[b [B0 [-> ->]]]|[[b [B0 [-> ->]]]|[[bm [bn [b [mb [-> ->]]]]]|[r2 [c2 [-> ->]]]]]];
  destruct (sim_inv _ _ _ SC) as [[c [C0 [-> ->]]]|[[c [C0 [-> ->]]]|[[m [n [c [mc [-> ->]]]]]|[r3 [c3 [-> ->]]]]]]; try exact I; cbv iota beta;
  try (assert (PM := sim_pos _ _ _ _ _ SA); destruct PM as [PA1 PA2]; destruct (dims_pos0 tA am an PA1 PA2) as [PA3 PA4]);
  try (assert (PM := sim_pos _ _ _ _ _ SB); destruct PM as [PB1 PB2]; destruct (dims_pos0 tB bm bn PB1 PB2) as [PB3 PB4]);
  try (assert (PM := sim_pos _ _ _ _ _ SC); destruct PM as [PC1 PC2]).
  - (* D D D *) fin.
  - (* D D LR *)
    destruct (hscale_S_upd h c C0 beta SC SP) as [h1 [E U]]. rewrite E. simpl bind at 1.
    destruct (upd_other _ _ _ _ _ _ U SA PA) as [SA1 _]. destruct (upd_other _ _ _ _ _ _ U SB PB) as [SB1 _]. simpl in SA1, SB1.
    pose proof U as [F1 [SC1 [SP1 _]]]. simpl in SC1, SP1, F1.
    cut (osim (upd h1 (TL c))
      (let* (h2, ab) := hdd_mul a b alpha tA tB h1 in let* (h3, x) := hcompress_like Or c ab h2 in hlr_acc Or c x h3)
      (let* ab := dd_mul A0 B0 alpha tA tB in let* x := compress_like Or C0 ab in acc_lr Or C0 beta x)).
    { intros X. eapply osim_weaken; [exact X|]. intros p M U2. eapply upd_trans; eauto. }
    mul. rename h0 into h2. unfold hcompress_like, compress_like. rewrite bind_assoc.
    destruct (use_eps_sim _ _ _ SC) as [X1 [X2 X3]]. rewrite X1, X2, X3.
    assert (OK : osim (fun x y => leq x y /\ lr_fit y) (if use_eps C0 then ceps Or (dread h2 d) (l_eps C0) else crank Or (dread h2 d) (l_rank C0))
        (if use_eps C0 then ceps Or D (l_eps C0) else crank Or D (l_rank C0))).
    { match goal with S1 : sim h2 (TD d) (MD D) |- _ => apply sim_TD in S1; destruct S1 as [_ Qd] end. destruct (use_eps C0); apply OC; auto. }
    eapply osim_bind; [exact OK|]. intros La Lb _ _ [Q W]. destruct (store_leq La Lb h2 Q W) as [h3 [x [E3 MK]]]. rewrite E3. simpl bind at 1.
    destruct (mk_apart _ _ _ _ _ MK SC1) as [SC3 _]. simpl in SC3.
    unfold acc_lr. eapply osim_weaken; [apply (hlr_acc_sim Or OC h3); [exact SC3|apply MK]|]. intros p M U3. apply (upd_from h2 h3); auto. apply MK.
  - (* D D H *)
    apply osim_if; auto; [intros; exact I|]. intros _. apply osim_if; auto.
    + intros _. spl. apply HG; auto.
    + intros _. apply osim_if; auto; intros _.
      * spl. apply HG; auto.
      * spl. spl. apply HG; auto.
  - (* D LR D *) mul. mul. fin.
  - (* D LR LR *) mul. unfold hlr_mid, hlr_right. fact. fact. acc.
  - (* D LR H *) mul. unfold hlr_mid, hlr_right. fact. fact. acc.
  - (* D H D *)
    apply osim_if; auto; [intros E; apply andb_true_iff in E; rewrite !Nat.eqb_eq in E; destruct E as [-> ->]|intros _].
    + apply HG; auto; [eapply sim_block; eauto|apply (tapart_block_l 1 1 b); auto].
    + apply into_views_sim; auto.
  - (* D H LR *) spl. apply HG; auto.
  - (* D H H *)
    apply osim_assert; auto. intros _.
    apply osim_if; auto; [intros E; apply andb_true_iff in E; rewrite !Nat.eqb_eq in E; destruct E as [-> ->]|intros _].
    + apply HG; auto; [eapply sim_block; eauto|apply (tapart_block_l 1 1 b); auto].
    + apply osim_if; auto; [intros E; apply andb_true_iff in E; rewrite !Nat.eqb_eq in E; destruct E as [_ ->]|intros _].
      * apply row_loop; auto.
      * spl. apply HG; auto.
  - (* LR D D *) mul. mul. fin.
  - (* LR D LR *) unfold hlr_left, hlr_mid. fact. fact. mul. acc.
  - (* LR D H *) unfold hlr_left, hlr_mid. fact. fact. mul. acc.
  - (* LR LR D *) mul. mul. mul. mul. fin.
  - (* LR LR LR *) unfold hlr_left, hlr_right. fact. mid. fact. acc.
  - (* LR LR H *) unfold hlr_left, hlr_right. fact. mid. fact. acc.
  - (* LR H D *)
    apply osim_if; auto; [intros E; apply andb_true_iff in E; rewrite !Nat.eqb_eq in E; destruct E as [-> ->]|intros _].
    + apply HG; auto; [eapply sim_block; eauto|apply (tapart_block_l 1 1 b); auto].
    + apply into_views_sim; auto.
  - (* LR H LR *) unfold hlr_left, hlr_mid. fact. fact. new. acc.
  - (* LR H H *)
    apply osim_assert; auto. intros _.
    apply osim_if; auto; [intros E; apply andb_true_iff in E; rewrite !Nat.eqb_eq in E; destruct E as [-> ->]|intros _].
    + apply HG; auto; [eapply sim_block; eauto|apply (tapart_block_l 1 1 b); auto].
    + apply osim_if; auto; [intros E; apply andb_true_iff in E; rewrite !Nat.eqb_eq in E; destruct E as [_ ->]|intros _].
      * apply row_loop; auto.
      * new. acc.
  - (* H D D *)
    apply osim_if; auto; [intros E; apply andb_true_iff in E; rewrite !Nat.eqb_eq in E; destruct E as [-> ->]|intros _].
    + apply HG; auto; [eapply sim_block; eauto|apply (tapart_block_l 1 1 a); auto].
    + apply into_views_sim; auto.
  - (* H D LR *) spl. apply HG; auto.
  - (* H D H *)
    apply osim_if; auto; [intros E; apply andb_true_iff in E; rewrite !Nat.eqb_eq in E; destruct E as [-> ->]|intros _].
    + apply HG; auto; [eapply sim_block; eauto|apply (tapart_block_l 1 1 a); auto].
    + apply osim_if; auto; [intros E; apply andb_true_iff in E; rewrite !Nat.eqb_eq in E; destruct E as [_ ->]|intros _].
      * apply col_loop; auto.
      * spl. apply HG; auto.
  - (* H LR D *)
    apply osim_if; auto; [intros E; apply andb_true_iff in E; rewrite !Nat.eqb_eq in E; destruct E as [-> ->]|intros _].
    + apply HG; auto; [eapply sim_block; eauto|apply (tapart_block_l 1 1 a); auto].
    + apply into_views_sim; auto.
  - (* H LR LR *) unfold hlr_mid, hlr_right. new. fact. fact. acc.
  - (* H LR H *)
    apply osim_if; auto; [intros E; apply andb_true_iff in E; rewrite !Nat.eqb_eq in E; destruct E as [-> ->]|intros _].
    + apply HG; auto; [eapply sim_block; eauto|apply (tapart_block_l 1 1 a); auto].
    + apply osim_if; auto; [intros E; apply andb_true_iff in E; rewrite !Nat.eqb_eq in E; destruct E as [_ ->]|intros _].
      * apply col_loop; auto.
      * new. acc.
  - (* H H D *)
    apply osim_assert; auto. intros ED. apply Nat.eqb_eq in ED.
    apply osim_if; auto; intros _.
    + apply for_upd; auto. intros k h1 C1 M1 Hk U.
      destruct (upd_other _ _ _ _ _ _ U SA PA) as [SA1 PA1']. destruct (upd_other _ _ _ _ _ _ U SB PB) as [SB1 PB1']. simpl in SA1, SB1, PA1', PB1'.
      cbv beta iota. eapply osim_bind; [apply tvec_sim; exact SA1|]. intros T1 N1 _ _ [S1 Q1].
      eapply osim_bind; [apply tvec_sim; exact SB1|]. intros T2 N2 _ _ [S2 Q2].
      apply HG; auto; apply U.
    + apply into_views_sim; auto.
  - (* H H LR *)
    destruct (use_eps_sim _ _ _ SC) as [-> [-> ->]]. apply osim_if; auto; intros _.
    + pose proof SC as [_ [WC QC]].
      eapply osim_bind; [apply (densify_cong _ _ QC WC)|]. intros D1 D2 _ _ QD. destruct (d_store_ok D1 h) as [h1 [cd [E1 MK]]]. rewrite E1. simpl bind at 1.
      destruct (mk_apart _ _ _ _ _ MK SA) as [SA1 PA1']. destruct (mk_apart _ _ _ _ _ MK SB) as [SB1 PB1']. simpl in SA1, SB1, PA1', PB1'.
      assert (S1 : sim h1 (TD cd) (MD D2)). { eapply sim_mateq; [apply MK|exact QD|exact I]. }
      eapply osim_bind; [apply (HG (TH am an a) (TH bm bn b) (TD cd)); eauto; exact I|]. intros [h2 X] MX _ _ U2.
      assert (S2 : sim h2 X MX) by apply U2. assert (F2 : tfr none h h2).
      { pose proof (mk_upd h h1 (TD cd) (MD D1) (h2, X) MX MK U2) as MK2. apply MK2. }
      destruct (sim_inv _ _ _ S2) as [[x [D [-> ->]]]|[[l [L [-> ->]]]|[[m' [n' [f' [b' [-> ->]]]]]|[r [c' [-> ->]]]]]]; try exact I. simpl bind.
      apply sim_TD in S2. destruct S2 as [_ Q2].
      eapply osim_bind; [apply OC; exact Q2|]. intros La Lb _ _ [Q W]. destruct (store_leq La Lb h2 Q W) as [h3 [c' [E3 MK3]]]. rewrite E3. simpl.
      apply (mk_TL_upd h c (ML C0)); auto. eapply mk_from; eauto.
    + eapply use_mk; [eassumption|apply HN; assumption|]. intros h1 AB MAB F1 S1 P1. mv F1. cbv beta iota.
      pose proof S1 as [_ [W1 Q1]]. eapply osim_bind; [apply (crank_h_cong Or OC _ _ _ Q1 W1)|]. intros La Lb _ _ [Q W].
      destruct (store_leq La Lb h1 Q W) as [h2 [x [E2 MK2]]]. rewrite E2. simpl bind at 1.
      destruct (mk_apart _ _ _ _ _ MK2 SC) as [SC2 PX]. simpl in SC2, PX.
      eapply osim_weaken; [apply (hacc_lr_sim Or OC h2 c x C0 Lb beta SC2); auto; [apply MK2|apply tapart_sym; auto]|].
      intros p M U. apply (upd_from h1 h2); auto. apply MK2.
  - (* H H H *)
    apply osim_assert; auto. intros E1. apply osim_assert; auto. intros E2. apply osim_assert; auto. intros E3. apply Nat.eqb_eq in E1, E2, E3.
    apply grid_upd with (mc := mc); auto. intros i j h2 Hi Hj F2 S2.
    assert (SA2 : sim h2 (TH am an a) (MH am an ma)) by (eapply sim_tfr; [exact F2|apply tapart_tclear; auto|auto]).
    assert (SB2 : sim h2 (TH bm bn b) (MH bm bn mb)) by (eapply sim_tfr; [exact F2|apply tapart_tclear; auto|auto]).
    apply for_upd; auto; [apply SP; auto|]. intros k h1 C1 M1 Hk U. cbv beta iota.
    assert (PA' := tapart_block m n c _ i j PA Hi Hj). assert (PB' := tapart_block m n c _ i j PB Hi Hj).
    destruct (upd_other _ _ _ _ _ _ U SA2 PA') as [SA1 PA1']. destruct (upd_other _ _ _ _ _ _ U SB2 PB') as [SB1 PB1']. simpl in SA1, SB1, PA1', PB1'.
    apply HG; try apply U.
    + apply (sim_opb _ _ am an); auto; lia.
    + apply (sim_opb _ _ bm bn); auto; lia.
    + apply (tapart_opb _ am an); auto; lia.
    + apply (tapart_opb _ bm bn); auto; lia.
  - (* H E D *)
    apply osim_if; auto; [intros E; apply andb_true_iff in E; rewrite !Nat.eqb_eq in E; destruct E as [-> ->]|intros _].
    + apply HG; auto; [eapply sim_block; eauto|apply (tapart_block_l 1 1 a); auto].
    + apply into_views_sim; auto.
  - (* E H D *)
    apply osim_if; auto; [intros E; apply andb_true_iff in E; rewrite !Nat.eqb_eq in E; destruct E as [-> ->]|intros _].
    + apply HG; auto; [eapply sim_block; eauto|apply (tapart_block_l 1 1 b); auto].
    + apply into_views_sim; auto.
Qed.

Lemma use_zeros h A B MA MB r c alpha tA tB : sim h A MA -> sim h B MB ->
  osim (mk h) (let '(h1, d) := h_new h r c in g A B (TD d) alpha 0%r tA tB h1) (pg MA MB (MD (d_zeros r c)) alpha 0%r tA tB).
Proof.
  intros SA SB. destruct (h_new h r c) as [h1 d] eqn:E. pose proof (h_new_mk _ _ _ _ _ E) as MK.
  destruct (mk_apart _ _ _ _ _ MK SA) as [SA1 PA1]. destruct (mk_apart _ _ _ _ _ MK SB) as [SB1 PB1]. simpl in SA1, SB1, PA1, PB1.
  eapply osim_weaken; [apply (HG A B (TD d)); eauto; [apply MK|exact I]|]. intros p M U. eapply mk_upd; eauto.
Qed.

Lemma hnew_step_sim : nsim (hnew_step g gn) (new_step pg pgn).
Proof.
  intros A B MA MB alpha tA tB h SA SB. unfold hnew_step, new_step.
  destruct (sim_dims h tA A MA SA) as [-> ->]. destruct (sim_dims h tB B MB SB) as [-> ->].
  apply osim_assert; auto. intros _.
  destruct (sim_inv _ _ _ SA) as [[a [A0 [-> ->]]]|[[a [A0 [-> ->]]]|[[am [an [a [ma [-> ->]]]]]|[r1 [c1 [-> ->]]]]]];
  destruct (sim_inv _ _ _ SB) as [[b [B0 [-> ->]]]|[[b [B0 [-> ->]]]|[[bm [bn [b [mb [-> ->]]]]]|[r2 [c2 [-> ->]]]]]]; cbv iota beta;
  try (apply use_zeros; assumption).
  destruct (sim_pos _ _ _ _ _ SA) as [PA1 PA2]. destruct (dims_pos0 tA am an PA1 PA2) as [PA3 PA4].
  destruct (sim_pos _ _ _ _ _ SB) as [PB1 PB2]. destruct (dims_pos0 tB bm bn PB1 PB2) as [PB3 PB4].
  apply osim_if; auto; intros _; [apply use_zeros; assumption|].
  apply grid_new; auto. intros i j h2 Hi Hj F2. mv F2.
  eapply osim_bind; [apply HN; [apply (sim_opb _ _ am an)|apply (sim_opb _ _ bm bn)]; eauto|]. intros [h1 c0] M0 _ _ MK. cbv beta iota.
  destruct (mk_apart _ _ _ _ _ MK SA) as [SA1 PA]. destruct (mk_apart _ _ _ _ _ MK SB) as [SB1 PB]. simpl in SA1, SB1, PA, PB.
  eapply osim_weaken; [apply (for_upd h1 c0 M0); [apply MK|apply MK|]|].
  - intros k h3 C1 M1 Hk U. cbv beta iota. apply osim_assert; auto. intros HB. apply Nat.ltb_lt in HB.
    destruct (upd_other _ _ _ _ _ _ U SA1 PA) as [SA3 PA5]. destruct (upd_other _ _ _ _ _ _ U SB1 PB) as [SB3 PB5]. simpl in SA3, SB3, PA5, PB5.
    apply HG; try apply U.
    + apply (sim_opb _ _ am an); auto; lia.
    + apply (sim_opb _ _ bm bn); auto; lia.
    + apply (tapart_opb _ am an); auto; lia.
    + apply (tapart_opb _ bm bn); auto; lia.
  - intros p M U. eapply mk_upd; eauto.
Qed.
End Step.

Lemma hgemm_pair_sim fuel : gsim (fst (hgemm_pair Or fuel)) (fst (gemm_pair Or fuel)) /\ nsim (snd (hgemm_pair Or fuel)) (snd (gemm_pair Or fuel)).
Proof.
  induction fuel as [|fuel [IG IN]].
  - split; simpl; [intros A B C MA MB MC alpha beta tA tB h _ _ _ _ _ _; exact I|intros A B MA MB alpha tA tB h _ _; exact I].
  - simpl. split; [apply hgemm_step_sim|apply hnew_step_sim]; auto.
Qed.
Lemma hgemm_sim fuel : gsim (hgemm Or fuel) (gemm Or fuel).
Proof. apply hgemm_pair_sim. Qed.
Lemma hgemm_new_sim fuel : nsim (hgemm_new Or fuel) (gemm_new Or fuel).
Proof. apply hgemm_pair_sim. Qed.
End Proofs.
