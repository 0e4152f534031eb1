(** Scaling objects in place, and blocks of a LowRank that share its middle factor. *)
From Coq Require Import List Arith ZArith QArith Lia Bool Ring_theory Ring.
From Verif Require Import Prelude IndexRange Ring MatFun Matrix MatOps MatOpsProofs Heap HeapProofs HeapViews Tree TreeProofs.
Import ListNotations.
Local Open Scope nat_scope.

Section Proofs.
Context {R : cring}.
Add Ring Rr : (cr_th R).
Notation heap := (heap R).
Notation matrix := (matrix R).
Notation mat := (mat R).
Implicit Types (h : heap) (d : hdense) (T : htree).

(** A loop that may read the element it is about to write. *)
Lemma h_loop_in_place l A w (f : mat) : forall h, good h A -> NoDup l ->
  (forall i j, In (i, j) l -> i < h_r A /\ j < h_c A) ->
  (forall h1 i j, In (i, j) l -> frame h h1 A -> hent h1 A i j = hent h A i j -> w h1 i j = Ok (f i j)) ->
  exists h', h_loop l A w h = Ok h' /\ frame h h' A /\
    (forall i j, In (i, j) l -> hent h' A i j = f i j) /\
    (forall i j, i < h_r A -> j < h_c A -> ~ In (i, j) l -> hent h' A i j = hent h A i j).
Proof.
  induction l as [|[i j] l IH]; intros h G ND HB HW.
  - exists h. simpl. split; auto. split; [apply frame_refl|]. split; [tauto|auto].
  - inversion ND as [|? ? NI ND']; subst. simpl.
    rewrite (HW h i j); [|left; auto|apply frame_refl|auto]. simpl.
    destruct (HB i j) as [Hi Hj]; [left; auto|].
    destruct (h_set_spec h A i j (f i j) G Hi Hj) as [h1 [E [SH [V1 V2]]]]. rewrite E. simpl.
    destruct (h_set_entries _ _ _ _ _ _ G E) as [_ [_ [_ [EN FR]]]].
    assert (F1 : frame h h1 A) by (split; auto).
    destruct (IH h1) as [h' [E' [F' [A1 A2]]]]; auto.
    + eapply good_shape; eauto.
    + intros; apply HB; right; auto.
    + intros h2 i2 j2 Hin F2 H2. apply HW; [right; auto|eapply frame_trans; eauto|].
      rewrite H2. destruct (HB i2 j2) as [Hi2 Hj2]; [right; auto|]. rewrite EN by auto.
      destruct (Nat.eqb_spec i2 i); auto. destruct (Nat.eqb_spec j2 j); auto. subst. contradiction.
    + exists h'. split; auto. split; [eapply frame_trans; eauto|]. split.
      * intros i2 j2 [EE|Hin]; [|auto]. inversion EE; subst. rewrite A2 by auto. exact V1.
      * intros i2 j2 Hi2 Hj2 NI2. simpl in NI2. rewrite A2; auto.
        rewrite EN by auto. destruct (Nat.eqb_spec i2 i); auto. destruct (Nat.eqb_spec j2 j); auto. subst. exfalso. apply NI2. auto.
Qed.

Lemma hscale_spec h d (b : R) : good h d -> exists h', hscale d b h = Ok h' /\ frame h h' d /\
  feq (h_r d) (h_c d) (hent h' d) (fun i j => (hent h d i j * b)%r).
Proof.
  intros G. unfold hscale.
  destruct (h_loop_in_place (ij_all (h_r d) (h_c d)) d (fun h i j => let* x := h_get h d i j in Ok (x * b)%r)
     (fun i j => (hent h d i j * b)%r) h) as [h' [E [F [A1 _]]]]; auto.
  - apply nodup_ij.
  - intros i j H. apply in_ij_all in H. auto.
  - intros h1 i j H F E. apply in_ij_all in H. rewrite h_get_spec; [|eapply good_shape; eauto; apply F|tauto|tauto].
    simpl. rewrite E. reflexivity.
  - exists h'. split; auto. split; auto. intros i j Hi Hj. apply A1. apply in_ij_all. auto.
Qed.

(** ** operator*= on any object whose leaves share nothing *)

(** What is scaled: Dense leaves and the middle factors. *)
Fixpoint tscaled (T : htree) (b k : nat) : Prop :=
  match T with
  | TD d => cell d b k
  | TL l => cell (q_S l) b k
  | TH m n f => exists i j, i < m /\ j < n /\ tscaled (f i j) b k
  | _ => False
  end.
Lemma tscaled_cell T b k : tscaled T b k -> tcell T b k.
Proof.
  induction T as [d|l|m n f IH|r c|]; simpl; try tauto.
  - intros; apply tcell_TD; auto.
  - intros; apply tcell_TL; auto.
  - intros [i [j [Hi [Hj H]]]]. apply tcell_TH. exists i, j. auto.
Qed.

Lemma hlist_inv body (I : list (nat * nat) -> heap -> Prop) : forall (l : list (nat * nat)) done h,
  NoDup (done ++ l) -> I done h ->
  (forall done i j h, In (i, j) l -> ~ In (i, j) done -> I done h -> exists h', body i j h = Ok h' /\ I (done ++ [(i, j)]) h') ->
  exists h', hlist l body h = Ok h' /\ I (done ++ l) h'.
Proof.
  induction l as [|[i j] l IH]; intros done h ND H0 HS.
  - exists h. rewrite app_nil_r. auto.
  - destruct (HS done i j h) as [h1 [E H1]]; [left; auto| |auto|].
    { intros Hin. apply NoDup_remove_2 in ND. apply ND. apply in_or_app. auto. }
    simpl. rewrite E. simpl. destruct (IH (done ++ [(i, j)]) h1) as [h' [E' H']].
    + rewrite <- app_assoc. exact ND.
    + exact H1.
    + intros. apply HS; auto. right; auto.
    + exists h'. rewrite <- app_assoc in H'. auto.
Qed.

(** ** split of a LowRank *)

Lemma h_shallow_eq d : h_shallow d = d.
Proof. destruct d; reflexivity. Qed.

Lemma window_self d : window d d 0 0.
Proof. split; auto. Qed.

Lemma covers_one n rr : covers n [rr] -> snd rr = n /\ (forall x, x < n -> fst rr = 0).
Proof.
  intros [C1 C2]. assert (H := C1 rr (or_introl eq_refl)).
  destruct (Nat.eq_dec n 0) as [->|NZ]; [split; [lia|intros; lia]|].
  assert (H0 : fst rr = 0).
  { destruct (C2 0) as [p [r [E [Hr _]]]]; [lia|]. destruct p; [|destruct p; discriminate]. inversion E; subst. lia. }
  split; auto. destruct (C2 (n - 1)) as [p [r [E [Hr _]]]]; [lia|]. destruct p; [|destruct p; discriminate]. inversion E; subst. lia.
Qed.

(** A block of rows or columns of a factor. *)
Definition part (copy : bool) h h' d (x y r c : nat) (e : hdense) : Prop :=
  good h' e /\ h_r e = r /\ h_c e = c /\
  feq r c (hent h' e) (mwin x y (hent h d)) /\
  (copy = false -> h_buf e = h_buf d /\ forall i j, i < r -> j < c -> addr e i j = addr d (x + i) (y + j)).

Lemma covers_fits n l : covers n l -> forall r, In r l -> fst r + snd r <= n.
Proof. intros [H _]; exact H. Qed.

Lemma split_rows h d rs copy : good h d -> covers (h_r d) rs ->
  exists h' us, split_factor d rs [(0, h_c d)] (length rs) copy h = Ok (h', us) /\ extends h h' /\
    (copy = false -> h_bufs h' = h_bufs h) /\
    forall i rr, nth_error rs i = Some rr -> part copy h h' d (fst rr) 0 (snd rr) (h_c d) (nth i us no_dense).
Proof.
  intros G C. unfold split_factor. destruct (Nat.ltb_spec 1 (length rs)).
  - destruct (h_children_spec (pairs rs [(0, h_c d)]) copy d h G) as [h' [ds [E [X [HL [_ [_ [HB HD]]]]]]]].
    { apply Forall_forall. intros [rr cr] Hin. apply HeapHistory.pairs_in in Hin. destruct Hin as [H1 [<-|[]]].
      split; simpl; auto. apply (covers_fits _ _ C). auto. }
    exists h', ds. split; auto. split; auto. split; auto. intros i rr Hi.
    assert (P : nth_error (pairs rs [(0, h_c d)]) i = Some (rr, (0, h_c d))).
    { pose proof (pairs_nth rs [(0, h_c d)] i 0 rr (0, h_c d) Hi eq_refl) as P. simpl in P.
      rewrite Nat.mul_1_r, Nat.add_0_r in P. auto. }
    destruct (HD _ _ _ P) as [e [D1 [D2 [D3 [D4 [D5 [D6 [D7 D8]]]]]]]]. rewrite (nth_error_nth _ _ no_dense D1).
    split; auto. split; auto. split; auto. split; auto. intros Hc. rewrite Hc in D4. auto.
  - assert (ONE : forall i rr, nth_error rs i = Some rr -> i = 0 /\ snd rr = h_r d /\ forall x, x < h_r d -> fst rr = 0).
    { intros i rr Hi. destruct rs as [|r0 [|r1 rs]]; [destruct i; discriminate| |simpl in H; lia].
      destruct i; [|destruct i; discriminate]. inversion Hi; subst. split; auto. apply covers_one; auto. }
    destruct copy.
    + destruct (h_copy_spec h d G) as [h' [e [E M]]]. rewrite E. exists h', [e]. simpl. split; auto.
      pose proof M as [X [G' [M3 [M4 [_ [_ [_ [_ [_ [_ [_ [_ FE]]]]]]]]]]]]. split; auto. split; [discriminate|].
      intros i rr Hi. destruct (ONE i rr Hi) as [-> [Er E0]]. simpl. split; auto. split; [congruence|]. split; auto. split; [|discriminate].
      intros a b Ha Hb. unfold mwin. rewrite (E0 a) by lia. apply FE; lia.
    + exists h, [h_shallow d]. split; auto. split; [apply extends_refl|]. split; auto.
      intros i rr Hi. destruct (ONE i rr Hi) as [-> [Er E0]]. simpl nth. rewrite h_shallow_eq.
      split; auto. split; auto. split; auto. split; [intros a b Ha Hb; unfold mwin; rewrite (E0 a) by lia; reflexivity|].
      intros _. split; auto. intros a b Ha Hb. rewrite (E0 a) by lia. reflexivity.
Qed.

Lemma split_cols h d cs copy : good h d -> covers (h_c d) cs ->
  exists h' us, split_factor d [(0, h_r d)] cs (length cs) copy h = Ok (h', us) /\ extends h h' /\
    (copy = false -> h_bufs h' = h_bufs h) /\
    forall j cr, nth_error cs j = Some cr -> part copy h h' d 0 (fst cr) (h_r d) (snd cr) (nth j us no_dense).
Proof.
  intros G C. unfold split_factor. destruct (Nat.ltb_spec 1 (length cs)).
  - destruct (h_children_spec (pairs [(0, h_r d)] cs) copy d h G) as [h' [ds [E [X [HL [_ [_ [HB HD]]]]]]]].
    { apply Forall_forall. intros [rr cr] Hin. apply HeapHistory.pairs_in in Hin. destruct Hin as [[<-|[]] H1].
      split; simpl; auto. apply (covers_fits _ _ C). auto. }
    exists h', ds. split; auto. split; auto. split; auto. intros i rr Hi.
    pose proof (pairs_nth [(0, h_r d)] cs 0 i (0, h_r d) rr eq_refl Hi) as P. rewrite Nat.mul_0_l, Nat.add_0_l in P.
    destruct (HD _ _ _ P) as [e [D1 [D2 [D3 [D4 [D5 [D6 [D7 D8]]]]]]]]. rewrite (nth_error_nth _ _ no_dense D1).
    split; auto. split; auto. split; auto. split; auto. intros Hc. rewrite Hc in D4. auto.
  - assert (ONE : forall i rr, nth_error cs i = Some rr -> i = 0 /\ snd rr = h_c d /\ forall x, x < h_c d -> fst rr = 0).
    { intros i rr Hi. destruct cs as [|r0 [|r1 cs]]; [destruct i; discriminate| |simpl in H; lia].
      destruct i; [|destruct i; discriminate]. inversion Hi; subst. split; auto. apply covers_one; auto. }
    destruct copy.
    + destruct (h_copy_spec h d G) as [h' [e [E M]]]. rewrite E. exists h', [e]. simpl. split; auto.
      pose proof M as [X [G' [M3 [M4 [_ [_ [_ [_ [_ [_ [_ [_ FE]]]]]]]]]]]]. split; auto. split; [discriminate|].
      intros i rr Hi. destruct (ONE i rr Hi) as [-> [Er E0]]. simpl. split; auto. split; [congruence|]. split; [congruence|]. split; [|discriminate].
      intros a b Ha Hb. unfold mwin. rewrite (E0 b) by lia. apply FE; lia.
    + exists h, [h_shallow d]. split; auto. split; [apply extends_refl|]. split; auto.
      intros i rr Hi. destruct (ONE i rr Hi) as [-> [Er E0]]. simpl nth. rewrite h_shallow_eq.
      split; auto. split; auto. split; auto. split; [intros a b Ha Hb; unfold mwin; rewrite (E0 b) by lia; reflexivity|].
      intros _. split; auto. intros a b Ha Hb. rewrite (E0 b) by lia. reflexivity.
Qed.

(** The value of block (i,j). *)
Definition low_window (L : lowrank R) (rr cr : nat * nat) : lowrank R :=
  lr_make (Dn (snd rr) (d_c (l_U L)) (mwin (fst rr) 0 (d_e (l_U L)))) (l_S L)
          (Dn (d_r (l_V L)) (snd cr) (mwin 0 (fst cr) (d_e (l_V L)))).

Lemma low_window_ent L rr cr i j : lr_ent (low_window L rr cr) i j = lr_ent L (fst rr + i) (fst cr + j).
Proof.
  unfold lr_ent. simpl. unfold mmul. apply sum_ext. intros k _. reflexivity.
Qed.

(** Without copying: every block refers to the same S, and nothing else happens. *)
Lemma tsplit_low_shared h l rs cs : lgood h l -> covers (h_r (q_U l)) rs -> covers (h_c (q_V l)) cs ->
  exists h' f, tsplit (TL l) rs cs false h = Ok (h', TH (length rs) (length cs) f) /\ h_bufs h' = h_bufs h /\
    forall i j rr cr, nth_error rs i = Some rr -> nth_error cs j = Some cr ->
      exists U V, f i j = TL (low_make U (q_S l) V) /\
        part false h h' (q_U l) (fst rr) 0 (snd rr) (h_c (q_U l)) U /\
        part false h h' (q_V l) 0 (fst cr) (h_r (q_V l)) (snd cr) V.
Proof.
  intros [G1 [G2 G3]] C1 C2. unfold tsplit.
  destruct (split_rows h (q_U l) rs false G1 C1) as [h1 [us [E1 [X1 [B1 P1]]]]]. rewrite E1. simpl bind.
  destruct (split_cols h1 (q_V l) cs false) as [h2 [vs [E2 [X2 [B2 P2]]]]]; auto. { eapply extends_good; eauto. }
  rewrite E2. simpl bind.
  destruct (gridM_inv (length rs) (length cs) (fun i j => low_block (nth i us no_dense) (q_S l) (nth j vs no_dense) false) h2
     (fun done h f => h = h2 /\ forall i j, In (i, j) done -> f i j = TL (low_make (nth i us no_dense) (q_S l) (nth j vs no_dense))))
     as [h3 [f [E3 [H1 H2]]]].
  - split; auto. intros i j [].
  - intros done i j h0 f Hi Hj ND [-> HI]. eexists. eexists. split; [reflexivity|]. split; auto. rewrite !h_shallow_eq.
    intros i' j' Hin. apply in_app_or in Hin. destruct Hin as [Hin|[Hin|[]]].
    + rewrite put_other; auto. intros EE. inversion EE; subst; auto.
    + inversion Hin; subst. apply put_same.
  - rewrite E3. simpl. subst h3. exists h2, f. split; auto. split; [rewrite B2, B1; auto|].
    intros i j rr cr Hi Hj. exists (nth i us no_dense), (nth j vs no_dense). split; [|split].
    + apply H2. apply in_ij_all. split; apply nth_error_Some; congruence.
    + destruct (P1 i rr Hi) as [Q1 [Q2 [Q3 [Q4 Q5]]]]. split; [eapply extends_good; eauto|]. split; auto. split; auto. split; auto.
      intros a b Ha Hb. rewrite <- Q4 by auto. unfold hent, val. rewrite B2; auto.
    + destruct (P2 j cr Hj) as [Q1 [Q2 [Q3 [Q4 Q5]]]]. split; auto. split; auto. split; auto. split; auto.
      intros a b Ha Hb. rewrite Q4 by auto. unfold mwin, hent, val. rewrite B1; auto.
Qed.

Lemma lread_parts h0 h l U V rr cr : h_bufs h = h_bufs h0 ->
  part false h0 h (q_U l) (fst rr) 0 (snd rr) (h_c (q_U l)) U -> part false h0 h (q_V l) 0 (fst cr) (h_r (q_V l)) (snd cr) V ->
  forall h', leq (lread h' (low_make U (q_S l) V)) (low_window (lread h' l) rr cr).
Proof.
  intros _ [_ [U2 [U3 [_ U5]]]] [_ [V2 [V3 [_ V5]]]] h'. destruct (U5 eq_refl) as [U6 U7]. destruct (V5 eq_refl) as [V6 V7].
  unfold leq. simpl. repeat match goal with |- _ = _ /\ _ => split; [auto|] end.
  split; [|split].
  - split; auto. split; auto. intros i j Hi Hj. simpl in *. unfold mwin. rewrite U6, U7 by lia. reflexivity.
  - apply deq_refl.
  - split; auto. split; auto. intros i j Hi Hj. simpl in *. unfold mwin. rewrite V6, V7 by lia. reflexivity.
Qed.

(** Scaling the shared factor scales the product. *)
Lemma scale_shared h l b : lgood h l -> lsep l -> exists h', hscale (q_S l) b h = Ok h' /\
  lgood h' l /\ frame h h' (q_S l) /\
  (h_c (q_U l) = h_r (q_S l) -> h_c (q_S l) = h_r (q_V l) ->
   feq (h_r (q_U l)) (h_c (q_V l)) (lr_ent (lread h' l)) (mscale b (lr_ent (lread h l)))).
Proof.
  intros [G1 [G2 G3]] [A1 [A2 A3]]. destruct (hscale_spec h (q_S l) b G2) as [h' [E [F V]]]. exists h'. split; auto.
  assert (SH : same_shape h h') by apply F.
  split; [split; [|split]; eapply good_shape; eauto|]. split; auto.
  intros W1 W2 i j Hi Hj. unfold lr_ent. simpl. unfold mmul, mscale. rewrite <- sum_mul_l. apply sum_ext. intros k Hk.
  replace (val h' (h_buf (q_U l)) (addr (q_U l) i k)) with (val h (h_buf (q_U l)) (addr (q_U l) i k))
    by (symmetry; apply (frame_hent h h' (q_S l) (q_U l) i k F); auto using apart_sym).
  rewrite (sum_ext (h_c (q_S l)) _ (fun k' => (b * (val h (h_buf (q_S l)) (addr (q_S l) k k') * val h (h_buf (q_V l)) (addr (q_V l) k' j)))%r)).
  - rewrite sum_mul_l. ring.
  - intros k' Hk'. pose proof (V k k') as V'. unfold hent in V'. rewrite V' by lia.
    pose proof (frame_hent h h' (q_S l) (q_V l) k' j F) as FV. unfold hent in FV. rewrite FV by (auto using apart_sym; lia).
    ring.
Qed.

Fixpoint rpow (b : R) (n : nat) : R := match n with O => 1%r | S k => (b * rpow b k)%r end.

Lemma ij_length m n : length (ij_all m n) = m * n.
Proof.
  unfold ij_all, ij_loop. rewrite <- (seq_length m 0) at 2. generalize (seq 0 m) as l.
  induction l as [|a l IH]; simpl; auto. rewrite app_length, IH, map_length, seq_length. lia.
Qed.

Lemma scale_many l b body : forall (L : list (nat * nat)) h, lgood h l -> lsep l ->
  h_c (q_U l) = h_r (q_S l) -> h_c (q_S l) = h_r (q_V l) ->
  (forall i j h, In (i, j) L -> body i j h = hscale (q_S l) b h) ->
  exists h', hlist L body h = Ok h' /\ lgood h' l /\ frame h h' (q_S l) /\
   feq (h_r (q_U l)) (h_c (q_V l)) (lr_ent (lread h' l)) (mscale (rpow b (length L)) (lr_ent (lread h l))).
Proof.
  induction L as [|[i j] L IH]; intros h G SP W1 W2 HB; cbn [hlist length rpow].
  - exists h. split; auto. split; auto. split; [apply frame_refl|]. intros i j _ _. unfold mscale. ring.
  - rewrite HB by (left; auto). destruct (scale_shared h l b G SP) as [h1 [E [G1 [F1 V1]]]]. rewrite E. simpl bind.
    destruct (IH h1 G1 SP W1 W2) as [h' [E' [G' [F' V']]]]; [intros; apply HB; right; auto|].
    exists h'. split; auto. split; auto. split; [eapply frame_trans; eauto|].
    intros x y Hx Hy. rewrite V' by auto. unfold mscale. rewrite (V1 W1 W2 x y Hx Hy). unfold mscale. ring.
Qed.

(** The blocks of a split without copying. *)
Definition shared_blocks l (rs cs : list (nat * nat)) (f : nat -> nat -> htree) : Prop :=
  forall i j rr cr, nth_error rs i = Some rr -> nth_error cs j = Some cr -> exists l', f i j = TL l' /\ q_S l' = q_S l /\
    forall h, leq (lread h l') (low_window (lread h l) rr cr).

Lemma split_shared h l rs cs : lgood h l -> covers (h_r (q_U l)) rs -> covers (h_c (q_V l)) cs ->
  exists h' f, tsplit (TL l) rs cs false h = Ok (h', TH (length rs) (length cs) f) /\ h_bufs h' = h_bufs h /\
    shared_blocks l rs cs f.
Proof.
  intros G C1 C2. destruct (tsplit_low_shared h l rs cs G C1 C2) as [h' [f [E [B H]]]].
  exists h', f. split; auto. split; auto. intros i j rr cr Hi Hj. destruct (H i j rr cr Hi Hj) as [U [V [E1 [P1 P2]]]].
  eexists. split; [exact E1|]. split; [reflexivity|]. apply (lread_parts h h'); auto.
Qed.

Lemma bufs_lgood h h' l : h_bufs h' = h_bufs h -> lgood h l -> lgood h' l.
Proof.
  intros B [G1 [G2 G3]]. split; [|split]; (eapply tfr_good; [apply (tfr_bufs none); eauto|auto]).
Qed.

(** Scaling one of them scales the whole matrix and every other block. *)
Lemma scale_one_block h l rs cs h' f i j b :
  lgood h l -> lsep l -> lr_wf (lread h l) -> covers (h_r (q_U l)) rs -> covers (h_c (q_V l)) cs ->
  tsplit (TL l) rs cs false h = Ok (h', TH (length rs) (length cs) f) ->
  i < length rs -> j < length cs ->
  exists h2, tscale (f i j) b h' = Ok h2 /\
    feq (q_r l) (q_c l) (ent (tread h2 (TL l))) (mscale b (ent (tread h (TL l)))) /\
    forall i' j', i' < length rs -> j' < length cs ->
      feq (trows (f i' j')) (tcols (f i' j')) (ent (tread h2 (f i' j'))) (mscale b (ent (tread h' (f i' j')))).
Proof.
  intros G SP [W1 [W2 [W3 W4]]] C1 C2 E Hi Hj. simpl in W1, W2, W3, W4.
  destruct (split_shared h l rs cs G C1 C2) as [h0 [f0 [E0 [B SB]]]]. rewrite E in E0. inversion E0; subst h0 f0.
  assert (G' : lgood h' l) by (eapply bufs_lgood; eauto).
  assert (BL : forall i j, i < length rs -> j < length cs -> exists rr cr, nth_error rs i = Some rr /\ nth_error cs j = Some cr).
  { intros a c Ha Hc. destruct (nth_error rs a) as [rr|] eqn:E1; [|apply nth_error_None in E1; lia].
    destruct (nth_error cs c) as [cr|] eqn:E2; [|apply nth_error_None in E2; lia]. eauto. }
  destruct (BL i j Hi Hj) as [rr [cr [E1 E2]]]. destruct (SB i j rr cr E1 E2) as [l' [EF [ES _]]].
  rewrite EF. simpl tscale. rewrite ES. destruct (scale_shared h' l b G' SP) as [h2 [E3 [G2 [F2 V2]]]].
  exists h2. split; auto. specialize (V2 W2 W3).
  assert (VV : forall x y, lr_ent (lread h' l) x y = lr_ent (lread h l) x y).
  { intros x y. unfold lr_ent. simpl. unfold mmul. apply sum_ext. intros k _. unfold val. rewrite B. reflexivity. }
  split.
  - rewrite <- W1, <- W4. intros x y Hx Hy. simpl. rewrite V2 by auto. unfold mscale. rewrite VV. reflexivity.
  - intros i' j' Hi' Hj'. destruct (BL i' j' Hi' Hj') as [rr' [cr' [E1' E2']]]. destruct (SB i' j' rr' cr' E1' E2') as [l2 [EF' [ES' LE]]].
    rewrite EF'. simpl. intros x y Hx Hy.
    assert (WIN : forall hh : heap, lr_ent (lread hh l2) x y = lr_ent (lread hh l) (fst rr' + x) (fst cr' + y)).
    { intros hh. rewrite <- low_window_ent. apply (leq_ent _ _ (LE hh)); auto. eapply leq_wf; [apply LE|].
      unfold lr_wf. simpl. auto. }
    unfold mscale at 1. rewrite !WIN. destruct (LE h') as [L1 [L2 _]]. simpl in L1, L2.
    rewrite V2; [reflexivity| |].
    + pose proof (covers_fits _ _ C1 _ (nth_error_In _ _ E1')). lia.
    + pose proof (covers_fits _ _ C2 _ (nth_error_In _ _ E2')). lia.
Qed.

(** Scaling all of them, as operator*= on the Hierarchical does, scales it once per block. *)
Lemma scale_all_blocks h l rs cs h' f b :
  lgood h l -> lsep l -> lr_wf (lread h l) -> covers (h_r (q_U l)) rs -> covers (h_c (q_V l)) cs ->
  tsplit (TL l) rs cs false h = Ok (h', TH (length rs) (length cs) f) ->
  exists h2, tscale (TH (length rs) (length cs) f) b h' = Ok h2 /\
    feq (q_r l) (q_c l) (ent (tread h2 (TL l))) (mscale (rpow b (length rs * length cs)) (ent (tread h (TL l)))).
Proof.
  intros G SP [W1 [W2 [W3 W4]]] C1 C2 E. simpl in W1, W2, W3, W4.
  destruct (split_shared h l rs cs G C1 C2) as [h0 [f0 [E0 [B SB]]]]. rewrite E in E0. inversion E0; subst h0 f0.
  assert (G' : lgood h' l) by (eapply bufs_lgood; eauto).
  destruct (scale_many l b (fun i j h => tscale (f i j) b h) (ij_all (length rs) (length cs)) h' G' SP W2 W3) as [h2 [E2 [_ [_ V]]]].
  - intros i j hh Hin. apply in_ij_all in Hin. destruct Hin as [Hi Hj].
    destruct (nth_error rs i) as [rr|] eqn:E1; [|apply nth_error_None in E1; lia].
    destruct (nth_error cs j) as [cr|] eqn:E2; [|apply nth_error_None in E2; lia].
    destruct (SB i j rr cr E1 E2) as [l' [EF [ES _]]]. rewrite EF. simpl. rewrite ES. reflexivity.
  - exists h2. split; [exact E2|]. rewrite ij_length in V. rewrite <- W1, <- W4. intros x y Hx Hy. simpl. rewrite V by auto.
    unfold mscale. f_equal. unfold lr_ent. simpl. unfold mmul. apply sum_ext. intros k _. unfold val. rewrite B. reflexivity.
Qed.

(** With copying every block is a new object. *)
Lemma split_copied h l rs cs : lgood h l -> covers (h_r (q_U l)) rs -> covers (h_c (q_V l)) cs ->
  exists h' f, tsplit (TL l) rs cs true h = Ok (h', TH (length rs) (length cs) f) /\
    fresh h h' (TH (length rs) (length cs) f)
      (MH (length rs) (length cs) (fun i j => ML (low_window (lread h l) (rg rs i) (rg cs j)))).
Proof.
  intros [G1 [G2 G3]] C1 C2. unfold tsplit.
  destruct (split_rows h (q_U l) rs true G1 C1) as [h1 [us [E1 [X1 [_ P1]]]]]. rewrite E1. simpl bind.
  destruct (split_cols h1 (q_V l) cs true) as [h2 [vs [E2 [X2 [_ P2]]]]]; auto. { eapply extends_good; eauto. }
  rewrite E2. simpl bind.
  pose proof (extends_trans _ _ _ X1 X2) as X12.
  destruct (fresh_grid (length rs) (length cs) (fun i j => low_block (nth i us no_dense) (q_S l) (nth j vs no_dense) true) (fun _ _ => TN) h2
    (fun i j => ML (low_window (lread h l) (rg rs i) (rg cs j)))) as [h3 [f [E3 FR]]].
  - intros i j h0 Hi Hj X0.
    assert (N1 : nth_error rs i = Some (rg rs i)) by (unfold rg; apply nth_error_nth'; auto).
    assert (N2 : nth_error cs j = Some (rg cs j)) by (unfold rg; apply nth_error_nth'; auto).
    destruct (P1 i _ N1) as [U1 [U2 [U3 [U4 _]]]]. destruct (P2 j _ N2) as [V1 [V2 [V3 [V4 _]]]].
    pose proof (extends_trans _ _ _ X12 X0) as X3. pose proof (extends_trans _ _ _ X2 X0) as X4.
    destruct (copy3_spec h0 (nth i us no_dense) (q_S l) (nth j vs no_dense)) as
      [k1 [k2 [k3 [U' [D' [V' [Q1 [Q2 [Q3 [X [K1 [K2 [K3 [B1 [B2 [B3 [R1 [R2 R3]]]]]]]]]]]]]]]]]];
      [apply (extends_good h1); auto|apply (extends_good h); auto|apply (extends_good h2); auto|].
    unfold low_block. rewrite Q1. simpl bind. rewrite Q2. simpl bind. rewrite Q3. simpl bind.
    eexists. eexists. split; [reflexivity|]. split; auto. split; [simpl; unfold lgood; simpl; auto|].
    split; [intros d; simpl; intros [->|[->| ->]]; lia|].
    split; [simpl; unfold lsep; simpl; split; [|split]; apply bufs_apart; lia|].
    assert (DU : deq (dread k3 U') (Dn (snd (rg rs i)) (h_c (q_U l)) (mwin (fst (rg rs i)) 0 (hent h (q_U l))))).
    { eapply deq_trans; [exact R1|]. eapply deq_trans; [apply read_extends; [exact X4|auto]|].
      split; auto. split; auto. intros a b Ha Hb. simpl in *. rewrite U2 in Ha. rewrite U3 in Hb. apply U4; auto. }
    assert (DD : deq (dread k3 D') (dread h (q_S l))) by (eapply deq_trans; [exact R2|]; apply read_extends; auto).
    assert (DV : deq (dread k3 V') (Dn (h_r (q_V l)) (snd (rg cs j)) (mwin 0 (fst (rg cs j)) (hent h (q_V l))))).
    { eapply deq_trans; [exact R3|]. eapply deq_trans; [apply read_extends; [exact X0|auto]|].
      split; auto. split; auto. intros a b Ha Hb. simpl in *. rewrite V2 in Ha. rewrite V3 in Hb.
      etransitivity; [apply V4; auto|]. unfold mwin. apply (extends_hent h h1); auto. }
    simpl. unfold leq. simpl. destruct DU as [DU1 [DU2 DU3]], DD as [DD1 [DD2 DD3]], DV as [DV1 [DV2 DV3]]. simpl in *.
    repeat match goal with |- _ = _ /\ _ => split; [auto|] end.
    split; [|split]; (split; [auto|]; split; [auto|]; auto).
  - rewrite E3. simpl. exists h3, f. split; auto. destruct FR as [F1 [F2 [F3 [F4 F5]]]].
    split; [eapply extends_trans; eauto|]. split; auto. split; [|split; auto].
    intros d L. specialize (F3 d L). destruct X12 as [X12 _]. lia.
Qed.

(** Then scaling one block changes nothing else. *)
Lemma scale_copied_block h l rs cs h' f i j b :
  lgood h l -> covers (h_r (q_U l)) rs -> covers (h_c (q_V l)) cs ->
  tsplit (TL l) rs cs true h = Ok (h', TH (length rs) (length cs) f) -> i < length rs -> j < length cs ->
  exists h2, tscale (f i j) b h' = Ok h2 /\ mateq (tread h2 (TL l)) (tread h (TL l)) /\
    forall i' j', i' < length rs -> j' < length cs -> (i', j') <> (i, j) -> mateq (tread h2 (f i' j')) (tread h' (f i' j')).
Proof.
  intros G C1 C2 E Hi Hj. destruct (split_copied h l rs cs G C1 C2) as [h0 [f0 [E0 [X [GT [Y [[SP1 SP2] EQ]]]]]]].
  rewrite E in E0. inversion E0; subst h0 f0. simpl in GT, EQ. destruct EQ as [_ [_ EQ]].
  pose proof (EQ i j Hi Hj) as Q. pose proof (GT i j Hi Hj) as GB.
  destruct (f i j) as [|l'| | |] eqn:EF; simpl in Q; try tauto. destruct GB as [_ [GS _]].
  destruct (hscale_spec h' (q_S l') b GS) as [h2 [E2 [F _]]]. exists h2. split; auto.
  assert (CL : forall x k, cell (q_S l') x k -> tcell (f i j) x k) by (intros x k C; rewrite EF; apply tcell_TL; auto).
  split.
  - eapply mateq_trans; [|apply tread_extends; [exact X|exact G]]. eapply tfr_tread; [apply frame_tfr; eauto|eapply tgood_extends; eauto; exact G|].
    intros x k C C'. apply CL in C'. assert (x < nbufs h) by (eapply (tgood_cell h (TL l)); eauto; exact G).
    assert (nbufs h <= x); [|lia]. apply (young_cell _ _ x k Y). apply tcell_TH. exists i, j. auto.
  - intros i' j' Hi' Hj' NE. eapply tfr_tread; [apply frame_tfr; eauto|auto|].
    intros x k C C'. apply CL in C'. apply (SP2 i' j' i j) with (b := x) (k := k); auto.
Qed.

Lemma split_shared_windows h l rs cs : lgood h l -> covers (h_r (q_U l)) rs -> covers (h_c (q_V l)) cs ->
  exists h' f, tsplit (TL l) rs cs false h = Ok (h', TH (length rs) (length cs) f) /\ h_bufs h' = h_bufs h /\
    forall i j rr cr, nth_error rs i = Some rr -> nth_error cs j = Some cr -> exists l', f i j = TL l' /\ q_S l' = q_S l /\
      forall h2 : heap, q_r l' = snd rr /\ q_c l' = snd cr /\
       (lr_wf (lread h2 l) -> feq (snd rr) (snd cr) (lr_ent (lread h2 l')) (mwin (fst rr) (fst cr) (lr_ent (lread h2 l)))).
Proof.
  intros G C1 C2. destruct (split_shared h l rs cs G C1 C2) as [h' [f [E [B H]]]]. exists h', f. split; auto. split; auto.
  intros i j rr cr Hi Hj. destruct (H i j rr cr Hi Hj) as [l' [E1 [E2 LE]]]. exists l'. split; auto. split; auto.
  intros h2. pose proof (LE h2) as L. pose proof L as [L1 [L2 _]]. simpl in L1, L2. split; auto. split; auto.
  intros [W1 [W2 [W3 W4]]] x y Hx Hy. unfold mwin. rewrite <- low_window_ent. apply (leq_ent _ _ L); simpl; try lia.
  eapply leq_wf; [exact L|]. unfold lr_wf. simpl. auto.
Qed.
End Proofs.
