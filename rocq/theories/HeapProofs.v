(** Storage of Dense objects: accesses stay inside, windows, copies. *)
From Coq Require Import List Arith Lia Bool FinFun.
From Verif Require Import Prelude Ring MatFun Matrix MatOps MatOpsProofs Heap.
Import ListNotations.
Local Open Scope nat_scope.

Section Proofs.
Context {R : cring}.
Notation heap := (heap R).
Notation mat := (mat R).
Implicit Types (h : heap) (v : R) (w : heap -> nat -> nat -> outcome R).

(** ** Lists *)
Lemma lupd_length {A} (l : list A) k a : length (lupd l k a) = length l.
Proof. revert k. induction l; intros [|k]; simpl; auto. Qed.

Lemma lupd_nth {A} (l : list A) k a j :
  nth_error (lupd l k a) j = if (j =? k) && (k <? length l) then Some a else nth_error l j.
Proof.
  revert k j. induction l as [|x l IH]; intros k j.
  - destruct k, j; simpl; rewrite ?andb_false_r; auto.
  - destruct k as [|k], j as [|j]; simpl; auto.
    rewrite IH. reflexivity.
Qed.

(** ** Heaps of the same shape *)
Definition nbufs (h : heap) : nat := length (h_bufs h).

Definition same_shape (h h' : heap) : Prop :=
  nbufs h' = nbufs h /\ h_next h' = h_next h /\ forall b, size h' b = size h b.

Lemma same_shape_refl h : same_shape h h.
Proof. repeat split; auto. Qed.
Lemma same_shape_trans h1 h2 h3 : same_shape h1 h2 -> same_shape h2 h3 -> same_shape h1 h3.
Proof. intros [A1 [A2 A3]] [B1 [B2 B3]]. split; [congruence|]. split; [congruence|]. intros b. rewrite B3. apply A3. Qed.

Lemma size_lt h b k : k < size h b -> b < nbufs h.
Proof.
  unfold size, nbufs. destruct (nth_error (h_bufs h) b) eqn:E; [|lia]. intros _.
  apply nth_error_Some. congruence.
Qed.

Lemma peek_spec h b k : k < size h b -> peek h b k = Ok (val h b k).
Proof.
  unfold size, peek, val. destruct (nth_error (h_bufs h) b); [|lia]. intros H.
  apply Nat.ltb_lt in H. rewrite H. reflexivity.
Qed.

Lemma peek_Ok h b k v : peek h b k = Ok v -> k < size h b /\ v = val h b k.
Proof.
  unfold size, peek, val. destruct (nth_error (h_bufs h) b); [|discriminate].
  destruct (Nat.ltb_spec k (b_size b0)); [|discriminate]. intros E; inversion E; auto.
Qed.

Lemma peek_UB h b k : size h b <= k -> peek h b k = UB.
Proof.
  unfold size, peek. destruct (nth_error (h_bufs h) b); auto. intros H.
  apply Nat.ltb_ge in H. rewrite H. reflexivity.
Qed.

Lemma poke_spec h b k v : k < size h b -> exists h', poke h b k v = Ok h' /\ same_shape h h' /\
  val h' b k = v /\ forall b' k', (b' <> b \/ k' <> k) -> val h' b' k' = val h b' k'.
Proof.
  intros H. pose proof (size_lt _ _ _ H) as Hb. unfold nbufs in Hb. unfold poke. pose proof H as H'. unfold size in H.
  destruct (nth_error (h_bufs h) b) as [B|] eqn:E; [|lia].
  apply Nat.ltb_lt in H. rewrite H. eexists. split; [reflexivity|].
  unfold same_shape, nbufs, size, val. simpl.
  apply Nat.ltb_lt in Hb.
  split; [split; [apply lupd_length|split; auto]|].
  - intros b'. rewrite lupd_nth. rewrite Hb, andb_true_r. destruct (Nat.eqb_spec b' b); auto. subst. rewrite E. auto.
  - split.
    + rewrite lupd_nth, Hb, Nat.eqb_refl. simpl. rewrite Nat.eqb_refl. auto.
    + intros b' k' Hne. rewrite lupd_nth, Hb, andb_true_r. destruct (Nat.eqb_spec b' b); auto. subst. rewrite E. simpl.
      destruct (Nat.eqb_spec k' k); auto. subst. destruct Hne; congruence.
Qed.

Lemma poke_UB h b k v : size h b <= k -> poke h b k v = UB.
Proof.
  unfold size, poke. destruct (nth_error (h_bufs h) b); auto. intros H.
  apply Nat.ltb_ge in H. rewrite H. reflexivity.
Qed.

Lemma poke_Ok h b k v h' : poke h b k v = Ok h' -> k < size h b.
Proof.
  intros E. destruct (le_lt_dec (size h b) k); auto. rewrite poke_UB in E by auto. discriminate.
Qed.

(** ** Well-placed objects *)
Definition good (h : heap) (d : hdense) : Prop :=
  h_buf d < nbufs h /\ h_off d = h_r0 d * h_stride d + h_c0 d /\
  h_c0 d + h_c d <= h_stride d /\ (forall i j, i < h_r d -> j < h_c d -> addr d i j < size h (h_buf d)).

(** rows * columns elements are enough for the stride. *)
Definition packed (d : hdense) : Prop := h_stride d = h_c d \/ h_r d <= 1 \/ h_c d = 0.

Lemma packed_addr d i j : h_off d = 0 -> packed d -> i < h_r d -> j < h_c d -> addr d i j < h_r d * h_c d.
Proof.
  unfold packed, addr. intros -> H Hi Hj. destruct H as [->|[H|H]]; [nia| |lia].
  assert (i = 0) by lia. subst i. assert (h_r d = 1) as -> by lia. lia.
Qed.

(** Entry (i,j) as a value. *)
Definition hent (h : heap) (d : hdense) : mat := fun i j => val h (h_buf d) (addr d i j).

(** Storage cells of an object. *)
Definition cell (d : hdense) (b k : nat) : Prop :=
  b = h_buf d /\ exists i j, i < h_r d /\ j < h_c d /\ k = addr d i j.

Lemma good_addr h d i j : good h d -> i < h_r d -> j < h_c d -> addr d i j < size h (h_buf d).
Proof.
  intros [_ [_ [_ H]]]. apply H.
Qed.

Lemma good_shape h h' d : good h d -> same_shape h h' -> good h' d.
Proof. intros [H1 [H2 [H3 H4]]] [S1 [S2 S3]]. split; [congruence|]. split; auto. split; auto. rewrite S3. auto. Qed.

Lemma addr_inj d i j i' j' : h_c d <= h_stride d -> j < h_c d -> j' < h_c d ->
  addr d i j = addr d i' j' -> i = i' /\ j = j'.
Proof.
  unfold addr. intros Hc Hj Hj' E.
  assert (i = i').
  { destruct (lt_eq_lt_dec i i') as [[H|H]|H]; auto; exfalso.
    - assert (S i * h_stride d <= i' * h_stride d) by (apply Nat.mul_le_mono_r; lia). simpl in H0. lia.
    - assert (S i' * h_stride d <= i * h_stride d) by (apply Nat.mul_le_mono_r; lia). simpl in H0. lia. }
  subst. split; auto. lia.
Qed.

Lemma good_inj h d i j i' j' : good h d -> j < h_c d -> j' < h_c d -> addr d i j = addr d i' j' -> i = i' /\ j = j'.
Proof. intros [_ [_ [H _]]]. apply addr_inj. lia. Qed.

Lemma h_get_spec h d i j : good h d -> i < h_r d -> j < h_c d -> h_get h d i j = Ok (hent h d i j).
Proof.
  intros G Hi Hj. unfold h_get, hent. pose proof (good_addr _ _ _ _ G Hi Hj).
  apply Nat.ltb_lt in Hi, Hj. rewrite Hi, Hj. apply peek_spec. auto.
Qed.

Lemma h_set_spec h d i j v : good h d -> i < h_r d -> j < h_c d ->
  exists h', h_set h d i j v = Ok h' /\ same_shape h h' /\ val h' (h_buf d) (addr d i j) = v /\
   forall b k, (b <> h_buf d \/ k <> addr d i j) -> val h' b k = val h b k.
Proof.
  intros G Hi Hj. unfold h_set. pose proof (good_addr _ _ _ _ G Hi Hj) as H.
  apply Nat.ltb_lt in Hi, Hj. rewrite Hi, Hj.
  destruct (poke_spec h (h_buf d) (addr d i j) v H) as [h' [E1 [E2 [E3 E4]]]].
  exists h'. auto.
Qed.

(** Writing one entry changes that entry and no other. *)
Lemma h_set_entries h d i j v h' : good h d -> h_set h d i j v = Ok h' ->
  i < h_r d /\ j < h_c d /\ same_shape h h' /\
  (forall i' j', i' < h_r d -> j' < h_c d -> hent h' d i' j' = if (i' =? i) && (j' =? j) then v else hent h d i' j') /\
  (forall b k, ~ cell d b k -> val h' b k = val h b k).
Proof.
  intros G E. assert (Hij : i < h_r d /\ j < h_c d).
  { unfold h_set in E. destruct (Nat.ltb_spec i (h_r d)); [|discriminate]. destruct (Nat.ltb_spec j (h_c d)); [|discriminate]. auto. }
  destruct Hij as [Hi Hj]. split; auto. split; auto.
  destruct (h_set_spec h d i j v G Hi Hj) as [h2 [E1 [E2 [E3 E4]]]]. rewrite E in E1. inversion E1; subst h2.
  split; auto. split.
  - intros i' j' Hi' Hj'. unfold hent.
    destruct (Nat.eqb_spec i' i), (Nat.eqb_spec j' j); cbn [andb]; [subst i' j'; exact E3| | |];
      apply E4; right; intros Ha; destruct (good_inj _ _ _ _ _ _ G Hj' Hj Ha); congruence.
  - intros b k Hc. apply E4. destruct (Nat.eq_dec b (h_buf d)); auto. right. intros ->. apply Hc. split; auto. exists i, j. auto.
Qed.

(** Changes only in the cells of an object. *)
Definition frame (h h' : heap) (d : hdense) : Prop :=
  same_shape h h' /\ forall b k, ~ cell d b k -> val h' b k = val h b k.

Lemma frame_refl h d : frame h h d.
Proof. split; auto. apply same_shape_refl. Qed.
Lemma frame_trans h1 h2 h3 d : frame h1 h2 d -> frame h2 h3 d -> frame h1 h3 d.
Proof. intros [A1 A2] [B1 B2]. split; [eapply same_shape_trans; eauto|]. intros b k H. rewrite B2, A2; auto. Qed.
Lemma frame_set h d i j v h' : good h d -> h_set h d i j v = Ok h' -> frame h h' d.
Proof. intros G E. destruct (h_set_entries _ _ _ _ _ _ G E) as [_ [_ [H1 [_ H2]]]]. split; auto. Qed.

(** Loops stay inside. *)
Lemma h_loop_frame l A w : forall h, good h A ->
  (forall i j, In (i, j) l -> i < h_r A /\ j < h_c A) ->
  (forall h1 i j, In (i, j) l -> frame h h1 A -> exists v, w h1 i j = Ok v) ->
  exists h', h_loop l A w h = Ok h' /\ frame h h' A.
Proof.
  induction l as [|[i j] l IH]; intros h G Hl Hw; simpl.
  - exists h. split; auto. apply frame_refl.
  - destruct (Hw h i j) as [v Ev]; [left; auto|apply frame_refl|]. rewrite Ev. simpl.
    destruct (Hl i j) as [Hi Hj]; [left; auto|].
    destruct (h_set_spec h A i j v G Hi Hj) as [h1 [E1 [E2 _]]]. rewrite E1. simpl.
    pose proof (frame_set _ _ _ _ _ _ G E1) as F1.
    destruct (IH h1) as [h' [E' F']].
    + eapply good_shape; eauto.
    + intros; apply Hl; right; auto.
    + intros h2 i' j' Hin F2. apply Hw; [right; auto|]. eapply frame_trans; eauto.
    + exists h'. split; auto. eapply frame_trans; eauto.
Qed.

(** A loop whose right-hand sides do not depend on the entries written. *)
Lemma h_loop_spec l A w (f : mat) : forall h, good h A -> NoDup l ->
  (forall i j, In (i, j) l -> i < h_r A /\ j < h_c A) ->
  (forall h1 i j, In (i, j) l -> frame h h1 A -> w h1 i j = Ok (f i j)) ->
  exists h', h_loop l A w h = Ok h' /\ frame h h' A /\
    (forall i j, In (i, j) l -> hent h' A i j = f i j) /\
    (forall i j, i < h_r A -> j < h_c A -> ~ In (i, j) l -> hent h' A i j = hent h A i j).
Proof.
  induction l as [|[i j] l IH]; intros h G ND Hl Hw; simpl.
  - exists h. split; auto. split; [apply frame_refl|]. split; [intros ? ? []|auto].
  - rewrite (Hw h i j); [|left; auto|apply frame_refl]. simpl.
    destruct (Hl i j) as [Hi Hj]; [left; auto|].
    destruct (h_set_spec h A i j (f i j) G Hi Hj) as [h1 [E1 [E2 _]]]. rewrite E1. simpl.
    pose proof (frame_set _ _ _ _ _ _ G E1) as F1.
    destruct (h_set_entries _ _ _ _ _ _ G E1) as [_ [_ [_ [HE _]]]].
    inversion ND as [|x y Hni ND']; subst.
    destruct (IH h1) as [h' [E' [F' [HV HN]]]]; auto.
    + eapply good_shape; eauto.
    + intros; apply Hl; right; auto.
    + intros h2 i' j' Hin F2. apply Hw; [right; auto|]. eapply frame_trans; eauto.
    + exists h'. split; auto. split; [eapply frame_trans; eauto|]. split.
      * intros i' j' [Heq|Hin]; auto. inversion Heq; subst i' j'.
        rewrite HN by auto. rewrite HE by auto. rewrite !Nat.eqb_refl. reflexivity.
      * intros i' j' Hi' Hj' Hn. rewrite HN by auto. rewrite HE by auto.
        destruct (Nat.eqb_spec i' i), (Nat.eqb_spec j' j); simpl; auto. subst. exfalso. apply Hn. left; auto.
Qed.

(** Reading an object is not affected by changes in other cells. *)
Definition apart (d e : hdense) : Prop := forall b k, cell d b k -> ~ cell e b k.

Lemma apart_sym d e : apart d e -> apart e d.
Proof. intros H b k H1 H2. eapply H; eauto. Qed.

Lemma frame_hent h h' d e i j : frame h h' d -> apart e d -> i < h_r e -> j < h_c e -> hent h' e i j = hent h e i j.
Proof.
  intros [_ F] H Hi Hj. unfold hent. apply F. apply H. split; auto. exists i, j. auto.
Qed.

Lemma bufs_apart d e : h_buf d <> h_buf e -> apart d e.
Proof. intros H b k [H1 _] [H2 _]. congruence. Qed.

(** ** copy_to *)
Lemma copy_to_safe h this A rs cs : good h this -> good h A -> h_r A + rs <= h_r this -> h_c A + cs <= h_c this ->
  exists h', h_copy_to h this A rs cs = Ok h' /\ frame h h' A.
Proof.
  intros G1 G2 H1 H2. unfold h_copy_to. pose proof H1 as H1'. pose proof H2 as H2'. apply Nat.leb_le in H1', H2'. rewrite H1', H2'.
  apply h_loop_frame; auto.
  - intros i j Hin. apply in_ij_all. auto.
  - intros h1 i j Hin F. apply in_ij_all in Hin. eexists. apply h_get_spec; try lia. eapply good_shape; eauto. apply F.
Qed.

Lemma copy_to_spec h this A rs cs : good h this -> good h A -> apart this A ->
  h_r A + rs <= h_r this -> h_c A + cs <= h_c this ->
  exists h', h_copy_to h this A rs cs = Ok h' /\ frame h h' A /\
    feq (h_r A) (h_c A) (hent h' A) (mwin rs cs (hent h this)).
Proof.
  intros G1 G2 Hap H1 H2. unfold h_copy_to. pose proof H1 as H1'. pose proof H2 as H2'. apply Nat.leb_le in H1', H2'. rewrite H1', H2'.
  destruct (h_loop_spec (ij_all (h_r A) (h_c A)) A (fun h i j => h_get h this (rs + i) (cs + j)) (mwin rs cs (hent h this)) h)
    as [h' [E [F [HV _]]]]; auto.
  - apply ij_loop_nodup.
  - intros i j Hin. apply in_ij_all. auto.
  - intros h1 i j Hin F. apply in_ij_all in Hin. rewrite h_get_spec; try lia.
    + unfold mwin. f_equal. eapply frame_hent; eauto; lia.
    + eapply good_shape; eauto. apply F.
  - exists h'. split; auto. split; auto. intros i j Hi Hj. apply HV. apply in_ij_all. auto.
Qed.

(** ** New objects *)

(** Older arrays are untouched. *)
Definition extends (h h' : heap) : Prop :=
  nbufs h <= nbufs h' /\ h_next h <= h_next h' /\
  (forall b, b < nbufs h -> size h' b = size h b /\ forall k, val h' b k = val h b k).

Lemma extends_refl h : extends h h.
Proof. repeat split; auto. Qed.
Lemma extends_trans h1 h2 h3 : extends h1 h2 -> extends h2 h3 -> extends h1 h3.
Proof.
  intros [A1 [A2 A3]] [B1 [B2 B3]]. split; [lia|]. split; [lia|]. intros b Hb.
  destruct (A3 b Hb) as [X Y]. destruct (B3 b) as [X' Y']; [lia|]. split; [congruence|]. intros k. rewrite Y', Y. auto.
Qed.

Lemma extends_good h h' d : extends h h' -> good h d -> good h' d.
Proof.
  intros [A1 [A2 A3]] [H1 [H2 [H3 H4]]]. destruct (A3 _ H1) as [X _]. split; [lia|]. split; auto. split; auto. rewrite X. auto.
Qed.

Lemma extends_hent h h' d i j : extends h h' -> good h d -> hent h' d i j = hent h d i j.
Proof. intros [A1 [A2 A3]] [H1 _]. unfold hent. apply A3. auto. Qed.

(** Writing into a younger array preserves this. *)
Lemma frame_extends h h1 h2 d : extends h h1 -> frame h1 h2 d -> nbufs h <= h_buf d -> extends h h2.
Proof.
  intros [A1 [A2 A3]] [[S1 [S2 S3]] F] Hd. split; [lia|]. split; [lia|]. intros b Hb.
  destruct (A3 b Hb) as [X Y]. split; [rewrite S3; auto|]. intros k. rewrite F; auto. intros [E _]. lia.
Qed.

Lemma h_new_spec h r c : exists h' d, h_new h r c = (h', d) /\ extends h h' /\ good h' d /\
  h_r d = r /\ h_c d = c /\ h_buf d = nbufs h /\ nbufs h' = S (nbufs h) /\ h_id d = h_next h /\ h_next h' = S (h_next h) /\
  h_stride d = c /\ h_r0 d = 0 /\ h_c0 d = 0 /\ size h' (h_buf d) = r * c /\ forall i j, hent h' d i j = 0%r.
Proof.
  unfold h_new. simpl. eexists. eexists. split; [reflexivity|].
  assert (N : forall B, nth_error (h_bufs h ++ [B]) (length (h_bufs h)) = Some B).
  { intros B. rewrite nth_error_app2 by lia. rewrite Nat.sub_diag. reflexivity. }
  split.
  { split; [unfold nbufs; simpl; rewrite app_length; simpl; lia|]. split; [simpl; lia|].
    intros b Hb. unfold size, val. simpl. rewrite nth_error_app1 by auto. auto. }
  split.
  { unfold good, nbufs, size. simpl. rewrite app_length, N. simpl. repeat (split; [lia|]). intros i j Hi Hj. unfold addr. simpl. nia. }
  simpl. unfold nbufs, size. simpl. rewrite app_length, N. simpl.
  repeat (split; [lia|]). intros i j. unfold hent, val. simpl. rewrite N. reflexivity.
Qed.

Lemma new_apart h h' r c d a : h_new h r c = (h', d) -> good h a -> apart a d.
Proof.
  intros E [G _]. destruct (h_new_spec h r c) as [h2 [d2 [E2 [_ [_ [_ [_ [E3 _]]]]]]]].
  rewrite E in E2. inversion E2; subst. apply bufs_apart. lia.
Qed.

(** Result of an operation that makes a new object with new storage. *)
Definition makes (h h' : heap) (d : hdense) (r c : nat) (f : mat) : Prop :=
  extends h h' /\ good h' d /\ h_r d = r /\ h_c d = c /\ h_buf d = nbufs h /\ nbufs h' = S (nbufs h) /\
  h_id d = h_next h /\ h_next h' = S (h_next h) /\ packed d /\ h_r0 d = 0 /\ h_c0 d = 0 /\ size h' (h_buf d) = r * c /\
  feq r c (hent h' d) f.

Lemma makes_write h h1 d r c f h2 g : makes h h1 d r c f -> frame h1 h2 d -> feq r c (hent h2 d) g -> makes h h2 d r c g.
Proof.
  intros [H1 [H2 [H3 [H4 [H5 [H6 [H7 [H8 [H9 [H10 [H11 [H12 H13]]]]]]]]]]]] F Hg.
  pose proof F as [[S1 [S2 S3]] _].
  unfold makes. split; [eapply frame_extends; eauto; lia|]. split; [eapply good_shape; eauto; apply F|].
  repeat (split; [solve [auto | congruence | rewrite S3; auto]|]). auto.
Qed.

Lemma h_new_makes h r c : exists h' d, h_new h r c = (h', d) /\ makes h h' d r c mzero.
Proof.
  destruct (h_new_spec h r c) as [h' [d [E [H1 [H2 [H3 [H4 [H5 [H6 [H7 [H8 [H9 [H10 [H11 [H12 H13]]]]]]]]]]]]]]].
  exists h', d. split; auto. unfold makes. repeat (split; [first [assumption|left; congruence]|]). intros i j _ _. apply H13.
Qed.

Lemma h_copy_spec h A : good h A ->
  exists h' d, h_copy h A = Ok (h', d) /\ makes h h' d (h_r A) (h_c A) (hent h A).
Proof.
  intros G. unfold h_copy. destruct (h_new_makes h (h_r A) (h_c A)) as [h1 [d [E M]]]. rewrite E.
  pose proof M as [X1 [X2 [X3 [X4 _]]]]. unfold h_fill_from. rewrite X3, X4, !Nat.eqb_refl.
  destruct (copy_to_spec h1 A d 0 0) as [h2 [E2 [F V]]]; auto.
  - eapply extends_good; eauto.
  - eapply new_apart; eauto.
  - lia.
  - lia.
  - rewrite E2. simpl. exists h2, d. split; auto. eapply makes_write; eauto.
    rewrite X3, X4 in V. intros i j Hi Hj. rewrite V by auto. unfold mwin. simpl. apply extends_hent; auto.
Qed.

Lemma h_cut_spec h A rr cr : good h A -> fst rr + snd rr <= h_r A -> fst cr + snd cr <= h_c A ->
  exists h' d, h_cut h A rr cr = Ok (h', d) /\ makes h h' d (snd rr) (snd cr) (mwin (fst rr) (fst cr) (hent h A)).
Proof.
  intros G H1 H2. unfold h_cut. destruct (h_new_makes h (snd rr) (snd cr)) as [h1 [d [E M]]]. rewrite E.
  pose proof M as [X1 [X2 [X3 [X4 _]]]].
  destruct (copy_to_spec h1 A d (fst rr) (fst cr)) as [h2 [E2 [F V]]]; auto; try lia.
  - eapply extends_good; eauto.
  - eapply new_apart; eauto.
  - rewrite E2. simpl. exists h2, d. split; auto. eapply makes_write; eauto.
    rewrite X3, X4 in V. intros i j Hi Hj. rewrite V by auto. unfold mwin. apply extends_hent; auto.
Qed.

Lemma h_resize_spec h A r c : good h A -> r <= h_r A -> c <= h_c A ->
  exists h' d, h_resize h A r c = Ok (h', d) /\ makes h h' d r c (hent h A).
Proof.
  intros G H1 H2. unfold h_resize. destruct (Nat.leb_spec r (h_r A)); [|lia]. destruct (Nat.leb_spec c (h_c A)); [|lia].
  destruct (h_cut_spec h A (0, r) (0, c)) as [h' [d [E M]]]; auto. unfold h_cut in E. simpl in E.
  exists h', d. split; auto.
Qed.

Lemma h_transpose_spec h A : good h A ->
  exists h' d, h_transpose h A = Ok (h', d) /\ makes h h' d (h_c A) (h_r A) (mtr (hent h A)).
Proof.
  intros G. unfold h_transpose. destruct (h_new_makes h (h_c A) (h_r A)) as [h1 [d [E M]]]. rewrite E.
  pose proof M as [X1 [X2 [X3 [X4 _]]]].
  assert (Hin : forall i j, In (i, j) (map (fun ij => (snd ij, fst ij)) (ij_all (h_r A) (h_c A))) <-> i < h_c A /\ j < h_r A).
  { intros i j. rewrite in_map_iff. split.
    - intros [[x y] [E1 E2]]. apply in_ij_all in E2. simpl in E1. inversion E1; subst. tauto.
    - intros [H1 H2]. exists (j, i). split; auto. apply in_ij_all. auto. }
  destruct (h_loop_spec (map (fun ij => (snd ij, fst ij)) (ij_all (h_r A) (h_c A))) d
              (fun h i j => h_get h A j i) (mtr (hent h A)) h1) as [h2 [E2 [F [V _]]]]; auto.
  - apply Injective_map_NoDup; [|apply ij_loop_nodup]. intros [x y] [x' y']. simpl. congruence.
  - intros i j Hij. rewrite X3, X4. apply Hin. auto.
  - intros h2 i j Hij F. apply Hin in Hij. rewrite h_get_spec; try lia.
    + unfold mtr. f_equal. transitivity (hent h1 A j i).
      * eapply frame_hent; eauto; try lia. eapply new_apart; eauto.
      * apply extends_hent; auto.
    + eapply good_shape; [eapply extends_good; eauto|]. apply F.
  - rewrite E2. simpl. exists h2, d. split; auto. eapply makes_write; eauto.
    intros i j Hi Hj. apply V. apply Hin. auto.
Qed.

Lemma h_fill_spec h A a : good h A ->
  exists h', h_fill h A a = Ok h' /\ frame h h' A /\ forall i j, i < h_r A -> j < h_c A -> hent h' A i j = a.
Proof.
  intros G. unfold h_fill.
  destruct (h_loop_spec (ij_all (h_r A) (h_c A)) A (fun _ _ _ => Ok a) (fun _ _ => a) h) as [h' [E [F [V _]]]]; auto.
  - apply ij_loop_nodup.
  - intros i j Hin. apply in_ij_all. auto.
  - exists h'. split; auto. split; auto. intros i j Hi Hj. apply V. apply in_ij_all. auto.
Qed.

(** ** Copy assignment *)
Lemma h_assign_spec h A : good h A -> packed A ->
  exists h' d, h_assign h false A = Ok (h', d) /\ makes h h' d (h_r A) (h_c A) (hent h A).
Proof.
  intros G Hst. unfold h_assign. cbn [alloc].
  set (h1 := Heap (h_bufs h ++ _) _).
  set (d := HD (h_r A) (h_c A) (h_stride A) (length (h_bufs h)) 0 0 0 (h_id A)).
  assert (N : forall B, nth_error (h_bufs h ++ [B]) (length (h_bufs h)) = Some B).
  { intros B. rewrite nth_error_app2 by lia. rewrite Nat.sub_diag. reflexivity. }
  assert (EX : extends h h1).
  { split; [unfold nbufs; simpl; rewrite app_length; simpl; lia|]. split; [simpl; lia|].
    intros b Hb. unfold size, val. simpl. rewrite nth_error_app1 by auto. auto. }
  assert (GD : good h1 d).
  { destruct G as [_ [_ [G3 _]]]. unfold good, nbufs, size. simpl. rewrite app_length, N. simpl. repeat (split; [lia|]). intros i j Hi Hj. exact (packed_addr (HD (h_r A) (h_c A) (h_stride A) 0 0 0 0 0) i j eq_refl Hst Hi Hj). }
  unfold h_fill_from. simpl h_r at 2. simpl h_c at 2. rewrite !Nat.eqb_refl.
  destruct (copy_to_spec h1 A d 0 0) as [h2 [E2 [F V]]]; auto.
  - eapply extends_good; eauto.
  - apply bufs_apart. simpl. destruct G as [G _]. unfold nbufs in G. lia.
  - simpl; lia.
  - simpl; lia.
  - rewrite E2. cbn [bind fresh_id].
    eexists. eexists. split; [reflexivity|].
    pose proof F as [[S1 [S2 S3]] F2]. unfold nbufs in S1. simpl in S1, S2. rewrite app_length in S1. simpl in S1.
    pose proof (frame_extends _ _ _ _ EX F) as EX2. simpl in EX2. specialize (EX2 (le_n _)).
    assert (S3' : size h2 (length (h_bufs h)) = h_r A * h_c A).
    { rewrite S3. unfold size. simpl. rewrite N. reflexivity. }
    set (h3 := Heap (h_bufs h2) (S (h_next h2))).
    assert (EX3 : extends h h3).
    { destruct EX2 as [Q1 [Q2 Q3]]. split; [exact Q1|]. split; [simpl; lia|]. exact Q3. }
    assert (S4 : size h3 (length (h_bufs h)) = h_r A * h_c A) by exact S3'.
    unfold makes. split; [exact EX3|]. split.
    { unfold good. cbn [h_buf h_off h_r0 h_stride h_c0 h_c h_r]. unfold nbufs at 1. simpl h_bufs. rewrite S4. destruct G as [_ [_ [G3 _]]]. repeat (split; [lia|]). intros i j Hi Hj. exact (packed_addr (HD (h_r A) (h_c A) (h_stride A) 0 0 0 0 0) i j eq_refl Hst Hi Hj). }
    cbn [h_buf h_off h_r0 h_stride h_c0 h_c h_r h_id h_next h3]. unfold nbufs. cbn [h_bufs].
    repeat (split; [solve [lia | auto | simpl; lia]|]).
    intros i j Hi Hj. transitivity (hent h2 d i j); [reflexivity|]. rewrite V by auto. unfold mwin. simpl.
      apply extends_hent; auto.
Qed.



(** From a view that is not contiguous the assignment leaves the new storage. *)
Lemma h_loop_UB l A w : forall h,
  (forall i j, In (i, j) l -> i < h_r A /\ j < h_c A) ->
  (forall h1 i j, In (i, j) l -> same_shape h h1 -> (exists v, w h1 i j = Ok v) \/ w h1 i j = UB) ->
  (exists i j, In (i, j) l /\ size h (h_buf A) <= addr A i j) ->
  h_loop l A w h = UB.
Proof.
  induction l as [|[i j] l IH]; intros h Hl Hw [i0 [j0 [Hin H]]]; [destruct Hin|]. simpl.
  destruct (Hw h i j) as [[v Ev]|Ev]; [left; auto|apply same_shape_refl| |rewrite Ev; reflexivity]. rewrite Ev. simpl.
  destruct (Hl i j) as [Hi Hj]; [left; auto|]. unfold h_set.
  apply Nat.ltb_lt in Hi, Hj. rewrite Hi, Hj.
  destruct (le_lt_dec (size h (h_buf A)) (addr A i j)) as [Hle|Hlt].
  - rewrite poke_UB by auto. reflexivity.
  - destruct (poke_spec h (h_buf A) (addr A i j) v Hlt) as [h1 [E1 [E2 _]]]. rewrite E1. simpl. apply IH.
    + intros; apply Hl; right; auto.
    + intros h2 i' j' Hin' Hs. apply Hw; [right; auto|]. eapply same_shape_trans; eauto.
    + exists i0, j0. destruct Hin as [Heq|Hin]; [inversion Heq; subst; lia|]. split; auto.
      destruct E2 as [_ [_ E2]]. rewrite E2. auto.
Qed.

Lemma alloc_facts h n : let h1 := fst (alloc h n) in
  extends h h1 /\ nbufs h1 = S (nbufs h) /\ h_next h1 = h_next h /\ size h1 (nbufs h) = n /\ forall k, val h1 (nbufs h) k = 0%r.
Proof.
  simpl. assert (N : forall B, nth_error (h_bufs h ++ [B]) (length (h_bufs h)) = Some B).
  { intros B. rewrite nth_error_app2 by lia. rewrite Nat.sub_diag. reflexivity. }
  split.
  { split; [unfold nbufs; simpl; rewrite app_length; simpl; lia|]. split; [simpl; lia|].
    intros b Hb. unfold size, val. simpl. rewrite nth_error_app1 by auto. auto. }
  unfold nbufs, size, val. simpl. rewrite app_length, N. simpl. repeat split; lia.
Qed.

Lemma h_assign_UB h A self : good h A -> h_c A < h_stride A -> 2 <= h_r A -> 1 <= h_c A ->
  h_assign h self A = UB.
Proof.
  intros G Hst Hr Hc. unfold h_assign. destruct (alloc h (h_r A * h_c A)) as [h1 b] eqn:Ea.
  pose proof (alloc_facts h (h_r A * h_c A)) as AF. rewrite Ea in AF. cbv zeta in AF. cbn [fst] in AF.
  destruct AF as [EX [NB [NX [SZ _]]]]. assert (Eb : b = nbufs h) by (inversion Ea; reflexivity). subst b.
  set (d := HD (h_r A) (h_c A) (h_stride A) (nbufs h) 0 0 0 (h_id A)).
  assert (ES : h_r (if self then d else A) = h_r A /\ h_c (if self then d else A) = h_c A) by (destruct self; auto).
  destruct ES as [ES1 ES2].
  unfold h_fill_from, h_copy_to. rewrite ES1, ES2. simpl h_r. simpl h_c. rewrite !Nat.eqb_refl. rewrite !Nat.add_0_r, !Nat.leb_refl.
  rewrite h_loop_UB; [reflexivity| | |].
  - intros i j Hin. apply in_ij_all in Hin. auto.
  - intros h2 i j Hin HS. apply in_ij_all in Hin. simpl.
    destruct self.
    + unfold h_get. simpl h_r. simpl h_c. destruct Hin as [Hi Hj]. apply Nat.ltb_lt in Hi, Hj. rewrite Hi, Hj.
      destruct (le_lt_dec (size h2 (h_buf d)) (addr d i j)); [right; apply peek_UB; auto|left; eexists; apply peek_spec; auto].
    + left. eexists. apply h_get_spec; try lia. apply (good_shape h1); auto. eapply extends_good; eauto.
  - exists (h_r A - 1), (h_c A - 1). split; [apply in_ij_all; lia|]. simpl h_buf. rewrite SZ. unfold addr. simpl.
    assert ((h_r A - 1) * (h_c A + 1) <= (h_r A - 1) * h_stride A) by (apply Nat.mul_le_mono_l; lia). nia.
Qed.

(** A = A empties A. *)
Lemma h_loop_self l d : forall h, good h d -> (forall i j, In (i, j) l -> i < h_r d /\ j < h_c d) ->
  (forall i j, i < h_r d -> j < h_c d -> hent h d i j = 0%r) ->
  exists h', h_loop l d (fun h i j => h_get h d i j) h = Ok h' /\ frame h h' d /\
    forall i j, i < h_r d -> j < h_c d -> hent h' d i j = 0%r.
Proof.
  induction l as [|[i j] l IH]; intros h G Hl Hz; simpl.
  - exists h. split; auto. split; auto. apply frame_refl.
  - destruct (Hl i j) as [Hi Hj]; [left; auto|]. rewrite h_get_spec by auto. cbn [bind].
    destruct (h_set_spec h d i j (hent h d i j) G Hi Hj) as [h1 [E1 [E2 _]]]. rewrite E1. cbn [bind].
    pose proof (frame_set _ _ _ _ _ _ G E1) as F1.
    destruct (h_set_entries _ _ _ _ _ _ G E1) as [_ [_ [_ [HE _]]]].
    destruct (IH h1) as [h' [E' [F' HV]]].
    + eapply good_shape; eauto.
    + intros; apply Hl; right; auto.
    + intros i' j' Hi' Hj'. rewrite HE by auto. destruct ((i' =? i) && (j' =? j)); auto.
    + exists h'. split; auto. split; auto. eapply frame_trans; eauto.
Qed.

Lemma h_assign_self h A : good h A -> packed A ->
  exists h' d, h_assign h true A = Ok (h', d) /\ makes h h' d (h_r A) (h_c A) mzero.
Proof.
  intros G Hst. unfold h_assign. destruct (alloc h (h_r A * h_c A)) as [h1 b] eqn:Ea.
  pose proof (alloc_facts h (h_r A * h_c A)) as AF. rewrite Ea in AF. cbv zeta in AF. cbn [fst] in AF.
  destruct AF as [EX [NB [NX [SZ VZ]]]]. assert (Eb : b = nbufs h) by (inversion Ea; reflexivity). subst b.
  set (d := HD (h_r A) (h_c A) (h_stride A) (nbufs h) 0 0 0 (h_id A)).
  unfold h_fill_from, h_copy_to. simpl h_r. simpl h_c. rewrite !Nat.eqb_refl. rewrite !Nat.add_0_r, !Nat.leb_refl.
  assert (GD : good h1 d). { destruct G as [_ [_ [G3 _]]]. unfold good. simpl. rewrite NB, SZ. repeat (split; [lia|]). intros i j Hi Hj. exact (packed_addr (HD (h_r A) (h_c A) (h_stride A) 0 0 0 0 0) i j eq_refl Hst Hi Hj). }
  destruct (h_loop_self (ij_all (h_r A) (h_c A)) d h1 GD) as [h2 [E2 [F V]]].
  - intros i j Hin. apply in_ij_all. auto.
  - intros i j _ _. unfold hent. simpl. apply VZ.
  - simpl Nat.add. rewrite E2. cbn [bind fresh_id].
    eexists. eexists. split; [reflexivity|].
    pose proof F as [[S1 [S2 S3]] F2].
    pose proof (frame_extends _ _ _ _ EX F (le_n _)) as EX2.
    set (h3 := Heap (h_bufs h2) (S (h_next h2))).
    assert (EX3 : extends h h3).
    { destruct EX2 as [Q1 [Q2 Q3]]. split; [exact Q1|]. split; [simpl; lia|]. exact Q3. }
    assert (S4 : size h3 (nbufs h) = h_r A * h_c A). { change (size h3 (nbufs h)) with (size h2 (nbufs h)). rewrite S3. exact SZ. }
    unfold makes. split; [exact EX3|].
    assert (NB3 : nbufs h3 = S (nbufs h)). { change (nbufs h3) with (nbufs h2). congruence. }
    split.
    { unfold good. cbn [h_buf h_off h_r0 h_stride h_c0 h_c h_r]. rewrite S4, NB3. destruct G as [_ [_ [G3 _]]]. repeat (split; [lia|]). intros i j Hi Hj. exact (packed_addr (HD (h_r A) (h_c A) (h_stride A) 0 0 0 0 0) i j eq_refl Hst Hi Hj). }
    cbn [h_buf h_off h_r0 h_stride h_c0 h_c h_r h_id h_next h3].
    repeat (split; [solve [lia | auto]|]). intros i j Hi Hj. transitivity (hent h2 d i j); [reflexivity|]. apply V; auto.
Qed.

(** ** Windows *)
Lemma h_view_spec h A rr cr : good h A -> fst rr + snd rr <= h_r A -> fst cr + snd cr <= h_c A ->
  exists h' d, h_view h A rr cr = (h', d) /\ h_bufs h' = h_bufs h /\ h_next h' = S (h_next h) /\ good h' d /\
    h_r d = snd rr /\ h_c d = snd cr /\ h_buf d = h_buf A /\ h_id d = h_next h /\
    forall i j, addr d i j = addr A (fst rr + i) (fst cr + j).
Proof.
  intros [G1 [G2 [G3 G4]]] H1 H2. unfold h_view. simpl. eexists. eexists. split; [reflexivity|]. simpl.
  repeat (split; [reflexivity|]). split.
  { unfold good. simpl. split; [exact G1|]. split; [reflexivity|]. split; [lia|].
    change (size (Heap (h_bufs h) (S (h_next h))) (h_buf A)) with (size h (h_buf A)).
    intros i j Hi Hj. unfold addr. simpl. specialize (G4 (fst rr + i) (fst cr + j)). unfold addr in G4. rewrite G2 in G4.
    lapply G4; [intros G5|lia]. lapply G5; [|lia]. nia. }
  repeat (split; [reflexivity|]). intros i j. unfold addr. simpl. rewrite G2. nia.
Qed.

Definition in_ranges (A : hdense) (p : (nat * nat) * (nat * nat)) : Prop :=
  fst (fst p) + snd (fst p) <= h_r A /\ fst (snd p) + snd (snd p) <= h_c A.

Lemma bufs_extends h h' : h_bufs h' = h_bufs h -> h_next h <= h_next h' -> extends h h'.
Proof. intros E H. unfold extends, nbufs, size, val. rewrite E. repeat split; auto. Qed.

Lemma makes_extends h h' d r c f : makes h h' d r c f -> extends h h'.
Proof. intros [H _]; exact H. Qed.

Lemma h_children_spec l copy A : forall h, good h A -> Forall (in_ranges A) l ->
  exists h' ds, h_children l copy A h = Ok (h', ds) /\ extends h h' /\ length ds = length l /\
    h_next h' = h_next h + length l /\ nbufs h' = nbufs h + (if copy then length l else 0) /\
    (copy = false -> h_bufs h' = h_bufs h) /\
    forall e rr cr, nth_error l e = Some (rr, cr) -> exists d, nth_error ds e = Some d /\ good h' d /\
      h_id d = h_next h + e /\ h_buf d = (if copy then nbufs h + e else h_buf A) /\
      h_r d = snd rr /\ h_c d = snd cr /\ feq (snd rr) (snd cr) (hent h' d) (mwin (fst rr) (fst cr) (hent h A)) /\
      (copy = false -> forall i j, addr d i j = addr A (fst rr + i) (fst cr + j)).
Proof.
  induction l as [|[rr cr] l IH]; intros h G HF.
  - simpl. exists h, []. split; auto. split; [apply extends_refl|]. simpl. rewrite Nat.add_0_r.
    repeat (split; [destruct copy; auto; lia|]). intros [|e] ? ? H; discriminate.
  - inversion HF as [|x y [H1 H2] HF']; subst. simpl in H1, H2. simpl h_children.
    assert (STEP : exists h1 d, (if copy then h_cut h A rr cr else Ok (h_view h A rr cr)) = Ok (h1, d) /\
       extends h h1 /\ good h1 d /\ h_next h1 = S (h_next h) /\ nbufs h1 = nbufs h + (if copy then 1 else 0) /\
       (copy = false -> h_bufs h1 = h_bufs h) /\
       h_id d = h_next h /\ h_buf d = (if copy then nbufs h else h_buf A) /\
       h_r d = snd rr /\ h_c d = snd cr /\ feq (snd rr) (snd cr) (hent h1 d) (mwin (fst rr) (fst cr) (hent h A)) /\
      (copy = false -> forall i j, addr d i j = addr A (fst rr + i) (fst cr + j))).
    { destruct copy.
      - destruct (h_cut_spec h A rr cr G H1 H2) as [h1 [d [E [M1 [M2 [M3 [M4 [M5 [M6 [M7 [M8 [M9 [M10 [M11 [M12 M13]]]]]]]]]]]]]]].
        exists h1, d. split; auto. split; auto. split; auto. split; auto. split; [lia|]. repeat (split; [congruence|]). split; auto. discriminate.
      - destruct (h_view_spec h A rr cr G H1 H2) as [h1 [d [E [M1 [M2 [M3 [M4 [M5 [M6 [M7 M8]]]]]]]]]].
        exists h1, d. rewrite E. split; auto. split; [apply bufs_extends; auto; lia|]. split; auto. split; auto.
        split; [unfold nbufs; rewrite M1; lia|]. split; auto. repeat (split; [congruence|]). split; auto.
        intros i j Hi Hj. unfold hent, mwin. rewrite M8, M6. unfold val. rewrite M1. reflexivity. }
    destruct STEP as [h1 [d [E1 [X1 [X2 [X3 [X4 [X5 [X6 [X7 [X8 [X9 [X10 X11]]]]]]]]]]]]].
    rewrite E1. cbn [bind].
    destruct (IH h1) as [h' [ds [E2 [Y1 [Y2 [Y3 [Y4 [Y5 Y6]]]]]]]]; [eapply extends_good; eauto|auto|].
    rewrite E2. cbn [bind]. exists h', (d :: ds). split; auto. split; [eapply extends_trans; eauto|].
    split; [simpl; auto|]. split; [simpl; lia|]. split; [destruct copy; simpl; lia|].
    split; [intros Hc; rewrite Y5, X5; auto|].
    intros [|e] rr' cr' Hn; simpl in Hn.
    + inversion Hn; subst rr' cr'. exists d. split; auto. split; [eapply extends_good; eauto|]. split; [lia|].
      split; [destruct copy; lia|]. split; auto. split; auto. split; auto.
      intros i j Hi Hj. rewrite <- X10 by auto. apply extends_hent; auto.
    + destruct (Y6 e rr' cr' Hn) as [d' [Z1 [Z2 [Z3 [Z4 [Z5 [Z6 [Z7 Z8]]]]]]]]. exists d'. split; auto. split; auto.
      split; [lia|]. split; [destruct copy; auto; lia|]. split; auto. split; auto. split; auto.
      intros i j Hi Hj. rewrite Z7 by auto. unfold mwin. apply extends_hent; auto.
Qed.

End Proofs.
