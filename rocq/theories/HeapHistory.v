(** Histories of operations on Dense objects. *)
From Coq Require Import List Arith Lia Bool.
From Verif Require Import Prelude Ring MatFun Matrix MatOps MatOpsProofs Heap HeapProofs.
Import ListNotations.
Local Open Scope nat_scope.

Section History.
Context {R : cring}.
Notation heap := (heap R).
Notation state := (state R).
Notation cmd := (cmd R).
Notation mat := (mat R).
Implicit Types (h : heap) (s : state) (c : cmd) (v : R).
Local Arguments h_new : simpl never.
Local Arguments h_copy : simpl never.
Local Arguments h_assign : simpl never.
Local Arguments h_resize : simpl never.
Local Arguments h_transpose : simpl never.
Local Arguments h_set1 : simpl never.

Definition live s k d : Prop := nth_error (s_objs s) k = Some (Some d).

Lemma obj_live s k d : live s k d -> obj s k = Ok d.
Proof. unfold live, obj. intros ->. reflexivity. Qed.
Lemma obj_Ok s k d : obj s k = Ok d -> live s k d.
Proof. unfold live, obj. destruct (nth_error (s_objs s) k) as [[d'|]|]; try discriminate. congruence. Qed.

(** ** Legal histories: what the caller has to guarantee. *)
Definition valid s c : Prop :=
  match c with
  | Cnew _ _ => True
  | Ccopy k | Cshallow k | Cmove k | Ctranspose k | Cfill k _ => exists a, live s k a
  | Cassign k l => (exists a, live s k a) /\ exists b, live s l b /\ packed b
  | Csplit k rs cs _ => exists a, live s k a /\
      (forall r, In r rs -> fst r + snd r <= h_r a) /\ (forall r, In r cs -> fst r + snd r <= h_c a)
  | Cresize k r c => exists a, live s k a /\ r <= h_r a /\ c <= h_c a
  | Cset k i j _ => exists a, live s k a /\ i < h_r a /\ j < h_c a
  | Cset1 k i _ => exists a, live s k a /\ ((h_r a = 1 /\ i < h_c a) \/ (h_r a <> 1 /\ h_c a = 1 /\ i < h_r a))
  | Ccopyto k l rs cs => exists a b, live s k a /\ live s l b /\ h_r b + rs <= h_r a /\ h_c b + cs <= h_c a
  end.

Fixpoint legal s (cs : list cmd) : Prop :=
  match cs with
  | [] => True
  | c :: t => valid s c /\ forall s', step s c = Ok s' -> legal s' t
  end.

(** ** The invariant *)
Definition inv s : Prop := forall k d, live s k d -> good (s_heap s) d.

Lemma init_inv : inv init.
Proof. intros [|k] d H; discriminate. Qed.

Lemma live_push s h ds k d : nth_error (s_objs (push s h ds)) k = Some (Some d) ->
  live s k d \/ (exists e, k = length (s_objs s) + e /\ nth_error ds e = Some d).
Proof.
  unfold push. simpl. intros H. destruct (le_lt_dec (length (s_objs s)) k) as [Hle|Hlt].
  - right. rewrite nth_error_app2 in H by auto. exists (k - length (s_objs s)). split; [lia|].
    rewrite nth_error_map in H. destruct (nth_error ds (k - length (s_objs s))); simpl in H; congruence.
  - left. rewrite nth_error_app1 in H by auto. exact H.
Qed.

Lemma inv_push s h ds : inv s -> extends (s_heap s) h -> (forall d, In d ds -> good h d) -> inv (push s h ds).
Proof.
  intros I EX HD k d H. apply live_push in H. destruct H as [H|[e [_ H]]].
  - simpl. eapply extends_good; eauto.
  - simpl. apply HD. eapply nth_error_In; eauto.
Qed.

Lemma inv_shape s h : inv s -> same_shape (s_heap s) h -> inv (St h (s_objs s)).
Proof. intros I HS k d H. simpl. eapply good_shape; eauto. Qed.

Lemma pairs_in {A B} (l : list A) (m : list B) a b : In (a, b) (pairs l m) <-> In a l /\ In b m.
Proof.
  unfold pairs. rewrite in_flat_map. split.
  - intros [x [H1 H2]]. apply in_map_iff in H2. destruct H2 as [y [E H2]]. inversion E; subst. auto.
  - intros [H1 H2]. exists a. split; auto. apply in_map_iff. eauto.
Qed.

Lemma set1_as_set h a i v : (h_r a = 1 /\ i < h_c a) \/ (h_r a <> 1 /\ h_c a = 1 /\ i < h_r a) ->
  h_set1 h a i v = (if h_r a =? 1 then h_set h a 0 i v else h_set h a i 0 v).
Proof.
  intros H. unfold h_set1, addr1, h_set, addr. destruct H as [[H1 H2]|[H1 [H2 H3]]].
  - rewrite H1. simpl. pose proof H2 as H2'. apply Nat.ltb_lt in H2'. rewrite H2'. simpl. rewrite Nat.add_0_r. reflexivity.
  - apply Nat.eqb_neq in H1. rewrite H1, H2. simpl. apply Nat.ltb_lt in H3. rewrite H3. simpl. rewrite Nat.add_0_r. reflexivity.
Qed.

Lemma lupd_live s h k d0 k' d : nth_error (lupd (s_objs s) k (Some d0)) k' = Some (Some d) ->
  (k' = k /\ d = d0) \/ live s k' d.
Proof.
  rewrite lupd_nth. destruct ((k' =? k) && (k <? length (s_objs s))) eqn:E.
  - apply andb_prop in E. destruct E as [E _]. apply Nat.eqb_eq in E. intros H. left. split; congruence.
  - intros H; right; exact H.
Qed.

Theorem step_ok s c : inv s -> valid s c -> exists s', step s c = Ok s' /\ inv s'.
Proof.
  intros I V. destruct c as [r c|k|k l|k|k|k rs cs copy|k r c|k|k i j v|k i v|k v|k l rs cs]; cbn [step valid] in V |- *.
  - destruct (h_new_makes (s_heap s) r c) as [h [d [E M]]]. rewrite E. eexists. split; [reflexivity|].
    apply inv_push; auto; [apply M|]. intros d' [<-|[]]. apply M.
  - destruct V as [a La]. rewrite (obj_live _ _ _ La). simpl.
    destruct (h_copy_spec (s_heap s) a (I _ _ La)) as [h [d [E M]]]. rewrite E. simpl. eexists. split; [reflexivity|].
    apply inv_push; auto; [apply M|]. intros d' [<-|[]]. apply M.
  - destruct V as [[a La] [b [Lb Hst]]]. rewrite (obj_live _ _ _ La), (obj_live _ _ _ Lb). simpl.
    assert (X : exists h' d f, h_assign (s_heap s) (k =? l) b = Ok (h', d) /\ makes (s_heap s) h' d (h_r b) (h_c b) f).
    { destruct (k =? l).
      - destruct (h_assign_self (s_heap s) b (I _ _ Lb) Hst) as [h [d [E M]]]; eauto.
      - destruct (h_assign_spec (s_heap s) b (I _ _ Lb) Hst) as [h [d [E M]]]; eauto. }
    destruct X as [h [d [f [E M]]]]. rewrite E. simpl. eexists. split; [reflexivity|].
    intros k' d' H. unfold live in H. simpl in H. apply (lupd_live s h) in H. destruct H as [[-> ->]|H].
    + apply M.
    + simpl. eapply extends_good; [apply M|]. eapply I; eauto.
  - destruct V as [a La]. rewrite (obj_live _ _ _ La). simpl. eexists. split; [reflexivity|].
    apply inv_push; auto; [apply extends_refl|]. intros d [<-|[]]. apply (I _ _ La).
  - destruct V as [a La]. rewrite (obj_live _ _ _ La). simpl. eexists. split; [reflexivity|].
    intros k' d H. unfold live in H. simpl in H |- *. destruct (le_lt_dec (length (s_objs s)) k') as [Hle|Hlt].
    + rewrite nth_error_app2 in H by (rewrite lupd_length; auto). rewrite lupd_length in H.
      destruct (k' - length (s_objs s)) as [|x]; simpl in H; [|destruct x; discriminate]. inversion H; subst. apply (I _ _ La).
    + rewrite nth_error_app1 in H by (rewrite lupd_length; auto). rewrite lupd_nth in H.
      destruct ((k' =? k) && (k <? length (s_objs s))); [discriminate|]. apply (I _ _ H).
  - destruct V as [a [La [Hr Hc]]]. rewrite (obj_live _ _ _ La). simpl. unfold h_split.
    destruct (h_children_spec (pairs rs cs) copy a (s_heap s) (I _ _ La)) as [h [ds [E [EX [HL [_ [_ [_ HD]]]]]]]].
    { apply Forall_forall. intros [rr cr] Hin. apply pairs_in in Hin. split; simpl; [apply Hr|apply Hc]; tauto. }
    rewrite E. simpl. eexists. split; [reflexivity|]. apply inv_push; auto.
    intros d Hd. apply In_nth_error in Hd. destruct Hd as [e He].
    assert (Hlt : e < length (pairs rs cs)). { rewrite <- HL. apply nth_error_Some. congruence. }
    destruct (nth_error (pairs rs cs) e) as [[rr cr]|] eqn:Ee; [|apply nth_error_None in Ee; lia].
    destruct (HD _ _ _ Ee) as [d' [E1 [E2 _]]]. congruence.
  - destruct V as [a [La [Hr Hc]]]. rewrite (obj_live _ _ _ La). simpl.
    destruct (h_resize_spec (s_heap s) a r c (I _ _ La) Hr Hc) as [h [d [E M]]]. rewrite E. simpl. eexists. split; [reflexivity|].
    apply inv_push; auto; [apply M|]. intros d' [<-|[]]. apply M.
  - destruct V as [a La]. rewrite (obj_live _ _ _ La). simpl.
    destruct (h_transpose_spec (s_heap s) a (I _ _ La)) as [h [d [E M]]]. rewrite E. simpl. eexists. split; [reflexivity|].
    apply inv_push; auto; [apply M|]. intros d' [<-|[]]. apply M.
  - destruct V as [a [La [Hi Hj]]]. rewrite (obj_live _ _ _ La). simpl.
    destruct (h_set_spec (s_heap s) a i j v (I _ _ La) Hi Hj) as [h [E [HS _]]]. rewrite E. simpl. eexists. split; [reflexivity|].
    apply inv_shape; auto.
  - destruct V as [a [La Hi]]. rewrite (obj_live _ _ _ La). simpl. rewrite set1_as_set by auto.
    assert (X : exists h, (if h_r a =? 1 then h_set (s_heap s) a 0 i v else h_set (s_heap s) a i 0 v) = Ok h /\ same_shape (s_heap s) h).
    { destruct Hi as [[H1 H2]|[H1 [H2 H3]]].
      - rewrite H1. simpl. destruct (h_set_spec (s_heap s) a 0 i v (I _ _ La)) as [h [E [HS _]]]; try lia. eauto.
      - apply Nat.eqb_neq in H1. rewrite H1. destruct (h_set_spec (s_heap s) a i 0 v (I _ _ La)) as [h [E [HS _]]]; try lia. eauto. }
    destruct X as [h [E HS]]. rewrite E. simpl. eexists. split; [reflexivity|]. apply inv_shape; auto.
  - destruct V as [a La]. rewrite (obj_live _ _ _ La). simpl.
    destruct (h_fill_spec (s_heap s) a v (I _ _ La)) as [h [E [[HS _] _]]]. rewrite E. simpl. eexists. split; [reflexivity|].
    apply inv_shape; auto.
  - destruct V as [a [b [La [Lb [Hr Hc]]]]]. rewrite (obj_live _ _ _ La), (obj_live _ _ _ Lb). simpl.
    destruct (copy_to_safe (s_heap s) a b rs cs (I _ _ La) (I _ _ Lb) Hr Hc) as [h [E [HS _]]]. rewrite E. simpl.
    eexists. split; [reflexivity|]. apply inv_shape; auto.
Qed.

Lemma run_ok (cs : list cmd) : forall s, inv s -> legal s cs -> exists s', run cs s = Ok s' /\ inv s'.
Proof.
  induction cs as [|c cs IH]; intros s I L; simpl.
  - exists s; auto.
  - destruct L as [V L]. destruct (step_ok s c I V) as [s1 [E I1]]. rewrite E. simpl. apply IH; auto.
Qed.

(** Every in-range access of every object succeeds. *)
Theorem accesses_inside (cs : list cmd) : legal init cs ->
  exists s, run cs init = Ok s /\
    forall k d, live s k d -> forall i j, i < h_r d -> j < h_c d ->
      (exists v, h_get (s_heap s) d i j = Ok v) /\ (forall v, exists h, h_set (s_heap s) d i j v = Ok h).
Proof.
  intros L. destruct (run_ok cs init init_inv L) as [s [E I]]. exists s. split; auto.
  intros k d Hk i j Hi Hj. pose proof (I _ _ Hk) as G. split.
  - eexists. apply h_get_spec; auto.
  - intros v. destruct (h_set_spec _ _ i j v G Hi Hj) as [h [E1 _]]. eauto.
Qed.

(** ** Who shares what: read off the history alone *)

(** The birth of a storage (or of an identity): position of the command and number
    of the child. [views] says whether a view inherits from its parent. *)
Definition birth := (nat * nat)%type.

Definition gstep (views : bool) (t : nat) (g : list birth) c : list birth :=
  let inherit k := nth k g (0, 0) in
  match c with
  | Cnew _ _ | Ccopy _ | Cresize _ _ _ | Ctranspose _ => g ++ [(t, 0)]
  | Cassign k _ => lupd g k (t, 0)
  | Cshallow k | Cmove k => g ++ [inherit k]
  | Csplit k rs cs copy =>
      g ++ map (fun e => if views && negb copy then inherit k else (t, e)) (seq 0 (length rs * length cs))
  | Cset _ _ _ _ | Cset1 _ _ _ | Cfill _ _ | Ccopyto _ _ _ _ => g
  end.

Fixpoint grun (views : bool) (t : nat) (cs : list cmd) (g : list birth) : list birth :=
  match cs with
  | [] => g
  | c :: r => grun views (S t) r (gstep views t g c)
  end.

(** Storage and identity of each object after a history. *)
Definition storages (cs : list cmd) : list birth := grun true 0 cs [].
Definition identities (cs : list cmd) : list birth := grun false 0 cs [].

(** [key] numbers agree exactly when births do. *)
Definition matches (key : hdense -> nat) (bound : nat) (t : nat) s (g : list birth) : Prop :=
  length g = length (s_objs s) /\
  (forall k d, live s k d -> key d < bound) /\
  (forall k b, nth_error g k = Some b -> fst b < t) /\
  (forall k k' d d' b b', live s k d -> live s k' d' -> nth_error g k = Some b -> nth_error g k' = Some b' ->
     (key d = key d' <-> b = b')).

Lemma live_lt s k d : live s k d -> k < length (s_objs s).
Proof. intros H. apply nth_error_Some. unfold live in H. congruence. Qed.

Lemma matches_same key bound t s s' g : matches key bound t s g -> s_objs s' = s_objs s -> matches key bound (S t) s' g.
Proof.
  intros [M1 [M2 [M3 M4]]] E. unfold matches, live in *. rewrite E. split; auto. split; auto. split; auto.
  intros k b H. specialize (M3 k b H). lia.
Qed.

(** Adding objects that are all new. *)
Lemma matches_fresh key bound t s h g ds : matches key bound t s g ->
  (forall e d, nth_error ds e = Some d -> key d = bound + e) ->
  matches key (bound + length ds) (S t) (push s h ds) (g ++ map (fun e => (t, e)) (seq 0 (length ds))).
Proof.
  intros [M1 [M2 [M3 M4]]] HK. unfold matches. rewrite app_length, map_length, seq_length.
  split. { unfold push; simpl. rewrite app_length, map_length. lia. }
  assert (NB : forall k b, nth_error (g ++ map (fun e => (t, e)) (seq 0 (length ds))) k = Some b ->
     (k < length g /\ nth_error g k = Some b) \/ (exists e, k = length g + e /\ b = (t, e))).
  { intros k b H. destruct (le_lt_dec (length g) k) as [Hle|Hlt].
    - right. rewrite nth_error_app2 in H by auto. exists (k - length g). split; [lia|].
      rewrite nth_error_map in H. destruct (nth_error (seq 0 (length ds)) (k - length g)) as [x|] eqn:E; [|discriminate].
      simpl in H. inversion H. f_equal.
      assert (Hx : k - length g < length ds). { rewrite <- (seq_length (length ds) 0). apply nth_error_Some. congruence. }
      apply (nth_error_nth _ _ 0) in E. rewrite seq_nth in E by auto. lia.
    - left. rewrite nth_error_app1 in H by auto. auto. }
  split.
  { intros k d H. apply live_push in H. destruct H as [H|[e [_ H]]].
    - specialize (M2 _ _ H). lia.
    - rewrite (HK _ _ H). assert (e < length ds) by (apply nth_error_Some; congruence). lia. }
  split.
  { intros k b H. apply NB in H. destruct H as [[_ H]|[e [_ ->]]]; [specialize (M3 _ _ H)|]; simpl; lia. }
  intros k k' d d' b b' L L' B B'. apply live_push in L, L'. apply NB in B, B'.
  destruct L as [L|[e [Ek L]]], L' as [L'|[e' [Ek' L']]].
  - pose proof (live_lt _ _ _ L). pose proof (live_lt _ _ _ L').
    destruct B as [[_ B]|[x [Ex _]]]; [|lia]. destruct B' as [[_ B']|[x [Ex _]]]; [|lia]. eapply M4; eauto.
  - pose proof (live_lt _ _ _ L).
    destruct B as [[_ B]|[x [Ex _]]]; [|lia]. destruct B' as [[Hx _]|[x [Ex ->]]]; [lia|].
    pose proof (M2 _ _ L). pose proof (M3 _ _ B). rewrite (HK _ _ L'). split; [lia|]. intros ->. simpl in *. lia.
  - pose proof (live_lt _ _ _ L').
    destruct B' as [[_ B']|[x [Ex _]]]; [|lia]. destruct B as [[Hx _]|[x [Ex ->]]]; [lia|].
    pose proof (M2 _ _ L'). pose proof (M3 _ _ B'). rewrite (HK _ _ L). split; [lia|]. intros <-. simpl in *. lia.
  - destruct B as [[Hx _]|[x [Ex ->]]]; [lia|]. destruct B' as [[Hx _]|[x' [Ex' ->]]]; [lia|].
    rewrite (HK _ _ L), (HK _ _ L'). split; [intros; f_equal; lia|]. intros H; inversion H. lia.
Qed.

(** Adding objects that inherit from object k. *)
Lemma matches_inherit key bound t s h g ds k a : matches key bound t s g -> live s k a ->
  (forall e d, nth_error ds e = Some d -> key d = key a) ->
  matches key bound (S t) (push s h ds) (g ++ map (fun _ => nth k g (0, 0)) (seq 0 (length ds))).
Proof.
  intros [M1 [M2 [M3 M4]]] La HK. unfold matches. rewrite app_length, map_length, seq_length.
  split. { unfold push; simpl. rewrite app_length, map_length. lia. }
  pose proof (live_lt _ _ _ La) as Hk. rewrite <- M1 in Hk.
  assert (Bk : nth_error g k = Some (nth k g (0, 0))) by (apply nth_error_nth'; auto).
  assert (NB : forall j b, nth_error (g ++ map (fun _ => nth k g (0, 0)) (seq 0 (length ds))) j = Some b ->
     (j < length g /\ nth_error g j = Some b) \/ (length g <= j /\ b = nth k g (0, 0))).
  { intros j b H. destruct (le_lt_dec (length g) j) as [Hle|Hlt].
    - right. rewrite nth_error_app2 in H by auto. split; auto.
      rewrite nth_error_map in H. destruct (nth_error (seq 0 (length ds)) (j - length g)) as [x|]; [|discriminate].
      simpl in H. congruence.
    - left. rewrite nth_error_app1 in H by auto. auto. }
  (* every object behaves like an old one *)
  assert (OLD : forall j d b, nth_error (s_objs (push s h ds)) j = Some (Some d) ->
      nth_error (g ++ map (fun _ => nth k g (0, 0)) (seq 0 (length ds))) j = Some b ->
      exists j0 d0, live s j0 d0 /\ nth_error g j0 = Some b /\ key d0 = key d).
  { intros j d b H B. apply live_push in H. apply NB in B. destruct H as [H|[e [Ej H]]].
    - pose proof (live_lt _ _ _ H). destruct B as [[_ B]|[Hx _]]; [|lia]. exists j, d. auto.
    - destruct B as [[Hx _]|[_ ->]]; [lia|]. exists k, a. split; auto. split; auto. symmetry. eauto. }
  split.
  { intros j d H. assert (Hj : j < length (g ++ map (fun _ => nth k g (0, 0)) (seq 0 (length ds)))).
    { rewrite app_length, map_length, seq_length. pose proof (live_lt (push s h ds) j d H) as X.
      unfold push in X. simpl in X. rewrite app_length, map_length in X. lia. }
    destruct (nth_error (g ++ map (fun _ => nth k g (0, 0)) (seq 0 (length ds))) j) as [b|] eqn:E; [|apply nth_error_None in E; lia].
    destruct (OLD _ _ _ H E) as [j0 [d0 [L0 [_ <-]]]]. eauto. }
  split.
  { intros j b H. apply NB in H. destruct H as [[_ H]|[_ ->]]; [specialize (M3 _ _ H)|specialize (M3 _ _ Bk)]; lia. }
  intros j j' d d' b b' L L' B B'.
  destruct (OLD _ _ _ L B) as [j0 [d0 [L0 [B0 <-]]]]. destruct (OLD _ _ _ L' B') as [j1 [d1 [L1 [B1 <-]]]].
  eapply M4; eauto.
Qed.

Lemma lupd_nth_error {A} (l : list A) k a j b : nth_error (lupd l k a) j = Some b ->
  (j = k /\ k < length l /\ b = a) \/ (j <> k /\ nth_error l j = Some b).
Proof.
  intros H. assert (Hj : j < length l). { rewrite <- (lupd_length l k a). apply nth_error_Some. congruence. }
  rewrite lupd_nth in H. destruct (Nat.eqb_spec j k) as [->|Hne]; simpl in H.
  - left. apply Nat.ltb_lt in Hj. rewrite Hj in H. apply Nat.ltb_lt in Hj. split; auto. split; auto. congruence.
  - right. auto.
Qed.

(** Replacing an object by a new one. *)
Lemma matches_replace key bound t s h g k d0 : matches key bound t s g -> key d0 = bound -> k < length (s_objs s) ->
  matches key (S bound) (S t) (St h (lupd (s_objs s) k (Some d0))) (lupd g k (t, 0)).
Proof.
  intros [M1 [M2 [M3 M4]]] HK Hk. unfold matches, live. simpl. rewrite !lupd_length. split; auto. split.
  { intros j d H. apply lupd_nth_error in H. destruct H as [[-> [_ E]]|[_ H]]; [inversion E; lia|]. specialize (M2 _ _ H). lia. }
  split.
  { intros j b H. apply lupd_nth_error in H. destruct H as [[-> [_ ->]]|[_ H]]; [simpl; lia|]. specialize (M3 _ _ H). lia. }
  intros j j' d d' b b' L L' B B'. apply lupd_nth_error in L, L', B, B'.
  destruct L as [[-> [_ E]]|[Hne L]], L' as [[-> [_ E']]|[Hne' L']];
    destruct B as [[Q [_ ->]]|[Q B]]; try congruence; destruct B' as [[Q' [_ ->]]|[Q' B']]; try congruence.
  - inversion E; inversion E'; subst. tauto.
  - inversion E; subst. pose proof (M2 _ _ L'). pose proof (M3 _ _ B'). split; [lia|]. intros <-. simpl in *. lia.
  - inversion E'; subst. pose proof (M2 _ _ L). pose proof (M3 _ _ B). split; [lia|]. intros ->. simpl in *. lia.
  - eapply M4; eauto.
Qed.

Lemma pairs_length {A B} (l : list A) (m : list B) : length (pairs l m) = length l * length m.
Proof.
  unfold pairs. induction l as [|a l IH]; simpl; auto. rewrite app_length, map_length, IH. reflexivity.
Qed.

(** Shapes: without invariant only what the code guarantees by itself is known, so
    the theorem is about legal histories. *)
Lemma matches_step key (views : bool) (cnt : heap -> nat)
  (Hnew : forall h h' d r cc f, makes h h' d r cc f -> key d = cnt h /\ cnt h' = S (cnt h))
  (Hshape : forall h h', same_shape h h' -> cnt h' = cnt h)
  (Hshallow : forall a, key (h_shallow a) = key a)
  (Hsplit : forall l copy a h h' ds, good h a -> Forall (in_ranges a) l -> h_children l copy a h = Ok (h', ds) ->
     if views && negb copy then cnt h' = cnt h /\ forall e d, nth_error ds e = Some d -> key d = key a
     else cnt h' = cnt h + length ds /\ forall e d, nth_error ds e = Some d -> key d = cnt h + e)
  t s c s' g : inv s -> valid s c -> step s c = Ok s' ->
  matches key (cnt (s_heap s)) t s g -> matches key (cnt (s_heap s')) (S t) s' (gstep views t g c).
Proof.
  intros I V E M.
  assert (FR : forall h d r cc f, makes (s_heap s) h d r cc f ->
     matches key (cnt h) (S t) (push s h [d]) (g ++ [(t, 0)])).
  { intros h d r cc f MK. destruct (Hnew _ _ _ _ _ _ MK) as [K1 K2].
    pose proof (matches_fresh key (cnt (s_heap s)) t s h g [d] M) as X.
    replace (cnt h) with (cnt (s_heap s) + length [d]) by (simpl; lia). apply X.
    intros [|e] d' H; simpl in H; [inversion H; subst; lia|destruct e; discriminate]. }
  destruct c as [r c|k|k l|k|k|k rs cs copy|k r c|k|k i j v|k i v|k v|k l rs cs]; cbn [step valid] in V, E; cbn [gstep].
  - destruct (h_new_makes (s_heap s) r c) as [h [d [E' MK]]]. rewrite E' in E. inversion E; subst s'. eapply FR; eauto.
  - destruct V as [a La]. rewrite (obj_live _ _ _ La) in E. simpl in E.
    destruct (h_copy_spec (s_heap s) a (I _ _ La)) as [h [d [E' MK]]]. rewrite E' in E. inversion E; subst s'. eapply FR; eauto.
  - destruct V as [[a La] [b [Lb Hst]]]. rewrite (obj_live _ _ _ La), (obj_live _ _ _ Lb) in E. simpl in E.
    assert (X : exists h' d f, h_assign (s_heap s) (k =? l) b = Ok (h', d) /\ makes (s_heap s) h' d (h_r b) (h_c b) f).
    { destruct (k =? l).
      - destruct (h_assign_self (s_heap s) b (I _ _ Lb) Hst) as [h [d [E' MK]]]; eauto.
      - destruct (h_assign_spec (s_heap s) b (I _ _ Lb) Hst) as [h [d [E' MK]]]; eauto. }
    destruct X as [h [d [f [E' MK]]]]. rewrite E' in E. inversion E; subst s'. simpl.
    destruct (Hnew _ _ _ _ _ _ MK) as [K1 K2]. rewrite K2. apply matches_replace; auto. eapply live_lt; eauto.
  - destruct V as [a La]. rewrite (obj_live _ _ _ La) in E. simpl in E. inversion E; subst s'.
    apply (matches_inherit key (cnt (s_heap s)) t s (s_heap s) g [h_shallow a] k a); auto.
    intros [|e] d H; simpl in H; [inversion H; apply Hshallow|destruct e; discriminate].
  - destruct V as [a La]. rewrite (obj_live _ _ _ La) in E. simpl in E. inversion E; subst s'. simpl.
    pose proof (matches_inherit key (cnt (s_heap s)) t s (s_heap s) g [a] k a M La) as X.
    destruct X as [X1 [X2 [X3 X4]]].
    { intros [|e] d H; simpl in H; [inversion H; auto|destruct e; discriminate]. }
    assert (SUB : forall j d, nth_error (lupd (s_objs s) k None ++ [Some a]) j = Some (Some d) ->
        nth_error (s_objs (push s (s_heap s) [a])) j = Some (Some d)).
    { intros j d H. unfold push. simpl. destruct (le_lt_dec (length (s_objs s)) j) as [Hle|Hlt].
      - rewrite nth_error_app2 in H by (rewrite lupd_length; auto). rewrite lupd_length in H. rewrite nth_error_app2 by auto. exact H.
      - rewrite nth_error_app1 in H by (rewrite lupd_length; auto). rewrite nth_error_app1 by auto.
        rewrite lupd_nth in H. destruct ((j =? k) && (k <? length (s_objs s))); [discriminate|auto]. }
    unfold matches, live. simpl. split; [|split; [|split; [exact X3|]]].
    + simpl in X1. unfold push in X1. simpl in X1. rewrite !app_length in X1. rewrite !app_length, lupd_length. exact X1.
    + intros j d H. apply (X2 j d). apply SUB. exact H.
    + intros j j' d d' b b' L L'. apply (X4 j j' d d' b b'); apply SUB; auto.
  - destruct V as [a [La [Hr Hc]]]. rewrite (obj_live _ _ _ La) in E. simpl in E. unfold h_split in E.
    assert (HF : Forall (in_ranges a) (pairs rs cs)).
    { apply Forall_forall. intros [rr cr] Hin. apply pairs_in in Hin. split; simpl; [apply Hr|apply Hc]; tauto. }
    destruct (h_children_spec (pairs rs cs) copy a (s_heap s) (I _ _ La) HF) as [h [ds [E' [EX [HL _]]]]].
    pose proof (Hsplit _ _ _ _ _ _ (I _ _ La) HF E') as HS. rewrite E' in E. inversion E; subst s'. simpl.
    rewrite pairs_length in HL. rewrite <- HL.
    destruct (views && negb copy).
    + destruct HS as [K1 K2]. rewrite K1. apply (matches_inherit key (cnt (s_heap s)) t s h g ds k a); auto.
    + destruct HS as [K1 K2]. rewrite K1. apply matches_fresh; auto.
  - destruct V as [a [La [Hr Hc]]]. rewrite (obj_live _ _ _ La) in E. simpl in E.
    destruct (h_resize_spec (s_heap s) a r c (I _ _ La) Hr Hc) as [h [d [E' MK]]]. rewrite E' in E. inversion E; subst s'. eapply FR; eauto.
  - destruct V as [a La]. rewrite (obj_live _ _ _ La) in E. simpl in E.
    destruct (h_transpose_spec (s_heap s) a (I _ _ La)) as [h [d [E' MK]]]. rewrite E' in E. inversion E; subst s'. eapply FR; eauto.
  - destruct V as [a [La [Hi Hj]]]. rewrite (obj_live _ _ _ La) in E. simpl in E.
    destruct (h_set_spec (s_heap s) a i j v (I _ _ La) Hi Hj) as [h [E' [HS _]]]. rewrite E' in E. inversion E; subst s'. simpl.
    rewrite (Hshape _ _ HS). eapply matches_same; eauto.
  - destruct V as [a [La Hi]]. rewrite (obj_live _ _ _ La) in E. simpl in E. rewrite set1_as_set in E by auto.
    assert (X : exists h, (if h_r a =? 1 then h_set (s_heap s) a 0 i v else h_set (s_heap s) a i 0 v) = Ok h /\ same_shape (s_heap s) h).
    { destruct Hi as [[H1 H2]|[H1 [H2 H3]]].
      - rewrite H1. simpl. destruct (h_set_spec (s_heap s) a 0 i v (I _ _ La)) as [h [E' [HS _]]]; try lia. eauto.
      - apply Nat.eqb_neq in H1. rewrite H1. destruct (h_set_spec (s_heap s) a i 0 v (I _ _ La)) as [h [E' [HS _]]]; try lia. eauto. }
    destruct X as [h [E' HS]]. rewrite E' in E. inversion E; subst s'. simpl. rewrite (Hshape _ _ HS). eapply matches_same; eauto.
  - destruct V as [a La]. rewrite (obj_live _ _ _ La) in E. simpl in E.
    destruct (h_fill_spec (s_heap s) a v (I _ _ La)) as [h [E' [[HS _] _]]]. rewrite E' in E. inversion E; subst s'. simpl.
    rewrite (Hshape _ _ HS). eapply matches_same; eauto.
  - destruct V as [a [b [La [Lb [Hr Hc]]]]]. rewrite (obj_live _ _ _ La), (obj_live _ _ _ Lb) in E. simpl in E.
    destruct (copy_to_safe (s_heap s) a b rs cs (I _ _ La) (I _ _ Lb) Hr Hc) as [h [E' [HS _]]]. rewrite E' in E. inversion E; subst s'. simpl.
    rewrite (Hshape _ _ HS). eapply matches_same; eauto.
Qed.

Lemma matches_storage t s c s' g : inv s -> valid s c -> step s c = Ok s' ->
  matches h_buf (nbufs (s_heap s)) t s g -> matches h_buf (nbufs (s_heap s')) (S t) s' (gstep true t g c).
Proof.
  apply (matches_step h_buf true nbufs).
  - intros h h' d r cc f [_ [_ [_ [_ [M5 [M6 _]]]]]]. auto.
  - intros h h' [S1 _]. auto.
  - auto.
  - intros l copy a h h' ds G HF E. destruct (h_children_spec l copy a h G HF) as [h2 [ds2 [E2 [_ [HL [_ [HN [_ HD]]]]]]]].
    rewrite E in E2. inversion E2; subst h2 ds2.
    assert (X : forall e d, nth_error ds e = Some d -> h_buf d = if copy then nbufs h + e else h_buf a).
    { intros e d He. assert (Hlt : e < length l) by (rewrite <- HL; apply nth_error_Some; congruence).
      destruct (nth_error l e) as [[rr cr]|] eqn:Ee; [|apply nth_error_None in Ee; lia].
      destruct (HD _ _ _ Ee) as [d' [E1 [_ [_ [E3 _]]]]]. congruence. }
    destruct copy; simpl.
    + split; [lia|]. exact X.
    + split; [lia|]. exact X.
Qed.

Lemma matches_identity t s c s' g : inv s -> valid s c -> step s c = Ok s' ->
  matches h_id (h_next (s_heap s)) t s g -> matches h_id (h_next (s_heap s')) (S t) s' (gstep false t g c).
Proof.
  apply (matches_step h_id false h_next).
  - intros h h' d r cc f [_ [_ [_ [_ [_ [_ [M7 [M8 _]]]]]]]]. auto.
  - intros h h' [_ [S2 _]]. auto.
  - auto.
  - intros l copy a h h' ds G HF E. destruct (h_children_spec l copy a h G HF) as [h2 [ds2 [E2 [_ [HL [HX [_ [_ HD]]]]]]]].
    rewrite E in E2. inversion E2; subst h2 ds2. simpl. split; [lia|].
    intros e d He. assert (Hlt : e < length l) by (rewrite <- HL; apply nth_error_Some; congruence).
    destruct (nth_error l e) as [[rr cr]|] eqn:Ee; [|apply nth_error_None in Ee; lia].
    destruct (HD _ _ _ Ee) as [d' [E1 [_ [E3 _]]]]. congruence.
Qed.

Lemma matches_run key views (cnt : heap -> nat)
  (H : forall t s c s' g, inv s -> valid s c -> step s c = Ok s' ->
     matches key (cnt (s_heap s)) t s g -> matches key (cnt (s_heap s')) (S t) s' (gstep views t g c)) :
  forall cs t s g, inv s -> legal s cs -> matches key (cnt (s_heap s)) t s g ->
  exists s', run cs s = Ok s' /\ inv s' /\ matches key (cnt (s_heap s')) (t + length cs) s' (grun views t cs g).
Proof.
  induction cs as [|c cs IH]; intros t s g I L M; simpl.
  - exists s. rewrite Nat.add_0_r. auto.
  - destruct L as [V L]. destruct (step_ok s c I V) as [s1 [E I1]]. rewrite E. simpl.
    destruct (IH (S t) s1 (gstep views t g c)) as [s2 [E2 [I2 M2]]]; eauto.
    exists s2. rewrite <- Nat.add_succ_comm. auto.
Qed.

Lemma matches_init key : matches key 0 0 init [].
Proof.
  split; auto. split; [intros [|k] d H; discriminate|]. split; [intros [|k] b H; discriminate|].
  intros [|k] k' d d' b b' H; discriminate.
Qed.

(** Objects refer to the same array iff the history says so. *)
Theorem sharing (cs : list cmd) s : legal init cs -> run cs init = Ok s ->
  forall k k' d d' b b', live s k d -> live s k' d' ->
  nth_error (storages cs) k = Some b -> nth_error (storages cs) k' = Some b' ->
  (h_buf d = h_buf d' <-> b = b').
Proof.
  intros L E. destruct (matches_run h_buf true nbufs matches_storage cs 0 init [] init_inv L (matches_init _)) as [s' [E' [_ [_ [_ [_ M]]]]]].
  rewrite E in E'. inversion E'; subst s'. exact M.
Qed.

(** Objects have the same identifier iff the history says so. *)
Theorem identifiers (cs : list cmd) s : legal init cs -> run cs init = Ok s ->
  forall k k' d d' b b', live s k d -> live s k' d' ->
  nth_error (identities cs) k = Some b -> nth_error (identities cs) k' = Some b' ->
  (h_id d = h_id d' <-> b = b').
Proof.
  intros L E. destruct (matches_run h_id false h_next matches_identity cs 0 init [] init_inv L (matches_init _)) as [s' [E' [_ [_ [_ [_ M]]]]]].
  rewrite E in E'. inversion E'; subst s'. exact M.
Qed.

Lemma storages_length (cs : list cmd) s : legal init cs -> run cs init = Ok s ->
  length (storages cs) = length (s_objs s) /\ length (identities cs) = length (s_objs s).
Proof.
  intros L E. split.
  - destruct (matches_run h_buf true nbufs matches_storage cs 0 init [] init_inv L (matches_init _)) as [s' [E' [_ [M _]]]].
    rewrite E in E'. inversion E'; subst s'. exact M.
  - destruct (matches_run h_id false h_next matches_identity cs 0 init [] init_inv L (matches_init _)) as [s' [E' [_ [M _]]]].
    rewrite E in E'. inversion E'; subst s'. exact M.
Qed.


(** ** Writes *)

(** The object a command writes through. *)
Definition target c : option nat :=
  match c with
  | Cset k _ _ _ | Cset1 k _ _ | Cfill k _ => Some k
  | Ccopyto _ l _ _ => Some l
  | _ => None
  end.

(** Storages written through by a history, read off the history alone. *)
Fixpoint written (t : nat) (cs : list cmd) (g : list birth) : list birth :=
  match cs with
  | [] => []
  | c :: r => match target c with Some k => [nth k g (0, 0)] | None => [] end ++ written (S t) r (gstep true t g c)
  end.

Lemma frame_other h h' d b i : frame h h' d -> b <> h_buf d -> val h' b i = val h b i.
Proof. intros [_ F] H. apply F. intros [E _]. auto. Qed.

(** Every step either only adds storage or only writes through the target. *)
Lemma step_change s c s' : inv s -> valid s c -> step s c = Ok s' ->
  extends (s_heap s) (s_heap s') \/ exists k d, target c = Some k /\ live s k d /\ frame (s_heap s) (s_heap s') d.
Proof.
  intros I V E.
  destruct c as [r c|k|k l|k|k|k rs cs copy|k r c|k|k i j v|k i v|k v|k l rs cs]; cbn [step valid] in V, E.
  - destruct (h_new_makes (s_heap s) r c) as [h [d [E' MK]]]. rewrite E' in E. inversion E; subst s'. left; apply MK.
  - destruct V as [a La]. rewrite (obj_live _ _ _ La) in E. simpl in E.
    destruct (h_copy_spec (s_heap s) a (I _ _ La)) as [h [d [E' MK]]]. rewrite E' in E. inversion E; subst s'. left; apply MK.
  - destruct V as [[a La] [b0 [Lb Hst]]]. rewrite (obj_live _ _ _ La), (obj_live _ _ _ Lb) in E. simpl in E.
    destruct (k =? l).
    + destruct (h_assign_self (s_heap s) b0 (I _ _ Lb) Hst) as [h [d [E' MK]]]. rewrite E' in E. inversion E; subst s'. left; apply MK.
    + destruct (h_assign_spec (s_heap s) b0 (I _ _ Lb) Hst) as [h [d [E' MK]]]. rewrite E' in E. inversion E; subst s'. left; apply MK.
  - destruct V as [a La]. rewrite (obj_live _ _ _ La) in E. simpl in E. inversion E; subst s'. left; apply extends_refl.
  - destruct V as [a La]. rewrite (obj_live _ _ _ La) in E. simpl in E. inversion E; subst s'. left; apply extends_refl.
  - destruct V as [a [La [Hr Hc]]]. rewrite (obj_live _ _ _ La) in E. simpl in E. unfold h_split in E.
    assert (HF : Forall (in_ranges a) (pairs rs cs)).
    { apply Forall_forall. intros [rr cr] Hin. apply pairs_in in Hin. split; simpl; [apply Hr|apply Hc]; tauto. }
    destruct (h_children_spec (pairs rs cs) copy a (s_heap s) (I _ _ La) HF) as [h [ds [E' [EX _]]]].
    rewrite E' in E. inversion E; subst s'. left; exact EX.
  - destruct V as [a [La [Hr Hc]]]. rewrite (obj_live _ _ _ La) in E. simpl in E.
    destruct (h_resize_spec (s_heap s) a r c (I _ _ La) Hr Hc) as [h [d [E' MK]]]. rewrite E' in E. inversion E; subst s'. left; apply MK.
  - destruct V as [a La]. rewrite (obj_live _ _ _ La) in E. simpl in E.
    destruct (h_transpose_spec (s_heap s) a (I _ _ La)) as [h [d [E' MK]]]. rewrite E' in E. inversion E; subst s'. left; apply MK.
  - destruct V as [a [La [Hi Hj]]]. rewrite (obj_live _ _ _ La) in E. simpl in E.
    apply bind_Ok in E. destruct E as [h [E1 E2]]. inversion E2; subst s'.
    right. exists k, a. split; auto. split; auto. eapply frame_set; [apply (I _ _ La)|exact E1].
  - destruct V as [a [La Hi]]. rewrite (obj_live _ _ _ La) in E. simpl in E. rewrite set1_as_set in E by auto.
    apply bind_Ok in E. destruct E as [h [E1 E2]]. inversion E2; subst s'.
    right. exists k, a. split; auto. split; auto.
    destruct (h_r a =? 1); eapply frame_set; try exact E1; apply (I _ _ La).
  - destruct V as [a La]. rewrite (obj_live _ _ _ La) in E. simpl in E.
    destruct (h_fill_spec (s_heap s) a v (I _ _ La)) as [h [E' [F _]]]. rewrite E' in E. inversion E; subst s'.
    right. exists k, a. split; auto.
  - destruct V as [a [b0 [La [Lb [Hr Hc]]]]]. rewrite (obj_live _ _ _ La), (obj_live _ _ _ Lb) in E. simpl in E.
    destruct (copy_to_safe (s_heap s) a b0 rs cs (I _ _ La) (I _ _ Lb) Hr Hc) as [h [E' F]]. rewrite E' in E. inversion E; subst s'.
    right. exists l, b0. split; auto.
Qed.

Lemma step_frame s c s' b : inv s -> valid s c -> step s c = Ok s' -> b < nbufs (s_heap s) ->
  (forall k d, target c = Some k -> live s k d -> h_buf d <> b) ->
  nbufs (s_heap s) <= nbufs (s_heap s') /\ forall i, val (s_heap s') b i = val (s_heap s) b i.
Proof.
  intros I V E Hb HT. destruct (step_change s c s' I V E) as [[X1 [X2 X3]]|[k [d [T [L F]]]]].
  - split; auto. apply X3. auto.
  - split; [destruct F as [[F _] _]; lia|]. intros i. eapply frame_other; eauto. intros Hx. apply (HT k d T L). auto.
Qed.

Lemma step_size s c s' b : inv s -> valid s c -> step s c = Ok s' -> b < nbufs (s_heap s) ->
  b < nbufs (s_heap s') /\ size (s_heap s') b = size (s_heap s) b.
Proof.
  intros I V E Hb. destruct (step_change s c s' I V E) as [[X1 [X2 X3]]|[k [d [T [L [[S1 [S2 S3]] _]]]]]].
  - split; [lia|]. apply X3. auto.
  - split; [lia|]. apply S3.
Qed.

Lemma run_size (cs : list cmd) : forall s s' b, inv s -> legal s cs -> run cs s = Ok s' -> b < nbufs (s_heap s) ->
  size (s_heap s') b = size (s_heap s) b.
Proof.
  induction cs as [|c cs IH]; intros s s' b I L E Hb; simpl in E.
  - inversion E; reflexivity.
  - destruct L as [V L]. destruct (step_ok s c I V) as [s1 [E1 I1]]. rewrite E1 in E. simpl in E.
    destruct (step_size s c s1 b I V E1 Hb) as [N1 S1]. rewrite (IH s1 s' b); auto.
Qed.

(** Where the objects after a step come from. *)
Lemma nth_app_cases {A} (l m : list A) k x : nth_error (l ++ m) k = Some x ->
  (k < length l /\ nth_error l k = Some x) \/ (exists e, k = length l + e /\ nth_error m e = Some x).
Proof.
  intros H. destruct (le_lt_dec (length l) k) as [Hle|Hlt].
  - right. exists (k - length l). split; [lia|]. rewrite nth_error_app2 in H; auto.
  - left. rewrite nth_error_app1 in H; auto.
Qed.

Lemma origin t s c s' g : length g = length (s_objs s) -> inv s -> valid s c -> step s c = Ok s' ->
  length (gstep true t g c) = length (s_objs s') /\
  forall k d b, live s' k d -> nth_error (gstep true t g c) k = Some b ->
  (exists k0 d0, live s k0 d0 /\ nth_error g k0 = Some b /\ h_buf d0 = h_buf d) \/
  (nbufs (s_heap s) <= h_buf d /\ fst b = t).
Proof.
  intros HL I V E.
  assert (KEEP : forall h h' d0 k d b, s' = push s h [d0] -> h_buf d0 = nbufs h' -> nbufs (s_heap s) <= nbufs h' ->
     live s' k d -> nth_error (g ++ [(t, 0)]) k = Some b ->
     (exists k0 d0, live s k0 d0 /\ nth_error g k0 = Some b /\ h_buf d0 = h_buf d) \/ (nbufs (s_heap s) <= h_buf d /\ fst b = t)).
  { intros h h' d0 k d b -> Hd Hle L B. apply live_push in L. apply nth_app_cases in B. destruct L as [L|[e [Ek L]]].
    - left. exists k, d. destruct B as [[_ B]|[e [Ee _]]]; auto. pose proof (live_lt _ _ _ L). lia.
    - right. destruct B as [[Hlt _]|[e' [Ee B]]]; [lia|]. assert (e' = e) by lia. subst e'.
      destruct e as [|e]; simpl in L, B; [|destruct e; discriminate]. inversion L; inversion B; subst. split; [lia|auto]. }
  assert (SAME : s_objs s' = s_objs s -> gstep true t g c = g -> length (gstep true t g c) = length (s_objs s') /\
    forall k d b, live s' k d -> nth_error (gstep true t g c) k = Some b ->
    (exists k0 d0, live s k0 d0 /\ nth_error g k0 = Some b /\ h_buf d0 = h_buf d) \/ (nbufs (s_heap s) <= h_buf d /\ fst b = t)).
  { intros E1 E2. rewrite E1, E2. split; auto. intros k d b L B. left. exists k, d. unfold live in *. rewrite E1 in L. auto. }
  assert (NEWL : forall h d0, length (g ++ [(t, 0)]) = length (s_objs (push s h [d0]))).
  { intros. unfold push; simpl. rewrite !app_length. simpl. lia. }
  destruct c as [r c|k|k l|k|k|k rs cs copy|k r c|k|k i j v|k i v|k v|k l rs cs]; cbn [step valid] in V, E.
  - destruct (h_new_makes (s_heap s) r c) as [h [d [E' MK]]]. rewrite E' in E. inversion E; subst s'. cbn [gstep].
    split; auto. intros; eapply (KEEP h (s_heap s)); eauto. apply MK.
  - destruct V as [a La]. rewrite (obj_live _ _ _ La) in E. simpl in E.
    destruct (h_copy_spec (s_heap s) a (I _ _ La)) as [h [d [E' MK]]]. rewrite E' in E. inversion E; subst s'. cbn [gstep].
    split; auto. intros; eapply (KEEP h (s_heap s)); eauto. apply MK.
  - destruct V as [[a La] [b0 [Lb Hst]]]. rewrite (obj_live _ _ _ La), (obj_live _ _ _ Lb) in E. simpl in E.
    assert (X : exists h' d f, h_assign (s_heap s) (k =? l) b0 = Ok (h', d) /\ makes (s_heap s) h' d (h_r b0) (h_c b0) f).
    { destruct (k =? l).
      - destruct (h_assign_self (s_heap s) b0 (I _ _ Lb) Hst) as [h [d [E' MK]]]; eauto.
      - destruct (h_assign_spec (s_heap s) b0 (I _ _ Lb) Hst) as [h [d [E' MK]]]; eauto. }
    destruct X as [h [d0 [f [E' MK]]]]. rewrite E' in E. inversion E; subst s'. cbn [gstep]. simpl s_objs.
    rewrite !lupd_length. split; auto. intros k' d b L B. unfold live in L. simpl in L.
    apply lupd_nth_error in L. apply lupd_nth_error in B.
    destruct L as [[-> [_ E1]]|[Hne L]], B as [[Q [_ ->]]|[Q B]]; try congruence.
    + right. inversion E1; subst. destruct MK as [_ [_ [_ [_ [M5 _]]]]]. split; [lia|auto].
    + left. exists k', d. auto.
  - destruct V as [a La]. rewrite (obj_live _ _ _ La) in E. simpl in E. inversion E; subst s'. cbn [gstep]. split.
    { unfold push; simpl. rewrite !app_length. simpl. lia. }
    intros k' d b L B. left. apply live_push in L. apply nth_app_cases in B. destruct L as [L|[e [Ek L]]].
    + exists k', d. destruct B as [[_ B]|[e [Ee _]]]; auto. pose proof (live_lt _ _ _ L). lia.
    + destruct B as [[Hlt _]|[e' [Ee B]]]; [lia|]. assert (e' = e) by lia. subst e'.
      destruct e as [|e]; simpl in L, B; [|destruct e; discriminate]. inversion L; inversion B; subst.
      exists k, a. split; auto. split; [|reflexivity]. apply nth_error_nth'. rewrite HL. eapply live_lt; eauto.
  - destruct V as [a La]. rewrite (obj_live _ _ _ La) in E. simpl in E. inversion E; subst s'. cbn [gstep]. split.
    { simpl. rewrite !app_length, lupd_length. simpl. lia. }
    intros k' d b L B. left. unfold live in L. simpl in L. apply nth_app_cases in L. apply nth_app_cases in B.
    rewrite lupd_length in L. destruct L as [[Hlt L]|[e [Ek L]]].
    + rewrite lupd_nth in L. destruct ((k' =? k) && (k <? length (s_objs s))); [discriminate|].
      destruct B as [[_ B]|[e [Ee _]]]; [|lia]. exists k', d. auto.
    + destruct B as [[Hlt _]|[e' [Ee B]]]; [lia|]. assert (e' = e) by lia. subst e'.
      destruct e as [|e]; simpl in L, B; [|destruct e; discriminate]. inversion L; inversion B; subst.
      exists k, d. split; auto. split; [|reflexivity]. apply nth_error_nth'. rewrite HL. eapply live_lt; eauto.
  - destruct V as [a [La [Hr Hc]]]. rewrite (obj_live _ _ _ La) in E. simpl in E. unfold h_split in E.
    assert (HF : Forall (in_ranges a) (pairs rs cs)).
    { apply Forall_forall. intros [rr cr] Hin. apply pairs_in in Hin. split; simpl; [apply Hr|apply Hc]; tauto. }
    destruct (h_children_spec (pairs rs cs) copy a (s_heap s) (I _ _ La) HF) as [h [ds [E' [EX [HLd [_ [_ [_ HD]]]]]]]].
    rewrite E' in E. inversion E; subst s'. cbn [gstep]. rewrite pairs_length in HLd. split.
    { unfold push; simpl. rewrite !app_length, !map_length, seq_length. lia. }
    intros k' d b L B. apply live_push in L. apply nth_app_cases in B. destruct L as [L|[e [Ek L]]].
    + left. exists k', d. destruct B as [[_ B]|[e [Ee _]]]; auto. pose proof (live_lt _ _ _ L). lia.
    + destruct B as [[Hlt _]|[e' [Ee B]]]; [lia|]. assert (e' = e) by lia. subst e'.
      assert (Hlt : e < length (pairs rs cs)). { rewrite pairs_length, <- HLd. apply nth_error_Some. congruence. }
      destruct (nth_error (pairs rs cs) e) as [[rr cr]|] eqn:Ep; [|apply nth_error_None in Ep; lia].
      destruct (HD _ _ _ Ep) as [d' [E1 [_ [_ [E3 _]]]]]. assert (d' = d) by congruence. subst d'.
      rewrite nth_error_map in B. destruct (nth_error (seq 0 (length rs * length cs)) e); [|discriminate]. simpl in B.
      destruct copy; simpl in B, E3; inversion B; subst b.
      * right. split; [lia|auto].
      * left. exists k, a. split; auto. split; auto. apply nth_error_nth'. rewrite HL. eapply live_lt; eauto.
  - destruct V as [a [La [Hr Hc]]]. rewrite (obj_live _ _ _ La) in E. simpl in E.
    destruct (h_resize_spec (s_heap s) a r c (I _ _ La) Hr Hc) as [h [d [E' MK]]]. rewrite E' in E. inversion E; subst s'. cbn [gstep].
    split; auto. intros; eapply (KEEP h (s_heap s)); eauto. apply MK.
  - destruct V as [a La]. rewrite (obj_live _ _ _ La) in E. simpl in E.
    destruct (h_transpose_spec (s_heap s) a (I _ _ La)) as [h [d [E' MK]]]. rewrite E' in E. inversion E; subst s'. cbn [gstep].
    split; auto. intros; eapply (KEEP h (s_heap s)); eauto. apply MK.
  - apply bind_Ok in E. destruct E as [a [_ E]]. apply bind_Ok in E. destruct E as [h [_ E]]. inversion E; subst s'. apply SAME; auto.
  - apply bind_Ok in E. destruct E as [a [_ E]]. apply bind_Ok in E. destruct E as [h [_ E]]. inversion E; subst s'. apply SAME; auto.
  - apply bind_Ok in E. destruct E as [a [_ E]]. apply bind_Ok in E. destruct E as [h [_ E]]. inversion E; subst s'. apply SAME; auto.
  - apply bind_Ok in E. destruct E as [a [_ E]]. apply bind_Ok in E. destruct E as [a' [_ E]]. apply bind_Ok in E. destruct E as [h [_ E]].
    inversion E; subst s'. apply SAME; auto.
Qed.

(** An array [b] born as [x]: the objects living in it are those whose storage is [x]. *)
Definition tracks (b : nat) (x : birth) t s (g : list birth) : Prop :=
  length g = length (s_objs s) /\ b < nbufs (s_heap s) /\ fst x < t /\
  forall k d y, live s k d -> nth_error g k = Some y -> (h_buf d = b <-> y = x).

Lemma untouched (cs : list cmd) : forall b x t s g s', inv s -> legal s cs -> tracks b x t s g ->
  run cs s = Ok s' -> ~ In x (written t cs g) -> forall i, val (s_heap s') b i = val (s_heap s) b i.
Proof.
  induction cs as [|c cs IH]; intros b x t s g s' I L T E NW i.
  - simpl in E. inversion E. reflexivity.
  - simpl in E. destruct L as [V L]. destruct (step_ok s c I V) as [s1 [E1 I1]]. rewrite E1 in E. simpl in E.
    destruct T as [T1 [T2 [T3 T4]]].
    assert (HT : forall k d, target c = Some k -> live s k d -> h_buf d <> b).
    { intros k d Hk Hl Hb. apply NW. simpl. rewrite Hk. left.
      assert (Hlt : k < length g) by (rewrite T1; eapply live_lt; eauto).
      apply (T4 k d (nth k g (0, 0)) Hl); [apply nth_error_nth'; auto|auto]. }
    destruct (step_frame s c s1 b I V E1 T2 HT) as [HN HV]. rewrite <- HV.
    destruct (origin t s c s1 g T1 I V E1) as [HL HO].
    eapply (IH b x (S t) s1 (gstep true t g c)); eauto.
    + split; auto. split; [lia|]. split; [lia|]. intros k d y Hl Hy.
      destruct (HO k d y Hl Hy) as [[k0 [d0 [L0 [G0 <-]]]]|[Q1 Q2]]; [eapply T4; eauto|].
      split; [lia|]. intros ->. lia.
    + intros Hin. apply NW. simpl. apply in_or_app. auto.
Qed.

Lemma legal_app (cs cs' : list cmd) : forall s, legal s (cs ++ cs') -> legal s cs /\ forall s', run cs s = Ok s' -> legal s' cs'.
Proof.
  induction cs as [|c cs IH]; intros s H; simpl in *.
  - split; auto. intros s' E. inversion E; subst; auto.
  - destruct H as [V H]. split.
    + split; auto. intros s' E. apply IH. auto.
    + intros s' E. apply bind_Ok in E. destruct E as [s1 [E1 E2]]. specialize (H _ E1). apply IH in H. apply H. auto.
Qed.

(** The contents of an object change only by writes through objects that, by the
    history, share its storage. *)
Theorem independence (cs cs' : list cmd) s s' k d x : legal init (cs ++ cs') ->
  run cs init = Ok s -> run cs' s = Ok s' -> live s k d -> nth_error (storages cs) k = Some x ->
  ~ In x (written (length cs) cs' (storages cs)) ->
  forall i j, hent (s_heap s') d i j = hent (s_heap s) d i j.
Proof.
  intros L E E' Hl Hx NW i j. apply legal_app in L. destruct L as [L1 L2]. specialize (L2 _ E).
  destruct (matches_run h_buf true nbufs matches_storage cs 0 init [] init_inv L1 (matches_init _)) as [s0 [E0 [I0 [M1 [M2 [M3 M4]]]]]].
  rewrite E in E0. inversion E0; subst s0. unfold hent.
  eapply (untouched cs' (h_buf d) x (length cs) s (storages cs)); eauto.
  split; auto. split; [eapply M2; eauto|]. split; [specialize (M3 _ _ Hx); simpl in M3; auto|].
  intros k' d' y Hl' Hy. pose proof (M4 _ _ _ _ _ _ Hl' Hl Hy Hx) as Q. exact Q.
Qed.

End History.
