(** Parallel executions as reorderings of the sequential one.

    An execution is a list of atomic events.  A schedule is a permutation of the
    sequential execution that keeps the order of those events which are ordered. *)
From Coq Require Import List Arith Lia Bool Permutation Relation_Operators.
Import ListNotations.

Section Generic.
Context {E S : Type}.
Variable run : E -> S -> S.
Variable eqS : S -> S -> Prop.
Hypothesis eq_refl' : forall s, eqS s s.
Hypothesis eq_sym' : forall s t, eqS s t -> eqS t s.
Hypothesis eq_trans' : forall s t u, eqS s t -> eqS t u -> eqS s u.
Hypothesis run_eq : forall e s t, eqS s t -> eqS (run e s) (run e t).

Fixpoint exec (l : list E) (s : S) : S :=
  match l with [] => s | e :: t => exec t (run e s) end.

Lemma exec_app l1 l2 s : exec (l1 ++ l2) s = exec l2 (exec l1 s).
Proof. revert s. induction l1; simpl; auto. Qed.
Lemma exec_eq l : forall s t, eqS s t -> eqS (exec l s) (exec l t).
Proof. induction l; simpl; auto. Qed.

(** [a] occurs before [b] in [l]. *)
Definition before (l : list E) (a b : E) : Prop := exists l1 l2, l = l1 ++ l2 /\ In a l1 /\ In b l2.

Definition commute (a b : E) : Prop := forall s, eqS (run b (run a s)) (run a (run b s)).

Lemma exec_front l1 x l2 s : (forall a, In a l1 -> commute a x) -> eqS (exec (l1 ++ x :: l2) s) (exec (x :: l1 ++ l2) s).
Proof.
  revert s. induction l1 as [|a l1 IH]; intros s H; simpl; auto.
  eapply eq_trans'; [apply IH; intros; apply H; right; auto|]. simpl. apply exec_eq. apply H. left; auto.
Qed.

Lemma before_insert l1 x l2 a b : before (l1 ++ l2) a b -> before (l1 ++ x :: l2) a b.
Proof.
  intros [m1 [m2 [E1 [Ha Hb]]]]. destruct (le_lt_dec (length l1) (length m1)) as [L|L].
  - assert (Q : exists k, m1 = l1 ++ k /\ l2 = k ++ m2).
    { exists (skipn (length l1) m1). assert (F1 : firstn (length l1) (l1 ++ l2) = firstn (length l1) (m1 ++ m2)) by congruence.
      assert (F2 : skipn (length l1) (l1 ++ l2) = skipn (length l1) (m1 ++ m2)) by congruence.
      rewrite firstn_app, Nat.sub_diag, firstn_O, app_nil_r, firstn_all in F1. rewrite skipn_app, Nat.sub_diag, skipn_all in F2. simpl in F2.
      rewrite firstn_app in F1. replace (length l1 - length m1) with 0 in F1 by lia. rewrite firstn_O, app_nil_r in F1.
      rewrite skipn_app in F2. replace (length l1 - length m1) with 0 in F2 by lia. simpl in F2.
      split; auto. rewrite F1 at 1. symmetry. apply firstn_skipn. }
    destruct Q as [k [-> ->]]. exists (l1 ++ x :: k), m2. split; [rewrite <- app_assoc; auto|]. split; auto.
    apply in_app_iff in Ha. apply in_app_iff. simpl. tauto.
  - assert (Q : exists k, l1 = m1 ++ k /\ m2 = k ++ l2).
    { exists (skipn (length m1) l1). assert (F1 : firstn (length m1) (l1 ++ l2) = firstn (length m1) (m1 ++ m2)) by congruence.
      assert (F2 : skipn (length m1) (l1 ++ l2) = skipn (length m1) (m1 ++ m2)) by congruence.
      rewrite (firstn_app _ m1), Nat.sub_diag, firstn_O, app_nil_r, firstn_all in F1. rewrite (skipn_app _ m1), Nat.sub_diag, skipn_all in F2. simpl in F2.
      rewrite firstn_app in F1. replace (length m1 - length l1) with 0 in F1 by lia. rewrite firstn_O, app_nil_r in F1.
      rewrite skipn_app in F2. replace (length m1 - length l1) with 0 in F2 by lia. simpl in F2.
      split; auto. rewrite <- F1 at 1. symmetry. apply firstn_skipn. }
    destruct Q as [k [-> ->]]. exists m1, (k ++ x :: l2). split; [rewrite <- app_assoc; auto|]. split; auto.
    apply in_app_iff in Hb. apply in_app_iff. simpl. tauto.
Qed.

Lemma before_tail x l a b : a <> x -> before (x :: l) a b -> before l a b.
Proof.
  intros N [m1 [m2 [E1 [Ha Hb]]]]. destruct m1 as [|y m1]; [destruct Ha|]. inversion E1; subst.
  exists m1, m2. split; auto. split; auto. destruct Ha; [congruence|auto].
Qed.
Lemma before_head x l a : NoDup (x :: l) -> before (x :: l) a x -> False.
Proof.
  intros ND [m1 [m2 [E1 [Ha Hb]]]]. destruct m1 as [|y m1]; [destruct Ha|]. inversion E1; subst.
  inversion ND; subst. apply H1. apply in_app_iff. auto.
Qed.
Lemma before_in l a b : before l a b -> In a l /\ In b l.
Proof. intros [m1 [m2 [-> [Ha Hb]]]]. split; apply in_app_iff; auto. Qed.
Lemma before_irrefl l a : NoDup l -> ~ before l a a.
Proof.
  intros ND [m1 [m2 [E1 [Ha Hb]]]]. subst. induction m1 as [|y m1 IH]; [destruct Ha|]. simpl in ND. inversion ND; subst.
  destruct Ha as [->|Ha]; [apply H1; apply in_app_iff; auto|auto].
Qed.
Lemma before_cons x l a b : before (x :: l) a b <-> (a = x /\ In b l) \/ before l a b.
Proof.
  split.
  - intros [m1 [m2 [E1 [Ha Hb]]]]. destruct m1 as [|y m1]; [destruct Ha|]. inversion E1; subst. destruct Ha as [->|Ha].
    + left. split; auto. apply in_app_iff; auto.
    + right. exists m1, m2. auto.
  - intros [[-> Hb]|[m1 [m2 [-> [Ha Hb]]]]].
    + exists [x], l. simpl. auto.
    + exists (x :: m1), m2. simpl. auto.
Qed.
Lemma before_trans l a b c : NoDup l -> before l a b -> before l b c -> before l a c.
Proof.
  induction l as [|x l IH]; intros ND H1 H2; [destruct H1 as [m1 [m2 [E1 [Ha _]]]]; destruct m1; [destruct Ha|discriminate]|].
  apply before_cons in H1, H2. apply before_cons. inversion ND; subst.
  destruct H1 as [[-> Hb]|H1].
  - left. split; auto. destruct H2 as [[-> Hc]|H2]; [auto|]. apply before_in in H2. tauto.
  - destruct H2 as [[-> Hc]|H2]; [|right; auto]. apply before_in in H1. tauto.
Qed.
Lemma before_total l a b : In a l -> In b l -> a <> b -> before l a b \/ before l b a.
Proof.
  induction l as [|x l IH]; simpl; [tauto|]. intros [->|Ha] [->|Hb] N.
  - congruence.
  - left. apply before_cons. auto.
  - right. apply before_cons. auto.
  - destruct (IH Ha Hb N); [left|right]; apply before_cons; auto.
Qed.
Lemma before_asym l a b : NoDup l -> before l a b -> ~ before l b a.
Proof. intros ND H1 H2. apply (before_irrefl l a ND). eapply before_trans; eauto. Qed.

(** Reordering events that commute. *)
Theorem reorder sched : forall l s, NoDup l -> Permutation l sched ->
  (forall a b, before l a b -> commute a b \/ before sched a b) -> eqS (exec sched s) (exec l s).
Proof.
  induction sched as [|x sched IH]; intros l s ND P H.
  - apply Permutation_sym, Permutation_nil in P. subst. apply eq_refl'.
  - assert (Hx : In x l) by (apply (Permutation_in x (Permutation_sym P)); left; auto).
    apply in_split in Hx. destruct Hx as [l1 [l2 ->]].
    assert (P' : Permutation (l1 ++ l2) sched). { apply (Permutation_cons_inv (a := x)). eapply Permutation_trans; [apply Permutation_middle|exact P]. }
    assert (ND2 : NoDup (x :: sched)) by (eapply Permutation_NoDup; eauto).
    pose proof (NoDup_remove_1 _ _ _ ND) as ND1. pose proof (NoDup_remove_2 _ _ _ ND) as NX.
    eapply eq_trans'; [|apply eq_sym'; apply exec_front].
    + simpl. apply IH; auto. intros a b Hab. destruct (H a b (before_insert _ _ _ _ _ Hab)) as [C|B]; auto.
      right. eapply before_tail; [|exact B]. intros ->. apply NX. apply before_in in Hab. tauto.
    + intros a Ha. destruct (H a x) as [C|B]; auto.
      * exists l1, (x :: l2). simpl. auto.
      * exfalso. eapply before_head; eauto.
Qed.
End Generic.

(** ** Memory *)
Section Memory.
Context {E L V : Type}.
Variable run : E -> (L -> V) -> L -> V.
Variables reads writes : E -> L -> Prop.
(** What an event may read and change. *)
Definition respects : Prop :=
  (forall e s x, ~ writes e x -> run e s x = s x) /\
  (forall e s t, (forall x, reads e x -> s x = t x) -> forall x, writes e x -> run e s x = run e t x).
Definition same (s t : L -> V) : Prop := forall x, s x = t x.
Definition conflict (a b : E) : Prop := exists x, (writes a x /\ (reads b x \/ writes b x)) \/ (writes b x /\ (reads a x \/ writes a x)).

(** Whether an event writes or reads a location has to be known. *)
Hypothesis wdec : forall e x, writes e x \/ ~ writes e x.
Lemma respects_same : respects -> forall e s t, same s t -> same (run e s) (run e t).
Proof. intros [W D] e s t H x. destruct (wdec e x) as [Hw|Hw]; [apply D; auto|]. rewrite !W by auto. apply H. Qed.
Lemma no_conflict_commute : respects -> forall a b, ~ conflict a b -> commute run same a b.
Proof.
  intros [W D] a b H s x. unfold conflict in H.
  destruct (wdec a x) as [Ha|Ha], (wdec b x) as [Hb|Hb].
  - exfalso. apply H. exists x. left. auto.
  - rewrite (W b _ x Hb). apply D; auto. intros y Hy. symmetry. apply W. intros Hw. apply H. exists y. right. auto.
  - rewrite (W a _ x Ha). apply D; auto. intros y Hy. apply W. intros Hw. apply H. exists y. left. auto.
  - rewrite (W b _ x Hb), (W a _ x Ha), (W a _ x Ha), (W b _ x Hb). reflexivity.
Qed.

(** If conflicting events keep their order, nothing changes. *)
Theorem race_free sched l s : respects -> NoDup l -> Permutation l sched ->
  (forall a b, before l a b -> ~ conflict a b \/ before sched a b) -> same (exec run sched s) (exec run l s).
Proof.
  intros HR ND P H. apply (reorder run same); auto.
  - intros t x; auto.
  - intros t u K x. symmetry. auto.
  - intros t u v K1 K2 x. rewrite K1. auto.
  - apply respects_same; auto.
  - intros a b Hab. destruct (H a b Hab); auto. left. apply no_conflict_commute; auto.
Qed.
End Memory.

(** ** Lists built by loops *)
Lemma before_nil {E} (a b : E) : ~ before [] a b.
Proof. intros [m1 [m2 [E1 [Ha _]]]]. destruct m1; [destruct Ha|discriminate]. Qed.
Lemma before_app {E} (l m : list E) a b : before (l ++ m) a b -> before l a b \/ before m a b \/ (In a l /\ In b m).
Proof.
  induction l as [|x l IH]; simpl; auto. intros H. apply before_cons in H. destruct H as [[-> H]|H].
  - apply in_app_iff in H. destruct H; [left; apply before_cons; auto|auto].
  - destruct (IH H) as [K|[K|[K1 K2]]]; auto. left. apply before_cons. auto.
Qed.
Lemma before_map {A B} (f : A -> B) l a b : before (map f l) a b -> exists x y, a = f x /\ b = f y /\ before l x y.
Proof.
  induction l as [|z l IH]; simpl; intros H; [destruct (before_nil _ _ H)|].
  apply before_cons in H. destruct H as [[-> H]|H].
  - apply in_map_iff in H. destruct H as [y [<- Hy]]. exists z, y. split; auto. split; auto. apply before_cons. auto.
  - destruct (IH H) as [x [y [-> [-> K]]]]. exists x, y. split; auto. split; auto. apply before_cons. auto.
Qed.
Lemma before_seq a n x y : before (seq a n) x y -> x < y.
Proof.
  revert a. induction n as [|n IH]; intros a H; simpl in H; [destruct (before_nil _ _ H)|].
  apply before_cons in H. destruct H as [[-> H]|H]; [apply in_seq in H; lia|eauto].
Qed.
Lemma before_flat {A B} (f : A -> list B) l a b : before (flat_map f l) a b ->
  (exists x, In x l /\ before (f x) a b) \/ (exists x y, before l x y /\ In a (f x) /\ In b (f y)).
Proof.
  induction l as [|z l IH]; simpl; intros H; [destruct (before_nil _ _ H)|].
  apply before_app in H. destruct H as [H|[H|[H1 H2]]].
  - left. exists z. auto.
  - destruct (IH H) as [[x [K1 K2]]|[x [y [K1 K2]]]].
    + left. exists x. auto.
    + right. exists x, y. split; auto. apply before_cons. auto.
  - apply in_flat_map in H2. destruct H2 as [y [K1 K2]]. right. exists z, y. split; auto. apply before_cons. auto.
Qed.
Lemma nodup_app {A} (l m : list A) : NoDup l -> NoDup m -> (forall x, In x l -> ~ In x m) -> NoDup (l ++ m).
Proof.
  induction l as [|a l IH]; simpl; intros H1 H2 H3; auto. inversion H1; subst. constructor.
  - rewrite in_app_iff. intros [H|H]; [auto|]. apply (H3 a); auto.
  - apply IH; auto.
Qed.
(** A list whose elements are in some strict order has no element twice. *)
Lemma nodup_order {A} (R : A -> A -> Prop) l : (forall a, ~ R a a) -> (forall a b, before l a b -> R a b) -> NoDup l.
Proof.
  intros HI. induction l as [|x l IH]; intros H; constructor.
  - intros Hx. apply (HI x). apply H. apply before_cons. auto.
  - apply IH. intros a b Hb. apply H. apply before_cons. auto.
Qed.
Lemma order_before {A} (R : A -> A -> Prop) l a b : (forall a b, R a b -> ~ R b a) -> (forall a b, before l a b -> R a b) ->
  In a l -> In b l -> R a b -> before l a b.
Proof.
  intros AS H Ha Hb HR. destruct (before_total l a b Ha Hb) as [K|K]; auto.
  - intros ->. apply (AS b b HR HR).
  - exfalso. apply (AS a b HR). auto.
Qed.

(** ** Tasks made of steps *)
Section Steps.
Context {T L V : Type}.
(** Task t consists of [steps t] atomic steps, which also use the private memory of t. *)
Variable steps : T -> nat.
Variable step : T * nat -> (L + T -> V) -> L + T -> V.
Variables reads writes : T -> L -> Prop.
Definition sreads (e : T * nat) (x : L + T) : Prop := match x with inl y => reads (fst e) y \/ writes (fst e) y | inr t => t = fst e end.
Definition swrites (e : T * nat) (x : L + T) : Prop := match x with inl y => writes (fst e) y | inr t => t = fst e end.
Definition events (l : list T) : list (T * nat) := flat_map (fun t => map (fun n => (t, n)) (seq 0 (steps t))) l.

(** An interleaving: the steps of a task in order, and tasks which are ordered one after
    the other. *)
Definition interleaving (l : list T) (ord : T -> T -> Prop) (sched : list (T * nat)) : Prop :=
  Permutation (events l) sched /\
  (forall t n m, In t l -> n < m -> m < steps t -> before sched (t, n) (t, m)) /\
  (forall a b n m, ord a b -> n < steps a -> m < steps b -> before sched (a, n) (b, m)).

Definition tconflict (a b : T) : Prop := exists x, (writes a x /\ (reads b x \/ writes b x)) \/ (writes b x /\ (reads a x \/ writes a x)).

Lemma in_events l t n : In (t, n) (events l) <-> In t l /\ n < steps t.
Proof.
  unfold events. rewrite in_flat_map. split.
  - intros [u [Hu H]]. apply in_map_iff in H. destruct H as [m [E1 H]]. inversion E1; subst. apply in_seq in H. split; [auto|lia].
  - intros [H1 H2]. exists t. split; auto. apply in_map_iff. exists n. split; auto. apply in_seq. lia.
Qed.
Lemma nodup_events l : NoDup l -> NoDup (events l).
Proof.
  induction l as [|t l IH]; simpl; intros H; [constructor|]. inversion H; subst. apply nodup_app; auto.
  - apply FinFun.Injective_map_NoDup; [intros a b E1; congruence|apply seq_NoDup].
  - intros [u n] Hu Hin. apply in_map_iff in Hu. destruct Hu as [m [E1 _]]. inversion E1; subst. apply in_events in Hin. tauto.
Qed.
Lemma before_events l t n u m : before (events l) (t, n) (u, m) -> (t = u /\ In t l /\ n < m) \/ before l t u.
Proof.
  induction l as [|z l IH]; simpl; intros H.
  - destruct H as [m1 [m2 [E1 [Ha _]]]]. destruct m1; [destruct Ha|discriminate].
  - apply before_app in H. destruct H as [H|[H|[H1 H2]]].
    + apply before_map in H. destruct H as [x [y [E1 [E2 H]]]]. inversion E1; inversion E2; subst. apply before_seq in H. auto.
    + destruct (IH H) as [[-> [K1 K2]]|K]; [auto|]. right. apply before_cons. auto.
    + apply in_map_iff in H1. destruct H1 as [k [E1 _]]. inversion E1; subst. apply in_events in H2. right. apply before_cons. tauto.
Qed.

Hypothesis wdec : forall t x, writes t x \/ ~ writes t x.
Hypothesis tdec : forall t u : T, t = u \/ t <> u.

(** Conflicting tasks that are ordered, possibly by way of others: every interleaving does
    the same as running the tasks one after the other. *)
Theorem interleavings l (ord : T -> T -> Prop) sched s : respects step sreads swrites -> NoDup l -> (forall t, 0 < steps t) ->
  (forall a b, before l a b -> ~ tconflict a b \/ clos_trans_1n T ord a b) ->
  interleaving l ord sched ->
  same (exec step sched s) (exec step (events l) s).
Proof.
  intros HR ND HS HC [P [H1 H2]].
  assert (NDE : NoDup (events l)) by (apply nodup_events; auto).
  assert (NDS : NoDup sched) by (eapply Permutation_NoDup; eauto).
  assert (TR : forall a b, clos_trans_1n T ord a b -> forall n m, n < steps a -> m < steps b -> before sched (a, n) (b, m)).
  { intros a b K. induction K as [a b K|a b c K _ IH]; intros n m Hn Hm; [auto|].
    eapply before_trans; [auto|apply (H2 a b n 0 K Hn (HS b))|]. apply IH; auto. }
  apply (race_free step sreads swrites); auto.
  - intros [t n] [x|u]; simpl; auto.
  - intros [t n] [u m] Hb. assert (Hi := before_in _ _ _ Hb). destruct Hi as [Hi1 Hi2]. apply in_events in Hi1, Hi2.
    apply before_events in Hb. destruct Hb as [[-> [Hl Hn]]|Hb].
    + right. apply H1; tauto.
    + destruct (HC t u Hb) as [C|C]; [|right; apply TR; tauto].
      left. intros [[x|v] K]; simpl in K.
      * apply C. exists x. destruct K as [[K1 K2]|[K1 K2]]; [left|right]; tauto.
      * assert (t <> u). { intros ->. apply (before_irrefl l u ND Hb). } destruct K as [[-> [K|K]]|[-> [K|K]]]; congruence.
Qed.
End Steps.

(** ** Whole tasks *)
(** An order of the tasks which keeps that of any two which are ordered. *)
Definition allowed {T} (l : list T) (ord : T -> T -> Prop) (sched : list T) : Prop :=
  Permutation l sched /\ forall a b, ord a b -> before sched a b.
Theorem allowed_same {T L V : Type} (run : T -> (L -> V) -> L -> V) (reads writes : T -> L -> Prop) l (ord : T -> T -> Prop) sched s :
  (forall t x, writes t x \/ ~ writes t x) ->
  respects run (fun t x => reads t x \/ writes t x) writes -> NoDup l ->
  (forall a b, before l a b -> ~ tconflict reads writes a b \/ clos_trans_1n T ord a b) ->
  allowed l ord sched -> same (exec run sched s) (exec run l s).
Proof.
  intros WD HR ND HC [P H]. apply (race_free run (fun t x => reads t x \/ writes t x) writes); auto.
  intros a b Hb. destruct (HC a b Hb) as [C|C].
  - left. intros [x K]. apply C. exists x. destruct K as [[K1 K2]|[K1 K2]]; [left|right]; tauto.
  - right. assert (NDS : NoDup sched) by (eapply Permutation_NoDup; eauto). clear Hb HC. induction C as [a b K|a b c K _ IH]; auto.
    eapply before_trans; eauto.
Qed.
