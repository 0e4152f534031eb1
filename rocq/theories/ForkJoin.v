(** Fork-join programs: a list of phases, each a set of tasks that run in parallel; a phase
    begins when all of the one before is done (the barrier at the end of an OpenMP parallel
    for).  Code between parallel loops is a phase of one task. *)
From Coq Require Import List Arith Lia Bool Permutation Relation_Operators.
From Verif Require Import Prelude Tasks MatOpsProofs.
Import ListNotations.

Section Fork.
Context {T L : Type}.
Variables reads writes : T -> L -> Prop.

(** The tasks of a phase write disjoint locations and none reads what another writes. *)
Definition independent (ph : list T) : Prop :=
  NoDup ph /\ forall a b, In a ph -> In b ph -> a <> b -> forall x, writes a x -> ~ reads b x /\ ~ writes b x.

Lemma independent_conflict ph a b : independent ph -> In a ph -> In b ph -> a <> b -> ~ tconflict reads writes a b.
Proof.
  intros [_ H] Ha Hb N [x [[K1 K2]|[K1 K2]]].
  - destruct (H a b Ha Hb N x K1). tauto.
  - destruct (H b a Hb Ha (not_eq_sym N) x K1). tauto.
Qed.

(** Orders of whole tasks. *)
Definition orders (prog : list (list T)) (sched : list T) : Prop :=
  exists ss, sched = concat ss /\ Forall2 (@Permutation T) prog ss.

Lemma orders_nil sched : orders [] sched -> sched = [].
Proof. intros [ss [-> H]]. inversion H. reflexivity. Qed.
Lemma orders_cons ph prog sched : orders (ph :: prog) sched ->
  exists s1 s2, sched = s1 ++ s2 /\ Permutation ph s1 /\ orders prog s2.
Proof. intros [ss [-> H]]. inversion H as [|? s1 ? s2 H1 H2]; subst. exists s1, (concat s2). split; [reflexivity|]. split; auto. exists s2. auto. Qed.

Section Whole.
Context {V : Type}.
Variable run : T -> (L -> V) -> L -> V.
Hypothesis wdec : forall t x, writes t x \/ ~ writes t x.
Hypothesis HR : respects run reads writes.

Lemma exec_same_gen l : forall s t, same s t -> same (exec run l s) (exec run l t).
Proof. induction l as [|e l IH]; intros s t H; simpl; auto. apply IH. apply (respects_same run reads writes); auto. Qed.

Theorem fork_join prog : Forall independent prog -> forall sched s, orders prog sched ->
  same (exec run sched s) (exec run (concat prog) s).
Proof.
  induction 1 as [|ph prog I _ IH]; intros sched s H.
  - rewrite (orders_nil _ H). intros x. reflexivity.
  - apply orders_cons in H. destruct H as [s1 [s2 [-> [P H]]]]. simpl concat. rewrite !exec_app.
    intros x. rewrite (IH s2) by auto. apply exec_same_gen.
    apply (race_free run reads writes); auto; [apply I|].
    intros a b B. left. intros C. destruct (before_in _ _ _ B) as [Ha Hb].
    apply (independent_conflict ph a b I Ha Hb); [|exact C]. intros ->. apply (before_irrefl ph b (proj1 I) B).
Qed.
End Whole.

(** Tasks of any number of steps, those of a phase interleaved. *)
Section Steps.
Context {V : Type}.
Variable steps : T -> nat.
Variable step : T * nat -> (L + T -> V) -> L + T -> V.
Definition interleaved (prog : list (list T)) (sched : list (T * nat)) : Prop :=
  exists ss, sched = concat ss /\ Forall2 (fun ph s => interleaving steps ph (fun _ _ => False) s) prog ss.

Hypothesis wdec : forall t x, writes t x \/ ~ writes t x.
Hypothesis tdec : forall t u : T, t = u \/ t <> u.
Hypothesis pos : forall t, 0 < steps t.
Hypothesis HR : respects step (sreads reads writes) (swrites writes).

Lemma events_app l m : events steps (l ++ m) = events steps l ++ events steps m.
Proof. unfold events. apply flat_map_app. Qed.

Theorem fork_join_steps prog : Forall independent prog -> forall sched s, interleaved prog sched ->
  same (exec step sched s) (exec step (events steps (concat prog)) s).
Proof.
  induction 1 as [|ph prog I _ IH]; intros sched s H.
  - destruct H as [ss [-> H]]. inversion H. intros x. reflexivity.
  - destruct H as [ss [-> H]]. inversion H as [|? s1 ? s2 H1 H2]; subst. simpl concat. rewrite events_app, !exec_app.
    intros x. rewrite IH by (exists s2; auto).
    assert (E : same (exec step s1 s) (exec step (events steps ph) s)).
    { apply (interleavings steps step reads writes wdec tdec ph (fun _ _ => False)); auto; [apply I|].
      intros a b B. left. intros C. destruct (before_in _ _ _ B) as [Ha Hb].
      apply (independent_conflict ph a b I Ha Hb); [|exact C]. intros ->. apply (before_irrefl ph b (proj1 I) B). }
    revert x. change (same (exec step (events steps (concat prog)) (exec step s1 s)) (exec step (events steps (concat prog)) (exec step (events steps ph) s))).
    revert E. generalize (exec step s1 s), (exec step (events steps ph) s). generalize (events steps (concat prog)).
    intros l. induction l as [|e l IHl]; intros u v E; simpl; auto. apply IHl.
    apply (respects_same step (sreads reads writes) (swrites writes)); auto.
    intros [t n] [y|w]; simpl; auto.
Qed.
End Steps.
End Fork.

(** ** Tasks given by what they read, what they write and a function *)
Section Task.
Context {T L V : Type}.
Variable leq : forall x y : L, {x = y} + {x <> y}.
Variables rd wr : T -> list L.
Variable body : T -> list V -> outcome (list V).

Fixpoint pos (x : L) (l : list L) : option nat :=
  match l with [] => None | y :: t => if leq x y then Some 0 else option_map S (pos x t) end.
(** None is the content of a location after a failed task. *)
Fixpoint gather (s : L -> option V) (l : list L) : option (list V) :=
  match l with
  | [] => Some []
  | x :: t => match s x, gather s t with Some v, Some vs => Some (v :: vs) | _, _ => None end
  end.
Definition results (t : T) (s : L -> option V) : option (list V) :=
  match gather s (rd t) with
  | Some vs => match body t vs with Ok ws => Some ws | _ => None end
  | None => None
  end.
Definition trun (t : T) (s : L -> option V) (x : L) : option V :=
  match pos x (wr t) with
  | None => s x
  | Some i => match results t s with Some ws => nth_error ws i | None => None end
  end.

Lemma pos_None x l : pos x l = None <-> ~ In x l.
Proof.
  induction l as [|y l IH]; simpl; [tauto|]. destruct (leq x y) as [->|N]; [split; [discriminate|tauto]|].
  destruct (pos x l); simpl; split; intros H; try discriminate.
  - exfalso. apply H. right. destruct (in_dec leq x l); auto. exfalso. assert (Some n = None) by (apply IH; auto). discriminate.
  - intros [E|E]; [congruence|]. apply IH in E; auto.
  - reflexivity.
Qed.
Lemma gather_ext s t l : (forall x, In x l -> s x = t x) -> gather s l = gather t l.
Proof. induction l as [|x l IH]; simpl; intros H; auto. rewrite (H x), IH by auto. reflexivity. Qed.

Lemma trun_respects : respects trun (fun t x => In x (rd t)) (fun t x => In x (wr t)).
Proof.
  split.
  - intros t s x H. unfold trun. apply pos_None in H. rewrite H. reflexivity.
  - intros t s u H x Hx. unfold trun, results. rewrite (gather_ext s u) by auto.
    destruct (pos x (wr t)) eqn:E; auto. apply pos_None in E. tauto.
Qed.
Lemma wdec_in t x : In x (wr t) \/ ~ In x (wr t).
Proof. destruct (in_dec leq x (wr t)); auto. Qed.

(** Result of a task that succeeds. *)
Lemma gather_some (s : L -> option V) (f : L -> V) l : (forall x, In x l -> s x = Some (f x)) -> gather s l = Some (map f l).
Proof. induction l as [|x l IH]; simpl; intros H; auto. rewrite (H x), IH by auto. reflexivity. Qed.
End Task.

(** A loop and the tasks of its iterations. *)
Lemma loop_tasks {T St Mem} (run : T -> Mem -> Mem) (eqM : Mem -> Mem -> Prop) (code : St -> Mem) (Inv : St -> Prop)
  (f : nat -> list T) (body : nat -> St -> outcome St) a n s0 s1 :
  (forall s, eqM s s) -> (forall s t u, eqM s t -> eqM t u -> eqM s u) ->
  (forall t s u, eqM s u -> eqM (run t s) (run t u)) ->
  (forall t s s', t < n -> Inv s -> body t s = Ok s' -> Inv s' /\ eqM (exec run (f (a + t)) (code s)) (code s')) ->
  Inv s0 -> for_loop n body s0 = Ok s1 -> Inv s1 /\ eqM (exec run (flat_map f (seq a n)) (code s0)) (code s1).
Proof.
  intros Hr Ht HS. revert s1. induction n as [|n IH]; intros s1 H HI HL; simpl in HL.
  - inversion HL; subst. split; [auto|]. simpl. apply Hr.
  - apply bind_Ok in HL. destruct HL as [s [H1 H2]]. destruct (IH s) as [J1 J2]; auto.
    destruct (H n s s1) as [L1 L2]; auto. split; auto.
    rewrite seq_S, flat_map_app, exec_app. simpl flat_map. rewrite app_nil_r.
    eapply Ht; [|exact L2]. revert J2. generalize (exec run (flat_map f (seq a n)) (code s0)), (code s).
    clear L2. induction (f (a + n)) as [|e l IHl]; simpl; auto.
Qed.
Lemma concat_flat_map {A B} (f : A -> list (list B)) l : concat (flat_map f l) = flat_map (fun x => concat (f x)) l.
Proof. induction l as [|a l IH]; simpl; auto. rewrite concat_app, IH. reflexivity. Qed.
