(** Timers: src/util/timer.cpp and include/FRANK/util/timer.h.

    The tree of timers is a value; pointers into it ([current_timer], [parent]) are
    paths of event names from GlobalTimer.  Elements of a std::map do not move, and
    only clear() removes them, so a path stands for the same timer until then.
    Clock readings come with the calls. *)
From Coq Require Import String QArith Bool Lia List.
From Verif Require Import Prelude KeyValue.
Import ListNotations.
Local Open Scope nat_scope.
Local Open Scope list_scope.

(** class Timer, timer.h:130-176; start_time is indeterminate until started. *)
Inductive timer := Tm (name : string) (running : bool) (start_time : option Q)
                      (times : list Q) (total : Q) (subs : list (string * timer)).

Definition t_name '(Tm n _ _ _ _ _) := n.
Definition t_running '(Tm _ r _ _ _ _) := r.
Definition t_times '(Tm _ _ _ ts _ _) := ts.
Definition t_total '(Tm _ _ _ _ tot _) := tot.
Definition t_subs '(Tm _ _ _ _ _ s) := s.

(** Timer::Timer(name, parent), timer.cpp:76-80; the default one (69-74) has name "". *)
Definition new_timer (n : string) : timer := Tm n false None [] 0%Q [].

(** subtimers.find(event) and subtimers[event] = s *)
Fixpoint sub_find (l : list (string * timer)) (e : string) : option timer :=
  match l with
  | [] => None
  | (e', t) :: r => if String.eqb e' e then Some t else sub_find r e
  end.
Fixpoint sub_set (l : list (string * timer)) (e : string) (s : timer) : list (string * timer) :=
  match l with
  | [] => [(e, s)]
  | (e', t) :: r => if String.eqb e' e then (e', s) :: r else (e', t) :: sub_set r e s
  end.
Definition set_sub (e : string) (s t : timer) : timer :=
  let '(Tm n r st ts tot l) := t in Tm n r st ts tot (sub_set l e s).

(** Timer::start (82-86) *)
Definition timer_start (now : Q) (t : timer) : outcome timer :=
  let '(Tm n r _ ts tot l) := t in
  assert! negb r in Ok (Tm n true (Some now) ts tot l).

(** Timer::start_subtimer (88-93) *)
Definition start_subtimer (e : string) (now : Q) (t : timer) : outcome timer :=
  let s := match sub_find (t_subs t) e with Some s => s | None => new_timer e end in
  let* s' := timer_start now s in Ok (set_sub e s' t).

(** Timer::stop (95-103) *)
Definition timer_stop (now : Q) (t : timer) : outcome timer :=
  let '(Tm n r st ts tot l) := t in
  assert! r in
  match st with
  | None => UB
  | Some t0 => Ok (Tm n false st (ts ++ [(now - t0)%Q]) (tot + (now - t0))%Q l)
  end.

(** Timer::clear (105-110).  [is_root] stands for parent == nullptr. *)
Definition timer_clear (is_root : bool) (t : timer) : outcome timer :=
  let '(Tm n r st ts _ _) := t in
  assert! negb r in
  assert! is_root && String.eqb n "" in
  Ok (Tm n r st ts 0%Q []).

(** Following a path of pointers and updating the timer at its end. *)
Fixpoint look (t : timer) (p : list string) : option timer :=
  match p with
  | [] => Some t
  | e :: q => match sub_find (t_subs t) e with Some s => look s q | None => None end
  end.
Fixpoint modify (t : timer) (p : list string) (f : timer -> outcome timer) : outcome timer :=
  match p with
  | [] => f t
  | e :: q => match sub_find (t_subs t) e with
              | Some s => let* s' := modify s q f in Ok (set_sub e s' t)
              | None => UB
              end
  end.

(** GlobalTimer, current_timer and the settings. *)
Record tstate := TS { ts_root : timer; ts_cur : list string; ts_kv : kvmap }.
Definition init_state : tstate := TS (new_timer "") [] [].

Inductive event :=
| EStart (e : string) (now : Q)
| EStop (e : string) (now : Q)
| EClear
| ESet (k v : string).

Section Env.
Variable env : string -> option string.

Definition enabled (s : tstate) : bool :=
  negb (String.eqb (get_global env (ts_kv s) "FRANK_DISABLE_TIMER") "1").

(** timing::start (25-31), timing::stop (34-44), clearTimers (46), setGlobalValue.
    Dereferencing current_timer when it no longer exists is undefined. *)
Definition tstep (s : tstate) (ev : event) : outcome tstate :=
  match ev with
  | EStart e now =>
      if enabled s then
        let* r := modify (ts_root s) (ts_cur s) (start_subtimer e now) in
        Ok (TS r (ts_cur s ++ [e]) (ts_kv s))
      else Ok s
  | EStop e now =>
      if enabled s then
        match look (ts_root s) (ts_cur s) with
        | None => UB
        | Some t =>
            assert! String.eqb (t_name t) e in
            let* r := modify (ts_root s) (ts_cur s) (timer_stop now) in
            Ok (TS r (removelast (ts_cur s)) (ts_kv s))
        end
      else Ok s
  | EClear => let* r := timer_clear true (ts_root s) in Ok (TS r (ts_cur s) (ts_kv s))
  | ESet k v => Ok (TS (ts_root s) (ts_cur s) (set_global (ts_kv s) k v))
  end.

(** The value returned by stop. *)
Definition stop_value (s : tstate) (now : Q) : Q :=
  if enabled s then
    match look (ts_root s) (ts_cur s) with
    | Some (Tm _ _ (Some t0) _ _ _) => (now - t0)%Q
    | _ => 0%Q
    end
  else 0%Q.

Fixpoint trun (s : tstate) (l : list event) : outcome tstate :=
  match l with [] => Ok s | e :: t => let* s' := tstep s e in trun s' t end.

(** getTotalTime and getNRuns (61-67); operator[] (142-145) asserts that the timer exists. *)
Definition total_time (s : tstate) (e : string) : outcome Q :=
  match look (ts_root s) (ts_cur s) with
  | None => UB
  | Some t => match sub_find (t_subs t) e with Some x => Ok (t_total x) | None => AssertFail end
  end.
Definition n_runs (s : tstate) (e : string) : outcome nat :=
  match look (ts_root s) (ts_cur s) with
  | None => UB
  | Some t => match sub_find (t_subs t) e with Some x => Ok (length (t_times x)) | None => AssertFail end
  end.

(** ** Specification: nested calls *)

(** A timed call with the calls nested in it. *)
Inductive call := Call (name : string) (t0 t1 : Q) (inner : list call).

Fixpoint call_events (c : call) : list event :=
  let '(Call n t0 t1 inner) := c in
  EStart n t0 :: flat_map call_events inner ++ [EStop n t1].
Definition events (l : list call) : list event := flat_map call_events l.

(** Durations, in order, of the calls that happen at nesting path p. *)
Fixpoint call_durations (p : list string) (c : call) : list Q :=
  match p with
  | [] => []
  | e :: q =>
      let '(Call n t0 t1 inner) := c in
      if String.eqb n e then
        match q with [] => [(t1 - t0)%Q] | _ => flat_map (call_durations q) inner end
      else []
  end.
Definition durations (p : list string) (l : list call) : list Q := flat_map (call_durations p) l.

(** What can be seen of the timer at path p. *)
Definition stat (s : tstate) (p : list string) : option (bool * list Q * Q) :=
  match look (ts_root s) p with
  | Some t => Some (t_running t, t_times t, t_total t)
  | None => None
  end.

(** The effect on it of calls lasting ds. *)
Definition add_runs (x : option (bool * list Q * Q)) (ds : list Q) : option (bool * list Q * Q) :=
  match x, ds with
  | x, [] => x
  | Some (r, ts, tot), _ => Some (r, ts ++ ds, fold_left Qplus ds tot)
  | None, _ => Some (false, ds, fold_left Qplus ds 0%Q)
  end.

(** States in which timing can begin: the current timer exists, nothing below it is
    running, and every timer is filed under its name. *)
Definition ready (s : tstate) : Prop :=
  look (ts_root s) (ts_cur s) <> None /\
  (forall p t, p <> [] -> look (ts_root s) (ts_cur s ++ p) = Some t -> t_running t = false) /\
  (forall p e t, look (ts_root s) (p ++ [e]) = Some t -> t_name t = e).

(** p is below the current path: p = cur ++ q with q nonempty. *)
Fixpoint below (cur p : list string) : option (list string) :=
  match cur, p with
  | [], [] => None
  | [], p => Some p
  | a :: cur', b :: p' => if String.eqb a b then below cur' p' else None
  | _ :: _, [] => None
  end.

(** ** Lemmas *)
Lemma sub_find_set l e s e' : sub_find (sub_set l e s) e' = if String.eqb e e' then Some s else sub_find l e'.
Proof.
  induction l as [|[a b] l IH]; simpl; auto.
  destruct (String.eqb_spec a e) as [->|Ha]; simpl.
  - destruct (String.eqb_spec e e'); auto.
  - rewrite IH. destruct (String.eqb_spec a e') as [->|H1]; auto. destruct (String.eqb_spec e e'); congruence.
Qed.

Lemma t_subs_set e s t : t_subs (set_sub e s t) = sub_set (t_subs t) e s.
Proof. destruct t; reflexivity. Qed.

Lemma look_app t p q : look t (p ++ q) = match look t p with Some s => look s q | None => None end.
Proof.
  revert t. induction p as [|e p IH]; intros t; simpl; auto. destruct (sub_find (t_subs t) e); auto.
Qed.

Definition info '(Tm n r st ts tot _) := (n, r, st, ts, tot).
Definition info_at (t : timer) (p : list string) := option_map info (look t p).

Lemma info_set e s t : info (set_sub e s t) = info t.
Proof. destruct t; reflexivity. Qed.

(** modify changes the timer at the end of the path, and nothing besides. *)
Lemma modify_spec p f : forall t x x', look t p = Some x -> f x = Ok x' ->
  exists t', modify t p f = Ok t' /\
    (forall q, look t' (p ++ q) = look x' q) /\
    (forall q, (forall r, q <> p ++ r) -> info_at t' q = info_at t q).
Proof.
  unfold info_at. induction p as [|e p IH]; intros t x x' H F; simpl in *.
  - inversion H; subst. exists x'. split; auto. split; auto. intros q Hq. exfalso. apply (Hq q). reflexivity.
  - destruct (sub_find (t_subs t) e) as [s|] eqn:E; [|discriminate].
    destruct (IH s x x' H F) as [s' [E1 [H1 H2]]]. rewrite E1. cbn [bind]. exists (set_sub e s' t). split; auto. split.
    + intros q. rewrite t_subs_set, sub_find_set, String.eqb_refl. apply H1.
    + intros q Hq. destruct q as [|a q]; simpl.
      * rewrite info_set. reflexivity.
      * rewrite t_subs_set, sub_find_set. destruct (String.eqb_spec e a) as [->|Ha]; auto.
        rewrite E. apply H2. intros r Hr. apply (Hq r). rewrite Hr. reflexivity.
Qed.

Fixpoint strip (p q : list string) : option (list string) :=
  match p, q with
  | [], q => Some q
  | a :: p', b :: q' => if String.eqb a b then strip p' q' else None
  | _ :: _, [] => None
  end.
Lemma strip_spec p q r : strip p q = Some r <-> q = p ++ r.
Proof.
  revert q. induction p as [|a p IH]; intros q; simpl.
  - split; congruence.
  - destruct q as [|b q]; [split; discriminate|]. destruct (String.eqb_spec a b) as [->|H].
    + rewrite IH. split; congruence.
    + split; [discriminate|congruence].
Qed.

Definition names_ok (t : timer) : Prop := forall p e x, look t (p ++ [e]) = Some x -> t_name x = e.

Lemma path_dec (p q : list string) : {p = q} + {p <> q}.
Proof. apply list_eq_dec, string_dec. Qed.

Lemma start_step t cur e now x : look t cur = Some x -> names_ok t ->
  (forall y, look t (cur ++ [e]) = Some y -> t_running y = false) ->
  exists t', modify t cur (start_subtimer e now) = Ok t' /\
    (forall p, p <> cur ++ [e] -> info_at t' p = info_at t p) /\
    info_at t' (cur ++ [e]) =
      match look t (cur ++ [e]) with
      | Some y => Some (e, true, Some now, t_times y, t_total y)
      | None => Some (e, true, Some now, [], 0%Q)
      end.
Proof.
  intros Hx HN Hr.
  set (s := match sub_find (t_subs x) e with Some s => s | None => new_timer e end).
  assert (Ly : look t (cur ++ [e]) = sub_find (t_subs x) e).
  { rewrite look_app, Hx. simpl. destruct (sub_find (t_subs x) e); auto. }
  assert (Hs : exists st ts tot l, s = Tm e false st ts tot l).
  { unfold s. destruct (sub_find (t_subs x) e) as [y|] eqn:E.
    - rewrite <- E in Ly. assert (Hy : look t (cur ++ [e]) = Some y) by congruence.
      pose proof (Hr _ Hy) as H1. pose proof (HN _ _ _ Hy) as H2. destruct y. simpl in *. subst. eauto.
    - unfold new_timer. eauto. }
  destruct Hs as [st [ts [tot [l Hs]]]].
  assert (F : start_subtimer e now x = Ok (set_sub e (Tm e true (Some now) ts tot l) x)).
  { unfold start_subtimer. fold s. rewrite Hs. reflexivity. }
  destruct (modify_spec cur _ t x _ Hx F) as [t' [E1 [H1 H2]]]. exists t'. split; auto. split.
  - intros p Hp. destruct (strip cur p) as [q|] eqn:E.
    + apply strip_spec in E. subst p. unfold info_at. rewrite H1, look_app, Hx. destruct q as [|a q].
      * simpl. rewrite info_set. reflexivity.
      * simpl. rewrite t_subs_set, sub_find_set. destruct (String.eqb_spec e a) as [->|Ha]; auto.
        destruct q as [|b q]; [exfalso; apply Hp; reflexivity|]. unfold s in Hs. simpl.
        destruct (sub_find (t_subs x) a) as [y|].
        -- subst y. reflexivity.
        -- inversion Hs. reflexivity.
    + apply H2. intros r Hr'. assert (strip cur p = Some r) by (apply strip_spec; auto). congruence.
  - unfold info_at. rewrite H1. simpl. rewrite t_subs_set, sub_find_set, String.eqb_refl. simpl. rewrite Ly.
    unfold s in Hs. destruct (sub_find (t_subs x) e) as [y|]; [subst y|inversion Hs]; reflexivity.
Qed.

Lemma stop_step t cur now n t0 ts tot : info_at t cur = Some (n, true, Some t0, ts, tot) ->
  exists t', modify t cur (timer_stop now) = Ok t' /\
    (forall p, p <> cur -> info_at t' p = info_at t p) /\
    info_at t' cur = Some (n, false, Some t0, ts ++ [(now - t0)%Q], (tot + (now - t0))%Q).
Proof.
  intros Hi. unfold info_at in Hi. destruct (look t cur) as [x|] eqn:Hx; [|discriminate].
  destruct x as [n' r st ts' tot' l]. simpl in Hi. inversion Hi; subst.
  destruct (modify_spec cur (timer_stop now) t _ _ Hx eq_refl) as [t' [E1 [H1 H2]]]. exists t'. split; auto. split.
  - intros p Hp. destruct (strip cur p) as [q|] eqn:E.
    + apply strip_spec in E. subst p. unfold info_at. rewrite H1, look_app, Hx. destruct q as [|a q].
      * exfalso. apply Hp. rewrite app_nil_r. reflexivity.
      * reflexivity.
    + apply H2. intros r Hr'. assert (strip cur p = Some r) by (apply strip_spec; auto). congruence.
  - unfold info_at. rewrite <- (app_nil_r cur) at 1. rewrite H1. reflexivity.
Qed.

Lemma below_spec cur p q : below cur p = Some q <-> p = cur ++ q /\ q <> [].
Proof.
  revert p. induction cur as [|a cur IH]; intros p; simpl.
  - destruct p as [|b p]; split.
    + discriminate. + intros [<- H]. congruence.
    + intros E. inversion E; subst. split; auto. discriminate.
    + intros [E _]. congruence.
  - destruct p as [|b p]; [split; [discriminate|intros [E _]; discriminate]|].
    destruct (String.eqb_spec a b) as [->|H].
    + rewrite IH. split; intros [E H]; split; auto; congruence.
    + split; [discriminate|]. intros [E _]. congruence.
Qed.
Lemma below_app cur q : q <> [] -> below cur (cur ++ q) = Some q.
Proof. intros H. apply below_spec. auto. Qed.

Lemma add_runs_app x a b : add_runs (add_runs x a) b = add_runs x (a ++ b).
Proof.
  destruct x as [[[r ts] tot]|], a as [|d a], b as [|d' b]; simpl; auto; rewrite ?app_nil_r; auto.
  - rewrite <- !app_assoc. simpl. rewrite fold_left_app. reflexivity.
  - rewrite fold_left_app. reflexivity.
Qed.

(** The effect of nested calls on all timers. *)
Definition effect (s s' : tstate) (ds : list string -> list Q) : Prop :=
  ts_cur s' = ts_cur s /\ ts_kv s' = ts_kv s /\
  (forall p, below (ts_cur s) p = None -> info_at (ts_root s') p = info_at (ts_root s) p) /\
  (forall p q, below (ts_cur s) p = Some q -> stat s' p = add_runs (stat s p) (ds q)).

Lemma stat_info s p : stat s p = match info_at (ts_root s) p with
  Some (_, r, _, ts, tot) => Some (r, ts, tot) | None => None end.
Proof. unfold stat, info_at. destruct (look (ts_root s) p) as [[]|]; reflexivity. Qed.

Lemma look_info t p x : look t p = Some x -> exists st, info_at t p = Some (t_name x, t_running x, st, t_times x, t_total x).
Proof. unfold info_at. intros ->. destruct x. simpl. eauto. Qed.
Lemma look_info_none t p : look t p = None <-> info_at t p = None.
Proof. unfold info_at. destruct (look t p); split; simpl; intros; congruence. Qed.

Lemma names_info t : names_ok t <-> forall p e n r st ts tot, info_at t (p ++ [e]) = Some (n, r, st, ts, tot) -> n = e.
Proof.
  split; intros H p e.
  - intros n r st ts tot E. unfold info_at in E. destruct (look t (p ++ [e])) as [x|] eqn:Ex; [|discriminate].
    apply H in Ex. destruct x; simpl in *. congruence.
  - intros x E. destruct (look_info _ _ _ E) as [st E']. eapply H; eauto.
Qed.

Lemma below_self cur : below cur cur = None.
Proof.
  destruct (below cur cur) as [q|] eqn:E; auto. apply below_spec in E. destruct E as [E H].
  exfalso. destruct q as [|a q]; [congruence|]. apply (f_equal (@length string)) in E. rewrite app_length in E. simpl in E. lia.
Qed.

Lemma effect_refl s : effect s s (fun _ => []).
Proof. split; auto. split; auto. split; auto. intros p q _. destruct (stat s p) as [[[]]|]; reflexivity. Qed.

Lemma effect_trans s1 s2 s3 d1 d2 : effect s1 s2 d1 -> effect s2 s3 d2 -> effect s1 s3 (fun q => d1 q ++ d2 q).
Proof.
  intros [A1 [A2 [A3 A4]]] [B1 [B2 [B3 B4]]]. split; [congruence|]. split; [congruence|]. rewrite A1 in B3, B4. split.
  - intros p Hp. rewrite B3, A3; auto.
  - intros p q Hp. rewrite (B4 p q Hp), (A4 p q Hp). apply add_runs_app.
Qed.

(** call is a nested inductive type. *)
Lemma call_ind' (P : call -> Prop) :
  (forall n t0 t1 inner, (forall c, In c inner -> P c) -> P (Call n t0 t1 inner)) -> forall c, P c.
Proof.
  intros H. fix IH 1. intros [n t0 t1 inner]. apply H.
  induction inner as [|c inner IHl]; intros c' [].
  - rewrite <- H0. apply IH.
  - apply IHl. auto.
Qed.

Lemma trun_app l1 : forall s l2, trun s (l1 ++ l2) = let* s' := trun s l1 in trun s' l2.
Proof.
  induction l1 as [|e l1 IH]; intros s l2; simpl; auto. destruct (tstep s e); simpl; auto.
Qed.


Lemma add_runs_running x ds r ts tot : add_runs x ds = Some (r, ts, tot) ->
  (forall r' ts' tot', x = Some (r', ts', tot') -> r' = false) -> r = false.
Proof.
  intros E H. destruct x as [[[r' ts'] tot']|], ds; simpl in E; inversion E; subst; auto; eapply H; eauto.
Qed.

Lemma call_effect c : forall s, ready s -> enabled s = true ->
  exists s', trun s (call_events c) = Ok s' /\ ready s' /\ effect s s' (fun q => call_durations q c).
Proof.
  induction c as [n t0 t1 inner IH] using call_ind'. intros s [R1 [R2 R3]] EN.
  set (cur := ts_cur s) in *. set (t := ts_root s) in *.
  destruct (look t cur) as [x|] eqn:Hx; [|congruence]. clear R1.
  destruct (start_step t cur n t0 x Hx R3) as [r1 [E1 [F1 G1]]].
  { intros y Hy. apply (R2 [n]); [discriminate|auto]. }
  assert (K1 : exists ts tot, info_at r1 (cur ++ [n]) = Some (n, true, Some t0, ts, tot) /\
      match stat s (cur ++ [n]) with Some (_, ts', tot') => ts' = ts /\ tot' = tot | None => ts = [] /\ tot = 0%Q end).
  { rewrite G1. unfold stat. fold t. destruct (look t (cur ++ [n])) as [y|]; eauto. }
  destruct K1 as [ts [tot [G1' K1]]].
  set (s1 := TS r1 (cur ++ [n]) (ts_kv s)).
  assert (RD1 : ready s1).
  { split; [|split].
    - simpl. intros E. apply look_info_none in E. rewrite G1' in E. discriminate.
    - simpl. intros p y Hp Hy. destruct (look_info _ _ _ Hy) as [st Hi].
      rewrite F1 in Hi by (intros E; apply Hp; rewrite <- app_nil_r in E; apply app_inv_head in E; auto).
      unfold info_at in Hi. rewrite <- app_assoc in Hi. simpl in Hi.
      destruct (look t (cur ++ n :: p)) as [z|] eqn:Ez; [|discriminate].
      apply R2 in Ez; [|discriminate]. destruct z; simpl in *. congruence.
    - simpl. apply names_info. intros p e nm r st ts' tot' Hi. destruct (path_dec (p ++ [e]) (cur ++ [n])) as [E|E].
      + rewrite E, G1' in Hi. apply app_inj_tail in E. destruct E; congruence.
      + rewrite F1 in Hi by auto. eapply (proj1 (names_info t) R3); eauto. }
  assert (IN : forall l, (forall c, In c l -> In c inner) -> forall s2, ready s2 -> enabled s2 = true ->
     exists s', trun s2 (flat_map call_events l) = Ok s' /\ ready s' /\ effect s2 s' (fun q => durations q l)).
  { induction l as [|c l IHl]; intros Hl s2 RD EN2.
    - exists s2. split; auto. split; auto. apply effect_refl.
    - destruct (IH c (Hl c (or_introl eq_refl)) s2 RD EN2) as [s3 [X1 [X2 X3]]].
      assert (EN3 : enabled s3 = true) by (unfold enabled in *; destruct X3 as [_ [-> _]]; auto).
      destruct (IHl (fun c' H => Hl c' (or_intror H)) s3 X2 EN3) as [s4 [Y1 [Y2 Y3]]].
      exists s4. split; [simpl; rewrite trun_app, X1; exact Y1|]. split; auto.
      exact (effect_trans s2 s3 s4 _ _ X3 Y3). }
  destruct (IN inner (fun c H => H) s1 RD1 EN) as [s2 [X1 [[RA [RB RC]] [Y1 [Y2 [Y3 Y4]]]]]].
  simpl in Y1, Y2, Y3, Y4.
  assert (I2 : info_at (ts_root s2) (ts_cur s2) = Some (n, true, Some t0, ts, tot)).
  { rewrite Y1, Y3, G1'; auto. apply below_self. }
  destruct (stop_step _ _ t1 _ _ _ _ I2) as [r3 [E3 [F3 G3]]]. rewrite Y1 in F3, G3.
  set (s3 := TS r3 cur (ts_kv s)).
  exists s3.
  assert (EF : effect s s3 (fun q => call_durations q (Call n t0 t1 inner))).
  { split; auto. split; auto. split; simpl.
    - fold cur. intros p Hp.
      assert (HA : p <> cur ++ [n]) by (intros ->; rewrite below_app in Hp; discriminate).
      assert (HB : below (cur ++ [n]) p = None).
      { destruct (below (cur ++ [n]) p) as [q|] eqn:E; auto. apply below_spec in E. destruct E as [-> _].
        rewrite <- app_assoc in Hp. rewrite below_app in Hp; discriminate. }
      rewrite F3, Y3, F1; auto.
    - fold cur. intros p q Hp. apply below_spec in Hp. destruct Hp as [-> Hq]. destruct q as [|a q]; [congruence|].
      simpl. destruct (String.eqb_spec n a) as [<-|Ha].
      + destruct q as [|b q].
        * rewrite (stat_info s3). simpl. rewrite G3.
          destruct (stat s (cur ++ [n])) as [[[rr ts'] tot']|] eqn:ES; destruct K1 as [-> ->].
          -- assert (rr = false). { unfold stat in ES. destruct (look (ts_root s) (cur ++ [n])) as [y|] eqn:Ey; [|discriminate]. apply R2 in Ey; [|discriminate]. congruence. }
             subst. reflexivity.
          -- reflexivity.
        * assert (NE : cur ++ n :: b :: q <> cur ++ [n]) by (intros E; apply app_inv_head in E; discriminate).
          assert (EP : cur ++ n :: b :: q = (cur ++ [n]) ++ b :: q) by (rewrite <- app_assoc; reflexivity).
          rewrite (stat_info s3). simpl ts_root. rewrite F3 by auto. rewrite <- (stat_info s2).
          rewrite (Y4 _ (b :: q)) by (rewrite EP; apply below_app; discriminate).
          rewrite (stat_info s1). simpl ts_root. rewrite F1 by auto. rewrite <- (stat_info s). reflexivity.
      + assert (NE : cur ++ a :: q <> cur ++ [n]) by (intros E; apply app_inv_head in E; congruence).
        assert (HB : below (cur ++ [n]) (cur ++ a :: q) = None).
        { destruct (below (cur ++ [n]) (cur ++ a :: q)) as [q'|] eqn:E; auto. apply below_spec in E. destruct E as [E _].
          rewrite <- app_assoc in E. apply app_inv_head in E. simpl in E. congruence. }
        rewrite (stat_info s3). simpl ts_root. rewrite F3, Y3, F1 by auto. rewrite <- (stat_info s).
        destruct (stat s (cur ++ a :: q)) as [[[]]|]; reflexivity. }
  split; [|split; [|exact EF]].
  - change (call_events (Call n t0 t1 inner)) with (EStart n t0 :: flat_map call_events inner ++ [EStop n t1]).
    cbn [trun]. unfold tstep at 1. rewrite EN. fold t cur. rewrite E1. cbn [bind]. fold s1.
    rewrite trun_app, X1. cbn [bind trun]. unfold tstep.
    assert (EN2 : enabled s2 = true) by (unfold enabled in *; rewrite Y2; auto). rewrite EN2.
    destruct (look (ts_root s2) (ts_cur s2)) as [z|] eqn:Ez; [|unfold info_at in I2; rewrite Ez in I2; discriminate].
    assert (Nz : t_name z = n) by (unfold info_at in I2; rewrite Ez in I2; destruct z; simpl in *; congruence).
    rewrite Nz, String.eqb_refl, E3. cbn [bind]. rewrite Y1, removelast_last, Y2. reflexivity.
  - destruct EF as [Z1 [Z2 [Z3 Z4]]]. split; [|split].
    + simpl. intros E. apply look_info_none in E. simpl in Z3. rewrite (Z3 cur) in E by apply below_self.
      apply look_info_none in E. fold t in E. congruence.
    + simpl. intros p y Hp Hy.
      assert (ES : stat s3 (cur ++ p) = Some (t_running y, t_times y, t_total y)) by (unfold stat; simpl; rewrite Hy; auto).
      rewrite (Z4 (cur ++ p) p) in ES by (apply below_app; auto).
      apply (add_runs_running _ _ _ _ _ ES). intros r' ts' tot' E. unfold stat in E.
      destruct (look (ts_root s) (cur ++ p)) as [z|] eqn:Ez; [|discriminate]. apply R2 in Ez; auto. congruence.
    + simpl. apply names_info. intros p e nm r st ts' tot' Hi. destruct (path_dec (p ++ [e]) (cur ++ [n])) as [E|E].
      * rewrite E, G3 in Hi. apply app_inj_tail in E. destruct E; congruence.
      * rewrite F3 in Hi by auto. eapply (proj1 (names_info _) RC); eauto.
Qed.

Lemma calls_effect l : forall s, ready s -> enabled s = true ->
  exists s', trun s (events l) = Ok s' /\ ready s' /\ effect s s' (fun q => durations q l).
Proof.
  induction l as [|c l IHl]; intros s RD EN.
  - exists s. split; auto. split; auto. apply effect_refl.
  - destruct (call_effect c s RD EN) as [s3 [X1 [X2 X3]]].
    assert (EN3 : enabled s3 = true) by (unfold enabled in *; destruct X3 as [_ [-> _]]; auto).
    destruct (IHl s3 X2 EN3) as [s4 [Y1 [Y2 Y3]]].
    exists s4. split; [simpl; rewrite trun_app, X1; exact Y1|]. split; auto.
    exact (effect_trans s s3 s4 _ _ X3 Y3).
Qed.

Lemma init_ready kv : ready (TS (new_timer "") [] kv).
Proof.
  split; [discriminate|]. split.
  - intros [|a p] t Hp; [congruence|discriminate].
  - intros [|a p] e t; discriminate.
Qed.

(** Disabled timers: no call changes anything. *)
Lemma disabled_noop l : forall s, enabled s = false ->
  (forall ev, In ev l -> exists e now, ev = EStart e now \/ ev = EStop e now) -> trun s l = Ok s.
Proof.
  induction l as [|ev l IH]; intros s E H; simpl; auto.
  destruct (H ev (or_introl eq_refl)) as [e [now [-> | ->]]]; simpl; rewrite E; simpl; apply IH; auto; intros; apply H; right; auto.
Qed.

(** clearTimers while a timer is current destroys that timer. *)
Lemma clear_dangling s s1 e now : ts_cur s <> [] -> enabled s = true -> tstep s EClear = Ok s1 ->
  tstep s1 (EStart e now) = UB /\ tstep s1 (EStop e now) = UB.
Proof.
  intros Hc EN H. simpl in H. destruct (ts_root s) as [n r st ts tot l]. simpl in H.
  destruct r; simpl in H; [discriminate|]. destruct (String.eqb n ""); [|discriminate]. simpl in H. inversion H; subst.
  unfold tstep, enabled in *. simpl. rewrite EN. destruct (ts_cur s); [congruence|]. simpl. auto.
Qed.
End Env.

Theorem calls_main env (l : list call) s : ready s -> enabled env s = true ->
  exists s', trun env s (events l) = Ok s' /\ ready s' /\
    ts_cur s' = ts_cur s /\ ts_kv s' = ts_kv s /\
    (forall p, (forall q, q <> [] -> p <> ts_cur s ++ q) -> info_at (ts_root s') p = info_at (ts_root s) p) /\
    (forall q, q <> [] -> stat s' (ts_cur s ++ q) = add_runs (stat s (ts_cur s ++ q)) (durations q l)).
Proof.
  intros H E. destruct (calls_effect env l s H E) as (s' & H1 & H2 & H3 & H4 & H5 & H6). exists s'.
  split; auto. split; auto. split; auto. split; auto. split.
  - intros p Hp. apply H5. destruct (below (ts_cur s) p) as [q|] eqn:B; auto. apply below_spec in B. destruct B as [B1 B2]. destruct (Hp q B2 B1).
  - intros q Hq. apply H6. apply below_app. auto.
Qed.

Theorem calls_from_start env (l : list call) kv : enabled env (TS (new_timer "") [] kv) = true ->
  exists s, trun env (TS (new_timer "") [] kv) (events l) = Ok s /\ ts_cur s = [] /\
    forall q, q <> [] -> stat s q =
      match durations q l with [] => None | ds => Some (false, ds, fold_left Qplus ds 0%Q) end.
Proof.
  intros E. destruct (calls_main env l _ (init_ready kv) E) as (s & H1 & _ & H2 & _ & _ & H3). exists s. split; auto. split; auto.
  intros q Hq. specialize (H3 q Hq). simpl in H3. rewrite H3. unfold stat. simpl.
  assert (N : look (new_timer "") q = None) by (destruct q; [tauto|reflexivity]). rewrite N. destruct (durations q l); reflexivity.
Qed.

Theorem queries env (l : list call) kv e : enabled env (TS (new_timer "") [] kv) = true -> durations [e] l <> [] ->
  exists s, trun env (TS (new_timer "") [] kv) (events l) = Ok s /\
    total_time s e = Ok (fold_left Qplus (durations [e] l) 0%Q) /\ n_runs s e = Ok (length (durations [e] l)).
Proof.
  intros E D. destruct (calls_from_start env l kv E) as (s & H1 & H2 & H3). exists s. split; auto.
  specialize (H3 [e]). lapply H3; [clear H3; intros H3|discriminate].
  unfold total_time, n_runs. rewrite H2. cbn [look]. unfold stat in H3. cbn [look] in H3.
  destruct (sub_find (t_subs (ts_root s)) e) as [x|].
  - destruct (durations [e] l) as [|d ds]; [tauto|]. inversion H3. subst. split; congruence.
  - destruct (durations [e] l); [tauto|discriminate].
Qed.
