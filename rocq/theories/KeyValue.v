(** Global settings: src/util/global_key_value.cpp. *)
From Coq Require Import List String Bool.
From Verif Require Import Prelude.
Import ListNotations.
Local Open Scope string_scope.
Local Open Scope list_scope.

(** std::map<std::string, std::string> globalKeyValue (line 8), with its [find] and [operator[]]. *)
Definition kvmap := list (string * string).

Fixpoint kv_find (m : kvmap) (k : string) : option string :=
  match m with
  | [] => None
  | (k', v) :: t => if String.eqb k' k then Some v else kv_find t k
  end.

Fixpoint kv_assign (m : kvmap) (k v : string) : kvmap :=
  match m with
  | [] => [(k, v)]
  | (k', v') :: t => if String.eqb k' k then (k', v) :: t else (k', v') :: kv_assign t k v
  end.

(** getGlobalValue (10-18); [env] is std::getenv. *)
Definition get_global (env : string -> option string) (m : kvmap) (k : string) : string :=
  match kv_find m k with
  | None => match env k with Some v => v | None => "" end
  | Some v => v
  end.

(** setGlobalValue (20-22) *)
Definition set_global (m : kvmap) (k v : string) : kvmap := kv_assign m k v.

(** A history of calls of setGlobalValue, starting with the empty map. *)
Definition set_all (l : list (string * string)) : kvmap :=
  fold_left (fun m kv => set_global m (fst kv) (snd kv)) l [].

(** The last value given to k in the history. *)
Definition last_set (l : list (string * string)) (k : string) : option string :=
  fold_left (fun r kv => if String.eqb (fst kv) k then Some (snd kv) else r) l None.

Lemma kv_find_assign m k v k' : kv_find (kv_assign m k v) k' = if String.eqb k k' then Some v else kv_find m k'.
Proof.
  induction m as [|[a b] m IH]; simpl; auto.
  destruct (String.eqb_spec a k) as [->|Ha]; simpl.
  - destruct (String.eqb_spec k k'); auto.
  - rewrite IH. destruct (String.eqb_spec a k') as [->|H1]; auto. destruct (String.eqb_spec k k'); congruence.
Qed.

Lemma set_all_find l k : kv_find (set_all l) k = last_set l k.
Proof.
  unfold set_all, last_set.
  assert (H : forall m r, kv_find m k = r ->
    kv_find (fold_left (fun m kv => set_global m (fst kv) (snd kv)) l m) k =
    fold_left (fun r kv => if String.eqb (fst kv) k then Some (snd kv) else r) l r).
  { induction l as [|[a b] l IH]; intros m r E; simpl; auto. apply IH. unfold set_global. rewrite kv_find_assign, E. reflexivity. }
  apply H. reflexivity.
Qed.

Theorem get_after env l k :
  get_global env (set_all l) k = match last_set l k with Some v => v | None => match env k with Some v => v | None => "" end end.
Proof. unfold get_global. rewrite set_all_find. reflexivity. Qed.

Theorem get_set env l k v k' :
  get_global env (set_all (l ++ [(k, v)])) k' = if String.eqb k k' then v else get_global env (set_all l) k'.
Proof.
  unfold get_global. rewrite !set_all_find. unfold last_set. rewrite fold_left_app. simpl. destruct (String.eqb k k'); auto.
Qed.

(** [last_set] says what it should. *)
Theorem last_set_spec l k v :
  last_set l k = Some v <-> exists l1 l2, l = l1 ++ (k, v) :: l2 /\ ~ In k (map fst l2).
Proof.
  induction l as [|[a b] l IH] using rev_ind.
  - split; [discriminate|]. intros [[|] [l2 [E _]]]; discriminate.
  - unfold last_set. rewrite fold_left_app. simpl. fold (last_set l k). destruct (String.eqb_spec a k) as [->|Ha].
    + split.
      * intros E. inversion E; subst. exists l, []. split; auto.
      * intros [l1 [l2 [E H]]]. destruct l2 as [|x l2] using rev_ind.
        -- apply app_inj_tail in E. destruct E as [_ E]. congruence.
        -- rewrite app_comm_cons, app_assoc in E. apply app_inj_tail in E. destruct E as [_ <-].
           exfalso. apply H. rewrite map_app. apply in_or_app. right. left. reflexivity.
    + rewrite IH. split; intros [l1 [l2 [E H]]].
      * exists l1, (l2 ++ [(a, b)]). subst. rewrite <- app_assoc. split; auto.
        rewrite map_app. intros Hi. apply in_app_or in Hi. destruct Hi as [Hi|[Hi|[]]]; auto.
      * destruct l2 as [|x l2] using rev_ind.
        -- apply app_inj_tail in E. destruct E as [_ E]. congruence.
        -- rewrite app_comm_cons, app_assoc in E. apply app_inj_tail in E. destruct E as [-> <-].
           exists l1, l2. split; auto. intros Hi. apply H. rewrite map_app. apply in_or_app. auto.
Qed.

Theorem last_set_none l k : last_set l k = None <-> ~ In k (map fst l).
Proof.
  destruct (last_set l k) as [v|] eqn:E.
  - apply last_set_spec in E. destruct E as (l1 & l2 & -> & _). split; [discriminate|]. intros H. destruct H.
    rewrite map_app. apply in_or_app. right. left. reflexivity.
  - split; auto. intros _ H. apply in_map_iff in H. destruct H as [[k' v] [<- H]].
    assert (G : forall l r, In (k', v) l -> fold_left (fun r kv => if String.eqb (fst kv) k' then Some (snd kv) else r) l r <> None).
    { clear. induction l as [|[a b] l IH]; simpl; [tauto|]. intros r [E|E]; [|auto]. inversion E; subst. rewrite String.eqb_refl.
      assert (F : forall l x, fold_left (fun r kv => if String.eqb (fst kv) k' then Some (snd kv) else r) l (Some x) <> @None string).
      { clear. induction l as [|[a b] l IH]; simpl; [discriminate|]. intros x. destruct (String.eqb a k'); apply IH. }
      apply F. }
    apply (G l None); auto.
Qed.

Theorem get_global_set env m k v k' : get_global env (set_global m k v) k' = if String.eqb k k' then v else get_global env m k'.
Proof. unfold get_global, set_global. rewrite kv_find_assign. destruct (String.eqb k k'); reflexivity. Qed.
