(** The identifier counter, src/classes/dense.cpp:29, under concurrency.
    [next_unique_id++] (38, 52, 61, 111, 124, 134, 243) on a plain uint64_t is a load
    followed by a store; a construction takes the loaded value as identifier. *)
From Coq Require Import List Arith Lia Bool.
Import ListNotations.

(** Counter, the value each thread has loaded but not yet stored back, and the
    constructions done so far: thread and identifier. *)
Record cstate := CS { c_next : nat; c_reg : nat -> option nat; c_log : list (nat * nat) }.
Definition c_init : cstate := CS 0 (fun _ => None) [].

Definition c_step (t : nat) (s : cstate) : cstate :=
  match c_reg s t with
  | None => CS (c_next s) (fun u => if u =? t then Some (c_next s) else c_reg s u) (c_log s)
  | Some v => CS (S v) (fun u => if u =? t then None else c_reg s u) (c_log s ++ [(t, v)])
  end.

(** The same with an atomic increment. *)
Definition a_step (t : nat) (s : cstate) : cstate :=
  CS (S (c_next s)) (c_reg s) (c_log s ++ [(t, c_next s)]).

Definition c_run (step : nat -> cstate -> cstate) (sched : list nat) : cstate := fold_left (fun s t => step t s) sched c_init.

Definition ids (s : cstate) : list nat := map snd (c_log s).

Lemma a_run_ids sched : ids (c_run a_step sched) = seq 0 (length sched) /\ c_next (c_run a_step sched) = length sched.
Proof.
  unfold c_run. induction sched as [|t l IH] using rev_ind; simpl; auto.
  rewrite fold_left_app, app_length, seq_app. simpl. destruct IH as [E1 E2]. split; [|rewrite E2; lia].
  unfold ids in *. simpl. rewrite map_app, E1. simpl. rewrite E2. reflexivity.
Qed.

Lemma atomic_unique sched : NoDup (ids (c_run a_step sched)).
Proof. rewrite (proj1 (a_run_ids sched)). apply seq_NoDup. Qed.

(** Without overlap, that is with each load directly followed by the store of the same
    thread, the plain counter behaves like the atomic one. *)
Fixpoint twice (l : list nat) : list nat := match l with [] => [] | t :: r => t :: t :: twice r end.

Lemma twice_app l m : twice (l ++ m) = twice l ++ twice m.
Proof. induction l; simpl; congruence. Qed.

Lemma serial_run sched : let s := c_run c_step (twice sched) in
  ids s = seq 0 (length sched) /\ c_next s = length sched /\ forall t, c_reg s t = None.
Proof.
  cbv zeta. unfold c_run. induction sched as [|t l IH] using rev_ind; simpl; auto.
  rewrite twice_app, fold_left_app, app_length, seq_app. simpl.
  destruct IH as [E1 [E2 E3]]. set (s := fold_left _ (twice l) c_init) in *.
  assert (Q : c_step t (c_step t s) = CS (S (c_next s)) (fun u => if u =? t then None else if u =? t then Some (c_next s) else c_reg s u)
     (c_log s ++ [(t, c_next s)])).
  { unfold c_step at 2. rewrite E3. unfold c_step. simpl. rewrite Nat.eqb_refl. reflexivity. }
  rewrite Q. simpl. split; [|split; [lia|intros u; rewrite E3; destruct (u =? t); reflexivity]].
  unfold ids in *. simpl. rewrite map_app, E1, E2. reflexivity.
Qed.

Lemma serial_unique sched : NoDup (ids (c_run c_step (twice sched))).
Proof. rewrite (proj1 (serial_run sched)). apply seq_NoDup. Qed.

(** Two threads in lockstep get the same identifiers, all of them. *)
Fixpoint lockstep (n : nat) : list nat := match n with O => [] | S k => lockstep k ++ [0; 1; 0; 1] end.

Lemma lockstep_run n : let s := c_run c_step (lockstep n) in
  c_next s = n /\ (forall t, c_reg s t = None) /\
  forall k, k < n -> In (0, k) (c_log s) /\ In (1, k) (c_log s).
Proof.
  cbv zeta. unfold c_run. induction n as [|n IH]; simpl.
  - split; auto. split; auto. lia.
  - rewrite fold_left_app. destruct IH as [E1 [E2 E3]]. set (s := fold_left _ (lockstep n) c_init) in *. simpl.
    set (f0 := fun u => if u =? 0 then Some (c_next s) else c_reg s u).
    set (f1 := fun u => if u =? 1 then Some (c_next s) else f0 u).
    assert (Q1 : c_step 0 s = CS (c_next s) f0 (c_log s)) by (unfold c_step; rewrite E2; reflexivity).
    assert (Q2 : c_step 1 (c_step 0 s) = CS (c_next s) f1 (c_log s)).
    { rewrite Q1. unfold c_step. simpl c_reg. change (f0 1) with (c_reg s 1). rewrite E2. reflexivity. }
    rewrite Q2. unfold c_step. simpl. rewrite E1. split; auto. split.
    { intros t. destruct t as [|[|t]]; simpl; auto. apply E2. }
    intros k Hk. rewrite !in_app_iff. simpl. destruct (Nat.eq_dec k n) as [->|Hne].
    + split; [left; right; left; auto|right; left; auto].
    + destruct (E3 k) as [X Y]; [lia|]. auto.
Qed.
