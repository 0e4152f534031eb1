(** Outcomes of modelled C++ code and small general helpers. *)
From Coq Require Import List Arith ZArith Lia Bool.
Import ListNotations.

(** The result of running a piece of modelled code.
    - [Ok a]       : it returns normally with [a];
    - [Abort]      : [std::abort()] is reached (multi-method fallback);
    - [AssertFail] : an [assert] is violated (in a Release build the assert is
                     compiled out and execution continues unspecified here);
    - [UB]         : undefined behaviour (access outside storage, null proxy, ...);
    - [NoFuel]     : the recursion budget of the model is exhausted; never a
                     C++ behaviour, every use is accompanied by a theorem saying
                     that enough fuel exists or that none does. *)
Inductive outcome (A : Type) : Type :=
| Ok (a : A)
| Abort
| AssertFail
| UB
| NoFuel.
Arguments Ok {A} a.
Arguments Abort {A}.
Arguments AssertFail {A}.
Arguments UB {A}.
Arguments NoFuel {A}.

Definition bind {A B} (x : outcome A) (f : A -> outcome B) : outcome B :=
  match x with
  | Ok a => f a
  | Abort => Abort
  | AssertFail => AssertFail
  | UB => UB
  | NoFuel => NoFuel
  end.

Notation "'let*' x := c1 'in' c2" := (bind c1 (fun x => c2))
  (at level 61, x pattern, c1 at next level, right associativity).
Notation "'assert!' b 'in' c" := (if b then c else AssertFail)
  (at level 61, b at next level, right associativity).

Definition omap {A B} (f : A -> B) (x : outcome A) : outcome B :=
  let* a := x in Ok (f a).

Lemma bind_Ok {A B} (x : outcome A) (f : A -> outcome B) b :
  bind x f = Ok b -> exists a, x = Ok a /\ f a = Ok b.
Proof. destruct x; simpl; intros; try discriminate; eauto. Qed.

(** Loop [for (i = 0; i < n; ++i)] threading a state. *)
Fixpoint for_loop {S} (n : nat) (body : nat -> S -> outcome S) (s : S) : outcome S :=
  match n with
  | O => Ok s
  | S m => let* s' := for_loop m body s in body m s'
  end.

Lemma for_loop_inv {S} (n : nat) (body : nat -> S -> outcome S) (s0 : S)
  (Inv : nat -> S -> Prop) :
  Inv 0 s0 ->
  (forall i s, i < n -> Inv i s -> exists s', body i s = Ok s' /\ Inv (Datatypes.S i) s') ->
  exists s, for_loop n body s0 = Ok s /\ Inv n s.
Proof.
  intros H0 Hstep. induction n as [|n IH]; simpl.
  - eauto.
  - destruct IH as [s [Hs HI]].
    + intros i s Hi. apply Hstep. lia.
    + rewrite Hs. simpl. destruct (Hstep n s) as [s' [Hb HI']]; [lia|exact HI|eauto].
Qed.

Lemma for_loop_inv_out {S} (n : nat) (body : nat -> S -> outcome S) (s0 s : S)
  (Inv : nat -> S -> Prop) :
  for_loop n body s0 = Ok s ->
  Inv 0 s0 ->
  (forall i s s', i < n -> Inv i s -> body i s = Ok s' -> Inv (Datatypes.S i) s') ->
  Inv n s.
Proof.
  revert s. induction n as [|n IH]; simpl; intros s Hrun H0 Hstep.
  - congruence.
  - apply bind_Ok in Hrun. destruct Hrun as [s1 [H1 H2]].
    eapply Hstep; [|apply IH; eauto|exact H2]; auto.
Qed.
