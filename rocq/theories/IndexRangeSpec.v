(** Specification vocabulary for index ranges, independent of how ranges are
    computed. *)
From Coq Require Import List ZArith Lia Bool.
From Verif Require Import IndexRange.
Import ListNotations.
Local Open Scope Z_scope.

(** Index [x] belongs to range [r]. *)
Definition ir_mem (x : Z) (r : irange) : Prop := ir_start r <= x < ir_start r + ir_n r.

Definition ir_memb (x : Z) (r : irange) : bool :=
  (ir_start r <=? x) && (x <? ir_start r + ir_n r).

(** [l] is a chain of adjacent ranges leading from [s] to [e]. *)
Fixpoint adjacent_from (s : Z) (l : list irange) (e : Z) : Prop :=
  match l with
  | [] => s = e
  | r :: l' => ir_start r = s /\ adjacent_from (s + ir_n r) l' e
  end.

(** Every child has a non-negative length. *)
Definition all_nonneg (l : list irange) : Prop := Forall (fun r => 0 <= ir_n r) l.

(** [l] tiles [p]: every index of [p] lies in exactly one member of [l] (counted
    with multiplicity) and no index outside of [p] lies in any. *)
Definition tiles (p : irange) (l : list irange) : Prop :=
  forall x, length (filter (ir_memb x) l) = if ir_memb x p then 1%nat else 0%nat.

(** Sum of lengths. *)
Definition total (l : list irange) : Z := fold_right (fun r acc => ir_n r + acc) 0 l.
