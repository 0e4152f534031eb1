(** Model of FRANK::IndexRange
    (src/classes/initialization_helpers/index_range.cpp,
     include/FRANK/classes/initialization_helpers/index_range.h). *)
From Coq Require Import List Arith ZArith Lia Bool.
Import ListNotations.
Local Open Scope Z_scope.

(** index_range.h:43-64, class IndexRange with fields start and n.
    [int64_t] is modelled by [Z]; for overflow see Machine.v. *)
Record irange := IR { ir_start : Z; ir_n : Z }.

(** Body of the loop in index_range.cpp:17-22.  C++ [/] truncates: [Z.quot]. *)
Definition ir_split_child (r : irange) (n_splits i : Z) : irange :=
  let child_n := Z.quot (ir_n r + n_splits - 1) n_splits in
  let child_start := ir_start r + child_n * i in
  let child_n' := if i =? n_splits - 1
                  then ir_n r - child_n * (n_splits - 1) else child_n in
  IR child_start child_n'.

(** index_range.cpp:15-24.  A negative [n_splits] would make the [std::vector]
    constructor throw; the model returns the empty list for it. *)
Definition ir_split (r : irange) (n_splits : Z) : list irange :=
  map (fun i => ir_split_child r n_splits (Z.of_nat i)) (seq 0 (Z.to_nat n_splits)).

(** index_range.cpp:26-28. *)
Definition ir_split_at (r : irange) (index : Z) : list irange :=
  [IR (ir_start r) index; IR (ir_start r + index) (ir_n r - index)].

(** index_range.cpp:33-41, the loop after the block heights (widths) of the
    first block column (row) of [like] have been read into [sizes]
    (index_range.cpp:36-38).  The start of the range is not used. *)
Fixpoint ir_split_like_from (child_start : Z) (sizes : list Z) : list irange :=
  match sizes with
  | [] => []
  | child_n :: rest => IR child_start child_n :: ir_split_like_from (child_start + child_n) rest
  end.

(** index_range.cpp:30-43; [child_start] is initialised with 0 (line 34). *)
Definition ir_split_like (r : irange) (sizes : list Z) : list irange :=
  ir_split_like_from 0 sizes.
