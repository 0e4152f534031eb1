(** Vocabulary for statements about cluster trees. *)
From Coq Require Import List Arith ZArith Lia Bool.
From Verif Require Import Prelude IndexRange IndexRangeSpec ClusterTree.
Import ListNotations.
Local Open Scope Z_scope.

(** All nodes of a tree. *)
Fixpoint ct_nodes (t : ctree) : list ctree :=
  match t with CT nd cs => CT nd cs :: flat_map ct_nodes cs end.

(** The nodes without children. *)
Fixpoint ct_leaves (t : ctree) : list ctree :=
  match t with
  | CT nd [] => [CT nd []]
  | CT nd cs => flat_map ct_leaves cs
  end.

(** Matrix position (x,y) lies in the block of the node. *)
Definition in_block (x y : Z) (t : ctree) : bool :=
  ir_memb x (cn_rows (ct_node t)) && ir_memb y (cn_cols (ct_node t)).

(** Number of leaves whose block contains (x,y). *)
Definition leaf_count (x y : Z) (t : ctree) : nat :=
  length (filter (in_block x y) (ct_leaves t)).

(** No node of the tree has a negative number of rows or columns. *)
Definition regular (t : ctree) : Prop :=
  forall s, In s (ct_nodes t) ->
    0 <= ir_n (cn_rows (ct_node s)) /\ 0 <= ir_n (cn_cols (ct_node s)).

(** Follow a path of block positions from a node. *)
Fixpoint ct_follow (t : ctree) (path : list (Z * Z)) : outcome ctree :=
  match path with
  | [] => Ok t
  | (i, j) :: p => let* c := ct_at t i j in ct_follow c p
  end.

(** A path whose positions are all inside the [bm] x [bn] layout. *)
Definition valid_path (bm bn : Z) (path : list (Z * Z)) : Prop :=
  Forall (fun ij => 0 <= fst ij < bm /\ 0 <= snd ij < bn) path.

(** Block row (column) number of the end of a path on its level, by refining
    positions from the root: the number written with digits [fst] in base [bm]. *)
Definition path_row (bm : Z) (path : list (Z * Z)) : Z :=
  fold_left (fun a ij => a * bm + fst ij) path 0.
Definition path_col (bn : Z) (path : list (Z * Z)) : Z :=
  fold_left (fun a ij => a * bn + snd ij) path 0.
