(** Properties C03, C04 and C05: cluster trees. *)
From Coq Require Import List Arith ZArith Lia Bool.
From Verif Require Import Prelude IndexRange IndexRangeSpec IndexRangeProofs
  ClusterTree ClusterTreeSpec ClusterTreeProofs ClusterTreeTermination ClusterTreeRegular.
Import ListNotations.
Local Open Scope Z_scope.

(** C03: every index pair of the matrix is in exactly one leaf, every other pair in none. *)
Theorem C03_leaves_partition : forall fuel rows cols bm bn nleaf t,
  cluster_tree fuel rows cols bm bn nleaf = Ok t -> regular t ->
  forall x y, leaf_count x y t = if ir_memb x rows && ir_memb y cols then 1%nat else 0%nat.
Proof. exact cluster_tree_partition. Qed.
Print Assumptions C03_leaves_partition.

(** C03: the same below every node, so a node is exactly covered by its descendants. *)
Theorem C03_subtrees_partition : forall fuel rows cols bm bn nleaf t s,
  cluster_tree fuel rows cols bm bn nleaf = Ok t -> regular t -> In s (ct_nodes t) ->
  forall x y, leaf_count x y s = if in_block x y s then 1%nat else 0%nat.
Proof. exact cluster_tree_subpartition. Qed.
Print Assumptions C03_subtrees_partition.

(** C03: the regularity hypothesis holds for block layouts with at most 2 blocks
    per direction, and for sizes that are a leaf size times a power of the block count. *)
Theorem C03_regular_two : forall fuel rows cols bm bn nleaf t,
  1 <= bm <= 2 -> 1 <= bn <= 2 -> 0 <= ir_n rows -> 0 <= ir_n cols ->
  cluster_tree fuel rows cols bm bn nleaf = Ok t -> regular t.
Proof. exact regular_two. Qed.
Print Assumptions C03_regular_two.

Theorem C03_regular_power : forall fuel rows cols bm bn nleaf s s' l t,
  1 <= bm -> 1 <= bn -> 0 <= s <= nleaf -> 0 <= s' <= nleaf ->
  ir_n rows = s * bm ^ Z.of_nat (S l) -> ir_n cols = s' * bn ^ Z.of_nat (S l) ->
  cluster_tree fuel rows cols bm bn nleaf = Ok t -> regular t.
Proof. exact regular_pow. Qed.
Print Assumptions C03_regular_power.

Example C03_ex : exists t, cluster_tree 5 (IR 0 11) (IR 3 9) 2 2 3 = Ok t /\
  length (ct_leaves t) = 16%nat.
Proof. eexists; split; [vm_compute; reflexivity|vm_compute; reflexivity]. Qed.

(** C04: children carry consistent coordinates, at every node of the tree. *)
Theorem C04_child_coordinates : forall fuel rows cols bm bn nleaf t s i j,
  cluster_tree fuel rows cols bm bn nleaf = Ok t -> In s (ct_nodes t) -> ct_children s <> [] ->
  0 <= i < bm -> 0 <= j < bn ->
  exists c, ct_at s i j = Ok c /\
    cn_irel (ct_node c) = i /\ cn_jrel (ct_node c) = j /\
    cn_level (ct_node c) = cn_level (ct_node s) + 1 /\
    cn_iabs (ct_node c) = cn_iabs (ct_node s) * bm + i /\
    cn_jabs (ct_node c) = cn_jabs (ct_node s) * bn + j /\
    cn_nleaf (ct_node c) = cn_nleaf (ct_node s) /\
    nth_error (ir_split (cn_rows (ct_node s)) bm) (Z.to_nat i) = Some (cn_rows (ct_node c)) /\
    nth_error (ir_split (cn_cols (ct_node s)) bn) (Z.to_nat j) = Some (cn_cols (ct_node c)).
Proof. exact cluster_tree_coordinates. Qed.
Print Assumptions C04_child_coordinates.

(** C04: absolute positions are the refined block positions; on one level they are unique. *)
Theorem C04_absolute_position : forall fuel rows cols bm bn nleaf t p s,
  cluster_tree fuel rows cols bm bn nleaf = Ok t ->
  valid_path bm bn p -> ct_follow t p = Ok s ->
  cn_iabs (ct_node s) = path_row bm p /\ cn_jabs (ct_node s) = path_col bn p /\
  cn_level (ct_node s) = Z.of_nat (length p).
Proof. exact cluster_tree_abs_path. Qed.
Print Assumptions C04_absolute_position.

Theorem C04_positions_unique : forall fuel rows cols bm bn nleaf t p q s s',
  cluster_tree fuel rows cols bm bn nleaf = Ok t ->
  valid_path bm bn p -> valid_path bm bn q ->
  ct_follow t p = Ok s -> ct_follow t q = Ok s' ->
  cn_level (ct_node s) = cn_level (ct_node s') ->
  cn_iabs (ct_node s) = cn_iabs (ct_node s') -> cn_jabs (ct_node s) = cn_jabs (ct_node s') ->
  p = q.
Proof. exact cluster_tree_abs_unique. Qed.
Print Assumptions C04_positions_unique.

Example C04_ex : exists t s,
  cluster_tree 5 (IR 0 11) (IR 3 9) 2 2 3 = Ok t /\
  ct_follow t [(1,0);(0,1)] = Ok s /\
  cn_iabs (ct_node s) = 2 /\ cn_jabs (ct_node s) = 1 /\ cn_rows (ct_node s) = IR 6 3.
Proof. eexists; eexists; repeat split; vm_compute; reflexivity. Qed.

(** C04: the siblings in a block row (column) reported for a child. *)
Theorem C04_block_row : forall f nd root p i j c,
  ct_build f nd root = Ok p -> ct_at p i j = Ok c ->
  0 <= i < cn_bm nd -> 0 <= j < cn_bn nd ->
  exists l, get_block_row (Some p) c = Ok l /\
    length l = Z.to_nat (cn_bn nd) /\
    nth_error l (Z.to_nat j) = Some c /\
    (forall k s, nth_error l k = Some s ->
       ct_at p i (Z.of_nat k) = Ok s /\ cn_rows (ct_node s) = cn_rows (ct_node c)).
Proof. exact get_block_row_spec. Qed.
Print Assumptions C04_block_row.

Theorem C04_block_col : forall f nd root p i j c,
  ct_build f nd root = Ok p -> ct_at p i j = Ok c ->
  0 <= i < cn_bm nd -> 0 <= j < cn_bn nd ->
  exists l, get_block_col (Some p) c = Ok l /\
    length l = Z.to_nat (cn_bm nd) /\
    nth_error l (Z.to_nat i) = Some c /\
    (forall k s, nth_error l k = Some s ->
       ct_at p (Z.of_nat k) j = Ok s /\ cn_cols (ct_node s) = cn_cols (ct_node c)).
Proof. exact get_block_col_spec. Qed.
Print Assumptions C04_block_col.

Example C04_block_ex : exists p c l,
  cluster_tree 5 (IR 0 11) (IR 3 9) 2 3 3 = Ok p /\ ct_at p 1 2 = Ok c /\
  get_block_row (Some p) c = Ok l /\ length l = 3%nat.
Proof. do 3 eexists; repeat split; vm_compute; reflexivity. Qed.

(** C05: construction terminates exactly in the listed cases, with logarithmic depth. *)
Theorem C05_terminates_log : forall rows cols bm bn nleaf f,
  1 <= nleaf -> 1 <= bm -> 1 <= bn ->
  (2 <= bm \/ ir_n rows <= nleaf) -> (2 <= bn \/ ir_n cols <= nleaf) ->
  Z.max 1 (Z.max (ir_n rows) (ir_n cols)) <= 2 ^ Z.of_nat f ->
  exists t, cluster_tree (S (S f)) rows cols bm bn nleaf = Ok t.
Proof. exact cluster_tree_terminates. Qed.
Print Assumptions C05_terminates_log.

Theorem C05_terminates_leaf0 : forall rows cols bm bn,
  exists t, cluster_tree 2 rows cols bm bn 0 = Ok t.
Proof. exact cluster_tree_terminates_leaf0. Qed.
Print Assumptions C05_terminates_leaf0.

Theorem C05_terminates_iff : forall rows cols bm bn nleaf,
  1 <= nleaf -> 1 <= bm -> 1 <= bn ->
  ((exists f t, cluster_tree f rows cols bm bn nleaf = Ok t) <->
   (2 <= bm \/ ir_n rows <= nleaf) /\ (2 <= bn \/ ir_n cols <= nleaf)).
Proof. exact cluster_tree_terminates_iff. Qed.
Print Assumptions C05_terminates_iff.

Example C05_ex : (exists t, cluster_tree 6 (IR 0 11) (IR 3 9) 2 3 1 = Ok t) /\
  cluster_tree 6 (IR 0 11) (IR 3 9) 1 2 3 = NoFuel.
Proof. split; [eexists|]; vm_compute; reflexivity. Qed.
