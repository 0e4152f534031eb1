(** Model of FRANK::ClusterTree
    (src/classes/initialization_helpers/cluster_tree.cpp,
     include/FRANK/classes/initialization_helpers/cluster_tree.h). *)
From Coq Require Import List Arith ZArith Lia Bool.
From Verif Require Import Prelude IndexRange.
Import ListNotations.
Local Open Scope Z_scope.

(** cluster_tree.h:37-72, the data members.  [parent] is not stored: the two
    functions using it take the parent as explicit argument. *)
Record cnode := CN {
  cn_rows : irange;
  cn_cols : irange;
  cn_bm : Z;            (* block_dim[0] *)
  cn_bn : Z;            (* block_dim[1] *)
  cn_nleaf : Z;
  cn_level : Z;
  cn_irel : Z; cn_jrel : Z;   (* rel_pos *)
  cn_iabs : Z; cn_jabs : Z    (* abs_pos *)
}.

(** A node with its children in the order of the [children] vector. *)
Inductive ctree := CT (nd : cnode) (children : list ctree).

Definition ct_node (t : ctree) : cnode := match t with CT nd _ => nd end.
Definition ct_children (t : ctree) : list ctree := match t with CT _ cs => cs end.

(** cluster_tree.cpp:75-82. *)
Definition is_leaf (nd : cnode) : bool :=
  ((ir_n (cn_rows nd) <=? cn_nleaf nd) && (ir_n (cn_cols nd) <=? cn_nleaf nd))
  || (cn_nleaf nd =? 0).

(** cluster_tree.cpp:71-73. *)
Definition dist_to_diag (nd : cnode) : Z := Z.abs (cn_iabs nd - cn_jabs nd).

(** Sequencing of a vector of constructions. *)
Fixpoint mapM {A B} (f : A -> outcome B) (l : list A) : outcome (list B) :=
  match l with
  | [] => Ok []
  | a :: l' => let* b := f a in let* bs := mapM f l' in Ok (b :: bs)
  end.

(** Index pairs visited by the two nested loops of cluster_tree.cpp:30-42. *)
Definition block_positions (bm bn : Z) : list (nat * nat) :=
  flat_map (fun i => map (fun j => (i, j)) (seq 0 (Z.to_nat bn))) (seq 0 (Z.to_nat bm)).

(** Arguments of the recursive construction, cluster_tree.cpp:31-41. *)
Definition child_node (nd : cnode) (ij : nat * nat) : cnode :=
  let i := fst ij in
  let j := snd ij in
  CN (nth i (ir_split (cn_rows nd) (cn_bm nd)) (IR 0 0))
     (nth j (ir_split (cn_cols nd) (cn_bn nd)) (IR 0 0))
     (cn_bm nd) (cn_bn nd) (cn_nleaf nd) (cn_level nd + 1)
     (Z.of_nat i) (Z.of_nat j)
     (cn_iabs nd * cn_bm nd + Z.of_nat i) (cn_jabs nd * cn_bn nd + Z.of_nat j).

(** cluster_tree.cpp:14-45.  [root] is [parent == nullptr].  [fuel] bounds the
    recursion depth. *)
Fixpoint ct_build (fuel : nat) (nd : cnode) (root : bool) : outcome ctree :=
  match fuel with
  | O => NoFuel
  | S f =>
    if root || negb (is_leaf nd) then
      let* cs := mapM (fun ij => ct_build f (child_node nd ij) false)
                      (block_positions (cn_bm nd) (cn_bn nd)) in
      Ok (CT nd cs)
    else Ok (CT nd [])
  end.

(** The root node as constructed by hierarchical.cpp:83-85 (default arguments of
    cluster_tree.h:131-140). *)
Definition root_node (rows cols : irange) (bm bn nleaf : Z) : cnode :=
  CN rows cols bm bn nleaf 0 0 0 0 0.

Definition cluster_tree (fuel : nat) (rows cols : irange) (bm bn nleaf : Z) : outcome ctree :=
  ct_build fuel (root_node rows cols bm bn nleaf) true.

(** cluster_tree.cpp:63-69; access past the end of the vector is UB. *)
Definition ct_at (t : ctree) (i j : Z) : outcome ctree :=
  let idx := i * cn_bn (ct_node t) + j in
  if idx <? 0 then UB else
  match nth_error (ct_children t) (Z.to_nat idx) with
  | Some c => Ok c
  | None => UB
  end.

(** cluster_tree.cpp:84-91.  The null parent of a root is dereferenced. *)
Definition get_block_row (parent : option ctree) (t : ctree) : outcome (list ctree) :=
  match parent with
  | None => UB
  | Some p => mapM (fun j => ct_at p (cn_irel (ct_node t)) (Z.of_nat j))
                   (seq 0 (Z.to_nat (cn_bn (ct_node p))))
  end.

(** cluster_tree.cpp:93-100. *)
Definition get_block_col (parent : option ctree) (t : ctree) : outcome (list ctree) :=
  match parent with
  | None => UB
  | Some p => mapM (fun i => ct_at p (Z.of_nat i) (cn_jrel (ct_node t)))
                   (seq 0 (Z.to_nat (cn_bm (ct_node p))))
  end.
