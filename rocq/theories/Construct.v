(** Construction of Hierarchical matrices: src/classes/hierarchical.cpp:46-146 with
    src/classes/initialization_helpers/matrix_initializer.cpp,
    matrix_initializer_block.cpp and matrix_initializer_kernel.cpp. *)
From Coq Require Import List Arith ZArith Lia Bool.
From Verif Require Import Prelude Ring MatFun Matrix MatOps IndexRange ClusterTree Triangular.
Import ListNotations.
Local Open Scope nat_scope.

Section Construct.
Context {R : cring}.
Notation dense := (dense R).
Notation lowrank := (lowrank R).
Notation matrix := (matrix R).

(** MatrixInitializer: the admissibility condition (is_admissible), the entries of a
    block of matrix rows and columns (fill_dense_representation on a Dense of that
    size) and the LowRank constructor used for it (by rank or by accuracy). *)
Record initializer := Init {
  in_adm : cnode -> outcome bool;
  in_fill : irange -> irange -> outcome dense;
  in_comp : dense -> outcome lowrank
}.

Variable ini : initializer.

(** matrix_initializer.cpp:28-34.  Dense(rows.n, cols.n) needs sizes that are not negative. *)
Definition get_dense (nd : cnode) : outcome dense :=
  if ((0 <=? ir_n (cn_rows nd)) && (0 <=? ir_n (cn_cols nd)))%Z
  then in_fill ini (cn_rows nd) (cn_cols nd) else UB.

(** matrix_initializer.cpp:36-42. *)
Definition get_compressed (nd : cnode) : outcome lowrank :=
  let* d := get_dense nd in in_comp ini d.

(** The block of one child, hierarchical.cpp:55-63. *)
Definition hblock (rec : ctree -> outcome matrix) (c : ctree) : outcome matrix :=
  let nd := ct_node c in
  let* a := in_adm ini nd in
  if (a : bool) then let* l := get_compressed nd in Ok (ML l)
  else if is_leaf nd then let* d := get_dense nd in Ok (MD d)
  else rec c.

(** hierarchical.cpp:49-65.  The blocks are empty proxies before the assignment;
    ME 0 0 stands for them. *)
Fixpoint hier (t : ctree) : outcome matrix :=
  match t with
  | CT nd cs =>
    let* b := (fix go (cs : list ctree) (b : nat -> nat -> matrix) : outcome (nat -> nat -> matrix) :=
                 match cs with
                 | [] => Ok b
                 | c :: cs' =>
                     let i := cn_irel (ct_node c) in
                     let j := cn_jrel (ct_node c) in
                     let* x := hblock hier c in
                     assert! ((0 <=? i) && (i <? cn_bm nd) && (0 <=? j) && (j <? cn_bn nd))%Z in
                     go cs' (bupd b (Z.to_nat i) (Z.to_nat j) x)
                 end) cs (fun _ _ => ME 0 0) in
    Ok (MH (Z.to_nat (cn_bm nd)) (Z.to_nat (cn_bn nd)) b)
  end.

(** hierarchical.cpp:67-88 (and 90-109): the tree over the given ranges. *)
Definition hierarchical (fuel : nat) (rows cols : irange) (bm bn nleaf : Z) : outcome matrix :=
  let* t := cluster_tree fuel rows cols bm bn nleaf in hier t.
End Construct.

Arguments initializer R : clear implicits.
Arguments Init {R}.

(** MatrixInitializerBlock, matrix_initializer_block.cpp:15-30: entries of the given
    matrix at absolute positions; Dense::operator() asserts the position. *)
Definition block_fill {R : cring} (A : dense R) (rows cols : irange) : outcome (dense R) :=
  let r := Z.to_nat (ir_n rows) in
  let c := Z.to_nat (ir_n cols) in
  assert! ((r =? 0) || (c =? 0) ||
     ((0 <=? ir_start rows) && (ir_start rows + ir_n rows <=? Z.of_nat (d_r A)) &&
      (0 <=? ir_start cols) && (ir_start cols + ir_n cols <=? Z.of_nat (d_c A)))%Z) in
  Ok (Dn r c (fun i j => d_e A (Z.to_nat (ir_start rows) + i) (Z.to_nat (ir_start cols) + j))).

(** hierarchical.cpp:112-128 (and 130-146). *)
Definition hierarchical_of_dense {R : cring} (fuel : nat) (A : dense R) (adm : cnode -> outcome bool)
  (comp : dense R -> outcome (lowrank R)) (bm bn nleaf row_start col_start : Z) : outcome (matrix R) :=
  hierarchical (Init adm (block_fill A) comp) fuel
    (IR row_start (Z.of_nat (d_r A))) (IR col_start (Z.of_nat (d_c A))) bm bn nleaf.
