(** Vocabulary for statements about admissibility. *)
From Coq Require Import List ZArith QArith Lia Bool Permutation.
From Verif Require Import Prelude IndexRange ClusterTree Admissible.
Import ListNotations.
Local Open Scope Z_scope.

(** The block of the transposed matrix. *)
Definition transpose_node (nd : cnode) : cnode :=
  CN (cn_cols nd) (cn_rows nd) (cn_bn nd) (cn_bm nd) (cn_nleaf nd) (cn_level nd)
     (cn_jrel nd) (cn_irel nd) (cn_jabs nd) (cn_iabs nd).

(** The points with indices in [r], one coordinate direction; the empty list if
    the range does not fit. *)
Definition points_in (r : irange) (v : list Q) : list Q :=
  firstn (Z.to_nat (ir_n r)) (skipn (Z.to_nat (ir_start r)) v).

(** [r] is a non-empty range of indices of a vector of length [len]. *)
Definition range_fits (r : irange) (len : nat) : Prop :=
  0 <= ir_start r /\ 0 < ir_n r /\ ir_start r + ir_n r <= Z.of_nat len.

(** Two point sets that agree up to the order of the points of range [r],
    coordinate by coordinate. *)
Definition same_points (r : irange) (p p' : list (list Q)) : Prop :=
  Forall2 (fun v v' => length v = length v' /\ Permutation (points_in r v) (points_in r v')) p p'.

(** Translate all points by the vector [t]. *)
Definition translate (t : list Q) (p : list (list Q)) : list (list Q) :=
  map (fun tv => map (fun x => (x + fst tv)%Q) (snd tv)) (combine t p).

(** Some coordinate direction separates the points of the two ranges by more
    than 1 (each box is enlarged by 0.5 on each side). *)
Definition separated (params : list (list Q)) (r c : irange) : Prop :=
  exists v, In v params /\
    ((forall x y, In x (points_in r v) -> In y (points_in c v) -> (x + 1 < y)%Q) \/
     (forall x y, In x (points_in r v) -> In y (points_in c v) -> (y + 1 < x)%Q)).
