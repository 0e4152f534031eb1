(** Model of MatrixInitializer::is_admissible
    (src/classes/initialization_helpers/matrix_initializer.cpp). *)
From Coq Require Import List Arith ZArith QArith Qabs Lia Bool.
From Verif Require Import Prelude IndexRange ClusterTree.
Import ListNotations.
Local Open Scope Z_scope.

(** AdmisType, include/FRANK/classes/initialization_helpers/matrix_initializer.h. *)
Inductive admis_type := PositionBased | GeometryBased.

(** Conversion [(int64_t)admis] (matrix_initializer.cpp:57) truncates towards 0.
    Doubles are modelled by rationals with exact arithmetic. *)
Definition Qtrunc (q : Q) : Z := Z.quot (Qnum q) (Zpos (Qden q)).

(** matrix_initializer.cpp:57. *)
Definition position_admissible (admis : Q) (nd : cnode) : bool :=
  dist_to_diag nd >? Qtrunc admis.

(** matrix_initializer.cpp:47, sub-vector [begin+start, begin+start+n). *)
Definition coords_slice (r : irange) (v : list Q) : outcome (list Q) :=
  if (0 <=? ir_start r) && (0 <=? ir_n r) && (ir_start r + ir_n r <=? Z.of_nat (length v))
  then Ok (firstn (Z.to_nat (ir_n r)) (skipn (Z.to_nat (ir_start r)) v))
  else UB.

(** matrix_initializer.cpp:44-49. *)
Definition get_coords_range (params : list (list Q)) (r : irange) : outcome (list (list Q)) :=
  mapM (coords_slice r) params.

Definition Qlt_b (x y : Q) : bool := negb (Qle_bool y x).

(** [*std::min_element], [*std::max_element]; dereferencing the end iterator of
    an empty range is UB. *)
Definition min_element (l : list Q) : outcome Q :=
  match l with
  | [] => UB
  | a :: l' => Ok (fold_left (fun m x => if Qlt_b x m then x else m) l' a)
  end.
Definition max_element (l : list Q) : outcome Q :=
  match l with
  | [] => UB
  | a :: l' => Ok (fold_left (fun m x => if Qlt_b m x then x else m) l' a)
  end.

(** [std::max(a, b)] on doubles: [(a < b) ? b : a]. *)
Definition std_max (a b : Q) : Q := if Qlt_b a b then b else a.

Record bbox := BB { bb_min : Q; bb_max : Q; bb_center : Q }.

(** matrix_initializer.cpp:64-74, one coordinate direction of one cluster. *)
Definition bounding (coords : list Q) : outcome bbox :=
  let offset := (5 # 10)%Q in
  let* mn := min_element coords in
  let* mx := max_element coords in
  let lo := (- offset + mn)%Q in
  let hi := (offset + mx)%Q in
  Ok (BB lo hi (lo + (hi - lo) / 2)%Q).

(** matrix_initializer.cpp:76-85, accumulation over the directions. *)
Definition geo_accumulate (bs : list (bbox * bbox)) : Q * Q * Q :=
  fold_left (fun acc b =>
    let '(lr, lc, dist) := acc in
    let '(br, bc) := b in
    let d := Qabs (bb_center br - bb_center bc)%Q in
    (std_max lr (bb_max br - bb_min br)%Q,
     std_max lc (bb_max bc - bb_min bc)%Q,
     (dist + d * d)%Q)) bs (0%Q, 0%Q, 0%Q).

(** matrix_initializer.cpp:60-87. *)
Definition geometry_admissible (params : list (list Q)) (admis : Q) (nd : cnode) : outcome bool :=
  let* rc := get_coords_range params (cn_rows nd) in
  let* cc := get_coords_range params (cn_cols nd) in
  let* br := mapM bounding rc in
  let* bc := mapM bounding cc in
  let '(lr, lc, dist) := geo_accumulate (combine br bc) in
  let diam := std_max lr lc in
  Ok (Qlt_b (admis * admis * diam * diam)%Q dist).

(** matrix_initializer.cpp:51-91. *)
Definition is_admissible (ty : admis_type) (params : list (list Q)) (admis : Q) (nd : cnode)
  : outcome bool :=
  let not_vector := (ir_n (cn_rows nd) >? 1) && (ir_n (cn_cols nd) >? 1) in
  match ty with
  | PositionBased => Ok (not_vector && position_admissible admis nd)
  | GeometryBased =>
      let* g := geometry_admissible params admis nd in Ok (not_vector && g)
  end.
