(** Properties C06 and C07: admissibility. *)
From Coq Require Import List Arith ZArith QArith Lia Bool Permutation.
From Verif Require Import Prelude IndexRange ClusterTree Admissible AdmissibleSpec AdmissibleProofs.
Import ListNotations.
Local Open Scope Z_scope.

(** C06: the decision, exactly. *)
Theorem C06_position_iff : forall params admis nd,
  is_admissible PositionBased params admis nd = Ok true <->
  1 < ir_n (cn_rows nd) /\ 1 < ir_n (cn_cols nd) /\
  Qtrunc admis < Z.abs (cn_iabs nd - cn_jabs nd).
Proof. exact is_admissible_position. Qed.
Print Assumptions C06_position_iff.

Theorem C06_position_total : forall params admis nd,
  exists b, is_admissible PositionBased params admis nd = Ok b.
Proof. exact position_total. Qed.
Print Assumptions C06_position_total.

Theorem C06_diagonal_never : forall params admis nd,
  (0 <= admis)%Q -> cn_iabs nd = cn_jabs nd ->
  is_admissible PositionBased params admis nd = Ok false.
Proof. exact position_diagonal. Qed.
Print Assumptions C06_diagonal_never.

Theorem C06_symmetric : forall params params' admis nd,
  is_admissible PositionBased params admis (transpose_node nd) =
  is_admissible PositionBased params' admis nd.
Proof. exact position_symmetric. Qed.
Print Assumptions C06_symmetric.

Theorem C06_monotone : forall params a b nd,
  (a <= b)%Q -> is_admissible PositionBased params b nd = Ok true ->
  is_admissible PositionBased params a nd = Ok true.
Proof. exact position_monotone. Qed.
Print Assumptions C06_monotone.

Example C06_ex :
  is_admissible PositionBased [] (3#2) (CN (IR 0 4) (IR 8 4) 2 2 4 2 0 0 0 2) = Ok true /\
  is_admissible PositionBased [] (2#1) (CN (IR 0 4) (IR 8 4) 2 2 4 2 0 0 0 2) = Ok false.
Proof. split; vm_compute; reflexivity. Qed.

(** C07: geometry based admissibility. *)
Theorem C07_defined : forall params admis nd,
  (forall v, In v params -> range_fits (cn_rows nd) (length v) /\ range_fits (cn_cols nd) (length v)) ->
  exists b, is_admissible GeometryBased params admis nd = Ok b.
Proof. exact geometry_defined. Qed.
Print Assumptions C07_defined.

Theorem C07_symmetric : forall params admis nd,
  is_admissible GeometryBased params admis (transpose_node nd) =
  is_admissible GeometryBased params admis nd.
Proof. exact geometry_symmetric. Qed.
Print Assumptions C07_symmetric.

Theorem C07_reorder : forall p p' admis nd,
  same_points (cn_rows nd) p p' -> same_points (cn_cols nd) p p' ->
  is_admissible GeometryBased p admis nd = is_admissible GeometryBased p' admis nd.
Proof. exact geometry_reorder. Qed.
Print Assumptions C07_reorder.

Theorem C07_translate : forall p t admis nd,
  length t = length p ->
  is_admissible GeometryBased (translate t p) admis nd = is_admissible GeometryBased p admis nd.
Proof. exact geometry_translate. Qed.
Print Assumptions C07_translate.

Theorem C07_monotone : forall params a b nd,
  (0 <= a)%Q -> (a <= b)%Q ->
  is_admissible GeometryBased params b nd = Ok true ->
  is_admissible GeometryBased params a nd = Ok true.
Proof. exact geometry_monotone. Qed.
Print Assumptions C07_monotone.

Theorem C07_diagonal_never : forall params admis nd,
  cn_rows nd = cn_cols nd ->
  is_admissible GeometryBased params admis nd <> Ok true.
Proof. exact geometry_diagonal. Qed.
Print Assumptions C07_diagonal_never.

(** C07: if the squared parameter is at least the number of directions, admissible
    clusters are separated along some direction. *)
Theorem C07_separated : forall params admis nd,
  (forall v, In v params -> range_fits (cn_rows nd) (length v) /\ range_fits (cn_cols nd) (length v)) ->
  (inject_Z (Z.of_nat (length params)) <= admis * admis)%Q ->
  is_admissible GeometryBased params admis nd = Ok true ->
  separated params (cn_rows nd) (cn_cols nd).
Proof. exact geometry_separated. Qed.
Print Assumptions C07_separated.

Definition C07_pts : list (list Q) := [[0; 1; 20; 21]; [5; 4; 40; 41]]%Q.
Definition C07_pts' : list (list Q) := [[1; 0; 20; 21]; [4; 5; 41; 40]]%Q.
Example C07_ex :
  is_admissible GeometryBased C07_pts 2 (CN (IR 0 2) (IR 2 2) 2 2 2 1 0 1 0 1) = Ok true /\
  is_admissible GeometryBased C07_pts 30 (CN (IR 0 2) (IR 2 2) 2 2 2 1 0 1 0 1) = Ok false /\
  same_points (IR 0 2) C07_pts C07_pts' /\ same_points (IR 2 2) C07_pts C07_pts'.
Proof.
  split; [vm_compute; reflexivity|]. split; [vm_compute; reflexivity|].
  split; repeat (apply Forall2_cons; [split; [reflexivity|]|]); try apply Forall2_nil;
    unfold points_in; simpl; repeat constructor.
Qed.
