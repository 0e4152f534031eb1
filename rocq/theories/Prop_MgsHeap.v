(** Property C38: modified Gram-Schmidt on Dense. *)
From Coq Require Import List Arith ZArith QArith Qcanon Reals Lia Bool.
From Verif Require Import Prelude Ring MatFun Matrix MatOps MatOpsProofs Heap HeapProofs HeapHistory SvdRank MgsHeap MgsHeapProofs MgsReal
  Prop_Heap Prop_Triangular Prop_Qr.
Import HeapProofs.
Import ListNotations.
Local Open Scope nat_scope.

(** ** C38 *)

(** Contiguous A: always completes, and only elements of A and R change. *)
Theorem C38_contiguous_succeeds : forall (R : cring) (root inv : R -> R) (A Q Rm : hdense) (h : heap R),
  packed A -> apart A Rm -> good h A -> good h Rm ->
  h_r Q = h_r A -> h_c Q = h_c A -> h_r Rm = h_c A -> h_c Rm = h_c A ->
  exists h', mgs_dense root inv h A Q Rm = Ok (h', A) /\
    forall b k, ~ cell A b k -> ~ cell Rm b k -> val h' b k = val h b k.
Proof.
  exact (fun R root inv A Q Rm h HP HA GA GR Q1 Q2 HR HC =>
    match mgs_dense_spec root inv A HP Rm HR HC HA h Q GA GR Q1 Q2 with
    | ex_intro _ h' (conj E (conj F _)) => ex_intro _ h' (conj E (proj2 F)) end).
Qed.
Print Assumptions C38_contiguous_succeeds.

(** Contiguous A of full column rank: Q*R = A, the columns of Q are orthonormal and R is
    upper triangular. *)
Theorem C38_contiguous : forall (A Q Rm : hdense) (h h' : heap Rring) Q', packed A -> apart A Rm -> good h A -> good h Rm ->
  h_r Rm = h_c A -> h_c Rm = h_c A ->
  feq (h_c A) (h_c A) (hent h Rm) mzero ->
  mgs_dense (R := Rring) sqrt Rinv h A Q Rm = Ok (h', Q') ->
  (forall l, l < h_c A -> hent h' Rm l l <> 0%R) ->
  feq (h_r A) (h_c A) (mmul (h_c A) (hent h' Q') (hent h' Rm)) (hent h A) /\
  feq (h_c A) (h_c A) (mmul (h_r A) (mtr (hent h' Q')) (hent h' Q')) mid /\
  (forall i j, i < h_c A -> j < i -> hent h' Rm i j = 0%R) /\
  (forall b k, ~ cell A b k -> ~ cell Rm b k -> val h' b k = val h b k).
Proof. exact mgs_real. Qed.
Print Assumptions C38_contiguous.

(** A view narrower than its parent, with at least two rows: the last entry is not
    touched. *)
Theorem C38_view_last_entry : forall (R : cring) (root inv : R -> R) (A Rm : hdense) (h : heap R) (Q : hdense) h' Q',
  good h A -> good h Rm -> apart A Rm -> h_r Q = h_r A -> h_c Q = h_c A -> h_r Rm = h_c A -> h_c Rm = h_c A ->
  2 <= h_r A -> 1 <= h_c A -> h_c A < h_stride A ->
  mgs_dense root inv h A Q Rm = Ok (h', Q') ->
  hent h' Q' (h_r A - 1)%nat (h_c A - 1)%nat = hent h A (h_r A - 1)%nat (h_c A - 1)%nat.
Proof. exact (fun R => @mgs_dense_view R). Qed.
Print Assumptions C38_view_last_entry.

(** So Q is never orthonormal if that entry is larger than one. *)
Theorem C38_views_refuted : forall (A Q Rm : hdense) (h h' : heap Rring) Q', apart A Rm -> good h A -> good h Rm ->
  h_r Q = h_r A -> h_c Q = h_c A -> h_r Rm = h_c A -> h_c Rm = h_c A ->
  2 <= h_r A -> 1 <= h_c A -> h_c A < h_stride A ->
  (1 < Rabs (hent h A (h_r A - 1)%nat (h_c A - 1)%nat))%R ->
  mgs_dense (R := Rring) sqrt Rinv h A Q Rm = Ok (h', Q') ->
  ~ feq (h_c A) (h_c A) (mmul (h_r A) (mtr (hent h' Q')) (hent h' Q')) mid.
Proof. exact mgs_real_view. Qed.
Print Assumptions C38_views_refuted.

(** Run on objects k (A), l (Q) and m (R) after a history, and read some objects. *)
Definition qreads (h : heap Qcring) (d : hdense) : outcome (list (list Q)) :=
  all_ok (map (fun i => all_ok (map (fun j => let* x := h_get h d i j in Ok (this x)) (seq 0 (h_c d)))) (seq 0 (h_r d))).
Definition mgs_after (cs : list (cmd Qcring)) (k l m n : nat) : outcome (list (list Q) * list (list Q) * list (list Q)) :=
  let* s := run cs init in
  let* A := obj s k in
  let* Q := obj s l in
  let* Rm := obj s m in
  let* N := obj s n in
  let* (h, Q') := mgs_dense (R := Qcring) qcroot qinv (s_heap s) A Q Rm in
  let* q := qreads h Q' in
  let* r := qreads h Rm in
  let* x := qreads h N in
  Ok (q, r, x).
Definition qset k i j (z : Z) : cmd Qcring := @Cset Qcring k i j (qc z).

(** A = [[3,7],[4,1]] = Q*R; the last list is a 1x1 matrix that is not involved. *)
Example C38_ex : mgs_after [Cnew 2 2; Cnew 2 2; Cnew 2 2; Cnew 1 1; qset 0 0 0 3; qset 0 0 1 7; qset 0 1 0 4; qset 0 1 1 1; qset 3 0 0 9] 0 1 2 3 =
  Ok ([[3 # 5; 4 # 5]; [4 # 5; -3 # 5]], [[5; 5]; [0; 5]], [[9]])%Q.
Proof. vm_compute. reflexivity. Qed.

(** The first column of [[3,4],[1,0]] as a non-copying block: (3,1) would be factored as
    sqrt 10 times a unit vector.  Q is (3/5,1), R is 5, and the second column has become
    (4/5,0). *)
Example C38_view_ex :
  mgs_after [Cnew 2 2; qset 0 0 0 3; qset 0 0 1 4; qset 0 1 0 1; Csplit 0 [(0, 2)] [(0, 1); (1, 1)] false; Cnew 2 1; Cnew 1 1] 1 3 4 2 =
  Ok ([[3 # 5]; [1]], [[5]], [[4 # 5]; [0]])%Q.
Proof. vm_compute. reflexivity. Qed.
