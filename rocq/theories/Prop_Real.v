(** Properties C40, C47, C51: functions computed with real numbers. *)
From Coq Require Import List Arith ZArith Lia Bool Reals Lra.
From Verif Require Import Prelude Ring MatFun Matrix MatOps MatSpec MatOpsProofs SvdRank L2Error L2Real Kernels.
Import ListNotations.
Local Open Scope nat_scope.

(** ** C40 *)

Theorem C40_rank_range : forall (S : dense Rring) (eps : R), 0 < Nat.min (d_r S) (d_c S) ->
  1 <= svd_rank S eps <= Nat.min (d_r S) (d_c S).
Proof. exact svd_rank_range. Qed.
Print Assumptions C40_rank_range.

(** tail_sq S n r is the sum of the squares of the values r, ..., n-1. *)
Theorem C40_accuracy : forall (S : dense Rring) (eps : R), singular S -> (0 <= eps)%R ->
  let n := Nat.min (d_r S) (d_c S) in
  (sqrt (tail_sq S n (svd_rank S eps)) <= eps * sqrt (sumsq (R := Rring) (d_r S) (d_c S) (d_e S)))%R.
Proof. exact svd_rank_accuracy. Qed.
Print Assumptions C40_accuracy.

Theorem C40_not_minimal_refuted : exists (S : dense Rring) (eps : R), singular S /\ (0 < eps)%R /\
  exists r, 1 <= r < svd_rank S eps /\
    (sqrt (tail_sq S (Nat.min (d_r S) (d_c S)) r) < eps * sqrt (sumsq (R := Rring) (d_r S) (d_c S) (d_e S)))%R.
Proof. exact not_minimal. Qed.
Print Assumptions C40_not_minimal_refuted.

Example rank_example : svd_rank diag2 (1 / 4) = 2 /\ singular diag2.
Proof. split; [exact diag2_rank|exact diag2_singular]. Qed.

(** ** C47 *)

(** A block filled at its offsets is the window of the matrix filled as a whole. *)
Theorem C47_window : forall k (x : list (list R)) rows cols rs cs F r c dr dc, positional k = true ->
  kernel_fill k x rows cols rs cs = Ok F -> dr + r <= rows -> dc + c <= cols ->
  exists B, kernel_fill k x r c (rs + dr) (cs + dc) = Ok B /\ d_r B = r /\ d_c B = c /\
    forall i j, i < r -> j < c -> d_e B i j = d_e F (dr + i) (dc + j).
Proof. exact fill_window. Qed.
Print Assumptions C47_window.

(** Filling succeeds if there are enough points. *)
Theorem C47_succeeds : forall k (x : list (list R)) r c rs cs n, (forall l, In l x -> n <= length l) ->
  rs + r <= n -> cs + c <= n -> (k = KCauchy2d -> 2 <= length x) -> exists D, kernel_fill k x r c rs cs = Ok D.
Proof. exact fill_succeeds. Qed.
Print Assumptions C47_succeeds.

(** The block mirrored at the diagonal is the transpose. *)
Theorem C47_symmetric : forall k (x : list (list R)) r c rs cs D, symmetric_kernel k = true ->
  kernel_fill k x r c rs cs = Ok D ->
  exists E, kernel_fill k x c r cs rs = Ok E /\ d_r E = c /\ d_c E = r /\
    forall i j, i < r -> j < c -> d_e E j i = d_e D i j.
Proof. exact fill_sym. Qed.
Print Assumptions C47_symmetric.

(** Laplace and Helmholtz never divide by zero; their entries lie in (0,1000]. *)
Theorem C47_bounds : forall k (x : list (list R)) c rs cs i j v, k = KLaplace \/ k = KHelmholtz ->
  entry k x c rs cs i j = Ok v -> (0 < v <= 1000)%R.
Proof. exact entry_bounds. Qed.
Print Assumptions C47_bounds.

(** arange numbers the entries of every block from 0. *)
Theorem C47_arange_refuted : exists F B, kernel_fill KArange [] 2 2 0 0 = Ok F /\ kernel_fill KArange [] 1 1 1 1 = Ok B /\
  d_e B 0 0 <> d_e F 1 1.
Proof. exact arange_offsets. Qed.
Print Assumptions C47_arange_refuted.

(** The random kernels restart their generator: blocks of the same size are equal. *)
Theorem C47_random_refuted : forall st (x : list (list R)) r c rs cs rs' cs',
  kernel_fill (KRandom st) x r c rs cs = kernel_fill (KRandom st) x r c rs' cs'.
Proof. exact random_repeats. Qed.
Print Assumptions C47_random_refuted.

Example kernel_example : kernel_fill KLaplace [[0; 3]; [0; 4]]%R 1 1 0 1 =
  Ok (@Dn Rring 1 1 (fun i j => get_ok 0%R (entry KLaplace [[0; 3]; [0; 4]]%R 1 0 1 i j))) /\
  entry KLaplace [[0; 3]; [0; 4]]%R 1 0 1 0 0 = Ok (1 / (5 + 1 / 1000))%R.
Proof.
  split; [reflexivity|]. cbn. do 3 f_equal. replace (0 + (0 - 3) * (0 - 3) + (0 - 4) * (0 - 4))%R with (5 * 5)%R by lra.
  rewrite sqrt_square by lra. reflexivity.
Qed.

(** ** C51 *)

(** The relative Frobenius error of the represented matrices. *)
Theorem C51_value : forall fuel (A B : matrix Rring) e, wf A -> wf B -> l2_error fuel A B = Ok e ->
  e = sqrt (sumsq (R := Rring) (nrows A) (ncols A) (fun i j => (ent A i j - ent B i j)%R) /
            (sumsq (R := Rring) (nrows A) (ncols A) (ent A) + / 2 ^ 52))%R.
Proof. exact l2_value. Qed.
Print Assumptions C51_value.

Theorem C51_zero : forall fuel (A B : matrix Rring) e, wf A -> wf B -> l2_error fuel A B = Ok e ->
  (e = 0%R <-> forall i j, i < nrows A -> j < ncols A -> ent A i j = ent B i j).
Proof. exact l2_zero. Qed.
Print Assumptions C51_zero.

Theorem C51_structure : forall fuel fuel' (A B A' B' : matrix Rring) e e', wf A -> wf B -> wf A' -> wf B' ->
  nrows A' = nrows A -> ncols A' = ncols A ->
  (forall i j, i < nrows A -> j < ncols A -> ent A' i j = ent A i j) ->
  (forall i j, i < nrows A -> j < ncols A -> ent B' i j = ent B i j) ->
  l2_error fuel A B = Ok e -> l2_error fuel' A' B' = Ok e' -> e' = e.
Proof. exact l2_structure. Qed.
Print Assumptions C51_structure.

(** It succeeds if the trees have the same blocks down to leaves, or are split evenly
    where the other is a leaf. *)
Theorem C51_succeeds : forall (A B : matrix Rring), comparable A B -> wf A -> wf B -> no_empty A -> no_empty B ->
  nrows A = nrows B -> ncols A = ncols B ->
  exists F, forall f, F <= f -> exists e, l2_error f A B = Ok e.
Proof. exact l2_ok. Qed.
Print Assumptions C51_succeeds.

Definition rrows (l : list (list R)) : matrix Rring :=
  MD (@Dn Rring (length l) (length (hd [] l)) (fun i j => nth j (nth i l []) 0%R)).
(** Blocks of heights 1 and 2 against the same matrix in one piece: the latter is
    split into heights 2 and 1. *)
Definition uneven : matrix Rring := @of_blocks Rring [[rrows [[1%R]]]; [rrows [[2%R]; [3%R]]]].
Definition whole : matrix Rring := rrows [[1%R]; [2%R]; [3%R]].
Theorem C51_uneven_refuted : exists A B : matrix Rring, wf A /\ wf B /\ nrows A = nrows B /\ ncols A = ncols B /\
  (forall i j, i < nrows A -> j < ncols A -> ent A i j = ent B i j) /\
  forall fuel, 3 <= fuel -> l2_error fuel A B = AssertFail.
Proof.
  exists uneven, whole. split. { apply wfb_wf. reflexivity. } split; [apply wfb_wf; reflexivity|]. split; [reflexivity|]. split; [reflexivity|]. split.
  - intros i j Hi Hj. change (nrows uneven) with 3 in Hi. change (ncols uneven) with 1 in Hj.
    destruct i as [|[|[|i]]]; [| | |lia]; (destruct j as [|j]; [|lia]); reflexivity.
  - intros [|[|[|fuel]]] H; [lia|lia|lia|]. reflexivity.
Qed.
Print Assumptions C51_uneven_refuted.

Example l2_example : exists e, l2_error 3 (@of_blocks Rring [[rrows [[1%R]; [2%R]]]; [rrows [[3%R]]]]) whole = Ok e.
Proof. eexists. reflexivity. Qed.
