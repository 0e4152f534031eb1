(** Property C24: gemm over shared storage writes only C. *)
From Coq Require Import List Arith ZArith QArith Lia Bool.
From Verif Require Import Prelude Osim Ring MatFun Matrix MatOps MatSpec Gemm GemmSpec GemmTheorems Heap HeapProofs HeapViews.
From Verif Require Import Tree TreeProofs TreeSim Proxy HGemm HGemmAdd HGemmTheorems.
Import ListNotations.
Local Open Scope nat_scope.

(** ** C24 *)

(** Whatever A and B are, views into C included: a finished gemm leaves every element of
    every existing array as it was unless it belongs to C, and the new factors of LowRank
    parts of C are in new arrays. *)
Theorem C24_only_C_changes : forall (R : cring) (Or : oracles R) fuel A B C (alpha beta : R) tA tB h h' C',
  nonnull C -> (forall d, tleaf C d -> good h d) -> hgemm Or fuel A B C alpha beta tA tB h = Ok (h', C') ->
  nbufs h <= nbufs h' /\
  (forall b, b < nbufs h -> size h' b = size h b /\ forall k, ~ tcell C b k -> val h' b k = val h b k) /\
  (forall b k, tcell C' b k -> tcell C b k \/ nbufs h <= b).
Proof. exact (fun R => @gemm_frame R). Qed.
Print Assumptions C24_only_C_changes.

(** So any object with no element in common with C keeps its value (A and B themselves,
    other views of the same arrays), and has none in common with C afterwards. *)
Theorem C24_others_keep_their_value : forall (R : cring) (Or : oracles R) fuel A B C (alpha beta : R) tA tB h h' C' T,
  nonnull C -> (forall d, tleaf C d -> good h d) -> hgemm Or fuel A B C alpha beta tA tB h = Ok (h', C') ->
  nonnull T -> (forall d, tleaf T d -> good h d) -> tapart T C ->
  mateq (tread h' T) (tread h T) /\ tapart T C'.
Proof. exact (fun R => @gemm_others R). Qed.
Print Assumptions C24_others_keep_their_value.

(** The gemm that makes its result changes nothing at all. *)
Theorem C24_new_result : forall (R : cring) (Or : oracles R) fuel A B (alpha : R) tA tB h h' C,
  hgemm_new Or fuel A B alpha tA tB h = Ok (h', C) ->
  nbufs h <= nbufs h' /\ (forall b, b < nbufs h -> size h' b = size h b /\ forall k, val h' b k = val h b k) /\
  (forall b k, tcell C b k -> nbufs h <= b).
Proof. exact (fun R => @gemm_new_frame R). Qed.
Print Assumptions C24_new_result.

(** With C sharing no element with A or B (A and B may share elements, and all of them may
    be views of the same array), gemm ends as if the operands were plain values: with the
    same failure, or with the same result in C, whose Dense parts are the same objects. *)
Theorem C24_same_as_on_values : forall (R : cring) (Or : oracles R), or_cong Or ->
  forall fuel A B C (alpha beta : R) tA tB h,
  nonnull A -> nonnull B -> nonnull C -> (forall d, tleaf A d \/ tleaf B d \/ tleaf C d -> good h d) ->
  wf (tread h A) -> wf (tread h B) -> wf (tread h C) -> separate C -> tapart A C -> tapart B C ->
  match hgemm Or fuel A B C alpha beta tA tB h, gemm Or fuel (tread h A) (tread h B) (tread h C) alpha beta tA tB with
  | Ok (h', C'), Ok M => mateq (tread h' C') M /\ separate C' /\ keep C C' /\ forall d, tleaf C' d -> good h' d
  | Abort, Abort | AssertFail, AssertFail | UB, UB | NoFuel, NoFuel => True
  | _, _ => False
  end.
Proof. exact (fun R => @gemm_same R). Qed.
Print Assumptions C24_same_as_on_values.

(** With exact low-rank arithmetic: beta*C + alpha*op(A)*op(B) in C; A and B as before. *)
Theorem C24_product : forall (R : cring) (Or : oracles R), or_cong Or ->
  forall fuel A B C (alpha beta : R) tA tB h h' C', oracles_near exact Or ->
  nonnull A -> nonnull B -> nonnull C -> (forall d, tleaf A d \/ tleaf B d \/ tleaf C d -> good h d) ->
  wf (tread h A) -> wf (tread h B) -> wf (tread h C) -> separate C -> tapart A C -> tapart B C ->
  trans_ok tA tB (tread h A) (tread h B) (tread h C) ->
  hgemm Or fuel A B C alpha beta tA tB h = Ok (h', C') ->
  feq (trows C) (tcols C) (ent (tread h' C'))
    (gemm_value (if tA then trows A else tcols A) (ent (tread h A)) (ent (tread h B)) (ent (tread h C)) alpha beta tA tB) /\
  mateq (tread h' A) (tread h A) /\ mateq (tread h' B) (tread h B).
Proof. exact (fun R => @gemm_product R). Qed.
Print Assumptions C24_product.

(** Such low-rank arithmetic exists. *)
Theorem C24_arithmetic_exists : forall R : cring, or_cong (careful_oracles (R := R)) /\ oracles_near exact (careful_oracles (R := R)).
Proof. exact (fun R => conj careful_cong careful_near). Qed.
Print Assumptions C24_arithmetic_exists.

(** One 4x4 array with the entries 1..16, split into 2x2 views; then
    C11 := 2*C11 + C00*C01 (transposed: C00^T), all in the same array. *)
Definition count (h : heap Zring) (d : hdense) : outcome (heap Zring) :=
  h_loop (ij_all (h_r d) (h_c d)) d (fun _ i j => Ok (Z.of_nat (S (i * 4 + j)) : Zring)) h.
Definition grid_of (T : htree) (i j : nat) : htree := match T with TH _ _ f => f i j | _ => TN end.
Definition quarter (tA : bool) (a b c : nat * nat) : outcome (list (list Z)) :=
  let '(h0, d) := h_new (empty_heap : heap Zring) 4 4 in
  let* h1 := count h0 d in
  let* (h2, T) := tsplit_n (TD d) 2 2 false h1 in
  let blk p := grid_of T (fst p) (snd p) in
  let* (h3, _) := hgemm careful_oracles 5 (blk a) (blk b) (blk c) (1%Z : Zring) (2%Z : Zring) tA false h2 in
  Ok (map (fun x => map (fun y => ent (tread h3 (TD d)) x y) (seq 0 4)) (seq 0 4)).
Example C24_ex :
  quarter false (0, 0) (0, 1) (1, 1) = Ok [[1; 2; 3; 4]; [5; 6; 7; 8]; [9; 10; 22 + 1 * 3 + 2 * 7; 24 + 1 * 4 + 2 * 8]; [13; 14; 30 + 5 * 3 + 6 * 7; 32 + 5 * 4 + 6 * 8]]%Z /\
  quarter true (0, 0) (0, 1) (1, 1) = Ok [[1; 2; 3; 4]; [5; 6; 7; 8]; [9; 10; 22 + 1 * 3 + 5 * 7; 24 + 1 * 4 + 5 * 8]; [13; 14; 30 + 2 * 3 + 6 * 7; 32 + 2 * 4 + 6 * 8]]%Z.
Proof. vm_compute. auto. Qed.

(** Hierarchical operands made of views: row of blocks times column of blocks into a view. *)
Definition panel : outcome (list (list Z)) :=
  let '(h0, d) := h_new (empty_heap : heap Zring) 4 4 in
  let* h1 := count h0 d in
  let* (h2, T) := tsplit_n (TD d) 2 2 false h1 in
  let A := TH 1 2 (fun _ j => grid_of T 0 j) in
  let B := TH 2 1 (fun i _ => grid_of T 0 i) in
  let* (h3, _) := hgemm careful_oracles 9 A B (TH 1 1 (fun _ _ => grid_of T 1 0)) (1%Z : Zring) (0%Z : Zring) false false h2 in
  Ok (map (fun x => map (fun y => ent (tread h3 (TD d)) x y) (seq 0 4)) (seq 0 4)).
Example C24_panel_ex : panel = Ok [[1; 2; 3; 4]; [5; 6; 7; 8];
  [1 * 1 + 2 * 5 + 3 * 3 + 4 * 7; 1 * 2 + 2 * 6 + 3 * 4 + 4 * 8; 11; 12]; [5 * 1 + 6 * 5 + 7 * 3 + 8 * 7; 5 * 2 + 6 * 6 + 7 * 4 + 8 * 8; 15; 16]]%Z.
Proof. vm_compute. auto. Qed.

(** A shared with C: still only C changes, but C is not 2*C + C*C. *)
Example C24_shared_ex : exists v, quarter false (0, 0) (0, 0) (0, 0) = Ok v /\
  v <> [[2 + 1 * 1 + 2 * 5; 4 + 1 * 2 + 2 * 6; 3; 4]; [10 + 5 * 1 + 6 * 5; 12 + 5 * 2 + 6 * 6; 7; 8]; [9; 10; 11; 12]; [13; 14; 15; 16]]%Z.
Proof. eexists. split; [vm_compute; reflexivity|]. vm_compute. discriminate. Qed.
