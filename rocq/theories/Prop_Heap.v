(** Properties C10-C15: Dense objects over shared storage. *)
From Coq Require Import List Arith ZArith Lia Bool.
From Verif Require Import Prelude Ring MatFun Matrix MatOps MatOpsProofs Heap HeapProofs HeapHistory HeapViews Counter.
Import ListNotations.
Local Open Scope nat_scope.

Fixpoint all_ok {A} (l : list (outcome A)) : outcome (list A) :=
  match l with [] => Ok [] | x :: t => let* a := x in let* r := all_ok t in Ok (a :: r) end.

(** Reading all entries of object k. *)
Definition reads (s : state Zring) (k : nat) : outcome (list (list Z)) :=
  let* d := obj s k in
  all_ok (map (fun i => all_ok (map (fun j => h_get (s_heap s) d i j) (seq 0 (h_c d)))) (seq 0 (h_r d))).

Definition zset k i j (v : Z) : cmd Zring := @Cset Zring k i j v.
Definition znew r c : cmd Zring := @Cnew Zring r c.

(** ** C10 *)

(** After every legal history every in-range access succeeds. *)
Theorem C10_accesses_stay_inside : forall (R : cring) (cs : list (cmd R)), legal init cs ->
  exists s, run cs init = Ok s /\
    forall k d, live s k d -> forall i j, i < h_r d -> j < h_c d ->
      (exists v, h_get (s_heap s) d i j = Ok v) /\ (forall v, exists h, h_set (s_heap s) d i j v = Ok h).
Proof. exact (fun R => @accesses_inside R). Qed.
Print Assumptions C10_accesses_stay_inside.

(** Vectors can also be accessed by one index. *)
Theorem C10_vector_accesses_stay_inside : forall (R : cring) (cs : list (cmd R)), legal init cs ->
  exists s, run cs init = Ok s /\
    forall k d, live s k d -> forall i, (h_r d = 1 /\ i < h_c d) \/ (h_r d <> 1 /\ h_c d = 1 /\ i < h_r d) ->
      h_get1 (s_heap s) d i = (if h_r d =? 1 then h_get (s_heap s) d 0 i else h_get (s_heap s) d i 0) /\
      (exists v, h_get1 (s_heap s) d i = Ok v) /\ (forall v, exists h, h_set1 (s_heap s) d i v = Ok h).
Proof. exact (fun R => @vector_accesses_inside R). Qed.
Print Assumptions C10_vector_accesses_stay_inside.

(** A 4x5 matrix, a window of a window of it, a copy of that, and its transpose. *)
Definition hist : list (cmd Zring) :=
  [znew 4 5; zset 0 2 3 7%Z; Csplit 0 [(0, 1); (1, 3)] [(0, 2); (2, 3)] false;
   Csplit 4 [(1, 2)] [(0, 1); (1, 2)] false; zset 6 1 1 9%Z; Ccopy 6; Ctranspose 6; zset 6 0 0 1%Z].
Example history_example : (let* s := run hist init in let* a := reads s 0 in let* b := reads s 6 in let* c := reads s 7 in
    let* d := reads s 8 in Ok (a, b, c, d)) =
  Ok ([[0;0;0;0;0]; [0;0;0;0;0]; [0;0;0;1;0]; [0;0;0;0;9]], [[1;0]; [0;9]], [[7;0]; [0;9]], [[7;0]; [0;9]])%Z.
Proof. vm_compute. reflexivity. Qed.

(** Ranges are not checked: one outside the matrix gives a window outside the storage. *)
Theorem C10_unchecked_ranges_refuted : exists cs s d,
  run cs init = Ok s /\ @live Zring s 1 d /\ 0 < h_r d /\ 0 < h_c d /\ h_get (s_heap s) d 0 0 = UB.
Proof.
  exists [znew 2 2; Csplit 0 [(2, 1)] [(0, 1)] false].
  eexists. eexists. split; [vm_compute; reflexivity|]. split; [vm_compute; reflexivity|].
  split; [vm_compute; lia|]. split; [vm_compute; lia|]. vm_compute. reflexivity.
Qed.
Print Assumptions C10_unchecked_ranges_refuted.

(** ** C11 *)

(** A copy of a reachable object, view or not, reads the same and shares its storage
    with no other object. *)
Theorem C11_copy_equal_and_separate : forall (R : cring) (cs : list (cmd R)) s k a,
  legal init cs -> run cs init = Ok s -> live s k a ->
  exists s' d, run (cs ++ [Ccopy k]) init = Ok s' /\ live s' k a /\ live s' (length (s_objs s)) d /\
    h_r d = h_r a /\ h_c d = h_c a /\
    (forall i j, i < h_r a -> j < h_c a -> h_get (s_heap s') d i j = h_get (s_heap s') a i j /\ h_get (s_heap s') a i j = h_get (s_heap s) a i j) /\
    (forall l e, live s' l e -> h_buf e = h_buf d -> l = length (s_objs s)).
Proof. exact (fun R => @copy_equal_separate R). Qed.
Print Assumptions C11_copy_equal_and_separate.

(** In every history, what an object reads changes only by writes through objects that
    the history derives from the same storage: [storages] gives for every object the
    step that made its storage, where only shallow copies, moves and non-copying splits
    pass it on; [written] lists the storages written to. *)
Theorem C11_independence : forall (R : cring) (cs cs' : list (cmd R)) s s' k d x, legal init (cs ++ cs') ->
  run cs init = Ok s -> run cs' s = Ok s' -> live s k d -> nth_error (storages cs) k = Some x ->
  ~ In x (written (length cs) cs' (storages cs)) ->
  forall i j, i < h_r d -> j < h_c d -> h_get (s_heap s') d i j = h_get (s_heap s) d i j.
Proof. exact (fun R => @independence_get R). Qed.
Print Assumptions C11_independence.

(** And the storages of a copy and its source differ. *)
Theorem C11_copy_has_own_storage : forall (R : cring) (cs : list (cmd R)) s k x y,
  legal init cs -> run cs init = Ok s -> nth_error (storages cs) k = Some x ->
  nth_error (storages (cs ++ [Ccopy k])) (length (s_objs s)) = Some y -> y = (length cs, 0) /\ y <> x /\ ~ In y (storages cs).
Proof. exact (fun R => @copy_storage R). Qed.
Print Assumptions C11_copy_has_own_storage.

Example storages_example : storages (hist ++ [Cshallow 7]) =
  [(0,0); (0,0); (0,0); (0,0); (0,0); (0,0); (0,0); (5,0); (6,0); (5,0)] /\
  written (length hist) [zset 6 0 0 3%Z; zset 0 1 1 1%Z] (storages hist) = [(0,0); (0,0)].
Proof. vm_compute. auto. Qed.

(** ** C12 *)

(** rows*cols elements suffice (stride = columns, or at most one row, or no column):
    A = B gives A the entries of B in storage of its own. *)
Theorem C12_assign_packed : forall (R : cring) (h : heap R) A, good h A -> packed A ->
  exists h' d, h_assign h false A = Ok (h', d) /\ h_r d = h_r A /\ h_c d = h_c A /\ h_buf d = nbufs h /\
    (forall i j, i < h_r A -> j < h_c A -> h_get h' d i j = h_get h A i j /\ h_get h' A i j = h_get h A i j).
Proof. exact (fun R => @assign_packed R). Qed.
Print Assumptions C12_assign_packed.

(** In every other case the assignment writes outside the storage it allocates. *)
Theorem C12_assign_view_refuted : forall (R : cring) (h : heap R) A, good h A -> ~ packed A ->
  forall self, h_assign h self A = UB.
Proof. exact (fun R => @assign_view_UB R). Qed.
Print Assumptions C12_assign_view_refuted.

(** A = A loses the contents of A. *)
Theorem C12_self_assign_refuted : forall (R : cring) (h : heap R) A, good h A -> packed A ->
  exists h' d, h_assign h true A = Ok (h', d) /\ h_r d = h_r A /\ h_c d = h_c A /\
    forall i j, i < h_r A -> j < h_c A -> h_get h' d i j = Ok 0%r.
Proof. exact (fun R => @self_assign_zero R). Qed.
Print Assumptions C12_self_assign_refuted.

Example assign_examples :
  (let* s := run [znew 2 2; zset 0 0 1 3%Z; znew 1 1; Cassign 1 0; zset 0 0 0 8%Z] init in reads s 1) = Ok [[0;3]; [0;0]]%Z /\
  run [znew 2 2; Csplit 0 [(0,2)] [(0,1)] false; znew 1 1; Cassign 2 1] init = UB /\
  (let* s := run [znew 2 2; zset 0 0 1 3%Z; Cassign 0 0] init in reads s 0) = Ok [[0;0]; [0;0]]%Z.
Proof. vm_compute. auto. Qed.

(** ** C13 *)

(** Reading and writing entry (i,j) of block (p,q) is reading and writing A at the offset of
    the block, in the heap of any later moment. *)
Theorem C13_blocks_are_windows : forall (R : cring) (h : heap R) A rs cs, good h A ->
  (forall r, In r rs -> fst r + snd r <= h_r A) -> (forall r, In r cs -> fst r + snd r <= h_c A) ->
  exists h' ds, h_split h A rs cs false = Ok (h', ds) /\ h_bufs h' = h_bufs h /\ length ds = length rs * length cs /\
   forall p q rr cr, nth_error rs p = Some rr -> nth_error cs q = Some cr ->
    exists d, nth_error ds (p * length cs + q) = Some d /\ good h' d /\ h_r d = snd rr /\ h_c d = snd cr /\
      forall (h2 : heap R) i j, i < snd rr -> j < snd cr ->
        h_get h2 d i j = h_get h2 A (fst rr + i) (fst cr + j) /\
        forall v, h_set h2 d i j v = h_set h2 A (fst rr + i) (fst cr + j) v.
Proof. exact (fun R => @split_windows R). Qed.
Print Assumptions C13_blocks_are_windows.

(** A write changes exactly one entry. *)
Theorem C13_write_one_entry : forall (R : cring) (h : heap R) A i j v h', good h A -> h_set h A i j v = Ok h' ->
  i < h_r A /\ j < h_c A /\
  forall i' j', i' < h_r A -> j' < h_c A ->
    h_get h' A i' j' = if (i' =? i) && (j' =? j) then Ok v else h_get h A i' j'.
Proof. exact (fun R => @set_one_entry R). Qed.
Print Assumptions C13_write_one_entry.

(** Blocks at different positions of a tiling do not see each other's writes. *)
Theorem C13_blocks_disjoint : forall (R : cring) (h h' h2 h3 : heap R) A rs cs ds p q p' q' rr cr rr' cr' d e i j v,
  good h A -> covers (h_r A) rs -> covers (h_c A) cs -> h_split h A rs cs false = Ok (h', ds) ->
  nth_error rs p = Some rr -> nth_error cs q = Some cr -> nth_error rs p' = Some rr' -> nth_error cs q' = Some cr' ->
  (p, q) <> (p', q') -> nth_error ds (p * length cs + q) = Some d -> nth_error ds (p' * length cs + q') = Some e ->
  good h2 A -> h_set h2 d i j v = Ok h3 ->
  forall i' j', i' < h_r e -> j' < h_c e -> h_get h3 e i' j' = h_get h2 e i' j'.
Proof. exact (fun R => @split_disjoint R). Qed.
Print Assumptions C13_blocks_disjoint.

(** Any sequence of writes through blocks: A then holds the last value written to each
    place, and the old value elsewhere. *)
Theorem C13_write_histories : forall (R : cring) (h : heap R) A rs cs, good h A ->
  (forall r, In r rs -> fst r + snd r <= h_r A) -> (forall r, In r cs -> fst r + snd r <= h_c A) ->
  exists h' ds, h_split h A rs cs false = Ok (h', ds) /\
  forall l : list (wr R), Forall (in_block rs cs) l ->
  exists h2, do_writes ds (length cs) l h' = Ok h2 /\
    forall i j, i < h_r A -> j < h_c A -> h_get h2 A i j = Ok (last_write rs cs l (hent h A) i j).
Proof. exact (fun R => @write_histories R). Qed.
Print Assumptions C13_write_histories.

(** The blocks of a tiling determine the matrix. *)
Theorem C13_blocks_determine : forall (R : cring) (h h' h2 : heap R) A rs cs ds (f : mat R), good h A ->
  covers (h_r A) rs -> covers (h_c A) cs -> h_split h A rs cs false = Ok (h', ds) -> good h2 A ->
  (forall p q rr cr d, nth_error rs p = Some rr -> nth_error cs q = Some cr -> nth_error ds (p * length cs + q) = Some d ->
     forall i j, i < snd rr -> j < snd cr -> h_get h2 d i j = Ok (f (fst rr + i) (fst cr + j))) ->
  forall i j, i < h_r A -> j < h_c A -> h_get h2 A i j = Ok (f i j).
Proof. exact (fun R => @split_determine R). Qed.
Print Assumptions C13_blocks_determine.

Example window_example :
  (let* s := run [znew 3 4; Csplit 0 [(0,1); (1,2)] [(0,2); (2,2)] false; zset 4 1 0 5%Z; zset 4 1 0 6%Z; zset 2 0 1 4%Z; @Cfill Zring 3 1%Z] init in
   let* a := reads s 0 in let* b := reads s 4 in Ok (a, b)) =
  Ok ([[0;0;0;4]; [1;1;0;0]; [1;1;6;0]], [[0;0]; [6;0]])%Z.
Proof. vm_compute. reflexivity. Qed.

(** ** C14 *)

(** [identities] gives for every object the step that gave it its identity, which only
    shallow copies and moves pass on. *)
Theorem C14_identifiers_single_thread : forall (R : cring) (cs : list (cmd R)) s, legal init cs -> run cs init = Ok s ->
  forall k k' d d' b b', live s k d -> live s k' d' ->
  nth_error (identities cs) k = Some b -> nth_error (identities cs) k' = Some b' ->
  (h_id d = h_id d' <-> b = b').
Proof. exact (fun R => @identifiers R). Qed.
Print Assumptions C14_identifiers_single_thread.

Example identities_example : identities (hist ++ [Cshallow 7; Cmove 8]) =
  [(0,0); (2,0); (2,1); (2,2); (2,3); (3,0); (3,1); (5,0); (6,0); (5,0); (6,0)].
Proof. vm_compute. reflexivity. Qed.

(** Two threads: for every n there is a schedule in which both construct n objects with the
    same identifiers 0, ..., n-1. *)
Theorem C14_two_threads_refuted : forall n, exists sched,
  forall k, k < n -> In (0, k) (c_log (c_run c_step sched)) /\ In (1, k) (c_log (c_run c_step sched)).
Proof. exact (fun n => ex_intro _ (lockstep n) (proj2 (proj2 (lockstep_run n)))). Qed.
Print Assumptions C14_two_threads_refuted.

Theorem C14_duplicate_refuted : exists sched, ~ NoDup (ids (c_run c_step sched)).
Proof.
  exists [0; 1; 0; 1]. vm_compute. intros H. inversion H as [|x l H1 H2]; subst. apply H1. left. reflexivity.
Qed.
Print Assumptions C14_duplicate_refuted.

(** It is the overlap: without it, or with an atomic increment, every schedule of any
    number of threads gives pairwise different identifiers. *)
Theorem C14_no_overlap : forall sched, NoDup (ids (c_run c_step (twice sched))).
Proof. exact serial_unique. Qed.
Print Assumptions C14_no_overlap.
Theorem C14_atomic : forall sched, NoDup (ids (c_run a_step sched)).
Proof. exact atomic_unique. Qed.
Print Assumptions C14_atomic.

Example counter_example : c_log (c_run c_step [0;0;1;2;1;2]) = [(0,0); (1,1); (2,1)].
Proof. reflexivity. Qed.

(** ** C15 *)

Theorem C15_is_submatrix : forall (R : cring) (cs : list (cmd R)) s k d, legal init cs -> run cs init = Ok s -> live s k d -> 0 < h_c d ->
  (is_submatrix (s_heap s) d = false <-> h_off d = 0 /\ size (s_heap s) (h_buf d) = h_r d * h_c d).
Proof. exact (fun R => @submatrix_reachable R). Qed.
Print Assumptions C15_is_submatrix.

(** Objects made by operations that allocate are not submatrices ... *)
Theorem C15_owners : forall (R : cring) (h : heap R) A, good h A ->
  (forall r c, let '(h', d) := h_new h r c in is_submatrix h' d = false) /\
  (forall h' d, h_copy h A = Ok (h', d) -> is_submatrix h' d = false) /\
  (forall h' d rr cr, fst rr + snd rr <= h_r A -> fst cr + snd cr <= h_c A -> h_cut h A rr cr = Ok (h', d) -> is_submatrix h' d = false) /\
  (forall h' d r c, h_resize h A r c = Ok (h', d) -> is_submatrix h' d = false) /\
  (forall h' d, h_transpose h A = Ok (h', d) -> is_submatrix h' d = false) /\
  (forall self h' d, h_assign h self A = Ok (h', d) -> is_submatrix h' d = false).
Proof. exact (fun R => @owners R). Qed.
Print Assumptions C15_owners.

(** ... and nothing done later changes that. *)
Theorem C15_stable : forall (R : cring) (cs cs' : list (cmd R)) s s' k d, legal init (cs ++ cs') -> run cs init = Ok s -> run cs' s = Ok s' ->
  live s k d -> is_submatrix (s_heap s') d = is_submatrix (s_heap s) d.
Proof. exact (fun R => @submatrix_stable R). Qed.
Print Assumptions C15_stable.

(** Blocks of a non-copying split: a smaller block is a submatrix, one of the full size is
    one exactly if its parent is. *)
Theorem C15_blocks : forall (R : cring) (h : heap R) A rs cs h' ds, good h A ->
  (forall r, In r rs -> fst r + snd r <= h_r A) -> (forall r, In r cs -> fst r + snd r <= h_c A) ->
  h_split h A rs cs false = Ok (h', ds) -> forall d, In d ds ->
  (h_r d * h_c d < h_r A * h_c A -> is_submatrix h' d = true) /\
  (h_r d = h_r A -> h_c d = h_c A -> is_submatrix h' d = is_submatrix h A).
Proof. exact (fun R => @blocks_submatrix R). Qed.
Print Assumptions C15_blocks.

Example submatrix_example : (let* s := run hist init in
   all_ok (map (fun k => let* d := obj s k in Ok (is_submatrix (s_heap s) d)) (seq 0 9))) =
  Ok [false; true; true; true; true; true; true; false; false].
Proof. vm_compute. reflexivity. Qed.
