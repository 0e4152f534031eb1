(** Operations on single matrices: loops over entries, transposition, norm,
    scaling, zeroing, resizing, subtraction, splitting and densification. *)
From Coq Require Import List Arith ZArith QArith Lia Bool Ring_theory Ring.
From Verif Require Import Prelude IndexRange ClusterTree Ring MatFun Matrix.
Import ListNotations.
Local Open Scope nat_scope.

(** Running a family of computations for all block positions in row-major order;
    the first one that does not return normally decides the outcome. *)
Fixpoint check_ok {A} (n : nat) (f : nat -> outcome A) : outcome unit :=
  match n with
  | O => Ok tt
  | S m => let* _ := check_ok m f in let* _ := f m in Ok tt
  end.

Definition get_ok {A} (d : A) (x : outcome A) : A :=
  match x with Ok a => a | _ => d end.

Section Ops.
Context {R : cring}.
Notation dense := (dense R).
Notation lowrank := (lowrank R).
Notation matrix := (matrix R).
Notation mat := (mat R).

Definition collect (m n : nat) (f : nat -> nat -> outcome matrix) : outcome (nat -> nat -> matrix) :=
  let* _ := check_ok m (fun i => check_ok n (f i)) in
  Ok (fun i j => get_ok (ME 0 0) (f i j)).

(** ** Loops over entries *)

(** A(i,j) = v *)
Definition upd (f : mat) (i j : nat) (v : R) : mat :=
  fun i' j' => if (i' =? i) && (j' =? j) then v else f i' j'.

(** Index pairs of  for (i=0; i<r; i++) for (j=lo(i); j<hi(i); j++). *)
Definition ij_loop (r : nat) (lo hi : nat -> nat) : list (nat * nat) :=
  flat_map (fun i => map (fun j => (i, j)) (seq (lo i) (hi i - lo i))) (seq 0 r).

Definition ij_all (r c : nat) : list (nat * nat) := ij_loop r (fun _ => 0) (fun _ => c).

(** The loop body  A(i,j) = w(i,j)  where w may read A. *)
Definition loop_upd (l : list (nat * nat)) (w : mat -> nat -> nat -> R) (f : mat) : mat :=
  fold_left (fun f ij => upd f (fst ij) (snd ij) (w f (fst ij) (snd ij))) l f.

(** Dense(n_rows, n_cols), dense.cpp:108-113: zeros. *)
Definition d_zeros (r c : nat) : dense := Dn r c mzero.

(** Dense = double, dense.cpp:151-158. *)
Definition d_fill (a : R) (A : dense) : dense :=
  Dn (d_r A) (d_c A) (loop_upd (ij_all (d_r A) (d_c A)) (fun _ _ _ => a) (d_e A)).

(** Dense::copy_to, dense.cpp:141-149: this -> A. *)
Definition d_copy_to (this A : dense) (row_start col_start : nat) : outcome dense :=
  assert! d_r A + row_start <=? d_r this in
  assert! d_c A + col_start <=? d_c this in
  Ok (Dn (d_r A) (d_c A)
         (loop_upd (ij_all (d_r A) (d_c A))
                   (fun _ i j => d_e this (row_start + i) (col_start + j)) (d_e A))).

(** resize, src/operations/misc/resize.cpp:27-35. *)
Definition d_resize (A : dense) (r c : nat) : outcome dense :=
  assert! r <=? d_r A in
  assert! c <=? d_c A in
  d_copy_to A (d_zeros r c) 0 0.

Definition resize (A : matrix) (r c : nat) : outcome matrix :=
  match A with
  | MD d => let* d' := d_resize d r c in Ok (MD d')
  | _ => Abort
  end.

(** LowRank(U, S, V, copy), src/classes/low_rank.cpp:71-75. *)
Definition lr_make (U S V : dense) : lowrank := Lr (d_r U) (d_c V) (d_r S) 0 U S V.

(** ** transpose, src/operations/misc/transpose.cpp *)

(** transpose.cpp:24-32 *)
Definition d_transpose (A : dense) : dense :=
  Dn (d_c A) (d_r A)
     (fold_left (fun f ij => upd f (snd ij) (fst ij) (d_e A (fst ij) (snd ij)))
                (ij_all (d_r A) (d_c A)) mzero).

(** transpose.cpp:34-37 *)
Definition lr_transpose (A : lowrank) : lowrank :=
  lr_make (d_transpose (l_V A)) (d_transpose (l_S A)) (d_transpose (l_U A)).

(** transpose.cpp:39-52 *)
Fixpoint transpose (A : matrix) : outcome matrix :=
  match A with
  | MD d => Ok (MD (d_transpose d))
  | ML l => Ok (ML (lr_transpose l))
  | MH m n b =>
      let* t := collect m n (fun i j => transpose (b i j)) in
      Ok (MH n m (fun i j => t j i))
  | ME _ _ => Abort
  end.

(** ** operator*=, src/operations/arithmetic/multiplication.cpp *)

(** multiplication.cpp:28-37 *)
Definition d_scale (A : dense) (b : R) : dense :=
  Dn (d_r A) (d_c A)
     (loop_upd (ij_all (d_r A) (d_c A)) (fun f i j => (f i j * b)%r) (d_e A)).

(** multiplication.cpp:39-44 *)
Definition lr_scale (A : lowrank) (b : R) : lowrank :=
  Lr (l_r A) (l_c A) (l_rank A) (l_eps A) (l_U A) (d_scale (l_S A) b) (l_V A).

(** multiplication.cpp:46-60 *)
Fixpoint scale (A : matrix) (b : R) : outcome matrix :=
  match A with
  | MD d => Ok (MD (d_scale d b))
  | ML l => Ok (ML (lr_scale l b))
  | MH m n a => let* a' := collect m n (fun i j => scale (a i j) b) in Ok (MH m n a')
  | ME _ _ => Abort
  end.

(** ** operator-, src/operations/arithmetic/subtraction.cpp:26-47 *)
Definition d_sub (A B : dense) : dense :=
  Dn (d_r A) (d_c A)
     (loop_upd (ij_all (d_r A) (d_c A)) (fun _ i j => (d_e A i j - d_e B i j)%r) (d_e A)).

Definition subtraction (A B : matrix) : outcome matrix :=
  assert! nrows A =? nrows B in
  assert! ncols A =? ncols B in
  match A, B with
  | MD a, MD b => Ok (MD (d_sub a b))
  | _, _ => Abort
  end.

(** operator+ on Dense, src/operations/arithmetic/addition.cpp:210-218; B is
    accessed with operator(), whose assert is modelled. *)
Definition d_plus (A B : dense) : outcome dense :=
  if (d_r A =? 0) || (d_c A =? 0) || ((d_r A <=? d_r B) && (d_c A <=? d_c B))
  then Ok (Dn (d_r A) (d_c A)
     (loop_upd (ij_all (d_r A) (d_c A)) (fun _ i j => (d_e A i j + d_e B i j)%r) mzero))
  else AssertFail.

(** Dense += Dense, addition.cpp:39-46. *)
Definition d_add (A B : dense) : outcome dense :=
  if (d_r A =? 0) || (d_c A =? 0) || ((d_r A <=? d_r B) && (d_c A <=? d_c B))
  then Ok (Dn (d_r A) (d_c A)
     (loop_upd (ij_all (d_r A) (d_c A)) (fun f i j => (f i j + d_e B i j)%r) (d_e A)))
  else AssertFail.

(** ** Dense products *)

(** gemm with Dense operands: the asserts of gemm.cpp:43-49 and cblas_dgemm
    (gemm.cpp:126-146).  cblas_dgemm is trusted to compute
    beta*C + alpha*op(A)*op(B). *)
Definition dd_gemm (A B C : dense) (alpha beta : R) (tA tB : bool) : outcome dense :=
  assert! (if tA then d_c A else d_r A) =? d_r C in
  assert! (if tA then d_r A else d_c A) =? (if tB then d_c B else d_r B) in
  assert! (if tB then d_r B else d_c B) =? d_c C in
  let k := if tA then d_r A else d_c A in
  Ok (Dn (d_r C) (d_c C)
         (fun i j => (beta * d_e C i j + alpha * mmul k (mop tA (d_e A)) (mop tB (d_e B)) i j)%r)).

(** gemm returning a new Dense: gemm.cpp:61-70 and 110-124. *)
Definition dd_mul (A B : dense) (alpha : R) (tA tB : bool) : outcome dense :=
  assert! (if tA then d_r A else d_c A) =? (if tB then d_c B else d_r B) in
  dd_gemm A B (d_zeros (if tA then d_c A else d_r A) (if tB then d_r B else d_c B)) alpha 0%r tA tB.

(** ** Splitting, src/operations/misc/misc.cpp *)

(** Ranges with a negative start or length make no sense for a matrix: the
    allocation fails or later accesses leave the storage. *)
Definition nat_ranges (l : list irange) : outcome (list (nat * nat)) :=
  mapM (fun r => if (0 <=? ir_start r)%Z && (0 <=? ir_n r)%Z
                 then Ok (Z.to_nat (ir_start r), Z.to_nat (ir_n r)) else UB) l.

Definition rg (l : list (nat * nat)) (i : nat) : nat * nat := nth i l (0, 0).

(** All ranges inside of a vector of length [len]. *)
Definition ranges_fit (l : list (nat * nat)) (len : nat) : bool :=
  forallb (fun r => fst r + snd r <=? len) l.

(** Dense::split, dense.cpp:218-249, and misc.cpp:180-197.  The entries of child
    (i,j) are those of the window, whether copied or shared. *)
Definition split_dense (A : dense) (rs cs : list (nat * nat)) : outcome matrix :=
  if ranges_fit rs (d_r A) && ranges_fit cs (d_c A) then
    Ok (MH (length rs) (length cs) (fun i j =>
      MD (Dn (snd (rg rs i)) (snd (rg cs j)) (mwin (fst (rg rs i)) (fst (rg cs j)) (d_e A)))))
  else UB.

(** misc.cpp:209-221: row blocks of U *)
Definition split_U (U : dense) (rs : list (nat * nat)) : outcome (nat -> dense) :=
  if 1 <? length rs then
    if ranges_fit rs (d_r U) then
      Ok (fun i => Dn (snd (rg rs i)) (d_c U) (mwin (fst (rg rs i)) 0 (d_e U)))
    else UB
  else Ok (fun _ => U).

(** misc.cpp:222-234: column blocks of V *)
Definition split_V (V : dense) (cs : list (nat * nat)) : outcome (nat -> dense) :=
  if 1 <? length cs then
    if ranges_fit cs (d_c V) then
      Ok (fun j => Dn (d_r V) (snd (rg cs j)) (mwin 0 (fst (rg cs j)) (d_e V)))
    else UB
  else Ok (fun _ => V).

(** misc.cpp:199-241 *)
Definition split_lr (A : lowrank) (rs cs : list (nat * nat)) : outcome matrix :=
  let* U := split_U (l_U A) rs in
  let* V := split_V (l_V A) cs in
  Ok (MH (length rs) (length cs) (fun i j => ML (lr_make (U i) (l_S A) (V j)))).

(** misc.cpp:243-273 *)
Definition split_h (m n : nat) (b : nat -> nat -> matrix) (rs cs : list (nat * nat)) : outcome matrix :=
  if negb (length rs =? m) || negb (length cs =? n) then Abort else
  let* b' := collect m n (fun i j =>
      if negb (snd (rg rs i) =? nrows (b i j)) || negb (snd (rg cs j) =? ncols (b i j))
      then Abort else Ok (b i j)) in
  Ok (MH m n b').

(** misc.cpp:275-284 is the fallback. *)
Definition split_ranges (A : matrix) (rs cs : list (nat * nat)) : outcome matrix :=
  match A with
  | MD d => split_dense d rs cs
  | ML l => split_lr l rs cs
  | MH m n b => split_h m n b rs cs
  | ME _ _ => Abort
  end.

(** split(A, n_row_blocks, n_col_blocks), misc.cpp:158-167. *)
Definition split (A : matrix) (nr nc : nat) : outcome matrix :=
  let* rs := nat_ranges (ir_split (IR 0 (Z.of_nat (nrows A))) (Z.of_nat nr)) in
  let* cs := nat_ranges (ir_split (IR 0 (Z.of_nat (ncols A))) (Z.of_nat nc)) in
  split_ranges A rs cs.

(** Block heights of the first block column and widths of the first block row,
    as read by IndexRange::split_like, index_range.cpp:33-41. *)
Definition heights (m : nat) (b : nat -> nat -> matrix) : list Z :=
  map (fun i => Z.of_nat (nrows (b i 0))) (seq 0 m).
Definition widths (n : nat) (b : nat -> nat -> matrix) : list Z :=
  map (fun j => Z.of_nat (ncols (b 0 j))) (seq 0 n).

(** split(A, like), misc.cpp:169-178. *)
Definition split_like (A : matrix) (m n : nat) (b : nat -> nat -> matrix) : outcome matrix :=
  assert! nrows A =? nrows (MH m n b) in
  assert! ncols A =? ncols (MH m n b) in
  let* rs := nat_ranges (ir_split_like (IR 0 (Z.of_nat (nrows A))) (heights m b)) in
  let* cs := nat_ranges (ir_split_like (IR 0 (Z.of_nat (ncols A))) (widths n b)) in
  split_ranges A rs cs.

(** Contents of a Dense after all blocks of a non-copying split of it have been
    overwritten with the Dense blocks [b]: each element of the Dense is an element
    of exactly one block (see C13 for the justification at the level of storage). *)
Definition join (r c : nat) (m n : nat) (b : nat -> nat -> matrix) : dense :=
  Dn r c (ent (MH m n b)).

(** ** Densification: fill_dense_from, dense.cpp:64-92; B is r x c. *)
Fixpoint fill_dense_from (A : matrix) (B : dense) : outcome dense :=
  match A with
  | MH m n a =>
      let* BH := split_like (MD B) m n a in
      match BH with
      | MH m' n' bh =>
          let* b' := collect m n (fun i j =>
             match bh i j with
             | MD bd => let* x := fill_dense_from (a i j) bd in Ok (MD x)
             | _ => Abort
             end) in
          Ok (join (d_r B) (d_c B) m n b')
      | _ => Abort
      end
  | ML l => let* US := dd_mul (l_U l) (l_S l) 1%r false false in
            dd_gemm US (l_V l) B 1%r 0%r false false
  | MD d => assert! d_r d =? d_r B in
            assert! d_c d =? d_c B in
            d_copy_to d B 0 0
  | ME r c => assert! r =? d_r B in
              assert! c =? d_c B in
              Ok (d_fill 0%r B)
  end.

(** Dense(const Matrix&), dense.cpp:56-62. *)
Definition densify (A : matrix) : outcome dense :=
  fill_dense_from A (d_zeros (nrows A) (ncols A)).

(** ** norm, src/operations/misc/norm.cpp:24-49 *)
Definition d_norm (A : dense) : R :=
  fold_left (fun l2 ij => (l2 + d_e A (fst ij) (snd ij) * d_e A (fst ij) (snd ij))%r)
            (ij_all (d_r A) (d_c A)) 0%r.

(** The accumulation over blocks, norm.cpp:36-44. *)
Fixpoint accum {A} (n : nat) (f : nat -> A -> outcome A) (a : A) : outcome A :=
  match n with
  | O => Ok a
  | S m => let* a' := accum m f a in f m a'
  end.

Fixpoint norm (A : matrix) : outcome R :=
  match A with
  | MD d => Ok (d_norm d)
  | ML l => let* d := densify (ML l) in Ok (d_norm d)
  | MH m n b =>
      accum m (fun i acc => accum n (fun j acc => let* x := norm (b i j) in Ok (acc + x)%r) acc) 0%r
  | ME _ _ => Abort
  end.

(** ** Zeroing, misc.cpp:28-116 *)

(** misc.cpp:42-44: ones on the diagonal *)
Definition d_eye (A : dense) : dense :=
  Dn (d_r A) (d_c A)
     (fold_left (fun f i => upd f i i 1%r) (seq 0 (Nat.min (d_r A) (d_c A))) (d_e A)).

(** misc.cpp:34-60 *)
Fixpoint zero_all (A : matrix) : outcome matrix :=
  match A with
  | MD d => Ok (MD (d_fill 0%r d))
  | ML l => Ok (ML (Lr (l_r l) (l_c l) (l_rank l) (l_eps l)
                       (d_eye (d_fill 0%r (l_U l))) (d_fill 0%r (l_S l)) (d_eye (d_fill 0%r (l_V l)))))
  | MH m n b => let* b' := collect m n (fun i j => zero_all (b i j)) in Ok (MH m n b')
  | ME _ _ => Abort
  end.

(** misc.cpp:69-88; the j-loop of the Hierarchical case runs up to
    min(i, dim[1]-1), so blocks with j <= i are visited. *)
Fixpoint zero_lower (A : matrix) : outcome matrix :=
  match A with
  | MD d => Ok (MD (Dn (d_r d) (d_c d)
        (loop_upd (ij_loop (d_r d) (fun _ => 0) (fun i => Nat.min i (d_c d))) (fun _ _ _ => 0%r) (d_e d))))
  | MH m n b =>
      let* b' := collect m n (fun i j =>
         if j <? i then zero_all (b i j) else if j =? i then zero_lower (b i j) else Ok (b i j)) in
      Ok (MH m n b')
  | _ => Abort
  end.

(** misc.cpp:97-116 *)
Fixpoint zero_upper (A : matrix) : outcome matrix :=
  match A with
  | MD d => Ok (MD (Dn (d_r d) (d_c d)
        (loop_upd (ij_loop (d_r d) (fun i => i + 1) (fun _ => d_c d)) (fun _ _ _ => 0%r) (d_e d))))
  | MH m n b =>
      let* b' := collect m n (fun i j =>
         if i <? j then zero_all (b i j) else if j =? i then zero_upper (b i j) else Ok (b i j)) in
      Ok (MH m n b')
  | _ => Abort
  end.

End Ops.
