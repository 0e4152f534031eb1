(** Triangular products and solves and block LU:
    src/operations/BLAS/trmm.cpp, src/operations/BLAS/trsm.cpp,
    src/operations/LAPACK/getrf.cpp.

    The BLAS and LAPACK leaf routines are modelled as follows: cblas_dtrmm by the
    product with the selected triangle, cblas_dtrsm by explicit substitution
    (division is multiplication by [rinv]), LAPACKE_dgetrf by an arbitrary function
    [dgetrf] returning the packed factors and the row permutation; what is assumed
    of it is stated in TriSpec.v.  Loops that write into blocks of a Dense through
    views are modelled by splitting, computing and putting the blocks together. *)
From Coq Require Import List Arith ZArith Lia Bool.
From Verif Require Import Prelude Ring MatFun Matrix MatOps Gemm.
Import ListNotations.
Local Open Scope nat_scope.

(** Mode and Side, include/FRANK/definitions.h. *)
Inductive mode := Upper | Lower.
Inductive side := SLeft | SRight.

Section Tri.
Context {R : cring}.
Notation dense := (dense R).
Notation lowrank := (lowrank R).
Notation matrix := (matrix R).
Notation mat := (mat R).

(** Division as cblas_dtrsm uses it: x / d is x * rinv d. *)
Variable rinv : R -> R.
Variable Or : oracles R.
(** Budget handed to each gemm call. *)
Variable gfuel : nat.

Definition rm1 : R := ropp rI.

(** The triangle a BLAS routine reads: the rest of the matrix is not referenced. *)
Definition tri (u : mode) (unit : bool) (f : mat) : mat :=
  fun i j => if i =? j then (if unit then rI else f i j)
             else match u with
                  | Upper => if i <? j then f i j else rO
                  | Lower => if j <? i then f i j else rO
                  end.

(** The order of the triangle, and the block count along it. *)
Definition along (s : side) (r c : nat) : nat := match s with SLeft => r | SRight => c end.

(** ** trmm *)

(** D D, trmm.cpp:53-71. *)
Definition d_trmm (a b : dense) (s : side) (u : mode) (t unit : bool) (alpha : R) : outcome dense :=
  assert! d_r a =? d_c a in
  assert! d_r a =? along s (d_r b) (d_c b) in
  let T := mop t (tri u unit (d_e a)) in
  Ok (Dn (d_r b) (d_c b)
         (mscale alpha (match s with
                        | SLeft => mmul (d_r a) T (d_e b)
                        | SRight => mmul (d_r a) (d_e b) T
                        end))).

(** gemm(X, Y, C, alpha, 1) *)
Definition acc_gemm (alpha : R) (X Y C : matrix) : outcome matrix :=
  gemm Or gfuel X Y C alpha rI false false.

(** A(i, j) of a Hierarchical with m x n blocks, hierarchical.cpp:170-180. *)
Definition at_ (m n : nat) (a : nat -> nat -> matrix) (i j : nat) : outcome matrix :=
  assert! (i <? m) && (j <? n) in Ok (a i j).

(** H H, trmm.cpp:146-217.  B_copy keeps the original blocks, so every block of the
    result is a function of the original ones.  [ndebug] says that asserts are
    compiled out (the one on trans is the only one that matters here: the code after
    it is meaningful C++ whatever trans is).
    [rec A B] is the recursive call trmm(A, B, side, uplo, trans, diag, alpha). *)
Definition hh_trmm (rec : matrix -> matrix -> outcome matrix)
  (ndebug : bool) (m n : nat) (a : nat -> nat -> matrix) (m' n' : nat) (b : nat -> nat -> matrix)
  (s : side) (u : mode) (t : bool) (alpha : R) : outcome (nat -> nat -> matrix) :=
  assert! m =? n in
  assert! m =? along s m' n' in
  assert! negb t || ndebug in
  collect m' n' (fun i j =>
    match u, s with
    | Upper, SLeft =>
        let* c := rec (a i i) (b i j) in
        for_loop (n - S i) (fun t c => acc_gemm alpha (a i (S i + t)) (b (S i + t) j) c) c
    | Upper, SRight =>
        let* c := rec (a j j) (b i j) in
        for_loop j (fun t c => acc_gemm alpha (b i (j - 1 - t)) (a (j - 1 - t) j) c) c
    | Lower, SLeft =>
        let* c := rec (a i i) (b i j) in
        for_loop i (fun t c => acc_gemm alpha (a i (i - 1 - t)) (b (i - 1 - t) j) c) c
    | Lower, SRight =>
        let* c := rec (a j j) (b i j) in
        for_loop (n' - S j) (fun t c => acc_gemm alpha (b i (S j + t)) (a (S j + t) j) c) c
    end).

Definition side_rows (s : side) (k : nat) : nat := match s with SLeft => k | SRight => 1 end.
Definition side_cols (s : side) (k : nat) : nat := match s with SLeft => 1 | SRight => k end.

(** The factor of a LowRank that a product or solve from one side changes. *)
Definition side_factor (s : side) (l : lowrank) : dense :=
  match s with SLeft => l_U l | SRight => l_V l end.
Definition set_factor (s : side) (l : lowrank) (d : dense) : lowrank :=
  match s with
  | SLeft => Lr (l_r l) (l_c l) (l_rank l) (l_eps l) d (l_S l) (l_V l)
  | SRight => Lr (l_r l) (l_c l) (l_rank l) (l_eps l) (l_U l) (l_S l) d
  end.

(** trmm(A, B, side, uplo, trans, diag, alpha): trmm.cpp:29-51 with the dispatch of
    53-230.  The budget bounds the nesting of the calls. *)
Fixpoint trmm (ndebug : bool) (fuel : nat) (A B : matrix) (s : side) (u : mode) (t unit : bool) (alpha : R)
  {struct fuel} : outcome matrix :=
  match fuel with
  | O => NoFuel
  | S fuel' =>
    let rec := fun A B => trmm ndebug fuel' A B s u t unit alpha in
    let hd := fun m n a (d : dense) =>
      assert! m =? n in
      assert! nrows (MH m n a) =? along s (d_r d) (d_c d) in
      let* BH := split (MD d) (side_rows s m) (side_cols s m) in
      match BH with
      | MH m' n' b => let* x := hh_trmm rec ndebug m n a m' n' b s u t alpha in
                      Ok (join (d_r d) (d_c d) m' n' x)
      | _ => Abort
      end in
    match A, B with
    | MD a, MD b => let* x := d_trmm a b s u t unit alpha in Ok (MD x)
    | MD a, ML l =>
        (* D LR, 74-89 *)
        assert! d_r a =? d_c a in
        assert! d_r a =? along s (l_r l) (l_c l) in
        let* x := d_trmm a (side_factor s l) s u t unit alpha in
        Ok (ML (set_factor s l x))
    | MD a, MH m' n' b =>
        (* D H, 91-107 *)
        assert! d_r a =? d_c a in
        assert! d_r a =? along s (nrows B) (ncols B) in
        let* AH := split A (along s m' n') (along s m' n') in
        match AH with
        | MH m n a => let* x := hh_trmm rec ndebug m n a m' n' b s u t alpha in Ok (MH m' n' x)
        | _ => Abort
        end
    | MH m n a, MD d =>
        (* H D, 109-125 *)
        let* x := hd m n a d in Ok (MD x)
    | MH m n a, ML l =>
        (* H LR, 127-144 *)
        assert! m =? n in
        assert! nrows A =? along s (l_r l) (l_c l) in
        let* x := hd m n a (side_factor s l) in Ok (ML (set_factor s l x))
    | MH m n a, MH m' n' b =>
        let* x := hh_trmm rec ndebug m n a m' n' b s u t alpha in Ok (MH m' n' x)
    | _, _ => Abort
    end
  end.

(** ** trsm *)

(** Forward substitution with a lower triangle a and the inverses of its diagonal. *)
Fixpoint low_solve (n : nat) (dinv : nat -> R) (a b : mat) : mat :=
  match n with
  | O => b
  | S m => let x := low_solve m dinv a b in
           fun i j => if i =? m then (dinv m * (b m j - sum m (fun k => a m k * x k j)))%r
                      else x i j
  end.

Definition rrev (n : nat) (f : mat) : mat := fun i j => f (n - 1 - i) j.
Definition mrev (n : nat) (f : mat) : mat := fun i j => f (n - 1 - i) (n - 1 - j).

(** cblas_dtrsm of order n (trsm.cpp:92-104): unit diagonal for Lower, the stored one
    for Upper. *)
Definition dtrsm (u : mode) (s : side) (n : nat) (a b : mat) : mat :=
  match u, s with
  | Lower, SLeft => low_solve n (fun _ => rI) a b
  | Upper, SLeft => rrev n (low_solve n (fun i => rinv (a (n - 1 - i) (n - 1 - i))) (mrev n a) (rrev n b))
  | Upper, SRight => mtr (low_solve n (fun i => rinv (a i i)) (mtr a) (mtr b))
  | Lower, SRight => mtr (rrev n (low_solve n (fun _ => rI) (mrev n (mtr a)) (rrev n (mtr b))))
  end.

(** D D: no assert on the sizes; entries outside A are read when A is too small. *)
Definition d_trsm (a b : dense) (u : mode) (s : side) : outcome dense :=
  let n := along s (d_r b) (d_c b) in
  if (n <=? d_r a) && (n <=? d_c a)
  then Ok (Dn (d_r b) (d_c b) (dtrsm u s n (d_e a) (d_e b)))
  else UB.

Definition bupd (b : nat -> nat -> matrix) (i j : nat) (x : matrix) : nat -> nat -> matrix :=
  fun i' j' => if (i' =? i) && (j' =? j) then x else b i' j'.

(** Blocks updated in place, one after the other. *)
Fixpoint run_cells (l : list (nat * nat)) (f : (nat -> nat -> matrix) -> nat -> nat -> outcome matrix)
  (b : nat -> nat -> matrix) : outcome (nat -> nat -> matrix) :=
  match l with
  | [] => Ok b
  | (i, j) :: l => let* x := f b i j in run_cells l f (bupd b i j x)
  end.

(** The orders of the block loops: columns then rows, rows then columns, rows downwards. *)
Definition cols_rows (m n : nat) : list (nat * nat) :=
  flat_map (fun j => map (fun i => (i, j)) (seq 0 m)) (seq 0 n).
Definition rows_cols (m n : nat) : list (nat * nat) := ij_all m n.
Definition rows_down (m : nat) : list (nat * nat) := map (fun i => (i, 0)) (rev (seq 0 m)).

(** H H, trsm.cpp:40-90.  [rec k] is the call trsm(A(k,k), ., uplo, side). *)
Definition hh_trsm (rec : nat -> matrix -> outcome matrix)
  (m n : nat) (a : nat -> nat -> matrix) (m' n' : nat) (b : nat -> nat -> matrix)
  (u : mode) (s : side) : outcome (nat -> nat -> matrix) :=
  match u, s with
  | Upper, SLeft =>
      if n' =? 1 then
        run_cells (rows_down m') (fun b i j =>
          let* c := for_loop (m' - 1 - i) (fun t c =>
             let* aij := at_ m n a i (m' - 1 - t) in acc_gemm rm1 aij (b (m' - 1 - t) j) c) (b i j) in
          let* _ := at_ m n a i i in
          rec i c) b
      else Abort
  | Upper, SRight =>
      run_cells (rows_cols m' n') (fun b i j =>
        let* c := for_loop j (fun k c =>
           let* akj := at_ m n a k j in acc_gemm rm1 (b i k) akj c) (b i j) in
        let* _ := at_ m n a j j in
        rec j c) b
  | Lower, SLeft =>
      run_cells (cols_rows m' n') (fun b i j =>
        let* c := for_loop i (fun k c =>
           let* aik := at_ m n a i k in acc_gemm rm1 aik (b k j) c) (b i j) in
        let* _ := at_ m n a i i in
        rec i c) b
  | Lower, SRight => Abort
  end.

(** trsm(A, B, uplo, side): trsm.cpp:34-38 with the dispatch of 40-131. *)
Fixpoint trsm (A B : matrix) (u : mode) (s : side) {struct A} : outcome matrix :=
  match A with
  | MD a =>
      match B with
      | MD b => let* x := d_trsm a b u s in Ok (MD x)
      | ML l => let* x := d_trsm a (side_factor s l) u s in Ok (ML (set_factor s l x))
      | _ => Abort
      end
  | MH m n a =>
      let hh := hh_trsm (fun k c => trsm (a k k) c u s) m n a in
      (* H D, 117-125: the split shares the storage of B *)
      let hd := fun (d : dense) =>
        let* BH := split (MD d) (side_rows s m) (side_cols s n) in
        match BH with
        | MH m' n' b => let* x := hh m' n' b u s in Ok (join (d_r d) (d_c d) m' n' x)
        | _ => Abort
        end in
      match B with
      | MD d => let* x := hd d in Ok (MD x)
      | ML l => let* x := hd (side_factor s l) in Ok (ML (set_factor s l x))
      | MH m' n' b => let* x := hh m' n' b u s in Ok (MH m' n' x)
      | ME _ _ => Abort
      end
  | _ => Abort
  end.

(** ** getrf *)

(** LAPACKE_dgetrf: the packed factors and the row permutation (row i of the permuted
    matrix is row p i of the input). *)
Variable dgetrf : dense -> outcome (dense * (nat -> nat)).

(** Dense, getrf.cpp:67-84.  The loop moves the strict lower triangle to L; ipiv is
    dropped.  L(i,i) and A(i,j) are checked accesses. *)
Definition d_getrf (A : dense) : outcome (dense * dense) :=
  let* (X, p) := dgetrf A in
  assert! d_r A <=? d_c A in
  Ok (Dn (d_r A) (d_c A)
         (loop_upd (ij_loop (d_r A) (fun _ => 0) S)
                   (fun f i j => if i =? j then rI else d_e X i j) mzero),
      Dn (d_r A) (d_c A)
         (loop_upd (ij_loop (d_r A) (fun _ => 0) (fun i => i)) (fun _ _ _ => rO) (d_e X))).

(** The blocks of L and A while step i runs. *)
Definition pair_t : Type := ((nat -> nat -> matrix) * (nat -> nat -> matrix))%type.

(** One step of the outer loop, getrf.cpp:47-63; m x n blocks. *)
Definition lu_step (rec : matrix -> outcome (matrix * matrix)) (m n : nat) (i : nat) (s : pair_t)
  : outcome pair_t :=
  let* (Li, Ui) := rec (snd s i i) in
  let L := bupd (fst s) i i Li in
  let A := bupd (snd s) i i Ui in
  let* (L, A) := for_loop (m - S i) (fun t s =>
      let ic := S i + t in
      let x := snd s ic i in
      let A := bupd (snd s) ic i (ME (nrows x) (ncols x)) in
      let* y := trsm (A i i) x Upper SRight in
      Ok (bupd (fst s) ic i y, A)) (L, A) in
  let* (L, A) := for_loop (n - S i) (fun t s =>
      let j := S i + t in
      let x := snd s i j in
      let L := bupd (fst s) i j (ME (nrows x) (ncols x)) in
      let* y := trsm (L i i) x Lower SLeft in
      Ok (L, bupd (snd s) i j y)) (L, A) in
  let* A := for_loop (m - S i) (fun t A =>
      let ic := S i + t in
      for_loop (n - S i) (fun v A =>
        let k := S i + v in
        let* y := acc_gemm rm1 (L ic i) (A i k) (A ic k) in
        Ok (bupd A ic k y)) A) A in
  Ok (L, A).

(** getrf(A): getrf.cpp:40-43 with the dispatch of 45-90.  A(i,i) needs i < A.dim[1].
    The blocks L(i,j) start as empty proxies; ME 0 0 stands for them and every one of
    them is assigned. *)
Fixpoint getrf (fuel : nat) (A : matrix) {struct fuel} : outcome (matrix * matrix) :=
  match fuel with
  | O => NoFuel
  | S fuel' =>
    match A with
    | MD d => let* (l, u) := d_getrf d in Ok (MD l, MD u)
    | MH m n a =>
        assert! m <=? n in
        let* (L, U) := for_loop m (fun i s => lu_step (getrf fuel') m n i s) ((fun _ _ => ME 0 0), a) in
        Ok (MH m n L, MH m n U)
    | _ => Abort
    end
  end.
End Tri.
