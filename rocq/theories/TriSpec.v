(** Specification side of the triangular operations: which operands are considered,
    and what is assumed of LAPACKE_dgetrf. *)
From Coq Require Import List Arith ZArith Lia Bool.
From Verif Require Import Prelude Ring MatFun Matrix MatOps Gemm GemmSpec Triangular TriAlgebra.
Import ListNotations.
Local Open Scope nat_scope.

Section Spec.
Context {R : cring}.
Notation dense := (dense R).
Notation matrix := (matrix R).
Notation mat := (mat R).

(** Square diagonal blocks at every level. *)
Fixpoint tri_shape (A : matrix) : Prop :=
  match A with
  | MD d => d_r d = d_c d
  | MH m n a => m = n /\ (forall i, i < m -> bheight a i = bwidth a i) /\
                (forall i, i < m -> tri_shape (a i i))
  | _ => nrows A = ncols A
  end.

(** Where both operands are Hierarchical they have equally many blocks along the
    triangle, and so have the blocks that meet. *)
Fixpoint conf (s : side) (A B : matrix) {struct A} : Prop :=
  match A with
  | MH m n a =>
      match B with
      | MH m' n' b => along s m' n' = m /\
          forall i j, i < m' -> j < n' -> conf s (a (along s i j) (along s i j)) (b i j)
      | _ => True
      end
  | _ => True
  end.

(** The product with a triangle from one side. *)
Definition tri_prod (s : side) (n : nat) (T X : mat) : mat :=
  match s with SLeft => mmul n T X | SRight => mmul n X T end.

(** Operands of getrf: square diagonal blocks at every level, and block counts that
    let the solves with the diagonal blocks go through. *)
Fixpoint lu_shape (A : matrix) : Prop :=
  match A with
  | MD d => d_r d = d_c d
  | MH m n a => m = n /\ (forall i, i < m -> bheight a i = bwidth a i) /\
                (forall i, i < m -> lu_shape (a i i)) /\
                (forall i j, i < j -> j < m -> conf SLeft (a i i) (a i j) /\ conf SRight (a i i) (a j i))
  | _ => nrows A = ncols A
  end.

(** Same block counts along the diagonal. *)
Fixpoint same_diag (A B : matrix) : Prop :=
  match A, B with
  | MD _, MD _ => True
  | ML _, ML _ => True
  | ME _ _, ME _ _ => True
  | MH m n a, MH m' n' b => m' = m /\ n' = n /\ forall i, i < m -> same_diag (a i i) (b i i)
  | _, _ => False
  end.

(** The diagonal entries can be divided by. *)
Fixpoint udiag (rinv : R -> R) (A : matrix) : Prop :=
  match A with
  | MH m n a => forall i, i < m -> udiag rinv (a i i)
  | _ => forall i, i < nrows A -> (ent A i i * rinv (ent A i i) = rI)%r
  end.

(** LAPACKE_dgetrf on a square matrix returns factors of the row-permuted matrix. *)
Definition lu_contract (dgetrf : dense -> outcome (dense * (nat -> nat))) : Prop :=
  forall A X p, dgetrf A = Ok (X, p) -> d_r A = d_c A ->
  (forall i, i < d_r A -> p i < d_r A) /\
  feq (d_r A) (d_c A) (mmul (d_r A) (tri Lower true (d_e X)) (tri Upper false (d_e X)))
                      (fun i j => d_e A (p i) j).

(** The same routine, cut off where it exchanges rows. *)
Definition no_exchange (dgetrf : dense -> outcome (dense * (nat -> nat))) (A : dense)
  : outcome (dense * (nat -> nat)) :=
  let* (X, p) := dgetrf A in
  if forallb (fun i => p i =? i) (seq 0 (d_r A)) then Ok (X, p) else Abort.
End Spec.
