(** Blocked Householder QR: src/operations/LAPACK/qr.cpp:97-211.

    A block column is a function from block rows to blocks.  In the factorization Y and A
    are the same object, but block column k is read and another one written, so that they
    are separate arguments here.  As in Reflect.v the operands of gemm and trmm are Dense
    and LowRank, and the budget 1 is enough. *)
From Coq Require Import List Arith ZArith QArith Lia Bool.
From Verif Require Import Prelude Ring MatFun Matrix MatOps Lapack Gemm Triangular Reflect Sampled Mgs.
Import ListNotations.
Local Open Scope nat_scope.

Section Blocked.
Context {R : cring}.
Notation dense := (dense R).
Notation lowrank := (lowrank R).
Notation matrix := (matrix R).
Notation mat := (mat R).
Notation grid := (grid R).
Variable Or : oracles R.
Variable K : qrt R.
Notation g := (gemm Or 1).
Notation trm := (trmm Or 1 false 1).

Definition vupd (c : nat -> matrix) (i : nat) (x : matrix) : nat -> matrix := fun i' => if i' =? i then x else c i'.

(** get_right_factor, qr.cpp:97-104.  There is no method for other types. *)
Definition right_factor (A : matrix) : outcome dense :=
  match A with
  | MD d => Ok d
  | ML l => dd_mul (l_S l) (l_V l) 1%r false false
  | _ => Abort
  end.

(** update_right_factor, qr.cpp:106-122. *)
Definition set_right_factor (A : matrix) (r : dense) : outcome matrix :=
  match A with
  | MD d => Ok (MD r)
  | ML l => Ok (ML (Lr (l_r l) (l_c l) (l_rank l) (l_eps l) (l_U l) (d_eye (d_fill 0%r (l_S l))) r))
  | _ => Abort
  end.

(** triangularize_block_col, qr.cpp:124-149, on block column k of p blocks; the new
    column and T(k,0).  Without blocks below the rows of the others the first block of an
    empty Hierarchical is read. *)
Definition tri_col (p k : nat) (a : nat -> matrix) : outcome ((nat -> matrix) * matrix) :=
  if k <? p then
    let z := d_zeros 0 0 in
    let* r := collectv z (p - k) (fun i => right_factor (a (k + i))) in
    let* D := densify (MH (p - k) 1 (fun i _ => MD (r i))) in
    let* (x, t) := geqrt K (MD D) (MD (d_zeros (d_c D) (d_c D))) in
    match x with
    | MD x =>
        let* s := collectv z (p - k) (fun i =>
          assert! d_c x =? d_c (r i) in
          d_copy_to x (d_zeros (d_r (r i)) (d_c (r i))) (offs (fun b => d_r (r b)) i) 0) in
        let* a := for_loop (p - k) (fun i c =>
          let* m := set_right_factor (c (k + i)) (s i) in Ok (vupd c (k + i) m)) a in
        Ok (a, t)
    | _ => Abort
    end
  else UB.

(** apply_block_col_householder, qr.cpp:151-181: y is block column k of Y, t is T(k,0), a
    is block column j of A. *)
Definition apply_col (p k : nat) (tr : bool) (y : nat -> matrix) (t : matrix) (a : nat -> matrix) : outcome (nat -> matrix) :=
  if k <? p then
    let* yt := collectv (ME 0 0) (p - k) (fun i => transpose (y (k + i))) in
    let* c := trm (y k) (a k) SLeft Lower true true 1%r in
    let* c := for_loop (p - S k) (fun i c => g (yt (S i)) (a (S k + i)) c 1%r 1%r false false) c in
    let* c := trm t c SLeft Upper tr false 1%r in
    for_loop (p - k) (fun i a =>
      if i =? 0 then
        let* c' := trm (y k) c SLeft Lower false true 1%r in
        let* x := g (MD (eye (nrows c'))) c' (a k) (- (1))%r 1%r false false in
        Ok (vupd a k x)
      else
        let* x := g (y (k + i)) c (a (k + i)) (- (1))%r 1%r false false in
        Ok (vupd a (k + i) x)) a
  else UB.

(** The same on the blocks of a matrix. *)
Definition set_col (A : grid) (j : nat) (c : nat -> matrix) : grid := fun i j' => if j' =? j then c i else A i j'.
Definition block_tri (p k : nat) (s : grid * grid) : outcome (grid * grid) :=
  let* (a, t) := tri_col p k (fun i => fst s i k) in Ok (set_col (fst s) k a, bupd (snd s) k 0 t).
Definition block_apply (p k : nat) (tr : bool) (Y T A : grid) (j : nat) : outcome grid :=
  let* a := apply_col p k tr (fun i => Y i k) (T k 0) (fun i => A i j) in Ok (set_col A j a).

(** blocked_householder_blr_qr, qr.cpp:183-192; T is pt x qt. *)
Definition blocked_qr (p q : nat) (A : grid) (pt qt : nat) (T : grid) : outcome (grid * grid) :=
  assert! pt =? q in
  assert! qt =? 1 in
  for_loop q (fun k s =>
    let* s := block_tri p k s in
    let* A := for_loop (q - S k) (fun t A => block_apply p k true A (snd s) A (S k + t)) (fst s) in
    Ok (A, snd s)) (A, T).

(** left_multiply_blocked_reflector, qr.cpp:194-211; C has pc block rows. *)
Definition blocked_apply (p q : nat) (Y T : grid) (pc : nat) (C : grid) (tr : bool) : outcome grid :=
  let cols k C := for_loop (q - k) (fun t C => assert! pc =? p in block_apply p k tr Y T C (k + t)) C in
  if tr then for_loop q cols C else for_loop q (fun k' C => cols (q - 1 - k') C) C.

End Blocked.
