(** Interpolative decompositions and randomized factorizations:
    src/operations/LAPACK/id.cpp, geqp3.cpp:29-60,
    src/operations/randomized/rsvd.cpp, rid.cpp, and the compressing constructors of
    src/classes/low_rank.cpp.

    LAPACKE_dgeqp3 is an arbitrary function, as are the factorizations of [lapack];
    the random matrices are arguments. *)
From Coq Require Import List Arith ZArith QArith Lia Bool.
From Verif Require Import Prelude Ring MatFun Matrix MatOps Lapack Gemm Triangular.
Import ListNotations.
Local Open Scope nat_scope.

Section Sampled.
Context {R : cring}.
Notation dense := (dense R).
Notation lowrank := (lowrank R).
Notation matrix := (matrix R).
Notation mat := (mat R).

(** ** Pivoted QR *)

(** LAPACKE_dgeqp3: the matrix overwritten with R and the reflectors, and the column
    order, counted from 1. *)
Variable dgeqp3 : dense -> outcome (dense * list nat).
Variable rinv : R -> R.

(** geqp3.cpp:36-60 *)
Definition geqp3 (A : dense) : outcome (dense * list nat) :=
  let* (a, jpvt) := dgeqp3 A in
  let n := d_c A in
  Ok (Dn n n (loop_upd (ij_loop (Nat.min (d_r A) n) (fun i => i) (fun _ => n)) (fun _ i j => d_e a i j) mzero),
      map (fun j => j - 1) jpvt).

(** ** Interpolative decomposition *)

(** id.cpp:29-39.  Anew(i, P[j]) = ... for all i and j; the access is checked. *)
Definition interleave_id (A : dense) (P : list nat) : outcome dense :=
  let n := length P in
  assert! d_c A <=? n in
  let k := n - d_c A in
  if forallb (fun c => c <? n) P then
    Ok (Dn (d_r A) n
      (fold_left (fun f ij => upd f (fst ij) (nth (snd ij) P 0)
         (if snd ij <? k then (if fst ij =? snd ij then rI else rO) else d_e A (fst ij) (snd ij - k)))
        (ij_all (d_r A) n) mzero))
  else AssertFail.

(** id.cpp:49-71.  R.split(split_at(k), split_at(k)) gives four blocks of which the
    first two are used. *)
Definition one_sided_id (A : dense) (k : nat) : outcome (dense * list nat) :=
  let m := d_r A in
  let n := d_c A in
  assert! k <=? Nat.min m n in
  let* (Rf, P) := geqp3 A in
  let* W := if (k <? Nat.min m n) || (m <? n) then
              let R11 := Dn k k (d_e Rf) in
              let R12 := Dn k (d_c Rf - k) (mwin 0 k (d_e Rf)) in
              let* X := d_trsm rinv R11 R12 Upper SLeft in
              interleave_id X P
            else interleave_id (eye k) P in
  Ok (W, firstn k P).

(** id.cpp:85-103 *)
Definition get_cols (A : dense) (P : list nat) : outcome dense :=
  if forallb (fun c => c <? d_c A) P
  then Ok (Dn (d_r A) (length P) (fun i j => d_e A i (nth j P 0))) else AssertFail.
Definition get_rows (A : dense) (P : list nat) : outcome dense :=
  if forallb (fun c => c <? d_r A) P
  then Ok (Dn (length P) (d_c A) (fun i j => d_e A (nth i P 0) j)) else AssertFail.

(** id.cpp:105-116 *)
Definition id (A : dense) (k : nat) : outcome (dense * dense * dense) :=
  let* (V, cols) := one_sided_id A k in
  let* AC := get_cols A cols in
  let* (Ut, rows) := one_sided_id (d_transpose AC) k in
  let* D := get_rows AC rows in
  Ok (d_transpose Ut, D, V).

(** ** Randomized factorizations *)

Variable L : lapack R.

(** qr(Y, Q, R) with Q of the dimensions of Y and R square.  If Y has more columns than
    rows dorgqr refuses to form Q; nothing is said about what is left there. *)
Definition thin_qr (Y : dense) : outcome (dense * dense) :=
  if d_r Y <? d_c Y then UB else lp_qr L Y.

(** svd.cpp:23-43; the length of the work vector is one less than the smaller
    dimension. *)
Definition svd (A : dense) : outcome (dense * dense * dense) :=
  if Nat.min (d_r A) (d_c A) =? 0 then Abort else lp_svd L A.

(** rsvd.cpp:19-31.  rn holds the entries of the random matrix. *)
Definition rsvd (rn : mat) (A : dense) (s : nat) : outcome (dense * dense * dense) :=
  let* Y := dd_mul A (Dn (d_c A) s rn) 1%r false false in
  let* (Q, _) := thin_qr Y in
  let* QtA := dd_mul Q A 1%r true false in
  let* (Ub, D, V) := svd QtA in
  let* U := dd_mul Q Ub 1%r false false in
  Ok (U, D, V).

(** rsvd.cpp:46-63 *)
Definition old_rsvd (rn : mat) (A : dense) (s : nat) : outcome (dense * dense * dense) :=
  let* Y := dd_mul A (Dn (d_c A) s rn) 1%r false false in
  let* (Q, _) := thin_qr Y in
  let* Bt := dd_mul A Q 1%r true false in
  let* (Qb, Rb) := thin_qr Bt in
  let* (Ur, D, Vr) := svd Rb in
  let* U := dd_mul Q Ur 1%r false true in
  let* V := dd_mul Vr Qb 1%r true true in
  Ok (U, D, V).

(** rid.cpp:18-32 *)
Definition rid (rn : mat) (A : dense) (s rank : nat) : outcome (dense * dense * dense) :=
  let* Y := dd_mul A (Dn (d_c A) s rn) 1%r false false in
  let* (Q, _) := thin_qr Y in
  let* QtA := dd_mul Q A 1%r true false in
  let* (Ub, D, V) := id QtA rank in
  let* U := dd_mul Q Ub 1%r false false in
  Ok (U, D, V).

(** rid.cpp:34-54 *)
Definition one_sided_rid (rn : mat) (A : dense) (s rank : nat) (column : bool) : outcome (dense * list nat) :=
  let* Y := if column then dd_mul (Dn (d_r A) s rn) A 1%r true false
            else let* Z := dd_mul A (Dn (d_c A) s rn) 1%r false false in Ok (d_transpose Z) in
  one_sided_id Y rank.

(** rid.cpp:56-73 *)
Definition old_one_sided_rid (rn : mat) (A : dense) (s rank : nat) (tA : bool) : outcome (dense * list nat) :=
  let* Y := dd_mul A (Dn (if tA then d_r A else d_c A) s rn) 1%r tA false in
  let* (Q, _) := thin_qr Y in
  let* QtA := dd_mul Q A 1%r true tA in
  one_sided_id QtA rank.

(** LowRank(const Dense&, rank), low_rank.cpp:40-48; eps stays 0. *)
Definition lr_of_dense (rn : mat) (A : dense) (rank : nat) : outcome lowrank :=
  let* (U, D, V) := rsvd rn A (Nat.min (Nat.min (rank + 5) (d_r A)) (d_c A)) in
  let* U := d_resize U (d_r A) rank in
  let* V := d_resize V rank (d_c A) in
  let* D := d_resize D rank rank in
  Ok (Lr (d_r A) (d_c A) rank 0 U D V).

(** rsvd(const Hierarchical&, sample_size), rsvd.cpp:32-44: the random matrix has as
    many rows as A has block columns. *)
Variable Or : oracles R.
Definition rsvd_h (fuel : nat) (rn : mat) (m n : nat) (a : nat -> nat -> matrix) (s : nat)
  : outcome (dense * dense * dense) :=
  let A := MH m n a in
  let* y := gemm_new Or fuel A (MD (Dn n s rn)) 1%r false false in
  let* Y := to_dense y in
  let* (Q, _) := thin_qr Y in
  let* qta := gemm_new Or fuel (MD Q) A 1%r true false in
  let* QtA := to_dense qta in
  let* (Ub, D, V) := svd QtA in
  let* U := dd_mul Q Ub 1%r false false in
  Ok (U, D, V).

(** LowRank(const Hierarchical&, rank), low_rank.cpp:50-58: the numbers of blocks are
    taken for the dimensions. *)
Definition lr_of_h (fuel : nat) (rn : mat) (m n : nat) (a : nat -> nat -> matrix) (rank : nat) : outcome lowrank :=
  let* (U, D, V) := rsvd_h fuel rn m n a (Nat.min (Nat.min (rank + 5) m) n) in
  let* U := d_resize U m rank in
  let* V := d_resize V rank n in
  let* D := d_resize D rank rank in
  Ok (Lr m n rank 0 U D V).

End Sampled.
