(** Blocked Householder reflectors and the tiled and blocked QR factorizations:
    src/operations/LAPACK/larfb.cpp, geqrt.cpp, tpqrt.cpp, tpmqrt.cpp, qr.cpp.

    LAPACKE_dlarfb and LAPACKE_dtprfb are modelled by what they compute;
    LAPACKE_dgeqrt3 and LAPACKE_dtpqrt2 are arbitrary functions, what is assumed of
    them is stated in ReflectSpec.v.  The gemm and trmm calls of this file have
    Dense and LowRank operands only, for which they do not call themselves: the
    budget 1 is enough. *)
From Coq Require Import List Arith ZArith QArith Lia Bool.
From Verif Require Import Prelude Ring MatFun Matrix MatOps Lapack Gemm Triangular.
Import ListNotations.
Local Open Scope nat_scope.

Section Reflect.
Context {R : cring}.
Notation dense := (dense R).
Notation lowrank := (lowrank R).
Notation matrix := (matrix R).
Notation mat := (mat R).

(** The factorizations of one tile and of a triangle on top of a tile. *)
Record qrt := Qrt {
  geqrt3 : dense -> outcome (dense * dense);
  tpqrt2 : dense -> dense -> outcome (dense * dense * dense)
}.
Variable Or : oracles R.
Variable K : qrt.

(** ** larfb *)

(** LAPACKE_dlarfb, side L, forward, columnwise: with Y the unit lower trapezoid in V,
    C - Y op(T) (Y^T C).  Only the upper triangle of T is referenced. *)
Definition dlarfb (V T C : dense) (tr : bool) : outcome dense :=
  let m := d_r C in
  let k := d_c T in
  if (m <=? d_r V) && (k <=? d_c V) && (k <=? d_r T) && (k <=? m) then
    let Y := tri Lower true (d_e V) in
    let W := mmul k (mop tr (tri Upper false (d_e T))) (mmul m (mtr Y) (d_e C)) in
    Ok (Dn m (d_c C) (msub (d_e C) (mmul k Y W)))
  else UB.

(** larfb.cpp:33-69 *)
Definition larfb (V T C : matrix) (tr : bool) : outcome matrix :=
  match V, T, C with
  | MD v, MD t, MD c => let* x := dlarfb v t c tr in Ok (MD x)
  | MD v, MD t, ML l => let* x := dlarfb v t (l_U l) tr in Ok (ML (set_factor SLeft l x))
  | _, _, _ => Abort
  end.

(** ** geqrt *)

(** geqrt.cpp:32-51.  With fewer rows than columns LAPACKE_dgeqrt3 returns an error
    code, which is not looked at, and changes nothing. *)
Definition geqrt (A T : matrix) : outcome (matrix * matrix) :=
  match A, T with
  | MD a, MD t =>
      assert! d_r t =? d_c a in
      assert! d_c t =? d_c a in
      if d_r a <? d_c a then Ok (A, T) else
      let* (x, y) := geqrt3 K a in Ok (MD x, MD y)
  | _, _ => Abort
  end.

(** ** tpqrt *)

(** tpqrt.cpp:35-43: a triangle of order B.dim[1] on top of B; T is written in its
    leading part. *)
Definition d_tpqrt (a b t : dense) : outcome (dense * dense * dense) :=
  let n := d_c b in
  if (n <=? d_r a) && (n <=? d_c a) && (n <=? d_r t) && (n <=? d_c t) then
    let* (a', v, y) := tpqrt2 K a b in
    Ok (a', v, Dn (d_r t) (d_c t) (fun i j => if (i <? n) && (j <? n) then d_e y i j else d_e t i j))
  else UB.

(** tpqrt.cpp:29-59 *)
Definition tpqrt (A B T : matrix) : outcome (matrix * matrix * matrix) :=
  match A, B, T with
  | MD a, MD b, MD t => let* (a', v, y) := d_tpqrt a b t in Ok (MD a', MD v, MD y)
  | MD a, ML b, MD t =>
      let* sv := dd_mul (l_S b) (l_V b) 1%r false false in
      let* (a', v, y) := d_tpqrt a sv t in
      Ok (MD a', ML (Lr (l_r b) (l_c b) (l_rank b) (l_eps b) (l_U b) (d_eye (d_fill 0%r (l_S b))) v), MD y)
  | _, _, _ => Abort
  end.

(** ** tpmqrt *)

(** LAPACKE_dtprfb with a rectangular V (tpmqrt.cpp:45-59): with k columns in T,
    W = op(T) (A + V^T B), A - W, B - V W on the first k rows of A. *)
Definition dtprfb (V T A B : dense) (tr : bool) : outcome (dense * dense) :=
  let m := d_r B in
  let n := d_c B in
  let k := d_c T in
  if (m <=? d_r V) && (k <=? d_c V) && (k <=? d_r T) && (k <=? d_r A) && (n <=? d_c A) then
    let W := mmul k (mop tr (tri Upper false (d_e T))) (madd (d_e A) (mmul m (mtr (d_e V)) (d_e B))) in
    Ok (Dn (d_r A) (d_c A) (fun i j => if (i <? k) && (j <? n) then (d_e A i j - W i j)%r else d_e A i j),
        Dn m n (msub (d_e B) (mmul k (d_e V) W)))
  else UB.

(** The common end of the other combinations, given C = A + Y^T B. *)
Definition tpm_finish (V T A B C : matrix) (tr : bool) : outcome (matrix * matrix) :=
  let* C := trmm Or 1 false 1 T C SLeft Upper tr false 1%r in
  let* A' := gemm Or 1 (MD (eye (nrows C))) C A (- (1))%r 1%r false false in
  let* B' := gemm Or 1 V C B (- (1))%r 1%r false false in
  Ok (A', B').

(** tpmqrt.cpp:39-179 *)
Definition tpmqrt (V T A B : matrix) (tr : bool) : outcome (matrix * matrix) :=
  let via := fun C => let* Vt := transpose V in
                      let* C := gemm Or 1 Vt B C 1%r 1%r false false in
                      tpm_finish V T A B C tr in
  match V, T, A, B with
  | MD v, MD t, MD a, MD b => let* (x, y) := dtprfb v t a b tr in Ok (MD x, MD y)
  | ML _, MD _, MD _, MD _ => via A
  | MD _, MD _, ML _, MD _ =>
      let* c := densify A in
      let* C := gemm Or 1 V B (MD c) 1%r 1%r true false in
      tpm_finish V T A B C tr
  | MD _, MD _, MD _, ML _ => via A
  | ML _, MD _, ML _, MD _ => via A
  | ML _, MD _, MD _, ML _ => via A
  | MD _, MD _, ML _, ML _ => via A
  | ML _, MD _, ML _, ML _ => via A
  | _, _, _, _ => Abort
  end.

(** ** Tiled Householder QR *)

(** The blocks of A and T; A is p x q. *)
Definition grid : Type := nat -> nat -> matrix.

(** Inner loops of qr.cpp:216-227, column k. *)
Definition tiled_larfb (q k : nat) (tr : bool) (from : nat) (Y T : grid) (C : grid) : outcome grid :=
  for_loop (q - from) (fun t C =>
    let* x := larfb (Y k k) (T k k) (C k (from + t)) tr in Ok (bupd C k (from + t) x)) C.
Definition tiled_tpmqrt (q k i : nat) (tr : bool) (from : nat) (Y T : grid) (C : grid) : outcome grid :=
  for_loop (q - from) (fun t C =>
    let* (x, y) := tpmqrt (Y i k) (T i k) (C k (from + t)) (C i (from + t)) tr in
    Ok (bupd (bupd C k (from + t) x) i (from + t) y)) C.

Definition tiled_step (p q k : nat) (s : grid * grid) : outcome (grid * grid) :=
  assert! k <? p in
  let* (x, y) := geqrt (fst s k k) (snd s k k) in
  let A := bupd (fst s) k k x in
  let T := bupd (snd s) k k y in
  let* A := tiled_larfb q k true (S k) A T A in
  for_loop (p - S k) (fun t s =>
    let i := S k + t in
    let* (x, v, y) := tpqrt (fst s k k) (fst s i k) (snd s i k) in
    let A := bupd (bupd (fst s) k k x) i k v in
    let T := bupd (snd s) i k y in
    let* A := tiled_tpmqrt q k i true (S k) A T A in
    Ok (A, T)) (A, T).

(** qr.cpp:213-228; T is pt x qt. *)
Definition tiled_qr (p q : nat) (A : grid) (pt qt : nat) (T : grid) : outcome (grid * grid) :=
  assert! pt =? p in
  assert! qt =? q in
  for_loop q (fun k s => tiled_step p q k s) (A, T).

(** qr.cpp:230-257.  Y is p x q, C has at least as many blocks. *)
Definition tiled_apply (p q : nat) (Y T : grid) (C : grid) (tr : bool) : outcome grid :=
  assert! q <=? p in
  if tr then
    for_loop q (fun k C =>
      let* C := tiled_larfb q k tr k Y T C in
      for_loop (p - S k) (fun t C => tiled_tpmqrt q k (S k + t) tr k Y T C) C) C
  else
    for_loop q (fun k' C =>
      let k := q - 1 - k' in
      let* C := for_loop (p - S k) (fun t C => tiled_tpmqrt q k (p - 1 - t) tr k Y T C) C in
      tiled_larfb q k tr k Y T C) C.

End Reflect.
Arguments qrt R : clear implicits.
Arguments grid R : clear implicits.
