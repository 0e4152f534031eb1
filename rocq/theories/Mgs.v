(** Block modified Gram-Schmidt QR: src/operations/LAPACK/mgs_qr.cpp.

    The mgs_qr of three Dense works on storage and is modelled in MgsHeap.v; here are
    the block versions.  qr of a Dense is the arbitrary function lp_qr. *)
From Coq Require Import List Arith ZArith QArith Lia Bool.
From Verif Require Import Prelude Ring MatFun Matrix MatOps Lapack Gemm Triangular Reflect Sampled.
Import ListNotations.
Local Open Scope nat_scope.

(** The results for all positions of a vector of blocks. *)
Definition collectv {A} (d : A) (n : nat) (f : nat -> outcome A) : outcome (nat -> A) :=
  let* _ := check_ok n f in Ok (fun i => get_ok d (f i)).

Section Mgs.
Context {R : cring}.
Notation dense := (dense R).
Notation lowrank := (lowrank R).
Notation matrix := (matrix R).
Notation mat := (mat R).
Notation grid := (nat -> nat -> matrix).

Variable L : lapack R.
Variable Or : oracles R.
Variable gfuel : nat.
Notation g := (gemm Or gfuel).

(** mgs_qr.cpp:46-62.  For a LowRank, U is assumed to be orthogonal. *)
Definition make_left_orthogonal (A : matrix) : outcome (dense * dense) :=
  match A with
  | MD d => Ok (eye (d_r d), d)
  | ML l => let* sv := dd_mul (l_S l) (l_V l) 1%r false false in Ok (l_U l, sv)
  | _ => Abort
  end.

(** ** One block column, R(j,j) Dense: mgs_qr.cpp:281-310 *)
Definition ortho_dense (p j : nat) (A Q : grid) : outcome (grid * dense) :=
  let z := d_zeros 0 0 in
  let* qb := collectv (z, z) p (fun i => make_left_orthogonal (A i j)) in
  let B i := snd (qb i) in
  let* DB := densify (MH p 1 (fun i _ => MD (B i))) in
  let* (Qb, Rb) := thin_qr L DB in
  let* HQb := collectv z p (fun i =>
    d_copy_to Qb (d_zeros (d_r (B i)) (d_c (B i))) (offs (fun k => d_r (B k)) i) 0) in
  let* Q' := for_loop p (fun i Qg =>
    let* x := g (MD (fst (qb i))) (MD (HQb i)) (Qg i j) 1%r 0%r false false in
    Ok (bupd Qg i j x)) Q in
  Ok (Q', Rb).

(** ** One block column, R(j,j) Hierarchical *)

(** mgs_qr.cpp:215-230 *)
Definition split_rows (A : matrix) : nat := match A with MH m _ _ => m | _ => 1 end.
Definition split_cols (A : matrix) (cols : nat) : nat := match A with MH _ n _ => n | _ => cols end.

(** mgs_qr.cpp:64-120: the rows of blocks put into the storage, and the left factor that
    is remembered.  A Hierarchical with fewer block columns than the storage leaves empty
    proxies in it. *)
Definition split_by_column (A : matrix) (nC : nat) : outcome (grid * dense) :=
  match A with
  | MD d =>
      let* s := split (MD d) 1 nC in
      match s with MH _ _ b => Ok (fun _ i => b 0 i, d_zeros 0 0) | _ => Abort end
  | ML l =>
      let* (U, SV) := make_left_orthogonal (ML l) in
      let* s := split (MD SV) 1 nC in
      match s with MH _ _ b => Ok (fun _ i => b 0 i, U) | _ => Abort end
  | MH m n b =>
      assert! n <=? nC in
      if n <? nC then UB else Ok (b, d_zeros 0 0)
  | ME _ _ => Abort
  end.

(** split_block_col, mgs_qr.cpp:232-247. *)
Definition split_block_col (p j : nat) (A : grid) : outcome (nat * nat * grid * (nat -> dense)) :=
  let z := d_zeros 0 0 in
  let rows i := split_rows (A i j) in
  let* nC := for_loop p (fun i c => Ok (split_cols (A i j) c)) 1 in
  let* s := collectv (fun _ _ => ME 0 0, z) p (fun i => split_by_column (A i j) nC) in
  Ok (offs rows p, nC, (fun r c => let '(i, r') := locate rows p r in fst (s i) r' c), fun i => snd (s i)).

(** concat_columns, mgs_qr.cpp:122-207; the position in the storage is returned. *)
Definition concat_columns (Qij : matrix) (P nC : nat) (SA : grid) (QL : dense) (cur : nat) : outcome (matrix * nat) :=
  match Qij with
  | MD d =>
      assert! cur <? P in
      let* x := densify (MH 1 nC (fun _ c => SA cur c)) in
      assert! d_r d =? d_r x in
      assert! d_c d =? d_c x in
      Ok (MD x, cur + 1)
  | ML l =>
      assert! cur <? P in
      let* x := densify (MH 1 nC (fun _ c => SA cur c)) in
      assert! l_r l =? d_r QL in
      assert! l_c l =? d_c x in
      assert! d_c QL =? d_r x in
      Ok (ML (Lr (d_r QL) (d_c x) (d_c QL) (l_eps l) QL (eye (d_c QL)) x), cur + 1)
  | MH m n b =>
      assert! nC =? n in
      assert! cur + m <=? P in
      Ok (MH m n (fun i c => SA (cur + i) c), cur + m)
  | ME _ _ => Abort
  end.

(** restore_block_col, mgs_qr.cpp:249-259. *)
Definition restore_block_col (p j P nC : nat) (SA : grid) (QL : nat -> dense) (Q : grid) : outcome grid :=
  let* s := for_loop p (fun i s =>
    let* (x, cur) := concat_columns (fst s i j) P nC SA (QL i) (snd s) in
    Ok (bupd (fst s) i j x, cur)) (Q, 0) in
  Ok (fst s).

(** ** The factorization *)

(** mgs_qr.cpp:340-360.  [ortho] orthogonalizes block column j and returns the new
    R(j,j). *)
Definition mgs_update (p j k : nat) (QT : nat -> matrix) (Q A : grid) (Rjk : matrix) : outcome (grid * matrix) :=
  let* r := for_loop p (fun i r =>
    g (QT i) (A i k) r 1%r (if i =? 0 then 0%r else 1%r) false false) Rjk in
  let* A' := for_loop p (fun i Ag =>
    let* x := g (Q i j) r (Ag i k) (- (1))%r 1%r false false in
    Ok (bupd Ag i k x)) A in
  Ok (A', r).

Definition mgs_step (ortho : nat -> grid -> grid -> matrix -> outcome (grid * matrix))
  (p q j : nat) (s : grid * grid * grid) : outcome (grid * grid * grid) :=
  let '(A, Q, Rg) := s in
  let* (Q, r) := ortho j A Q (Rg j j) in
  let Rg := bupd Rg j j r in
  let* QT := collectv (ME 0 0) p (fun i => transpose (Q i j)) in
  let* (A, Rg) := for_loop (q - S j) (fun t s =>
    let k := S j + t in
    let* (A, r) := mgs_update p j k QT Q (fst s) (snd s j k) in
    Ok (A, bupd (snd s) j k r)) (A, Rg) in
  Ok (A, Q, Rg).

Fixpoint mgs_qr (fuel : nat) (A Q Rm : matrix) : outcome (matrix * matrix * matrix) :=
  match fuel with
  | O => NoFuel
  | S fuel =>
    match A, Q, Rm with
    | MH p q a, MH qm qn b, MH rm rn r =>
        assert! qm =? p in
        assert! qn =? q in
        assert! rm =? q in
        assert! rn =? q in
        let ortho j A Q Rjj :=
          match Rjj with
          | MD _ => let* (Q', Rb) := ortho_dense p j A Q in Ok (Q', MD Rb)
          | MH _ _ _ => (* mgs_qr.cpp:312-321 *)
              let* (P, nC, SA, QL) := split_block_col p j A in
              let* (_, QS, R') := mgs_qr fuel (MH P nC SA) (MH P nC SA) Rjj in
              match QS with
              | MH P' nC' QS => let* Q' := restore_block_col p j P' nC' QS QL Q in Ok (Q', R')
              | _ => Abort
              end
          | _ => Abort
          end in
        let* (a, b, r) := for_loop q (mgs_step ortho p q) (a, b, r) in
        Ok (MH p q a, MH p q b, MH q q r)
    | _, _, _ => Abort (* mgs_qr.cpp:362-365 *)
    end
  end.

End Mgs.
