(** Model of operator+= (src/operations/arithmetic/addition.cpp) and of gemm
    (src/operations/BLAS/gemm.cpp) on matrix trees.

    Routines that approximate are parameters:
    - [crank d r]   is LowRank(Dense, rank), low_rank.cpp:40-48;
    - [ceps d e]    is LowRank(Dense, eps), low_rank.cpp:60-69;
    - [lr_add a b]  is LowRank += LowRank for the algorithm chosen by FRANK_LRA,
                    addition.cpp:191-203 (its variants are modelled in LowRankAdd.v).
    The operands of gemm do not share elements with C (see C24 for the heap view). *)
From Coq Require Import List Arith ZArith QArith Lia Bool.
From Verif Require Import Prelude IndexRange ClusterTree Ring MatFun Matrix MatOps.
Import ListNotations.
Local Open Scope nat_scope.

Section Gemm.
Context {R : cring}.
Notation dense := (dense R).
Notation lowrank := (lowrank R).
Notation matrix := (matrix R).
Notation mat := (mat R).

Record oracles := Oracles {
  crank : dense -> nat -> outcome lowrank;
  ceps : dense -> Q -> outcome lowrank;
  lr_add : lowrank -> lowrank -> outcome lowrank
}.
Variable Or : oracles.

(** ** operator+= *)

(** LowRank += LowRank with its asserts, addition.cpp:191-203. *)
Definition lr_acc (a b : lowrank) : outcome lowrank :=
  assert! l_r a =? l_r b in
  assert! l_c a =? l_c b in
  lr_add Or a b.

(** Dense += LowRank, addition.cpp:48-51. *)
Definition d_add_lr (a : dense) (b : lowrank) : outcome dense :=
  let* us := dd_mul (l_U b) (l_S b) 1%r false false in
  dd_gemm us (l_V b) a 1%r 1%r false false.

(** addition.cpp:33-66, 191-208.  Hierarchical += LowRank splits the LowRank
    uniformly and continues with Hierarchical += Hierarchical (lines 53-60); block
    (i,j) of the right operand is accessed with the assert of operator(). *)
Fixpoint madd_to (A B : matrix) : outcome matrix :=
  match A, B with
  | MD a, MD b => let* c := d_add a b in Ok (MD c)
  | MD a, ML b => let* c := d_add_lr a b in Ok (MD c)
  | MH m n a, MH m' n' b =>
      if (m <=? m') && (n <=? n') then
        let* c := collect m n (fun i j => madd_to (a i j) (b i j)) in Ok (MH m n c)
      else AssertFail
  | MH m n a, ML b =>
      let* BH := split (ML b) m n in
      match BH with
      | MH m' n' b' =>
          let* c := collect m n (fun i j => madd_to (a i j) (b' i j)) in Ok (MH m n c)
      | _ => Abort
      end
  | ML a, ML b => let* c := lr_acc a b in Ok (ML c)
  | _, _ => Abort
  end.

(** ** gemm *)

Definition gemm_t := matrix -> matrix -> matrix -> R -> R -> bool -> bool -> outcome matrix.
Definition new_t := matrix -> matrix -> R -> bool -> bool -> outcome matrix.

(** Rows and columns of op(A). *)
Definition opr (t : bool) (A : matrix) : nat := if t then ncols A else nrows A.
Definition opc (t : bool) (A : matrix) : nat := if t then nrows A else ncols A.

(** dim[t ? 1 : 0] and dim[t ? 0 : 1]. *)
Definition dim0 (t : bool) (m n : nat) : nat := if t then n else m.
Definition dim1 (t : bool) (m n : nat) : nat := if t then m else n.

(** Block (i,j) of op(A): t ? A(j,i) : A(i,j). *)
Definition opb (t : bool) (b : nat -> nat -> matrix) (i j : nat) : matrix := if t then b j i else b i j.

(** Hierarchical::operator[], hierarchical.cpp:158-168. *)
Definition hvec (m n : nat) (b : nat -> nat -> matrix) (k : nat) : outcome matrix :=
  if m =? 1 then assert! k <? n in Ok (b 0 k)
  else if n =? 1 then assert! k <? m in Ok (b k 0)
  else AssertFail.

(** Dense(MatrixProxy&&), dense.cpp:96-106. *)
Definition to_dense (A : matrix) : outcome dense :=
  match A with MD d => Ok d | _ => Abort end.

(** LowRank(const Hierarchical&, rank), low_rank.cpp:50-58, with rsvd.cpp:32-44.
    The numbers of blocks are used as the dimensions; unless they are equal to the
    numbers of rows and columns the product with the random matrix (or the later
    addition) violates an assert. *)
Definition crank_h (A : matrix) (r : nat) : outcome lowrank :=
  match A with
  | MH m n _ =>
      assert! ncols A =? n in
      assert! nrows A =? m in
      let* d := densify A in crank Or d r
  | _ => Abort
  end.

Definition use_eps (c : lowrank) : bool := negb (Qeq_bool (l_eps c) 0).

(** C += LowRank(AB, C.eps) or C += LowRank(AB, C.rank), gemm.cpp:214-217. *)
Definition compress_like (c : lowrank) (d : dense) : outcome lowrank :=
  if use_eps c then ceps Or d (l_eps c) else crank Or d (l_rank c).

(** The left and right bases of op(A) for a LowRank A. *)
Definition lr_left (t : bool) (a : lowrank) : dense := if t then d_transpose (l_V a) else l_U a.
Definition lr_mid (t : bool) (a : lowrank) : dense := if t then d_transpose (l_S a) else l_S a.
Definition lr_right (t : bool) (a : lowrank) : dense := if t then d_transpose (l_U a) else l_V a.

(** "C *= beta; C += AxB" for a LowRank and for a Hierarchical C. *)
Definition acc_lr (c : lowrank) (beta : R) (x : lowrank) : outcome matrix :=
  let* c' := lr_acc (lr_scale c beta) x in Ok (ML c').
Definition acc_h (C : matrix) (beta : R) (x : lowrank) : outcome matrix :=
  let* C' := scale C beta in madd_to C' (ML x).

(** gemm.cpp:261-266 and 382-387: the middle factor of op(A)*op(B) for two LowRank. *)
Definition lr_lr_mid (a b : lowrank) (alpha : R) (tA tB : bool) : outcome dense :=
  let* x := dd_mul (l_S a) (if tA then l_U a else l_V a) 1%r tA tA in
  let* y := dd_mul (if tB then l_V b else l_U b) (l_S b) 1%r tB tB in
  dd_mul x y alpha false false.

Section Step.
Variable g : gemm_t.
Variable gn : new_t.

(** Views of a Dense C: split without copying, multiply into the views. *)
Definition into_views (A B : matrix) (c : dense) (nr nc : nat) (alpha beta : R) (tA tB : bool) : outcome matrix :=
  let* CH := split (MD c) nr nc in
  let* CH' := g A B CH alpha beta tA tB in
  match CH' with
  | MH m n b => Ok (MD (join (d_r c) (d_c c) m n b))
  | _ => Abort
  end.

(** gemm.cpp:38-51 (asserts), 126-628 (implementations), 631-640 (fallback). *)
Definition gemm_step : gemm_t := fun A B C alpha beta tA tB =>
  assert! opr tA A =? nrows C in
  assert! opc tA A =? opr tB B in
  assert! opc tB B =? ncols C in
  match A, B, C with
  (* D D D, 126-146 *)
  | MD a, MD b, MD c => let* d := dd_gemm a b c alpha beta tA tB in Ok (MD d)
  (* LR D D, 148-162 *)
  | ML a, MD b, MD c =>
      let* x := dd_mul (if tA then l_U a else l_V a) b alpha tA tB in
      let* y := dd_mul (l_S a) x 1%r tA false in
      let* d := dd_gemm (if tA then l_V a else l_U a) y c 1%r beta tA false in Ok (MD d)
  (* D LR D, 164-178 *)
  | MD a, ML b, MD c =>
      let* x := dd_mul a (if tB then l_V b else l_U b) alpha tA tB in
      let* y := dd_mul x (l_S b) 1%r false tB in
      let* d := dd_gemm y (if tB then l_U b else l_V b) c 1%r beta false tB in Ok (MD d)
  (* LR LR D, 180-200 *)
  | ML a, ML b, MD c =>
      let* x := dd_mul (if tA then l_U a else l_V a) (if tB then l_V b else l_U b) alpha tA tB in
      let* y := dd_mul (l_S a) x 1%r tA false in
      let* z := dd_mul y (l_S b) 1%r false tB in
      let* w := dd_mul (if tA then l_V a else l_U a) z 1%r tA false in
      let* d := dd_gemm w (if tB then l_U b else l_V b) c 1%r beta false tB in Ok (MD d)
  (* D D LR, 202-218 *)
  | MD a, MD b, ML c =>
      let* ab := dd_mul a b alpha tA tB in
      let* x := compress_like c ab in
      acc_lr c beta x
  (* LR D LR, 220-235 *)
  | ML a, MD b, ML c =>
      let* v := dd_mul (if tA then l_U a else l_V a) b alpha tA tB in
      acc_lr c beta (lr_make (lr_left tA a) (lr_mid tA a) v)
  (* D LR LR, 237-252 *)
  | MD a, ML b, ML c =>
      let* u := dd_mul a (if tB then l_V b else l_U b) alpha tA tB in
      acc_lr c beta (lr_make u (lr_mid tB b) (lr_right tB b))
  (* LR LR LR, 254-273 *)
  | ML a, ML b, ML c =>
      let* s := lr_lr_mid a b alpha tA tB in
      acc_lr c beta (lr_make (lr_left tA a) s (lr_right tB b))
  (* H LR LR, 275-290 *)
  | MH _ _ _, ML b, ML c =>
      let* x := gn A (MD (if tB then l_V b else l_U b)) alpha tA tB in
      let* u := to_dense x in
      acc_lr c beta (lr_make u (lr_mid tB b) (lr_right tB b))
  (* D H LR, 292-306 *)
  | MD a, MH m n b, ML c =>
      let k := dim0 tB m n in
      let* HA := split A (if tA then k else 1) (if tA then 1 else k) in
      g HA B C alpha beta tA tB
  (* H D LR, 308-322 *)
  | MH m n a, MD b, ML c =>
      let k := dim1 tA m n in
      let* HB := split B (if tB then 1 else k) (if tB then k else 1) in
      g A HB C alpha beta tA tB
  (* LR H LR, 324-339 *)
  | ML a, MH _ _ _, ML c =>
      let* x := gn (MD (if tA then l_U a else l_V a)) B alpha tA tB in
      let* v := to_dense x in
      acc_lr c beta (lr_make (lr_left tA a) (lr_mid tA a) v)
  (* D LR H, 341-356 *)
  | MD a, ML b, MH _ _ _ =>
      let* u := dd_mul a (if tB then l_V b else l_U b) alpha tA tB in
      acc_h C beta (lr_make u (lr_mid tB b) (lr_right tB b))
  (* LR D H, 358-373 *)
  | ML a, MD b, MH _ _ _ =>
      let* v := dd_mul (if tA then l_U a else l_V a) b alpha tA tB in
      acc_h C beta (lr_make (lr_left tA a) (lr_mid tA a) v)
  (* LR LR H, 375-394 *)
  | ML a, ML b, MH _ _ _ =>
      let* s := lr_lr_mid a b alpha tA tB in
      acc_h C beta (lr_make (lr_left tA a) s (lr_right tB b))
  (* H H LR, 396-418 *)
  | MH _ _ _, MH _ _ _, ML c =>
      if use_eps c then
        let* cd := densify C in
        let* x := g A B (MD cd) alpha beta tA tB in
        let* d := to_dense x in
        let* c' := ceps Or d (l_eps c) in Ok (ML c')
      else
        let* AB := gn A B alpha tA tB in
        let* x := crank_h AB (l_rank c) in
        acc_lr c beta x
  (* H H H, 420-442 *)
  | MH am an a, MH bm bn b, MH m n c =>
      assert! dim0 tA am an =? m in
      assert! dim1 tA am an =? dim0 tB bm bn in
      assert! dim1 tB bm bn =? n in
      let* c' := collect m n (fun i j =>
        for_loop (dim1 tA am an) (fun k cij =>
          g (opb tA a i k) (opb tB b k j) cij alpha (if k =? 0 then beta else 1%r) tA tB) (c i j)) in
      Ok (MH m n c')
  (* D D H, 444-466 *)
  | MD a, MD b, MH m n c =>
      if (m =? 1) && (n =? 1) then Abort
      else if n =? 1 then
        let* AH := split A (if tA then 1 else m) (if tA then m else 1) in
        g AH B C alpha beta tA tB
      else if m =? 1 then
        let* BH := split B (if tB then n else 1) (if tB then 1 else n) in
        g A BH C alpha beta tA tB
      else
        let* AH := split A (if tA then 1 else m) (if tA then m else 1) in
        let* BH := split B (if tB then n else 1) (if tB then 1 else n) in
        g AH BH C alpha beta tA tB
  (* LR H H, 468-492 *)
  | ML a, MH bm bn b, MH m n c =>
      assert! dim1 tB bm bn =? n in
      if (bm =? 1) && (bn =? 1) then g A (b 0 0) C alpha beta tA tB
      else if (dim0 tB bm bn =? 1) && (m =? 1) then
        let* c' := collect 1 n (fun _ j =>
          let* bj := hvec bm bn b j in
          let* cj := hvec m n c j in g A bj cj alpha beta tA tB) in
        Ok (MH m n c')
      else
        let* x := gn (MD (l_V a)) B alpha false tB in
        let* v := to_dense x in
        acc_h C beta (lr_make (l_U a) (l_S a) v)
  (* D H H, 494-520 *)
  | MD a, MH bm bn b, MH m n c =>
      assert! dim1 tB bm bn =? n in
      if (bm =? 1) && (bn =? 1) then g A (b 0 0) C alpha beta tA tB
      else if (dim0 tB bm bn =? 1) && (m =? 1) then
        let* c' := collect 1 n (fun _ j =>
          let* bj := hvec bm bn b j in
          let* cj := hvec m n c j in g A bj cj alpha beta tA tB) in
        Ok (MH m n c')
      else
        let* AH := split A (if tA then dim0 tB bm bn else m) (if tA then m else dim0 tB bm bn) in
        g AH B C alpha beta tA tB
  (* H LR H, 522-545 *)
  | MH am an a, ML b, MH m n c =>
      if (am =? 1) && (an =? 1) then g (a 0 0) B C alpha beta tA tB
      else if (dim1 tA am an =? 1) && (n =? 1) then
        let* c' := collect (dim0 tA am an) 1 (fun i _ =>
          let* ai := hvec am an a i in
          let* ci := hvec m n c i in g ai B ci alpha beta tA tB) in
        Ok (MH m n (fun i j => if i <? dim0 tA am an then c' i 0 else c i j))
      else
        let* x := gn A (MD (l_U b)) alpha false tB in
        let* u := to_dense x in
        acc_h C beta (lr_make u (l_S b) (l_V b))
  (* H D H, 547-572 *)
  | MH am an a, MD b, MH m n c =>
      if (am =? 1) && (an =? 1) then g (a 0 0) B C alpha beta tA tB
      else if (dim1 tA am an =? 1) && (n =? 1) then
        let* c' := collect (dim0 tA am an) 1 (fun i _ =>
          let* ai := hvec am an a i in
          let* ci := hvec m n c i in g ai B ci alpha beta tA tB) in
        Ok (MH m n (fun i j => if i <? dim0 tA am an then c' i 0 else c i j))
      else
        let* BH := split B (if tB then n else dim1 tA am an) (if tB then dim1 tA am an else n) in
        g A BH C alpha beta tA tB
  (* H H D, 574-592 *)
  | MH am an a, MH bm bn b, MD c =>
      assert! dim1 tA am an =? dim0 tB bm bn in
      if (dim0 tA am an =? 1) && (dim1 tB bm bn =? 1) then
        for_loop (dim1 tA am an) (fun k C' =>
          let* ak := hvec am an a k in
          let* bk := hvec bm bn b k in
          g ak bk C' alpha (if k =? 0 then beta else 1%r) tA tB) C
      else into_views A B c (dim0 tA am an) (dim1 tB bm bn) alpha beta tA tB
  (* (Matrix) H D, 594-610 *)
  | _, MH bm bn b, MD c =>
      if (bm =? 1) && (bn =? 1) then g A (b 0 0) C alpha beta tA tB
      else into_views A B c 1 (dim1 tB bm bn) alpha beta tA tB
  (* H (Matrix) D, 612-628 *)
  | MH am an a, _, MD c =>
      if (am =? 1) && (an =? 1) then g (a 0 0) B C alpha beta tA tB
      else into_views A B c (dim0 tA am an) 1 alpha beta tA tB
  | _, _, _ => Abort
  end.

(** gemm.cpp:61-70 (assert), 72-108 (two Hierarchical), 110-124 (all others). *)
Definition new_step : new_t := fun A B alpha tA tB =>
  assert! opc tA A =? opr tB B in
  match A, B with
  | MH am an a, MH bm bn b =>
      if (dim0 tA am an =? 1) && (dim1 tB bm bn =? 1) then
        g A B (MD (d_zeros (opr tA A) (opc tB B))) alpha 0%r tA tB
      else
        let* c := collect (dim0 tA am an) (dim1 tB bm bn) (fun i j =>
          let* c0 := gn (opb tA a i 0) (opb tB b 0 j) alpha tA tB in
          for_loop (dim1 tA am an - 1) (fun k cij =>
            assert! S k <? dim0 tB bm bn in (* access to B(k,j) *)
            g (opb tA a i (S k)) (opb tB b (S k) j) cij alpha 1%r tA tB) c0) in
        Ok (MH (dim0 tA am an) (dim1 tB bm bn) c)
  | _, _ => g A B (MD (d_zeros (opr tA A) (opc tB B))) alpha 0%r tA tB
  end.

End Step.

(** The recursion, bounded by [fuel]; see the termination theorem. *)
Fixpoint gemm_pair (fuel : nat) : gemm_t * new_t :=
  match fuel with
  | O => (fun _ _ _ _ _ _ _ => NoFuel, fun _ _ _ _ _ => NoFuel)
  | S f => let p := gemm_pair f in
           (gemm_step (fst p) (snd p), new_step (fst p) (snd p))
  end.

Definition gemm (fuel : nat) : gemm_t := fst (gemm_pair fuel).
Definition gemm_new (fuel : nat) : new_t := snd (gemm_pair fuel).

End Gemm.
Arguments oracles R : clear implicits.
