(** gemm and operator+= on objects over shared storage: the same routines as in Gemm.v
    (src/operations/BLAS/gemm.cpp, src/operations/arithmetic/addition.cpp), here with
    what they allocate, share and overwrite.

    A routine that changes C in place returns the new storage and the object C, whose
    factors may refer to other arrays afterwards (LowRank C).  The results of the
    compression routines and of LowRank += LowRank are taken from the same oracles as in
    Gemm.v, applied to the current values, and put into new arrays: all the variants of
    addition.cpp:68-189 compute new factors and move them into A. *)
From Coq Require Import List Arith ZArith QArith Lia Bool.
From Verif Require Import Prelude IndexRange Ring MatFun Matrix MatOps Gemm Heap MgsHeap Tree.
Import ListNotations.
Local Open Scope nat_scope.

Section Model.
Context {R : cring}.
Notation heap := (heap R).
Variable Or : oracles R.

(** ** Dense *)

(** cblas_dgemm, gemm.cpp:126-146, with the asserts of 43-49.  Element (i,j) of C is
    overwritten with beta*C(i,j) + alpha*sum; the current contents are read. *)
Definition hdot (h : heap) (a b : hdense) (tA tB : bool) (k i j : nat) : outcome R :=
  sumM k (fun l =>
    let* x := (if tA then h_get h a l i else h_get h a i l) in
    let* y := (if tB then h_get h b j l else h_get h b l j) in
    Ok (x * y)%r).
Definition hdd_gemm (a b c : hdense) (alpha beta : R) (tA tB : bool) (h : heap) : outcome heap :=
  assert! (if tA then h_c a else h_r a) =? h_r c in
  assert! (if tA then h_r a else h_c a) =? (if tB then h_c b else h_r b) in
  assert! (if tB then h_r b else h_c b) =? h_c c in
  h_loop (ij_all (h_r c) (h_c c)) c (fun h i j =>
    let* x := h_get h c i j in
    let* s := hdot h a b tA tB (if tA then h_r a else h_c a) i j in
    Ok (beta * x + alpha * s)%r) h.
(** gemm returning a new Dense, gemm.cpp:61-70 and 110-124. *)
Definition hdd_mul (a b : hdense) (alpha : R) (tA tB : bool) (h : heap) : outcome (heap * hdense) :=
  assert! (if tA then h_r a else h_c a) =? (if tB then h_c b else h_r b) in
  let '(h1, c) := h_new h (if tA then h_c a else h_r a) (if tB then h_r b else h_c b) in
  let* h2 := hdd_gemm a b c alpha 0%r tA tB h1 in Ok (h2, c).

(** New objects holding computed values. *)
Definition d_store (D : dense R) (h : heap) : outcome (heap * hdense) :=
  let '(h1, d) := h_new h (d_r D) (d_c D) in
  let* h2 := h_loop (ij_all (d_r D) (d_c D)) d (fun _ i j => Ok (d_e D i j)) h1 in Ok (h2, d).
Definition lr_store (L : lowrank R) (h : heap) : outcome (heap * hlow) :=
  let* (h1, U) := d_store (l_U L) h in
  let* (h2, D) := d_store (l_S L) h1 in
  let* (h3, V) := d_store (l_V L) h2 in
  Ok (h3, HLow (l_r L) (l_c L) (l_rank L) (l_eps L) U D V).

(** ** operator+=, addition.cpp *)

(** 191-203 *)
Definition hlr_acc (a b : hlow) (h : heap) : outcome (heap * htree) :=
  assert! q_r a =? q_r b in
  assert! q_c a =? q_c b in
  let* L := lr_add Or (lread h a) (lread h b) in
  let* (h', l) := lr_store L h in Ok (h', TL l).
(** 39-46 *)
Definition hd_add (a b : hdense) (h : heap) : outcome heap :=
  h_loop (ij_all (h_r a) (h_c a)) a (fun h i j =>
    let* x := h_get h a i j in let* y := h_get h b i j in Ok (x + y)%r) h.
(** 48-51 *)
Definition hd_add_lr (a : hdense) (b : hlow) (h : heap) : outcome heap :=
  let* (h1, us) := hdd_mul (q_U b) (q_S b) 1%r false false h in
  hdd_gemm us (q_V b) a 1%r 1%r false false h1.
(** 33-66, 191-208; B is split without copying. *)
Fixpoint tadd (A B : htree) (h : heap) : outcome (heap * htree) :=
  match A, B with
  | TD a, TD b => let* h' := hd_add a b h in Ok (h', A)
  | TD a, TL b => let* h' := hd_add_lr a b h in Ok (h', A)
  | TH m n a, TH m' n' b =>
      if (m <=? m') && (n <=? n') then
        let* (h', c) := glist (ij_all m n) (fun i j => tadd (a i j) (b i j)) h a in Ok (h', TH m n c)
      else AssertFail
  | TH m n a, TL b =>
      let* (h1, BH) := tsplit_n B m n false h in
      match BH with
      | TH m' n' b' =>
          let* (h', c) := glist (ij_all m n) (fun i j => tadd (a i j) (b' i j)) h1 a in Ok (h', TH m n c)
      | _ => Abort
      end
  | TL a, TL b => hlr_acc a b h
  | _, _ => Abort
  end.

(** ** gemm *)

Definition hgemm_t := htree -> htree -> htree -> R -> R -> bool -> bool -> heap -> outcome (heap * htree).
Definition hnew_t := htree -> htree -> R -> bool -> bool -> heap -> outcome (heap * htree).

Definition topr (t : bool) (A : htree) : nat := if t then tcols A else trows A.
Definition topc (t : bool) (A : htree) : nat := if t then trows A else tcols A.
Definition topb (t : bool) (b : nat -> nat -> htree) (i j : nat) : htree := if t then b j i else b i j.

(** Hierarchical::operator[], hierarchical.cpp:150-168. *)
Definition tvec (m n : nat) (b : nat -> nat -> htree) (k : nat) : outcome htree :=
  if m =? 1 then assert! k <? n in Ok (b 0 k)
  else if n =? 1 then assert! k <? m in Ok (b k 0)
  else AssertFail.

(** Dense(MatrixProxy&&), dense.cpp:96-106. *)
Definition tdense (A : htree) : outcome hdense :=
  match A with TD d => Ok d | _ => Abort end.

(** transpose(X) or shallow_copy(X). *)
Definition hfactor (t : bool) (x y : hdense) (h : heap) : outcome (heap * hdense) :=
  if t then h_transpose h x else Ok (h, h_shallow y).
Definition hlr_left (t : bool) (a : hlow) := hfactor t (q_V a) (q_U a).
Definition hlr_mid (t : bool) (a : hlow) := hfactor t (q_S a) (q_S a).
Definition hlr_right (t : bool) (a : hlow) := hfactor t (q_U a) (q_V a).

Definition tuse_eps (c : hlow) : bool := negb (Qeq_bool (q_eps c) 0).

(** LowRank(Dense, eps) or LowRank(Dense, rank), gemm.cpp:214-217. *)
Definition hcompress_like (c : hlow) (d : hdense) (h : heap) : outcome (heap * hlow) :=
  let* L := if tuse_eps c then ceps Or (dread h d) (q_eps c) else crank Or (dread h d) (q_rank c) in
  lr_store L h.

(** "C *= beta; C += AxB" *)
Definition hacc_lr (c : hlow) (beta : R) (x : hlow) (h : heap) : outcome (heap * htree) :=
  let* h1 := hscale (q_S c) beta h in hlr_acc c x h1.
Definition hacc_h (C : htree) (beta : R) (x : hlow) (h : heap) : outcome (heap * htree) :=
  let* h1 := tscale C beta h in tadd C (TL x) h1.

(** gemm.cpp:261-266 and 382-387. *)
Definition hlr_lr_mid (a b : hlow) (alpha : R) (tA tB : bool) (h : heap) : outcome (heap * hdense) :=
  let* (h1, x) := hdd_mul (q_S a) (if tA then q_U a else q_V a) 1%r tA tA h in
  let* (h2, y) := hdd_mul (if tB then q_V b else q_U b) (q_S b) 1%r tB tB h1 in
  hdd_mul x y alpha false false h2.

Section Step.
Variable g : hgemm_t.
Variable gn : hnew_t.

(** Hierarchical CH = split(C, nr, nc); gemm(A, B, CH, ...): C itself stays. *)
Definition hinto_views (A B : htree) (c : hdense) (nr nc : nat) (alpha beta : R) (tA tB : bool) (h : heap) : outcome (heap * htree) :=
  let* (h1, CH) := tsplit_n (TD c) nr nc false h in
  let* (h2, _) := g A B CH alpha beta tA tB h1 in
  Ok (h2, TD c).

Definition hgemm_step : hgemm_t := fun A B C alpha beta tA tB h =>
  assert! topr tA A =? trows C in
  assert! topc tA A =? topr tB B in
  assert! topc tB B =? tcols C in
  match A, B, C with
  (* D D D, 126-146 *)
  | TD a, TD b, TD c => let* h' := hdd_gemm a b c alpha beta tA tB h in Ok (h', C)
  (* LR D D, 148-162 *)
  | TL a, TD b, TD c =>
      let* (h1, x) := hdd_mul (if tA then q_U a else q_V a) b alpha tA tB h in
      let* (h2, y) := hdd_mul (q_S a) x 1%r tA false h1 in
      let* h' := hdd_gemm (if tA then q_V a else q_U a) y c 1%r beta tA false h2 in Ok (h', C)
  (* D LR D, 164-178 *)
  | TD a, TL b, TD c =>
      let* (h1, x) := hdd_mul a (if tB then q_V b else q_U b) alpha tA tB h in
      let* (h2, y) := hdd_mul x (q_S b) 1%r false tB h1 in
      let* h' := hdd_gemm y (if tB then q_U b else q_V b) c 1%r beta false tB h2 in Ok (h', C)
  (* LR LR D, 180-200 *)
  | TL a, TL b, TD c =>
      let* (h1, x) := hdd_mul (if tA then q_U a else q_V a) (if tB then q_V b else q_U b) alpha tA tB h in
      let* (h2, y) := hdd_mul (q_S a) x 1%r tA false h1 in
      let* (h3, z) := hdd_mul y (q_S b) 1%r false tB h2 in
      let* (h4, w) := hdd_mul (if tA then q_V a else q_U a) z 1%r tA false h3 in
      let* h' := hdd_gemm w (if tB then q_U b else q_V b) c 1%r beta false tB h4 in Ok (h', C)
  (* D D LR, 202-218: C.S is scaled before the product is formed *)
  | TD a, TD b, TL c =>
      let* h1 := hscale (q_S c) beta h in
      let* (h2, ab) := hdd_mul a b alpha tA tB h1 in
      let* (h3, x) := hcompress_like c ab h2 in
      hlr_acc c x h3
  (* LR D LR, 220-235 *)
  | TL a, TD b, TL c =>
      let* (h1, u) := hlr_left tA a h in
      let* (h2, s) := hlr_mid tA a h1 in
      let* (h3, v) := hdd_mul (if tA then q_U a else q_V a) b alpha tA tB h2 in
      hacc_lr c beta (low_make u s v) h3
  (* D LR LR, 237-252 *)
  | TD a, TL b, TL c =>
      let* (h1, u) := hdd_mul a (if tB then q_V b else q_U b) alpha tA tB h in
      let* (h2, s) := hlr_mid tB b h1 in
      let* (h3, v) := hlr_right tB b h2 in
      hacc_lr c beta (low_make u s v) h3
  (* LR LR LR, 254-273 *)
  | TL a, TL b, TL c =>
      let* (h1, u) := hlr_left tA a h in
      let* (h2, s) := hlr_lr_mid a b alpha tA tB h1 in
      let* (h3, v) := hlr_right tB b h2 in
      hacc_lr c beta (low_make u s v) h3
  (* H LR LR, 275-290 *)
  | TH _ _ _, TL b, TL c =>
      let* (h1, x) := gn A (TD (if tB then q_V b else q_U b)) alpha tA tB h in
      let* u := tdense x in
      let* (h2, s) := hlr_mid tB b h1 in
      let* (h3, v) := hlr_right tB b h2 in
      hacc_lr c beta (low_make u s v) h3
  (* D H LR, 292-306 *)
  | TD a, TH m n b, TL c =>
      let k := dim0 tB m n in
      let* (h1, HA) := tsplit_n A (if tA then k else 1) (if tA then 1 else k) false h in
      g HA B C alpha beta tA tB h1
  (* H D LR, 308-322 *)
  | TH m n a, TD b, TL c =>
      let k := dim1 tA m n in
      let* (h1, HB) := tsplit_n B (if tB then 1 else k) (if tB then k else 1) false h in
      g A HB C alpha beta tA tB h1
  (* LR H LR, 324-339 *)
  | TL a, TH _ _ _, TL c =>
      let* (h1, u) := hlr_left tA a h in
      let* (h2, s) := hlr_mid tA a h1 in
      let* (h3, x) := gn (TD (if tA then q_U a else q_V a)) B alpha tA tB h2 in
      let* v := tdense x in
      hacc_lr c beta (low_make u s v) h3
  (* D LR H, 341-356 *)
  | TD a, TL b, TH _ _ _ =>
      let* (h1, u) := hdd_mul a (if tB then q_V b else q_U b) alpha tA tB h in
      let* (h2, s) := hlr_mid tB b h1 in
      let* (h3, v) := hlr_right tB b h2 in
      hacc_h C beta (low_make u s v) h3
  (* LR D H, 358-373 *)
  | TL a, TD b, TH _ _ _ =>
      let* (h1, u) := hlr_left tA a h in
      let* (h2, s) := hlr_mid tA a h1 in
      let* (h3, v) := hdd_mul (if tA then q_U a else q_V a) b alpha tA tB h2 in
      hacc_h C beta (low_make u s v) h3
  (* LR LR H, 375-394 *)
  | TL a, TL b, TH _ _ _ =>
      let* (h1, u) := hlr_left tA a h in
      let* (h2, s) := hlr_lr_mid a b alpha tA tB h1 in
      let* (h3, v) := hlr_right tB b h2 in
      hacc_h C beta (low_make u s v) h3
  (* H H LR, 396-418; Dense(C) and LowRank(AB, rank) only read their argument *)
  | TH _ _ _, TH _ _ _, TL c =>
      if tuse_eps c then
        let* d := densify (tread h C) in
        let* (h1, cd) := d_store d h in
        let* (h2, x) := g A B (TD cd) alpha beta tA tB h1 in
        let* xd := tdense x in
        let* L := ceps Or (dread h2 xd) (q_eps c) in
        let* (h3, c') := lr_store L h2 in Ok (h3, TL c')
      else
        let* (h1, AB) := gn A B alpha tA tB h in
        let* L := crank_h Or (tread h1 AB) (q_rank c) in
        let* (h2, x) := lr_store L h1 in
        hacc_lr c beta x h2
  (* H H H, 420-442 *)
  | TH am an a, TH bm bn b, TH m n c =>
      assert! dim0 tA am an =? m in
      assert! dim1 tA am an =? dim0 tB bm bn in
      assert! dim1 tB bm bn =? n in
      let* (h', c') := glist (ij_all m n) (fun i j h =>
        for_loop (dim1 tA am an) (fun k '(h, cij) =>
          g (topb tA a i k) (topb tB b k j) cij alpha (if k =? 0 then beta else 1%r) tA tB h) (h, c i j)) h c in
      Ok (h', TH m n c')
  (* D D H, 444-466 *)
  | TD a, TD b, TH m n c =>
      if (m =? 1) && (n =? 1) then Abort
      else if n =? 1 then
        let* (h1, AH) := tsplit_n A (if tA then 1 else m) (if tA then m else 1) false h in
        g AH B C alpha beta tA tB h1
      else if m =? 1 then
        let* (h1, BH) := tsplit_n B (if tB then n else 1) (if tB then 1 else n) false h in
        g A BH C alpha beta tA tB h1
      else
        let* (h1, AH) := tsplit_n A (if tA then 1 else m) (if tA then m else 1) false h in
        let* (h2, BH) := tsplit_n B (if tB then n else 1) (if tB then 1 else n) false h1 in
        g AH BH C alpha beta tA tB h2
  (* LR H H, 468-492 *)
  | TL a, TH bm bn b, TH m n c =>
      assert! dim1 tB bm bn =? n in
      if (bm =? 1) && (bn =? 1) then g A (b 0 0) C alpha beta tA tB h
      else if (dim0 tB bm bn =? 1) && (m =? 1) then
        let* (h', c') := glist (ij_all 1 n) (fun _ j h =>
          let* bj := tvec bm bn b j in
          let* cj := tvec m n c j in g A bj cj alpha beta tA tB h) h c in
        Ok (h', TH m n c')
      else
        let* (h1, x) := gn (TD (q_V a)) B alpha false tB h in
        let* v := tdense x in
        hacc_h C beta (low_make (q_U a) (q_S a) v) h1
  (* D H H, 494-520 *)
  | TD a, TH bm bn b, TH m n c =>
      assert! dim1 tB bm bn =? n in
      if (bm =? 1) && (bn =? 1) then g A (b 0 0) C alpha beta tA tB h
      else if (dim0 tB bm bn =? 1) && (m =? 1) then
        let* (h', c') := glist (ij_all 1 n) (fun _ j h =>
          let* bj := tvec bm bn b j in
          let* cj := tvec m n c j in g A bj cj alpha beta tA tB h) h c in
        Ok (h', TH m n c')
      else
        let* (h1, AH) := tsplit_n A (if tA then dim0 tB bm bn else m) (if tA then m else dim0 tB bm bn) false h in
        g AH B C alpha beta tA tB h1
  (* H LR H, 522-545 *)
  | TH am an a, TL b, TH m n c =>
      if (am =? 1) && (an =? 1) then g (a 0 0) B C alpha beta tA tB h
      else if (dim1 tA am an =? 1) && (n =? 1) then
        let* (h', c') := glist (ij_all (dim0 tA am an) 1) (fun i _ h =>
          let* ai := tvec am an a i in
          let* ci := tvec m n c i in g ai B ci alpha beta tA tB h) h c in
        Ok (h', TH m n c')
      else
        let* (h1, x) := gn A (TD (q_U b)) alpha false tB h in
        let* u := tdense x in
        hacc_h C beta (low_make u (q_S b) (q_V b)) h1
  (* H D H, 547-572 *)
  | TH am an a, TD b, TH m n c =>
      if (am =? 1) && (an =? 1) then g (a 0 0) B C alpha beta tA tB h
      else if (dim1 tA am an =? 1) && (n =? 1) then
        let* (h', c') := glist (ij_all (dim0 tA am an) 1) (fun i _ h =>
          let* ai := tvec am an a i in
          let* ci := tvec m n c i in g ai B ci alpha beta tA tB h) h c in
        Ok (h', TH m n c')
      else
        let* (h1, BH) := tsplit_n B (if tB then n else dim1 tA am an) (if tB then dim1 tA am an else n) false h in
        g A BH C alpha beta tA tB h1
  (* H H D, 574-592 *)
  | TH am an a, TH bm bn b, TD c =>
      assert! dim1 tA am an =? dim0 tB bm bn in
      if (dim0 tA am an =? 1) && (dim1 tB bm bn =? 1) then
        for_loop (dim1 tA am an) (fun k '(h, C') =>
          let* ak := tvec am an a k in
          let* bk := tvec bm bn b k in
          g ak bk C' alpha (if k =? 0 then beta else 1%r) tA tB h) (h, C)
      else hinto_views A B c (dim0 tA am an) (dim1 tB bm bn) alpha beta tA tB h
  (* (Matrix) H D, 594-610 *)
  | _, TH bm bn b, TD c =>
      if (bm =? 1) && (bn =? 1) then g A (b 0 0) C alpha beta tA tB h
      else hinto_views A B c 1 (dim1 tB bm bn) alpha beta tA tB h
  (* H (Matrix) D, 612-628 *)
  | TH am an a, _, TD c =>
      if (am =? 1) && (an =? 1) then g (a 0 0) B C alpha beta tA tB h
      else hinto_views A B c (dim0 tA am an) 1 alpha beta tA tB h
  | _, _, _ => Abort
  end.

(** gemm.cpp:61-70, 72-108, 110-124. *)
Definition hnew_step : hnew_t := fun A B alpha tA tB h =>
  assert! topc tA A =? topr tB B in
  match A, B with
  | TH am an a, TH bm bn b =>
      if (dim0 tA am an =? 1) && (dim1 tB bm bn =? 1) then
        let '(h1, c) := h_new h (topr tA A) (topc tB B) in
        g A B (TD c) alpha 0%r tA tB h1
      else
        let* (h', c) := gridM (dim0 tA am an) (dim1 tB bm bn) (fun i j h =>
          let* (h1, c0) := gn (topb tA a i 0) (topb tB b 0 j) alpha tA tB h in
          for_loop (dim1 tA am an - 1) (fun k '(h, cij) =>
            assert! S k <? dim0 tB bm bn in
            g (topb tA a i (S k)) (topb tB b (S k) j) cij alpha 1%r tA tB h) (h1, c0)) h in
        Ok (h', TH (dim0 tA am an) (dim1 tB bm bn) c)
  | _, _ =>
      let '(h1, c) := h_new h (topr tA A) (topc tB B) in
      g A B (TD c) alpha 0%r tA tB h1
  end.
End Step.

Fixpoint hgemm_pair (fuel : nat) : hgemm_t * hnew_t :=
  match fuel with
  | O => (fun _ _ _ _ _ _ _ _ => NoFuel, fun _ _ _ _ _ _ => NoFuel)
  | S f => let p := hgemm_pair f in
           (hgemm_step (fst p) (snd p), hnew_step (fst p) (snd p))
  end.

Definition hgemm (fuel : nat) : hgemm_t := fst (hgemm_pair fuel).
Definition hgemm_new (fuel : nat) : hnew_t := snd (hgemm_pair fuel).
End Model.
