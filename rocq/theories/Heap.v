(** Dense objects over shared storage: src/classes/dense.cpp,
    include/FRANK/classes/dense.h.  The other layers of the model see a Dense as a
    function from indices to values; here it is what it is in the code: a window
    into a reference-counted array. *)
From Coq Require Import List Arith Lia Bool.
From Verif Require Import Prelude Ring MatFun Matrix MatOps.
Import ListNotations.
Local Open Scope nat_scope.

Section Heap.
Context {R : cring}.

(** dense.h:42-78: dim, stride, data (which array), rel_start, data_ptr (as offset into
    the array), unique_id.  Sizes are natural numbers: no negative dimensions. *)
Record hdense := HD {
  h_r : nat; h_c : nat; h_stride : nat; h_buf : nat;
  h_r0 : nat; h_c0 : nat; h_off : nat; h_id : nat
}.

(** A std::vector<double>: its size and contents. *)
Record buffer := Buf { b_size : nat; b_data : nat -> R }.

(** All arrays ever allocated and next_unique_id (dense.cpp:29).  An array is released
    when its last owner goes; as every object owns the array it refers to, keeping all
    arrays makes no difference. *)
Record heap := Heap { h_bufs : list buffer; h_next : nat }.

Definition empty_heap : heap := Heap [] 0.

Definition size (h : heap) (b : nat) : nat :=
  match nth_error (h_bufs h) b with Some B => b_size B | None => 0 end.
Definition val (h : heap) (b k : nat) : R :=
  match nth_error (h_bufs h) b with Some B => b_data B k | None => 0%r end.

(** ** Element access *)

Definition peek (h : heap) (b k : nat) : outcome R :=
  match nth_error (h_bufs h) b with
  | Some B => if k <? b_size B then Ok (b_data B k) else UB
  | None => UB
  end.

Fixpoint lupd {A} (l : list A) (k : nat) (a : A) : list A :=
  match l, k with
  | [], _ => []
  | _ :: t, O => a :: t
  | x :: t, S k' => x :: lupd t k' a
  end.

Definition poke (h : heap) (b k : nat) (v : R) : outcome heap :=
  match nth_error (h_bufs h) b with
  | Some B => if k <? b_size B
              then Ok (Heap (lupd (h_bufs h) b (Buf (b_size B) (fun i => if i =? k then v else b_data B i))) (h_next h))
              else UB
  | None => UB
  end.

Definition addr (d : hdense) (i j : nat) : nat := h_off d + i * h_stride d + j.

(** operator(), dense.cpp:182-192 *)
Definition h_get (h : heap) (d : hdense) (i j : nat) : outcome R :=
  assert! i <? h_r d in assert! j <? h_c d in peek h (h_buf d) (addr d i j).
Definition h_set (h : heap) (d : hdense) (i j : nat) (v : R) : outcome heap :=
  assert! i <? h_r d in assert! j <? h_c d in poke h (h_buf d) (addr d i j) v.

(** operator[], dense.cpp:160-180 *)
Definition addr1 (d : hdense) (i : nat) : outcome nat :=
  assert! (h_r d =? 1) || (h_c d =? 1) in
  if h_r d =? 1 then (assert! i <? h_c d in Ok (h_off d + i))
  else (assert! i <? h_r d in Ok (h_off d + i * h_stride d)).
Definition h_get1 (h : heap) (d : hdense) (i : nat) : outcome R :=
  let* k := addr1 d i in peek h (h_buf d) k.
Definition h_set1 (h : heap) (d : hdense) (i : nat) (v : R) : outcome heap :=
  let* k := addr1 d i in poke h (h_buf d) k v.

(** ** Loops over entries *)

(** for (i,j): A(i,j) = w, where w may read the current contents. *)
Fixpoint h_loop (l : list (nat * nat)) (A : hdense) (w : heap -> nat -> nat -> outcome R) (h : heap) : outcome heap :=
  match l with
  | [] => Ok h
  | (i, j) :: t => let* v := w h i j in let* h' := h_set h A i j v in h_loop t A w h'
  end.

(** ** Constructors *)

(** std::make_shared<std::vector<double>>(n, 0) *)
Definition alloc (h : heap) (n : nat) : heap * nat :=
  (Heap (h_bufs h ++ [Buf n (fun _ => 0%r)]) (h_next h), length (h_bufs h)).
Definition fresh_id (h : heap) : heap * nat := (Heap (h_bufs h) (S (h_next h)), h_next h).

(** Dense(n_rows, n_cols), dense.cpp:108-113 *)
Definition h_new (h : heap) (r c : nat) : heap * hdense :=
  let '(h1, u) := fresh_id h in
  let '(h2, b) := alloc h1 (r * c) in
  (h2, HD r c c b 0 0 0 u).

(** copy_to, dense.cpp:141-149 *)
Definition h_copy_to (h : heap) (this A : hdense) (rs cs : nat) : outcome heap :=
  assert! h_r A + rs <=? h_r this in
  assert! h_c A + cs <=? h_c this in
  h_loop (ij_all (h_r A) (h_c A)) A (fun h i j => h_get h this (rs + i) (cs + j)) h.

(** fill_dense_from(Dense, Dense), dense.cpp:78-82 *)
Definition h_fill_from (h : heap) (A B : hdense) : outcome heap :=
  assert! h_r A =? h_r B in assert! h_c A =? h_c B in h_copy_to h A B 0 0.

(** Dense(const Dense&), dense.cpp:35-42 *)
Definition h_copy (h : heap) (A : hdense) : outcome (heap * hdense) :=
  let '(h1, d) := h_new h (h_r A) (h_c A) in
  let* h2 := h_fill_from h1 A d in Ok (h2, d).

(** operator=(const Dense&), dense.cpp:44-54; [self] says whether A is the assigned
    object itself, whose new storage is then also what is copied from. *)
Definition h_assign (h : heap) (self : bool) (A : hdense) : outcome (heap * hdense) :=
  let '(h1, b) := alloc h (h_r A * h_c A) in
  let d := HD (h_r A) (h_c A) (h_stride A) b 0 0 0 (h_id A) in
  let* h2 := h_fill_from h1 (if self then d else A) d in
  let '(h3, u) := fresh_id h2 in
  Ok (h3, HD (h_r A) (h_c A) (h_stride A) b 0 0 0 u).

(** operator=(double), dense.cpp:151-158 *)
Definition h_fill (h : heap) (A : hdense) (a : R) : outcome heap :=
  h_loop (ij_all (h_r A) (h_c A)) A (fun _ _ _ => Ok a) h.

(** shallow_copy, dense.cpp:198-207 *)
Definition h_shallow (A : hdense) : hdense :=
  HD (h_r A) (h_c A) (h_stride A) (h_buf A) (h_r0 A) (h_c0 A) (h_off A) (h_id A).

(** is_submatrix, dense.cpp:209-214 *)
Definition is_submatrix (h : heap) (A : hdense) : bool :=
  negb ((h_r0 A =? 0) && (h_c0 A =? 0) && (size h (h_buf A) =? h_r A * h_c A)).

(** One child of a non-copying split, dense.cpp:234-243 *)
Definition h_view (h : heap) (A : hdense) (rr cr : nat * nat) : heap * hdense :=
  let '(h1, u) := fresh_id h in
  (h1, HD (snd rr) (snd cr) (h_stride A) (h_buf A) (h_r0 A + fst rr) (h_c0 A + fst cr)
          ((h_r0 A + fst rr) * h_stride A + (h_c0 A + fst cr)) u).

(** One child of a copying split, dense.cpp:225-229 *)
Definition h_cut (h : heap) (A : hdense) (rr cr : nat * nat) : outcome (heap * hdense) :=
  let '(h1, d) := h_new h (snd rr) (snd cr) in
  let* h2 := h_copy_to h1 A d (fst rr) (fst cr) in Ok (h2, d).

Definition pairs {A B} (l : list A) (m : list B) : list (A * B) := flat_map (fun a => map (fun b => (a, b)) m) l.

(** Dense::split, dense.cpp:218-249: the children in row-major order. *)
Fixpoint h_children (l : list ((nat * nat) * (nat * nat))) (copy : bool) (A : hdense) (h : heap) : outcome (heap * list hdense) :=
  match l with
  | [] => Ok (h, [])
  | (rr, cr) :: t =>
      let* (h1, d) := if copy then h_cut h A rr cr else Ok (h_view h A rr cr) in
      let* (h2, ds) := h_children t copy A h1 in
      Ok (h2, d :: ds)
  end.
Definition h_split (h : heap) (A : hdense) (rs cs : list (nat * nat)) (copy : bool) : outcome (heap * list hdense) :=
  h_children (pairs rs cs) copy A h.

(** resize, src/operations/misc/resize.cpp:27-35 *)
Definition h_resize (h : heap) (A : hdense) (r c : nat) : outcome (heap * hdense) :=
  assert! r <=? h_r A in assert! c <=? h_c A in
  let '(h1, d) := h_new h r c in
  let* h2 := h_copy_to h1 A d 0 0 in Ok (h2, d).

(** transpose, src/operations/misc/transpose.cpp:24-32; the loop runs over the source. *)
Definition h_transpose (h : heap) (A : hdense) : outcome (heap * hdense) :=
  let '(h1, d) := h_new h (h_c A) (h_r A) in
  let* h2 := h_loop (map (fun ij => (snd ij, fst ij)) (ij_all (h_r A) (h_c A))) d
                    (fun h i j => h_get h A j i) h1 in
  Ok (h2, d).

(** ** Histories *)

(** Objects are numbered in the order of their construction; a moved-from object is
    no longer usable (its data is null). *)
Record state := St { s_heap : heap; s_objs : list (option hdense) }.
Definition init : state := St empty_heap [].

Inductive cmd :=
| Cnew (r c : nat)
| Ccopy (k : nat)
| Cassign (k l : nat)                          (* k = l *)
| Cshallow (k : nat)
| Cmove (k : nat)
| Csplit (k : nat) (rs cs : list (nat * nat)) (copy : bool)
| Cresize (k r c : nat)
| Ctranspose (k : nat)
| Cset (k i j : nat) (v : R)
| Cset1 (k i : nat) (v : R)
| Cfill (k : nat) (v : R)
| Ccopyto (k l rs cs : nat).                   (* k.copy_to(l, rs, cs) *)

Definition obj (s : state) (k : nat) : outcome hdense :=
  match nth_error (s_objs s) k with Some (Some d) => Ok d | _ => UB end.

Definition push (s : state) (h : heap) (ds : list hdense) : state := St h (s_objs s ++ map Some ds).

Definition step (s : state) (c : cmd) : outcome state :=
  match c with
  | Cnew r c => let '(h, d) := h_new (s_heap s) r c in Ok (push s h [d])
  | Ccopy k => let* a := obj s k in let* (h, d) := h_copy (s_heap s) a in Ok (push s h [d])
  | Cassign k l =>
      let* a := obj s k in let* b := obj s l in
      let* (h, d) := h_assign (s_heap s) (k =? l) b in
      Ok (St h (lupd (s_objs s) k (Some d)))
  | Cshallow k => let* a := obj s k in Ok (push s (s_heap s) [h_shallow a])
  | Cmove k => let* a := obj s k in Ok (St (s_heap s) (lupd (s_objs s) k None ++ [Some a]))
  | Csplit k rs cs copy => let* a := obj s k in let* (h, ds) := h_split (s_heap s) a rs cs copy in Ok (push s h ds)
  | Cresize k r c => let* a := obj s k in let* (h, d) := h_resize (s_heap s) a r c in Ok (push s h [d])
  | Ctranspose k => let* a := obj s k in let* (h, d) := h_transpose (s_heap s) a in Ok (push s h [d])
  | Cset k i j v => let* a := obj s k in let* h := h_set (s_heap s) a i j v in Ok (St h (s_objs s))
  | Cset1 k i v => let* a := obj s k in let* h := h_set1 (s_heap s) a i v in Ok (St h (s_objs s))
  | Cfill k v => let* a := obj s k in let* h := h_fill (s_heap s) a v in Ok (St h (s_objs s))
  | Ccopyto k l rs cs =>
      let* a := obj s k in let* b := obj s l in
      let* h := h_copy_to (s_heap s) a b rs cs in Ok (St h (s_objs s))
  end.

Fixpoint run (cs : list cmd) (s : state) : outcome state :=
  match cs with
  | [] => Ok s
  | c :: t => let* s' := step s c in run t s'
  end.

End Heap.
Arguments buffer : clear implicits.
Arguments heap : clear implicits.
Arguments state : clear implicits.
Arguments cmd : clear implicits.
