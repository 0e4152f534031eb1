(** Matrix objects as trees of Dense objects over shared storage: MatrixProxy
    (src/classes/matrix_proxy.cpp), LowRank, Hierarchical and Empty. *)
From Coq Require Import List Arith ZArith QArith Lia Bool.
From Verif Require Import Prelude IndexRange Ring MatFun Matrix MatOps Heap.
Import ListNotations.
Local Open Scope nat_scope.

(** include/FRANK/classes/low_rank.h:27-62: dim, rank, eps and the objects U, S, V. *)
Record hlow := HLow {
  q_r : nat; q_c : nat; q_rank : nat; q_eps : Q;
  q_U : hdense; q_S : hdense; q_V : hdense
}.

(** What a MatrixProxy owns (include/FRANK/classes/matrix_proxy.h): nothing ([TN]) or an
    object of one of the classes. *)
Inductive htree :=
| TD (d : hdense)
| TL (l : hlow)
| TH (m n : nat) (f : nat -> nat -> htree)
| TE (r c : nat)
| TN.

(** get_n_rows and get_n_cols, src/operations/misc/get_dim.cpp:20-60. *)
Fixpoint trows (T : htree) : nat :=
  match T with
  | TD d => h_r d
  | TL l => q_r l
  | TH m _ f => offs (fun i => trows (f i 0)) m
  | TE r _ => r
  | TN => 0
  end.
Fixpoint tcols (T : htree) : nat :=
  match T with
  | TD d => h_c d
  | TL l => q_c l
  | TH _ n f => offs (fun j => tcols (f 0 j)) n
  | TE _ c => c
  | TN => 0
  end.

(** LowRank(U, S, V, copy) from objects, low_rank.cpp:71-79. *)
Definition low_make (U D V : hdense) : hlow := HLow (h_r U) (h_c V) (h_r D) 0 U D V.

(** out(i,j) = t in a grid of blocks. *)
Definition put {T} (f : nat -> nat -> T) (i j : nat) (t : T) : nat -> nat -> T :=
  fun i' j' => if (i' =? i) && (j' =? j) then t else f i' j'.

Section Model.
Context {R : cring}.
Notation heap := (heap R).

(** for (i) for (j) out(i,j) = body(i,j), where the body may use the storage. *)
Fixpoint glist (l : list (nat * nat)) (body : nat -> nat -> heap -> outcome (heap * htree)) (h : heap) (f : nat -> nat -> htree) : outcome (heap * (nat -> nat -> htree)) :=
  match l with
  | [] => Ok (h, f)
  | (i, j) :: t => let* (h', x) := body i j h in glist t body h' (put f i j x)
  end.
Definition gridM (m n : nat) (body : nat -> nat -> heap -> outcome (heap * htree)) (h : heap) : outcome (heap * (nat -> nat -> htree)) :=
  glist (ij_all m n) body h (fun _ _ => TN).

(** for (i) for (j) body(i,j), for its effect on the storage. *)
Fixpoint hlist (l : list (nat * nat)) (body : nat -> nat -> heap -> outcome heap) (h : heap) : outcome heap :=
  match l with
  | [] => Ok h
  | (i, j) :: t => let* h' := body i j h in hlist t body h'
  end.

(** ** Copies *)

(** LowRank(const LowRank&), low_rank.h: memberwise. *)
Definition low_copy (l : hlow) (h : heap) : outcome (heap * hlow) :=
  let* (h1, U) := h_copy h (q_U l) in
  let* (h2, D) := h_copy h1 (q_S l) in
  let* (h3, V) := h_copy h2 (q_V l) in
  Ok (h3, HLow (q_r l) (q_c l) (q_rank l) (q_eps l) U D V).

(** clone, matrix_proxy.cpp:22-42, and the conversion of a proxy to a Matrix with its
    assert (78-86).  Copying a Hierarchical copies the vector of its blocks. *)
Fixpoint clone (T : htree) (h : heap) : outcome (heap * htree) :=
  match T with
  | TD d => let* (h', d') := h_copy h d in Ok (h', TD d')
  | TL l => let* (h', l') := low_copy l h in Ok (h', TL l')
  | TH m n f => let* (h', f') := gridM m n (fun i j => clone (f i j)) h in Ok (h', TH m n f')
  | TE r c => Ok (h, TE r c)
  | TN => AssertFail
  end.

(** shallow_copy, src/operations/misc/misc.cpp:286-316. *)
Definition low_shallow (l : hlow) : hlow :=
  let s := low_make (h_shallow (q_U l)) (h_shallow (q_S l)) (h_shallow (q_V l)) in
  HLow (q_r s) (q_c s) (q_rank s) (q_eps l) (q_U s) (q_S s) (q_V s).
Fixpoint tshallow (T : htree) (h : heap) : outcome (heap * htree) :=
  match T with
  | TD d => Ok (h, TD (h_shallow d))
  | TL l => Ok (h, TL (low_shallow l))
  | TH m n f => let* (h', f') := gridM m n (fun i j => tshallow (f i j)) h in Ok (h', TH m n f')
  | TE _ _ => Abort
  | TN => AssertFail
  end.

(** ** split, misc.cpp:148-284 *)

Definition no_dense : hdense := HD 0 0 0 0 0 0 0 0.

(** Blocks of U below each other (209-221) or of V next to each other (222-234); a single
    block is the whole matrix. *)
Definition split_factor (d : hdense) (rs cs : list (nat * nat)) (k : nat) (copy : bool) (h : heap) : outcome (heap * list hdense) :=
  if 1 <? k then h_split h d rs cs copy
  else if copy then let* (h', d') := h_copy h d in Ok (h', [d']) else Ok (h, [h_shallow d]).

(** LowRank(U_splits[i], A.S, V_splits[j], copy), 236-240 with low_rank.cpp:71-75. *)
Definition low_block (U D V : hdense) (copy : bool) (h : heap) : outcome (heap * htree) :=
  if copy then
    let* (h1, U') := h_copy h U in
    let* (h2, D') := h_copy h1 D in
    let* (h3, V') := h_copy h2 V in
    Ok (h3, TL (low_make U' D' V'))
  else Ok (h, TL (low_make (h_shallow U) (h_shallow D) (h_shallow V))).

Definition tsplit (T : htree) (rs cs : list (nat * nat)) (copy : bool) (h : heap) : outcome (heap * htree) :=
  let p := length rs in
  let q := length cs in
  match T with
  (* 180-197 *)
  | TD d => let* (h', ds) := h_split h d rs cs copy in
            Ok (h', TH p q (fun i j => TD (nth (i * q + j) ds no_dense)))
  (* 199-241 *)
  | TL l => let* (h1, us) := split_factor (q_U l) rs [(0, h_c (q_U l))] p copy h in
            let* (h2, vs) := split_factor (q_V l) [(0, h_r (q_V l))] cs q copy h1 in
            let* (h3, f) := gridM p q (fun i j => low_block (nth i us no_dense) (q_S l) (nth j vs no_dense) copy) h2 in
            Ok (h3, TH p q f)
  (* 243-273 *)
  | TH m n f => if negb (p =? m) || negb (q =? n) then Abort else
            let* (h', f') := gridM p q (fun i j h =>
               if negb (snd (rg rs i) =? trows (f i j)) || negb (snd (rg cs j) =? tcols (f i j)) then Abort
               else if copy then clone (f i j) h else tshallow (f i j) h) h in
            Ok (h', TH p q f')
  | TE _ _ => Abort
  | TN => AssertFail
  end.

(** split(A, n_row_blocks, n_col_blocks, copy), 158-167. *)
Definition tsplit_n (T : htree) (nr nc : nat) (copy : bool) (h : heap) : outcome (heap * htree) :=
  let* rs := nat_ranges (ir_split (IR 0 (Z.of_nat (trows T))) (Z.of_nat nr)) in
  let* cs := nat_ranges (ir_split (IR 0 (Z.of_nat (tcols T))) (Z.of_nat nc)) in
  tsplit T rs cs copy h.

(** ** operator*=, src/operations/arithmetic/multiplication.cpp:28-60 *)
Definition hscale (d : hdense) (b : R) (h : heap) : outcome heap :=
  h_loop (ij_all (h_r d) (h_c d)) d (fun h i j => let* x := h_get h d i j in Ok (x * b)%r) h.
Fixpoint tscale (T : htree) (b : R) (h : heap) : outcome heap :=
  match T with
  | TD d => hscale d b h
  | TL l => hscale (q_S l) b h
  | TH m n f => hlist (ij_all m n) (fun i j h => tscale (f i j) b h) h
  | TE _ _ => Abort
  | TN => AssertFail
  end.

(** ** Specification side *)

(** The value of an object in a state of the storage. *)
Definition dread (h : heap) (d : hdense) : dense R := Dn (h_r d) (h_c d) (fun i j => val h (h_buf d) (addr d i j)).
Definition lread (h : heap) (l : hlow) : lowrank R :=
  Lr (q_r l) (q_c l) (q_rank l) (q_eps l) (dread h (q_U l)) (dread h (q_S l)) (dread h (q_V l)).
Fixpoint tread (h : heap) (T : htree) : matrix R :=
  match T with
  | TD d => MD (dread h d)
  | TL l => ML (lread h l)
  | TH m n f => MH m n (fun i j => tread h (f i j))
  | TE r c => ME r c
  | TN => ME 0 0
  end.

(** Equality of values: same kind, same dimensions, same entries, block by block. *)
Definition deq (a b : dense R) : Prop := d_r a = d_r b /\ d_c a = d_c b /\ feq (d_r a) (d_c a) (d_e a) (d_e b).
Definition leq (a b : lowrank R) : Prop :=
  l_r a = l_r b /\ l_c a = l_c b /\ l_rank a = l_rank b /\ l_eps a = l_eps b /\
  deq (l_U a) (l_U b) /\ deq (l_S a) (l_S b) /\ deq (l_V a) (l_V b).
Fixpoint mateq (A B : matrix R) : Prop :=
  match A, B with
  | MD a, MD b => deq a b
  | ML a, ML b => leq a b
  | MH m n f, MH m' n' g => m = m' /\ n = n' /\ forall i j, i < m -> j < n -> mateq (f i j) (g i j)
  | ME r c, ME r' c' => r = r' /\ c = c'
  | _, _ => False
  end.

(** The Dense objects an object consists of. *)
Fixpoint tleaf (T : htree) (d : hdense) : Prop :=
  match T with
  | TD e => d = e
  | TL l => d = q_U l \/ d = q_S l \/ d = q_V l
  | TH m n f => exists i j, i < m /\ j < n /\ tleaf (f i j) d
  | TE _ _ => False
  | TN => False
  end.

(** Every proxy of the tree holds an object. *)
Fixpoint nonnull (T : htree) : Prop :=
  match T with
  | TH m n f => forall i j, i < m -> j < n -> nonnull (f i j)
  | TN => False
  | _ => True
  end.
End Model.
Arguments tleaf : simpl nomatch.
