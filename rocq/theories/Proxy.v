(** Programs over MatrixProxy objects (src/classes/matrix_proxy.cpp,
    include/FRANK/classes/matrix_proxy.h, src/classes/hierarchical.cpp), run twice: on
    trees of objects over shared storage, as the code does, and on plain values. *)
From Coq Require Import List Arith ZArith QArith Lia Bool.
From Verif Require Import Prelude Ring MatFun Matrix MatOps Heap Tree.
Import ListNotations.
Local Open Scope nat_scope.

(** Block (i1,j1) of block (i0,j0) of ... *)
Definition path := list (nat * nat).

(** Which Dense of an object: itself, or a factor of a LowRank. *)
Inductive comp := cD | cU | cS | cV.

Section Model.
Context {R : cring}.
Notation heap := (heap R).

Inductive vcmd :=
| VDense (r c : nat)                             (* Dense(r, c) *)
| VEmpty (r c : nat)                             (* Empty(r, c) *)
| VLow                                           (* LowRank of the last three objects, moved *)
| VGrid (m n : nat)                              (* Hierarchical(m, n), blocks moved from the last m*n objects *)
| VCopy (k : nat) (p : path)                     (* MatrixProxy(A_k(p)) *)
| VMove (k : nat)                                (* MatrixProxy(std::move(A_k)) *)
| VAssign (k : nat) (p : path) (l : nat) (q : path)  (* A_k(p) = A_l(q) *)
| VSet (k : nat) (p : path) (w : comp) (i j : nat) (v : R). (* element of a Dense in A_k(p) *)

(** ** As the code does it *)

Definition vobj {T} (ts : list T) (k : nat) : outcome T :=
  match nth_error ts k with Some t => Ok t | None => Abort end.

(** Hierarchical::operator(), hierarchical.cpp:170-180, then the conversion of a proxy to
    a Matrix, matrix_proxy.cpp:78-86. *)
Fixpoint tget (T : htree) (p : path) {struct p} : outcome htree :=
  match p with
  | [] => match T with TN => AssertFail | _ => Ok T end
  | (i, j) :: p' =>
    match T with
    | TH m n f => assert! i <? m in assert! j <? n in tget (f i j) p'
    | TN => AssertFail
    | _ => Abort
    end
  end.

(** What the proxy at a path holds from now on. *)
Fixpoint tput (T : htree) (p : path) (X : htree) {struct p} : outcome htree :=
  match p with
  | [] => Ok X
  | (i, j) :: p' =>
    match T with
    | TH m n f => assert! i <? m in assert! j <? n in
                  let* x := tput (f i j) p' X in Ok (TH m n (put f i j x))
    | TN => AssertFail
    | _ => Abort
    end
  end.

Definition tcomp (T : htree) (w : comp) : outcome hdense :=
  match T, w with
  | TD d, cD => Ok d
  | TL l, cU => Ok (q_U l)
  | TL l, cS => Ok (q_S l)
  | TL l, cV => Ok (q_V l)
  | _, _ => Abort
  end.

Definition null (T : htree) : bool := match T with TN => true | _ => false end.

Definition vstep (s : heap * list htree) (c : vcmd) : outcome (heap * list htree) :=
  let '(h, ts) := s in
  match c with
  | VDense r c => let '(h', d) := h_new h r c in Ok (h', ts ++ [TD d])
  | VEmpty r c => Ok (h, ts ++ [TE r c])
  (* low_rank.cpp:77-79 *)
  | VLow => let k := length ts - 3 in
            match skipn k ts with
            | [TD U; TD D; TD V] => Ok (h, firstn k ts ++ [TL (low_make U D V)])
            | _ => Abort
            end
  (* hierarchical.cpp:46-47 and MatrixProxy::operator=(MatrixProxy&&) per block *)
  | VGrid m n => let k := length ts - m * n in
            if length ts <? m * n then Abort
            else if existsb null (skipn k ts) then AssertFail
            else Ok (h, firstn k ts ++ [TH m n (fun i j => nth (i * n + j) (skipn k ts) TN)])
  (* matrix_proxy.cpp:68, 74 *)
  | VCopy k p => let* T := vobj ts k in
            let* B := tget T p in
            let* (h', X) := clone B h in Ok (h', ts ++ [X])
  | VMove k => let* T := vobj ts k in Ok (h, lupd ts k TN ++ [T])
  (* matrix_proxy.cpp:69-72 *)
  | VAssign k p l q => let* T := vobj ts k in
            let* T1 := vobj ts l in
            let* B := tget T1 q in
            let* _ := tput T p TN in
            let* (h', X) := clone B h in
            let* T' := tput T p X in Ok (h', lupd ts k T')
  | VSet k p w i j v => let* T := vobj ts k in
            let* B := tget T p in
            let* d := tcomp B w in
            let* h' := h_set h d i j v in Ok (h', ts)
  end.

Fixpoint vrun (s : heap * list htree) (cs : list vcmd) : outcome (heap * list htree) :=
  match cs with
  | [] => Ok s
  | c :: t => let* s' := vstep s c in vrun s' t
  end.

(** ** On values: objects are independent, copying duplicates the value *)

Fixpoint mget (M : option (matrix R)) (p : path) : outcome (matrix R) :=
  match p, M with
  | _, None => AssertFail
  | [], Some M => Ok M
  | (i, j) :: p', Some (MH m n f) => assert! i <? m in assert! j <? n in mget (Some (f i j)) p'
  | _, _ => Abort
  end.

Fixpoint mput (M : option (matrix R)) (p : path) (X : matrix R) : outcome (matrix R) :=
  match p, M with
  | [], _ => Ok X
  | _, None => AssertFail
  | (i, j) :: p', Some (MH m n f) => assert! i <? m in assert! j <? n in
      let* x := mput (Some (f i j)) p' X in Ok (MH m n (put f i j x))
  | _, _ => Abort
  end.

Definition dset (d : dense R) (i j : nat) (v : R) : outcome (dense R) :=
  assert! i <? d_r d in assert! j <? d_c d in Ok (Dn (d_r d) (d_c d) (put (d_e d) i j v)).

Definition mset (M : matrix R) (w : comp) (i j : nat) (v : R) : outcome (matrix R) :=
  match M, w with
  | MD d, cD => let* d' := dset d i j v in Ok (MD d')
  | ML l, cU => let* d' := dset (l_U l) i j v in Ok (ML (Lr (l_r l) (l_c l) (l_rank l) (l_eps l) d' (l_S l) (l_V l)))
  | ML l, cS => let* d' := dset (l_S l) i j v in Ok (ML (Lr (l_r l) (l_c l) (l_rank l) (l_eps l) (l_U l) d' (l_V l)))
  | ML l, cV => let* d' := dset (l_V l) i j v in Ok (ML (Lr (l_r l) (l_c l) (l_rank l) (l_eps l) (l_U l) (l_S l) d'))
  | _, _ => Abort
  end.

Definition nothing (M : option (matrix R)) : bool := match M with None => true | _ => false end.
Definition the (M : option (matrix R)) : matrix R := match M with Some M => M | None => ME 0 0 end.

Definition astep (ms : list (option (matrix R))) (c : vcmd) : outcome (list (option (matrix R))) :=
  match c with
  | VDense r c => Ok (ms ++ [Some (MD (Dn r c mzero))])
  | VEmpty r c => Ok (ms ++ [Some (ME r c)])
  | VLow => let k := length ms - 3 in
            match skipn k ms with
            | [Some (MD U); Some (MD D); Some (MD V)] => Ok (firstn k ms ++ [Some (ML (lr_make U D V))])
            | _ => Abort
            end
  | VGrid m n => let k := length ms - m * n in
            if length ms <? m * n then Abort
            else if existsb nothing (skipn k ms) then AssertFail
            else Ok (firstn k ms ++ [Some (MH m n (fun i j => the (nth (i * n + j) (skipn k ms) None)))])
  | VCopy k p => let* M := vobj ms k in let* B := mget M p in Ok (ms ++ [Some B])
  | VMove k => let* M := vobj ms k in Ok (lupd ms k None ++ [M])
  | VAssign k p l q => let* M := vobj ms k in
            let* N := vobj ms l in
            let* B := mget N q in
            let* M' := mput M p B in Ok (lupd ms k (Some M'))
  | VSet k p w i j v => let* M := vobj ms k in
            let* B := mget M p in
            let* B' := mset B w i j v in
            let* M' := mput M p B' in Ok (lupd ms k (Some M'))
  end.

Fixpoint arun (ms : list (option (matrix R))) (cs : list vcmd) : outcome (list (option (matrix R))) :=
  match cs with
  | [] => Ok ms
  | c :: t => let* ms' := astep ms c in arun ms' t
  end.
End Model.
Arguments vcmd : clear implicits.
