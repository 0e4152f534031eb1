(** Values of the matrix classes: Dense, LowRank, Hierarchical and Empty.

    A Dense is modelled by its dimensions and entries; storage, strides and
    sharing are the subject of the heap model (Heap.v).  Blocks of a
    Hierarchical are given by a function of the block position; only positions
    inside the block dimensions are ever looked at. *)
From Coq Require Import List Arith ZArith QArith Lia Bool Ring_theory Ring.
From Verif Require Import Ring MatFun.
Import ListNotations.
Local Open Scope nat_scope.

Section Matrix.
Context {R : cring}.

(** include/FRANK/classes/dense.h:46-63: dim and the entries. *)
Record dense := Dn { d_r : nat; d_c : nat; d_e : mat R }.

(** include/FRANK/classes/low_rank.h:27-47: dim, rank, eps, U, S, V. *)
Record lowrank := Lr {
  l_r : nat; l_c : nat; l_rank : nat; l_eps : Q;
  l_U : dense; l_S : dense; l_V : dense
}.

(** include/FRANK/classes/hierarchical.h:38-49 (dim and data), empty.h. *)
Inductive matrix :=
| MD (d : dense)
| ML (l : lowrank)
| MH (m n : nat) (b : nat -> nat -> matrix)
| ME (r c : nat).

(** src/operations/misc/get_dim.cpp:20-36.  For a Hierarchical the heights of the
    first block column are added up. *)
Fixpoint nrows (A : matrix) : nat :=
  match A with
  | MD d => d_r d
  | ML l => l_r l
  | MH m _ b => offs (fun i => nrows (b i 0)) m
  | ME r _ => r
  end.

(** src/operations/misc/get_dim.cpp:44-60. *)
Fixpoint ncols (A : matrix) : nat :=
  match A with
  | MD d => d_c d
  | ML l => l_c l
  | MH _ n b => offs (fun j => ncols (b 0 j)) n
  | ME _ c => c
  end.

(** ** Specification side *)

(** Entries represented by U*S*V. *)
Definition lr_ent (l : lowrank) : mat R :=
  mmul (d_c (l_U l)) (d_e (l_U l)) (mmul (d_c (l_S l)) (d_e (l_S l)) (d_e (l_V l))).

(** Entries represented by a matrix. *)
Fixpoint ent (A : matrix) : mat R :=
  match A with
  | MD d => d_e d
  | ML l => lr_ent l
  | MH m n b => fun i j =>
      let '(bi, i') := locate (fun k => nrows (b k 0)) m i in
      let '(bj, j') := locate (fun k => ncols (b 0 k)) n j in
      ent (b bi bj) i' j'
  | ME _ _ => mzero
  end.

(** Shapes of the factors fit together. *)
Definition lr_wf (l : lowrank) : Prop :=
  d_r (l_U l) = l_r l /\ d_c (l_U l) = d_r (l_S l) /\
  d_c (l_S l) = d_r (l_V l) /\ d_c (l_V l) = l_c l.

(** A well formed matrix tree: at least one block, and blocks of one block row
    (column) have the same number of rows (columns). *)
Fixpoint wf (A : matrix) : Prop :=
  match A with
  | MD _ => True
  | ML l => lr_wf l
  | MH m n b =>
      0 < m /\ 0 < n /\
      forall i j, i < m -> j < n ->
        wf (b i j) /\ nrows (b i j) = nrows (b i 0) /\ ncols (b i j) = ncols (b 0 j)
  | ME _ _ => True
  end.

(** Heights of block rows and widths of block columns. *)
Definition bheight (b : nat -> nat -> matrix) (i : nat) : nat := nrows (b i 0).
Definition bwidth (b : nat -> nat -> matrix) (j : nat) : nat := ncols (b 0 j).

(** Two matrices represent the same numbers. *)
Definition represents (A : matrix) (r c : nat) (f : mat R) : Prop :=
  nrows A = r /\ ncols A = c /\ feq r c (ent A) f.

Lemma ent_block m n b bi bj i j :
  bi < m -> bj < n -> i < bheight b bi -> j < bwidth b bj ->
  ent (MH m n b) (offs (bheight b) bi + i) (offs (bwidth b) bj + j) = ent (b bi bj) i j.
Proof.
  intros H1 H2 H3 H4. unfold bheight, bwidth in *. simpl.
  rewrite (locate_offs (fun k => nrows (b k 0)) m bi i H1 H3).
  rewrite (locate_offs (fun k => ncols (b 0 k)) n bj j H2 H4). reflexivity.
Qed.

(** An entry function agrees with a block matrix iff it does blockwise. *)
Lemma ent_blocks m n b (f : mat R) :
  (forall bi bj i j, bi < m -> bj < n -> i < bheight b bi -> j < bwidth b bj ->
     ent (b bi bj) i j = f (offs (bheight b) bi + i) (offs (bwidth b) bj + j)) ->
  feq (nrows (MH m n b)) (ncols (MH m n b)) (ent (MH m n b)) f.
Proof.
  intros H i j Hi Hj. simpl in Hi, Hj.
  destruct (locate_in _ _ _ Hi) as [bi [i' [E1 [B1 [B2 B3]]]]].
  destruct (locate_in _ _ _ Hj) as [bj [j' [E2 [C1 [C2 C3]]]]].
  simpl. rewrite E1, E2. rewrite H by (auto; unfold bheight, bwidth; auto).
  unfold bheight, bwidth. now rewrite <- B3, <- C3.
Qed.

End Matrix.

Arguments dense R : clear implicits.
Arguments lowrank R : clear implicits.
Arguments matrix R : clear implicits.
