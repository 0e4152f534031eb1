(** Matrices that are divided along common cluster trees. *)
From Coq Require Import List Arith ZArith QArith Lia Bool.
From Verif Require Import Prelude IndexRange IndexRangeSpec Ring MatFun Matrix MatOps Gemm Triangular.
Import ListNotations.
Local Open Scope nat_scope.

(** ** Axes *)

(** How one dimension is divided: [Leaf n] is not; [Node n k c] has k parts. *)
Inductive axis := Leaf (n : nat) | Node (n k : nat) (c : nat -> axis).

Definition asize (a : axis) : nat := match a with Leaf n => n | Node n _ _ => n end.
Definition deg (a : axis) : nat := match a with Leaf _ => 1 | Node _ k _ => k end.
Definition sub (a : axis) (i : nat) : axis := match a with Leaf n => Leaf n | Node _ _ c => c i end.

(** Size of part i of n when IndexRange::split makes k parts (index_range.cpp:20-33). *)
Definition part (n k i : nat) : nat :=
  Z.to_nat (ir_n (ir_split_child (IR 0 (Z.of_nat n)) (Z.of_nat k) (Z.of_nat i))).

Definition divides (n k : nat) : Prop :=
  tiles (IR 0 (Z.of_nat n)) (ir_split (IR 0 (Z.of_nat n)) (Z.of_nat k)).

(** Every division is into at least two parts, is the one IndexRange::split makes, and
    tiles. *)
Fixpoint valid (a : axis) : Prop :=
  match a with
  | Leaf _ => True
  | Node n k c => 2 <= k /\ divides n k /\ forall i, i < k -> asize (c i) = part n k i /\ valid (c i)
  end.

(** d levels of k parts each. *)
Fixpoint uniform (n k d : nat) : axis :=
  match d with
  | O => Leaf n
  | S d' => if k <=? 1 then Leaf n else Node n k (fun i => uniform (part n k i) k d')
  end.

Section Spec.
Context {R : cring}.
Notation dense := (dense R).
Notation lowrank := (lowrank R).
Notation matrix := (matrix R).

(** What is known of the middle factors of LowRank blocks: of their numbers of rows and
    columns ([QS]), of the blocks to which is added ([P]), and of those to which compressed
    products may be added ([E]). *)
Variable QS : nat -> nat -> Prop.
Variable P : lowrank -> Prop.
Variable E : lowrank -> Prop.
Definition mid (l : lowrank) : Prop := QS (d_r (l_S l)) (d_c (l_S l)).

(** A matrix whose rows are divided along r and whose columns along c.  A Dense or
    LowRank may stand for any part, a Hierarchical is divided as both axes are; no block
    is empty. *)
Fixpoint fit (r c : axis) (A : matrix) : Prop :=
  match A with
  | MD d => d_r d = asize r /\ d_c d = asize c
  | ML l => lr_wf l /\ l_r l = asize r /\ l_c l = asize c /\ mid l
  | MH m n b => m = deg r /\ n = deg c /\ forall i j, i < m -> j < n -> fit (sub r i) (sub c j) (b i j)
  | ME _ _ => False
  end.

(** Every LowRank has P and E; no Hierarchical has a single block. *)
Fixpoint good (A : matrix) : Prop :=
  match A with
  | MD _ => True
  | ML l => P l /\ E l
  | MH m n b => ~ (m = 1 /\ n = 1) /\ forall i j, i < m -> j < n -> good (b i j)
  | ME _ _ => False
  end.

(** Every LowRank has P. *)
Fixpoint allp (A : matrix) : Prop :=
  match A with
  | ML l => P l
  | MH m n b => forall i j, i < m -> j < n -> allp (b i j)
  | _ => True
  end.

(** All blocks off the diagonal LowRank, at all levels. *)
Fixpoint hodlr (A : matrix) : Prop :=
  match A with
  | MD _ => True
  | MH m n b => m = n /\ (forall i, i < m -> hodlr (b i i)) /\
                forall i j, i < m -> j < m -> i <> j -> exists l, b i j = ML l
  | _ => False
  end.

(** Same tree; what is known of a LowRank stays so. *)
Fixpoint ske (A B : matrix) : Prop :=
  match A, B with
  | MD _, MD _ => True
  | ML a, ML b => (P a -> P b) /\ (E a -> E b) /\ (mid a -> mid b)
  | MH m n a, MH m' n' b => m' = m /\ n' = n /\ forall i j, i < m -> j < n -> ske (a i j) (b i j)
  | _, _ => False
  end.

(** The low-rank arithmetic does not fail on such blocks, and keeps what is known of them
    (addition.cpp:191-203, low_rank.cpp:40-69). *)
Record policy (O : oracles R) : Prop := {
  po_same : forall a b, l_r b = l_r a -> l_c b = l_c a -> l_rank b = l_rank a -> l_eps b = l_eps a ->
    d_r (l_S b) = d_r (l_S a) -> d_c (l_S b) = d_c (l_S a) -> (P a -> P b) /\ (E a -> E b);
  po_link : forall a b c d, QS a b -> QS c d -> QS a d;
  po_add : forall a b, P a -> mid a -> mid b -> lr_wf a -> lr_wf b -> l_r a = l_r b -> l_c a = l_c b ->
    exists c, lr_add O a b = Ok c /\ P c /\ mid c /\ (E a -> E c);
  po_eps : forall l d, P l -> E l -> d_r d = l_r l -> d_c d = l_c l ->
    use_eps l = true /\ exists c, ceps O d (l_eps l) = Ok c /\ P c /\ mid c /\ E c
}.

Definition nh (A : matrix) : Prop := forall m n b, A <> MH m n b.

(** A triangle along one axis: its Dense or Hierarchical diagonal blocks are triangles,
    the blocks on one side of the diagonal are there. *)
Fixpoint tfit (u : mode) (r : axis) (A : matrix) : Prop :=
  match A with
  | MD d => d_r d = asize r /\ d_c d = asize r
  | MH m n a => m = deg r /\ n = deg r /\ (forall i, i < m -> tfit u (sub r i) (a i i)) /\
      forall i j, i < m -> j < m -> match u with Upper => i < j | Lower => j < i end -> fit (sub r i) (sub r j) (a i j)
  | _ => False
  end.

(** Where the diagonal of A is not divided any further, B is not either. *)
Fixpoint below (s : side) (A B : matrix) {struct A} : Prop :=
  match A with
  | MH m n a =>
      match B with
      | MH m' n' b => forall i j, i < m' -> j < n' -> below s (a (along s i j) (along s i j)) (b i j)
      | _ => True
      end
  | _ => nh B
  end.

(** The same for the diagonal block and the rest of its block row and block column, at
    all levels of the diagonal; the diagonal blocks are Dense or Hierarchical. *)
Fixpoint tower (A : matrix) : Prop :=
  match A with
  | MD _ => True
  | MH m n a => m = n /\ (forall i, i < m -> tower (a i i)) /\
      forall i j, i < j -> j < m -> below SLeft (a i i) (a i j) /\ below SRight (a i i) (a j i)
  | _ => False
  end.
End Spec.
