(** Specification vocabulary for matrix trees. *)
From Coq Require Import List Arith ZArith Lia Bool.
From Verif Require Import Prelude Ring MatFun Matrix MatOps.
Import ListNotations.

Section Spec.
Context {R : cring}.
Notation dense := (dense R).
Notation lowrank := (lowrank R).
Notation matrix := (matrix R).
Notation mat := (mat R).

(** No Empty block anywhere. *)
Fixpoint no_empty (A : matrix) : Prop :=
  match A with
  | MH m n b => forall i j, i < m -> j < n -> no_empty (b i j)
  | ME _ _ => False
  | _ => True
  end.

(** What a split of [A] yields: a well formed block matrix with the same entries. *)
Definition split_of (A H : matrix) (m n : nat) (h w : nat -> nat) : Prop :=
  exists b, H = MH m n b /\ wf H /\
    (forall i j, i < m -> j < n -> nrows (b i j) = h i /\ ncols (b i j) = w j) /\
    nrows H = nrows A /\ ncols H = ncols A /\
    feq (nrows A) (ncols A) (ent H) (ent A).

(** Diagonal blocks are again of a class for which zero_lower/zero_upper exist,
    and the diagonal of the block layout is the diagonal of the matrix. *)
Fixpoint tri_ok (A : matrix) : Prop :=
  match A with
  | MD _ => True
  | MH m n b =>
      (forall i, i < m -> i < n -> tri_ok (b i i) /\ nrows (b i i) = ncols (b i i)) /\
      (forall i j, i < m -> j < n -> i <> j -> no_empty (b i j))
  | _ => False
  end.

(** Keep the upper triangle with the diagonal / the lower triangle with the diagonal. *)
Definition upper (f : mat) : mat := fun i j => if j <? i then 0%r else f i j.
Definition lower (f : mat) : mat := fun i j => if i <? j then 0%r else f i j.


(** Decision procedure for [wf], for concrete instances. *)
Definition all_below (n : nat) (f : nat -> bool) : bool := forallb f (seq 0 n).

Fixpoint wfb (A : matrix) : bool :=
  match A with
  | ML l => (d_r (l_U l) =? l_r l) && (d_c (l_U l) =? d_r (l_S l)) &&
            (d_c (l_S l) =? d_r (l_V l)) && (d_c (l_V l) =? l_c l)
  | MH m n b =>
      (0 <? m) && (0 <? n) &&
      all_below m (fun i => all_below n (fun j =>
        wfb (b i j) && (nrows (b i j) =? nrows (b i 0)) && (ncols (b i j) =? ncols (b 0 j))))
  | _ => true
  end.

Lemma all_below_spec n f : all_below n f = true -> forall i, i < n -> f i = true.
Proof.
  unfold all_below. rewrite forallb_forall. intros H i Hi. apply H. apply in_seq. lia.
Qed.

Lemma wfb_wf A : wfb A = true -> wf A.
Proof.
  induction A as [d|l|m n b IH|r c]; simpl; auto.
  - rewrite !andb_true_iff, !Nat.eqb_eq. unfold lr_wf. tauto.
  - rewrite !andb_true_iff, !Nat.ltb_lt. intros [[Hm Hn] H]. split; auto. split; auto.
    intros i j Hi Hj. pose proof (all_below_spec _ _ (all_below_spec _ _ H i Hi) j Hj) as E.
    cbv beta in E. rewrite !andb_true_iff, !Nat.eqb_eq in E. destruct E as [[E1 E2] E3]. auto.
Qed.

(** ... and for [no_empty]. *)
Fixpoint no_emptyb (A : matrix) : bool :=
  match A with
  | MH m n b => all_below m (fun i => all_below n (fun j => no_emptyb (b i j)))
  | ME _ _ => false
  | _ => true
  end.

Lemma no_emptyb_spec A : no_emptyb A = true -> no_empty A.
Proof.
  induction A as [d|l|m n b IH|r c]; simpl; auto; [|discriminate].
  intros H i j Hi Hj. apply IH. exact (all_below_spec _ _ (all_below_spec _ _ H i Hi) j Hj).
Qed.

End Spec.

(** Concrete matrices from lists of rows, and back. *)
Definition of_rows {R : cring} (l : list (list R)) : dense R :=
  Dn (length l) (match l with [] => 0 | r :: _ => length r end)
     (fun i j => nth j (nth i l []) 0%r).

Definition to_rows {R : cring} (A : dense R) : list (list R) :=
  map (fun i => map (fun j => d_e A i j) (seq 0 (d_c A))) (seq 0 (d_r A)).

Definition of_blocks {R : cring} (l : list (list (matrix R))) : matrix R :=
  MH (length l) (match l with [] => 0 | r :: _ => length r end)
     (fun i j => nth j (nth i l []) (ME 0 0)).

(** The rows of the dense conversion. *)
Definition show {R : cring} (A : matrix R) : outcome (list (list R)) :=
  let* d := densify A in Ok (to_rows d).

(** Integer matrices for concrete instances. *)
Definition Q0 : QArith_base.Q := QArith_base.inject_Z 0.
Definition zd (l : list (list Z)) : dense Zring := @of_rows Zring l.
