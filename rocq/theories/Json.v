(** JSON output: to_json, src/util/print.cpp:27-125.  The singular values and the
    conversion to text are left out. *)
From Coq Require Import String List Arith ZArith Lia Bool.
From Verif Require Import Prelude Ring MatFun Matrix.
Import ListNotations.
Local Open Scope nat_scope.
Local Open Scope list_scope.

(** type, dim, abs_pos and level (absent for Empty), rank, children. *)
Inductive json := J (type : string) (r c : nat) (pos : option (nat * nat * nat)) (rank : option nat)
                    (children : list (list json)).

Definition j_type '(J t _ _ _ _ _) := t.
Definition j_dim '(J _ r c _ _ _) := (r, c).
Definition j_pos '(J _ _ _ p _ _) := p.
Definition j_children '(J _ _ _ _ _ l) := l.

Section Json.
Context {R : cring}.
Notation matrix := (matrix R).

(** type_omm, print.cpp:29-51 *)
Definition type_of (A : matrix) : string :=
  match A with MD _ => "Dense" | ML _ => "LowRank" | MH _ _ _ => "Hierarchical" | ME _ _ => "Empty" end.

(** print.cpp:53-119; the fallback used for Empty only reports. *)
Fixpoint to_json (A : matrix) (i_abs j_abs level : nat) : json :=
  match A with
  | MH m n b =>
      J (type_of A) (nrows A) (ncols A) (Some (i_abs, j_abs, level)) None
        (map (fun i => map (fun j => to_json (b i j) (i_abs * m + i) (j_abs * n + j) (level + 1)) (seq 0 n)) (seq 0 m))
  | ML l => J (type_of A) (nrows A) (ncols A) (Some (i_abs, j_abs, level)) (Some (l_rank l)) []
  | MD _ => J (type_of A) (nrows A) (ncols A) (Some (i_abs, j_abs, level)) None []
  | ME _ _ => J (type_of A) (nrows A) (ncols A) None None []
  end.

(** ** Specification *)

(** The block reached by choosing blocks (i,j) one after the other. *)
Fixpoint block_at (A : matrix) (p : list (nat * nat)) : option matrix :=
  match p with
  | [] => Some A
  | (i, j) :: q =>
      match A with
      | MH m n b => if (i <? m) && (j <? n) then block_at (b i j) q else None
      | _ => None
      end
  end.
Fixpoint json_at (x : json) (p : list (nat * nat)) : option json :=
  match p with
  | [] => Some x
  | (i, j) :: q =>
      match nth_error (j_children x) i with
      | Some row => match nth_error row j with Some y => json_at y q | None => None end
      | None => None
      end
  end.

(** The position of a block in the grid refined as its ancestors are: block row of the
    parent times the number of block rows the parent is divided into, plus own index. *)
Fixpoint refine (A : matrix) (p : list (nat * nat)) (pos : nat * nat) : nat * nat :=
  match p, A with
  | (i, j) :: q, MH m n b => refine (b i j) q (fst pos * m + i, snd pos * n + j)
  | _, _ => pos
  end.

(** All Hierarchical nodes of a level are divided in the same way. *)
Fixpoint uniform (d : list (nat * nat)) (A : matrix) : Prop :=
  match A with
  | MH m n b => match d with
                | (m', n') :: d' => m = m' /\ n = n' /\ forall i j, i < m -> j < n -> uniform d' (b i j)
                | [] => False
                end
  | _ => True
  end.

Lemma json_children m n (b : nat -> nat -> matrix) x y l i j :
  match nth_error (j_children (to_json (MH m n b) x y l)) i with
  | Some row => nth_error row j
  | None => None
  end = if (i <? m) && (j <? n) then Some (to_json (b i j) (x * m + i) (y * n + j) (l + 1)) else None.
Proof.
  simpl. rewrite nth_error_map.
  destruct (Nat.ltb_spec i m) as [Hi|Hi]; simpl.
  - rewrite (nth_error_nth' (seq 0 m) 0) by (rewrite seq_length; auto). rewrite seq_nth by auto. simpl.
    rewrite nth_error_map. destruct (Nat.ltb_spec j n) as [Hj|Hj].
    + rewrite (nth_error_nth' (seq 0 n) 0) by (rewrite seq_length; auto). rewrite seq_nth by auto. reflexivity.
    + rewrite (proj2 (nth_error_None (seq 0 n) j)) by (rewrite seq_length; auto). reflexivity.
  - rewrite (proj2 (nth_error_None (seq 0 m) i)) by (rewrite seq_length; auto). reflexivity.
Qed.

Theorem json_at_spec p : forall (A : matrix) x y l,
  json_at (to_json A x y l) p =
  match block_at A p with
  | Some B => Some (to_json B (fst (refine A p (x, y))) (snd (refine A p (x, y))) (l + length p))
  | None => None
  end.
Proof.
  induction p as [|[i j] p IH]; intros A x y l; cbn [json_at block_at].
  - cbn [refine fst snd length]. rewrite Nat.add_0_r. destruct A; reflexivity.
  - destruct A as [d|k|m n b|r c].
    + destruct i; reflexivity.
    + destruct i; reflexivity.
    + pose proof (json_children m n b x y l i j) as H. cbn [block_at].
      destruct (nth_error (j_children (to_json (MH m n b) x y l)) i) as [row|].
      * rewrite H. destruct ((i <? m) && (j <? n)); auto. rewrite IH. cbn [refine fst snd length].
        destruct (block_at (b i j) p); auto. replace (l + 1 + length p) with (l + S (length p)) by lia. reflexivity.
      * destruct ((i <? m) && (j <? n)); [discriminate|reflexivity].
    + destruct i; reflexivity.
Qed.

Lemma to_json_facts (A : matrix) x y l :
  j_type (to_json A x y l) = type_of A /\ j_dim (to_json A x y l) = (nrows A, ncols A) /\
  j_pos (to_json A x y l) = (match A with ME _ _ => None | _ => Some (x, y, l) end) /\
  map (@length json) (j_children (to_json A x y l)) = match A with MH m n _ => repeat n m | _ => [] end.
Proof.
  destruct A as [d|k|m n b|r c]; simpl; auto. split; auto. split; auto. split; auto.
  rewrite map_map. rewrite (map_ext _ (fun _ => n)) by (intros; rewrite map_length, seq_length; reflexivity).
  generalize 0. induction m as [|m IH]; intros s; simpl; auto. rewrite IH. reflexivity.
Qed.

(** Positions in uniform trees. *)
Lemma refine_uniform p : forall d (A : matrix) B q C x y x' y', uniform d A -> uniform d B ->
  length q = length p -> block_at A p <> None -> block_at B q = Some C ->
  refine A p (x, y) = refine B q (x', y') -> (x, y) = (x', y') /\ p = q.
Proof.
  induction p as [|[i j] p IH]; intros d A B q C x y x' y' UA UB L HA HB E.
  - destruct q; [|discriminate]. destruct A, B; auto.
  - destruct q as [|[i' j'] q]; [discriminate|]. simpl in L.
    destruct A as [da|ka|m n a|ra ca]; try (simpl in HA; congruence).
    destruct B as [db|kb|m' n' b|rb cb]; try discriminate.
    simpl in HA, HB. destruct d as [|[dm dn] d]; [destruct UA|]. destruct UA as [-> [-> UA]]. destruct UB as [-> [-> UB]].
    destruct (Nat.ltb_spec i dm) as [Hi|Hi]; simpl in HA; [|congruence].
    destruct (Nat.ltb_spec j dn) as [Hj|Hj]; simpl in HA; [|congruence].
    destruct (Nat.ltb_spec i' dm) as [Hi'|Hi']; simpl in HB; [|congruence].
    destruct (Nat.ltb_spec j' dn) as [Hj'|Hj']; simpl in HB; [|congruence].
    cbn [refine fst snd] in E.
    destruct (IH d (a i j) (b i' j') q C _ _ _ _ (UA i j Hi Hj) (UB i' j' Hi' Hj') ltac:(lia) HA HB E) as [E1 E2].
    inversion E1 as [[X Y]].
    destruct (Nat.div_mod_unique dm x x' i i') as [X1 X2]; try lia.
    destruct (Nat.div_mod_unique dn y y' j j') as [Y1 Y2]; try lia.
    subst. auto.
Qed.

Theorem positions_distinct d (A : matrix) p q B C : uniform d A -> length p = length q ->
  block_at A p = Some B -> block_at A q = Some C -> refine A p (0, 0) = refine A q (0, 0) -> p = q.
Proof.
  intros U L HB HC E. apply (refine_uniform p d A A q C 0 0 0 0 U U (eq_sym L)); auto. congruence.
Qed.

End Json.
