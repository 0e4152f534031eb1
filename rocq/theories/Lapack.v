(** Contracts of the external factorization routines (LAPACK), used as parameters. *)
From Coq Require Import List Arith ZArith QArith Lia Bool Ring_theory Ring.
From Verif Require Import Prelude Ring MatFun MatSetoid Matrix MatOps.
Import ListNotations.
Local Open Scope nat_scope.

Section Lapack.
Context {R : cring}.
Add Ring Rr : (cr_th R).
Notation dense := (dense R).
Notation lowrank := (lowrank R).
Notation mat := (mat R).

(** qr (LAPACK/qr.cpp:65-90), rq (LAPACK/rq.cpp:43-70), svd (LAPACK/svd.cpp:23-43),
    and the choice of a rank from singular values (misc.cpp:134-147, modelled in
    Truncation.v over ordered fields). *)
Record lapack := Lapack {
  lp_qr : dense -> outcome (dense * dense);
  lp_rq : dense -> outcome (dense * dense);
  lp_svd : dense -> outcome (dense * dense * dense);
  lp_rank : dense -> Q -> nat
}.

Definition orth_cols (m k : nat) (f : mat) : Prop := feq k k (mmul m (mtr f) f) mid.
Definition orth_rows (k n : nat) (f : mat) : Prop := feq k k (mmul n f (mtr f)) mid.
Definition diagonal (k : nat) (f : mat) : Prop := forall i j, i < k -> j < k -> i <> j -> f i j = 0%r.

(** A = Q*R with Q of min(rows, cols) columns. *)
Definition is_qr (A Q Rf : dense) : Prop :=
  let k := Nat.min (d_r A) (d_c A) in
  d_r Q = d_r A /\ d_c Q = k /\ d_r Rf = k /\ d_c Rf = d_c A /\
  feq (d_r A) (d_c A) (mmul k (d_e Q) (d_e Rf)) (d_e A).
(** A = R*Q. *)
Definition is_rq (A Rf Q : dense) : Prop :=
  let k := Nat.min (d_r A) (d_c A) in
  d_r Rf = d_r A /\ d_c Rf = k /\ d_r Q = k /\ d_c Q = d_c A /\
  feq (d_r A) (d_c A) (mmul k (d_e Rf) (d_e Q)) (d_e A).
(** A = U*S*V with a diagonal S. *)
Definition is_svd (A U S V : dense) : Prop :=
  let k := Nat.min (d_r A) (d_c A) in
  d_r U = d_r A /\ d_c U = k /\ d_r S = k /\ d_c S = k /\ d_r V = k /\ d_c V = d_c A /\
  diagonal k (d_e S) /\
  feq (d_r A) (d_c A) (mmul k (d_e U) (mmul k (d_e S) (d_e V))) (d_e A).

(** Every call returns a factorization; the rank is between 1 and the number of values. *)
Record lapack_ok (L : lapack) : Prop := {
  lo_qr : forall A, exists Q Rf, lp_qr L A = Ok (Q, Rf) /\ is_qr A Q Rf;
  lo_rq : forall A, exists Rf Q, lp_rq L A = Ok (Rf, Q) /\ is_rq A Rf Q;
  lo_svd : forall A, exists U S V, lp_svd L A = Ok (U, S, V) /\ is_svd A U S V;
  lo_rank : forall S e, 0 < d_r S -> d_r S = d_c S -> 0 < lp_rank L S e <= d_r S
}.

(** Moreover the factors are orthonormal. *)
Record lapack_orth (L : lapack) : Prop := {
  lh_qr : forall A Q Rf, lp_qr L A = Ok (Q, Rf) -> orth_cols (d_r Q) (d_c Q) (d_e Q);
  lh_rq : forall A Rf Q, lp_rq L A = Ok (Rf, Q) -> orth_rows (d_r Q) (d_c Q) (d_e Q);
  lh_svd : forall A U S V, lp_svd L A = Ok (U, S, V) ->
     orth_cols (d_r U) (d_c U) (d_e U) /\ orth_rows (d_r V) (d_c V) (d_e V)
}.

(** Factorizations without orthogonality exist over every ring. *)
Definition eye (n : nat) : dense := Dn n n mid.

Definition trivial_lapack : lapack := {|
  lp_qr := fun A => Ok (if d_c A <=? d_r A then (A, eye (d_c A)) else (eye (d_r A), A));
  lp_rq := fun A => Ok (if d_c A <=? d_r A then (A, eye (d_c A)) else (eye (d_r A), A));
  lp_svd := fun A => Ok (if d_c A <=? d_r A then (A, eye (d_c A), eye (d_c A)) else (eye (d_r A), eye (d_r A), A));
  lp_rank := fun S _ => d_r S
|}.

Lemma diagonal_eye k : diagonal k (mid : mat).
Proof. intros i j _ _ H. unfold mid. destruct (Nat.eqb_spec i j); [contradiction|reflexivity]. Qed.

Lemma trivial_lapack_ok : lapack_ok trivial_lapack.
Proof.
  split.
  - intros A. simpl. destruct (Nat.leb_spec (d_c A) (d_r A)); do 2 eexists; (split; [reflexivity|]); unfold is_qr; simpl.
    + rewrite Nat.min_r by lia. repeat (split; auto). intros i j Hi Hj. apply mmul_id_r; auto.
    + rewrite Nat.min_l by lia. repeat (split; auto). intros i j Hi Hj. apply mmul_id_l; auto.
  - intros A. simpl. destruct (Nat.leb_spec (d_c A) (d_r A)); do 2 eexists; (split; [reflexivity|]); unfold is_rq; simpl.
    + rewrite Nat.min_r by lia. repeat (split; auto). intros i j Hi Hj. apply mmul_id_r; auto.
    + rewrite Nat.min_l by lia. repeat (split; auto). intros i j Hi Hj. apply mmul_id_l; auto.
  - intros A. simpl. destruct (Nat.leb_spec (d_c A) (d_r A)); do 3 eexists; (split; [reflexivity|]); unfold is_svd; simpl.
    + rewrite Nat.min_r by lia. repeat (split; [solve [auto | apply diagonal_eye]|]). intros i j Hi Hj.
      transitivity (mmul (d_c A) (d_e A) mid i j).
      * apply mmul_ext; auto. intros x Hx. apply mmul_id_r; auto.
      * apply mmul_id_r; auto.
    + rewrite Nat.min_l by lia. repeat (split; [solve [auto | apply diagonal_eye]|]). intros i j Hi Hj.
      rewrite mmul_id_l by auto. apply mmul_id_l; auto.
  - intros S e H _. simpl. lia.
Qed.

(** Dropping the trailing part of a factorization with diagonal middle factor. *)
Definition dropped (r k : nat) (U S V : mat) : mat :=
  fun i j => sum (k - r) (fun l => (U i (r + l)%nat * (S (r + l)%nat (r + l)%nat * V (r + l)%nat j))%r).

Lemma diag_mul k (S V : mat) l j : diagonal k S -> l < k -> mmul k S V l j = (S l l * V l j)%r.
Proof.
  intros HS Hl. unfold mmul. rewrite (sum_single _ l _ Hl); auto.
  intros i Hi Hn. rewrite HS by auto. ring.
Qed.

Lemma truncation r k (U S V : mat) i j : r <= k -> diagonal k S ->
  mmul k U (mmul k S V) i j = (mmul r U (mmul r S V) i j + dropped r k U S V i j)%r.
Proof.
  intros Hr HS. unfold mmul at 1. replace k with (r + (k - r)) at 1 by lia. rewrite sum_split. f_equal.
  - unfold mmul at 2. apply sum_ext. intros l Hl. f_equal.
    rewrite !diag_mul; auto; try lia. intros x y Hx Hy. apply HS; lia.
  - unfold dropped. apply sum_ext. intros l Hl. f_equal. rewrite diag_mul; auto; lia.
Qed.

(** With orthonormal outer factors the squared Frobenius norm of the dropped part is
    the sum of the squares of the dropped values. *)
Lemma dropped_norm m n r k (U S V : mat) : r <= k -> orth_cols m k U -> orth_rows k n V ->
  sumsq m n (dropped r k U S V) =
  sum (k - r) (fun l => (S (r + l)%nat (r + l)%nat * S (r + l)%nat (r + l)%nat)%r).
Proof.
  intros Hr HU HV. unfold sumsq, dropped.
  set (s := fun l => S (r + l) (r + l)).
  transitivity (sum (k - r) (fun a => sum (k - r) (fun b =>
     (s a * s b * mmul m (mtr U) U (r + a)%nat (r + b)%nat * mmul n V (mtr V) (r + a)%nat (r + b)%nat)%r))).
  - transitivity (sum m (fun i => sum n (fun j => sum (k - r) (fun a => sum (k - r) (fun b =>
       (s a * s b * (U i (r + a)%nat * U i (r + b)%nat) * (V (r + a)%nat j * V (r + b)%nat j))%r))))).
    { apply sum_ext. intros i _. apply sum_ext. intros j _. rewrite <- sum_mul_r.
      apply sum_ext. intros a _. rewrite <- sum_mul_l. apply sum_ext. intros b _. unfold s. ring. }
    transitivity (sum (k - r) (fun a => sum (k - r) (fun b => sum m (fun i => sum n (fun j =>
       (s a * s b * (U i (r + a)%nat * U i (r + b)%nat) * (V (r + a)%nat j * V (r + b)%nat j))%r))))).
    { transitivity (sum m (fun i => sum (k - r) (fun a => sum (k - r) (fun b => sum n (fun j =>
         (s a * s b * (U i (r + a)%nat * U i (r + b)%nat) * (V (r + a)%nat j * V (r + b)%nat j))%r))))).
      - apply sum_ext. intros i _. rewrite sum_swap. apply sum_ext. intros a _. apply sum_swap.
      - rewrite sum_swap. apply sum_ext. intros a _. apply sum_swap. }
    apply sum_ext. intros a _. apply sum_ext. intros b _. unfold mmul, mtr.
    rewrite <- (sum_mul_l m), <- (sum_mul_r m). apply sum_ext. intros i _.
    rewrite <- sum_mul_l. apply sum_ext. intros j _. ring.
  - apply sum_ext. intros a Ha. rewrite (sum_single _ a _ Ha).
    + rewrite HU, HV by lia. unfold mid. rewrite Nat.eqb_refl. unfold s. ring.
    + intros b Hb Hn. rewrite HU, HV by lia. unfold mid. destruct (Nat.eqb_spec (r + a) (r + b)); [lia|ring].
Qed.

(** Products of orthonormal factors. *)
Lemma orth_cols_mul m k l (Q U : mat) : orth_cols m k Q -> orth_cols k l U -> orth_cols m l (mmul k Q U).
Proof.
  intros HQ HU i j Hi Hj.
  transitivity (mmul k (mtr U) (mmul k (mmul m (mtr Q) Q) U) i j).
  - transitivity (mmul m (mmul k (mtr U) (mtr Q)) (mmul k Q U) i j).
    { apply mmul_ext; auto. intros x Hx. apply mmul_tr. }
    rewrite mmul_assoc. apply mmul_ext; auto. intros x Hx. symmetry. apply mmul_assoc.
  - transitivity (mmul k (mtr U) U i j).
    + apply mmul_ext; auto. intros x Hx. transitivity (mmul k mid U x j).
      * apply mmul_ext; auto.
      * apply mmul_id_l; auto.
    + apply HU; auto.
Qed.

Lemma orth_rows_cols k n (f : mat) : orth_rows k n f <-> orth_cols n k (mtr f).
Proof.
  unfold orth_rows, orth_cols, feq, mmul, mtr. split; intros H i j Hi Hj; apply H; auto.
Qed.

Lemma orth_rows_mul l k n (V Q : mat) : orth_rows l k V -> orth_rows k n Q -> orth_rows l n (mmul k V Q).
Proof.
  rewrite !orth_rows_cols. intros HV HQ.
  assert (H : orth_cols n l (mmul k (mtr Q) (mtr V))) by (apply orth_cols_mul; auto).
  intros i j Hi Hj. rewrite <- (H i j Hi Hj). apply mmul_ext; intros x Hx.
  - exact (mmul_tr k V Q x i).
  - exact (mmul_tr k V Q x j).
Qed.

End Lapack.
Arguments lapack R : clear implicits.
