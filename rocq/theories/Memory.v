(** Memory accounting: src/util/get_memory_usage.cpp.  Object sizes are parameters;
    unsigned wrap-around is not modelled. *)
From Coq Require Import List Arith ZArith Lia Bool.
From Verif Require Import Prelude Ring MatFun Matrix MatOps MatSpec.
Import ListNotations.
Local Open Scope nat_scope.

Section Memory.
Context {R : cring}.
Notation matrix := (matrix R).
Notation dense := (dense R).
(** sizeof(double), sizeof(Dense), sizeof(LowRank), sizeof(MatrixProxy), sizeof(Hierarchical) *)
Variables sE sD sL sP sH : nat.

(** get_memory_usage.cpp:30-40 *)
Definition mem_dense (incl : bool) (A : dense) : nat :=
  d_r A * d_c A * sE + if incl then sD else 0.

(** get_memory_usage.cpp:42-81 *)
Fixpoint memory (incl : bool) (A : matrix) : outcome nat :=
  match A with
  | MD d => Ok (mem_dense incl d)
  | ML l => Ok (mem_dense incl (l_U l) + mem_dense incl (l_S l) + mem_dense incl (l_V l) +
                if incl then sL - sD else 0)
  | MH m n b =>
      let* t := accum m (fun i acc => accum n (fun j acc =>
                  let* x := memory incl (b i j) in Ok (acc + x)) acc) 0 in
      Ok (t + if incl then m * n * sP + sH else 0)
  | ME _ _ => Abort
  end.

(** Number of stored elements. *)
Definition dsize (d : dense) : nat := d_r d * d_c d.
Fixpoint elements (A : matrix) : nat :=
  match A with
  | MD d => dsize d
  | ML l => dsize (l_U l) + dsize (l_S l) + dsize (l_V l)
  | MH m n b => offs (fun i => offs (fun j => elements (b i j)) n) m
  | ME _ _ => 0
  end.

(** Bytes of the objects themselves: the Dense members of a LowRank are part of it. *)
Fixpoint objects (A : matrix) : nat :=
  match A with
  | MD _ => sD
  | ML _ => sL
  | MH m n b => sH + m * n * sP + offs (fun i => offs (fun j => objects (b i j)) n) m
  | ME _ _ => 0
  end.

(** Number of LowRank leaves. *)
Fixpoint lowranks (A : matrix) : nat :=
  match A with
  | ML _ => 1
  | MH m n b => offs (fun i => offs (fun j => lowranks (b i j)) n) m
  | _ => 0
  end.

Lemma accum_offs n (f : nat -> outcome nat) (v : nat -> nat) a :
  (forall i, i < n -> f i = Ok (v i)) ->
  accum n (fun i acc => let* x := f i in Ok (acc + x)) a = Ok (a + offs v n).
Proof.
  induction n as [|n IH]; intros H; simpl; [f_equal; lia|].
  rewrite IH by (intros; apply H; lia). simpl. rewrite H by lia. simpl. f_equal. lia.
Qed.
Lemma accum_offs2 m n (f : nat -> nat -> outcome nat) (v : nat -> nat -> nat) a :
  (forall i j, i < m -> j < n -> f i j = Ok (v i j)) ->
  accum m (fun i acc => accum n (fun j acc => let* x := f i j in Ok (acc + x)) acc) a =
  Ok (a + offs (fun i => offs (v i) n) m).
Proof.
  revert a. induction m as [|m IH]; intros a H; simpl; [f_equal; lia|].
  rewrite IH by (intros; apply H; lia). simpl.
  rewrite (accum_offs n (f m) (v m)) by (intros; apply H; lia). f_equal. lia.
Qed.

Lemma offs_lin (f g : nat -> nat) k : offs (fun i => f i + g i) k = offs f k + offs g k.
Proof. induction k; simpl; lia. Qed.
Lemma offs_scale (f : nat -> nat) a k : offs (fun i => f i * a) k = offs f k * a.
Proof. induction k; simpl; lia. Qed.

Theorem memory_plain (A : matrix) : no_empty A -> memory false A = Ok (sE * elements A).
Proof.
  induction A as [d|l|m n b IH|r c]; intros H; simpl.
  - unfold mem_dense, dsize. f_equal. lia.
  - unfold mem_dense, dsize. f_equal. lia.
  - rewrite (accum_offs2 m n _ (fun i j => elements (b i j) * sE)).
    + cbn [bind]. f_equal.
      rewrite (offs_ext (fun i => offs (fun j => elements (b i j) * sE) n) (fun i => offs (fun j => elements (b i j)) n * sE)) by (intros; apply offs_scale).
      rewrite offs_scale. lia.
    + intros i j Hi Hj. rewrite IH; [f_equal; lia|]. apply (H i j); auto.
  - destruct H.
Qed.

Theorem memory_structure (A : matrix) : sD <= sL -> no_empty A ->
  memory true A = Ok (sE * elements A + objects A + 2 * sD * lowranks A).
Proof.
  intros Hs. induction A as [d|l|m n b IH|r c]; intros H; simpl.
  - unfold mem_dense, dsize. f_equal. lia.
  - unfold mem_dense, dsize. f_equal. lia.
  - rewrite (accum_offs2 m n _ (fun i j => (elements (b i j) * sE + objects (b i j)) + lowranks (b i j) * (2 * sD))).
    + cbn [bind]. f_equal.
      rewrite (offs_ext _ (fun i => (offs (fun j => elements (b i j)) n * sE + offs (fun j => objects (b i j)) n) + offs (fun j => lowranks (b i j)) n * (2 * sD)))
        by (intros; rewrite !offs_lin, !offs_scale; reflexivity).
      rewrite !offs_lin, !offs_scale. lia.
    + intros i j Hi Hj. rewrite IH; [f_equal; lia|]. apply (H i j); auto.
  - destruct H.
Qed.

(** Additivity. *)
Theorem memory_blocks incl m n (b : nat -> nat -> matrix) (v : nat -> nat -> nat) :
  (forall i j, i < m -> j < n -> memory incl (b i j) = Ok (v i j)) ->
  memory incl (MH m n b) = Ok (offs (fun i => offs (v i) n) m + if incl then m * n * sP + sH else 0).
Proof. intros H. simpl. rewrite (accum_offs2 m n _ v) by auto. reflexivity. Qed.

(** Trees of the same shape: entries play no role. *)
Definition dshape (a b : dense) : Prop := d_r a = d_r b /\ d_c a = d_c b.
Fixpoint same_shape (A B : matrix) : Prop :=
  match A, B with
  | MD a, MD b => dshape a b
  | ML a, ML b => dshape (l_U a) (l_U b) /\ dshape (l_S a) (l_S b) /\ dshape (l_V a) (l_V b)
  | MH m n a, MH m' n' b => m = m' /\ n = n' /\ forall i j, i < m -> j < n -> same_shape (a i j) (b i j)
  | ME _ _, ME _ _ => True
  | _, _ => False
  end.

Lemma accum_ext {X} n (f g : nat -> X -> outcome X) a : (forall i x, i < n -> f i x = g i x) -> accum n f a = accum n g a.
Proof.
  induction n as [|n IH]; intros H; simpl; auto. rewrite IH by (intros; apply H; lia).
  destruct (accum n g a); simpl; auto.
Qed.

Theorem memory_shape incl (A B : matrix) : same_shape A B -> memory incl A = memory incl B.
Proof.
  revert B. induction A as [d|l|m n b IH|r c]; intros [d'|l'|m' n' b'|r' c'] H; simpl in H; try contradiction; simpl; auto.
  - destruct H as [E1 E2]. unfold mem_dense. rewrite E1, E2. reflexivity.
  - destruct H as [[E1 E2] [[E3 E4] [E5 E6]]]. unfold mem_dense. rewrite E1, E2, E3, E4, E5, E6. reflexivity.
  - destruct H as [<- [<- H]].
    replace (accum m (fun i acc => accum n (fun j acc0 => let* x := memory incl (b i j) in Ok (acc0 + x)) acc) 0)
       with (accum m (fun i acc => accum n (fun j acc0 => let* x := memory incl (b' i j) in Ok (acc0 + x)) acc) 0); auto.
    apply accum_ext. intros i x Hi. apply accum_ext. intros j y Hj. rewrite (IH i j (b' i j)); auto.
Qed.

(** With an Empty block there is no answer. *)
Theorem memory_empty incl r c : memory incl (ME r c) = Abort.
Proof. reflexivity. Qed.
End Memory.
