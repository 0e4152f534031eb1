(** Scalars and finite sums.

    Floating point numbers are replaced by the elements of an arbitrary
    commutative ring (a field where division is used): rounding errors of
    individual operations are outside of the model, see DESIGN.md. *)
From Coq Require Import List Arith ZArith Lia Bool Ring_theory Ring Field_theory.
From Coq Require Qcanon QArith_base.
Import ListNotations.

Record cring := CRing {
  car :> Type;
  rO : car;
  rI : car;
  radd : car -> car -> car;
  rmul : car -> car -> car;
  rsub : car -> car -> car;
  ropp : car -> car;
  cr_th : ring_theory rO rI radd rmul rsub ropp (@eq car)
}.
Arguments rO {c}.
Arguments rI {c}.
Arguments radd {c} _ _.
Arguments rmul {c} _ _.
Arguments rsub {c} _ _.
Arguments ropp {c} _.

Declare Scope cr_scope.
Delimit Scope cr_scope with r.
Notation "0" := rO : cr_scope.
Notation "1" := rI : cr_scope.
Infix "+" := radd : cr_scope.
Infix "*" := rmul : cr_scope.
Infix "-" := rsub : cr_scope.
Notation "- x" := (ropp x) : cr_scope.
Bind Scope cr_scope with car.

(** Integers: used for concrete instances. *)
Definition Zring : cring := CRing Z 0%Z 1%Z Z.add Z.mul Z.sub Z.opp Zth.

(** Canonical rationals. *)
Definition Qcring : cring := CRing Qcanon.Qc (Qcanon.Q2Qc (QArith_base.inject_Z 0)) (Qcanon.Q2Qc (QArith_base.inject_Z 1))
  Qcanon.Qcplus Qcanon.Qcmult Qcanon.Qcminus Qcanon.Qcopp Qcanon.Qcrt.

Section Sums.
Context {R : cring}.
Add Ring Rr : (cr_th R).
Local Open Scope cr_scope.

(** [sum n f] is f 0 + ... + f (n-1). *)
Fixpoint sum (n : nat) (f : nat -> R) : R :=
  match n with
  | O => 0
  | S m => sum m f + f m
  end.

Lemma sum_S n f : sum (S n) f = sum n f + f n.
Proof. reflexivity. Qed.

Lemma sum_ext n f g : (forall i, (i < n)%nat -> f i = g i) -> sum n f = sum n g.
Proof.
  induction n as [|n IH]; intros H; simpl; auto.
  rewrite IH by (intros; apply H; lia). rewrite H by lia. reflexivity.
Qed.

Lemma sum_zero n : sum n (fun _ => 0) = 0.
Proof. induction n; simpl; auto. rewrite IHn. ring. Qed.

Lemma sum_zero' n f : (forall i, (i < n)%nat -> f i = 0) -> sum n f = 0.
Proof. intros H. rewrite (sum_ext n f (fun _ => 0)); auto using sum_zero. Qed.

Lemma sum_add n f g : sum n (fun i => f i + g i) = sum n f + sum n g.
Proof. induction n; simpl; [ring|]. rewrite IHn. ring. Qed.

Lemma sum_sub n f g : sum n (fun i => f i - g i) = sum n f - sum n g.
Proof. induction n; simpl; [ring|]. rewrite IHn. ring. Qed.

Lemma sum_opp n f : sum n (fun i => - f i) = - sum n f.
Proof. induction n; simpl; [ring|]. rewrite IHn. ring. Qed.

Lemma sum_mul_l n a f : sum n (fun i => a * f i) = a * sum n f.
Proof. induction n; simpl; [ring|]. rewrite IHn. ring. Qed.

Lemma sum_mul_r n a f : sum n (fun i => f i * a) = sum n f * a.
Proof. induction n; simpl; [ring|]. rewrite IHn. ring. Qed.

Lemma sum_swap n m (f : nat -> nat -> R) :
  sum n (fun i => sum m (fun j => f i j)) = sum m (fun j => sum n (fun i => f i j)).
Proof.
  induction n; simpl.
  - symmetry. apply sum_zero.
  - rewrite IHn. rewrite <- sum_add. reflexivity.
Qed.

Lemma sum_split n m f : sum (n + m) f = sum n f + sum m (fun i => f (n + i)%nat).
Proof.
  induction m; simpl.
  - rewrite Nat.add_0_r. ring.
  - rewrite Nat.add_succ_r. simpl. rewrite IHm. ring.
Qed.

Lemma sum_first n f : sum (S n) f = f 0%nat + sum n (fun i => f (S i)).
Proof.
  change (S n) with (1 + n)%nat. rewrite sum_split. simpl. ring.
Qed.

Lemma sum_single n k f : (k < n)%nat ->
  (forall i, (i < n)%nat -> i <> k -> f i = 0) -> sum n f = f k.
Proof.
  induction n as [|n IH]; intros Hk H; [lia|]. simpl.
  destruct (Nat.eq_dec k n) as [->|E].
  - rewrite sum_zero'; [ring|]. intros i Hi. apply H; lia.
  - rewrite IH; try lia; [|intros; apply H; lia]. rewrite (H n) by lia. ring.
Qed.

Lemma sum_delta n k (f : nat -> R) :
  sum n (fun i => if Nat.eqb i k then f i else 0) = if Nat.ltb k n then f k else 0.
Proof.
  destruct (Nat.ltb_spec k n) as [H|H].
  - rewrite (sum_single n k); auto.
    + now rewrite Nat.eqb_refl.
    + intros i _ E. apply Nat.eqb_neq in E. now rewrite E.
  - apply sum_zero'. intros i Hi.
    destruct (Nat.eqb_spec i k); auto; lia.
Qed.

Lemma sum_le_zero_ext n m f : (n <= m)%nat ->
  (forall i, (n <= i < m)%nat -> f i = 0) -> sum m f = sum n f.
Proof.
  intros Hle H. replace m with (n + (m - n))%nat by lia. rewrite sum_split.
  rewrite (sum_zero' (m - n)).
  - ring.
  - intros i Hi. apply H. lia.
Qed.

End Sums.

(** ** Block offsets *)

(** [offs h k] is the position at which block [k] starts if block [l] has size [h l]. *)
Fixpoint offs (h : nat -> nat) (k : nat) : nat :=
  match k with
  | O => 0
  | S k' => offs h k' + h k'
  end.

(** The block and the position inside of the block of a global position. *)
Fixpoint locate (h : nat -> nat) (m : nat) (i : nat) : nat * nat :=
  match m with
  | O => (O, i)
  | S m' => let '(b, r) := locate h m' i in
            if b <? m' then (b, r) else
            if r <? h m' then (m', r) else (S m', r - h m')
  end.

Lemma offs_ext h g k : (forall i, i < k -> h i = g i) -> offs h k = offs g k.
Proof.
  induction k as [|k IH]; intros H; simpl; auto. rewrite IH by (intros; apply H; lia). rewrite H by lia. auto.
Qed.

Lemma offs_mono h a b : a <= b -> offs h a <= offs h b.
Proof. induction 1; simpl; lia. Qed.

Lemma offs_lt h a b : a < b -> offs h a + h a <= offs h b.
Proof. intros H. change (offs h a + h a) with (offs h (S a)). apply offs_mono. lia. Qed.

Lemma locate_spec h m : forall i,
  let '(b, r) := locate h m i in
  (b <= m) /\ i = offs h b + r /\ (b < m -> r < h b).
Proof.
  induction m as [|m IH]; intros i; simpl.
  - split; auto. split; auto. lia.
  - specialize (IH i). destruct (locate h m i) as [b r]. destruct IH as [H1 [H2 H3]].
    destruct (Nat.ltb_spec b m).
    + split; [lia|]. split; auto.
    + assert (b = m) by lia. subst b. destruct (Nat.ltb_spec r (h m)).
      * split; [lia|]. split; auto.
      * split; [lia|]. simpl. split; [lia|lia].
Qed.

Lemma locate_in h m i : i < offs h m ->
  exists b r, locate h m i = (b, r) /\ b < m /\ r < h b /\ i = offs h b + r.
Proof.
  intros H. pose proof (locate_spec h m i) as L. destruct (locate h m i) as [b r] eqn:E.
  destruct L as [L1 [L2 L3]]. exists b, r.
  assert (b < m). { destruct (Nat.eq_dec b m); [subst; lia|lia]. }
  repeat split; auto.
Qed.

Lemma offs_unique h b r b' r' :
  r < h b -> r' < h b' -> offs h b + r = offs h b' + r' -> b = b' /\ r = r'.
Proof.
  intros H1 H2 E.
  destruct (lt_eq_lt_dec b b') as [[L|L]|L].
  - pose proof (offs_lt h b b' L). lia.
  - subst. split; auto. lia.
  - pose proof (offs_lt h b' b L). lia.
Qed.

Lemma locate_offs h m b r : b < m -> r < h b -> locate h m (offs h b + r) = (b, r).
Proof.
  intros Hb Hr.
  assert (Hlt : offs h b + r < offs h m) by (pose proof (offs_lt h b m Hb); lia).
  destruct (locate_in h m _ Hlt) as [b' [r' [E [H1 [H2 H3]]]]].
  destruct (offs_unique h b r b' r' Hr H2 H3). subst. exact E.
Qed.

Lemma locate_ext h g m i : (forall k, k < m -> h k = g k) -> locate h m i = locate g m i.
Proof.
  induction m as [|m IH]; intros H; simpl; auto.
  rewrite IH by (intros; apply H; lia). rewrite H by lia. reflexivity.
Qed.

Lemma sum_offs {R : cring} h m (f : nat -> R) :
  sum (offs h m) f = sum m (fun b => sum (h b) (fun r => f (offs h b + r))).
Proof.
  induction m as [|m IH]; simpl; auto.
  rewrite sum_split, IH. reflexivity.
Qed.
