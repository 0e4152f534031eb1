(** Matrices as entry functions: the mathematical side, independent of the code. *)
From Coq Require Import List Arith ZArith Lia Bool Ring_theory Ring.
From Verif Require Import Ring.
Import ListNotations.

Section MatFun.
Context {R : cring}.
Add Ring Rr : (cr_th R).
Local Open Scope cr_scope.

Definition mat := nat -> nat -> R.

(** Equality on the leading r x c entries. *)
Definition feq (r c : nat) (f g : mat) : Prop :=
  forall i j, (i < r)%nat -> (j < c)%nat -> f i j = g i j.

(** Product with inner dimension k. *)
Definition mmul (k : nat) (f g : mat) : mat :=
  fun i j => sum k (fun x => f i x * g x j).

Definition mtr (f : mat) : mat := fun i j => f j i.
Definition mop (t : bool) (f : mat) : mat := if t then mtr f else f.
Definition madd (f g : mat) : mat := fun i j => f i j + g i j.
Definition msub (f g : mat) : mat := fun i j => f i j - g i j.
Definition mscale (a : R) (f : mat) : mat := fun i j => a * f i j.
Definition mzero : mat := fun _ _ => 0.
Definition mid : mat := fun i j => if Nat.eqb i j then 1 else 0.
Definition mwin (a b : nat) (f : mat) : mat := fun i j => f (a + i)%nat (b + j)%nat.

Lemma feq_refl r c f : feq r c f f.
Proof. intros i j _ _. reflexivity. Qed.
Lemma feq_sym r c f g : feq r c f g -> feq r c g f.
Proof. intros H i j Hi Hj. symmetry. auto. Qed.
Lemma feq_trans r c f g h : feq r c f g -> feq r c g h -> feq r c f h.
Proof. intros H1 H2 i j Hi Hj. rewrite H1, H2; auto. Qed.
Lemma feq_tr r c f g : feq r c f g -> feq c r (mtr f) (mtr g).
Proof. intros H i j Hi Hj. unfold mtr. auto. Qed.
Lemma feq_le r c r' c' f g : feq r c f g -> (r' <= r)%nat -> (c' <= c)%nat -> feq r' c' f g.
Proof. intros H Hr Hc i j Hi Hj. apply H; lia. Qed.

Lemma mmul_ext k f f' g g' i j :
  (forall x, (x < k)%nat -> f i x = f' i x) -> (forall x, (x < k)%nat -> g x j = g' x j) ->
  mmul k f g i j = mmul k f' g' i j.
Proof. intros H1 H2. apply sum_ext. intros x Hx. rewrite H1, H2; auto. Qed.

Lemma feq_mmul r k c f f' g g' : feq r k f f' -> feq k c g g' -> feq r c (mmul k f g) (mmul k f' g').
Proof. intros H1 H2 i j Hi Hj. apply mmul_ext; auto. Qed.

Lemma mmul_assoc k l f g h i j : mmul l (mmul k f g) h i j = mmul k f (mmul l g h) i j.
Proof.
  unfold mmul.
  rewrite (sum_ext l _ (fun x => sum k (fun y => f i y * g y x * h x j))).
  2:{ intros x _. now rewrite sum_mul_r. }
  rewrite sum_swap. apply sum_ext. intros y _.
  rewrite <- sum_mul_l. apply sum_ext. intros x _. ring.
Qed.

Lemma mmul_tr k f g i j : mtr (mmul k f g) i j = mmul k (mtr g) (mtr f) i j.
Proof. unfold mtr, mmul. apply sum_ext. intros; ring. Qed.

Lemma mmul_add_l k f f' g i j : mmul k (madd f f') g i j = mmul k f g i j + mmul k f' g i j.
Proof. unfold mmul, madd. rewrite <- sum_add. apply sum_ext. intros; ring. Qed.
Lemma mmul_add_r k f g g' i j : mmul k f (madd g g') i j = mmul k f g i j + mmul k f g' i j.
Proof. unfold mmul, madd. rewrite <- sum_add. apply sum_ext. intros; ring. Qed.
Lemma mmul_sub_l k f f' g i j : mmul k (msub f f') g i j = mmul k f g i j - mmul k f' g i j.
Proof. unfold mmul, msub. rewrite <- sum_sub. apply sum_ext. intros; ring. Qed.
Lemma mmul_sub_r k f g g' i j : mmul k f (msub g g') i j = mmul k f g i j - mmul k f g' i j.
Proof. unfold mmul, msub. rewrite <- sum_sub. apply sum_ext. intros; ring. Qed.
Lemma mmul_scale_l k a f g i j : mmul k (mscale a f) g i j = a * mmul k f g i j.
Proof. unfold mmul, mscale. rewrite <- sum_mul_l. apply sum_ext. intros; ring. Qed.
Lemma mmul_scale_r k a f g i j : mmul k f (mscale a g) i j = a * mmul k f g i j.
Proof. unfold mmul, mscale. rewrite <- sum_mul_l. apply sum_ext. intros; ring. Qed.
Lemma mmul_zero_l k g i j : mmul k mzero g i j = 0.
Proof. unfold mmul, mzero. apply sum_zero'. intros; ring. Qed.
Lemma mmul_zero_r k f i j : mmul k f mzero i j = 0.
Proof. unfold mmul, mzero. apply sum_zero'. intros; ring. Qed.

Lemma mmul_id_l k f i j : (i < k)%nat -> mmul k mid f i j = f i j.
Proof.
  intros H. unfold mmul, mid. rewrite (sum_single k i); auto.
  - rewrite Nat.eqb_refl. ring.
  - intros x _ E. replace (Nat.eqb i x) with false by (symmetry; apply Nat.eqb_neq; auto). ring.
Qed.
Lemma mmul_id_r k f i j : (j < k)%nat -> mmul k f mid i j = f i j.
Proof.
  intros H. unfold mmul, mid. rewrite (sum_single k j); auto.
  - rewrite Nat.eqb_refl. ring.
  - intros x _ E. replace (Nat.eqb x j) with false by (symmetry; apply Nat.eqb_neq; auto). ring.
Qed.

Lemma mtr_mtr f i j : mtr (mtr f) i j = f i j.
Proof. reflexivity. Qed.
Lemma mtr_mid i j : mtr mid i j = mid i j.
Proof. unfold mtr, mid. rewrite Nat.eqb_sym. reflexivity. Qed.

(** Product along a partition of the inner dimension. *)
Lemma mmul_offs h m f g i j :
  mmul (offs h m) f g i j =
  sum m (fun b => mmul (h b) (mwin 0 (offs h b) f) (mwin (offs h b) 0 g) i j).
Proof. unfold mmul, mwin. rewrite sum_offs. reflexivity. Qed.

Lemma mmul_split k1 k2 f g i j :
  mmul (k1 + k2) f g i j = mmul k1 f g i j + mmul k2 (mwin 0 k1 f) (mwin k1 0 g) i j.
Proof. unfold mmul, mwin. rewrite sum_split. reflexivity. Qed.

(** Sum of the squares of the leading entries. *)
Definition sumsq (r c : nat) (f : mat) : R := sum r (fun i => sum c (fun j => f i j * f i j)).

End MatFun.

Arguments mat R : clear implicits.
