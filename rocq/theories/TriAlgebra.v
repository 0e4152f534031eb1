(** Algebra of block triangular matrices and of substitution. *)
From Coq Require Import List Arith ZArith Lia Bool Ring_theory Ring Setoid Morphisms.
From Verif Require Import Prelude Ring MatFun MatSetoid Matrix MatOps Gemm Triangular.
Import ListNotations.
Local Open Scope nat_scope.

Section Algebra.
Context {R : cring}.
Add Ring Rr : (cr_th R).
Notation mat := (mat R).
Implicit Types f g a b : mat.

(** * Sums *)

Lemma sum_low m i (F : nat -> R) : i < m -> (forall k, i < k < m -> F k = rO) ->
  sum m F = (F i + sum i F)%r.
Proof.
  intros Hi H. rewrite (sum_le_zero_ext (S i) m F) by (try lia; intros; apply H; lia).
  simpl. ring.
Qed.

Lemma sum_up m i (F : nat -> R) : i < m -> (forall k, k < i -> F k = rO) ->
  sum m F = (F i + sum (m - S i)%nat (fun t => F (S i + t)%nat))%r.
Proof.
  intros Hi H. replace m with (S i + (m - S i)) at 1 by lia. rewrite sum_split.
  rewrite sum_S. rewrite (sum_zero' i F H). ring.
Qed.

Lemma sum_rev n (F : nat -> R) : sum n F = sum n (fun t => F (n - 1 - t)).
Proof.
  induction n as [|n IH]; auto. rewrite sum_S, sum_first.
  replace (S n - 1 - 0) with n by lia. rewrite IH.
  rewrite (sum_ext n (fun i => F (S n - 1 - S i)) (fun i => F (n - 1 - i))) by (intros; f_equal; lia).
  ring.
Qed.

Lemma sum_up_down m i (F : nat -> R) :
  sum (m - S i) (fun t => F (S i + t)) = sum (m - 1 - i) (fun t => F (m - 1 - t)).
Proof.
  rewrite sum_rev. replace (m - 1 - i) with (m - S i) by lia. apply sum_ext.
  intros t Ht. f_equal. lia.
Qed.

(** * The triangle *)

(** The number of blocks of row [i] strictly inside the triangle, and their columns. *)
Definition cnt (u : mode) (m i : nat) : nat := match u with Lower => i | Upper => m - S i end.
Definition ix (u : mode) (i t : nat) : nat := match u with Lower => t | Upper => S i + t end.
Definition flip (u : mode) : mode := match u with Lower => Upper | Upper => Lower end.

Lemma ix_lt u m i t : i < m -> t < cnt u m i -> ix u i t < m.
Proof. destruct u; simpl; lia. Qed.

Lemma tri_win u un h i f x y :
  mwin (offs h i) (offs h i) (tri u un f) x y = tri u un (mwin (offs h i) (offs h i) f) x y.
Proof.
  unfold mwin, tri.
  replace (offs h i + x =? offs h i + y) with (x =? y)
    by (apply Bool.eq_iff_eq_true; rewrite !Nat.eqb_eq; lia).
  replace (offs h i + x <? offs h i + y) with (x <? y)
    by (apply Bool.eq_iff_eq_true; rewrite !Nat.ltb_lt; lia).
  replace (offs h i + y <? offs h i + x) with (y <? x)
    by (apply Bool.eq_iff_eq_true; rewrite !Nat.ltb_lt; lia).
  reflexivity.
Qed.

(** A block strictly inside the triangle ([inside]) or outside. *)
Lemma tri_off u un h i k f x y : i <> k -> x < h i -> y < h k ->
  mwin (offs h i) (offs h k) (tri u un f) x y =
  if match u with Lower => k <? i | Upper => i <? k end
  then mwin (offs h i) (offs h k) f x y else rO.
Proof.
  intros Hik Hx Hy. unfold mwin, tri.
  assert (H : (k < i /\ offs h k + y < offs h i + x) \/ (i < k /\ offs h i + x < offs h k + y)).
  { destruct (Nat.lt_ge_cases k i); [left|right].
    - pose proof (offs_lt h k i H). lia.
    - assert (H' : i < k) by lia. pose proof (offs_lt h i k H'). lia. }
  replace (offs h i + x =? offs h k + y) with false by (symmetry; apply Nat.eqb_neq; lia).
  destruct u.
  - destruct (i <? k) eqn:E; [apply Nat.ltb_lt in E|apply Nat.ltb_ge in E].
    + replace (offs h i + x <? offs h k + y) with true by (symmetry; apply Nat.ltb_lt; lia). reflexivity.
    + replace (offs h i + x <? offs h k + y) with false by (symmetry; apply Nat.ltb_ge; lia). reflexivity.
  - destruct (k <? i) eqn:E; [apply Nat.ltb_lt in E|apply Nat.ltb_ge in E].
    + replace (offs h k + y <? offs h i + x) with true by (symmetry; apply Nat.ltb_lt; lia). reflexivity.
    + replace (offs h k + y <? offs h i + x) with false by (symmetry; apply Nat.ltb_ge; lia). reflexivity.
Qed.

(** Block row [i] of a triangle times a matrix. *)
Lemma left_block u un h m f g i (b : nat) x y : i < m -> x < h i ->
  mwin (offs h i) b (mmul (offs h m) (tri u un f) g) x y =
  (mmul (h i) (tri u un (mwin (offs h i) (offs h i) f)) (mwin (offs h i) b g) x y +
   sum (cnt u m i) (fun t => mmul (h (ix u i t)) (mwin (offs h i) (offs h (ix u i t)) f)
                                  (mwin (offs h (ix u i t)) b g) x y))%r.
Proof.
  intros Hi Hx. unfold mwin at 1. rewrite mmul_offs.
  set (F := fun k => mmul (h k) (mwin 0 (offs h k) (tri u un f)) (mwin (offs h k) 0 g) (offs h i + x) (b + y)).
  assert (E0 : F i = mmul (h i) (tri u un (mwin (offs h i) (offs h i) f)) (mwin (offs h i) b g) x y).
  { unfold F, mmul. apply sum_ext. intros z Hz. rewrite <- tri_win. reflexivity. }
  assert (E1 : forall k, k < m -> k <> i ->
     F k = if match u with Lower => k <? i | Upper => i <? k end
           then mmul (h k) (mwin (offs h i) (offs h k) f) (mwin (offs h k) b g) x y else rO).
  { intros k Hk Hki. unfold F, mmul.
    destruct (match u with Lower => k <? i | Upper => i <? k end) eqn:E.
    - apply sum_ext. intros z Hz. f_equal.
      assert (Hne : i <> k) by auto.
      pose proof (tri_off u un h i k f x z Hne Hx Hz) as T. rewrite E in T. exact T.
    - apply sum_zero'. intros z Hz.
      assert (Hne : i <> k) by auto.
      pose proof (tri_off u un h i k f x z Hne Hx Hz) as T. rewrite E in T.
      unfold mwin in T |- *. rewrite Nat.add_0_l. rewrite T. ring. }
  change (sum m F = (mmul (h i) (tri u un (mwin (offs h i) (offs h i) f)) (mwin (offs h i) b g) x y +
   sum (cnt u m i) (fun t => mmul (h (ix u i t)) (mwin (offs h i) (offs h (ix u i t)) f)
                                  (mwin (offs h (ix u i t)) b g) x y))%r).
  rewrite <- E0. destruct u; unfold cnt, ix.
  - rewrite (sum_up m i F Hi).
    + f_equal. apply sum_ext. intros t Ht. rewrite E1 by lia.
      replace (i <? S i + t) with true by (symmetry; apply Nat.ltb_lt; lia). reflexivity.
    + intros k Hk. rewrite E1 by lia.
      replace (i <? k) with false by (symmetry; apply Nat.ltb_ge; lia). reflexivity.
  - rewrite (sum_low m i F Hi).
    + f_equal. apply sum_ext. intros t Ht. rewrite E1 by lia.
      replace (t <? i) with true by (symmetry; apply Nat.ltb_lt; lia). reflexivity.
    + intros k Hk. rewrite E1 by lia.
      replace (k <? i) with false by (symmetry; apply Nat.ltb_ge; lia). reflexivity.
Qed.

Lemma tri_flip u un f x y : tri u un f x y = tri (flip u) un (mtr f) y x.
Proof.
  unfold tri, mtr. rewrite (Nat.eqb_sym y x). destruct (x =? y) eqn:E; auto.
  destruct u; simpl; auto.
Qed.

(** Block column [j] of a matrix times a triangle. *)
Lemma right_block u un h m f g j (a : nat) x y : j < m -> y < h j ->
  mwin a (offs h j) (mmul (offs h m) g (tri u un f)) x y =
  (mmul (h j) (mwin a (offs h j) g) (tri u un (mwin (offs h j) (offs h j) f)) x y +
   sum (cnt (flip u) m j) (fun t => mmul (h (ix (flip u) j t)) (mwin a (offs h (ix (flip u) j t)) g)
                                  (mwin (offs h (ix (flip u) j t)) (offs h j) f) x y))%r.
Proof.
  intros Hj Hy.
  pose proof (left_block (flip u) un h m (mtr f) (mtr g) j a y x Hj Hy) as H.
  assert (E : mwin (offs h j) a (mmul (offs h m) (tri (flip u) un (mtr f)) (mtr g)) y x =
              mwin a (offs h j) (mmul (offs h m) g (tri u un f)) x y).
  { unfold mwin, mmul. apply sum_ext. intros z Hz. rewrite <- tri_flip. unfold mtr. ring. }
  rewrite <- E, H. f_equal.
  - unfold mmul. apply sum_ext. intros z Hz. rewrite (tri_flip u). unfold mtr, mwin. ring.
  - apply sum_ext. intros t Ht. unfold mmul. apply sum_ext. intros z Hz. unfold mwin, mtr. ring.
Qed.

(** * Substitution *)

Variable rinv : R -> R.

Lemma low_solve_stable n d a b : forall m i j, i < n -> n <= m ->
  low_solve m d a b i j = low_solve n d a b i j.
Proof.
  intros m. induction m as [|m IH]; intros i j Hi Hm; [lia|].
  destruct (Nat.eq_dec n (S m)) as [->|]; auto.
  simpl. replace (i =? m) with false by (symmetry; apply Nat.eqb_neq; lia). apply IH; lia.
Qed.

Lemma low_solve_eq n dinv (d : nat -> R) a b i j : i < n -> (d i * dinv i = rI)%r ->
  (d i * low_solve n dinv a b i j + sum i (fun k => a i k * low_solve n dinv a b k j) = b i j)%r.
Proof.
  intros Hi Hd.
  rewrite (low_solve_stable (S i) dinv a b n i j) by lia. simpl. rewrite Nat.eqb_refl.
  rewrite (sum_ext i (fun k => a i k * low_solve n dinv a b k j)%r
                     (fun k => a i k * low_solve i dinv a b k j)%r).
  - transitivity ((d i * dinv i) * (b i j - sum i (fun k => a i k * low_solve i dinv a b k j))
                  + sum i (fun k => a i k * low_solve i dinv a b k j))%r; [ring|].
    rewrite Hd. ring.
  - intros k Hk. rewrite (low_solve_stable i dinv a b n k j) by lia. reflexivity.
Qed.

Lemma tri_low_row un n f g i j : i < n ->
  mmul n (tri Lower un f) g i j =
  ((if un then rI else f i i) * g i j + sum i (fun k => f i k * g k j))%r.
Proof.
  intros Hi. unfold mmul. rewrite (sum_low n i _ Hi).
  - unfold tri at 1. rewrite Nat.eqb_refl. f_equal. apply sum_ext. intros k Hk. unfold tri.
    replace (i =? k) with false by (symmetry; apply Nat.eqb_neq; lia).
    replace (k <? i) with true by (symmetry; apply Nat.ltb_lt; lia). reflexivity.
  - intros k Hk. unfold tri.
    replace (i =? k) with false by (symmetry; apply Nat.eqb_neq; lia).
    replace (k <? i) with false by (symmetry; apply Nat.ltb_ge; lia). ring.
Qed.

Lemma tri_rev u un n f i k : i < n -> k < n ->
  tri u un (mrev n f) i k = tri (flip u) un f (n - 1 - i) (n - 1 - k).
Proof.
  intros Hi Hk. unfold tri, mrev.
  replace (n - 1 - i =? n - 1 - k) with (i =? k)
    by (apply Bool.eq_iff_eq_true; rewrite !Nat.eqb_eq; lia).
  destruct (i =? k); auto.
  replace (n - 1 - i <? n - 1 - k) with (k <? i)
    by (apply Bool.eq_iff_eq_true; rewrite !Nat.ltb_lt; lia).
  replace (n - 1 - k <? n - 1 - i) with (i <? k)
    by (apply Bool.eq_iff_eq_true; rewrite !Nat.ltb_lt; lia).
  destruct u; reflexivity.
Qed.

(** Whether the diagonal is taken as ones. *)
Definition unit_of (u : mode) : bool := match u with Lower => true | Upper => false end.

(** Division by the diagonal entries that are divided by is exact. *)
Definition diag_ok (u : mode) (n : nat) (a : mat) : Prop :=
  u = Upper -> forall i, i < n -> (a i i * rinv (a i i) = rI)%r.

Lemma solve_low n a b i j : i < n ->
  mmul n (tri Lower true a) (low_solve n (fun _ => rI) a b) i j = b i j.
Proof.
  intros Hi. rewrite tri_low_row by auto.
  apply (low_solve_eq n (fun _ => rI) (fun _ => rI) a b i j Hi). ring.
Qed.

Lemma solve_low' n a b i j : (forall i, i < n -> (a i i * rinv (a i i) = rI)%r) -> i < n ->
  mmul n (tri Lower false a) (low_solve n (fun i => rinv (a i i)) a b) i j = b i j.
Proof.
  intros Hd Hi. rewrite tri_low_row by auto.
  apply (low_solve_eq n (fun i => rinv (a i i)) (fun i => a i i) a b i j Hi). auto.
Qed.

Lemma rev_mul u un n a x i j : i < n ->
  mmul n (tri u un a) (rrev n x) i j = mmul n (tri (flip u) un (mrev n a)) x (n - 1 - i) j.
Proof.
  intros Hi. unfold mmul. rewrite sum_rev. apply sum_ext. intros k Hk.
  unfold rrev. replace (n - 1 - (n - 1 - k)) with k by lia. f_equal.
  rewrite tri_rev by lia. destruct u; simpl; f_equal; lia.
Qed.

Lemma tr_mul u un n a x i j :
  mmul n (mtr x) (tri u un a) i j = mmul n (tri (flip u) un (mtr a)) x j i.
Proof.
  unfold mmul. apply sum_ext. intros k Hk. rewrite (tri_flip u). unfold mtr. ring.
Qed.

(** cblas_dtrsm solves. *)
Lemma dtrsm_left u n a b i j : diag_ok u n a -> i < n ->
  mmul n (tri u (unit_of u) a) (dtrsm rinv u SLeft n a b) i j = b i j.
Proof.
  intros Hd Hi. destruct u; simpl.
  - rewrite rev_mul by auto. cbn [flip].
    rewrite (solve_low' n (mrev n a) (rrev n b)).
    + unfold rrev. f_equal. lia.
    + intros k Hk. unfold mrev. apply Hd; auto. lia.
    + lia.
  - apply solve_low; auto.
Qed.

Lemma dtrsm_right u n a b i j : diag_ok u n a -> j < n ->
  mmul n (dtrsm rinv u SRight n a b) (tri u (unit_of u) a) i j = b i j.
Proof.
  intros Hd Hj. destruct u; simpl; rewrite tr_mul; cbn [flip].
  - apply (solve_low' n (mtr a) (mtr b) j i); auto. intros k Hk. unfold mtr. apply Hd; auto.
  - rewrite rev_mul by auto. cbn [flip].
    rewrite (solve_low n (mrev n (mtr a)) (rrev n (mtr b))) by lia.
    unfold rrev, mtr. f_equal. lia.
Qed.

Lemma tri_ext u un n f g : feq n n f g -> feq n n (tri u un f) (tri u un g).
Proof.
  intros H i j Hi Hj. unfold tri. rewrite (H i j Hi Hj). reflexivity.
Qed.
End Algebra.
