(** find_svd_truncation_rank, src/operations/misc/misc.cpp:134-147, over the real numbers. *)
From Coq Require Import List Arith Lia Bool Reals Lra.
From Verif Require Import Prelude Ring MatFun Matrix MatOps.
Local Open Scope nat_scope.

Definition Rring : cring := CRing R 0%R 1%R Rplus Rmult Rminus Ropp RTheory.

Definition rgt (a b : R) : bool := if Rlt_dec b a then true else false.

(** The inner loop (141-143), which adds S(rank,rank)^2 and not S(j,j)^2. *)
Definition trunc_err (S : dense Rring) (n rank : nat) : R :=
  sum (R := Rring) (n - rank) (fun _ => (d_e S rank rank * d_e S rank rank)%R).

(** The do-while loop (139-145); [fuel] bounds its number of rounds. *)
Fixpoint trunc_loop (fuel : nat) (S : dense Rring) (n : nat) (thr : R) (rank : nat) : nat :=
  let rank1 := rank + 1 in
  match fuel with
  | O => rank1
  | S f => if (rank1 <? n) && rgt (sqrt (trunc_err S n rank1)) thr then trunc_loop f S n thr rank1 else rank1
  end.

Definition svd_rank (S : dense Rring) (eps : R) : nat :=
  let thr := (eps * sqrt (sumsq (R := Rring) (d_r S) (d_c S) (d_e S)))%R in
  let n := Nat.min (d_r S) (d_c S) in
  trunc_loop n S n thr 0.

(** ** What it guarantees *)

(** Non-negative, non-increasing diagonal, zero elsewhere. *)
Definition singular (S : dense Rring) : Prop :=
  (forall i j, i < d_r S -> j < d_c S -> i <> j -> d_e S i j = 0%R) /\
  (forall i, i < Nat.min (d_r S) (d_c S) -> (0 <= d_e S i i)%R) /\
  (forall i j, i <= j -> j < Nat.min (d_r S) (d_c S) -> (d_e S j j <= d_e S i i)%R).

(** Sum of the squares of the values from number r on. *)
Definition tail_sq (S : dense Rring) (n r : nat) : R :=
  sum (R := Rring) (n - r) (fun j => (d_e S (r + j)%nat (r + j)%nat * d_e S (r + j)%nat (r + j)%nat)%R).

Lemma rgt_false a b : rgt a b = false -> (a <= b)%R.
Proof. unfold rgt. destruct (Rlt_dec b a); [discriminate|]. intros _. lra. Qed.
Lemma rgt_true a b : rgt a b = true -> (b < a)%R.
Proof. unfold rgt. destruct (Rlt_dec b a); [auto|discriminate]. Qed.

Lemma sum_le n (f g : nat -> R) : (forall i, i < n -> (f i <= g i)%R) -> (sum (R := Rring) n f <= sum (R := Rring) n g)%R.
Proof.
  induction n as [|n IH]; intros H; simpl; [lra|]. apply Rplus_le_compat; [apply IH; auto|apply H; lia].
Qed.

Lemma sum_nonneg n (f : nat -> R) : (forall i, i < n -> (0 <= f i)%R) -> (0 <= sum (R := Rring) n f)%R.
Proof.
  induction n as [|n IH]; intros H; simpl; [lra|]. apply Rplus_le_le_0_compat; [apply IH; auto|apply H; lia].
Qed.

Lemma tail_le S r : singular S -> (tail_sq S (Nat.min (d_r S) (d_c S)) r <= trunc_err S (Nat.min (d_r S) (d_c S)) r)%R.
Proof.
  intros [_ [Hp Hd]]. unfold tail_sq, trunc_err. apply sum_le. intros i Hi.
  pose proof (Hp (r + i)) as H1. lapply H1; [intros H2|lia].
  assert (H3 : (d_e S (r + i)%nat (r + i)%nat <= d_e S r r)%R) by (apply Hd; lia).
  apply Rmult_le_compat; auto.
Qed.

(** The loop stops at the first rank whose computed error is below the threshold, or
    with all values. *)
Lemma trunc_loop_spec S n thr : forall fuel rank, rank < n -> n - rank <= fuel ->
  let r := trunc_loop fuel S n thr rank in
  rank < r <= n /\ (r = n \/ (sqrt (trunc_err S n r) <= thr)%R) /\
  forall k, rank < k < r -> (thr < sqrt (trunc_err S n k))%R.
Proof.
  induction fuel as [|fuel IH]; intros rank Hr Hf; [lia|]. cbv zeta. cbn [trunc_loop].
  destruct ((rank + 1 <? n) && rgt (sqrt (trunc_err S n (rank + 1))) thr) eqn:E.
  - apply andb_prop in E. destruct E as [E1 E2]. apply Nat.ltb_lt in E1. apply rgt_true in E2.
    destruct (IH (rank + 1)) as [A [B C]]; try lia. split; [lia|]. split; auto.
    intros k Hk. destruct (Nat.eq_dec k (rank + 1)) as [->|]; auto. apply C. lia.
  - split; [lia|]. split; [|intros k Hk; lia].
    apply andb_false_iff in E. destruct E as [E|E].
    + apply Nat.ltb_ge in E. left. lia.
    + right. apply rgt_false. auto.
Qed.

Lemma svd_rank_range S eps : 0 < Nat.min (d_r S) (d_c S) -> 1 <= svd_rank S eps <= Nat.min (d_r S) (d_c S).
Proof.
  intros H. unfold svd_rank.
  destruct (trunc_loop_spec S (Nat.min (d_r S) (d_c S)) (eps * sqrt (sumsq (R := Rring) (d_r S) (d_c S) (d_e S))) (Nat.min (d_r S) (d_c S)) 0) as [A _]; lia.
Qed.

Lemma tail_nonneg S n r : (0 <= tail_sq S n r)%R.
Proof. apply sum_nonneg. intros i _. apply Rle_0_sqr. Qed.

Lemma svd_rank_accuracy S eps : singular S -> (0 <= eps)%R ->
  let n := Nat.min (d_r S) (d_c S) in
  (sqrt (tail_sq S n (svd_rank S eps)) <= eps * sqrt (sumsq (R := Rring) (d_r S) (d_c S) (d_e S)))%R.
Proof.
  intros HS He. cbv zeta. set (n := Nat.min (d_r S) (d_c S)).
  set (thr := (eps * sqrt _)%R).
  assert (Ht : (0 <= thr)%R) by (apply Rmult_le_pos; auto using sqrt_pos).
  assert (Z : forall r, n <= r -> sqrt (tail_sq S n r) = 0%R).
  { intros r Hr. unfold tail_sq. replace (n - r) with 0 by lia. apply sqrt_0. }
  destruct (Nat.eq_dec n 0) as [E|E].
  - rewrite Z; auto. lia.
  - destruct (trunc_loop_spec S n thr n 0) as [A [B _]]; try lia.
    change (trunc_loop n S n thr 0) with (svd_rank S eps) in *.
    destruct B as [B|B].
    + rewrite B, Z; auto.
    + eapply Rle_trans; [|exact B]. apply sqrt_le_1_alt. apply tail_le. auto.
Qed.

(** sumsq of a diagonal matrix is the sum of all squares, so that the bound is relative
    to the norm of the compressed matrix. *)
Lemma sumsq_diag S : singular S -> sumsq (R := Rring) (d_r S) (d_c S) (d_e S) = tail_sq S (Nat.min (d_r S) (d_c S)) 0.
Proof.
  intros [Hz _]. unfold sumsq, tail_sq. rewrite Nat.sub_0_r.
  assert (X : forall i, i < d_r S -> sum (R := Rring) (d_c S) (fun j => (d_e S i j * d_e S i j)%r) = if i <? d_c S then (d_e S i i * d_e S i i)%R else 0%R).
  { intros i Hi. destruct (Nat.ltb_spec i (d_c S)).
    - rewrite (sum_single (d_c S) i); auto. intros j Hj Hne. rewrite Hz by auto. simpl. ring.
    - apply (sum_zero' (R := Rring)). intros j Hj. rewrite Hz by lia. simpl. ring. }
  rewrite (sum_ext (d_r S) _ _ X).
  destruct (le_lt_dec (d_r S) (d_c S)) as [H|H].
  - rewrite Nat.min_l by auto. apply sum_ext. intros i Hi. destruct (Nat.ltb_spec i (d_c S)); [reflexivity|lia].
  - rewrite Nat.min_r by lia. replace (d_r S) with (d_c S + (d_r S - d_c S)) by lia. rewrite sum_split.
    rewrite (sum_ext (R := Rring) (d_c S) _ (fun i => (d_e S i i * d_e S i i)%R)).
    2:{ intros i Hi. destruct (Nat.ltb_spec i (d_c S)); [reflexivity|lia]. }
    rewrite (sum_zero' (R := Rring) (d_r S - d_c S)).
    2:{ intros i Hi. destruct (Nat.ltb_spec (d_c S + i) (d_c S)); [lia|reflexivity]. }
    simpl. ring.
Qed.

(** ** Not minimal *)
(** Singular values 4, 1, 0, 0, 0 and eps = 1/4: dropping all but the first leaves an error of 1,
    below 1/4 * sqrt 17, but two values are kept. *)
Definition diag2 : dense Rring :=
  @Dn Rring 5 5 (fun i j => if i =? j then match i with 0 => 4%R | 1 => 1%R | _ => 0%R end else 0%R).

Lemma diag2_singular : singular diag2.
Proof.
  split; [|split].
  - intros i j _ _ Hne. simpl. apply Nat.eqb_neq in Hne. rewrite Hne. reflexivity.
  - intros i _. simpl. rewrite Nat.eqb_refl. destruct i as [|[|i]]; lra.
  - intros i j Hij _. simpl. rewrite !Nat.eqb_refl. destruct i as [|[|i]], j as [|[|j]]; try lra; lia.
Qed.

Lemma diag2_norm : sumsq (R := Rring) 5 5 (d_e diag2) = 17%R.
Proof. vm_compute. ring. Qed.

Lemma sqrt17 : (4 < sqrt 17 < 5)%R.
Proof.
  split.
  - rewrite <- (sqrt_square 4) by lra. apply sqrt_lt_1_alt. lra.
  - rewrite <- (sqrt_square 5) by lra. apply sqrt_lt_1_alt. lra.
Qed.

Lemma sqrt4' : sqrt 4 = 2%R.
Proof. replace 4%R with (2 * 2)%R by ring. apply sqrt_square. lra. Qed.

Lemma diag2_rank : svd_rank diag2 (1 / 4) = 2.
Proof.
  unfold svd_rank. change (d_r diag2) with 5. change (d_c diag2) with 5. rewrite diag2_norm.
  change (Nat.min 5 5) with 5. pose proof sqrt17 as H17.
  cbn [trunc_loop]. change (0 + 1) with 1. change (1 + 1) with 2.
  assert (E1 : trunc_err diag2 5 1 = 4%R) by (vm_compute; ring).
  assert (E2 : trunc_err diag2 5 2 = 0%R) by (vm_compute; ring).
  rewrite E1, E2, sqrt4', sqrt_0.
  unfold rgt at 1. destruct (Rlt_dec _ 2); [|lra]. simpl.
  unfold rgt. destruct (Rlt_dec _ 0); [lra|]. reflexivity.
Qed.

Lemma not_minimal : exists S eps, singular S /\ (0 < eps)%R /\
  exists r, 1 <= r < svd_rank S eps /\
  (sqrt (tail_sq S (Nat.min (d_r S) (d_c S)) r) < eps * sqrt (sumsq (R := Rring) (d_r S) (d_c S) (d_e S)))%R.
Proof.
  exists diag2, (1 / 4)%R. split; [apply diag2_singular|]. split; [lra|]. exists 1. rewrite diag2_rank. split; [lia|].
  change (d_r diag2) with 5. change (d_c diag2) with 5. rewrite diag2_norm. change (Nat.min 5 5) with 5.
  assert (E : tail_sq diag2 5 1 = 1%R) by (vm_compute; ring). rewrite E, sqrt_1. pose proof sqrt17. lra.
Qed.

(** Without columns or rows the answer is 1, more than there are values. *)
Lemma svd_rank_empty S eps : Nat.min (d_r S) (d_c S) = 0 -> svd_rank S eps = 1.
Proof. intros H. unfold svd_rank. rewrite H. reflexivity. Qed.
