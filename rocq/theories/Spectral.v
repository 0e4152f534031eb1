(** A singular value decomposition of every real matrix: what dgesdd and dgesvd (called in
    src/operations/LAPACK/svd.cpp:23-43) are asked for exists, and is given by a function. *)
From Coq Require Import List Arith Lia Bool Reals Lra Ring_theory Ring.
From Verif Require Import Prelude Ring MatFun MatSetoid Matrix MatOps Lapack Reflect ReflectSpec SvdRank Householder HouseQr HouseReal Rrqr RrqrRank.
Import ListNotations.
Local Open Scope nat_scope.

(** ** Quadratic forms *)

Definition qf (n : nat) (M : rmat) (z : vec) : R := rsum n (fun i => rsum n (fun j => (z i * M i j * z j)%R)).

Definition qb (M : rmat) : vec := fun j => ((M 0%nat (S j) + M (S j) 0%nat) / 2)%R.
Definition schur (M : rmat) : rmat := fun i j => (M (S i) (S j) - qb M i * qb M j / M 0%nat 0%nat)%R.

Lemma rsum_add n (f g : vec) : rsum n (fun i => (f i + g i)%R) = (rsum n f + rsum n g)%R.
Proof. exact (sum_add (R := Rring) n f g). Qed.
Lemma rsum_sub n (f g : vec) : rsum n (fun i => (f i - g i)%R) = (rsum n f - rsum n g)%R.
Proof. exact (sum_sub (R := Rring) n f g). Qed.
Lemma rsum_mul_r n (a : R) (f : vec) : rsum n (fun i => (f i * a)%R) = (rsum n f * a)%R.
Proof. exact (sum_mul_r (R := Rring) n a f). Qed.
Lemma rsum_first n (f : vec) : rsum (S n) f = (f 0%nat + rsum n (fun i => f (S i)))%R.
Proof. exact (sum_first (R := Rring) n f). Qed.
Lemma rsum_ext n (f g : vec) : (forall i, i < n -> f i = g i) -> rsum n f = rsum n g.
Proof. exact (sum_ext (R := Rring) n f g). Qed.

Lemma qf_schur n M (z : vec) : M 0 0 <> 0%R ->
  let w := rsum n (fun j => (qb M j * z (S j))%R) in
  qf (S n) M z = (M 0%nat 0%nat * ((z 0%nat + w / M 0%nat 0%nat) * (z 0%nat + w / M 0%nat 0%nat)) + qf n (schur M) (fun j => z (S j)))%R.
Proof.
  intros Ha w. set (a := M 0 0) in *. unfold qf. rewrite rsum_first.
  rewrite rsum_first. fold a.
  rewrite (rsum_ext n (fun i => rsum (S n) _) (fun i => (z (S i) * M (S i) 0%nat * z 0%nat + rsum n (fun j => z (S i) * M (S i) (S j) * z (S j)))%R))
    by (intros i Hi; rewrite rsum_first; reflexivity).
  rewrite rsum_add.
  assert (E1 : (rsum n (fun i => z 0%nat * M 0%nat (S i) * z (S i)) + rsum n (fun i => z (S i) * M (S i) 0%nat * z 0%nat) = 2 * z 0%nat * w)%R).
  { unfold w. rewrite <- rsum_add, <- rsum_mul_l. apply rsum_ext. intros i Hi. unfold qb. field. }
  assert (E2 : rsum n (fun i => rsum n (fun j => (z (S i) * schur M i j * z (S j))%R)) =
    (rsum n (fun i => rsum n (fun j => z (S i) * M (S i) (S j) * z (S j))) - w * w / a)%R).
  { transitivity (rsum n (fun i => (rsum n (fun j => z (S i) * M (S i) (S j) * z (S j)) - (qb M i * z (S i)) * (w / a))%R)).
    - apply rsum_ext. intros i Hi.
      transitivity (rsum n (fun j => (z (S i) * M (S i) (S j) * z (S j) - (qb M i * z (S i) / a) * (qb M j * z (S j)))%R)).
      + apply rsum_ext. intros j Hj. unfold schur. fold a. field. auto.
      + rewrite rsum_sub, rsum_mul_l. fold w. f_equal. field. auto.
    - rewrite rsum_sub, rsum_mul_r. fold w. f_equal. field. auto. }
  rewrite E2.
  set (X := rsum n (fun i => rsum n (fun j => (z (S i) * M (S i) (S j) * z (S j))%R))) in *.
  set (Y := rsum n (fun i => (z 0%nat * M 0%nat (S i) * z (S i))%R)) in *.
  set (Z := rsum n (fun i => (z (S i) * M (S i) 0%nat * z 0%nat)%R)) in *.
  transitivity (z 0%nat * a * z 0%nat + (Y + Z) + X)%R; [rring|]. rewrite E1. field. auto.
Qed.

Lemma vec_sq_pos n z : (0 <= vec_sq n z)%R.
Proof. apply sum_nonneg. intros i _. apply Rle_0_sqr. Qed.

(** A quadratic form is bounded below by a multiple of the norm, or not positive somewhere. *)
Lemma definite : forall n (M : rmat),
  {z : vec | (0 < vec_sq n z)%R /\ (qf n M z <= 0)%R} + {c : R | (0 < c)%R /\ forall z, (c * vec_sq n z <= qf n M z)%R}.
Proof.
  induction n as [|n IH]; intros M.
  - right. exists 1%R. split; [lra|]. intros z. unfold vec_sq, qf. simpl. lra.
  - destruct (Rle_dec (M 0 0) 0) as [L|L].
    + left. exists (fun i => if i =? 0 then 1%R else 0%R). split.
      * unfold vec_sq. rewrite rsum_first. cbn [Nat.eqb].
        rewrite (sum_zero' (R := Rring)); [simpl; lra|]. intros i Hi. cbn [Nat.eqb]. rring.
      * unfold qf. rewrite rsum_first, rsum_first. cbn [Nat.eqb].
        rewrite (sum_zero' (R := Rring) n (fun i => (1 * M 0%nat (S i) * 0)%R)) by (intros i Hi; rring).
        rewrite (sum_zero' (R := Rring) n).
        -- simpl. lra.
        -- intros i Hi. apply (sum_zero' (R := Rring)). intros j Hj. simpl. ring.
    + assert (Ha : (0 < M 0%nat 0%nat)%R) by lra. assert (Ha' : (M 0%nat 0%nat <> 0)%R) by lra.
      set (a := M 0 0) in *.
      destruct (IH (schur M)) as [[z [Z1 Z2]]|[c [C1 C2]]].
      * left. set (w := rsum n (fun j => (qb M j * z j)%R)).
        exists (fun i => match i with O => (- w / a)%R | S j => z j end). split.
        -- unfold vec_sq. rewrite rsum_first. fold (vec_sq n z).
           pose proof (Rle_0_sqr (- w / a)) as Q. unfold Rsqr in Q. lra.
        -- rewrite qf_schur by auto. fold a. fold w. cbv beta iota. change (fun j => z j) with z.
           replace (- w / a + w / a)%R with 0%R by (field; auto). lra.
      * right. set (b2 := vec_sq n (qb M)). assert (B : (0 <= b2)%R) by apply vec_sq_pos.
        set (d := (1 + 2 * b2 / (a * a))%R).
        assert (AA : (0 < a * a)%R) by (apply Rmult_lt_0_compat; auto).
        assert (D : (1 <= d)%R).
        { unfold d. assert (0 <= 2 * b2 / (a * a))%R; [|lra]. apply Rmult_le_pos; [lra|]. apply Rlt_le, Rinv_0_lt_compat; auto. }
        set (e := Rmin (a / 2) (c / d)).
        assert (E : (0 < e)%R).
        { unfold e. apply Rmin_glb_lt; [lra|]. apply Rdiv_lt_0_compat; lra. }
        exists e. split; auto. intros z. rewrite qf_schur by auto. fold a.
        set (w := rsum n (fun j => (qb M j * z (S j))%R)). set (z' := fun j => z (S j)).
        specialize (C2 z').
        assert (W : (w * w <= b2 * vec_sq n z')%R) by (apply cauchy_schwarz).
        assert (V : vec_sq (S n) z = (z 0%nat * z 0%nat + vec_sq n z')%R) by (unfold vec_sq; rewrite rsum_first; reflexivity).
        set (y := (z 0%nat + w / a)%R). assert (Y : z 0 = (y - w / a)%R) by (unfold y; lra).
        assert (S1 : (z 0%nat * z 0%nat <= 2 * (y * y) + 2 * (w * w / (a * a)))%R).
        { rewrite Y. pose proof (Rle_0_sqr (y + w / a)) as Q. unfold Rsqr in Q.
          assert (T : ((w / a) * (w / a) = w * w / (a * a))%R) by (field; auto).
          replace ((y - w / a) * (y - w / a))%R with (2 * (y * y) + 2 * ((w / a) * (w / a)) - (y + w / a) * (y + w / a))%R by ring.
          rewrite T. lra. }
        assert (S2 : (2 * (w * w / (a * a)) <= (d - 1) * vec_sq n z')%R).
        { unfold d. replace ((1 + 2 * b2 / (a * a) - 1) * vec_sq n z')%R with (2 * ((b2 * vec_sq n z') / (a * a)))%R by (field; auto).
          apply Rmult_le_compat_l; [lra|]. apply Rmult_le_compat_r; auto. apply Rlt_le, Rinv_0_lt_compat; auto. }
        assert (P1 : (0 <= y * y)%R) by apply Rle_0_sqr. assert (P2 : (0 <= vec_sq n z')%R) by apply vec_sq_pos.
        assert (S3 : (vec_sq (S n) z <= 2 * (y * y) + d * vec_sq n z')%R) by lra.
        assert (e1 : (e * 2 <= a)%R) by (pose proof (Rmin_l (a / 2) (c / d)); unfold e; lra).
        assert (e2 : (e * d <= c)%R).
        { apply Rle_trans with (c / d * d)%R; [apply Rmult_le_compat_r; [lra|apply Rmin_r]|]. apply Req_le. field. lra. }
        apply Rle_trans with (e * (2 * (y * y) + d * vec_sq n z'))%R; [apply Rmult_le_compat_l; lra|].
        replace (e * (2 * (y * y) + d * vec_sq n z'))%R with ((e * 2) * (y * y) + (e * d) * vec_sq n z')%R by ring.
        apply Rplus_le_compat; [apply Rmult_le_compat_r; auto|].
        apply Rle_trans with (c * vec_sq n z')%R; auto. apply Rmult_le_compat_r; auto.
Qed.

(** ** The largest singular value *)

Definition gram (m : nat) (A : rmat) (mu : R) : rmat :=
  fun i j => (mu * mid (R := Rring) i j - rsum m (fun l => A l i * A l j))%R.

Lemma gram_qf m n A mu z : qf n (gram m A mu) z = (mu * vec_sq n z - apply_sq m n A z)%R.
Proof.
  unfold qf, gram.
  transitivity (rsum n (fun i => (mu * (z i * z i) - rsum m (fun l => (A l i * z i) * rsum n (fun j => A l j * z j)))%R)).
  - apply rsum_ext. intros i Hi.
    transitivity (rsum n (fun j => (mu * (z i * mid (R := Rring) i j * z j) - rsum m (fun l => A l i * z i * (A l j * z j)))%R)).
    + apply rsum_ext. intros j Hj. rewrite Rmult_minus_distr_l, Rmult_minus_distr_r. f_equal; [rring|].
      rewrite <- rsum_mul_l, <- rsum_mul_r. apply rsum_ext. intros l Hl. ring.
    + rewrite rsum_sub. f_equal.
      * rewrite rsum_mul_l. f_equal. rewrite (sum_single (R := Rring) n i _ Hi).
        -- unfold mid. rewrite Nat.eqb_refl. rring.
        -- intros j Hj Hn. unfold mid. destruct (Nat.eqb_spec i j); [congruence|]. rring.
      * rewrite (sum_swap (R := Rring)). apply rsum_ext. intros l Hl. rewrite rsum_mul_l. reflexivity.
  - rewrite rsum_sub, rsum_mul_l. unfold vec_sq. f_equal. rewrite (sum_swap (R := Rring)). unfold apply_sq.
    apply rsum_ext. intros l Hl. rewrite rsum_mul_r. reflexivity.
Qed.

Lemma apply_sq_scale m n A (a : R) z : apply_sq m n A (fun i => (a * z i)%R) = (a * a * apply_sq m n A z)%R.
Proof.
  unfold apply_sq. rewrite <- rsum_mul_l. apply rsum_ext. intros i Hi.
  assert (E : rsum n (fun j => (A i j * (a * z j))%R) = (a * rsum n (fun j => A i j * z j))%R).
  { rewrite <- rsum_mul_l. apply rsum_ext. intros j Hj. rring. }
  rewrite E. rring.
Qed.
Lemma vec_sq_scale n (a : R) z : vec_sq n (fun i => (a * z i)%R) = (a * a * vec_sq n z)%R.
Proof. unfold vec_sq. rewrite <- rsum_mul_l. apply rsum_ext. intros i Hi. ring. Qed.

Lemma normalize n (z : vec) : (0 < vec_sq n z)%R -> vec_sq n (fun i => (/ sqrt (vec_sq n z) * z i)%R) = 1%R.
Proof.
  intros H. rewrite vec_sq_scale. assert (S : (sqrt (vec_sq n z) * sqrt (vec_sq n z) = vec_sq n z)%R) by (apply sqrt_sqrt; lra).
  assert (P : (0 < sqrt (vec_sq n z))%R) by (apply sqrt_lt_R0; auto).
  rewrite <- S at 3. field. lra.
Qed.

Lemma apply_sq_pos m n A z : (0 <= apply_sq m n A z)%R.
Proof. apply sum_nonneg. intros i _. apply Rle_0_sqr. Qed.

Lemma top_vector m n (A : rmat) : 0 < n ->
  {z : vec | vec_sq n z = 1%R /\ forall w, (apply_sq m n A w <= apply_sq m n A z * vec_sq n w)%R}.
Proof.
  intros Hn.
  set (E := fun x => exists w, vec_sq n w = 1%R /\ x = apply_sq m n A w).
  destruct (completeness E) as [mu [M1 M2]].
  - exists (sumsq (R := Rring) m n A). intros x [w [W ->]]. rewrite <- Rmult_1_r. rewrite <- W. apply apply_sq_bound.
  - exists (apply_sq m n A (fun i => if i =? 0 then 1%R else 0%R)). eexists. split; [|reflexivity].
    destruct n as [|n]; [lia|]. unfold vec_sq. rewrite rsum_first. cbn [Nat.eqb].
    rewrite (sum_zero' (R := Rring)); [simpl; ring|]. intros i Hi. rring.
  - assert (UB : forall w, (apply_sq m n A w <= mu * vec_sq n w)%R).
    { intros w. destruct (Rle_lt_dec (vec_sq n w) 0) as [Z|P].
      - assert (Z0 : vec_sq n w = 0%R) by (pose proof (vec_sq_pos n w); lra).
        pose proof (apply_sq_bound m n A w) as B. rewrite Z0 in *. lra.
      - assert (B : (apply_sq m n A (fun i => (/ sqrt (vec_sq n w) * w i)%R) <= mu)%R).
        { apply M1. eexists. split; [|reflexivity]. apply normalize. auto. }
        rewrite apply_sq_scale in B.
        assert (S : (sqrt (vec_sq n w) * sqrt (vec_sq n w) = vec_sq n w)%R) by (apply sqrt_sqrt; lra).
        assert (Q : (0 < sqrt (vec_sq n w))%R) by (apply sqrt_lt_R0; auto).
        apply (Rmult_le_compat_r (vec_sq n w)) in B; [|lra].
        replace (/ sqrt (vec_sq n w) * / sqrt (vec_sq n w) * apply_sq m n A w * vec_sq n w)%R with (apply_sq m n A w) in B; auto.
        rewrite <- S at 3. field. lra. }
    destruct (definite n (gram m A mu)) as [[z [Z1 Z2]]|[c [C1 C2]]].
    + exists (fun i => (/ sqrt (vec_sq n z) * z i)%R). split; [apply normalize; auto|].
      rewrite gram_qf in Z2. rewrite apply_sq_scale.
      assert (S : (sqrt (vec_sq n z) * sqrt (vec_sq n z) = vec_sq n z)%R) by (apply sqrt_sqrt; lra).
      assert (Q : (0 < sqrt (vec_sq n z))%R) by (apply sqrt_lt_R0; auto).
      assert (G : (mu <= / sqrt (vec_sq n z) * / sqrt (vec_sq n z) * apply_sq m n A z)%R).
      { apply Rmult_le_reg_r with (vec_sq n z); auto.
        replace (/ sqrt (vec_sq n z) * / sqrt (vec_sq n z) * apply_sq m n A z * vec_sq n z)%R with (apply_sq m n A z); [lra|].
        rewrite <- S at 3. field. lra. }
      intros w. eapply Rle_trans; [apply UB|]. apply Rmult_le_compat_r; auto. apply vec_sq_pos.
    + exfalso. assert (B : (mu <= mu - c)%R); [|lra].
      apply M2. intros x [w [W ->]]. specialize (C2 w). rewrite gram_qf, W in C2. lra.
Qed.
