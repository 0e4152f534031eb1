(** dlarfg over the real numbers (LAPACK, called in src/operations/LAPACK/geqp3.cpp:117,121
    and inside of dgeqrf and dgerqf). *)
From Coq Require Import List Arith Lia Bool Reals Lra Ring_theory Ring.
From Verif Require Import Prelude Ring MatFun MatSetoid Matrix MatOps Lapack Reflect ReflectSpec SvdRank Householder HouseQr.
Import ListNotations.
Local Open Scope nat_scope.

Notation rsum := (sum (R := Rring)).
Notation vec := (nat -> R).

(** Square of the norm of x_1 .. x_{n-1}. *)
Definition tailsq (n : nat) (x : vec) : R := rsum (n - 1) (fun i => (x (S i) * x (S i))%R).

Definition dlarfg (n : nat) (x : vec) : vec * R :=
  let a := x 0 in
  let s := tailsq n x in
  if (n <=? 1) then (x, 0%R) else
  if Req_EM_T s 0 then (x, 0%R) else
  let b := (if Rle_dec 0 a then - sqrt (a * a + s) else sqrt (a * a + s))%R in
  (fun i => if i =? 0 then b else (x i / (a - b))%R, ((b - a) / b)%R).

Lemma rsum_mul_l n (a : R) (f : vec) : rsum n (fun i => (a * f i)%R) = (a * rsum n f)%R.
Proof. exact (sum_mul_l (R := Rring) n a f). Qed.

Lemma tailsq_pos n x : (0 <= tailsq n x)%R.
Proof. apply sum_nonneg. intros i _. apply Rle_0_sqr. Qed.

Lemma sum_zero_terms n (f : nat -> R) : (forall i, i < n -> (0 <= f i)%R) -> rsum n f = 0%R -> forall i, i < n -> f i = 0%R.
Proof.
  induction n as [|n IH]; intros Hp Hs i Hi; [lia|]. simpl in Hs.
  assert (H1 : (0 <= rsum n f)%R) by (apply sum_nonneg; auto).
  assert (H2 : (0 <= f n)%R) by (apply Hp; lia).
  destruct (Nat.eq_dec i n) as [->|]; [lra|]. apply IH; auto; [lra|lia].
Qed.

Lemma sqsum_zero n (x : nat -> R) : rsum n (fun i => (x i * x i)%R) = 0%R -> forall i, i < n -> x i = 0%R.
Proof.
  intros H i Hi. assert (E : (x i * x i)%R = 0%R).
  { apply (sum_zero_terms n (fun i => (x i * x i)%R)); auto. intros k _. apply Rle_0_sqr. }
  apply Rsqr_0_uniq. exact E.
Qed.

Lemma dot_first n (u w : vec) : 0 < n ->
  dot (R := Rring) n u w = (u 0%nat * w 0%nat + rsum (n - 1) (fun i => u (S i) * w (S i)))%R.
Proof. intros H. unfold dot. destruct n as [|n]; [lia|]. rewrite (sum_first (R := Rring)). rewrite Nat.sub_succ, Nat.sub_0_r. reflexivity. Qed.

Lemma dlarfg_ok : larfg_ok (R := Rring) dlarfg.
Proof.
  assert (SS : forall (a s : R), (0 < s)%R ->
    let b := (if Rle_dec 0 a then - sqrt (a * a + s) else sqrt (a * a + s))%R in
    (b * b = a * a + s /\ b <> 0 /\ a - b <> 0)%R).
  { intros a s Hs b. assert (P : (0 < a * a + s)%R) by (pose proof (Rle_0_sqr a) as Q; unfold Rsqr in Q; lra).
    assert (Q1 : (sqrt (a * a + s) * sqrt (a * a + s) = a * a + s)%R) by (apply sqrt_sqrt; lra).
    assert (Q2 : (0 < sqrt (a * a + s))%R) by (apply sqrt_lt_R0; auto).
    unfold b. destruct (Rle_dec 0 a); repeat split; lra. }
  split.
  - intros n x. unfold dlarfg. destruct (Nat.leb_spec n 1).
    { unfold bal. simpl. ring. }
    destruct (Req_EM_T (tailsq n x) 0) as [E|E]; [unfold bal; simpl; ring|].
    assert (P : (0 < tailsq n x)%R) by (pose proof (tailsq_pos n x); lra).
    destruct (SS (x 0) (tailsq n x) P) as [S1 [S2 S3]]. cbv zeta in S1, S2, S3. simpl.
    set (b := (if Rle_dec 0 (x 0%nat) then _ else _)%R) in *.
    unfold bal. simpl. rewrite dot_first by lia. simpl.
    rewrite (sum_ext (R := Rring) (n - 1) _ (fun i => (/ ((x 0%nat - b) * (x 0%nat - b)) * (x (S i) * x (S i)))%R)).
    2:{ intros i _. unfold hv. simpl. field. auto. }
    rewrite rsum_mul_l. fold (tailsq n x).
    replace (tailsq n x) with (b * b - x 0%nat * x 0%nat)%R by lra. unfold hv. simpl. field. auto.
  - intros n x i Hi. unfold dlarfg. destruct (Nat.leb_spec n 1).
    { simpl. destruct (Nat.eqb_spec i 0) as [->|]; [ring|lia]. }
    destruct (Req_EM_T (tailsq n x) 0) as [E|E].
    { simpl. destruct (Nat.eqb_spec i 0) as [->|Hne]; [ring|].
      replace (x i) with 0%R; [ring|]. symmetry. replace i with (S (i - 1)) by lia.
      apply (sqsum_zero (n - 1) (fun i => x (S i))); auto. lia. }
    assert (P : (0 < tailsq n x)%R) by (pose proof (tailsq_pos n x); lra).
    destruct (SS (x 0) (tailsq n x) P) as [S1 [S2 S3]]. cbv zeta in S1, S2, S3. simpl.
    set (b := (if Rle_dec 0 (x 0%nat) then _ else _)%R) in *.
    rewrite dot_first by lia. simpl.
    rewrite (sum_ext (R := Rring) (n - 1) _ (fun i => (/ (x 0%nat - b) * (x (S i) * x (S i)))%R)).
    2:{ intros l _. unfold hv. simpl. field. auto. }
    rewrite rsum_mul_l. fold (tailsq n x).
    replace (tailsq n x) with (b * b - x 0%nat * x 0%nat)%R by lra. unfold hv at 2. simpl.
    unfold hv. destruct (Nat.eqb_spec i 0) as [->|Hne]; simpl; field; auto.
Qed.
