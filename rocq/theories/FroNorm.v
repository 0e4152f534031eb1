(** The Frobenius norm of real matrices. *)
From Coq Require Import List Arith ZArith Lia Bool Reals Lra Ring_theory Ring.
From Verif Require Import Prelude Ring MatFun MatSetoid Matrix MatOps MatSpec MatOpsProofs Lapack Triangular Reflect ReflectSpec QrBig
  SvdRank Householder HouseQr HouseReal Rrqr RrqrRank EckartYoung.
Import ListNotations.
Local Open Scope R_scope.

(** Equations of entries. *)
Ltac rr := cbn; lra.

Definition fro (r c : nat) (f : mat Rring) : R := sqrt (sumsq (R := Rring) r c f).

Lemma fro_nonneg r c f : 0 <= fro r c f.
Proof. apply sqrt_pos. Qed.

Lemma fro_sq r c f : fro r c f * fro r c f = sumsq (R := Rring) r c f.
Proof. apply sqrt_sqrt. apply sumsq_pos. Qed.

Lemma fro_ext r c (f g : mat Rring) : feq (R := Rring) r c f g -> fro r c f = fro r c g.
Proof. intros H. unfold fro. f_equal. apply (sumsq_ext (R := Rring)). exact H. Qed.

Lemma fro_zero r c : fro r c (mzero (R := Rring)) = 0.
Proof.
  unfold fro. replace (sumsq (R := Rring) r c mzero) with 0; [apply sqrt_0|]. symmetry.
  unfold sumsq. apply (sum_zero' (R := Rring)). intros i _. apply (sum_zero' (R := Rring)). intros j _. unfold mzero. rr.
Qed.

(** ** The triangle inequality *)

Lemma mink_vec n (a b : vec) : (forall i, (i < n)%nat -> 0 <= a i) -> (forall i, (i < n)%nat -> 0 <= b i) ->
  sqrt (rsum n (fun i => (a i + b i) * (a i + b i))) <= sqrt (rsum n (fun i => a i * a i)) + sqrt (rsum n (fun i => b i * b i)).
Proof.
  intros HA HB. set (x := rsum n (fun i => a i * a i)). set (y := rsum n (fun i => b i * b i)).
  assert (X : 0 <= x) by (apply sum_nonneg; intros; apply Rle_0_sqr).
  assert (Y : 0 <= y) by (apply sum_nonneg; intros; apply Rle_0_sqr).
  pose proof (cauchy_schwarz n a b) as CS. set (z := rsum n (fun i => a i * b i)) in *. fold x y in CS.
  assert (E : rsum n (fun i => (a i + b i) * (a i + b i)) = x + 2 * z + y).
  { unfold x, y, z. clear. induction n as [|n IH]; cbn [sum]; [cbn; ring|]. rewrite IH. cbn. ring. }
  rewrite E.
  assert (Z : z <= sqrt x * sqrt y).
  { rewrite <- sqrt_mult by auto. eapply Rle_trans; [apply Rle_abs|]. rewrite <- sqrt_Rsqr_abs. apply sqrt_le_1_alt. exact CS. }
  pose proof (sqrt_pos x) as P1. pose proof (sqrt_pos y) as P2.
  rewrite <- (sqrt_Rsqr (sqrt x + sqrt y)) by lra. apply sqrt_le_1_alt. unfold Rsqr.
  pose proof (sqrt_sqrt x X). pose proof (sqrt_sqrt y Y). nra.
Qed.

(** Without signs. *)
Lemma mink_abs n (a b : vec) :
  sqrt (rsum n (fun i => (a i + b i) * (a i + b i))) <= sqrt (rsum n (fun i => a i * a i)) + sqrt (rsum n (fun i => b i * b i)).
Proof.
  assert (Q : forall t, Rabs t * Rabs t = t * t) by (intros t; rewrite <- Rabs_mult; apply Rabs_pos_eq; apply Rle_0_sqr).
  rewrite <- (sum_ext (R := Rring) n (fun i => Rabs (a i) * Rabs (a i)) (fun i => a i * a i)) by (intros; apply Q).
  rewrite <- (sum_ext (R := Rring) n (fun i => Rabs (b i) * Rabs (b i)) (fun i => b i * b i)) by (intros; apply Q).
  eapply Rle_trans; [|apply mink_vec; intros; apply Rabs_pos].
  apply sqrt_le_1_alt. apply sum_le. intros i _. rewrite <- (Q (a i + b i)).
  pose proof (Rabs_triang (a i) (b i)). pose proof (Rabs_pos (a i + b i)). apply Rmult_le_compat; auto.
Qed.

Definition rown (c : nat) (f : mat Rring) (i : nat) : R := sqrt (rsum c (fun j => f i j * f i j)).
Lemma rown_sq c f i : rown c f i * rown c f i = rsum c (fun j => f i j * f i j).
Proof. apply sqrt_sqrt. apply sum_nonneg. intros. apply Rle_0_sqr. Qed.

Lemma fro_rows r c f : fro r c f = sqrt (rsum r (fun i => rown c f i * rown c f i)).
Proof. unfold fro. f_equal. unfold sumsq. apply (sum_ext (R := Rring)). intros i _. rewrite rown_sq. reflexivity. Qed.

Lemma fro_triangle r c (f g : mat Rring) : fro r c (madd (R := Rring) f g) <= fro r c f + fro r c g.
Proof.
  rewrite !fro_rows. eapply Rle_trans; [|apply mink_vec; intros; apply sqrt_pos].
  apply sqrt_le_1_alt. apply sum_le. intros i _.
  pose proof (mink_abs c (fun j => f i j) (fun j => g i j)) as M.
  change (rown c (madd (R := Rring) f g) i <= rown c f i + rown c g i) in M.
  assert (P : 0 <= rown c (madd (R := Rring) f g) i) by apply sqrt_pos. apply Rmult_le_compat; auto.
Qed.

Lemma fro_opp r c (f : mat Rring) : fro r c (msub (R := Rring) mzero f) = fro r c f.
Proof.
  unfold fro. f_equal. unfold sumsq. apply (sum_ext (R := Rring)). intros i _. apply (sum_ext (R := Rring)). intros j _.
  unfold msub, mzero. rr.
Qed.

Lemma fro_sub r c (f g : mat Rring) : fro r c (msub (R := Rring) f g) <= fro r c f + fro r c g.
Proof.
  rewrite <- (fro_opp r c g). eapply Rle_trans; [|apply fro_triangle]. right. apply fro_ext.
  intros i j _ _. unfold msub, madd, mzero. rr.
Qed.

Lemma fro_swap r c (f g : mat Rring) : fro r c (msub (R := Rring) f g) = fro r c (msub (R := Rring) g f).
Proof. rewrite <- fro_opp. apply fro_ext. intros i j _ _. unfold msub, mzero. rr. Qed.

(** Through a third matrix. *)
Lemma fro_via r c (f g h : mat Rring) :
  fro r c (msub (R := Rring) f h) <= fro r c (msub (R := Rring) f g) + fro r c (msub (R := Rring) g h).
Proof.
  eapply Rle_trans; [|apply fro_triangle]. right. apply fro_ext. intros i j _ _. unfold msub, madd. rr.
Qed.

Lemma fro_dist r c (f g : mat Rring) : fro r c f <= fro r c g + fro r c (msub (R := Rring) f g).
Proof.
  eapply Rle_trans; [|apply fro_triangle]. right. apply fro_ext. intros i j _ _. unfold msub, madd. rr.
Qed.

(** ** Products *)

Lemma fro_mul r k c (f g : mat Rring) : fro r c (mmul (R := Rring) k f g) <= fro r k f * fro k c g.
Proof.
  unfold fro. rewrite <- sqrt_mult by apply sumsq_pos. apply sqrt_le_1_alt.
  rewrite (sumsq_tr (R := Rring) k c g). unfold sumsq at 1 2. rewrite <- (sum_mul_r (R := Rring)).
  apply sum_le. intros i _. unfold sumsq. rewrite <- rsum_mul_l. apply sum_le. intros j _. apply (cauchy_schwarz k (fun l => f i l) (fun l => g l j)).
Qed.

Lemma gram_mul m k (M x : mat Rring) :
  meq (R := Rring) (mmul m (mtr (mmul k M x)) (mmul k M x)) (mmul k (mtr x) (mmul k (mmul m (mtr M) M) x)).
Proof. rewrite (meq_tr (R := Rring)). rewrite !(meq_assoc (R := Rring)). reflexivity. Qed.

(** Orthonormal columns. *)
Lemma fro_cols m k c (U x : mat Rring) : orth_cols (R := Rring) m k U ->
  fro m c (mmul (R := Rring) k U x) = fro k c x.
Proof.
  intros H. unfold fro. f_equal. rewrite !(sumsq_gram (R := Rring)). apply (sum_ext (R := Rring)). intros j Hj.
  rewrite (gram_mul m k U x j j). apply (mmul_ext (R := Rring)); [reflexivity|]. intros y Hy.
  transitivity (mmul (R := Rring) k mid x y j); [|apply (mmul_id_l (R := Rring)); auto].
  apply (mmul_ext (R := Rring)); [|reflexivity]. intros l Hl. exact (H y l Hy Hl).
Qed.

Lemma fro_orth N c (Q x : mat Rring) (tr : bool) : orthogonal (R := Rring) N Q ->
  fro N c (mmul (R := Rring) N (mop tr Q) x) = fro N c x.
Proof.
  intros [H1 H2]. apply fro_cols. destruct tr; simpl; [|exact H2].
  intros i j Hi Hj. rewrite <- (H1 i j Hi Hj). reflexivity.
Qed.

(** ** Parts *)

Lemma sumsq_vst n m c (a b : mat Rring) :
  sumsq (R := Rring) (n + m) c (vst (R := Rring) n a b) = sumsq (R := Rring) n c a + sumsq (R := Rring) m c b.
Proof.
  unfold sumsq. rewrite (sum_split (R := Rring)). apply (f_equal2 Rplus); apply (sum_ext (R := Rring)); intros i Hi; apply (sum_ext (R := Rring)); intros j _.
  - unfold vst. destruct (Nat.ltb_spec i n); [reflexivity|lia].
  - rewrite !(vst_bot (R := Rring)). reflexivity.
Qed.

Lemma fro_vst_top n m c (a b : mat Rring) : fro n c a <= fro (n + m) c (vst (R := Rring) n a b).
Proof. apply sqrt_le_1_alt. rewrite sumsq_vst. pose proof (sumsq_pos m c b). lra. Qed.
Lemma fro_vst_bot n m c (a b : mat Rring) : fro m c b <= fro (n + m) c (vst (R := Rring) n a b).
Proof. apply sqrt_le_1_alt. rewrite sumsq_vst. pose proof (sumsq_pos n c a). lra. Qed.
Lemma fro_vst_le n m c (a b : mat Rring) : fro (n + m) c (vst (R := Rring) n a b) <= fro n c a + fro m c b.
Proof.
  pose proof (fro_nonneg n c a). pose proof (fro_nonneg m c b).
  unfold fro at 1. rewrite <- (sqrt_Rsqr (fro n c a + fro m c b)) by lra. apply sqrt_le_1_alt.
  rewrite sumsq_vst. unfold Rsqr. pose proof (fro_sq n c a). pose proof (fro_sq m c b). nra.
Qed.
Lemma fro_vst_zero n m c (a : mat Rring) : fro (n + m) c (vst (R := Rring) n a mzero) = fro n c a.
Proof.
  unfold fro. f_equal. rewrite sumsq_vst.
  replace (sumsq (R := Rring) m c mzero) with (fro m c mzero * fro m c mzero) by apply fro_sq. rewrite fro_zero. lra.
Qed.
(** Tilewise bounds. *)
Lemma fro_vst_mono n m c (a b a' b' : mat Rring) u : 0 <= u ->
  fro n c a <= u * fro n c a' -> fro m c b <= u * fro m c b' ->
  fro (n + m) c (vst (R := Rring) n a b) <= u * fro (n + m) c (vst (R := Rring) n a' b').
Proof.
  intros Hu H1 H2. pose proof (fro_nonneg (n + m) c (vst (R := Rring) n a' b')) as P.
  unfold fro at 1. rewrite <- (sqrt_Rsqr (u * fro (n + m) c (vst (R := Rring) n a' b'))) by (apply Rmult_le_pos; auto).
  apply sqrt_le_1_alt. unfold Rsqr.
  replace (u * fro (n + m) c (vst n a' b') * (u * fro (n + m) c (vst n a' b'))) with (u * u * (fro (n + m) c (vst (R := Rring) n a' b') * fro (n + m) c (vst (R := Rring) n a' b'))) by ring.
  rewrite fro_sq, !sumsq_vst, <- !fro_sq.
  pose proof (fro_nonneg n c a). pose proof (fro_nonneg m c b).
  assert (A : fro n c a * fro n c a <= u * fro n c a' * (u * fro n c a')) by (apply Rmult_le_compat; auto).
  assert (B : fro m c b * fro m c b <= u * fro m c b' * (u * fro m c b')) by (apply Rmult_le_compat; auto).
  lra.
Qed.

Lemma sumsq_stack p h c (X : nat -> mat Rring) :
  sumsq (R := Rring) (offs h p) c (stack (R := Rring) p h X) = rsum p (fun b => sumsq (R := Rring) (h b) c (X b)).
Proof.
  unfold sumsq. rewrite (sum_offs (R := Rring)). apply (sum_ext (R := Rring)). intros b Hb.
  apply (sum_ext (R := Rring)). intros i Hi. apply (sum_ext (R := Rring)). intros j _. rewrite !(stack_at (R := Rring)) by auto. reflexivity.
Qed.
