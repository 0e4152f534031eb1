(** Matrices whose diagonal outweighs the rest of each column, over the real numbers. *)
From Coq Require Import List Arith Lia Bool Reals Lra Ring_theory Ring.
From Verif Require Import Prelude Ring MatFun MatSetoid Matrix MatOps SvdRank HouseReal Rrqr Spectral.
Import ListNotations.
Local Open Scope nat_scope.

(** The entries of column j off the diagonal, in absolute value, sum up to less than the
    one on the diagonal. *)
Definition off (n j : nat) (f : vec) : R := rsum n (fun i => if i =? j then 0%R else f i).
Definition cdom (n : nat) (F : rmat) : Prop :=
  forall j, j < n -> (off n j (fun i => Rabs (F i j)) < Rabs (F j j))%R.

Lemma rsum_le n (f g : vec) : (forall i, i < n -> (f i <= g i)%R) -> (rsum n f <= rsum n g)%R.
Proof.
  induction n as [|n IH]; intros H; [simpl; lra|]. rewrite !(sum_S (R := Rring)).
  specialize (IH (fun i Hi => H i (Nat.lt_lt_succ_r _ _ Hi))). specialize (H n (Nat.lt_succ_diag_r n)). simpl. lra.
Qed.
Lemma rsum_pos n (f : vec) : (forall i, i < n -> (0 <= f i)%R) -> (0 <= rsum n f)%R.
Proof.
  intros H. pose proof (rsum_le n (fun _ => 0%R) f H) as E. rewrite (sum_zero' (R := Rring)) in E by auto. exact E.
Qed.
Lemma rsum_abs n (f : vec) : (Rabs (rsum n f) <= rsum n (fun i => Rabs (f i)))%R.
Proof.
  induction n as [|n IH]; [simpl; rewrite Rabs_R0; lra|]. rewrite !(sum_S (R := Rring)). simpl in *.
  pose proof (Rabs_triang (rsum n f) (f n)). lra.
Qed.
Lemma rsum_swap m n (F : rmat) : rsum m (fun i => rsum n (fun j => F i j)) = rsum n (fun j => rsum m (fun i => F i j)).
Proof. exact (sum_swap (R := Rring) m n F). Qed.

Lemma rsum_off n j (f : vec) : j < n -> rsum n f = (f j + off n j f)%R.
Proof.
  intros Hj. unfold off.
  rewrite (rsum_ext n f (fun i => ((if i =? j then f j else 0) + (if i =? j then 0 else f i))%R)).
  - rewrite rsum_add. f_equal. rewrite (sum_single (R := Rring) n j _ Hj); [rewrite Nat.eqb_refl; reflexivity|].
    intros i _ Hn. destruct (Nat.eqb_spec i j); [lia|reflexivity].
  - intros i _. destruct (Nat.eqb_spec i j); [subst|]; rring.
Qed.
Lemma off_le n j (f g : vec) : (forall i, i < n -> i <> j -> (f i <= g i)%R) -> (off n j f <= off n j g)%R.
Proof. intros H. apply rsum_le. intros i Hi. destruct (Nat.eqb_spec i j); [lra|auto]. Qed.
Lemma off_add n j (f g : vec) : off n j (fun i => (f i + g i)%R) = (off n j f + off n j g)%R.
Proof.
  unfold off. rewrite <- rsum_add. apply rsum_ext. intros i _. destruct (i =? j); rring.
Qed.
Lemma off_pos n j (f : vec) : (forall i, i < n -> (0 <= f i)%R) -> (0 <= off n j f)%R.
Proof. intros H. apply rsum_pos. intros i Hi. destruct (i =? j); [lra|auto]. Qed.

Lemma off_low s t j (f : vec) : j < s -> off (s + t) j f = (off s j f + rsum t (fun r => f (s + r)%nat))%R.
Proof.
  intros Hj. unfold off. rewrite (sum_split (R := Rring)). simpl. f_equal. apply rsum_ext. intros r _.
  destruct (Nat.eqb_spec (s + r)%nat j); [lia|reflexivity].
Qed.
Lemma off_high s t j (f : vec) : off (s + t) (s + j) f = (rsum s f + off t j (fun r => f (s + r)%nat))%R.
Proof.
  unfold off. rewrite (sum_split (R := Rring)). simpl. f_equal; apply rsum_ext; intros r Hr.
  - destruct (Nat.eqb_spec r (s + j)%nat); [lia|reflexivity].
  - destruct (Nat.eqb_spec (s + r)%nat (s + j)%nat), (Nat.eqb_spec r j); try lia; reflexivity.
Qed.

(** The largest of finitely many numbers. *)
Lemma has_max n (f : vec) : 0 < n -> exists k, k < n /\ forall i, i < n -> (f i <= f k)%R.
Proof.
  induction n as [|n IH]; [lia|]. intros _. destruct n as [|n].
  - exists 0. split; auto. intros [|i] Hi; [lra|lia].
  - destruct (IH (Nat.lt_0_succ n)) as [k [Hk H]]. destruct (Rle_dec (f k) (f (S n))) as [L|L].
    + exists (S n). split; auto. intros i Hi. destruct (Nat.eq_dec i (S n)) as [->|]; [lra|]. specialize (H i ltac:(lia)). lra.
    + exists k. split; [lia|]. intros i Hi. destruct (Nat.eq_dec i (S n)) as [->|]; [lra|]. apply H. lia.
Qed.

Lemma cdom_ext n (F G : rmat) : feq (R := Rring) n n F G -> cdom n F -> cdom n G.
Proof.
  intros E H j Hj. rewrite <- (E j j Hj Hj).
  replace (off n j (fun i => Rabs (G i j))) with (off n j (fun i => Rabs (F i j))); auto.
  apply rsum_ext. intros i Hi. rewrite (E i j Hi Hj). reflexivity.
Qed.

(** Elimination of the first s columns: X multiplies the eliminated rows. *)
Lemma schur_dom s t (F X S : rmat) : cdom (s + t) F ->
  (forall r k, r < t -> k < s -> rsum s (fun l => (X r l * F l k)%R) = F (s + r)%nat k) ->
  (forall r j, r < t -> j < t -> S r j = (F (s + r)%nat (s + j)%nat - rsum s (fun k => (X r k * F k (s + j)%nat)%R))%R) ->
  cdom t S.
Proof.
  intros HD HX HS. set (T := fun k => rsum t (fun r => Rabs (X r k))).
  assert (T0 : forall k, (0 <= T k)%R) by (intros k; apply rsum_pos; intros; apply Rabs_pos).
  assert (HT : forall k, k < s -> (T k <= 1)%R).
  { destruct (Nat.eq_dec s 0) as [->|Hs]; [intros; lia|].
    destruct (has_max s T) as [k [Hk HM]]; [lia|]. enough (T k <= 1)%R by (intros l Hl; specialize (HM l Hl); lra).
    specialize (HD k ltac:(lia)). rewrite off_low in HD by auto.
    set (C := rsum t (fun r => Rabs (F (s + r)%nat k))) in *. set (O := off s k (fun i => Rabs (F i k))) in *. set (D := Rabs (F k k)) in *.
    assert (E : (T k * D <= C + T k * O)%R).
    { assert (R1 : (rsum t (fun r => Rabs (X r k) * D) <= rsum t (fun r => Rabs (F (s + r)%nat k) + off s k (fun l => Rabs (X r l) * Rabs (F l k))))%R).
      { apply rsum_le. intros r Hr. unfold D. rewrite <- Rabs_mult.
        pose proof (HX r k Hr Hk) as E. rewrite (rsum_off s k _ Hk) in E.
        assert (E2 : (X r k * F k k = F (s + r)%nat k - off s k (fun l => X r l * F l k))%R) by lra.
        rewrite E2. eapply Rle_trans; [apply Rabs_triang|]. rewrite Rabs_Ropp. apply Rplus_le_compat_l.
        unfold off. eapply Rle_trans; [apply rsum_abs|]. apply rsum_le. intros l _. destruct (l =? k); [rewrite Rabs_R0; lra|].
        rewrite Rabs_mult. lra. }
      rewrite rsum_mul_r, rsum_add in R1. fold C in R1. fold (T k) in R1.
      assert (R2 : (rsum t (fun r => off s k (fun l => Rabs (X r l) * Rabs (F l k))) <= T k * O)%R).
      { unfold off at 1. rewrite rsum_swap. unfold O, off. rewrite <- rsum_mul_l. apply rsum_le. intros l Hl.
        destruct (l =? k); [rewrite (sum_zero' (R := Rring)) by auto; simpl; lra|]. rewrite rsum_mul_r. fold (T l).
        apply Rmult_le_compat_r; [apply Rabs_pos|auto]. }
      lra. }
    assert (C0 : (0 <= C)%R) by (apply rsum_pos; intros; apply Rabs_pos).
    destruct (Rle_dec (T k) 1) as [L|L]; auto. exfalso.
    assert (P : (0 < D - O)%R) by lra. assert (Q : (1 * (D - O) < T k * (D - O))%R) by (apply Rmult_lt_compat_r; lra). lra. }
  intros j Hj. specialize (HD (s + j)%nat ltac:(lia)). rewrite off_high in HD.
  set (B := fun k => Rabs (F k (s + j)%nat)) in *.
  assert (UP : forall r, r < t -> (Rabs (S r j) <= Rabs (F (s + r)%nat (s + j)%nat) + rsum s (fun k => Rabs (X r k) * B k))%R).
  { intros r Hr. rewrite HS by auto. eapply Rle_trans; [apply Rabs_triang|]. rewrite Rabs_Ropp. apply Rplus_le_compat_l.
    eapply Rle_trans; [apply rsum_abs|]. apply rsum_le. intros k _. rewrite Rabs_mult. unfold B. lra. }
  assert (LO : (Rabs (F (s + j)%nat (s + j)%nat) - rsum s (fun k => Rabs (X j k) * B k) <= Rabs (S j j))%R).
  { assert (E : F (s + j)%nat (s + j)%nat = (S j j + rsum s (fun k => X j k * F k (s + j)%nat))%R) by (rewrite HS by auto; lra).
    rewrite E. pose proof (Rabs_triang (S j j) (rsum s (fun k => (X j k * F k (s + j)%nat)%R))) as T1.
    assert (T2 : (Rabs (rsum s (fun k => (X j k * F k (s + j)%nat)%R)) <= rsum s (fun k => Rabs (X j k) * B k))%R).
    { eapply Rle_trans; [apply rsum_abs|]. apply rsum_le. intros k _. rewrite Rabs_mult. unfold B. lra. }
    lra. }
  assert (O1 : (off t j (fun r => Rabs (S r j)) <= off t j (fun r => Rabs (F (s + r)%nat (s + j)%nat)) + off t j (fun r => rsum s (fun k => Rabs (X r k) * B k)))%R).
  { rewrite <- off_add. apply off_le. intros r Hr _. apply UP. auto. }
  assert (O2 : (rsum s (fun k => Rabs (X j k) * B k) + off t j (fun r => rsum s (fun k => Rabs (X r k) * B k)) <= rsum s B)%R).
  { rewrite <- (rsum_off t j (fun r => rsum s (fun k => (Rabs (X r k) * B k)%R))) by auto. rewrite rsum_swap.
    apply rsum_le. intros k Hk. rewrite rsum_mul_r. fold (T k). specialize (HT k Hk).
    assert (0 <= B k)%R by apply Rabs_pos. nra. }
  lra.
Qed.

(** A part of the diagonal. *)
Lemma cdom_part n (F : rmat) s t : s + t <= n -> cdom n F -> cdom t (fun i j => F (s + i)%nat (s + j)%nat).
Proof.
  intros Hn HD j Hj. specialize (HD (s + j)%nat ltac:(lia)). eapply Rle_lt_trans; [|exact HD].
  replace n with (s + (t + (n - s - t))) by lia. rewrite off_high.
  set (f := fun r => Rabs (F (s + r)%nat (s + j)%nat)). rewrite off_low by auto.
  assert (0 <= rsum s (fun i => Rabs (F i (s + j)%nat)))%R by (apply rsum_pos; intros; apply Rabs_pos).
  assert (0 <= rsum (n - s - t) (fun r => f (t + r)%nat))%R by (apply rsum_pos; intros; apply Rabs_pos).
  unfold f in *. lra.
Qed.

Lemma cdom_nonzero n (F : rmat) j : cdom n F -> j < n -> F j j <> 0%R.
Proof.
  intros H Hj E. specialize (H j Hj). rewrite E, Rabs_R0 in H.
  pose proof (off_pos n j (fun i => Rabs (F i j)) (fun i _ => Rabs_pos _)). lra.
Qed.

(** The diagonal entry is the largest in its column. *)
Lemma cdom_max n (F : rmat) i j : cdom n F -> i < n -> j < n -> i <> j -> (Rabs (F i j) < Rabs (F j j))%R.
Proof.
  intros H Hi Hj Hn. eapply Rle_lt_trans; [|exact (H j Hj)]. unfold off.
  rewrite (rsum_off n i _ Hi). destruct (Nat.eqb_spec i j); [lia|].
  match goal with |- (_ <= _ + ?o)%R => assert (P : (0 <= o)%R) end.
  { apply off_pos. intros k _. destruct (k =? j); [lra|apply Rabs_pos]. }
  lra.
Qed.
