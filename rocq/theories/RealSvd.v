(** The singular value decomposition, one value after the other. *)
From Coq Require Import List Arith Lia Bool Reals Lra Ring_theory Ring Setoid Morphisms.
From Verif Require Import Prelude Ring MatFun MatSetoid Matrix MatOps Lapack Reflect ReflectSpec SvdRank Householder HouseQr HouseReal Rrqr RrqrRank Spectral.
Import ListNotations.
Local Open Scope nat_scope.

Section Corner.
Context {R : cring}.
Add Ring Rr : (cr_th R).
Notation mat := (mat R).

(** x in the upper left corner of X, zero beside and above it. *)
Definition corner (x : R) (X : mat) : mat := fun i j =>
  match i, j with O, O => x | S i, S j => X i j | _, _ => 0%r end.

Lemma corner_mul k x y (X Y : mat) : meq (mmul (S k) (corner x X) (corner y Y)) (corner (x * y)%r (mmul k X Y)).
Proof.
  intros i j. unfold mmul. rewrite sum_first. destruct i as [|i], j as [|j]; cbn [corner].
  - rewrite sum_zero'; [ring|]. intros. ring.
  - rewrite sum_zero'; [ring|]. intros. ring.
  - rewrite sum_zero'; [ring|]. intros. ring.
  - ring.
Qed.
Lemma corner_tr x (X : mat) : meq (mtr (corner x X)) (corner x (mtr X)).
Proof. intros i j. unfold mtr. destruct i, j; reflexivity. Qed.
Lemma corner_feq r c x (X Y : mat) : feq r c X Y -> feq (S r) (S c) (corner x X) (corner x Y).
Proof. intros H i j Hi Hj. destruct i, j; simpl; auto. apply H; lia. Qed.
Lemma corner_id : meq (corner 1%r (mid : mat)) mid.
Proof. intros i j. destruct i, j; reflexivity. Qed.
Lemma corner_cols m k x (X : mat) : (x * x = 1)%r -> orth_cols m k X -> orth_cols (S m) (S k) (corner x X).
Proof.
  intros H1 H2. unfold orth_cols. rewrite corner_tr, corner_mul, H1. rewrite <- corner_id. apply corner_feq. exact H2.
Qed.
Lemma corner_rows k n x (X : mat) : (x * x = 1)%r -> orth_rows k n X -> orth_rows (S k) (S n) (corner x X).
Proof.
  intros H1 H2. unfold orth_rows. rewrite corner_tr, corner_mul, H1. rewrite <- corner_id. apply corner_feq. exact H2.
Qed.
End Corner.

(** I - tau v v^T for the reflector of x. *)
Definition house (n : nat) (x : vec) : rmat := elem (R := Rring) (hv (R := Rring) (fst (dlarfg n x))) (snd (dlarfg n x)).

Lemma house_orth n x : orthogonal (R := Rring) n (house n x).
Proof. apply elem_orthogonal. apply (lg_bal _ dlarfg_ok). Qed.
Lemma house_sq n x : feq (R := Rring) n n (mmul n (house n x) (house n x)) mid.
Proof. apply elem_sq. apply (lg_bal _ dlarfg_ok). Qed.
Lemma house_ann n x (X : rmat) j : (forall i, i < n -> X i j = x i) ->
  forall i, i < n -> mmul (R := Rring) n (house n x) X i j = if i =? 0 then fst (dlarfg n x) 0 else 0%R.
Proof.
  intros H i Hi. unfold house. rewrite elem_mul by auto.
  rewrite (dot_ext (R := Rring) n _ (hv (R := Rring) (fst (dlarfg n x))) _ x) by auto. rewrite H by auto.
  exact (lg_ann _ dlarfg_ok n x i Hi).
Qed.

Definition cv (z : vec) : rmat := fun i _ => z i.

Lemma house_cols m x (X : rmat) j : vec_sq m (fun i => mmul (R := Rring) m (house m x) X i j) = vec_sq m (fun i => X i j).
Proof. exact (dot_mmul_orth m (house m x) X j (house_orth m x)). Qed.

Lemma apply_sq_mul m n k (A B : rmat) z : apply_sq m n (mmul k A B) z = apply_sq m k A (fun i => mmul (R := Rring) n B (cv z) i 0).
Proof.
  unfold apply_sq. apply rsum_ext. intros i Hi.
  assert (E : rsum n (fun j => (mmul (R := Rring) k A B i j * z j)%R) = rsum k (fun j => (A i j * mmul (R := Rring) n B (cv z) j 0%nat)%R)).
  { exact (mmul_assoc (R := Rring) k n A B (cv z) i 0). }
  rewrite E. reflexivity.
Qed.

Lemma apply_sq_ext m n (A : rmat) z w : (forall i, i < n -> z i = w i) -> apply_sq m n A z = apply_sq m n A w.
Proof.
  intros H. unfold apply_sq. apply rsum_ext. intros i Hi.
  rewrite (rsum_ext n (fun j => A i j * z j)%R (fun j => A i j * w j)%R) by (intros j Hj; rewrite H; auto). reflexivity.
Qed.
Lemma vec_sq_ext n z w : (forall i, i < n -> z i = w i) -> vec_sq n z = vec_sq n w.
Proof. intros H. apply rsum_ext. intros i Hi. rewrite H; auto. Qed.

(** A matrix that stretches no vector more than the first one, which it maps to a multiple of
    itself, has nothing else in the first row. *)
Lemma top_row m n (B : rmat) (b : R) : B 0 0 = b ->
  (forall w, (apply_sq (S m) (S n) B w <= b * b * vec_sq (S n) w)%R) -> forall j, j < n -> B 0 (S j) = 0%R.
Proof.
  intros HB HM. set (s := rsum n (fun j => (B 0%nat (S j) * B 0%nat (S j))%R)).
  assert (S0 : (0 <= s)%R) by (apply sum_nonneg; intros; apply Rle_0_sqr).
  assert (V : vec_sq (S n) (B 0) = (b * b + s)%R) by (unfold vec_sq; rewrite rsum_first, HB; reflexivity).
  assert (A : ((b * b + s) * (b * b + s) <= apply_sq (S m) (S n) B (B 0%nat))%R).
  { unfold apply_sq. rewrite rsum_first. rewrite <- V. unfold vec_sq.
    rewrite <- (Rplus_0_r (_ * _)) at 1. apply Rplus_le_compat_l. apply sum_nonneg. intros. apply Rle_0_sqr. }
  specialize (HM (B 0)). rewrite V in HM.
  assert (Z : s = 0%R).
  { pose proof (Rle_0_sqr b) as Q. unfold Rsqr in Q.
    destruct (Rle_lt_dec s 0) as [|P]; [lra|]. exfalso.
    assert (X : ((b * b + s) * (b * b + s) <= b * b * (b * b + s))%R) by lra.
    apply Rmult_le_reg_r in X; lra. }
  intros j Hj. apply (sqsum_zero n (fun j => B 0 (S j))); auto.
Qed.

Definition dg (s : vec) : rmat := fun i j => if i =? j then s i else 0%R.

Record is_rsvd (m n : nat) (A U : rmat) (s : vec) (V : rmat) : Prop := {
  rs_U : orth_cols (R := Rring) m (Nat.min m n) U;
  rs_V : orth_rows (R := Rring) (Nat.min m n) n V;
  rs_A : feq (R := Rring) m n (mmul (Nat.min m n) U (mmul (Nat.min m n) (dg s) V)) A;
  rs_pos : forall i, i < Nat.min m n -> (0 <= s i)%R;
  rs_dec : forall i j, i <= j -> j < Nat.min m n -> (s j <= s i)%R;
  rs_top : forall c, (0 <= c)%R -> (forall w, (apply_sq m n A w <= c * c * vec_sq n w)%R) ->
    forall i, i < Nat.min m n -> (s i <= c)%R
}.

Lemma sq_le a b : (0 <= a)%R -> (0 <= b)%R -> (a * a <= b * b)%R -> (a <= b)%R.
Proof. intros Ha Hb H. apply Rsqr_incr_0; auto. Qed.

Lemma real_svd : forall m n (A : rmat), {x : rmat * vec * rmat | is_rsvd m n A (fst (fst x)) (snd (fst x)) (snd x)}.
Proof.
  induction m as [|m IH]; intros n A; [|destruct n as [|n]].
  - exists (mid (R := Rring), fun _ => 0%R, mid (R := Rring)). split; simpl; try (intros; lia); intros i j; lia.
  - exists (mid (R := Rring), fun _ => 0%R, mid (R := Rring)).
    split; rewrite ?Nat.min_0_r; try (intros; lia); intros i j; lia.
  - destruct (top_vector (S m) (S n) A ltac:(lia)) as [z [Z1 Z2]].
    set (m1 := S m) in *. set (n1 := S n) in *.
    set (u := fun i => mmul (R := Rring) n1 A (cv z) i 0).
    set (H1 := house n1 z). set (H2 := house m1 u).
    set (b1 := fst (dlarfg n1 z) 0). set (b2 := fst (dlarfg m1 u) 0). set (b := (b1 * b2)%R).
    set (B := mmul (R := Rring) m1 H2 (mmul (R := Rring) n1 A H1)).
    set (B' := fun i j => B (S i) (S j)).
    destruct (IH n B') as [[[U' s'] V'] HS]. cbn [fst snd] in HS.
    set (sg := if Rle_dec 0 b then 1%R else (-1)%R).
    assert (SG : (sg * sg = 1 /\ sg * Rabs b = b)%R).
    { unfold sg. destruct (Rle_dec 0 b); split; try lra; [rewrite Rabs_pos_eq by auto; ring|rewrite Rabs_left by lra; ring]. }
    assert (F1 : forall i, i < n1 -> mmul (R := Rring) n1 H1 (cv z) i 0 = if i =? 0 then b1 else 0%R)
      by (intros i Hi; apply house_ann; auto).
    assert (F2 : (b1 * b1 = 1)%R).
    { rewrite <- Z1. transitivity (vec_sq n1 (fun i => mmul (R := Rring) n1 H1 (cv z) i 0)).
      - rewrite (vec_sq_ext _ _ _ F1). unfold vec_sq, n1. rewrite rsum_first. cbn [Nat.eqb].
        rewrite (sum_zero' (R := Rring)); [rring|]. intros; rring.
      - exact (house_cols n1 z (cv z) 0). }
    assert (F3 : forall i, i < n1 -> H1 i 0 = (b1 * z i)%R).
    { intros i Hi.
      assert (E : mmul (R := Rring) n1 H1 (mmul (R := Rring) n1 H1 (cv z)) i 0 = z i).
      { transitivity (mmul (R := Rring) n1 (mmul (R := Rring) n1 H1 H1) (cv z) i 0); [symmetry; apply (mmul_assoc (R := Rring))|].
        transitivity (mmul (R := Rring) n1 mid (cv z) i 0); [|rewrite (mmul_id_l (R := Rring)); auto].
        apply (mmul_ext (R := Rring)); auto. intros l Hl. apply house_sq; auto. }
      rewrite <- E. unfold mmul at 1. unfold n1 at 1. rewrite rsum_first. rewrite F1 by (unfold n1; lia). cbn [Nat.eqb].
      rewrite (sum_zero' (R := Rring)).
      - transitivity ((b1 * b1) * H1 i 0%nat)%R; [rewrite F2; rring|rring].
      - intros l Hl. change (rmul (c := Rring)) with Rmult. rewrite F1 by (unfold n1; lia). cbn [Nat.eqb]. rring. }
    assert (F4 : forall i, i < m1 -> mmul (R := Rring) n1 A H1 i 0 = (b1 * u i)%R).
    { intros i Hi. unfold u, mmul. rewrite <- rsum_mul_l. apply rsum_ext. intros l Hl. simpl. rewrite F3 by auto. unfold cv. rring. }
    assert (F5 : forall i, i < m1 -> B i 0 = if i =? 0 then b else 0%R).
    { intros i Hi. transitivity (b1 * mmul (R := Rring) m1 H2 (cv u) i 0%nat)%R.
      - unfold B. unfold mmul at 1. unfold mmul at 2. rewrite <- rsum_mul_l. apply rsum_ext. intros l Hl. simpl.
        rewrite F4 by auto. unfold cv. rring.
      - unfold H2. rewrite (house_ann m1 u (cv u) 0) by auto. destruct (i =? 0); [reflexivity|rring]. }
    assert (F6 : forall w, apply_sq m1 n1 B w = apply_sq m1 n1 A (fun i => mmul (R := Rring) n1 H1 (cv w) i 0)).
    { intros w. rewrite <- apply_sq_mul.
      unfold B.
      exact (eq_trans (apply_sq_mul m1 n1 m1 H2 (mmul (R := Rring) n1 A H1) w) (house_cols m1 u (mmul (R := Rring) n1 (mmul (R := Rring) n1 A H1) (cv w)) 0)). }
    assert (F7 : apply_sq m1 n1 A z = (b * b)%R).
    { transitivity (vec_sq m1 (fun i => mmul (R := Rring) m1 H2 (cv u) i 0)).
      - symmetry. exact (house_cols m1 u (cv u) 0).
      - rewrite (vec_sq_ext _ _ (fun i => if i =? 0 then b2 else 0%R)) by (intros i Hi; apply house_ann; auto).
        unfold vec_sq, m1. rewrite rsum_first. cbn [Nat.eqb]. rewrite (sum_zero' (R := Rring)) by (intros; rring).
        unfold b. transitivity ((b1 * b1) * (b2 * b2))%R; [rewrite F2; rring|rring]. }
    assert (F8 : forall w, (apply_sq m1 n1 B w <= b * b * vec_sq n1 w)%R).
    { intros w. rewrite F6, <- F7. eapply Rle_trans; [apply Z2|].
      apply Req_le. f_equal. exact (house_cols n1 z (cv w) 0). }
    assert (F9 : forall j, j < n -> B 0 (S j) = 0%R).
    { apply (top_row m n B b); auto. rewrite F5 by (unfold m1; lia). reflexivity. }
    assert (BC : feq (R := Rring) m1 n1 B (corner (R := Rring) b B')).
    { intros i j Hi Hj. destruct i as [|i], j as [|j]; cbn [corner].
      - apply F5; auto.
      - apply F9. unfold n1 in Hj. lia.
      - rewrite F5 by auto. reflexivity.
      - reflexivity. }
    assert (TOP : forall w, (apply_sq m n B' w <= Rabs b * Rabs b * vec_sq n w)%R).
    { intros w. set (w1 := fun i => match i with O => 0%R | S i => w i end).
      rewrite <- Rabs_mult, (Rabs_pos_eq (b * b)) by apply Rle_0_sqr.
      replace (vec_sq n w) with (vec_sq n1 w1) by (unfold vec_sq, n1; rewrite rsum_first; unfold w1; rring).
      eapply Rle_trans; [|apply F8]. unfold apply_sq at 2. unfold m1. rewrite rsum_first.
      assert (E : apply_sq m n B' w = rsum m (fun i => (rsum n1 (fun j => B (S i) j * w1 j) * rsum n1 (fun j => B (S i) j * w1 j))%R)).
      { unfold apply_sq. apply rsum_ext. intros i Hi.
        assert (E : rsum n (fun j => (B' i j * w j)%R) = rsum n1 (fun j => (B (S i) j * w1 j)%R)) by (unfold n1; rewrite rsum_first; unfold w1, B'; rring).
        rewrite E. reflexivity. }
      rewrite E. rewrite <- (Rplus_0_l (rsum m _)) at 1. apply Rplus_le_compat_r. apply Rle_0_sqr. }
    exists (mmul (R := Rring) m1 H2 (corner (R := Rring) sg U'), fun i => match i with O => Rabs b | S i => s' i end,
            mmul (R := Rring) n1 (corner (R := Rring) 1%R V') H1).
    cbn [fst snd]. unfold m1, n1 in *.
    destruct HS as [S1 S2 S3 S4 S5 S6]. split; change (Nat.min (S m) (S n)) with (S (Nat.min m n)).
    + apply (orth_cols_mul (R := Rring)); [apply house_orth|]. apply corner_cols; auto. apply SG.
    + apply (orth_rows_mul (R := Rring)); [|apply house_orth]. apply corner_rows; auto. rring.
    + set (k := Nat.min m n) in *.
      assert (D : feq (R := Rring) (S m) (S n) (mmul (S k) (corner (R := Rring) sg U') (mmul (S k) (dg (fun i => match i with O => Rabs b | S i => s' i end)) (corner (R := Rring) 1%R V'))) B).
      { eapply feq_trans; [|apply feq_sym; exact BC].
        assert (DC : meq (R := Rring) (dg (fun i => match i with O => Rabs b | S i => s' i end)) (corner (R := Rring) (Rabs b) (dg s'))).
        { intros i j. destruct i, j; reflexivity. }
        rewrite DC, corner_mul, corner_mul.
        replace (rmul (c := Rring) sg (rmul (c := Rring) (Rabs b) 1%R)) with b.
        - apply corner_feq. exact S3.
        - destruct SG as [_ SG]. simpl. lra. }
      set (G := dg (fun i => match i with O => Rabs b | S i => s' i end)) in *.
      assert (AS : meq (R := Rring) (mmul (S k) (mmul (S m) H2 (corner (R := Rring) sg U')) (mmul (S k) G (mmul (S n) (corner (R := Rring) 1%R V') H1)))
                       (mmul (S m) H2 (mmul (S n) (mmul (S k) (corner (R := Rring) sg U') (mmul (S k) G (corner (R := Rring) 1%R V'))) H1))).
      { rewrite !meq_assoc. reflexivity. }
      rewrite AS.
      eapply feq_trans.
      { apply feq_mmul; [apply feq_refl|]. apply feq_mmul; [exact D|apply feq_refl]. }
      assert (AS2 : meq (R := Rring) (mmul (S m) H2 (mmul (S n) B H1)) (mmul (S m) (mmul (S m) H2 H2) (mmul (S n) A (mmul (S n) H1 H1)))).
      { unfold B. rewrite !meq_assoc. reflexivity. }
      rewrite AS2.
      eapply feq_trans.
      { apply feq_mmul; [apply house_sq|]. apply feq_mmul; [apply feq_refl|apply house_sq]. }
      intros i j Hi Hj. rewrite (mmul_id_l (R := Rring)) by auto. apply (mmul_id_r (R := Rring)); auto.
    + intros i Hi. destruct i as [|i]; [apply Rabs_pos|]. apply S4. lia.
    + intros i j Hij Hj. destruct i as [|i], j as [|j]; try lia; try lra.
      * apply (S6 (Rabs b)); auto using Rabs_pos. lia.
      * apply S5; lia.
    + intros c Hc HW i Hi. specialize (HW z). rewrite F7, Z1, Rmult_1_r in HW.
      assert (X : (Rabs b <= c)%R).
      { apply sq_le; auto using Rabs_pos. rewrite <- Rabs_mult, Rabs_pos_eq by apply Rle_0_sqr. auto. }
      destruct i as [|i]; auto. eapply Rle_trans; [|exact X]. apply (S6 (Rabs b)); auto using Rabs_pos. lia.
Qed.
