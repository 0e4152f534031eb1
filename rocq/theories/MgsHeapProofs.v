(** Modified Gram-Schmidt over storage: what it computes on contiguous matrices and
    what it leaves alone on views. *)
From Coq Require Import List Arith Lia Bool Ring_theory Ring.
From Verif Require Import Prelude Ring MatFun MatSetoid Matrix MatOps Lapack Heap HeapProofs MgsHeap.
Import ListNotations.
Local Open Scope nat_scope.

Section Proofs.
Context {R : cring}.
Add Ring Rr : (cr_th R).
Notation heap := (heap R).
Notation mat := (mat R).
Variables root inv : R -> R.
Implicit Types (h : heap).

Lemma sumM_spec n (f : nat -> outcome R) (g : nat -> R) : (forall i, i < n -> f i = Ok (g i)) -> sumM n f = Ok (sum n g).
Proof.
  unfold sumM. intros H.
  destruct (for_loop_inv n (fun i s => let* x := f i in Ok (s + x)%r) 0%r (fun t s => s = sum t g)) as [s [E I]]; auto.
  - intros i s Hi ->. rewrite H by auto. simpl. eauto.
  - rewrite E, I. reflexivity.
Qed.

(** ** Contiguous storage *)
Section Packed.
Variable A : hdense.
Hypothesis HP : packed A.

Lemma vaddr_addr i j : i < h_r A -> j < h_c A -> vaddr A j (h_c A) i = addr A i j.
Proof.
  unfold vaddr, addr. intros Hi Hj. destruct HP as [->|[H|H]]; [lia| |lia]. assert (i = 0) by lia. subst. lia.
Qed.
Lemma vget_spec h i j : good h A -> i < h_r A -> j < h_c A -> vget h A j (h_c A) i = Ok (hent h A i j).
Proof. intros G Hi Hj. unfold vget. rewrite vaddr_addr by auto. apply peek_spec. apply good_addr; auto. Qed.
Lemma vset_set h i j v : i < h_r A -> j < h_c A -> vset h A j (h_c A) i v = h_set h A i j v.
Proof.
  intros Hi Hj. unfold vset, h_set. rewrite vaddr_addr by auto. apply Nat.ltb_lt in Hi, Hj. rewrite Hi, Hj. reflexivity.
Qed.

Lemma vset_spec h i j v : good h A -> i < h_r A -> j < h_c A ->
  exists h', vset h A j (h_c A) i v = Ok h' /\ frame h h' A /\
   forall i' j', i' < h_r A -> j' < h_c A -> hent h' A i' j' = if (i' =? i) && (j' =? j) then v else hent h A i' j'.
Proof.
  intros G Hi Hj. rewrite vset_set by auto. destruct (h_set_spec h A i j v G Hi Hj) as [h' [E _]]. exists h'. split; auto.
  split; [eapply frame_set; eauto|]. apply (h_set_entries _ _ _ _ _ _ G E).
Qed.

Lemma vnorm_spec h j : good h A -> j < h_c A ->
  vnorm root h A j (h_c A) (h_r A) = Ok (root (sum (h_r A) (fun i => hent h A i j * hent h A i j)%r)).
Proof.
  intros G Hj. unfold vnorm. rewrite (sumM_spec _ _ (fun i => hent h A i j * hent h A i j)%r); auto.
  intros i Hi. rewrite vget_spec by auto. reflexivity.
Qed.
Lemma vdot_spec h j k : good h A -> j < h_c A -> k < h_c A ->
  vdot h A j k (h_c A) (h_r A) = Ok (sum (h_r A) (fun i => hent h A i j * hent h A i k)%r).
Proof.
  intros G Hj Hk. unfold vdot. apply sumM_spec. intros i Hi. rewrite !vget_spec by auto. reflexivity.
Qed.

(** A loop that rewrites column k from columns it does not change otherwise. *)
Lemma column_loop (body : nat -> heap -> outcome heap) k (g : nat -> R) h0 : good h0 A -> k < h_c A ->
  (forall i h, i < h_r A -> frame h0 h A ->
     (forall i' j', i' < h_r A -> j' < h_c A -> hent h A i' j' = if (j' =? k) && (i' <? i) then g i' else hent h0 A i' j') ->
     body i h = vset h A k (h_c A) i (g i)) ->
  exists h, for_loop (h_r A) body h0 = Ok h /\ frame h0 h A /\
    forall i' j', i' < h_r A -> j' < h_c A -> hent h A i' j' = if j' =? k then g i' else hent h0 A i' j'.
Proof.
  intros G Hk HB.
  destruct (for_loop_inv (h_r A) body h0 (fun i h => frame h0 h A /\
     forall i' j', i' < h_r A -> j' < h_c A -> hent h A i' j' = if (j' =? k) && (i' <? i) then g i' else hent h0 A i' j')) as [h [E [F I]]].
  - split; [apply frame_refl|]. intros. rewrite andb_false_r. reflexivity.
  - intros i h Hi [F I]. rewrite HB by auto.
    destruct (vset_spec h i k (g i)) as [h' [E [F' I']]]; auto. { eapply good_shape; eauto. apply F. }
    exists h'. split; auto. split; [eapply frame_trans; eauto|].
    intros i' j' Hi' Hj'. rewrite I', I by auto.
    destruct (Nat.eqb_spec j' k); [|rewrite andb_false_r; reflexivity]. rewrite andb_true_r. cbn [andb].
    destruct (Nat.eqb_spec i' i) as [->|].
    + destruct (Nat.ltb_spec i (S i)); [reflexivity|lia].
    + destruct (Nat.ltb_spec i' i), (Nat.ltb_spec i' (S i)); auto; lia.
  - exists h. split; auto. split; auto. intros i' j' Hi' Hj'. rewrite I by auto. apply Nat.ltb_lt in Hi'. rewrite Hi', andb_true_r. reflexivity.
Qed.

Lemma vscal_spec h j alpha : good h A -> j < h_c A ->
  exists h', vscal h A j (h_c A) (h_r A) alpha = Ok h' /\ frame h h' A /\
    forall i k, i < h_r A -> k < h_c A -> hent h' A i k = if k =? j then (alpha * hent h A i j)%r else hent h A i k.
Proof.
  intros G Hj. unfold vscal.
  destruct (column_loop (fun i h => let* x := vget h A j (h_c A) i in vset h A j (h_c A) i (alpha * x)%r) j (fun i => alpha * hent h A i j)%r h)
    as [h' H]; auto.
  - intros i h1 Hi F I. rewrite vget_spec; auto.
    + rewrite I by auto. rewrite Nat.ltb_irrefl, andb_false_r. reflexivity.
    + eapply good_shape; eauto. apply F.
  - exists h'. exact H.
Qed.

Lemma vaxpy_spec h j k alpha : good h A -> j < h_c A -> k < h_c A -> j <> k ->
  exists h', vaxpy h A j k (h_c A) (h_r A) alpha = Ok h' /\ frame h h' A /\
    forall i l, i < h_r A -> l < h_c A -> hent h' A i l = if l =? k then (hent h A i k + alpha * hent h A i j)%r else hent h A i l.
Proof.
  intros G Hj Hk Hne. unfold vaxpy.
  destruct (column_loop (fun i h => let* x := vget h A j (h_c A) i in let* y := vget h A k (h_c A) i in
     vset h A k (h_c A) i (y + alpha * x)%r) k (fun i => hent h A i k + alpha * hent h A i j)%r h) as [h' H]; auto.
  - intros i h1 Hi F I. assert (good h1 A) by (eapply good_shape; eauto; apply F). rewrite !vget_spec by auto.
    rewrite !I by auto. rewrite Nat.ltb_irrefl, !andb_false_r. reflexivity.
  - exists h'. exact H.
Qed.

Variable Rm : hdense.
Hypothesis HR : h_r Rm = h_c A.
Hypothesis HC : h_c Rm = h_c A.
Hypothesis HA : apart A Rm.

(** Only elements of A and R change. *)
Definition frame2 (h h' : heap) : Prop :=
  same_shape h h' /\ forall b k, ~ cell A b k -> ~ cell Rm b k -> val h' b k = val h b k.
Lemma frame2_refl h : frame2 h h.
Proof. split; auto. apply same_shape_refl. Qed.
Lemma frame2_trans h1 h2 h3 : frame2 h1 h2 -> frame2 h2 h3 -> frame2 h1 h3.
Proof. intros [A1 A2] [B1 B2]. split; [eapply same_shape_trans; eauto|]. intros. rewrite B2, A2; auto. Qed.
Lemma frame2_l h h' : frame h h' A -> frame2 h h'.
Proof. intros [H1 H2]. split; auto. Qed.
Lemma frame2_r h h' : frame h h' Rm -> frame2 h h'.
Proof. intros [H1 H2]. split; auto. Qed.

Definition holds (h : heap) (s : mat * mat) : Prop :=
  feq (h_r A) (h_c A) (hent h A) (fst s) /\ feq (h_c A) (h_c A) (hent h Rm) (snd s).

Lemma col_spec h s j : good h A -> good h Rm -> j < h_c A -> holds h s ->
  exists h', mgs_col root inv A Rm j h = Ok h' /\ frame2 h h' /\ holds h' (mstep root inv (h_r A) j s).
Proof.
  destruct s as [F G]. intros GA GR Hj [HF HG]. cbn [fst snd] in HF, HG. unfold mgs_col.
  rewrite vnorm_spec by auto. cbn [bind].
  set (nr := root (sum (h_r A) (fun i => F i j * F i j)%r)).
  replace (root (sum (h_r A) (fun i : nat => (hent h A i j * hent h A i j)%r))) with nr
    by (unfold nr; f_equal; apply sum_ext; intros; rewrite HF; auto).
  destruct (h_set_spec h Rm j j nr GR ltac:(lia) ltac:(lia)) as [h1 [E1 _]]. rewrite E1. cbn [bind].
  pose proof (frame_set _ _ _ _ _ _ GR E1) as F1.
  destruct (h_set_entries _ _ _ _ _ _ GR E1) as [_ [_ [_ [I1 _]]]].
  assert (GR1 : good h1 Rm) by (eapply good_shape; eauto; apply F1).
  assert (GA1 : good h1 A) by (eapply good_shape; eauto; apply F1).
  rewrite h_get_spec by (auto; lia). rewrite I1 by lia. rewrite !Nat.eqb_refl. cbn [andb bind].
  destruct (vscal_spec h1 j (inv nr) GA1 Hj) as [h2 [E2 [F2 I2]]]. rewrite E2. cbn [bind].
  assert (GR2 : good h2 Rm) by (eapply good_shape; eauto; apply F2).
  assert (GA2 : good h2 A) by (eapply good_shape; eauto; apply F2).
  set (q := fun i => (inv nr * F i j)%r). set (d := fun k => sum (h_r A) (fun i => q i * F i k)%r).
  assert (HA2 : forall i k, i < h_r A -> k < h_c A -> hent h2 A i k = if k =? j then q i else F i k).
  { intros i k Hi Hk. rewrite I2 by auto.
    rewrite (frame_hent _ _ _ _ i j F1 HA) by auto. rewrite (frame_hent _ _ _ _ i k F1 HA) by auto. rewrite !HF by auto. reflexivity. }
  assert (HR2 : forall i k, i < h_c A -> k < h_c A -> hent h2 Rm i k = if (i =? j) && (k =? j) then nr else G i k).
  { intros i k Hi Hk. rewrite (frame_hent _ _ _ _ i k F2 (apart_sym _ _ HA)) by lia. rewrite I1 by lia. rewrite HG by auto. reflexivity. }
  destruct (for_loop_inv (h_c A - S j) (fun t h =>
    let k := S j + t in
    let* d := vdot h A j k (h_c A) (h_r A) in
    let* h := h_set h Rm j k d in
    let* rjk := h_get h Rm j k in
    vaxpy h A j k (h_c A) (h_r A) (- rjk)%r) h2
    (fun t h3 => frame2 h2 h3 /\
      (forall i k, i < h_r A -> k < h_c A -> hent h3 A i k =
         if k =? j then q i else if (j <? k) && (k <? S j + t) then (F i k + - d k * q i)%r else F i k) /\
      (forall i k, i < h_c A -> k < h_c A -> hent h3 Rm i k =
         if i =? j then if k =? j then nr else if (j <? k) && (k <? S j + t) then d k else G i k else G i k)))
    as [h' [E' [F' [IA' IR']]]].
  - split; [apply frame2_refl|]. split.
    + intros i k Hi Hk. rewrite HA2 by auto. destruct (Nat.eqb_spec k j); auto.
      destruct (Nat.ltb_spec j k), (Nat.ltb_spec k (S j + 0)); auto; lia.
    + intros i k Hi Hk. rewrite HR2 by auto. destruct (Nat.eqb_spec i j); auto. destruct (Nat.eqb_spec k j); auto.
      destruct (Nat.ltb_spec j k), (Nat.ltb_spec k (S j + 0)); auto; lia.
  - intros t h3 Ht [F3 [IA IR]].
    assert (Hk : S j + t < h_c A) by lia. set (k := S j + t) in *.
    assert (GR3 : good h3 Rm) by (eapply good_shape; eauto; apply F3).
    assert (GA3 : good h3 A) by (eapply good_shape; eauto; apply F3).
    cbv zeta. rewrite vdot_spec by auto. cbn [bind].
    replace (sum (h_r A) (fun i : nat => (hent h3 A i j * hent h3 A i k)%r)) with (d k).
    2:{ unfold d. apply sum_ext. intros i Hi. rewrite !IA by auto. rewrite Nat.eqb_refl.
        destruct (Nat.eqb_spec k j); [lia|]. rewrite (Nat.ltb_irrefl k), andb_false_r. reflexivity. }
    destruct (h_set_spec h3 Rm j k (d k) GR3 ltac:(lia) ltac:(lia)) as [h4 [E4 _]]. rewrite E4. cbn [bind].
    pose proof (frame_set _ _ _ _ _ _ GR3 E4) as F4.
    destruct (h_set_entries _ _ _ _ _ _ GR3 E4) as [_ [_ [_ [I4 _]]]].
    assert (GR4 : good h4 Rm) by (eapply good_shape; eauto; apply F4).
    assert (GA4 : good h4 A) by (eapply good_shape; eauto; apply F4).
    rewrite h_get_spec by (auto; lia). rewrite I4 by lia. rewrite !Nat.eqb_refl. cbn [andb bind].
    destruct (vaxpy_spec h4 j k (- d k)%r GA4 Hj Hk ltac:(lia)) as [h5 [E5 [F5 I5]]].
    exists h5. split; auto. split.
    { eapply frame2_trans; [exact F3|]. eapply frame2_trans; [apply frame2_r; exact F4|]. apply frame2_l. exact F5. }
    split.
    + intros i l Hi Hl. rewrite I5 by auto.
      rewrite !(frame_hent _ _ _ _ _ _ F4 HA) by auto. rewrite !IA by auto. rewrite Nat.eqb_refl.
      destruct (Nat.eqb_spec l k) as [->|].
      * destruct (Nat.eqb_spec k j); [lia|]. rewrite (Nat.ltb_irrefl k), andb_false_r.
        destruct (Nat.ltb_spec j k); [|lia]. destruct (Nat.ltb_spec k (S j + S t)); [|lia]. reflexivity.
      * destruct (Nat.eqb_spec l j); auto. destruct (Nat.ltb_spec j l); auto. cbn [andb].
        destruct (Nat.ltb_spec l k), (Nat.ltb_spec l (S j + S t)); auto; lia.
    + intros i l Hi Hl. rewrite (frame_hent _ _ _ _ i l F5 (apart_sym _ _ HA)) by lia. rewrite I4 by lia. rewrite IR by auto.
      destruct (Nat.eqb_spec i j); auto. destruct (Nat.eqb_spec l k) as [->|].
      * destruct (Nat.eqb_spec k j); [lia|]. destruct (Nat.ltb_spec j k); [|lia]. destruct (Nat.ltb_spec k (S j + S t)); [|lia]. reflexivity.
      * cbn [andb]. destruct (Nat.eqb_spec l j); auto. destruct (Nat.ltb_spec j l); auto. cbn [andb].
        destruct (Nat.ltb_spec l k), (Nat.ltb_spec l (S j + S t)); auto; lia.
  - exists h'. split; [exact E'|]. split.
    { eapply frame2_trans; [apply frame2_r; exact F1|]. eapply frame2_trans; [apply frame2_l; exact F2|]. exact F'. }
    split; cbn [fst snd mstep].
    + intros i k Hi Hk. rewrite IA' by auto. fold nr. destruct (Nat.eqb_spec k j); [reflexivity|].
      destruct (Nat.ltb_spec j k); cbn [andb]; auto. destruct (Nat.ltb_spec k (S j + (h_c A - S j))); [|lia]. reflexivity.
    + intros i k Hi Hk. rewrite IR' by auto. fold nr. destruct (Nat.eqb_spec i j); auto. destruct (Nat.eqb_spec k j); [reflexivity|].
      destruct (Nat.ltb_spec j k); cbn [andb]; auto. destruct (Nat.ltb_spec k (S j + (h_c A - S j))); [|lia]. reflexivity.
Qed.

Lemma mgs_dense_spec h Q : good h A -> good h Rm -> h_r Q = h_r A -> h_c Q = h_c A ->
  exists h', mgs_dense root inv h A Q Rm = Ok (h', A) /\ frame2 h h' /\
    holds h' (miter root inv (h_r A) (h_c A) (hent h A, hent h Rm)).
Proof.
  intros GA GR Q1 Q2. unfold mgs_dense. rewrite Q1, Q2, HR, HC, !Nat.eqb_refl.
  destruct (for_loop_inv (h_c A) (mgs_col root inv A Rm) h (fun t h1 => frame2 h h1 /\ holds h1 (miter root inv (h_r A) t (hent h A, hent h Rm))))
    as [h' [E [F H]]].
  - split; [apply frame2_refl|]. split; intros i j _ _; reflexivity.
  - intros j h1 Hj [F H]. destruct (col_spec h1 (miter root inv (h_r A) j (hent h A, hent h Rm)) j) as [h2 [E2 [F2 H2]]]; auto.
    + eapply good_shape; eauto. apply F.
    + eapply good_shape; eauto. apply F.
    + exists h2. split; auto. split; [eapply frame2_trans; eauto|]. exact H2.
  - rewrite E. cbn [bind]. eauto.
Qed.

(** R starts as the zero matrix (dense.cpp:108-113): Q·R is the old A and, with a square
    root, the columns of Q are orthonormal. *)
Theorem mgs_dense_factors h Q h' Q' : good h A -> good h Rm ->
  feq (h_c A) (h_c A) (hent h Rm) mzero ->
  mgs_dense root inv h A Q Rm = Ok (h', Q') ->
  (forall l, l < h_c A -> (inv (hent h' Rm l l) * hent h' Rm l l = 1)%r) ->
  Q' = A /\ frame2 h h' /\
  feq (h_r A) (h_c A) (mmul (h_c A) (hent h' Q') (hent h' Rm)) (hent h A) /\
  (forall i j, i < h_c A -> j < i -> hent h' Rm i j = 0%r) /\
  ((forall (f : nat -> R) n, let s := sum n (fun i => f i * f i)%r in (root s * root s = s)%r) ->
   feq (h_c A) (h_c A) (mmul (h_r A) (mtr (hent h' Q')) (hent h' Q')) mid).
Proof.
  intros GA GR HZ E HU.
  assert (Q1 : h_r Q = h_r A /\ h_c Q = h_c A).
  { unfold mgs_dense in E. destruct (Nat.eqb_spec (h_r Q) (h_r A)); [|discriminate].
    destruct (Nat.eqb_spec (h_c Q) (h_c A)); [|discriminate]. auto. }
  destruct Q1 as [Q1 Q2].
  destruct (mgs_dense_spec h Q GA GR Q1 Q2) as [h2 [E2 [F [HF HG]]]]. rewrite E in E2. inversion E2; subst h2 Q'. clear E2.
  set (P := miter root inv (h_r A) (h_c A) (hent h A, hent h Rm)) in *.
  assert (U : unit_diag inv (h_c A) (snd P)).
  { intros l Hl. rewrite <- (HG l l) by auto. apply HU. auto. }
  assert (Up : forall i j, i < h_c A -> j < i -> hent h' Rm i j = 0%r).
  { intros i j Hi Hj. rewrite HG by lia. unfold P. rewrite miter_upper by auto. rewrite HZ by lia. reflexivity. }
  split; auto. split; auto. split; [|split; auto].
  - intros i k Hi Hk. unfold mmul.
    destruct (miter_product root inv (h_r A) (h_c A) (hent h A) (hent h Rm) U) as [I1 _]. fold P in I1. rewrite (I1 i k Hk).
    replace (h_c A) with (S k + (h_c A - S k)) by lia. rewrite sum_split.
    rewrite (sum_zero' (h_c A - S k)).
    + transitivity (sum (S k) (fun j => hent h' A i j * hent h' Rm j k)%r); [ring|]. apply sum_ext. intros l Hl. rewrite HF, HG by lia. reflexivity.
    + intros l Hl. rewrite Up by lia. ring.
  - intros RO l k Hl Hk. unfold mmul, mtr, mid.
    assert (X : forall l k, l < h_c A -> k < h_c A -> l <= k ->
      sum (h_r A) (fun j => hent h' A j l * hent h' A j k)%r = if l =? k then 1%r else 0%r).
    { intros l0 k0 Hl0 Hk0 Hle. rewrite <- (miter_orth root inv (h_r A) RO (h_c A) (hent h A) (hent h Rm) U l0 k0 Hl0 Hle).
      unfold cdot. apply sum_ext. intros i Hi. rewrite !HF by lia. reflexivity. }
    destruct (le_lt_dec l k); [apply X; auto|].
    transitivity (sum (h_r A) (fun j => hent h' A j k * hent h' A j l)%r); [apply sum_ext; intros; ring|].
    rewrite X by lia. rewrite Nat.eqb_sym. reflexivity.
Qed.
End Packed.

(** ** Views *)
Section View.
Variables A Rm : hdense.

(** The rows*columns elements from the first element of A on, however A is laid out. *)
Definition span (b k : nat) : Prop := b = h_buf A /\ h_off A <= k < h_off A + h_r A * h_c A.

Definition outer (h h' : heap) : Prop :=
  same_shape h h' /\ forall b k, ~ span b k -> ~ cell Rm b k -> val h' b k = val h b k.
Lemma outer_refl h : outer h h.
Proof. split; auto. apply same_shape_refl. Qed.
Lemma outer_trans h1 h2 h3 : outer h1 h2 -> outer h2 h3 -> outer h1 h3.
Proof. intros [A1 A2] [B1 B2]. split; [eapply same_shape_trans; eauto|]. intros. rewrite B2, A2; auto. Qed.

Lemma span_vaddr i j : i < h_r A -> j < h_c A -> span (h_buf A) (vaddr A j (h_c A) i).
Proof. intros Hi Hj. split; auto. unfold vaddr. nia. Qed.

(** The elements touched stay inside the storage of a view. *)
Lemma span_size h b k : good h A -> span b k -> k < size h b.
Proof.
  intros G [-> Hk]. destruct (Nat.eq_dec (h_r A) 0) as [E|]; [rewrite E in Hk; lia|].
  destruct (Nat.eq_dec (h_c A) 0) as [E|]; [rewrite E in Hk; lia|].
  pose proof (good_addr h A (h_r A - 1) (h_c A - 1) G ltac:(lia) ltac:(lia)) as H. destruct G as [_ [_ [Hs _]]]. unfold addr in H.
  assert (X : (h_r A - 1) * h_c A <= (h_r A - 1) * h_stride A) by (apply Nat.mul_le_mono_l; lia).
  assert (h_r A * h_c A = (h_r A - 1) * h_c A + h_c A) by nia. lia.
Qed.

Lemma vget_total h j i : good h A -> i < h_r A -> j < h_c A -> exists v, vget h A j (h_c A) i = Ok v.
Proof. intros G Hi Hj. eexists. unfold vget. apply peek_spec. eapply span_size; eauto. apply span_vaddr; auto. Qed.
Lemma vset_total h j i v : good h A -> i < h_r A -> j < h_c A -> exists h', vset h A j (h_c A) i v = Ok h' /\ outer h h'.
Proof.
  intros G Hi Hj. pose proof (span_vaddr i j Hi Hj) as HS.
  destruct (poke_spec h (h_buf A) (vaddr A j (h_c A) i) v (span_size _ _ _ G HS)) as [h' [E [S1 [_ V]]]].
  exists h'. split; auto. split; auto. intros b k Hb _. apply V. destruct (Nat.eq_dec b (h_buf A)); auto. right. intros ->. apply Hb. subst. exact HS.
Qed.
Lemma sumM_total n (f : nat -> outcome R) : (forall i, i < n -> exists x, f i = Ok x) -> exists s, sumM n f = Ok s.
Proof.
  intros H. unfold sumM. destruct (for_loop_inv n (fun i s => let* x := f i in Ok (s + x)%r) 0%r (fun _ _ => True)) as [s [E _]]; eauto.
  intros i s Hi _. destruct (H i Hi) as [x ->]. simpl. eauto.
Qed.
Lemma outer_good h h' : outer h h' -> good h A -> good h' A.
Proof. intros [S1 _] G. eapply good_shape; eauto. Qed.
Lemma outer_goodR h h' : outer h h' -> good h Rm -> good h' Rm.
Proof. intros [S1 _] G. eapply good_shape; eauto. Qed.
Lemma setR_total h i j v : good h Rm -> i < h_r Rm -> j < h_c Rm -> exists h', h_set h Rm i j v = Ok h' /\ outer h h'.
Proof.
  intros G Hi Hj. destruct (h_set_spec h Rm i j v G Hi Hj) as [h' [E _]]. exists h'. split; auto.
  destruct (frame_set _ _ _ _ _ _ G E). split; auto.
Qed.

(** On every A, contiguous or not, the function runs to the end, reads and writes only
    the first rows*columns elements behind &A, and elements of R. *)
Theorem mgs_dense_span h Q : good h A -> good h Rm -> h_r Q = h_r A -> h_c Q = h_c A -> h_r Rm = h_c A -> h_c Rm = h_c A ->
  exists h', mgs_dense root inv h A Q Rm = Ok (h', A) /\ outer h h'.
Proof.
  intros GA GR Q1 Q2 HR HC. unfold mgs_dense. rewrite Q1, Q2, HR, HC, !Nat.eqb_refl.
  destruct (for_loop_inv (h_c A) (mgs_col root inv A Rm) h (fun _ h1 => outer h h1)) as [h' [E F]].
  - apply outer_refl.
  - intros j h1 Hj F. unfold mgs_col.
    assert (GA1 := outer_good _ _ F GA). assert (GR1 := outer_goodR _ _ F GR).
    unfold vnorm. destruct (sumM_total (h_r A) (fun i => let* x := vget h1 A j (h_c A) i in Ok (x * x)%r)) as [s Es].
    { intros i Hi. destruct (vget_total h1 j i GA1 Hi Hj) as [x ->]. simpl. eauto. }
    rewrite Es. cbn [bind].
    destruct (setR_total h1 j j (root s) GR1 ltac:(lia) ltac:(lia)) as [h2 [E2 F2]]. rewrite E2. cbn [bind].
    assert (GA2 := outer_good _ _ F2 GA1). assert (GR2 := outer_goodR _ _ F2 GR1).
    rewrite h_get_spec by (auto; lia). cbn [bind]. unfold vscal.
    match goal with |- context [for_loop (h_r A) ?body h2] =>
      destruct (for_loop_inv (h_r A) body h2 (fun _ h => outer h2 h)) as [h3 [E3 F3]] end.
    { apply outer_refl. }
    { intros i h3 Hi F3. assert (GA3 := outer_good _ _ F3 GA2). destruct (vget_total h3 j i GA3 Hi Hj) as [x ->]. cbn [bind].
      destruct (vset_total h3 j i (inv (hent h2 Rm j j) * x)%r GA3 Hi Hj) as [h4 [E4 F4]]. exists h4. split; auto. eapply outer_trans; eauto. }
    rewrite E3. cbn [bind].
    assert (GA3 := outer_good _ _ F3 GA2). assert (GR3 := outer_goodR _ _ F3 GR2).
    match goal with |- context [for_loop (h_c A - S j) ?body h3] =>
      destruct (for_loop_inv (h_c A - S j) body h3 (fun _ h => outer h3 h)) as [h4 [E4 F4]] end.
    { apply outer_refl. }
    { intros t h4 Ht F4. assert (GA4 := outer_good _ _ F4 GA3). assert (GR4 := outer_goodR _ _ F4 GR3).
      assert (Hk : S j + t < h_c A) by lia. set (k := S j + t) in *. cbv zeta. unfold vdot.
      destruct (sumM_total (h_r A) (fun i => let* x := vget h4 A j (h_c A) i in let* y := vget h4 A k (h_c A) i in Ok (x * y)%r)) as [d Ed].
      { intros i Hi. destruct (vget_total h4 j i GA4 Hi Hj) as [x ->]. cbn [bind]. destruct (vget_total h4 k i GA4 Hi Hk) as [y ->]. simpl. eauto. }
      rewrite Ed. cbn [bind]. destruct (setR_total h4 j k d GR4 ltac:(lia) ltac:(lia)) as [h5 [E5 F5]]. rewrite E5. cbn [bind].
      assert (GA5 := outer_good _ _ F5 GA4). assert (GR5 := outer_goodR _ _ F5 GR4).
      rewrite h_get_spec by (auto; lia). cbn [bind]. unfold vaxpy.
      match goal with |- context [for_loop (h_r A) ?body h5] =>
        destruct (for_loop_inv (h_r A) body h5 (fun _ h => outer h5 h)) as [h6 [E6 F6]] end.
      { apply outer_refl. }
      { intros i h6 Hi F6. assert (GA6 := outer_good _ _ F6 GA5). destruct (vget_total h6 j i GA6 Hi Hj) as [x ->].
        destruct (vget_total h6 k i GA6 Hi Hk) as [y ->]. cbn [bind].
        destruct (vset_total h6 k i (y + - hent h5 Rm j k * x)%r GA6 Hi Hk) as [h7 [E7 F7]]. exists h7. split; auto. eapply outer_trans; eauto. }
      exists h6. split; [exact E6|]. eapply outer_trans; [exact F4|]. eapply outer_trans; [exact F5|exact F6]. }
    exists h4. split; [exact E4|]. eapply outer_trans; [exact F|]. eapply outer_trans; [exact F2|]. eapply outer_trans; [exact F3|exact F4].
  - rewrite E. cbn [bind]. eauto.
Qed.

(** In a view with at least two rows that is narrower than its parent, the last entry of Q
    is the last entry of A, whatever its value. *)
Theorem mgs_dense_view h Q h' Q' : good h A -> good h Rm -> apart A Rm -> h_r Q = h_r A -> h_c Q = h_c A -> h_r Rm = h_c A -> h_c Rm = h_c A ->
  2 <= h_r A -> 1 <= h_c A -> h_c A < h_stride A ->
  mgs_dense root inv h A Q Rm = Ok (h', Q') ->
  hent h' Q' (h_r A - 1) (h_c A - 1) = hent h A (h_r A - 1) (h_c A - 1).
Proof.
  intros GA GR HA Q1 Q2 HR HC H1 H2 H3 E.
  destruct (mgs_dense_span h Q GA GR Q1 Q2 HR HC) as [h2 [E2 [_ F]]]. rewrite E in E2. inversion E2; subst h2 Q'.
  unfold hent. apply F.
  - intros [_ [_ HS]]. unfold addr in HS.
    assert ((h_r A - 1) * S (h_c A) <= (h_r A - 1) * h_stride A) by (apply Nat.mul_le_mono_l; lia). nia.
  - apply HA. split; auto. exists (h_r A - 1), (h_c A - 1). repeat split; lia.
Qed.
End View.
End Proofs.
