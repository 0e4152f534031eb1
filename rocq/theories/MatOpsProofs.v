From Coq Require Import List Arith ZArith QArith Lia Bool Ring_theory Ring.
From Verif Require Import Prelude IndexRange IndexRangeSpec IndexRangeProofs ClusterTree ClusterTreeProofs
  Ring MatFun Matrix MatOps MatSpec.
Import ListNotations.
Local Open Scope nat_scope.

(** * Generic *)

Lemma check_ok_spec {A} n (f : nat -> outcome A) u :
  check_ok n f = Ok u -> forall i, i < n -> exists a, f i = Ok a.
Proof.
  revert u. induction n as [|n IH]; intros u H i Hi; [lia|]. simpl in H.
  apply bind_Ok in H. destruct H as [u1 [H1 H2]]. apply bind_Ok in H2. destruct H2 as [a [H2 H3]].
  destruct (Nat.eq_dec i n) as [->|]; [eauto|]. eapply IH; eauto. lia.
Qed.

Lemma check_ok_all {A} n (f : nat -> outcome A) :
  (forall i, i < n -> exists a, f i = Ok a) -> check_ok n f = Ok tt.
Proof.
  induction n as [|n IH]; intros H; simpl; auto.
  rewrite IH by (intros; apply H; lia). simpl. destruct (H n) as [a ->]; [lia|]. reflexivity.
Qed.

Lemma assert_Ok {A} (b : bool) (c : outcome A) a :
  (if b then c else AssertFail) = Ok a -> b = true /\ c = Ok a.
Proof. destruct b; [auto|discriminate]. Qed.

Lemma ub_Ok {A} (b : bool) (c : outcome A) a :
  (if b then c else UB) = Ok a -> b = true /\ c = Ok a.
Proof. destruct b; [auto|discriminate]. Qed.

Lemma abort_Ok {A} (b : bool) (c : outcome A) a :
  (if b then Abort else c) = Ok a -> b = false /\ c = Ok a.
Proof. destruct b; [discriminate|auto]. Qed.

Section Proofs.
Context {R : cring}.
Add Ring Rr : (cr_th R).
Notation dense := (dense R).
Notation lowrank := (lowrank R).
Notation matrix := (matrix R).
Notation mat := (mat R).

Lemma collect_spec m n (f : nat -> nat -> outcome matrix) g :
  collect m n f = Ok g -> forall i j, i < m -> j < n -> f i j = Ok (g i j).
Proof.
  unfold collect. intros H i j Hi Hj. apply bind_Ok in H. destruct H as [u [H1 H2]].
  inversion H2; subst g.
  destruct (check_ok_spec _ _ _ H1 i Hi) as [v Hv].
  destruct (check_ok_spec _ _ _ Hv j Hj) as [a Ha]. rewrite Ha. reflexivity.
Qed.

Lemma collect_all m n (f : nat -> nat -> outcome matrix) :
  (forall i j, i < m -> j < n -> exists a, f i j = Ok a) -> exists g, collect m n f = Ok g.
Proof.
  intros H. unfold collect. rewrite check_ok_all; [simpl; eauto|].
  intros i Hi. exists tt. apply check_ok_all. auto.
Qed.

(** * Entry loops *)

Lemma in_ij_loop r lo hi i j : In (i, j) (ij_loop r lo hi) <-> i < r /\ lo i <= j < hi i.
Proof.
  unfold ij_loop. rewrite in_flat_map. split.
  - intros [x [Hx Hin]]. apply in_seq in Hx. apply in_map_iff in Hin.
    destruct Hin as [y [E Hy]]. inversion E; subst. apply in_seq in Hy. lia.
  - intros [H1 H2]. exists i. split; [apply in_seq; lia|].
    apply in_map_iff. exists j. split; auto. apply in_seq. lia.
Qed.

Lemma in_ij_all r c i j : In (i, j) (ij_all r c) <-> i < r /\ j < c.
Proof. unfold ij_all. rewrite in_ij_loop. lia. Qed.

Lemma NoDup_flat_map {A B} (f : A -> list B) l :
  NoDup l -> (forall a, In a l -> NoDup (f a)) ->
  (forall a a' b, In a l -> In a' l -> In b (f a) -> In b (f a') -> a = a') ->
  NoDup (flat_map f l).
Proof.
  induction l as [|a l IH]; intros Hn Hf Hd; simpl; [constructor|].
  inversion Hn as [|? ? Hni Hnl]; subst.
  assert (Ha : NoDup (f a)) by (apply Hf; left; auto).
  assert (Hr : NoDup (flat_map f l)).
  { apply IH; auto.
    - intros; apply Hf; right; auto.
    - intros x y b Hx Hy; apply Hd; right; auto. }
  assert (Hdis : forall b, In b (f a) -> ~ In b (flat_map f l)).
  { intros b Hb Hb'. apply in_flat_map in Hb'. destruct Hb' as [a' [Ha' Hb']].
    assert (a = a') by (eapply Hd; eauto; [left; auto|right; auto]). subst. contradiction. }
  revert Ha Hdis. generalize (f a) as l1. induction l1 as [|x l1 IH1]; intros H1 H2; simpl; auto.
  inversion H1; subst. constructor.
  - rewrite in_app_iff. intros [Hx|Hx]; [contradiction|]. apply (H2 x); [left; auto|auto].
  - apply IH1; auto. intros b Hb. apply H2. right; auto.
Qed.

Lemma NoDup_map_pair {A} (i : A) l : NoDup l -> NoDup (map (fun j : nat => (i, j)) l).
Proof.
  induction 1; simpl; constructor; auto.
  intros Hin. apply in_map_iff in Hin. destruct Hin as [y [E Hy]]. inversion E; subst; contradiction.
Qed.

Lemma ij_loop_nodup r lo hi : NoDup (ij_loop r lo hi).
Proof.
  unfold ij_loop. apply NoDup_flat_map.
  - apply seq_NoDup.
  - intros a _. apply NoDup_map_pair, seq_NoDup.
  - intros a a' [x y] _ _ H1 H2. apply in_map_iff in H1. apply in_map_iff in H2.
    destruct H1 as [? [E1 _]]. destruct H2 as [? [E2 _]]. congruence.
Qed.

Lemma upd_same (f : mat) i j v : upd f i j v i j = v.
Proof. unfold upd. rewrite !Nat.eqb_refl. reflexivity. Qed.

Lemma upd_other (f : mat) i j v i' j' : (i', j') <> (i, j) -> upd f i j v i' j' = f i' j'.
Proof.
  intros H. unfold upd. destruct (Nat.eqb_spec i' i); destruct (Nat.eqb_spec j' j); simpl; auto.
  subst. congruence.
Qed.

Lemma loop_upd_out l w (f : mat) i j : ~ In (i, j) l -> loop_upd l w f i j = f i j.
Proof.
  unfold loop_upd. revert f. induction l as [|[a b] l IH]; intros f H; simpl; auto.
  rewrite IH by (intros Hin; apply H; right; auto).
  apply upd_other. intros E. apply H. left. congruence.
Qed.

Lemma loop_upd_in l w (f : mat) i j :
  NoDup l -> In (i, j) l ->
  (forall f g i j, f i j = g i j -> w f i j = w g i j) ->
  loop_upd l w f i j = w f i j.
Proof.
  intros Hn Hin Hw. revert f. unfold loop_upd. induction l as [|[a b] l IH]; intros f; [destruct Hin|].
  inversion Hn as [|? ? Hni Hnl]; subst. simpl. destruct Hin as [E|Hin].
  - inversion E; subst. fold (loop_upd l w (upd f i j (w f i j))).
    rewrite loop_upd_out by auto. apply upd_same.
  - rewrite IH; auto. apply Hw. apply upd_other. intros E. congruence.
Qed.

Lemma loop_all_in r c w (f : mat) i j :
  i < r -> j < c -> (forall f g i j, f i j = g i j -> w f i j = w g i j) ->
  loop_upd (ij_all r c) w f i j = w f i j.
Proof.
  intros Hi Hj Hw. apply loop_upd_in; auto.
  - apply ij_loop_nodup.
  - apply in_ij_all; auto.
Qed.

(** * Dense operations *)

Lemma d_fill_ent a (A : dense) : feq (d_r A) (d_c A) (d_e (d_fill a A)) (fun _ _ => a).
Proof. intros i j Hi Hj. simpl. now rewrite loop_all_in. Qed.

Lemma d_scale_ent (A : dense) b : feq (d_r A) (d_c A) (d_e (d_scale A b)) (mscale b (d_e A)).
Proof.
  intros i j Hi Hj. simpl. rewrite loop_all_in; auto.
  - unfold mscale. ring.
  - intros f g x y E. now rewrite E.
Qed.

Lemma d_sub_ent (A B : dense) : feq (d_r A) (d_c A) (d_e (d_sub A B)) (msub (d_e A) (d_e B)).
Proof. intros i j Hi Hj. simpl. rewrite loop_all_in; auto. Qed.

Lemma d_add_spec (A B : dense) : d_r A = d_r B -> d_c A = d_c B ->
  exists C, d_add A B = Ok C /\ d_r C = d_r A /\ d_c C = d_c A /\
    feq (d_r A) (d_c A) (d_e C) (madd (d_e A) (d_e B)).
Proof.
  intros Hr Hc. unfold d_add. rewrite Hr, Hc, !Nat.leb_refl, !orb_true_r.
  eexists; split; [reflexivity|]. simpl. repeat split; auto.
  intros i j Hi Hj. rewrite loop_all_in; try lia.
  - reflexivity.
  - intros f g x y E. now rewrite E.
Qed.

Lemma d_plus_spec (A B : dense) : d_r A = d_r B -> d_c A = d_c B ->
  exists C, d_plus A B = Ok C /\ d_r C = d_r A /\ d_c C = d_c A /\
    feq (d_r A) (d_c A) (d_e C) (madd (d_e A) (d_e B)).
Proof.
  intros Hr Hc. unfold d_plus. rewrite Hr, Hc, !Nat.leb_refl, !orb_true_r.
  eexists; split; [reflexivity|]. simpl. repeat split; auto.
  intros i j Hi Hj. rewrite loop_all_in; auto.
Qed.

Lemma d_copy_to_spec (this A : dense) rs cs :
  d_r A + rs <= d_r this -> d_c A + cs <= d_c this ->
  exists C, d_copy_to this A rs cs = Ok C /\ d_r C = d_r A /\ d_c C = d_c A /\
    feq (d_r A) (d_c A) (d_e C) (mwin rs cs (d_e this)).
Proof.
  intros Hr Hc. unfold d_copy_to.
  apply Nat.leb_le in Hr. apply Nat.leb_le in Hc. rewrite Hr, Hc.
  eexists; split; [reflexivity|]. simpl. repeat split; auto.
  intros i j Hi Hj. rewrite loop_all_in; auto.
Qed.

Lemma d_resize_spec (A : dense) r c :
  r <= d_r A -> c <= d_c A ->
  exists C, d_resize A r c = Ok C /\ d_r C = r /\ d_c C = c /\ feq r c (d_e C) (d_e A).
Proof.
  intros Hr Hc. unfold d_resize.
  pose proof Hr as Hr'. pose proof Hc as Hc'.
  apply Nat.leb_le in Hr'. apply Nat.leb_le in Hc'. rewrite Hr', Hc'.
  destruct (d_copy_to_spec A (d_zeros r c) 0 0) as [C [H1 [H2 [H3 H4]]]]; simpl; try lia.
  exists C. repeat split; auto.
Qed.

Lemma d_transpose_ent (A : dense) : feq (d_c A) (d_r A) (d_e (d_transpose A)) (mtr (d_e A)).
Proof.
  intros i j Hi Hj. simpl. unfold mtr.
  assert (G : forall l (f : mat), NoDup l ->
    (In (j, i) l ->
     fold_left (fun f ij => upd f (snd ij) (fst ij) (d_e A (fst ij) (snd ij))) l f i j = d_e A j i) /\
    (~ In (j, i) l ->
     fold_left (fun f ij => upd f (snd ij) (fst ij) (d_e A (fst ij) (snd ij))) l f i j = f i j)).
  { induction l as [|[a b] l IH]; intros f Hn; simpl.
    - split; [intros []|auto].
    - inversion Hn as [|? ? Hni Hnl]; subst. destruct (IH (upd f b a (d_e A a b)) Hnl) as [I1 I2].
      split.
      + intros [E|Hin]; [|auto]. inversion E; subst. rewrite I2 by auto. apply upd_same.
      + intros Hni'. rewrite I2 by auto. apply upd_other. intros E. apply Hni'. left. congruence. }
  apply G; [apply ij_loop_nodup|]. apply in_ij_all. auto.
Qed.

Lemma dd_gemm_inv (A B C : dense) alpha beta tA tB (D : dense) :
  dd_gemm A B C alpha beta tA tB = Ok D ->
  (if tA then d_c A else d_r A) = d_r C /\
  (if tA then d_r A else d_c A) = (if tB then d_c B else d_r B) /\
  (if tB then d_r B else d_c B) = d_c C /\
  d_r D = d_r C /\ d_c D = d_c C /\
  (forall i j, d_e D i j = (beta * d_e C i j +
     alpha * mmul (if tA then d_r A else d_c A) (mop tA (d_e A)) (mop tB (d_e B)) i j)%r).
Proof.
  unfold dd_gemm. intros H.
  apply assert_Ok in H. destruct H as [H1 H]. apply assert_Ok in H. destruct H as [H2 H].
  apply assert_Ok in H. destruct H as [H3 H]. inversion H; subst D; clear H.
  apply Nat.eqb_eq in H1. apply Nat.eqb_eq in H2. apply Nat.eqb_eq in H3. repeat split; auto.
Qed.

Lemma dd_gemm_ok (A B C : dense) alpha beta (tA tB : bool) :
  (if tA then d_c A else d_r A) = d_r C ->
  (if tA then d_r A else d_c A) = (if tB then d_c B else d_r B) ->
  (if tB then d_r B else d_c B) = d_c C ->
  exists D, dd_gemm A B C alpha beta tA tB = Ok D.
Proof.
  intros H1 H2 H3. unfold dd_gemm.
  apply Nat.eqb_eq in H1. apply Nat.eqb_eq in H2. apply Nat.eqb_eq in H3. rewrite H1, H2, H3. eauto.
Qed.

Lemma dd_mul_inv (A B : dense) alpha tA tB (D : dense) :
  dd_mul A B alpha tA tB = Ok D ->
  (if tA then d_r A else d_c A) = (if tB then d_c B else d_r B) /\
  d_r D = (if tA then d_c A else d_r A) /\ d_c D = (if tB then d_r B else d_c B) /\
  (forall i j, d_e D i j =
     (alpha * mmul (if tA then d_r A else d_c A) (mop tA (d_e A)) (mop tB (d_e B)) i j)%r).
Proof.
  unfold dd_mul. intros H. apply assert_Ok in H. destruct H as [H1 H].
  apply Nat.eqb_eq in H1.
  apply dd_gemm_inv in H. destruct H as [_ [_ [_ [H4 [H5 H6]]]]]. simpl in *.
  repeat split; auto. intros i j. rewrite H6. unfold mzero. ring.
Qed.

Lemma dd_mul_ok (A B : dense) alpha (tA tB : bool) :
  (if tA then d_r A else d_c A) = (if tB then d_c B else d_r B) ->
  exists D, dd_mul A B alpha tA tB = Ok D.
Proof.
  intros H. unfold dd_mul. pose proof H as H'. apply Nat.eqb_eq in H'. rewrite H'.
  apply dd_gemm_ok; auto.
Qed.

(** * Block matrices with the same layout *)

Lemma offs_bheight m (b b' : nat -> nat -> matrix) :
  (forall i, i < m -> nrows (b i 0) = nrows (b' i 0)) ->
  forall k, k <= m -> offs (bheight b) k = offs (bheight b') k.
Proof. intros H k Hk. apply offs_ext. intros i Hi. apply H. lia. Qed.

Lemma offs_bwidth n (b b' : nat -> nat -> matrix) :
  (forall j, j < n -> ncols (b 0 j) = ncols (b' 0 j)) ->
  forall k, k <= n -> offs (bwidth b) k = offs (bwidth b') k.
Proof. intros H k Hk. apply offs_ext. intros i Hi. apply H. lia. Qed.

Lemma wf_block m n (b : nat -> nat -> matrix) i j : wf (MH m n b) -> i < m -> j < n ->
  wf (b i j) /\ nrows (b i j) = bheight b i /\ ncols (b i j) = bwidth b j.
Proof. intros [_ [_ H]] Hi Hj. apply H; auto. Qed.

Lemma nrows_MH m n (b : nat -> nat -> matrix) : nrows (MH m n b) = offs (bheight b) m.
Proof. reflexivity. Qed.
Lemma ncols_MH m n (b : nat -> nat -> matrix) : ncols (MH m n b) = offs (bwidth b) n.
Proof. reflexivity. Qed.

(** A blockwise operation that keeps the dimensions of every block. *)
Lemma blockwise m n (b b' : nat -> nat -> matrix) (F : nat -> nat -> mat -> mat) :
  wf (MH m n b) ->
  (forall i j, i < m -> j < n ->
     wf (b' i j) /\ nrows (b' i j) = nrows (b i j) /\ ncols (b' i j) = ncols (b i j)) ->
  wf (MH m n b') /\ nrows (MH m n b') = nrows (MH m n b) /\ ncols (MH m n b') = ncols (MH m n b) /\
  (forall i, i < m -> bheight b' i = bheight b i) /\ (forall j, j < n -> bwidth b' j = bwidth b j).
Proof.
  intros [Hm [Hn Hb]] H.
  assert (Hh : forall i, i < m -> bheight b' i = bheight b i).
  { intros i Hi. unfold bheight. apply H; auto. }
  assert (Hw : forall j, j < n -> bwidth b' j = bwidth b j).
  { intros j Hj. unfold bwidth. apply H; auto. }
  split; [|split; [|split; [|split]]]; auto.
  - split; auto. split; auto. intros i j Hi Hj.
    destruct (H i j Hi Hj) as [W [E1 E2]]. destruct (Hb i j Hi Hj) as [_ [B1 B2]].
    destruct (H i 0 Hi Hn) as [_ [E3 _]]. destruct (H 0 j Hm Hj) as [_ [_ E4]].
    split; auto. rewrite E1, E2, E3, E4. auto.
  - rewrite !nrows_MH. apply offs_ext. auto.
  - rewrite !ncols_MH. apply offs_ext. auto.
Qed.

(** Entry of [MH m n b'] in block (bi,bj) where [b'] has the layout of [b]. *)
Lemma ent_block_like m n (b b' : nat -> nat -> matrix) bi bj i j :
  (forall i, i < m -> bheight b' i = bheight b i) -> (forall j, j < n -> bwidth b' j = bwidth b j) ->
  bi < m -> bj < n -> i < bheight b bi -> j < bwidth b bj ->
  ent (MH m n b') (offs (bheight b) bi + i) (offs (bwidth b) bj + j) = ent (b' bi bj) i j.
Proof.
  intros Hh Hw H1 H2 H3 H4.
  rewrite <- (ent_block m n b' bi bj i j); auto; [|rewrite Hh; auto|rewrite Hw; auto].
  rewrite (offs_ext (bheight b') (bheight b) bi) by (intros; apply Hh; lia).
  rewrite (offs_ext (bwidth b') (bwidth b) bj) by (intros; apply Hw; lia). reflexivity.
Qed.

(** To compare entries of block matrices it is enough to do so block by block. *)
Lemma feq_by_blocks m n (b : nat -> nat -> matrix) (f g : mat) :
  (forall bi bj i j, bi < m -> bj < n -> i < bheight b bi -> j < bwidth b bj ->
     f (offs (bheight b) bi + i) (offs (bwidth b) bj + j) =
     g (offs (bheight b) bi + i) (offs (bwidth b) bj + j)) ->
  feq (nrows (MH m n b)) (ncols (MH m n b)) f g.
Proof.
  intros H i j Hi Hj. rewrite nrows_MH in Hi. rewrite ncols_MH in Hj.
  destruct (locate_in _ _ _ Hi) as [bi [i' [_ [B1 [B2 B3]]]]].
  destruct (locate_in _ _ _ Hj) as [bj [j' [_ [C1 [C2 C3]]]]].
  subst i j. apply H; auto.
Qed.

(** * transpose *)

Lemma mtr_mmul3 p q (f g h : mat) i j :
  mtr (mmul p f (mmul q g h)) i j = mmul q (mtr h) (mmul p (mtr g) (mtr f)) i j.
Proof.
  rewrite mmul_tr. rewrite <- mmul_assoc. apply mmul_ext; auto.
  intros x _. apply mmul_tr.
Qed.

Lemma lr_transpose_spec (l : lowrank) : lr_wf l ->
  lr_wf (lr_transpose l) /\ l_r (lr_transpose l) = l_c l /\ l_c (lr_transpose l) = l_r l /\
  feq (l_c l) (l_r l) (lr_ent (lr_transpose l)) (mtr (lr_ent l)).
Proof.
  intros [W1 [W2 [W3 W4]]]. unfold lr_wf. cbn [lr_transpose lr_make l_r l_c l_U l_S l_V d_transpose d_r d_c].
  repeat split; auto.
  intros i j Hi Hj. unfold lr_ent.
  rewrite mtr_mmul3.
  cbn [lr_transpose lr_make l_U l_S l_V].
  replace (d_c (d_transpose (l_V l))) with (d_c (l_S l)) by (rewrite W3; reflexivity).
  replace (d_c (d_transpose (l_S l))) with (d_c (l_U l)) by (rewrite W2; reflexivity).
  apply mmul_ext.
  - intros x Hx. apply d_transpose_ent; [rewrite W4; auto|rewrite <- W3; auto].
  - intros x Hx. apply mmul_ext.
    + intros y Hy. apply d_transpose_ent; auto. rewrite <- W2; auto.
    + intros y Hy. apply d_transpose_ent; auto. rewrite W1; auto.
Qed.

Lemma transpose_spec (A : matrix) : wf A -> no_empty A ->
  exists B, transpose A = Ok B /\ wf B /\ no_empty B /\ nrows B = ncols A /\ ncols B = nrows A /\
    feq (ncols A) (nrows A) (ent B) (mtr (ent A)).
Proof.
  induction A as [d|l|m n b IH|r c]; intros Hwf Hne.
  - exists (MD (d_transpose d)). simpl. repeat split; auto. apply d_transpose_ent.
  - destruct (lr_transpose_spec l Hwf) as [W [E1 [E2 E3]]].
    exists (ML (lr_transpose l)). simpl transpose. simpl nrows. simpl ncols. simpl ent. simpl wf. simpl no_empty.
    repeat (split; auto).
  - destruct Hwf as [Hm [Hn Hb]]. simpl in Hne.
    destruct (collect_all m n (fun i j => transpose (b i j))) as [t Ht].
    { intros i j Hi Hj. destruct (IH i j) as [B [HB _]]; auto; [apply Hb; auto|eauto]. }
    assert (Hs : forall i j, i < m -> j < n ->
       wf (t i j) /\ no_empty (t i j) /\ nrows (t i j) = ncols (b i j) /\ ncols (t i j) = nrows (b i j) /\
       feq (ncols (b i j)) (nrows (b i j)) (ent (t i j)) (mtr (ent (b i j)))).
    { intros i j Hi Hj. pose proof (collect_spec _ _ _ _ Ht i j Hi Hj) as E.
      destruct (IH i j) as [B [HB H]]; auto; [apply Hb; auto|].
      cbv beta in E. rewrite HB in E. inversion E; subst. exact H. }
    exists (MH n m (fun i j => t j i)). simpl transpose. rewrite Ht. simpl bind.
    split; [reflexivity|].
    assert (Eh : forall j, j < n -> bheight (fun i j => t j i) j = bwidth b j).
    { intros j Hj. unfold bheight, bwidth. apply Hs; auto. }
    assert (Ew : forall i, i < m -> bwidth (fun i j => t j i) i = bheight b i).
    { intros i Hi. unfold bheight, bwidth. apply Hs; auto. }
    split; [|split; [|split; [|split]]].
    + split; [auto|split;[auto|]]. intros i j Hi Hj.
      destruct (Hs j i Hj Hi) as [W [_ [E1 [E2 _]]]].
      destruct (Hs 0 i Hm Hi) as [_ [_ [E3 _]]]. destruct (Hs j 0 Hj Hn) as [_ [_ [_ [E4 _]]]].
      destruct (Hb j i Hj Hi) as [_ [B1 B2]].
      split; auto. rewrite E1, E2, E3, E4. auto.
    + simpl. intros i j Hi Hj. apply Hs; auto.
    + rewrite nrows_MH, ncols_MH. apply offs_ext. auto.
    + rewrite nrows_MH, ncols_MH. apply offs_ext. auto.
    + assert (En : nrows (MH n m (fun i j => t j i)) = ncols (MH m n b)).
      { rewrite nrows_MH, ncols_MH. apply offs_ext. auto. }
      assert (Ec : ncols (MH n m (fun i j => t j i)) = nrows (MH m n b)).
      { rewrite nrows_MH, ncols_MH. apply offs_ext. auto. }
      rewrite <- En, <- Ec. apply ent_blocks. intros bi bj i j Hbi Hbj Hi Hj.
      rewrite Eh in Hi by auto. rewrite Ew in Hj by auto.
      destruct (Hb bj bi Hbj Hbi) as [_ [B1 B2]].
      destruct (Hs bj bi Hbj Hbi) as [_ [_ [_ [_ F]]]].
      rewrite F.
      2:{ rewrite B2. exact Hi. }
      2:{ rewrite B1. exact Hj. }
      unfold mtr.
      rewrite (offs_ext (bheight (fun i j => t j i)) (bwidth b) bi) by (intros; apply Eh; lia).
      rewrite (offs_ext (bwidth (fun i j => t j i)) (bheight b) bj) by (intros; apply Ew; lia).
      symmetry. apply ent_block; auto.
  - destruct Hne.
Qed.

Lemma transpose_ok_no_empty (A B : matrix) : transpose A = Ok B -> no_empty A.
Proof.
  revert B. induction A as [d|l|m n b IH|r c]; intros B H; simpl in *; auto; [|discriminate].
  intros i j Hi Hj. apply bind_Ok in H. destruct H as [t [Ht _]].
  eapply IH. eapply collect_spec in Ht; eauto.
Qed.

(** * operator*= *)

Lemma lr_scale_spec (l : lowrank) b : lr_wf l ->
  lr_wf (lr_scale l b) /\ feq (l_r l) (l_c l) (lr_ent (lr_scale l b)) (mscale b (lr_ent l)).
Proof.
  intros [W1 [W2 [W3 W4]]]. unfold lr_wf. simpl. repeat split; auto.
  intros i j Hi Hj. unfold lr_ent, mscale. simpl.
  rewrite <- mmul_scale_r. apply mmul_ext; auto. intros x Hx.
  unfold mscale. rewrite <- mmul_scale_l. apply mmul_ext; auto. intros y Hy.
  apply d_scale_ent; auto. rewrite <- W2; auto.
Qed.

Lemma scale_spec (A : matrix) a : wf A -> no_empty A ->
  exists B, scale A a = Ok B /\ wf B /\ no_empty B /\ nrows B = nrows A /\ ncols B = ncols A /\
    feq (nrows A) (ncols A) (ent B) (mscale a (ent A)).
Proof.
  induction A as [d|l|m n b IH|r c]; intros Hwf Hne.
  - exists (MD (d_scale d a)). simpl. repeat split; auto. apply d_scale_ent.
  - destruct (lr_scale_spec l a Hwf) as [W E].
    exists (ML (lr_scale l a)). repeat split; auto; try apply W.
  - pose proof Hwf as [Hm [Hn Hb]]. simpl in Hne.
    destruct (collect_all m n (fun i j => scale (b i j) a)) as [t Ht].
    { intros i j Hi Hj. destruct (IH i j) as [B [HB _]]; auto; [apply Hb; auto|eauto]. }
    assert (Hs : forall i j, i < m -> j < n ->
       wf (t i j) /\ no_empty (t i j) /\ nrows (t i j) = nrows (b i j) /\ ncols (t i j) = ncols (b i j) /\
       feq (nrows (b i j)) (ncols (b i j)) (ent (t i j)) (mscale a (ent (b i j)))).
    { intros i j Hi Hj. pose proof (collect_spec _ _ _ _ Ht i j Hi Hj) as E.
      destruct (IH i j) as [B [HB H]]; auto; [apply Hb; auto|].
      cbv beta in E. rewrite HB in E. inversion E; subst. exact H. }
    destruct (blockwise m n b t (fun _ _ f => f) Hwf) as [W [E1 [E2 [E3 E4]]]].
    { intros i j Hi Hj. destruct (Hs i j Hi Hj) as [A1 [_ [A2 [A3 _]]]]. auto. }
    exists (MH m n t). simpl scale. rewrite Ht. simpl bind.
    repeat (split; auto). { simpl. intros; apply Hs; auto. }
    apply feq_by_blocks. intros bi bj i j Hbi Hbj Hi Hj.
    rewrite (ent_block_like m n b t) by auto. unfold mscale.
    rewrite ent_block by auto.
    destruct (wf_block _ _ _ bi bj Hwf Hbi Hbj) as [_ [B1 B2]].
    destruct (Hs bi bj Hbi Hbj) as [_ [_ [_ [_ F]]]]. apply F; [rewrite B1|rewrite B2]; auto.
  - destruct Hne.
Qed.

(** * Chains of ranges *)

(** [rs] consists of adjacent ranges with sizes [h 0], [h 1], ... *)
Definition chain (rs : list (nat * nat)) (h : nat -> nat) (len : nat) : Prop :=
  (forall i, i < length rs -> rg rs i = (offs h i, h i)) /\ offs h (length rs) = len.

Lemma nat_ranges_chain_from l : forall s e rs,
  (0 <= s)%Z -> adjacent_from s l e -> nat_ranges l = Ok rs ->
  (s <= e)%Z /\ length rs = length l /\
  exists h, (forall i, i < length rs -> rg rs i = (Z.to_nat s + offs h i, h i)) /\
            Z.to_nat s + offs h (length rs) = Z.to_nat e.
Proof.
  induction l as [|r l IH]; intros s e rs Hs Ha Hr.
  - simpl in *. inversion Hr; subst. split; [lia|]. split; auto.
    exists (fun _ => 0). split; [intros i Hi; simpl in Hi; lia|]. simpl. lia.
  - simpl in Ha. destruct Ha as [H1 H2]. unfold nat_ranges in Hr. simpl in Hr.
    apply bind_Ok in Hr. destruct Hr as [p [Hp Hr]].
    apply bind_Ok in Hr. destruct Hr as [rs' [Hrs Hr]]. inversion Hr; subst rs; clear Hr.
    destruct ((0 <=? ir_start r)%Z && (0 <=? ir_n r)%Z) eqn:E; [|discriminate].
    apply andb_true_iff in E. rewrite !Z.leb_le in E. inversion Hp; subst p; clear Hp.
    destruct (IH (s + ir_n r)%Z e rs') as [I1 [I2 [h [I3 I4]]]]; auto; [lia|].
    split; [lia|]. split; [simpl; lia|].
    exists (fun i => match i with O => Z.to_nat (ir_n r) | S i' => h i' end).
    assert (Hoffs : forall i, offs (fun i => match i with O => Z.to_nat (ir_n r) | S i' => h i' end) (S i)
                    = Z.to_nat (ir_n r) + offs h i).
    { induction i as [|i IHi]; [simpl; lia|].
      change (offs ?g (S (S i))) with (offs g (S i) + h i). rewrite IHi. simpl. lia. }
    split.
    + intros [|i] Hi.
      * unfold rg. simpl. rewrite H1. f_equal. lia.
      * unfold rg. simpl nth. fold (rg rs' i). rewrite I3 by (simpl in Hi; lia).
        rewrite Hoffs. f_equal. rewrite Z2Nat.inj_add by lia. lia.
    + simpl length. rewrite Hoffs. rewrite <- I4. rewrite Z2Nat.inj_add by lia. lia.
Qed.

Lemma nat_ranges_chain l n rs :
  adjacent_from 0 l (Z.of_nat n) -> nat_ranges l = Ok rs ->
  length rs = length l /\ exists h, chain rs h n.
Proof.
  intros Ha Hr. destruct (nat_ranges_chain_from l 0 _ rs ltac:(lia) Ha Hr) as [_ [H2 [h [H3 H4]]]].
  split; auto. exists h. split; auto. simpl in H4. lia.
Qed.

Lemma chain_fit rs h len : chain rs h len -> ranges_fit rs len = true.
Proof.
  intros [H1 H2]. unfold ranges_fit. apply forallb_forall. intros x Hx.
  apply In_nth with (d := (0, 0)) in Hx. destruct Hx as [i [Hi E]].
  fold (rg rs i) in E. rewrite H1 in E by auto. subst x. simpl. apply Nat.leb_le.
  rewrite <- H2. apply (offs_lt h i (length rs)). auto.
Qed.

Lemma nat_ranges_nth l rs : nat_ranges l = Ok rs -> forall i, i < length rs ->
  rg rs i = (Z.to_nat (ir_start (nth i l (IR 0 0))), Z.to_nat (ir_n (nth i l (IR 0 0)))) /\
  (0 <= ir_start (nth i l (IR 0 0)))%Z /\ (0 <= ir_n (nth i l (IR 0 0)))%Z.
Proof.
  intros H i Hi. unfold nat_ranges in H. apply mapM_Forall2 in H.
  assert (Hl : length l = length rs) by (eapply Forall2_len; eauto).
  assert (Hn : nth_error l i = Some (nth i l (IR 0 0))) by (apply nth_error_nth'; lia).
  destruct (Forall2_nth_error _ _ _ _ _ H Hn) as [p [Hp1 Hp2]].
  apply ub_Ok in Hp2. destruct Hp2 as [Hp2 Hp3]. apply andb_true_iff in Hp2. rewrite !Z.leb_le in Hp2.
  unfold rg. rewrite (nth_error_nth _ _ _ Hp1). inversion Hp3. tauto.
Qed.

Lemma nat_ranges_ok l : all_nonneg l -> (forall r, In r l -> (0 <= ir_start r)%Z) ->
  exists rs, nat_ranges l = Ok rs.
Proof.
  induction l as [|r l IH]; intros Hn Hs; [unfold nat_ranges; simpl; eauto|].
  inversion Hn; subst. destruct IH as [rs Hrs]; auto; [intros; apply Hs; right; auto|].
  unfold nat_ranges in *. simpl.
  assert (Hr : (0 <= ir_start r)%Z) by (apply Hs; left; auto).
  apply Z.leb_le in Hr. apply Z.leb_le in H1. rewrite Hr, H1. simpl. rewrite Hrs. simpl. eauto.
Qed.

Lemma adjacent_starts l : forall s e, adjacent_from s l e -> all_nonneg l -> (0 <= s)%Z ->
  forall r, In r l -> (0 <= ir_start r)%Z.
Proof.
  induction l as [|a l IH]; intros s e H Hn Hs r Hr; [destruct Hr|].
  simpl in H. destruct H as [H1 H2]. inversion Hn; subst.
  destruct Hr as [<-|Hr]; [lia|]. eapply IH; eauto. lia.
Qed.

(** * split *)

(** Entry-wise meaning of a split along chains. *)
Lemma split_dense_spec (A : dense) rs cs h w H :
  chain rs h (d_r A) -> chain cs w (d_c A) -> 0 < length rs -> 0 < length cs ->
  split_dense A rs cs = Ok H ->
  exists b, H = MH (length rs) (length cs) b /\ wf H /\ no_empty H /\
    (forall i j, i < length rs -> j < length cs ->
       b i j = MD (Dn (h i) (w j) (mwin (offs h i) (offs w j) (d_e A)))) /\
    nrows H = d_r A /\ ncols H = d_c A /\ feq (d_r A) (d_c A) (ent H) (d_e A).
Proof.
  intros Hr Hc Lr Lc HS. unfold split_dense in HS.
  apply ub_Ok in HS. destruct HS as [_ HS]. inversion HS; subst H; clear HS.
  eexists; split; [reflexivity|].
  set (b := fun i j => MD _).
  assert (Hb : forall i j, i < length rs -> j < length cs ->
       b i j = MD (Dn (h i) (w j) (mwin (offs h i) (offs w j) (d_e A)))).
  { intros i j Hi Hj. unfold b. destruct Hr as [Hr _]. destruct Hc as [Hc _].
    rewrite Hr, Hc by auto. reflexivity. }
  assert (Eh : forall i, i < length rs -> bheight b i = h i).
  { intros i Hi. unfold bheight. rewrite Hb by auto. reflexivity. }
  assert (Ew : forall j, j < length cs -> bwidth b j = w j).
  { intros j Hj. unfold bwidth. rewrite Hb by auto. reflexivity. }
  assert (En : nrows (MH (length rs) (length cs) b) = d_r A).
  { rewrite nrows_MH. rewrite (offs_ext _ h) by auto. apply Hr. }
  assert (Ec : ncols (MH (length rs) (length cs) b) = d_c A).
  { rewrite ncols_MH. rewrite (offs_ext _ w) by auto. apply Hc. }
  split; [|split; [|split; [|split; [|split]]]]; auto.
  - split; auto. split; auto. intros i j Hi Hj. rewrite (Hb i j), (Hb i 0), (Hb 0 j) by auto. simpl. auto.
  - simpl. intros i j Hi Hj. exact I.
  - rewrite <- En, <- Ec. apply feq_by_blocks. intros bi bj i j Hbi Hbj Hi Hj.
    rewrite ent_block by auto. rewrite Hb by auto. simpl. unfold mwin.
    rewrite (offs_ext (bheight b) h) by (intros; apply Eh; lia).
    rewrite (offs_ext (bwidth b) w) by (intros; apply Ew; lia). reflexivity.
Qed.

Lemma split_dense_ok (A : dense) rs cs h w :
  chain rs h (d_r A) -> chain cs w (d_c A) -> exists H, split_dense A rs cs = Ok H.
Proof.
  intros Hr Hc. unfold split_dense. rewrite (chain_fit _ _ _ Hr), (chain_fit _ _ _ Hc). simpl. eauto.
Qed.

Lemma chain_single rs h len : chain rs h len -> length rs = 1 -> h 0 = len.
Proof. intros [_ H] E. rewrite E in H. simpl in H. auto. Qed.

Lemma split_U_spec (U : dense) rs h :
  chain rs h (d_r U) -> 0 < length rs ->
  exists F, split_U U rs = Ok F /\
   forall i, i < length rs -> d_r (F i) = h i /\ d_c (F i) = d_c U /\
     feq (h i) (d_c U) (d_e (F i)) (mwin (offs h i) 0 (d_e U)).
Proof.
  intros Hr Lr. unfold split_U. destruct (Nat.ltb_spec 1 (length rs)) as [L|L].
  - rewrite (chain_fit _ _ _ Hr). eexists; split; [reflexivity|]. intros i Hi.
    destruct Hr as [Hr _]. rewrite Hr by auto. simpl. repeat split; auto.
  - assert (E : length rs = 1) by lia. eexists; split; [reflexivity|].
    intros i Hi. assert (i = 0) by lia. subst i. rewrite (chain_single _ _ _ Hr E).
    repeat split; auto.
Qed.

Lemma split_V_spec (V : dense) cs w :
  chain cs w (d_c V) -> 0 < length cs ->
  exists F, split_V V cs = Ok F /\
   forall j, j < length cs -> d_r (F j) = d_r V /\ d_c (F j) = w j /\
     feq (d_r V) (w j) (d_e (F j)) (mwin 0 (offs w j) (d_e V)).
Proof.
  intros Hr Lr. unfold split_V. destruct (Nat.ltb_spec 1 (length cs)) as [L|L].
  - rewrite (chain_fit _ _ _ Hr). eexists; split; [reflexivity|]. intros i Hi.
    destruct Hr as [Hr _]. rewrite Hr by auto. simpl. repeat split; auto.
  - assert (E : length cs = 1) by lia. eexists; split; [reflexivity|].
    intros i Hi. assert (i = 0) by lia. subst i. rewrite (chain_single _ _ _ Hr E).
    repeat split; auto.
Qed.

Lemma split_lr_spec (l : lowrank) rs cs h w :
  lr_wf l -> chain rs h (l_r l) -> chain cs w (l_c l) -> 0 < length rs -> 0 < length cs ->
  exists b, split_lr l rs cs = Ok (MH (length rs) (length cs) b) /\
    let H := MH (length rs) (length cs) b in
    wf H /\ no_empty H /\
    (forall i j, i < length rs -> j < length cs ->
       exists x, b i j = ML x /\ lr_wf x /\ l_r x = h i /\ l_c x = w j /\ l_S x = l_S l /\ l_eps x = 0%Q /\
         feq (h i) (w j) (lr_ent x) (mwin (offs h i) (offs w j) (lr_ent l))) /\
    nrows H = l_r l /\ ncols H = l_c l /\ feq (l_r l) (l_c l) (ent H) (lr_ent l).
Proof.
  intros [W1 [W2 [W3 W4]]] Hr Hc Lr Lc.
  destruct (split_U_spec (l_U l) rs h) as [FU [EU SU]]; [rewrite W1; auto|auto|].
  destruct (split_V_spec (l_V l) cs w) as [FV [EV SV]]; [rewrite W4; auto|auto|].
  unfold split_lr. rewrite EU. simpl bind. rewrite EV. simpl bind.
  eexists; split; [reflexivity|].
  set (b := fun i j => ML _). cbv zeta.
  assert (Hb : forall i j, i < length rs -> j < length cs ->
       exists x, b i j = ML x /\ lr_wf x /\ l_r x = h i /\ l_c x = w j /\ l_S x = l_S l /\ l_eps x = 0%Q /\
         feq (h i) (w j) (lr_ent x) (mwin (offs h i) (offs w j) (lr_ent l))).
  { intros i j Hi Hj. eexists; split; [reflexivity|].
    destruct (SU i Hi) as [U1 [U2 U3]]. destruct (SV j Hj) as [V1 [V2 V3]].
    unfold lr_wf. cbn [lr_make l_r l_c l_U l_S l_V l_eps].
    rewrite U1, U2, V1, V2. repeat split; auto.
    intros x y Hx Hy. unfold lr_ent, mwin. cbn [lr_make l_U l_S l_V]. rewrite U2.
    unfold mmul. apply sum_ext. intros z Hz. rewrite U3 by auto. unfold mwin. simpl. f_equal.
    apply sum_ext. intros t Ht. rewrite V3; auto. rewrite <- W3. auto. }
  assert (Eh : forall i, i < length rs -> bheight b i = h i).
  { intros i Hi. unfold bheight. destruct (Hb i 0 Hi Lc) as [x [-> [_ [E _]]]]. auto. }
  assert (Ew : forall j, j < length cs -> bwidth b j = w j).
  { intros j Hj. unfold bwidth. destruct (Hb 0 j Lr Hj) as [x [-> [_ [_ [E _]]]]]. auto. }
  assert (En : nrows (MH (length rs) (length cs) b) = l_r l).
  { rewrite nrows_MH. rewrite (offs_ext _ h) by auto. apply Hr. }
  assert (Ec : ncols (MH (length rs) (length cs) b) = l_c l).
  { rewrite ncols_MH. rewrite (offs_ext _ w) by auto. apply Hc. }
  split; [|split; [|split; [|split; [|split]]]]; auto.
  - split; auto. split; auto. intros i j Hi Hj.
    fold (bheight b i). fold (bwidth b j). rewrite Eh, Ew by auto.
    destruct (Hb i j Hi Hj) as [x [Ex [Wx [E1 [E2 _]]]]]. rewrite Ex. simpl. auto.
  - simpl. intros i j Hi Hj. exact I.
  - rewrite <- En, <- Ec. apply feq_by_blocks. intros bi bj i j Hbi Hbj Hi Hj.
    rewrite ent_block by auto.
    destruct (Hb bi bj Hbi Hbj) as [x [Ex [_ [_ [_ [_ [_ F]]]]]]]. rewrite Ex.
    rewrite Eh in Hi by auto. rewrite Ew in Hj by auto. simpl ent. rewrite F by auto.
    unfold mwin.
    rewrite (offs_ext (bheight b) h) by (intros; apply Eh; lia).
    rewrite (offs_ext (bwidth b) w) by (intros; apply Ew; lia). reflexivity.
Qed.

Lemma split_h_spec m n (b : nat -> nat -> matrix) rs cs H :
  wf (MH m n b) -> split_h m n b rs cs = Ok H ->
  length rs = m /\ length cs = n /\
  exists b', H = MH m n b' /\ (forall i j, i < m -> j < n ->
     b' i j = b i j /\ snd (rg rs i) = nrows (b i j) /\ snd (rg cs j) = ncols (b i j)) /\
  wf H /\ nrows H = nrows (MH m n b) /\ ncols H = ncols (MH m n b) /\
  feq (nrows H) (ncols H) (ent H) (ent (MH m n b)).
Proof.
  intros Hwf HS. unfold split_h in HS. apply abort_Ok in HS. destruct HS as [E HS].
  apply orb_false_iff in E. rewrite !negb_false_iff, !Nat.eqb_eq in E. destruct E as [E1 E2].
  split; auto. split; auto.
  apply bind_Ok in HS. destruct HS as [b' [Hb' HS]]. inversion HS; subst H; clear HS.
  assert (Hs : forall i j, i < m -> j < n -> b' i j = b i j /\ snd (rg rs i) = nrows (b i j) /\ snd (rg cs j) = ncols (b i j)).
  { intros i j Hi Hj. pose proof (collect_spec _ _ _ _ Hb' i j Hi Hj) as E.
    apply abort_Ok in E. destruct E as [Eb E].
    apply orb_false_iff in Eb. rewrite !negb_false_iff, !Nat.eqb_eq in Eb. inversion E. tauto. }
  exists b'. split; auto. split; auto.
  destruct (blockwise m n b b' (fun _ _ f => f) Hwf) as [W [N1 [N2 [N3 N4]]]].
  { intros i j Hi Hj. destruct (Hs i j Hi Hj) as [-> _].
    destruct (wf_block _ _ _ i j Hwf Hi Hj) as [Wb _]. auto. }
  repeat (split; auto). rewrite N1, N2. apply feq_by_blocks. intros bi bj i j Hbi Hbj Hi Hj.
  rewrite (ent_block_like m n b b') by auto. rewrite ent_block by auto.
  destruct (Hs bi bj Hbi Hbj) as [-> _]. reflexivity.
Qed.

(** Uniform ranges. *)
Lemma uniform_ranges n k rs : 0 < k ->
  nat_ranges (ir_split (IR 0 (Z.of_nat n)) (Z.of_nat k)) = Ok rs ->
  length rs = k /\ exists h, chain rs h n /\
   forall i, i < k -> Z.of_nat (h i) = ir_n (ir_split_child (IR 0 (Z.of_nat n)) (Z.of_nat k) (Z.of_nat i)).
Proof.
  intros Hk H.
  pose proof (ir_split_adjacent (IR 0 (Z.of_nat n)) (Z.of_nat k) ltac:(lia)) as Ha. simpl in Ha.
  destruct (nat_ranges_chain _ n rs Ha H) as [L [h C]].
  rewrite ir_split_length, Nat2Z.id in L. split; auto. exists h. split; auto.
  intros i Hi. destruct (nat_ranges_nth _ _ H i ltac:(lia)) as [E [E1 E2]].
  destruct C as [C _]. rewrite C in E by lia. inversion E as [[H1 H2]]. rewrite H2, Z2Nat.id by auto.
  now rewrite ir_split_nth by lia.
Qed.

Lemma like_ranges sizes n rs :
  nat_ranges (ir_split_like (IR 0 n) sizes) = Ok rs -> zsum sizes = Z.of_nat (Z.to_nat n) ->
  length rs = length sizes /\ exists h, chain rs h (Z.to_nat n) /\
   forall i, i < length sizes -> Z.of_nat (h i) = nth i sizes 0%Z.
Proof.
  intros H E. unfold ir_split_like in H.
  pose proof (ir_split_like_from_adjacent sizes 0) as Ha. simpl in Ha. rewrite E in Ha.
  destruct (nat_ranges_chain _ _ rs Ha H) as [L [h C]].
  assert (Ls : length (ir_split_like_from 0 sizes) = length sizes).
  { rewrite <- (map_length ir_n). rewrite ir_split_like_from_sizes. auto. }
  split; [congruence|]. exists h. split; auto.
  intros i Hi. destruct C as [C _]. rewrite <- (ir_split_like_from_sizes sizes 0).
  assert (Hi' : i < length rs) by lia. specialize (C i Hi').
  unfold nat_ranges in H. apply mapM_Forall2 in H.
  assert (Hn : nth_error (ir_split_like_from 0 sizes) i = Some (nth i (ir_split_like_from 0 sizes) (IR 0 0))).
  { apply nth_error_nth'. lia. }
  destruct (Forall2_nth_error _ _ _ _ _ H Hn) as [p [Hp1 Hp2]].
  apply ub_Ok in Hp2. destruct Hp2 as [Hp2 Hp3]. apply andb_true_iff in Hp2. rewrite !Z.leb_le in Hp2.
  inversion Hp3; subst p; clear Hp3.
  unfold rg in C. rewrite (nth_error_nth _ _ _ Hp1) in C. inversion C.
  rewrite Z2Nat.id by lia.
  symmetry. apply (map_nth ir_n _ (IR 0 0)).
Qed.

Lemma split_ranges_spec (A : matrix) rs cs h w H :
  wf A -> chain rs h (nrows A) -> chain cs w (ncols A) -> 0 < length rs -> 0 < length cs ->
  split_ranges A rs cs = Ok H -> split_of A H (length rs) (length cs) h w.
Proof.
  intros Hwf Hr Hc Lr Lc HS. unfold split_of. destruct A as [d|l|m n b|r c]; simpl in HS.
  - destruct (split_dense_spec d rs cs h w H Hr Hc Lr Lc HS) as [b [E [W [_ [Hb [E1 [E2 F]]]]]]].
    exists b. repeat (split; auto). all: rewrite Hb by auto; reflexivity.
  - destruct (split_lr_spec l rs cs h w Hwf Hr Hc Lr Lc) as [b [E K]]. rewrite E in HS.
    inversion HS; subst H. cbv zeta in K. destruct K as [W [_ [Hb [E1 [E2 F]]]]].
    exists b. repeat (split; auto); destruct (Hb i j H H0) as [x [-> [_ [X1 [X2 _]]]]]; auto.
  - destruct (split_h_spec m n b rs cs H Hwf HS) as [L1 [L2 [b' [E [Hb [W [E1 [E2 F]]]]]]]].
    subst m n. exists b'. repeat (split; auto); try (destruct (Hb i j H0 H1) as [-> [X1 X2]]).
    + rewrite <- X1. destruct Hr as [Hr _]. rewrite Hr; auto.
    + rewrite <- X2. destruct Hc as [Hc _]. rewrite Hc; auto.
    + rewrite <- E1, <- E2. auto.
  - discriminate.
Qed.

(** A sufficient condition for a split to succeed. *)
Lemma split_ranges_ok (A : matrix) rs cs h w :
  wf A -> no_empty A -> chain rs h (nrows A) -> chain cs w (ncols A) -> 0 < length rs -> 0 < length cs ->
  (forall m n b, A = MH m n b -> length rs = m /\ length cs = n /\
     (forall i, i < m -> h i = bheight b i) /\ (forall j, j < n -> w j = bwidth b j)) ->
  exists H, split_ranges A rs cs = Ok H.
Proof.
  intros Hwf Hne Hr Hc Lr Lc Hh. destruct A as [d|l|m n b|r c]; simpl.
  - eapply split_dense_ok; eauto.
  - destruct (split_lr_spec l rs cs h w Hwf Hr Hc Lr Lc) as [b [E K]]. eauto.
  - destruct (Hh m n b eq_refl) as [L1 [L2 [H1 H2]]]. unfold split_h.
    rewrite L1, L2, !Nat.eqb_refl. simpl.
    destruct (collect_all m n (fun i j =>
      if negb (snd (rg rs i) =? nrows (b i j)) || negb (snd (rg cs j) =? ncols (b i j))
      then Abort else Ok (b i j))) as [g Hg].
    + intros i j Hi Hj. destruct (wf_block _ _ _ i j Hwf Hi Hj) as [_ [E1 E2]].
      destruct Hr as [Hr _]. destruct Hc as [Hc _]. rewrite Hr, Hc by lia. simpl.
      rewrite H1, H2, E1, E2, !Nat.eqb_refl by auto. simpl. eauto.
    + rewrite Hg. simpl. eauto.
  - destruct Hne.
Qed.

Lemma split_spec (A : matrix) nr nc H : wf A -> 0 < nr -> 0 < nc -> split A nr nc = Ok H ->
  exists h w, split_of A H nr nc h w /\
   (forall i, i < nr -> Z.of_nat (h i) =
      ir_n (ir_split_child (IR 0 (Z.of_nat (nrows A))) (Z.of_nat nr) (Z.of_nat i))) /\
   (forall j, j < nc -> Z.of_nat (w j) =
      ir_n (ir_split_child (IR 0 (Z.of_nat (ncols A))) (Z.of_nat nc) (Z.of_nat j))).
Proof.
  intros Hwf Hr Hc HS. unfold split in HS.
  apply bind_Ok in HS. destruct HS as [rs [Hrs HS]]. apply bind_Ok in HS. destruct HS as [cs [Hcs HS]].
  destruct (uniform_ranges _ _ _ Hr Hrs) as [L1 [h [C1 Sh]]].
  destruct (uniform_ranges _ _ _ Hc Hcs) as [L2 [w [C2 Sw]]].
  exists h, w. split; [|auto]. rewrite <- L1, <- L2. apply (split_ranges_spec A rs cs); auto; lia.
Qed.

(** A uniform split of a Dense or LowRank succeeds if the ranges tile. *)
Lemma uniform_ok n k : 0 < k -> tiles (IR 0 (Z.of_nat n)) (ir_split (IR 0 (Z.of_nat n)) (Z.of_nat k)) ->
  exists rs, nat_ranges (ir_split (IR 0 (Z.of_nat n)) (Z.of_nat k)) = Ok rs.
Proof.
  intros Hk Ht.
  apply ir_split_tiles_iff in Ht; simpl; try lia.
  assert (Hn : all_nonneg (ir_split (IR 0 (Z.of_nat n)) (Z.of_nat k))).
  { apply ir_split_nonneg_iff; simpl; try lia. exact Ht. }
  apply nat_ranges_ok; auto.
  apply (adjacent_starts _ 0%Z (0 + Z.of_nat n)%Z); auto; [|lia].
  apply (ir_split_adjacent (IR 0 (Z.of_nat n)) (Z.of_nat k)). lia.
Qed.

Lemma split_uniform_ok (A : matrix) nr nc : wf A -> no_empty A -> (forall m n b, A <> MH m n b) -> 0 < nr -> 0 < nc ->
  tiles (IR 0 (Z.of_nat (nrows A))) (ir_split (IR 0 (Z.of_nat (nrows A))) (Z.of_nat nr)) ->
  tiles (IR 0 (Z.of_nat (ncols A))) (ir_split (IR 0 (Z.of_nat (ncols A))) (Z.of_nat nc)) ->
  exists H, split A nr nc = Ok H.
Proof.
  intros Hwf Hne Hnh Hr Hc T1 T2. unfold split.
  destruct (uniform_ok _ _ Hr T1) as [rs Hrs]. destruct (uniform_ok _ _ Hc T2) as [cs Hcs].
  rewrite Hrs. simpl bind. rewrite Hcs. simpl bind.
  destruct (uniform_ranges _ _ _ Hr Hrs) as [L1 [h [C1 _]]].
  destruct (uniform_ranges _ _ _ Hc Hcs) as [L2 [w [C2 _]]].
  apply split_ranges_ok with h w; auto; try lia.
  intros m n b E. exfalso. eapply Hnh; eauto.
Qed.

(** A Hierarchical is returned with the same blocks or the program aborts. *)
Lemma split_h_blocks m n (b : nat -> nat -> matrix) nr nc H :
  wf (MH m n b) -> 0 < nr -> 0 < nc -> split (MH m n b) nr nc = Ok H ->
  nr = m /\ nc = n /\ exists b', H = MH m n b' /\ forall i j, i < m -> j < n -> b' i j = b i j.
Proof.
  intros Hwf Hr Hc HS. unfold split in HS.
  apply bind_Ok in HS. destruct HS as [rs [Hrs HS]]. apply bind_Ok in HS. destruct HS as [cs [Hcs HS]].
  destruct (uniform_ranges _ _ _ Hr Hrs) as [L1 [h [C1 Sh]]].
  destruct (uniform_ranges _ _ _ Hc Hcs) as [L2 [w [C2 Sw]]].
  destruct (split_h_spec _ _ _ _ _ _ Hwf HS) as [E1 [E2 [b' [E [Hb _]]]]].
  split; [lia|]. split; [lia|]. exists b'. split; auto. intros i j Hi Hj. apply Hb; auto.
Qed.

(** ** split like *)

Lemma zsum_heights m (b : nat -> nat -> matrix) : zsum (heights m b) = Z.of_nat (offs (bheight b) m).
Proof.
  unfold heights. enough (G : forall k s, zsum (map (fun i => Z.of_nat (nrows (b i 0))) (seq s k)) =
    Z.of_nat (offs (bheight b) (s + k) - offs (bheight b) s)).
  { rewrite G. simpl. f_equal. lia. }
  induction k as [|k IH]; intros s; simpl.
  - rewrite Nat.add_0_r. lia.
  - rewrite IH. rewrite Nat.add_succ_r. rewrite Nat.add_succ_l.
    pose proof (offs_mono (bheight b) (S s) (S (s + k)) ltac:(lia)). simpl in *.
    unfold bheight in *. lia.
Qed.

Lemma zsum_widths n (b : nat -> nat -> matrix) : zsum (widths n b) = Z.of_nat (offs (bwidth b) n).
Proof.
  unfold widths. enough (G : forall k s, zsum (map (fun i => Z.of_nat (ncols (b 0 i))) (seq s k)) =
    Z.of_nat (offs (bwidth b) (s + k) - offs (bwidth b) s)).
  { rewrite G. simpl. f_equal. lia. }
  induction k as [|k IH]; intros s; simpl.
  - rewrite Nat.add_0_r. lia.
  - rewrite IH. rewrite Nat.add_succ_r. rewrite Nat.add_succ_l.
    pose proof (offs_mono (bwidth b) (S s) (S (s + k)) ltac:(lia)). simpl in *.
    unfold bwidth in *. lia.
Qed.

Lemma chain_ext rs h g len : chain rs h len -> (forall i, i < length rs -> h i = g i) -> chain rs g len.
Proof.
  intros [C1 C2] E. split.
  - intros i Hi. rewrite C1, E by auto. f_equal. apply offs_ext. intros; apply E; lia.
  - rewrite <- C2. symmetry. apply offs_ext. auto.
Qed.

Lemma like_rows m (b : nat -> nat -> matrix) len :
  len = offs (bheight b) m ->
  exists rs, nat_ranges (ir_split_like (IR 0 (Z.of_nat len)) (heights m b)) = Ok rs /\
    length rs = m /\ chain rs (bheight b) len.
Proof.
  intros E.
  assert (Hlen : length (heights m b) = m) by (unfold heights; now rewrite map_length, seq_length).
  assert (Hnn : Forall (fun z => (0 <= z)%Z) (heights m b)).
  { unfold heights. apply Forall_forall. intros x Hx. apply in_map_iff in Hx.
    destruct Hx as [y [<- _]]. lia. }
  assert (Hs : zsum (heights m b) = Z.of_nat len) by (rewrite zsum_heights, E; auto).
  destruct (nat_ranges_ok (ir_split_like (IR 0 (Z.of_nat len)) (heights m b))) as [rs Hrs].
  { apply ir_split_like_from_nonneg. auto. }
  { eapply adjacent_starts with (s := 0%Z); [apply ir_split_like_from_adjacent| |lia].
    apply ir_split_like_from_nonneg. auto. }
  exists rs. split; auto.
  destruct (like_ranges _ _ _ Hrs) as [L [h [C Hh]]]; [rewrite Nat2Z.id; auto|].
  rewrite Hlen in L. rewrite Nat2Z.id in C. split; auto.
  eapply chain_ext; eauto. intros i Hi. rewrite L in Hi. rewrite Hlen in Hh.
  apply Nat2Z.inj. rewrite Hh by auto. unfold heights.
  change 0%Z with (Z.of_nat 0) at 1.
  rewrite nth_indep with (d' := (fun i => Z.of_nat (nrows (b i 0))) 0) by (rewrite map_length, seq_length; auto).
  rewrite (map_nth (fun i => Z.of_nat (nrows (b i 0)))). rewrite seq_nth by auto. reflexivity.
Qed.

Lemma like_cols n (b : nat -> nat -> matrix) len :
  len = offs (bwidth b) n ->
  exists cs, nat_ranges (ir_split_like (IR 0 (Z.of_nat len)) (widths n b)) = Ok cs /\
    length cs = n /\ chain cs (bwidth b) len.
Proof.
  intros E.
  assert (Hlen : length (widths n b) = n) by (unfold widths; now rewrite map_length, seq_length).
  assert (Hnn : Forall (fun z => (0 <= z)%Z) (widths n b)).
  { unfold widths. apply Forall_forall. intros x Hx. apply in_map_iff in Hx.
    destruct Hx as [y [<- _]]. lia. }
  assert (Hs : zsum (widths n b) = Z.of_nat len) by (rewrite zsum_widths, E; auto).
  destruct (nat_ranges_ok (ir_split_like (IR 0 (Z.of_nat len)) (widths n b))) as [cs Hcs].
  { apply ir_split_like_from_nonneg. auto. }
  { eapply adjacent_starts with (s := 0%Z); [apply ir_split_like_from_adjacent| |lia].
    apply ir_split_like_from_nonneg. auto. }
  exists cs. split; auto.
  destruct (like_ranges _ _ _ Hcs) as [L [h [C Hh]]]; [rewrite Nat2Z.id; auto|].
  rewrite Hlen in L. rewrite Nat2Z.id in C. split; auto.
  eapply chain_ext; eauto. intros i Hi. rewrite L in Hi. rewrite Hlen in Hh.
  apply Nat2Z.inj. rewrite Hh by auto. unfold widths.
  rewrite nth_indep with (d' := (fun i => Z.of_nat (ncols (b 0 i))) 0) by (rewrite map_length, seq_length; auto).
  rewrite (map_nth (fun i => Z.of_nat (ncols (b 0 i)))). rewrite seq_nth by auto. reflexivity.
Qed.

Lemma split_like_inv (A : matrix) m n (b : nat -> nat -> matrix) H :
  split_like A m n b = Ok H ->
  nrows A = offs (bheight b) m /\ ncols A = offs (bwidth b) n /\
  exists rs cs, split_ranges A rs cs = Ok H /\ length rs = m /\ length cs = n /\
    chain rs (bheight b) (nrows A) /\ chain cs (bwidth b) (ncols A).
Proof.
  intros HS. unfold split_like in HS.
  apply assert_Ok in HS. destruct HS as [E1 HS]. apply assert_Ok in HS. destruct HS as [E2 HS].
  apply Nat.eqb_eq in E1. apply Nat.eqb_eq in E2. rewrite nrows_MH in E1. rewrite ncols_MH in E2.
  destruct (like_rows m b _ E1) as [rs [Hrs [L1 C1]]]. destruct (like_cols n b _ E2) as [cs [Hcs [L2 C2]]].
  rewrite Hrs in HS. simpl bind in HS. rewrite Hcs in HS. simpl bind in HS.
  repeat (split; auto). exists rs, cs. repeat (split; auto).
Qed.

Lemma split_like_spec (A : matrix) m n (b : nat -> nat -> matrix) H :
  wf A -> 0 < m -> 0 < n -> split_like A m n b = Ok H ->
  split_of A H m n (bheight b) (bwidth b).
Proof.
  intros Hwf Hm Hn HS.
  destruct (split_like_inv _ _ _ _ _ HS) as [E1 [E2 [rs [cs [HS' [L1 [L2 [C1 C2]]]]]]]].
  subst m n. apply (split_ranges_spec A rs cs); auto.
Qed.

Lemma split_like_ok (A : matrix) m n (b : nat -> nat -> matrix) :
  wf A -> no_empty A -> 0 < m -> 0 < n ->
  nrows A = offs (bheight b) m -> ncols A = offs (bwidth b) n ->
  (forall m' n' b', A = MH m' n' b' -> m' = m /\ n' = n /\
     (forall i, i < m -> bheight b i = bheight b' i) /\ (forall j, j < n -> bwidth b j = bwidth b' j)) ->
  exists H, split_like A m n b = Ok H.
Proof.
  intros Hwf Hne Hm Hn E1 E2 Hh. unfold split_like. rewrite nrows_MH, ncols_MH, E1, E2, !Nat.eqb_refl.
  destruct (like_rows m b (nrows A) E1) as [rs [Hrs [L1 C1]]].
  destruct (like_cols n b (ncols A) E2) as [cs [Hcs [L2 C2]]].
  rewrite <- E1, <- E2, Hrs. simpl bind. rewrite Hcs. simpl bind.
  apply split_ranges_ok with (bheight b) (bwidth b); auto; try lia.
  intros m' n' b' E. destruct (Hh _ _ _ E) as [F1 [F2 [F3 F4]]]. subst m' n'. repeat split; auto.
Qed.

(** A Dense split like a block matrix of the same size. *)
Lemma split_like_dense (B : dense) m n (b : nat -> nat -> matrix) :
  0 < m -> 0 < n -> d_r B = offs (bheight b) m -> d_c B = offs (bwidth b) n ->
  exists bh, split_like (MD B) m n b = Ok (MH m n bh) /\
    forall i j, i < m -> j < n ->
      bh i j = MD (Dn (bheight b i) (bwidth b j) (mwin (offs (bheight b) i) (offs (bwidth b) j) (d_e B))).
Proof.
  intros Hm Hn E1 E2.
  destruct (split_like_ok (MD B) m n b) as [H HH]; simpl; auto; [discriminate|].
  destruct (split_like_inv _ _ _ _ _ HH) as [_ [_ [rs [cs [HS' [L1 [L2 [C1 C2]]]]]]]].
  simpl in HS', C1, C2.
  destruct (split_dense_spec B rs cs _ _ H C1 C2 ltac:(lia) ltac:(lia) HS') as [bh [E [_ [_ [Hb _]]]]].
  rewrite L1, L2 in E, Hb. subst H. exists bh. auto.
Qed.

(** * Densification *)

Lemma fill_dense_from_spec (A : matrix) : forall B : dense, wf A -> d_r B = nrows A -> d_c B = ncols A ->
  exists C, fill_dense_from A B = Ok C /\ d_r C = nrows A /\ d_c C = ncols A /\
    feq (nrows A) (ncols A) (d_e C) (ent A).
Proof.
  induction A as [d|l|m n b IH|r c]; intros B Hwf Hr Hc.
  - simpl in *. rewrite Hr, Hc, !Nat.eqb_refl.
    destruct (d_copy_to_spec d B 0 0) as [C [E [E1 [E2 F]]]]; try lia.
    exists C. rewrite E, E1, E2, Hr, Hc. repeat split; auto. rewrite Hr, Hc in F. exact F.
  - destruct Hwf as [W1 [W2 [W3 W4]]]. simpl in *.
    destruct (dd_mul_ok (l_U l) (l_S l) 1%r false false W2) as [US HUS]. rewrite HUS. simpl bind.
    destruct (dd_mul_inv _ _ _ _ _ _ HUS) as [_ [U1 [U2 U3]]]. simpl in U1, U2, U3.
    destruct (dd_gemm_ok US (l_V l) B 1%r 0%r false false) as [C HC]; simpl; try congruence.
    exists C. destruct (dd_gemm_inv _ _ _ _ _ _ _ _ HC) as [_ [_ [_ [C1 [C2 C3]]]]].
    rewrite HC, C1, C2. simpl in C3. repeat split; auto.
    intros i j Hi Hj. rewrite C3. unfold mop, lr_ent.
    rewrite (mmul_ext (d_c US) (d_e US) (mmul (d_c (l_U l)) (d_e (l_U l)) (d_e (l_S l))) (d_e (l_V l)) (d_e (l_V l))).
    2:{ intros x Hx. rewrite U3. unfold mop. ring. }
    2:{ reflexivity. }
    rewrite mmul_assoc. rewrite U2. ring.
  - pose proof Hwf as [Hm [Hn Hb]]. rewrite nrows_MH in Hr. rewrite ncols_MH in Hc.
    destruct (split_like_dense B m n b Hm Hn Hr Hc) as [bh [Hs Hbh]].
    simpl fill_dense_from. rewrite Hs. simpl bind.
    assert (IH' : forall i j, i < m -> j < n -> exists x,
      match bh i j with MD bd => let* x := fill_dense_from (b i j) bd in Ok (MD x) | _ => Abort end = Ok (MD x)
      /\ d_r x = bheight b i /\ d_c x = bwidth b j /\ feq (bheight b i) (bwidth b j) (d_e x) (ent (b i j))).
    { intros i j Hi Hj. rewrite (Hbh i j Hi Hj).
      destruct (wf_block _ _ _ i j Hwf Hi Hj) as [W [E1 E2]].
      destruct (IH i j (Dn (bheight b i) (bwidth b j) (mwin (offs (bheight b) i) (offs (bwidth b) j) (d_e B))) W)
        as [x [X1 [X2 [X3 X4]]]]; simpl; auto.
      exists x. rewrite X1. simpl. rewrite <- E1, <- E2. auto. }
    match goal with |- context [collect m n ?f] => destruct (collect_all m n f) as [g Hg] end.
    { intros i j Hi Hj. destruct (IH' i j Hi Hj) as [x [X _]]. eauto. }
    rewrite Hg. simpl bind. eexists; split; [reflexivity|].
    assert (Gs : forall i j, i < m -> j < n -> exists x, g i j = MD x /\ d_r x = bheight b i /\ d_c x = bwidth b j
        /\ feq (bheight b i) (bwidth b j) (d_e x) (ent (b i j))).
    { intros i j Hi Hj. pose proof (collect_spec _ _ _ _ Hg i j Hi Hj) as E. cbv beta in E.
      destruct (IH' i j Hi Hj) as [x [X X']]. rewrite X in E. inversion E. exists x. auto. }
    unfold join. cbn [d_r d_c d_e]. repeat split; auto.
    assert (Gh : forall i, i < m -> bheight g i = bheight b i).
    { intros i Hi. unfold bheight at 1. destruct (Gs i 0 Hi Hn) as [x [-> [X _]]]. auto. }
    assert (Gw : forall j, j < n -> bwidth g j = bwidth b j).
    { intros j Hj. unfold bwidth at 1. destruct (Gs 0 j Hm Hj) as [x [-> [_ [X _]]]]. auto. }
    apply feq_by_blocks. intros bi bj i j Hbi Hbj Hi Hj.
    rewrite (ent_block_like m n b g) by auto. rewrite ent_block by auto.
    destruct (Gs bi bj Hbi Hbj) as [x [-> [_ [_ F]]]]. apply F; auto.
  - simpl in *. rewrite Hr, Hc, !Nat.eqb_refl. eexists; split; [reflexivity|].
    split; [auto|split;[auto|]]. rewrite <- Hr, <- Hc. apply d_fill_ent.
Qed.

Lemma densify_spec (A : matrix) : wf A ->
  exists C, densify A = Ok C /\ d_r C = nrows A /\ d_c C = ncols A /\
    feq (nrows A) (ncols A) (d_e C) (ent A).
Proof. intros Hwf. apply fill_dense_from_spec; auto. Qed.

(** * norm *)

Lemma fold_sum_app (g : nat * nat -> R) l a :
  fold_left (fun acc ij => (acc + g ij)%r) l a = (a + fold_left (fun acc ij => (acc + g ij)%r) l 0)%r.
Proof.
  revert a. induction l as [|x l IH]; intros a; simpl; [ring|].
  rewrite IH. rewrite (IH (0 + g x)%r). ring.
Qed.

Lemma fold_row (g : nat * nat -> R) i c a :
  fold_left (fun acc ij => (acc + g ij)%r) (map (fun j => (i, j)) (seq 0 c)) a = (a + sum c (fun j => g (i, j)))%r.
Proof.
  revert a. induction c as [|c IH]; intros a; [simpl; ring|].
  rewrite seq_S, map_app, fold_left_app, IH. simpl. ring.
Qed.

Lemma fold_all (g : nat * nat -> R) r c a :
  fold_left (fun acc ij => (acc + g ij)%r) (ij_all r c) a =
  (a + sum r (fun i => sum c (fun j => g (i, j))))%r.
Proof.
  unfold ij_all, ij_loop. induction r as [|r IH]; [simpl; ring|].
  rewrite seq_S, flat_map_app, fold_left_app, IH. simpl flat_map. rewrite app_nil_r, Nat.sub_0_r, fold_row.
  simpl. ring.
Qed.

Lemma d_norm_spec (A : dense) : d_norm A = sumsq (d_r A) (d_c A) (d_e A).
Proof.
  unfold d_norm. rewrite (fold_all (fun ij => (d_e A (fst ij) (snd ij) * d_e A (fst ij) (snd ij))%r)).
  simpl. unfold sumsq. ring.
Qed.

Lemma sumsq_ext r c (f g : mat) : feq r c f g -> sumsq r c f = sumsq r c g.
Proof. intros H. apply sum_ext. intros i Hi. apply sum_ext. intros j Hj. rewrite H; auto. Qed.

Lemma sumsq_offs (h w : nat -> nat) m n (f : mat) :
  sumsq (offs h m) (offs w n) f =
  sum m (fun bi => sum n (fun bj => sumsq (h bi) (w bj) (mwin (offs h bi) (offs w bj) f))).
Proof.
  unfold sumsq. rewrite sum_offs. apply sum_ext. intros bi Hbi.
  rewrite sum_swap with (n := n). apply sum_ext. intros i Hi. rewrite sum_offs. reflexivity.
Qed.

Lemma accum_sum n (f : nat -> outcome R) (v : nat -> R) a :
  (forall i, i < n -> f i = Ok (v i)) ->
  accum n (fun i acc => let* x := f i in Ok (acc + x)%r) a = Ok (a + sum n v)%r.
Proof.
  induction n as [|n IH]; intros H; simpl; [f_equal; ring|].
  rewrite IH by (intros; apply H; lia). simpl. rewrite H by lia. simpl. f_equal. ring.
Qed.

Lemma norm_spec (A : matrix) : wf A -> no_empty A -> norm A = Ok (sumsq (nrows A) (ncols A) (ent A)).
Proof.
  induction A as [d|l|m n b IH|r c]; intros Hwf Hne.
  - simpl. now rewrite d_norm_spec.
  - destruct (densify_spec (ML l) Hwf) as [C [E [E1 [E2 F]]]]. simpl norm. rewrite E. simpl bind.
    rewrite d_norm_spec, E1, E2. f_equal. apply sumsq_ext. exact F.
  - pose proof Hwf as [Hm [Hn Hb]]. simpl norm. rewrite nrows_MH, ncols_MH, sumsq_offs.
    set (v := fun i j => sumsq (bheight b i) (bwidth b j) (mwin (offs (bheight b) i) (offs (bwidth b) j) (ent (MH m n b)))).
    assert (Hv : forall i j, i < m -> j < n -> norm (b i j) = Ok (v i j)).
    { intros i j Hi Hj. destruct (wf_block _ _ _ i j Hwf Hi Hj) as [W [E1 E2]].
      rewrite IH; auto. f_equal. unfold v. rewrite E1, E2. apply sumsq_ext.
      intros x y Hx Hy. unfold mwin. symmetry. apply ent_block; auto. }
    assert (G : forall k a, k <= m ->
      accum k (fun i acc => accum n (fun j acc => let* x := norm (b i j) in Ok (acc + x)%r) acc) a =
      Ok (a + sum k (fun i => sum n (v i)))%r).
    { induction k as [|k IHk]; intros a Hk; simpl; [f_equal; ring|].
      rewrite IHk by lia. simpl bind.
      rewrite (accum_sum n (fun j => norm (b k j)) (v k)) by (intros; apply Hv; lia). f_equal. ring. }
    rewrite G by lia. f_equal. change (sum m (fun bi => sum n (fun bj => sumsq _ _ _))) with (sum m (fun i => sum n (v i))). ring.
  - destruct Hne.
Qed.

(** * Zeroing *)

Lemma d_eye_ent_gen (f : mat) k i j :
  fold_left (fun f i => upd f i i 1%r) (seq 0 k) f i j =
  if (i =? j) && (i <? k) then 1%r else f i j.
Proof.
  induction k as [|k IH].
  - simpl. rewrite andb_false_r. reflexivity.
  - rewrite seq_S, fold_left_app. simpl. unfold upd at 1.
    destruct (Nat.eqb_spec i k); destruct (Nat.eqb_spec j k); simpl.
    + subst. rewrite Nat.eqb_refl. destruct (Nat.ltb_spec k (S k)); [reflexivity|lia].
    + rewrite IH. subst. destruct (Nat.eqb_spec k j); [congruence|reflexivity].
    + rewrite IH. destruct (Nat.eqb_spec i j); [congruence|reflexivity].
    + rewrite IH. destruct (Nat.eqb_spec i j); simpl; auto.
      destruct (Nat.ltb_spec i k); destruct (Nat.ltb_spec i (S k)); auto; lia.
Qed.

Lemma zero_all_spec (A : matrix) : wf A -> no_empty A ->
  exists B, zero_all A = Ok B /\ wf B /\ no_empty B /\ nrows B = nrows A /\ ncols B = ncols A /\
    feq (nrows A) (ncols A) (ent B) mzero.
Proof.
  induction A as [d|l|m n b IH|r c]; intros Hwf Hne.
  - eexists; split; [reflexivity|]. repeat split; auto. apply d_fill_ent.
  - destruct Hwf as [W1 [W2 [W3 W4]]].
    eexists; split; [reflexivity|]. repeat split; auto.
    intros i j Hi Hj. simpl ent. unfold lr_ent. cbn [l_U l_S l_V].
    unfold mmul at 1. apply sum_zero'. intros x Hx.
    replace (mmul _ _ _ x j) with (0%r : R); [ring|]. symmetry. unfold mmul. apply sum_zero'.
    intros y Hy. rewrite d_fill_ent; [ring| |exact Hy].
    simpl in Hx. lia.
  - pose proof Hwf as [Hm [Hn Hb]]. simpl in Hne.
    destruct (collect_all m n (fun i j => zero_all (b i j))) as [t Ht].
    { intros i j Hi Hj. destruct (IH i j) as [B [HB _]]; auto; [apply Hb; auto|eauto]. }
    assert (Hs : forall i j, i < m -> j < n ->
       wf (t i j) /\ no_empty (t i j) /\ nrows (t i j) = nrows (b i j) /\ ncols (t i j) = ncols (b i j) /\
       feq (nrows (b i j)) (ncols (b i j)) (ent (t i j)) mzero).
    { intros i j Hi Hj. pose proof (collect_spec _ _ _ _ Ht i j Hi Hj) as E.
      destruct (IH i j) as [B [HB H]]; auto; [apply Hb; auto|].
      cbv beta in E. rewrite HB in E. inversion E; subst. exact H. }
    destruct (blockwise m n b t (fun _ _ f => f) Hwf) as [W [E1 [E2 [E3 E4]]]].
    { intros i j Hi Hj. destruct (Hs i j Hi Hj) as [A1 [_ [A2 [A3 _]]]]. auto. }
    exists (MH m n t). simpl zero_all. rewrite Ht. simpl bind.
    repeat (split; auto). { simpl. intros; apply Hs; auto. }
    apply feq_by_blocks. intros bi bj i j Hbi Hbj Hi Hj.
    rewrite (ent_block_like m n b t) by auto.
    destruct (wf_block _ _ _ bi bj Hwf Hbi Hbj) as [_ [B1 B2]].
    destruct (Hs bi bj Hbi Hbj) as [_ [_ [_ [_ F]]]]. apply (F i j); [rewrite B1|rewrite B2]; auto.
  - destruct Hne.
Qed.

Lemma offs_diag m n (b : nat -> nat -> matrix) :
  wf (MH m n b) ->
  (forall i, i < m -> i < n -> nrows (b i i) = ncols (b i i)) ->
  forall k, k <= m -> k <= n -> offs (bheight b) k = offs (bwidth b) k.
Proof.
  intros Hwf H k Hk1 Hk2. apply offs_ext. intros i Hi.
  destruct (wf_block _ _ _ i i Hwf) as [_ [E1 E2]]; try lia. rewrite <- E1, <- E2. apply H; lia.
Qed.

(** Row position against column position of two blocks of a layout with matching diagonal. *)
Lemma block_below m n (b : nat -> nat -> matrix) bi bj i j :
  wf (MH m n b) -> (forall i, i < m -> i < n -> nrows (b i i) = ncols (b i i)) ->
  bi < m -> bj < n -> bj < bi -> i < bheight b bi -> j < bwidth b bj ->
  offs (bwidth b) bj + j < offs (bheight b) bi + i.
Proof.
  intros Hwf Hd Hbi Hbj Hlt Hi Hj.
  pose proof (offs_lt (bwidth b) bj (S bj) ltac:(lia)) as H1.
  rewrite <- (offs_diag m n b Hwf Hd (S bj)) in H1 by lia.
  pose proof (offs_mono (bheight b) (S bj) bi ltac:(lia)). lia.
Qed.

Lemma block_right m n (b : nat -> nat -> matrix) bi bj i j :
  wf (MH m n b) -> (forall i, i < m -> i < n -> nrows (b i i) = ncols (b i i)) ->
  bi < m -> bj < n -> bi < bj -> i < bheight b bi -> j < bwidth b bj ->
  offs (bheight b) bi + i < offs (bwidth b) bj + j.
Proof.
  intros Hwf Hd Hbi Hbj Hlt Hi Hj.
  pose proof (offs_lt (bheight b) bi (S bi) ltac:(lia)) as H1.
  rewrite (offs_diag m n b Hwf Hd (S bi)) in H1 by lia.
  pose proof (offs_mono (bwidth b) (S bi) bj ltac:(lia)). lia.
Qed.

Lemma tri_ok_no_empty (A : matrix) : tri_ok A -> no_empty A.
Proof.
  induction A as [d|l|m n b IH|r c]; simpl; auto. intros [H1 H2] i j Hi Hj.
  destruct (Nat.eq_dec i j) as [->|]; [|auto]. apply IH. apply H1; auto.
Qed.

Lemma zero_lower_spec (A : matrix) : wf A -> tri_ok A ->
  exists B, zero_lower A = Ok B /\ wf B /\ nrows B = nrows A /\ ncols B = ncols A /\
    feq (nrows A) (ncols A) (ent B) (upper (ent A)).
Proof.
  induction A as [d|l|m n b IH|r c]; intros Hwf Ht.
  - eexists; split; [reflexivity|]. repeat split; auto. intros i j Hi Hj. simpl in *. unfold upper.
    destruct (Nat.ltb_spec j i).
    + rewrite loop_upd_in; auto; [apply ij_loop_nodup|]. apply in_ij_loop. lia.
    + rewrite loop_upd_out; auto. rewrite in_ij_loop. lia.
  - destruct Ht.
  - pose proof Hwf as [Hm [Hn Hb]]. destruct Ht as [Hd Ho].
    set (F := fun i j => if j <? i then zero_all (b i j) else if j =? i then zero_lower (b i j) else Ok (b i j)).
    assert (HF : forall i j, i < m -> j < n -> exists B, F i j = Ok B /\ wf B /\ nrows B = nrows (b i j) /\
       ncols B = ncols (b i j) /\ feq (nrows (b i j)) (ncols (b i j)) (ent B)
         (if j <? i then mzero else if j =? i then upper (ent (b i j)) else ent (b i j))).
    { intros i j Hi Hj. unfold F. destruct (Hb i j Hi Hj) as [W _].
      destruct (Nat.ltb_spec j i).
      - destruct (zero_all_spec (b i j)) as [B [E [E1 [_ [E2 [E3 E4]]]]]]; auto; [apply Ho; auto; lia|].
        exists B. auto.
      - destruct (Nat.eqb_spec j i).
        + subst. destruct (IH i i) as [B [E [E1 [E2 [E3 E4]]]]]; auto; [apply Hd; auto|]. exists B. auto.
        + exists (b i j). repeat split; auto. }
    destruct (collect_all m n F) as [t Ht].
    { intros i j Hi Hj. destruct (HF i j Hi Hj) as [B [HB _]]. eauto. }
    assert (Hs : forall i j, i < m -> j < n ->
       wf (t i j) /\ nrows (t i j) = nrows (b i j) /\ ncols (t i j) = ncols (b i j) /\
       feq (nrows (b i j)) (ncols (b i j)) (ent (t i j))
         (if j <? i then mzero else if j =? i then upper (ent (b i j)) else ent (b i j))).
    { intros i j Hi Hj. pose proof (collect_spec _ _ _ _ Ht i j Hi Hj) as E.
      destruct (HF i j Hi Hj) as [B [HB H]]. rewrite HB in E. inversion E; subst. exact H. }
    destruct (blockwise m n b t (fun _ _ f => f) Hwf) as [W [E1 [E2 [E3 E4]]]].
    { intros i j Hi Hj. destruct (Hs i j Hi Hj) as [A1 [A2 [A3 _]]]. auto. }
    exists (MH m n t). simpl zero_lower. fold F. rewrite Ht. simpl bind.
    repeat (split; auto).
    assert (Hd' : forall i, i < m -> i < n -> nrows (b i i) = ncols (b i i)) by (intros; apply Hd; auto).
    apply feq_by_blocks. intros bi bj i j Hbi Hbj Hi Hj.
    rewrite (ent_block_like m n b t) by auto. unfold upper. rewrite ent_block by auto.
    destruct (wf_block _ _ _ bi bj Hwf Hbi Hbj) as [_ [B1 B2]].
    destruct (Hs bi bj Hbi Hbj) as [_ [_ [_ F']]]. rewrite F' by (rewrite ?B1, ?B2; auto).
    destruct (Nat.ltb_spec bj bi) as [L|L].
    { pose proof (block_below m n b bi bj i j Hwf Hd' Hbi Hbj L Hi Hj) as K. apply Nat.ltb_lt in K.
      rewrite K. reflexivity. }
    destruct (Nat.eqb_spec bj bi) as [E|E].
    { subst bj. unfold upper. rewrite (offs_diag m n b Hwf Hd' bi) by lia.
      destruct (Nat.ltb_spec j i); destruct (Nat.ltb_spec (offs (bwidth b) bi + j) (offs (bwidth b) bi + i)); auto; lia. }
    pose proof (block_right m n b bi bj i j Hwf Hd' Hbi Hbj ltac:(lia) Hi Hj) as K.
    destruct (Nat.ltb_spec (offs (bwidth b) bj + j) (offs (bheight b) bi + i)); auto; lia.
  - destruct Ht.
Qed.

Lemma zero_upper_spec (A : matrix) : wf A -> tri_ok A ->
  exists B, zero_upper A = Ok B /\ wf B /\ nrows B = nrows A /\ ncols B = ncols A /\
    feq (nrows A) (ncols A) (ent B) (lower (ent A)).
Proof.
  induction A as [d|l|m n b IH|r c]; intros Hwf Ht.
  - eexists; split; [reflexivity|]. repeat split; auto. intros i j Hi Hj. simpl in *. unfold lower.
    destruct (Nat.ltb_spec i j).
    + rewrite loop_upd_in; auto; [apply ij_loop_nodup|]. apply in_ij_loop. lia.
    + rewrite loop_upd_out; auto. rewrite in_ij_loop. lia.
  - destruct Ht.
  - pose proof Hwf as [Hm [Hn Hb]]. destruct Ht as [Hd Ho].
    set (F := fun i j => if i <? j then zero_all (b i j) else if j =? i then zero_upper (b i j) else Ok (b i j)).
    assert (HF : forall i j, i < m -> j < n -> exists B, F i j = Ok B /\ wf B /\ nrows B = nrows (b i j) /\
       ncols B = ncols (b i j) /\ feq (nrows (b i j)) (ncols (b i j)) (ent B)
         (if i <? j then mzero else if j =? i then lower (ent (b i j)) else ent (b i j))).
    { intros i j Hi Hj. unfold F. destruct (Hb i j Hi Hj) as [W _].
      destruct (Nat.ltb_spec i j).
      - destruct (zero_all_spec (b i j)) as [B [E [E1 [_ [E2 [E3 E4]]]]]]; auto; [apply Ho; auto; lia|].
        exists B. auto.
      - destruct (Nat.eqb_spec j i).
        + subst. destruct (IH i i) as [B [E [E1 [E2 [E3 E4]]]]]; auto; [apply Hd; auto|]. exists B. auto.
        + exists (b i j). repeat split; auto. }
    destruct (collect_all m n F) as [t Ht].
    { intros i j Hi Hj. destruct (HF i j Hi Hj) as [B [HB _]]. eauto. }
    assert (Hs : forall i j, i < m -> j < n ->
       wf (t i j) /\ nrows (t i j) = nrows (b i j) /\ ncols (t i j) = ncols (b i j) /\
       feq (nrows (b i j)) (ncols (b i j)) (ent (t i j))
         (if i <? j then mzero else if j =? i then lower (ent (b i j)) else ent (b i j))).
    { intros i j Hi Hj. pose proof (collect_spec _ _ _ _ Ht i j Hi Hj) as E.
      destruct (HF i j Hi Hj) as [B [HB H]]. rewrite HB in E. inversion E; subst. exact H. }
    destruct (blockwise m n b t (fun _ _ f => f) Hwf) as [W [E1 [E2 [E3 E4]]]].
    { intros i j Hi Hj. destruct (Hs i j Hi Hj) as [A1 [A2 [A3 _]]]. auto. }
    exists (MH m n t). simpl zero_upper. fold F. rewrite Ht. simpl bind.
    repeat (split; auto).
    assert (Hd' : forall i, i < m -> i < n -> nrows (b i i) = ncols (b i i)) by (intros; apply Hd; auto).
    apply feq_by_blocks. intros bi bj i j Hbi Hbj Hi Hj.
    rewrite (ent_block_like m n b t) by auto. unfold lower. rewrite ent_block by auto.
    destruct (wf_block _ _ _ bi bj Hwf Hbi Hbj) as [_ [B1 B2]].
    destruct (Hs bi bj Hbi Hbj) as [_ [_ [_ F']]]. rewrite F' by (rewrite ?B1, ?B2; auto).
    destruct (Nat.ltb_spec bi bj) as [L|L].
    { pose proof (block_right m n b bi bj i j Hwf Hd' Hbi Hbj L Hi Hj) as K. apply Nat.ltb_lt in K.
      rewrite K. reflexivity. }
    destruct (Nat.eqb_spec bj bi) as [E|E].
    { subst bj. unfold lower. rewrite (offs_diag m n b Hwf Hd' bi) by lia.
      destruct (Nat.ltb_spec i j); destruct (Nat.ltb_spec (offs (bwidth b) bi + i) (offs (bwidth b) bi + j)); auto; lia. }
    pose proof (block_below m n b bi bj i j Hwf Hd' Hbi Hbj ltac:(lia) Hi Hj) as K.
    destruct (Nat.ltb_spec (offs (bheight b) bi + i) (offs (bwidth b) bj + j)); auto; lia.
  - destruct Ht.
Qed.

End Proofs.
