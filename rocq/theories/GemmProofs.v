(** Correctness of operator+= and gemm. *)
From Coq Require Import List Arith ZArith QArith Lia Bool Ring_theory Ring Setoid Morphisms.
From Verif Require Import Prelude Ring MatFun MatSetoid Matrix MatOps MatSpec MatOpsProofs Gemm GemmSpec.
Import ListNotations.
Local Open Scope nat_scope.

Section Proofs.
Context {R : cring}.
Add Ring Rr : (cr_th R).
Notation dense := (dense R).
Notation lowrank := (lowrank R).
Notation matrix := (matrix R).
Notation mat := (mat R).

Ltac nx := split; [solve [assumption | congruence | exact I | simpl; auto]|].

(** * Layouts *)

Lemma same_layout_refl (A : matrix) : same_layout A A.
Proof. induction A; simpl; auto. Qed.

Lemma same_layout_trans (A : matrix) : forall B C, same_layout A B -> same_layout B C -> same_layout A C.
Proof.
  induction A as [d|l|m n b IH|r c]; intros [d'|l'|m' n' b'|r' c'] [d''|l''|m'' n'' b''|r'' c'']; simpl;
    intros H1 H2; try contradiction; try (intuition congruence).
  destruct H1 as [-> [-> H1]]. destruct H2 as [-> [-> H2]]. repeat split; auto.
  intros i j Hi Hj. eapply IH; eauto.
Qed.

Lemma same_layout_dims (A : matrix) : forall B, wf A -> same_layout A B ->
  nrows B = nrows A /\ ncols B = ncols A.
Proof.
  induction A as [d|l|m n b IH|r c]; intros [d'|l'|m' n' b'|r' c'] W H; simpl in H; try contradiction; auto.
  destruct H as [-> [-> H]]. destruct W as [Hm [Hn W]].
  split; simpl; apply offs_ext; intros i Hi; apply IH; auto; apply W; auto.
Qed.

Lemma same_layout_no_lr (A : matrix) : forall B, same_layout A B -> (no_lr A <-> no_lr B).
Proof.
  induction A as [d|l|m n b IH|r c]; intros [d'|l'|m' n' b'|r' c'] H; simpl in *; try contradiction; try tauto.
  destruct H as [-> [-> H]].
  split; intros Hn i j Hi Hj; apply (IH i j (b' i j)); auto.
Qed.

Lemma layout_dense d (C : matrix) : same_layout (MD d) C -> exists d', C = MD d' /\ d_r d' = d_r d /\ d_c d' = d_c d.
Proof. destruct C; simpl; try contradiction. intros [H1 H2]. eauto. Qed.

Lemma layout_blocks m n (b b' : nat -> nat -> matrix) : wf (MH m n b) ->
  (forall i j, i < m -> j < n -> wf (b' i j) /\ same_layout (b i j) (b' i j)) ->
  wf (MH m n b') /\ same_layout (MH m n b) (MH m n b') /\
  (forall i, i < m -> bheight b' i = bheight b i) /\ (forall j, j < n -> bwidth b' j = bwidth b j).
Proof.
  intros W H.
  destruct (blockwise m n b b' (fun _ _ f => f) W) as [W' [E1 [E2 [E3 E4]]]].
  { intros i j Hi Hj. destruct (H i j Hi Hj) as [Wb L]. split; auto.
    apply same_layout_dims; auto. apply (wf_block _ _ _ i j W Hi Hj). }
  split; auto. split; auto. simpl. repeat split; auto. apply H.
Qed.

(** * Closeness of results *)

Section Near.
Variable N : nearness R.
Notation near := (near N).

Definition rel (C : matrix) (f g : mat) : Prop :=
  near (nrows C) (ncols C) f g /\ (no_lr C -> feq (nrows C) (ncols C) f g).

Lemma rel_feq (C : matrix) f g : feq (nrows C) (ncols C) f g -> rel C f g.
Proof. intros H. split; auto. now apply near_feq. Qed.

Lemma rel_trans (C : matrix) f g h : rel C f g -> rel C g h -> rel C f h.
Proof.
  intros [H1 H2] [H3 H4]. split.
  - eapply near_trans; eauto.
  - intros HC. eapply feq_trans; eauto.
Qed.

Lemma rel_eq_r (C : matrix) f g g' : rel C f g -> feq (nrows C) (ncols C) g g' -> rel C f g'.
Proof. intros H1 H2. eapply rel_trans; [exact H1|]. now apply rel_feq. Qed.
Lemma rel_eq_l (C : matrix) f f' g : rel C f g -> feq (nrows C) (ncols C) f' f -> rel C f' g.
Proof. intros H1 H2. eapply rel_trans; [|exact H1]. now apply rel_feq. Qed.

Lemma rel_add (C : matrix) f g h : rel C f g -> rel C (madd f h) (madd g h).
Proof.
  intros [H1 H2]. split; [now apply near_add|]. intros HC. apply feq_add; auto. apply feq_refl.
Qed.

Lemma rel_layout (C C' : matrix) f g : wf C -> same_layout C C' -> rel C' f g -> rel C f g.
Proof.
  intros W L [H1 H2]. destruct (same_layout_dims C C' W L) as [E1 E2]. rewrite E1, E2 in *.
  split; auto. intros HC. apply H2. now apply (same_layout_no_lr C C' L).
Qed.

Lemma rel_dense d f g : rel (MD d) f g -> feq (d_r d) (d_c d) f g.
Proof. intros [_ H]. apply H. exact I. Qed.

(** Block by block. *)
Lemma rel_blocks m n (b : nat -> nat -> matrix) (f g : mat) : wf (MH m n b) ->
  (forall i j, i < m -> j < n ->
     rel (b i j) (mwin (offs (bheight b) i) (offs (bwidth b) j) f)
                 (mwin (offs (bheight b) i) (offs (bwidth b) j) g)) ->
  rel (MH m n b) f g.
Proof.
  intros W H. split.
  - rewrite nrows_MH, ncols_MH. apply near_blocks. intros i j Hi Hj.
    destruct (wf_block _ _ _ i j W Hi Hj) as [_ [E1 E2]]. rewrite <- E1, <- E2. apply H; auto.
  - intros HC. apply feq_by_blocks. intros bi bj i j Hbi Hbj Hi Hj.
    destruct (H bi bj Hbi Hbj) as [_ F].
    destruct (wf_block _ _ _ bi bj W Hbi Hbj) as [_ [E1 E2]].
    apply F; [apply HC; auto|lia|lia].
Qed.

(** A block matrix [b'] with the layout of [b], known block by block. *)
Lemma rel_collect m n (b b' : nat -> nat -> matrix) (g : mat) : wf (MH m n b) ->
  (forall i j, i < m -> j < n -> wf (b' i j) /\ same_layout (b i j) (b' i j) /\
     rel (b i j) (ent (b' i j)) (mwin (offs (bheight b) i) (offs (bwidth b) j) g)) ->
  wf (MH m n b') /\ same_layout (MH m n b) (MH m n b') /\ rel (MH m n b) (ent (MH m n b')) g.
Proof.
  intros W H.
  destruct (layout_blocks m n b b' W) as [W' [L [E1 E2]]].
  { intros i j Hi Hj. destruct (H i j Hi Hj) as [? [? _]]. auto. }
  split; auto. split; auto. apply rel_blocks; auto. intros i j Hi Hj.
  destruct (H i j Hi Hj) as [_ [_ Rl]]. eapply rel_eq_l; [exact Rl|].
  destruct (wf_block _ _ _ i j W Hi Hj) as [_ [D1 D2]]. rewrite D1, D2.
  intros x y Hx Hy. unfold mwin. apply ent_block_like; auto.
Qed.

(** * Factors *)

Definition dR (t : bool) (d : dense) : nat := if t then d_c d else d_r d.
Definition dC (t : bool) (d : dense) : nat := if t then d_r d else d_c d.
Definition oL (t : bool) (a : lowrank) : dense := if t then l_V a else l_U a.
Definition oR (t : bool) (a : lowrank) : dense := if t then l_U a else l_V a.

Lemma mul_inv (A B : dense) alpha tA tB (D : dense) :
  dd_mul A B alpha tA tB = Ok D ->
  dC tA A = dR tB B /\ d_r D = dR tA A /\ d_c D = dC tB B /\
  meq (d_e D) (mscale alpha (mmul (dC tA A) (mop tA (d_e A)) (mop tB (d_e B)))).
Proof.
  intros H. apply dd_mul_inv in H. destruct H as [H1 [H2 [H3 H4]]].
  repeat (split; [assumption|]). intros i j. apply H4.
Qed.

Lemma gemm_inv (A B C : dense) alpha beta tA tB (D : dense) :
  dd_gemm A B C alpha beta tA tB = Ok D ->
  dR tA A = d_r C /\ dC tA A = dR tB B /\ dC tB B = d_c C /\
  d_r D = d_r C /\ d_c D = d_c C /\
  meq (d_e D) (madd (mscale beta (d_e C)) (mscale alpha (mmul (dC tA A) (mop tA (d_e A)) (mop tB (d_e B))))).
Proof.
  intros H. apply dd_gemm_inv in H. destruct H as [H1 [H2 [H3 [H4 [H5 H6]]]]].
  repeat (split; [assumption|]). intros i j. apply H6.
Qed.

(** op(A) for a LowRank A as a product of three factors. *)
Lemma lr_op (t : bool) (a : lowrank) : lr_wf a ->
  exists k1 k2,
    dR t (oL t a) = opr t (ML a) /\ dC t (oL t a) = k1 /\ dR t (l_S a) = k1 /\
    dC t (l_S a) = k2 /\ dR t (oR t a) = k2 /\ dC t (oR t a) = opc t (ML a) /\
    meq (mop t (lr_ent a)) (mmul k1 (mop t (d_e (oL t a))) (mmul k2 (mop t (d_e (l_S a))) (mop t (d_e (oR t a))))).
Proof.
  intros [W1 [W2 [W3 W4]]]. destruct t.
  - exists (d_c (l_S a)), (d_c (l_U a)). unfold dR, dC, oL, oR, opr, opc, nrows, ncols. repeat (split; [congruence|]).
    intros i j. simpl. unfold lr_ent. apply mtr_mmul3.
  - exists (d_c (l_U a)), (d_c (l_S a)). unfold dR, dC, oL, oR, opr, opc, nrows, ncols. repeat (split; [congruence|]).
    intros i j. reflexivity.
Qed.

Lemma left_dims (t : bool) (a : lowrank) : d_r (lr_left t a) = dR t (oL t a) /\ d_c (lr_left t a) = dC t (oL t a) /\
  feq (dR t (oL t a)) (dC t (oL t a)) (d_e (lr_left t a)) (mop t (d_e (oL t a))).
Proof. destruct t; simpl; repeat split; try apply feq_refl. apply d_transpose_ent. Qed.
Lemma mid_dims (t : bool) (a : lowrank) : d_r (lr_mid t a) = dR t (l_S a) /\ d_c (lr_mid t a) = dC t (l_S a) /\
  feq (dR t (l_S a)) (dC t (l_S a)) (d_e (lr_mid t a)) (mop t (d_e (l_S a))).
Proof. destruct t; simpl; repeat split; try apply feq_refl. apply d_transpose_ent. Qed.
Lemma right_dims (t : bool) (a : lowrank) : d_r (lr_right t a) = dR t (oR t a) /\ d_c (lr_right t a) = dC t (oR t a) /\
  feq (dR t (oR t a)) (dC t (oR t a)) (d_e (lr_right t a)) (mop t (d_e (oR t a))).
Proof. destruct t; simpl; repeat split; try apply feq_refl. apply d_transpose_ent. Qed.

Lemma lr_make_spec (U S V : dense) (k1 k2 : nat) (f g h : mat) :
  d_c U = k1 -> d_r S = k1 -> d_c S = k2 -> d_r V = k2 ->
  feq (d_r U) k1 (d_e U) f -> feq k1 k2 (d_e S) g -> feq k2 (d_c V) (d_e V) h ->
  lr_wf (lr_make U S V) /\ feq (d_r U) (d_c V) (lr_ent (lr_make U S V)) (mmul k1 f (mmul k2 g h)).
Proof.
  intros H1 H2 H3 H4 F G H. unfold lr_wf, lr_ent. simpl.
  split; [repeat split; congruence|].
  rewrite H1, H3. apply feq_mul; auto. apply feq_mul; auto.
Qed.

(** * operator*= and operator+= *)

Lemma scale_inv (C : matrix) b C' : scale C b = Ok C' -> no_empty C.
Proof.
  revert C'. induction C as [d|l|m n c IH|r c]; intros C' H; simpl in *; auto; [|discriminate].
  intros i j Hi Hj. apply bind_Ok in H. destruct H as [t [Ht _]].
  eapply IH. eapply collect_spec in Ht; eauto.
Qed.

Lemma scale_layout (C : matrix) b : forall C', scale C b = Ok C' -> same_layout C C'.
Proof.
  induction C as [d|l|m n c IH|r c]; intros C' H; simpl in H.
  - inversion H; subst. simpl. auto.
  - inversion H; subst. simpl. auto.
  - apply bind_Ok in H. destruct H as [t [Ht H]]. inversion H; subst. simpl. repeat split; auto.
    intros i j Hi Hj. apply IH. apply (collect_spec _ _ _ _ Ht i j Hi Hj).
  - discriminate.
Qed.

Variable Or : oracles R.
Hypothesis HO : oracles_near N Or.

Lemma lr_acc_spec (a b c : lowrank) : lr_wf a -> lr_wf b -> lr_acc Or a b = Ok c ->
  l_r a = l_r b /\ l_c a = l_c b /\ lr_wf c /\ l_r c = l_r a /\ l_c c = l_c a /\
  near (l_r a) (l_c a) (lr_ent c) (madd (lr_ent a) (lr_ent b)).
Proof.
  intros Wa Wb H. unfold lr_acc in H.
  apply assert_Ok in H. destruct H as [H1 H]. apply assert_Ok in H. destruct H as [H2 H].
  apply Nat.eqb_eq in H1. apply Nat.eqb_eq in H2.
  destruct (on_add _ _ HO a b c Wa Wb H1 H2 H) as [W [E1 [E2 E3]]]. repeat (split; auto); apply W.
Qed.

Lemma d_add_lr_spec (a : dense) (b : lowrank) (c : dense) : lr_wf b -> d_add_lr a b = Ok c ->
  d_r a = l_r b /\ d_c a = l_c b /\ d_r c = d_r a /\ d_c c = d_c a /\
  meq (d_e c) (madd (d_e a) (lr_ent b)).
Proof.
  intros [W1 [W2 [W3 W4]]] H. unfold d_add_lr in H.
  apply bind_Ok in H. destruct H as [us [Hu H]].
  apply mul_inv in Hu. destruct Hu as [_ [U1 [U2 U3]]].
  apply gemm_inv in H. destruct H as [G1 [G2 [G3 [G4 [G5 G6]]]]].
  unfold dR, dC, mop in *. repeat (split; [congruence|]).
  rewrite G6, U3, !meq_scale_1, U2, meq_assoc. unfold lr_ent. reflexivity.
Qed.

(** Adding a LowRank. *)
Lemma madd_lr_spec (A : matrix) : forall (b : lowrank) C, wf A -> lr_wf b -> madd_to Or A (ML b) = Ok C ->
  nrows A = l_r b /\ ncols A = l_c b /\ wf C /\ same_layout A C /\
  rel A (ent C) (madd (ent A) (lr_ent b)).
Proof.
  induction A as [d|l|m n a IH|r c]; intros b C WA Wb H.
  - simpl in H. apply bind_Ok in H. destruct H as [c [Hc H]]. inversion H; subst C.
    destruct (d_add_lr_spec _ _ _ Wb Hc) as [E1 [E2 [E3 [E4 E5]]]].
    simpl. do 4 nx. apply rel_feq. apply meq_feq. exact E5.
  - simpl in H. apply bind_Ok in H. destruct H as [c [Hc H]]. inversion H; subst C.
    destruct (lr_acc_spec _ _ _ WA Wb Hc) as [E1 [E2 [E3 [E4 [E5 E6]]]]].
    simpl. do 4 nx. split; [exact E6|intros []].
  - simpl madd_to in H. apply bind_Ok in H. destruct H as [BH [HB H]].
    pose proof WA as [Hm [Hn Wb']].
    destruct (split_spec (ML b) m n BH Wb Hm Hn HB) as [h [w [HS _]]].
    destruct HS as [b' [-> [WH [Hd [Hr [Hc F]]]]]].
    assert (Hl : forall i j, i < m -> j < n -> exists l, b' i j = ML l).
    { unfold split in HB. apply bind_Ok in HB. destruct HB as [rs [_ HB]].
      apply bind_Ok in HB. destruct HB as [cs [_ HB]]. simpl in HB. unfold split_lr in HB.
      apply bind_Ok in HB. destruct HB as [UU [_ HB]]. apply bind_Ok in HB. destruct HB as [VV [_ HB]].
      inversion HB. intros i j _ _. eexists. reflexivity. }
    apply bind_Ok in H. destruct H as [c [Hcol H]]. inversion H; subst C; clear H.
    assert (G : forall i j, i < m -> j < n -> 
      bheight a i = bheight b' i /\ bwidth a j = bwidth b' j /\ wf (c i j) /\ same_layout (a i j) (c i j) /\
      rel (a i j) (ent (c i j)) (madd (ent (a i j)) (ent (b' i j)))).
    { intros i j Hi Hj. pose proof (collect_spec _ _ _ _ Hcol i j Hi Hj) as E. cbv beta in E.
      destruct (Hl i j Hi Hj) as [l El]. rewrite El in E.
      destruct (wf_block _ _ _ i j WA Hi Hj) as [W1 [D1 D2]].
      destruct (wf_block _ _ _ i j WH Hi Hj) as [W2 [D3 D4]].
      rewrite El in W2, D3, D4. simpl in W2, D3, D4.
      destruct (IH i j l (c i j) W1 W2 E) as [I1 [I2 [I3 [I4 I5]]]].
      rewrite El. do 2 nx. auto. }
    assert (Eh : forall k, k <= m -> offs (bheight a) k = offs (bheight b') k).
    { intros k Hk. apply offs_ext. intros i Hi. apply (G i 0); lia. }
    assert (Ew : forall k, k <= n -> offs (bwidth a) k = offs (bwidth b') k).
    { intros k Hk. apply offs_ext. intros i Hi. apply (G 0 i); lia. }
    assert (Er : nrows (MH m n a) = l_r b).
    { change (l_r b) with (nrows (ML b)). rewrite <- Hr, !nrows_MH. apply Eh. lia. }
    assert (Ec : ncols (MH m n a) = l_c b).
    { change (l_c b) with (ncols (ML b)). rewrite <- Hc, !ncols_MH. apply Ew. lia. }
    split; auto. split; auto.
    apply rel_collect; auto. intros i j Hi Hj.
    destruct (G i j Hi Hj) as [G1 [G2 [G3 [G4 G5]]]].
    split; auto. split; auto. eapply rel_eq_r; [exact G5|].
    destruct (wf_block _ _ _ i j WA Hi Hj) as [W1 [D1 D2]]. rewrite D1, D2.
    intros x y Hx Hy. unfold mwin, madd.
    rewrite ent_block by auto. f_equal.
    rewrite Eh, Ew by lia.
    assert (T1 : offs (bheight b') i + x < l_r b).
    { change (l_r b) with (nrows (ML b)). rewrite <- Hr, nrows_MH. pose proof (offs_lt (bheight b') i m Hi). lia. }
    assert (T2 : offs (bwidth b') j + y < l_c b).
    { change (l_c b) with (ncols (ML b)). rewrite <- Hc, ncols_MH. pose proof (offs_lt (bwidth b') j n Hj). lia. }
    rewrite <- (F _ _ T1 T2 : _ = lr_ent b _ _). rewrite ent_block; auto; lia.
  - simpl in H. discriminate.
Qed.

(** Addition of two matrices with equal dimensions. *)
Lemma d_add_inv (a b c : dense) : d_add a b = Ok c ->
  d_r c = d_r a /\ d_c c = d_c a /\ (0 < d_r a -> 0 < d_c a -> d_r a <= d_r b /\ d_c a <= d_c b) /\
  feq (d_r a) (d_c a) (d_e c) (madd (d_e a) (d_e b)).
Proof.
  unfold d_add. intros H. apply assert_Ok in H. destruct H as [H0 H]. inversion H; subst c; clear H. simpl.
  split; auto. split; auto. split.
  - intros P1 P2. apply orb_true_iff in H0. destruct H0 as [H0|H0].
    + apply orb_true_iff in H0. rewrite !Nat.eqb_eq in H0. lia.
    + apply andb_true_iff in H0. rewrite !Nat.leb_le in H0. lia.
  - intros i j Hi Hj. rewrite loop_all_in; auto. intros f g x y E. now rewrite E.
Qed.

Lemma offs_positive (h : nat -> nat) m : 0 < offs h m -> exists i, i < m /\ 0 < h i.
Proof.
  intros H. destruct (locate_in h m 0 H) as [b [r [_ [B1 [B2 _]]]]]. exists b. split; auto. lia.
Qed.

Lemma offs_le (h h' : nat -> nat) m : (forall i, i < m -> h i <= h' i) -> offs h m <= offs h' m.
Proof.
  induction m as [|m IH]; intros H; simpl; auto.
  assert (offs h m <= offs h' m) by (apply IH; intros; apply H; lia). specialize (H m). lia.
Qed.

Lemma madd_le (A : matrix) : forall B C, wf A -> wf B -> madd_to Or A B = Ok C ->
  0 < nrows A -> 0 < ncols A -> nrows A <= nrows B /\ ncols A <= ncols B.
Proof.
  induction A as [d|l|m n a IH|r c]; intros [d'|l'|m' n' b|r' c'] C WA WB H P1 P2; try discriminate.
  - simpl in H. apply bind_Ok in H. destruct H as [c [Hc H]]. apply d_add_inv in Hc. simpl. apply Hc; auto.
  - destruct (madd_lr_spec _ _ _ WA WB H) as [E1 [E2 _]]. simpl nrows at 2. simpl ncols at 2. lia.
  - destruct (madd_lr_spec _ _ _ WA WB H) as [E1 [E2 _]]. simpl nrows at 2. simpl ncols at 2. lia.
  - destruct (madd_lr_spec _ _ _ WA WB H) as [E1 [E2 _]]. simpl nrows at 2. simpl ncols at 2. lia.
  - simpl madd_to in H. apply assert_Ok in H. destruct H as [H0 H].
    apply andb_true_iff in H0. rewrite !Nat.leb_le in H0. destruct H0 as [Lm Ln].
    apply bind_Ok in H. destruct H as [c [Hc _]].
    rewrite nrows_MH in *. rewrite ncols_MH in *.
    destruct (offs_positive _ _ P1) as [i0 [Hi0 Pi0]]. destruct (offs_positive _ _ P2) as [j0 [Hj0 Pj0]].
    assert (G : forall i j, i < m -> j < n -> 0 < bheight a i -> 0 < bwidth a j ->
       bheight a i <= bheight b i /\ bwidth a j <= bwidth b j).
    { intros i j Hi Hj Pi Pj. pose proof (collect_spec _ _ _ _ Hc i j Hi Hj) as E. cbv beta in E.
      destruct (wf_block _ _ _ i j WA Hi Hj) as [W1 [D1 D2]].
      destruct (wf_block m' n' b i j WB) as [W2 [D3 D4]]; try lia.
      rewrite <- D1, <- D2, <- D3, <- D4. eapply IH; eauto; lia. }
    split.
    + transitivity (offs (bheight b) m); [|apply offs_mono; lia].
      apply offs_le. intros i Hi. destruct (Nat.eq_dec (bheight a i) 0) as [->|]; [lia|].
      apply (G i j0); auto. lia.
    + transitivity (offs (bwidth b) n); [|apply offs_mono; lia].
      apply offs_le. intros j Hj. destruct (Nat.eq_dec (bwidth a j) 0) as [->|]; [lia|].
      apply (G i0 j); auto. lia.
Qed.

Lemma offs_le_eq (h h' : nat -> nat) m m' : m <= m' -> (forall i, i < m -> h i <= h' i) -> offs h m = offs h' m' ->
  forall i, i < m -> h i = h' i.
Proof.
  intros Hm H E. assert (E' : offs h m = offs h' m).
  { pose proof (offs_le h h' m H). pose proof (offs_mono h' m m' Hm). lia. }
  clear E Hm. revert E' H. induction m as [|m IH]; intros E H i Hi; [lia|]. simpl in E.
  assert (A1 : offs h m <= offs h' m) by (apply offs_le; intros; apply H; lia).
  pose proof (H m ltac:(lia)).
  destruct (Nat.eq_dec i m) as [->|]; [lia|]. apply IH; try lia. intros; apply H; lia.
Qed.

Lemma madd_layout (A : matrix) : forall B C, wf A -> wf B -> madd_to Or A B = Ok C ->
  wf C /\ same_layout A C.
Proof.
  induction A as [d|l|m n a IH|r c]; intros [d'|l'|m' n' b|r' c'] C WA WB H; try discriminate;
    try (destruct (madd_lr_spec _ _ _ WA WB H) as [E1 [E2 [E3 [E4 E5]]]]; auto; fail).
  - simpl in H. apply bind_Ok in H. destruct H as [c [Hc H]]. inversion H; subst C. apply d_add_inv in Hc.
    destruct Hc as [C1 [C2 _]]. simpl. auto.
  - simpl madd_to in H. apply assert_Ok in H. destruct H as [H0 H].
    apply andb_true_iff in H0. rewrite !Nat.leb_le in H0. destruct H0 as [Lm Ln].
    apply bind_Ok in H. destruct H as [c [Hc H]]. inversion H; subst C; clear H.
    destruct (layout_blocks m n a c WA) as [W [L _]]; auto.
    intros i j Hi Hj. apply (IH i j (b i j)).
    + apply (wf_block _ _ _ i j WA Hi Hj).
    + apply (wf_block m' n' b i j WB); lia.
    + apply (collect_spec _ _ _ _ Hc i j Hi Hj).
Qed.

Lemma madd_spec (A : matrix) : forall B C, wf A -> wf B -> nrows A = nrows B -> ncols A = ncols B ->
  madd_to Or A B = Ok C -> rel A (ent C) (madd (ent A) (ent B)).
Proof.
  induction A as [d|l|m n a IH|r c]; intros [d'|l'|m' n' b|r' c'] C WA WB Er Ec H; try discriminate;
    try (destruct (madd_lr_spec _ _ _ WA WB H) as [E1 [E2 [E3 [E4 E5]]]]; exact E5).
  - simpl in H. apply bind_Ok in H. destruct H as [c [Hc H]]. inversion H; subst C. apply d_add_inv in Hc.
    destruct Hc as [C1 [C2 [_ F]]]. apply rel_feq. exact F.
  - simpl madd_to in H. apply assert_Ok in H. destruct H as [H0 H].
    apply andb_true_iff in H0. rewrite !Nat.leb_le in H0. destruct H0 as [Lm Ln].
    apply bind_Ok in H. destruct H as [c [Hc H]]. inversion H; subst C; clear H.
    destruct (Nat.eq_dec (nrows (MH m n a)) 0) as [Z1|Z1].
    { apply rel_feq. rewrite Z1. intros i j Hi. lia. }
    destruct (Nat.eq_dec (ncols (MH m n a)) 0) as [Z2|Z2].
    { apply rel_feq. rewrite Z2. intros i j Hi Hj. lia. }
    assert (G : forall i j, i < m -> j < n -> 0 < bheight a i -> 0 < bwidth a j ->
       bheight a i <= bheight b i /\ bwidth a j <= bwidth b j).
    { intros i j Hi Hj Pi Pj. pose proof (collect_spec _ _ _ _ Hc i j Hi Hj) as E. cbv beta in E.
      destruct (wf_block _ _ _ i j WA Hi Hj) as [W1 [D1 D2]].
      destruct (wf_block m' n' b i j WB) as [W2 [D3 D4]]; try lia.
      rewrite <- D1, <- D2, <- D3, <- D4. eapply madd_le; eauto; lia. }
    rewrite !nrows_MH in Er, Z1. rewrite !ncols_MH in Ec, Z2.
    destruct (offs_positive (bheight a) m) as [i0 [Hi0 Pi0]]; [lia|].
    destruct (offs_positive (bwidth a) n) as [j0 [Hj0 Pj0]]; [lia|].
    assert (Eh : forall i, i < m -> bheight a i = bheight b i).
    { apply (offs_le_eq _ _ m m'); auto. intros i Hi.
      destruct (Nat.eq_dec (bheight a i) 0) as [->|]; [lia|]. apply (G i j0); auto. lia. }
    assert (Ew : forall j, j < n -> bwidth a j = bwidth b j).
    { apply (offs_le_eq _ _ n n'); auto. intros j Hj.
      destruct (Nat.eq_dec (bwidth a j) 0) as [->|]; [lia|]. apply (G i0 j); auto. lia. }
    apply rel_collect; auto. intros i j Hi Hj.
    pose proof (collect_spec _ _ _ _ Hc i j Hi Hj) as E. cbv beta in E.
    destruct (wf_block _ _ _ i j WA Hi Hj) as [W1 [D1 D2]].
    destruct (wf_block m' n' b i j WB) as [W2 [D3 D4]]; try lia.
    destruct (madd_layout _ _ _ W1 W2 E) as [L1 L2]. split; auto. split; auto.
    eapply rel_eq_r; [apply (IH i j (b i j)); auto; [rewrite D1, D3; auto|rewrite D2, D4; auto]|].
    rewrite D1, D2. intros x y Hx Hy. unfold mwin, madd. rewrite ent_block by auto. f_equal.
    rewrite (offs_ext (bheight a) (bheight b) i) by (intros; apply Eh; lia).
    rewrite (offs_ext (bwidth a) (bwidth b) j) by (intros; apply Ew; lia).
    symmetry. apply ent_block; try lia; [rewrite <- Eh|rewrite <- Ew]; auto.
Qed.

Lemma acc_lr_spec (c x : lowrank) beta C' : lr_wf c -> lr_wf x -> acc_lr Or c beta x = Ok C' ->
  l_r c = l_r x /\ l_c c = l_c x /\ wf C' /\ same_layout (ML c) C' /\
  rel (ML c) (ent C') (madd (mscale beta (lr_ent c)) (lr_ent x)).
Proof.
  intros Wc Wx H. unfold acc_lr in H. apply bind_Ok in H. destruct H as [c' [Hc H]]. inversion H; subst C'.
  destruct (lr_scale_spec c beta Wc) as [Ws Es].
  destruct (lr_acc_spec _ _ _ Ws Wx Hc) as [E1 [E2 [E3 [E4 [E5 E6]]]]]. simpl in E1, E2, E4, E5, E6.
  do 4 nx. split; [|intros []].
  eapply near_trans; [exact E6|]. apply near_feq. apply feq_add; auto. apply feq_refl.
Qed.

Lemma acc_h_spec (C : matrix) (x : lowrank) beta C' : wf C -> lr_wf x -> acc_h Or C beta x = Ok C' ->
  nrows C = l_r x /\ ncols C = l_c x /\ wf C' /\ same_layout C C' /\
  rel C (ent C') (madd (mscale beta (ent C)) (lr_ent x)).
Proof.
  intros Wc Wx H. unfold acc_h in H. apply bind_Ok in H. destruct H as [C1 [H1 H]].
  destruct (scale_spec C beta Wc (scale_inv _ _ _ H1)) as [B [HB [WB [_ [D1 [D2 F]]]]]].
  rewrite H1 in HB. inversion HB; subst B.
  pose proof (scale_layout _ _ _ H1) as L1.
  destruct (madd_lr_spec C1 x C' WB Wx H) as [E1 [E2 [W' [L2 Rl]]]].
  split; [congruence|]. split; [congruence|]. split; auto. split; [eapply same_layout_trans; eauto|].
  eapply rel_eq_r; [apply (rel_layout C C1); eauto|]. apply feq_add; auto. apply feq_refl.
Qed.

(** * Block access *)

Definition oh (t : bool) (a : nat -> nat -> matrix) (i : nat) : nat := if t then bwidth a i else bheight a i.
Definition ow (t : bool) (a : nat -> nat -> matrix) (k : nat) : nat := if t then bheight a k else bwidth a k.

Lemma opr_MH (t : bool) m n (a : nat -> nat -> matrix) : opr t (MH m n a) = offs (oh t a) (dim0 t m n).
Proof. destruct t; reflexivity. Qed.
Lemma opc_MH (t : bool) m n (a : nat -> nat -> matrix) : opc t (MH m n a) = offs (ow t a) (dim1 t m n).
Proof. destruct t; reflexivity. Qed.

Lemma dims_pos (t : bool) m n (a : nat -> nat -> matrix) : wf (MH m n a) -> 0 < dim0 t m n /\ 0 < dim1 t m n.
Proof. intros [Hm [Hn _]]. destruct t; simpl; auto. Qed.

Lemma op_block (t : bool) m n (a : nat -> nat -> matrix) i k : wf (MH m n a) ->
  i < dim0 t m n -> k < dim1 t m n ->
  wf (opb t a i k) /\ opr t (opb t a i k) = oh t a i /\ opc t (opb t a i k) = ow t a k /\
  feq (oh t a i) (ow t a k) (mwin (offs (oh t a) i) (offs (ow t a) k) (mop t (ent (MH m n a))))
      (mop t (ent (opb t a i k))).
Proof.
  intros W Hi Hk. destruct t; cbn [dim0 dim1 opb opr opc oh ow mop] in *.
  - destruct (wf_block _ _ _ k i W Hk Hi) as [W1 [D1 D2]]. repeat (split; [assumption|]).
    intros x y Hx Hy. unfold mwin, mtr. apply ent_block; auto.
  - destruct (wf_block _ _ _ i k W Hi Hk) as [W1 [D1 D2]]. repeat (split; [assumption|]).
    intros x y Hx Hy. unfold mwin. apply ent_block; auto.
Qed.

Definition sum_products (K : nat) (tA tB : bool) (fA fB : nat -> matrix) : mat :=
  fun x y => sum K (fun k => mmul (opc tA (fA k)) (mop tA (ent (fA k))) (mop tB (ent (fB k))) x y).

(** Block (i,j) of op(A)*op(B). *)
Lemma product_block (tA tB : bool) am an a bm bn b i j :
  wf (MH am an a) -> wf (MH bm bn b) -> dim1 tA am an <= dim0 tB bm bn ->
  i < dim0 tA am an -> j < dim1 tB bm bn ->
  (forall k, k < dim1 tA am an -> ow tA a k = oh tB b k) ->
  feq (oh tA a i) (ow tB b j)
    (mwin (offs (oh tA a) i) (offs (ow tB b) j)
       (mmul (opc tA (MH am an a)) (mop tA (ent (MH am an a))) (mop tB (ent (MH bm bn b)))))
    (sum_products (dim1 tA am an) tA tB (fun k => opb tA a i k) (fun k => opb tB b k j)).
Proof.
  intros WA WB EK Hi Hj EI x y Hx Hy. unfold mwin at 1. rewrite opc_MH, mmul_offs. unfold sum_products.
  apply sum_ext. intros k Hk.
  destruct (op_block tA _ _ _ i k WA Hi Hk) as [_ [_ [D2 F1]]].
  assert (Hk' : k < dim0 tB bm bn) by lia.
  destruct (op_block tB _ _ _ k j WB Hk' Hj) as [_ [D3 [_ F2]]].
  rewrite D2. unfold mmul. apply sum_ext. intros z Hz. f_equal.
  - apply (F1 x z Hx Hz).
  - assert (EO : offs (ow tA a) k = offs (oh tB b) k) by (apply offs_ext; intros; apply EI; lia).
    rewrite EO. rewrite EI in Hz by auto. apply (F2 z y Hz Hy).
Qed.

(** Vector access of a block row or column. *)
Lemma hvec_col (t : bool) m n (a : nat -> nat -> matrix) i x : wf (MH m n a) -> dim1 t m n = 1 ->
  hvec m n a i = Ok x -> i < dim0 t m n /\ x = opb t a i 0.
Proof.
  intros [Hm [Hn _]] H1 H. unfold hvec in H. destruct t; cbn [dim0 dim1 opb] in *.
  - subst m. simpl in H. apply assert_Ok in H. destruct H as [H2 H]. apply Nat.ltb_lt in H2. inversion H. auto.
  - subst n. destruct (Nat.eqb_spec m 1).
    + apply assert_Ok in H. destruct H as [H2 H]. apply Nat.ltb_lt in H2. inversion H.
      assert (i = 0) by lia. subst. auto.
    + simpl in H. apply assert_Ok in H. destruct H as [H2 H]. apply Nat.ltb_lt in H2. inversion H. auto.
Qed.

Lemma hvec_row (t : bool) m n (a : nat -> nat -> matrix) j x : wf (MH m n a) -> dim0 t m n = 1 ->
  hvec m n a j = Ok x -> j < dim1 t m n /\ x = opb t a 0 j.
Proof.
  intros [Hm [Hn _]] H1 H. unfold hvec in H. destruct t; cbn [dim0 dim1 opb] in *.
  - subst n. destruct (Nat.eqb_spec m 1).
    + apply assert_Ok in H. destruct H as [H2 H]. apply Nat.ltb_lt in H2. inversion H.
      assert (j = 0) by lia. subst. auto.
    + simpl in H. apply assert_Ok in H. destruct H as [H2 H]. apply Nat.ltb_lt in H2. inversion H. auto.
  - subst m. simpl in H. apply assert_Ok in H. destruct H as [H2 H]. apply Nat.ltb_lt in H2. inversion H. auto.
Qed.

(** A split Dense has Dense blocks. *)
Lemma split_D (d : dense) nr nc H : 0 < nr -> 0 < nc -> split (MD d) nr nc = Ok H ->
  exists b, H = MH nr nc b /\ wf H /\ nrows H = d_r d /\ ncols H = d_c d /\
    feq (d_r d) (d_c d) (ent H) (d_e d) /\ (forall i j, exists x, b i j = MD x).
Proof.
  intros Hr Hc HS. destruct (split_spec (MD d) nr nc H I Hr Hc HS) as [h [w [[b [E [W [_ [D1 [D2 F]]]]]] _]]].
  exists b. subst H. repeat (split; auto); try apply W.
  unfold split in HS. apply bind_Ok in HS. destruct HS as [rs [_ HS]].
  apply bind_Ok in HS. destruct HS as [cs [_ HS]]. simpl in HS. unfold split_dense in HS.
  apply ub_Ok in HS. destruct HS as [_ HS]. inversion HS. intros i j. eexists. reflexivity.
Qed.

End Near.
End Proofs.
