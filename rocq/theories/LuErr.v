(** Block LU with low-rank arithmetic that truncates: how far the product of the factors is from
    the matrix. *)
From Coq Require Import List Arith ZArith QArith Lia Bool Reals Lra Ring_theory Ring.
From Verif Require Import Prelude Ring MatFun MatSetoid Matrix MatOps MatSpec MatOpsProofs Lapack Gemm GemmSpec GemmProofs
  GemmCorrect GemmTheorems Triangular TriAlgebra TriSpec TriProofs TriTheorems LuProofs LuCorrect Reflect ReflectSpec ReflectProofs
  QrBig QrTiled SvdRank Householder HouseQr HouseReal Rrqr RrqrRank EckartYoung FroNorm QrErrTile.
From Verif Require Import ReflectTile ReflectSuccess QrErrReal.
From Verif Require Spectral ConstructError TrmmErr.
Import ListNotations.
Local Open Scope R_scope.

Notation dense := (dense Rring).
Notation lowrank := (lowrank Rring).
Notation matrix := (matrix Rring).
Notation mat := (mat Rring).
Notation madd := (madd (R := Rring)).
Notation msub := (msub (R := Rring)).
Notation mmul := (mmul (R := Rring)).
Notation feq := (feq (R := Rring)).

(** ** Sums of errors *)

(** After n updates S (k+1) = S k - P k + error. *)
Lemma chain_bound r c (S P : nat -> mat) v w n : 0 <= v -> 0 <= w ->
  (forall k, (k < n)%nat -> fro r c (msub (S (Datatypes.S k)) (msub (S k) (P k))) <= v * (fro r c (S (Datatypes.S k)) + fro r c (P k)) + w) ->
  fro r c (msub (S 0%nat) (madd (S n) (fun i j => rsum n (fun k => P k i j)))) <=
  ((1 + v) ^ n - 1) * (fro r c (S n) + rsum n (fun k => fro r c (P k))) + w * rsum n (fun k => (1 + v) ^ k).
Proof.
  intros Hv Hw. induction n as [|n IH]; intros H.
  - rewrite fro_sub0; [cbn; lra|]. intros i j _ _. unfold MatFun.madd. cbn [sum]. rr.
  - specialize (IH ltac:(intros k Hk; apply H; lia)). pose proof (H n ltac:(lia)) as E.
    set (e := fro r c (msub (S (Datatypes.S n)) (msub (S n) (P n)))) in *.
    set (s := fro r c (S (Datatypes.S n))) in *. set (p := fro r c (P n)) in *. set (s0 := fro r c (S n)) in *.
    assert (A1 : fro r c (msub (S 0%nat) (madd (S (Datatypes.S n)) (fun i j => rsum (Datatypes.S n) (fun k => P k i j)))) <=
                 fro r c (msub (S 0%nat) (madd (S n) (fun i j => rsum n (fun k => P k i j)))) + e).
    { unfold e. rewrite (fro_swap r c (S (Datatypes.S n))). eapply Rle_trans; [|apply fro_triangle]. right. apply fro_ext.
      intros i j _ _. unfold MatFun.msub, MatFun.madd. cbn [sum]. rr. }
    assert (A2 : s0 <= s + p + e).
    { unfold s0. eapply Rle_trans; [apply (fro_dist r c (S n) (madd (S (Datatypes.S n)) (P n)))|].
      apply Rplus_le_compat; [apply fro_triangle|]. rewrite fro_swap. unfold e. right. apply fro_ext.
      intros i j _ _. unfold MatFun.msub, MatFun.madd. rr. }
    pose proof (pow_R1_Rle (1 + v) n ltac:(lra)) as K. set (q := (1 + v) ^ n) in *.
    set (Sg := rsum n (fun k => fro r c (P k))) in *. set (g := rsum n (fun k => (1 + v) ^ k)) in *.
    assert (E1 : rsum (Datatypes.S n) (fun k => fro r c (P k)) = Sg + p) by reflexivity.
    assert (E2 : rsum (Datatypes.S n) (fun k => (1 + v) ^ k) = g + q) by reflexivity.
    assert (E3 : (1 + v) ^ Datatypes.S n = (1 + v) * q) by reflexivity.
    rewrite E1, E2, E3. eapply Rle_trans; [exact A1|].
    assert (A3 : (q - 1) * (s0 + Sg) <= (q - 1) * ((1 + v) * (s + p) + w + Sg)) by (apply Rmult_le_compat_l; lra).
    assert (Sg0 : 0 <= Sg) by (apply sum_nonneg; intros; apply fro_nonneg).
    assert (A4 : 0 <= q * v * Sg) by (apply Rmult_le_pos; auto; apply Rmult_le_pos; lra).
    clearbody Sg g q s s0 p e. change (car Rring) with R in *. nra.
Qed.

(** Blocks. *)
Lemma fro_blocks_le h w m n u (f g : mat) : 0 <= u ->
  (forall i j, (i < m)%nat -> (j < n)%nat ->
     fro (h i) (w j) (mwin (offs h i) (offs w j) f) <= u * fro (h i) (w j) (mwin (offs h i) (offs w j) g)) ->
  fro (offs h m) (offs w n) f <= u * fro (offs h m) (offs w n) g.
Proof.
  intros Hu H. pose proof (fro_nonneg (offs h m) (offs w n) g) as P.
  unfold fro at 1. rewrite <- (sqrt_Rsqr (u * fro (offs h m) (offs w n) g)) by (apply Rmult_le_pos; auto).
  apply sqrt_le_1_alt. unfold Rsqr.
  replace (u * fro (offs h m) (offs w n) g * (u * fro (offs h m) (offs w n) g))
    with (u * u * (fro (offs h m) (offs w n) g * fro (offs h m) (offs w n) g)) by ring.
  rewrite fro_sq, !ConstructError.rsumsq_blocks, <- rsum_mul_l. apply sum_le. intros i Hi. rewrite <- rsum_mul_l. apply sum_le. intros j Hj.
  rewrite <- !fro_sq. pose proof (H i j Hi Hj) as B. pose proof (fro_nonneg (h i) (w j) (mwin (offs h i) (offs w j) f)) as P1.
  set (x := fro (h i) (w j) (mwin (offs h i) (offs w j) f)) in *. set (y := fro (h i) (w j) (mwin (offs h i) (offs w j) g)) in *.
  replace (u * u * (y * y)) with ((u * y) * (u * y)) by ring. apply Rmult_le_compat; auto.
Qed.

(** The matrix of the norms of the blocks. *)
Definition bnorm (h w : nat -> nat) (f : mat) : mat := fun i j => fro (h i) (w j) (mwin (offs h i) (offs w j) f).
Lemma bnorm_fro h w m n f : fro m n (bnorm h w f) = fro (offs h m) (offs w n) f.
Proof.
  unfold fro at 1 2. rewrite ConstructError.rsumsq_blocks. f_equal. unfold sumsq.
  apply (sum_ext (R := Rring)). intros i Hi. apply (sum_ext (R := Rring)). intros j Hj.
  exact (fro_sq (h i) (w j) (mwin (offs h i) (offs w j) f)).
Qed.

Lemma fro_const m n c : 0 <= c -> fro m n (fun _ _ => c : car Rring) = sqrt (INR m * INR n) * c.
Proof.
  intros Hc. unfold fro. replace (sumsq (R := Rring) m n (fun _ _ => c)) with ((INR m * INR n) * (c * c)).
  - rewrite sqrt_mult by (try (apply Rle_0_sqr); apply Rmult_le_pos; apply pos_INR). f_equal. apply sqrt_square. exact Hc.
  - unfold sumsq. rewrite (sum_ext (R := Rring) m _ (fun _ => INR n * (c * c))) by (intros; apply (rsum_const n (c * c))).
    rewrite (rsum_const m (INR n * (c * c))). cbn. ring.
Qed.

(** If every block of E is at most kappa times the sum of the norms of the products plus omega. *)
Lemma blocks_product_err h m kappa omega (E L U : mat) : 0 <= kappa -> 0 <= omega ->
  (forall p q, (p < m)%nat -> (q < m)%nat -> bnorm h h E p q <= kappa * rsum m (fun k => bnorm h h L p k * bnorm h h U k q) + omega) ->
  fro (offs h m) (offs h m) E <= kappa * (fro (offs h m) (offs h m) L * fro (offs h m) (offs h m) U) + INR m * omega.
Proof.
  intros Hk Ho H. rewrite <- !(bnorm_fro h h m m).
  set (l := bnorm h h L) in *. set (u := bnorm h h U) in *.
  assert (P0 : forall f p q, 0 <= bnorm h h f p q) by (intros; apply fro_nonneg).
  eapply Rle_trans; [apply (TrmmErr.fro_mono m m _ (madd (mscale (R := Rring) kappa (mmul m l u)) (fun _ _ => omega)))|].
  { intros i j Hi Hj. split; [apply P0|]. exact (H i j Hi Hj). }
  eapply Rle_trans; [apply fro_triangle|]. apply Rplus_le_compat.
  - eapply Rle_trans; [|apply Rmult_le_compat_l; [exact Hk|apply (fro_mul m m m l u)]].
    right. apply (TrmmErr.fro_scal m m kappa (mmul m l u) Hk).
  - rewrite fro_const by auto. right. f_equal. rewrite sqrt_square; [reflexivity|apply pos_INR].
Qed.

(** ** Adding a LowRank to a tree *)

(** Low-rank leaves of accuracy e with orthonormal left bases. *)
Fixpoint gtree (e : Q) (C : matrix) : Prop :=
  match C with
  | MD _ => True
  | ML l => good e (ML l)
  | MH m n c => forall i j, (i < m)%nat -> (j < n)%nat -> gtree e (c i j)
  | ME _ _ => False
  end.

Section Tree.
Variables (e : Q) (u : R) (nb : nat).
Hypothesis Hu : 0 <= u.
Variable Or : oracles Rring.
Hypothesis HS : oracles_shape Or.
Hypothesis HA : accurate e u 0 nb (no_compression Or).

Let HN : oracles_near (upto (call_error Or)) Or := shape_near_upto Or HS.

Lemma scale1_gtree (C : matrix) : forall C', wf C -> gtree e C -> scale C (1%r : car Rring) = Ok C' ->
  gtree e C'.
Proof.
  induction C as [d|l|m n c IH|r c]; intros C' W G H; simpl in H.
  - inversion H; subst. exact I.
  - inversion H; subst. apply good_scale1. exact G.
  - apply bind_Ok in H. destruct H as [t [Ht H]]. inversion H; subst C'; clear H.
    intros i j Hi Hj. pose proof (collect_spec _ _ _ _ Ht i j Hi Hj) as E. cbv beta in E.
    apply (IH i j); auto. apply (wf_block _ _ _ i j W Hi Hj).
  - discriminate.
Qed.

Lemma madd_err (C : matrix) : forall (x : lowrank) C', wf C -> lr_wf x -> gtree e C -> madd_to Or C (ML x) = Ok C' ->
  gtree e C' /\
  fro (nrows C) (ncols C) (msub (ent C') (madd (ent C) (lr_ent x))) <= u * fro (nrows C) (ncols C) (madd (ent C) (lr_ent x)).
Proof.
  induction C as [d|l|m n c IH|r c]; intros x C' W WX G H.
  - pose proof (madd_lr_spec _ Or HN _ _ _ W WX H) as [_ [_ [_ [L [_ F]]]]].
    destruct C'; simpl in L; try contradiction. split; [exact I|].
    rewrite fro_sub0; [apply Rmult_le_pos; auto; apply fro_nonneg|]. apply F. exact I.
  - pose proof (madd_lr_spec _ Or HN _ _ _ W WX H) as [D1 [D2 [_ [L _]]]].
    simpl in H. apply bind_Ok in H. destruct H as [c [Hc H]]. inversion H; subst C'; clear H.
    unfold lr_acc in Hc. apply assert_Ok in Hc. destruct Hc as [_ Hc]. apply assert_Ok in Hc. destruct Hc as [_ Hc].
    exact (ac_add _ _ _ _ _ HA _ _ _ W WX D1 D2 G Hc).
  - pose proof (madd_lr_spec _ Or HN _ _ _ W WX H) as [D1 [D2 [W' [L _]]]].
    simpl madd_to in H. apply bind_Ok in H. destruct H as [BH [HB H]].
    pose proof W as [Hm [Hn Wb']].
    destruct (split_spec (ML x) m n BH WX Hm Hn HB) as [h [w [HSp _]]].
    destruct HSp as [b' [-> [WH [Hd [Hr [Hc F]]]]]].
    assert (Hl : forall i j, (i < m)%nat -> (j < n)%nat -> exists l, b' i j = ML l).
    { unfold split in HB. apply bind_Ok in HB. destruct HB as [rs [_ HB]].
      apply bind_Ok in HB. destruct HB as [cs [_ HB]]. simpl in HB. unfold split_lr in HB.
      apply bind_Ok in HB. destruct HB as [UU [_ HB]]. apply bind_Ok in HB. destruct HB as [VV [_ HB]].
      inversion HB. intros i j _ _. eexists. reflexivity. }
    apply bind_Ok in H. destruct H as [c' [Hcol H]]. inversion H; subst C'; clear H.
    assert (G0 : forall i j, (i < m)%nat -> (j < n)%nat -> 
      bheight c i = bheight b' i /\ bwidth c j = bwidth b' j /\ wf (c' i j) /\ same_layout (c i j) (c' i j) /\ gtree e (c' i j) /\
      fro (nrows (c i j)) (ncols (c i j)) (msub (ent (c' i j)) (madd (ent (c i j)) (ent (b' i j)))) <=
      u * fro (nrows (c i j)) (ncols (c i j)) (madd (ent (c i j)) (ent (b' i j)))).
    { intros i j Hi Hj. pose proof (collect_spec _ _ _ _ Hcol i j Hi Hj) as E. cbv beta in E.
      destruct (Hl i j Hi Hj) as [l El]. rewrite El in E.
      destruct (wf_block _ _ _ i j W Hi Hj) as [W1 [E1 E2]].
      destruct (wf_block _ _ _ i j WH Hi Hj) as [W2 [E3 E4]].
      rewrite El in W2, E3, E4. simpl in W2, E3, E4.
      destruct (madd_lr_spec _ Or HN _ _ _ W1 W2 E) as [I1 [I2 [I3 [I4 _]]]].
      destruct (IH i j l (c' i j) W1 W2 (G i j Hi Hj) E) as [J1 J2].
      rewrite El. split; [lia|]. split; [lia|]. auto. }
    assert (Eh : forall k, (k <= m)%nat -> offs (bheight c) k = offs (bheight b') k).
    { intros k Hk. apply offs_ext. intros i Hi. apply (G0 i 0%nat); lia. }
    assert (Ew : forall k, (k <= n)%nat -> offs (bwidth c) k = offs (bwidth b') k).
    { intros k Hk. apply offs_ext. intros i Hi. apply (G0 0%nat i); lia. }
    split. { intros i j Hi Hj. apply (G0 i j Hi Hj). }
    destruct (same_layout_dims _ _ W L) as [N1 N2].
    assert (Eh' : forall k, (k <= m)%nat -> offs (bheight c) k = offs (bheight c') k).
    { intros k Hk. apply offs_ext. intros i Hi. unfold bheight. destruct (G0 i 0%nat ltac:(lia) ltac:(lia)) as [_ [_ [_ [L0 _]]]].
      destruct (same_layout_dims _ _ (proj1 (wf_block _ _ _ i 0%nat W ltac:(lia) ltac:(lia))) L0). congruence. }
    assert (Ew' : forall k, (k <= n)%nat -> offs (bwidth c) k = offs (bwidth c') k).
    { intros k Hk. apply offs_ext. intros i Hi. unfold bwidth. destruct (G0 0%nat i ltac:(lia) ltac:(lia)) as [_ [_ [_ [L0 _]]]].
      destruct (same_layout_dims _ _ (proj1 (wf_block _ _ _ 0%nat i W ltac:(lia) ltac:(lia))) L0). congruence. }
    rewrite nrows_MH, ncols_MH. apply fro_blocks_le; auto. intros i j Hi Hj.
    destruct (G0 i j Hi Hj) as [G1 [G2 [G3 [G4 [G5 G6]]]]].
    destruct (wf_block _ _ _ i j W Hi Hj) as [W1 [E1 E2]]. rewrite E1, E2 in G6.
    assert (X1 : feq (bheight c i) (bwidth c j) (mwin (offs (bheight c) i) (offs (bwidth c) j) (madd (ent (MH m n c)) (lr_ent x)))
                   (madd (ent (c i j)) (ent (b' i j)))).
    { intros r s Hr0 Hs. unfold mwin, MatFun.madd. rewrite ent_block by auto. f_equal.
      rewrite Eh, Ew by lia.
      assert (T1 : (offs (bheight b') i + r < l_r x)%nat).
      { change (l_r x) with (nrows (ML x)). rewrite <- Hr, nrows_MH. pose proof (offs_lt (bheight b') i m Hi). lia. }
      assert (T2 : (offs (bwidth b') j + s < l_c x)%nat).
      { change (l_c x) with (ncols (ML x)). rewrite <- Hc, ncols_MH. pose proof (offs_lt (bwidth b') j n Hj). lia. }
      rewrite <- (F _ _ T1 T2 : _ = lr_ent x _ _). rewrite ent_block; auto; lia. }
    assert (X2 : feq (bheight c i) (bwidth c j) (mwin (offs (bheight c) i) (offs (bwidth c) j) (ent (MH m n c'))) (ent (c' i j))).
    { intros r s Hr0 Hs. unfold mwin. rewrite Eh', Ew' by lia.
      destruct (same_layout_dims _ _ W1 G4) as [M1 M2]. destruct (wf_block _ _ _ i j W' Hi Hj) as [_ [E3 E4]].
      apply ent_block; auto; lia. }
    rewrite (fro_ext _ _ _ _ X1).
    rewrite (fro_ext _ _ (mwin (R := Rring) _ _ (msub _ _)) (msub (ent (c' i j)) (madd (ent (c i j)) (ent (b' i j))))); [exact G6|].
    intros r s Hr0 Hs. pose proof (X1 r s Hr0 Hs) as Y1. pose proof (X2 r s Hr0 Hs) as Y2. unfold mwin, MatFun.msub in *. rewrite Y1, Y2. reflexivity.
  - destruct G.
Qed.

(** One update of a tree by a product of two LowRank blocks. *)
Lemma gemm_tree_err fuel (a b : lowrank) (C C' : matrix) alpha : lr_wf a -> lr_wf b -> wf C -> gtree e C ->
  gemm Or fuel (ML a) (ML b) C alpha (1%r : car Rring) false false = Ok C' ->
  let X := madd (ent C) (prod alpha false false (ML a) (ML b)) in
  gtree e C' /\ fro (nrows C) (ncols C) (msub (ent C') X) <= u * fro (nrows C) (ncols C) X.
Proof.
  intros Wa Wb W G H X.
  destruct fuel as [|fuel]; [discriminate|].
  assert (TO : trans_ok false false (ML a) (ML b) C) by (destruct C; simpl; tauto).
  pose proof H as HD. apply (gemm_dims Or HS) in HD; auto. destruct HD as [D1 [D2 [D3 _]]].
  destruct C as [d|l|m n c|r c].
  - rewrite TrmmErr.gemm_flat_fuel in H by (simpl; auto).
    rewrite (gemm_into_dense Or (ML a) (ML b) d alpha _ false false I I) in H.
    apply (gemm_exact left_oracles left_oracles_near) in H; auto. destruct H as [_ [L V]].
    split; [destruct C'; simpl in L; try contradiction; exact I|].
    rewrite fro_sub0; [apply Rmult_le_pos; auto; apply fro_nonneg|].
    intros i j Hi Hj. rewrite (V i j Hi Hj). unfold gemm_value, X, prod, MatFun.madd, mscale. rr.
  - rewrite TrmmErr.gemm_flat_fuel in H by (simpl; auto).
    destruct (gemm_factor (ML a) (ML b) l alpha (1%r : car Rring) false false I I (fun z => z) Wa Wb W D1 D2 D3) as [x [WX [X1 [X2 [EX EG]]]]].
    rewrite EG in H. assert (H' : acc_lr (no_compression Or) l (1%r : car Rring) x = Ok C') by exact H.
    destruct (acc_err e u 0 nb (no_compression Or) HA l x C' W WX X1 X2 G H') as [_ [L [G' B]]].
    split. { destruct C'; simpl in L; try contradiction. exact G'. }
    assert (E : feq (l_r l) (l_c l) (madd (lr_ent l) (lr_ent x)) X).
    { unfold X. cbn [ent]. apply (feq_add (R := Rring)); [apply (feq_refl (R := Rring))|exact EX]. }
    cbn [nrows ncols]. rewrite <- (fro_ext _ _ _ _ E).
    rewrite <- (fro_feq_sub _ _ _ _ _ _ (feq_refl (R := Rring) _ _ (ent C')) E). exact B.
  - change (gemm_step Or (gemm Or fuel) (gemm_new Or fuel) (ML a) (ML b) (MH m n c) alpha (1%r : car Rring) false false = Ok C') in H.
    unfold gemm_step in H.
    apply assert_Ok in H. destruct H as [_ H]. apply assert_Ok in H. destruct H as [_ H]. apply assert_Ok in H. destruct H as [_ H].
    apply bind_Ok in H. destruct H as [s [Hs H]].
    destruct (lr_lr_times a b s alpha false false Wa Wb D2 Hs) as [WX [X1 [X2 FX]]]. cbv zeta in *.
    set (x := lr_make (lr_left false a) s (lr_right false b)) in *.
    unfold acc_h in H. apply bind_Ok in H. destruct H as [C1 [H1 H]].
    pose proof (scale_inv _ _ _ H1) as NE.
    destruct (scale_spec (MH m n c) (1%r : car Rring) W NE) as [C2 [H2 [W2 [_ [N1 [N2 F2]]]]]].
    rewrite H1 in H2. inversion H2; subst C2; clear H2.
    destruct (madd_err C1 x C' W2 WX (scale1_gtree _ _ W G H1) H) as [G' B].
    split; auto. rewrite N1, N2 in B.
    assert (E : feq (nrows (MH m n c)) (ncols (MH m n c)) (madd (ent C1) (lr_ent x)) X).
    { unfold X. apply (feq_add (R := Rring)).
      - eapply feq_trans; [exact F2|]. intros i j _ _. unfold mscale. rr.
      - rewrite <- D1, <- D3. exact FX. }
    rewrite <- (fro_ext _ _ _ _ E).
    rewrite <- (fro_feq_sub _ _ _ _ _ _ (feq_refl (R := Rring) _ _ (ent C')) E). exact B.
  - destruct G.
Qed.
End Tree.
