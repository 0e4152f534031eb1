(** Block LU of weakly admissible matrices and of flat block matrices with truncating low-rank
    arithmetic: the backward error. *)
From Coq Require Import List Arith ZArith QArith Lia Bool Reals Lra Ring_theory Ring.
From Verif Require Import Prelude Ring MatFun MatSetoid Matrix MatOps MatSpec MatOpsProofs Lapack Gemm GemmSpec GemmProofs
  GemmCorrect GemmTheorems Triangular TriAlgebra TriSpec TriProofs TriTheorems LuProofs LuCorrect Reflect ReflectSpec ReflectProofs
  ReflectTile ReflectSuccess QrBig QrTiled QrApply SvdRank Householder HouseQr HouseReal Rrqr RrqrRank EckartYoung FroNorm QrErrTile QrErrReal LuErr
  LuErrBlocks.
From Verif Require Spectral ConstructError TrmmErr.
Import ListNotations.
Local Open Scope R_scope.

(** LowRank blocks off the diagonal, at every level. *)
Fixpoint weak (A : matrix) : Prop :=
  match A with
  | MD _ => True
  | MH m n a => (forall i j, (i < m)%nat -> (j < n)%nat -> i <> j -> exists l, a i j = ML l) /\
                (forall i, (i < m)%nat -> weak (a i i))
  | _ => False
  end.

(** The largest of f 0, ..., f (n-1). *)
Fixpoint nmax (n : nat) (f : nat -> nat) : nat :=
  match n with O => 0%nat | S k => Nat.max (nmax k f) (f k) end.

Lemma nmax_ge n f i : (i < n)%nat -> (f i <= nmax n f)%nat.
Proof.
  induction n as [|n IH]; intros H; [lia|]. cbn [nmax]. destruct (Nat.eq_dec i n) as [->|]; [lia|].
  specialize (IH ltac:(lia)). lia.
Qed.
Lemma nmax_ext n f g : (forall i, (i < n)%nat -> f i = g i) -> nmax n f = nmax n g.
Proof. induction n as [|n IH]; intros H; cbn [nmax]; auto. rewrite IH by (intros; apply H; lia). rewrite H by lia. reflexivity. Qed.

(** The number of updates a block goes through at most. *)
Fixpoint updates (A : matrix) : nat :=
  match A with
  | MH m n a => (m - 1) + nmax m (fun i => updates (a i i))
  | _ => 0
  end.

Lemma weak_layout (A : matrix) : weak A -> tri_shape A -> forall B, same_layout A B -> weak B /\ updates B = updates A.
Proof.
  induction A as [d|l|m n a IH|r c]; intros HW TS [d'|l'|m' n' b|r' c'] H; simpl in H; try contradiction.
  - split; auto.
  - destruct H as [-> [-> H]]. destruct HW as [HW1 HW2]. destruct TS as [<- [_ TS]].
    assert (K : forall i, (i < m)%nat -> weak (b i i) /\ updates (b i i) = updates (a i i)) by (intros i Hi; apply IH; auto).
    split.
    + split.
      * intros i j Hi Hj Hij. destruct (HW1 i j Hi Hj Hij) as [l El]. pose proof (H i j Hi Hj) as X. rewrite El in X.
        destruct (b i j); simpl in X; try contradiction. eauto.
      * intros i Hi. apply K; auto.
    + cbn [updates]. f_equal. apply nmax_ext. intros i Hi. apply K; auto.
Qed.

Lemma weak_lu_shape (A : matrix) : weak A -> tri_shape A -> lu_shape A.
Proof.
  induction A as [d|l|m n a IH|r c]; intros HW TS; simpl in *; auto.
  destruct TS as [-> [H1 H2]]. destruct HW as [W1 W2]. split; auto. split; auto. split; [intros i Hi; apply IH; auto|].
  intros i j Hij Hj. destruct (W1 i j ltac:(lia) Hj ltac:(lia)) as [l ->]. destruct (W1 j i ltac:(lia) ltac:(lia) ltac:(lia)) as [l' ->].
  split; destruct (a i i); exact I.
Qed.

Section Weak.
Variables (e : Q) (u v : R) (nb : nat).
Hypothesis Hu : 0 <= u < 1.
Hypothesis Hv : u <= v * (1 - u).
Variable Or : oracles Rring.
Hypothesis HS : oracles_shape Or.
Hypothesis HA : accurate e u 0 nb (no_compression Or).
Variable rinv : R -> R.
Variable gfuel : nat.
Variable dgetrf : dense -> outcome (dense * (nat -> nat)).
Hypothesis HX : lu_contract (R := Rring) dgetrf.
Notation getrf := (getrf (R := Rring) rinv Or gfuel (no_exchange (R := Rring) dgetrf)).
Notation acc_gemm := (acc_gemm (R := Rring) Or gfuel).
Let N := upto (call_error Or).
Let HN : oracles_near N Or := shape_near_upto Or HS.

Lemma v_pos : 0 <= v.
Proof. destruct Hu as [U0 U1]. apply Rmult_le_reg_r with (1 - u); lra. Qed.

(** The error in terms of the result. *)
Lemma rel_result r c (f g : mat) : fro r c (msub f g) <= u * fro r c g -> fro r c (msub f g) <= v * fro r c f.
Proof.
  intros H. pose proof (fro_dist r c g f) as T. rewrite fro_swap in T. pose proof (fro_nonneg r c f) as P.
  set (x := fro r c (msub f g)) in *. set (y := fro r c g) in *. set (z := fro r c f) in *.
  assert (A1 : x * (1 - u) <= u * z).
  { assert (u * y <= u * (z + x)) by (apply Rmult_le_compat_l; lra). lra. }
  assert (A2 : u * z <= v * z * (1 - u)).
  { replace (v * z * (1 - u)) with (v * (1 - u) * z) by ring. apply Rmult_le_compat_r; auto. }
  apply Rmult_le_reg_r with (1 - u); lra.
Qed.

Lemma no_exchange_lu : lu_contract (R := Rring) (no_exchange (R := Rring) dgetrf).
Proof. intros A X p H E. apply no_exchange_ok in H. destruct H as [H _]. exact (HX A X p H E). Qed.

Theorem getrf_weak_err fuel : forall A L U, wf A -> tri_shape A -> weak A -> gtree e A -> udiag (R := Rring) rinv U ->
  getrf fuel A = Ok (L, U) -> let n := nrows A in
  fro n n (msub (ent A) (mmul n (ent L) (ent U))) <= ((1 + v) ^ updates A - 1) * (fro n n (ent L) * fro n n (ent U)).
Proof.
  induction fuel as [|fuel IH]; intros A L U W TS WK G HU H n; [discriminate|].
  assert (LS : lu_shape A) by (apply weak_lu_shape; auto).
  pose proof v_pos as V0.
  destruct A as [d|l|m n0 a|r c]; try destruct WK.
  - cbn [updates pow]. rewrite Rminus_diag_eq by reflexivity. rewrite Rmult_0_l.
    destruct (getrf_ok (R := Rring) N Or HN rinv gfuel dgetrf HX (S fuel) _ _ _ W LS HU H) as [_ [_ [_ [_ [_ [_ [_ [_ [_ Rl]]]]]]]]].
    apply rel_dense in Rl. cbn [tri_shape] in TS. rewrite <- TS in Rl. right. rewrite fro_swap. apply fro_sub0. exact Rl.
  - destruct TS as [<- [Hsq TS]].
    cbn [Triangular.getrf] in H. apply assert_Ok in H. destruct H as [_ H].
    apply bind_Ok in H. destruct H as [[Lb Ub] [HF H]]. inversion H; subst L U; clear H.
    set (D := nmax m (fun i => updates (a i i))).
    pose proof (fun c l u0 Wc Lc Uc => getrf_ok (R := Rring) N Or HN rinv gfuel dgetrf HX fuel c l u0 Wc Lc Uc) as Hrec.
    assert (Hchar := lu_char (R := Rring) rinv Or gfuel (getrf fuel) m a Lb Ub _ HF).
    assert (Hfl : forall p q, (p < m)%nat -> (q < m)%nat -> p <> q -> flat (a p q)).
    { intros p q Hp Hq Hpq. destruct (H0 p q) as [l ->]; auto. exact I. }
    pose proof (done_all Or HS rinv gfuel m a Lb Ub (getrf fuel) W LS Hrec HU Hchar) as HD.
    pose proof (factor_layout Or HS rinv gfuel m a Lb Ub (getrf fuel) W LS Hrec HU Hchar Hfl) as FL.
    pose proof (blocks_err Or HS rinv gfuel m a Lb Ub (getrf fuel) W LS Hrec HU Hchar Hfl v 0 V0 (Rle_refl 0)
      (fun _ _ c => gtree e c)) as BE.
    eapply Rle_trans; [apply BE with (d := D)|].
    + intros p q Hp Hq. exact (G p q Hp Hq).
    + intros p q k c c' Hp Hq Hk Wc Lc Gc E.
      destruct (FL p k Hp ltac:(lia)) as [FL1 _]. specialize (FL1 ltac:(lia)).
      destruct (FL k q ltac:(lia) Hq) as [_ FL2]. specialize (FL2 ltac:(lia)).
      destruct (H0 p k Hp ltac:(lia) ltac:(lia)) as [l1 E1]. destruct (H0 k q ltac:(lia) Hq ltac:(lia)) as [l2 E2].
      rewrite E1 in FL1. rewrite E2 in FL2.
      destruct (HD p k Hp ltac:(lia)) as [[WL [_ [DL1 [DL2 _]]]] _]. destruct (HD k q ltac:(lia) Hq) as [[_ [WU [_ [_ [DU1 DU2]]]]] _].
      destruct (Lb p k) as [|lx| |] eqn:EL; simpl in FL1; try contradiction.
      destruct (Ub k q) as [|uy| |] eqn:EU; simpl in FL2; try contradiction.
      destruct (gemm_tree_err e u nb (proj1 Hu) Or HS HA gfuel lx uy c c' _ WL WU Wc Gc E) as [G' B].
      split; [exact G'|].
      destruct (shaped_a m a W LS p q Hp Hq) as [Sr Sc].
      destruct (same_layout_dims _ _ (proj1 (wf_block _ _ _ p q W Hp Hq)) Lc) as [Sr' Sc'].
      rewrite Sr', Sc', Sr, Sc in B. apply rel_result in B.
      rewrite Rplus_0_r.
      assert (P0 := fro_nonneg (bheight a p) (bheight a q) (mmul (bheight a k) (ent (ML lx)) (ent (ML uy)))).
      eapply Rle_trans; [|apply Rmult_le_compat_l; [exact V0|apply Rplus_le_compat_l; exact P0]]. rewrite Rplus_0_r.
      eapply Rle_trans; [|exact B]. right. apply fro_ext. intros x y _ _.
      unfold MatFun.msub, MatFun.madd, prod, mscale, opc, mop, rm1. rewrite DL2. rr.
    + intros p c l u0 Hp Wc Lc Gc Uu Hr.
      assert (TSp : tri_shape (a p p)) by auto. assert (Wp : wf (a p p)) by apply (wf_block _ _ _ p p W Hp Hp).
      destruct (weak_layout (a p p) (H1 p Hp) TSp c Lc) as [Wk Eu].
      assert (TSc : tri_shape c).
      { pose proof (lu_shape_layout (R := Rring) (a p p) Wp ltac:(apply LS; auto) c Wc Lc) as LSc. clear - LSc.
        induction c as [d|l|m n a IH|r c]; simpl in *; auto. destruct LSc as [-> [Q1 [Q2 _]]]. split; auto. }
      pose proof (IH c l u0 Wc TSc Wk Gc Uu Hr) as B. cbv zeta in B.
      destruct (shaped_a m a W LS p p Hp Hp) as [Sr Sc].
      destruct (same_layout_dims _ _ Wp Lc) as [Sr' Sc']. rewrite Sr', Sr in B.
      eapply Rle_trans; [exact B|]. apply Rmult_le_compat_r; [apply Rmult_le_pos; apply fro_nonneg|].
      apply Rplus_le_compat_r. apply Rle_pow; [lra|]. rewrite Eu. exact (nmax_ge m (fun i => updates (a i i)) p Hp).
    + cbn [updates]. fold D. cbv zeta. rewrite Rmult_0_l, Rmult_0_r, Rplus_0_r. apply Rle_refl.
Qed.
End Weak.

(** ** Flat block matrices: Dense diagonal blocks, Dense or LowRank blocks elsewhere *)

Definition flat_blocks (e : Q) (nb m : nat) (a : nat -> nat -> matrix) : Prop :=
  (forall i, (i < m)%nat -> exists d, a i i = MD d) /\
  (forall i j, (i < m)%nat -> (j < m)%nat -> good e (a i j) /\ (nrows (a i j) <= nb)%nat /\ (ncols (a i j) <= nb)%nat).

Section Flat.
Variables (e : Q) (u tau v w : R) (nb : nat).
Hypothesis He : Qeq_bool e 0 = false.
Hypothesis Hu : 0 <= u < 1.
Hypothesis Htau : 0 <= tau.
Hypothesis Hv : u * (1 + u) <= v * (1 - u).
Hypothesis Hw : (1 + u) * tau <= w * (1 - u).
Variable Or : oracles Rring.
Hypothesis HA : accurate e u tau nb Or.
Variable rinv : R -> R.
Variable gfuel : nat.
Variable dgetrf : dense -> outcome (dense * (nat -> nat)).
Hypothesis HX : lu_contract (R := Rring) dgetrf.
Notation getrf := (getrf (R := Rring) rinv Or gfuel (no_exchange (R := Rring) dgetrf)).
Notation acc_gemm := (acc_gemm (R := Rring) Or gfuel).
Let HS : oracles_shape Or := ac_shape _ _ _ _ _ HA.
Let N := upto (call_error Or).
Let HN : oracles_near N Or := shape_near_upto Or HS.

Lemma fv_pos : 0 <= v.
Proof.
  destruct Hu as [U0 U1]. apply Rmult_le_reg_r with (1 - u); [lra|]. rewrite Rmult_0_l.
  eapply Rle_trans; [|exact Hv]. apply Rmult_le_pos; lra.
Qed.
Lemma fw_pos : 0 <= w.
Proof.
  destruct Hu as [U0 U1]. apply Rmult_le_reg_r with (1 - u); [lra|]. rewrite Rmult_0_l.
  eapply Rle_trans; [|exact Hw]. apply Rmult_le_pos; lra.
Qed.

Lemma flat_result (x X P c : R) : 0 <= X -> 0 <= P -> 0 <= c -> X <= c + x ->
  x <= (u * P + tau) + u * (X + (u * P + tau)) -> x <= v * (c + P) + w.
Proof.
  intros X0 P0 c0 HXc H. destruct Hu as [U0 U1].
  assert (A1 : u * X <= u * (c + x)) by (apply Rmult_le_compat_l; lra).
  assert (A2 : x * (1 - u) <= u * c + u * (1 + u) * P + (1 + u) * tau) by lra.
  assert (A3 : u * (1 + u) * P <= v * (1 - u) * P) by (apply Rmult_le_compat_r; lra).
  assert (A4 : u <= u * (1 + u)) by (rewrite <- (Rmult_1_r u) at 1; apply Rmult_le_compat_l; lra).
  assert (A5 : u * c <= v * (1 - u) * c) by (apply Rmult_le_compat_r; lra).
  apply Rmult_le_reg_r with (1 - u); lra.
Qed.

Theorem getrf_flat_err fuel m (a : nat -> nat -> matrix) L U : wf (MH m m a) -> tri_shape (MH m m a) -> flat_blocks e nb m a ->
  udiag (R := Rring) rinv U -> getrf fuel (MH m m a) = Ok (L, U) -> let n := nrows (MH m m a) in
  fro n n (msub (ent (MH m m a)) (mmul n (ent L) (ent U))) <=
  ((1 + v) ^ (m - 1) - 1) * (fro n n (ent L) * fro n n (ent U)) + INR m * (w * rsum (m - 1) (fun k => (1 + v) ^ k)).
Proof.
  intros W TS [FD FG] HU H n. destruct fuel as [|fuel]; [discriminate|].
  pose proof fv_pos as V0. pose proof fw_pos as W0.
  assert (Hfl : forall p q, (p < m)%nat -> (q < m)%nat -> flat (a p q)).
  { intros p q Hp Hq. apply (good_flat e). apply (FG p q Hp Hq). }
  assert (LS : lu_shape (MH m m a)).
  { destruct TS as [_ [H1 H2]]. split; auto. split; auto. split.
    - intros i Hi. pose proof (H2 i Hi) as H3. destruct (FD i Hi) as [d E]. rewrite E in *. exact H3.
    - intros i j Hij Hj. destruct (FD i ltac:(lia)) as [d E]. rewrite E. split; exact I. }
  cbn [Triangular.getrf] in H. apply assert_Ok in H. destruct H as [_ H].
  apply bind_Ok in H. destruct H as [[Lb Ub] [HF H]]. inversion H; subst L U; clear H.
  pose proof (fun c l u0 Wc Lc Uc => getrf_ok (R := Rring) N Or HN rinv gfuel dgetrf HX fuel c l u0 Wc Lc Uc) as Hrec.
  assert (Hchar := lu_char (R := Rring) rinv Or gfuel (getrf fuel) m a Lb Ub _ HF).
  pose proof (done_all Or HS rinv gfuel m a Lb Ub (getrf fuel) W LS Hrec HU Hchar) as HD.
  pose proof (factor_layout Or HS rinv gfuel m a Lb Ub (getrf fuel) W LS Hrec HU Hchar (fun p q Hp Hq _ => Hfl p q Hp Hq)) as FL.
  pose proof (blocks_err Or HS rinv gfuel m a Lb Ub (getrf fuel) W LS Hrec HU Hchar (fun p q Hp Hq _ => Hfl p q Hp Hq) v w V0 W0
    (fun _ _ c => good e c)) as BE.
  eapply Rle_trans; [apply BE with (d := 0%nat)|].
  - intros p q Hp Hq. apply (FG p q Hp Hq).
  - intros p q k c c' Hp Hq Hk Wc Lc Gc E.
    destruct (FL p k Hp ltac:(lia)) as [FL1 _]. specialize (FL1 ltac:(lia)).
    destruct (FL k q ltac:(lia) Hq) as [_ FL2]. specialize (FL2 ltac:(lia)).
    assert (F1 : flat (Lb p k)). { pose proof (Hfl p k Hp ltac:(lia)). destruct (a p k), (Lb p k); simpl in FL1; try contradiction; auto. }
    assert (F2 : flat (Ub k q)). { pose proof (Hfl k q ltac:(lia) Hq). destruct (a k q), (Ub k q); simpl in FL2; try contradiction; auto. }
    destruct (HD p k Hp ltac:(lia)) as [[WL [_ [DL1 [DL2 _]]]] _]. destruct (HD k q ltac:(lia) Hq) as [[_ [WU [_ [_ [DU1 DU2]]]]] _].
    destruct (shaped_a m a W LS p q Hp Hq) as [Sr Sc].
    destruct (same_layout_dims _ _ (proj1 (wf_block _ _ _ p q W Hp Hq)) Lc) as [Sr' Sc'].
    destruct (FG p q Hp Hq) as [_ [B1 B2]].
    unfold Triangular.acc_gemm in E. destruct gfuel as [|gf]; [discriminate|].
    rewrite TrmmErr.gemm_flat_fuel in E; auto; [|apply (good_flat e); auto].
    destruct (gemm_err e u tau nb He ltac:(lra) Htau Or HA (Lb p k) (Ub k q) c rm1 false false c' F1 F2 Gc WL WU Wc ltac:(lia) ltac:(lia) E)
      as [_ [_ [G' [_ [_ B]]]]].
    split; [exact G'|]. cbv zeta in B. rewrite Sr', Sc', Sr, Sc in B.
    assert (EP : fro (bheight a p) (bheight a q) (prod rm1 false false (Lb p k) (Ub k q)) =
                 fro (bheight a p) (bheight a q) (mmul (bheight a k) (ent (Lb p k)) (ent (Ub k q)))).
    { rewrite <- fro_opp. apply fro_ext. intros x y _ _. unfold MatFun.msub, mzero, prod, mscale, opc, mop, rm1. rewrite DL2. rr. }
    assert (EX : feq (bheight a p) (bheight a q) (madd (ent c) (prod rm1 false false (Lb p k) (Ub k q)))
                   (msub (ent c) (mmul (bheight a k) (ent (Lb p k)) (ent (Ub k q))))).
    { intros x y _ _. unfold MatFun.msub, MatFun.madd, prod, mscale, opc, mop, rm1. rewrite DL2. rr. }
    rewrite EP, (fro_ext _ _ _ _ EX), (fro_feq_sub _ _ _ _ _ _ (feq_refl (R := Rring) _ _ (ent c')) EX) in B.
    eapply flat_result; [| | | |exact B]; try apply fro_nonneg.
    rewrite (fro_swap _ _ (ent c')). apply fro_dist.
  - intros p c l u0 Hp Wc Lc Gc Uu Hr. cbn [pow]. rewrite Rminus_diag_eq by reflexivity. rewrite Rmult_0_l.
    assert (LSc : lu_shape c).
    { apply (lu_shape_layout (R := Rring) (a p p)); auto; [apply (wf_block _ _ _ p p W Hp Hp)|apply LS; auto]. }
    destruct (Hrec c l u0 Wc LSc Uu Hr) as [_ [_ [_ [_ [_ [_ [_ [_ [_ Rl]]]]]]]]].
    destruct (FD p Hp) as [d Ed]. pose proof Lc as Lc'. rewrite Ed in Lc'. destruct c as [c| | |]; simpl in Lc'; try contradiction.
    apply rel_dense in Rl. cbn [lu_shape] in LSc. rewrite <- LSc in Rl.
    destruct (shaped_a m a W LS p p Hp Hp) as [Sr _].
    assert (Ep : bheight a p = d_r c) by (rewrite <- Sr, Ed; simpl; lia).
    rewrite Ep. right. rewrite fro_swap. apply fro_sub0. exact Rl.
  - cbv zeta. rewrite Nat.add_0_r. apply Rle_refl.
Qed.
End Flat.

(** ** Solving *)

Section Solve.
Variable Or : oracles Rring.
Hypothesis HS : oracles_shape Or.
Variable rinv : R -> R.
Variable gfuel : nat.
Variable dgetrf : dense -> outcome (dense * (nat -> nat)).
Hypothesis HX : lu_contract (R := Rring) dgetrf.

(** The solution of a system with a perturbed matrix. *)
Lemma solve_perturbed fuel (A L U b y x : matrix) K : wf A -> lu_shape A -> wf b -> conf SLeft A b -> nrows b = nrows A -> no_lr b ->
  udiag (R := Rring) rinv U -> getrf (R := Rring) rinv Or gfuel (no_exchange (R := Rring) dgetrf) fuel A = Ok (L, U) ->
  trsm (R := Rring) rinv Or gfuel L b Lower SLeft = Ok y -> trsm (R := Rring) rinv Or gfuel U y Upper SLeft = Ok x ->
  let n := nrows A in
  fro n n (msub (ent A) (mmul n (ent L) (ent U))) <= K ->
  same_layout b x /\ exists E, fro n n E <= K /\ feq n (ncols b) (mmul n (madd (ent A) E) (ent x)) (ent b).
Proof.
  intros W LS Wb Cb Eb Nb HU HLU Hy Hx n B.
  destruct (solve_ok (R := Rring) _ Or (shape_near_upto Or HS) rinv gfuel dgetrf HX fuel A L U b y x W LS Wb Cb Eb Nb HU HLU Hy Hx) as [S1 [S2 _]].
  split; auto. exists (msub (mmul n (ent L) (ent U)) (ent A)). split; [rewrite fro_swap; exact B|].
  eapply feq_trans; [|exact S2]. apply (feq_mmul (R := Rring)); [|apply (feq_refl (R := Rring))].
  intros i j _ _. unfold MatFun.madd, MatFun.msub. fold n. generalize (ent A i j) (mmul n (ent L) (ent U) i j). intros p q. rr.
Qed.
End Solve.
