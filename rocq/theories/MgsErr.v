(** Block modified Gram-Schmidt on Dense and LowRank tiles, with low-rank arithmetic that
    truncates: how far the product of the factors is from the matrix. *)
From Coq Require Import List Arith ZArith QArith Lia Bool Reals Lra Ring_theory Ring.
From Verif Require Import Prelude Ring MatFun MatSetoid Matrix MatOps MatSpec MatOpsProofs Lapack Gemm GemmSpec GemmProofs
  GemmCorrect GemmTheorems Triangular TriAlgebra TriSpec TriProofs TriTheorems Reflect ReflectSpec ReflectProofs
  QrBig QrTiled SvdRank Householder HouseQr HouseReal Rrqr RrqrRank EckartYoung FroNorm QrErrTile.
From Verif Require Import ReflectTile ReflectSuccess QrErrReal Sampled SampledProofs SampledTheorems Mgs MgsProofs MgsOrtho MgsNested MgsTheorems LuErr LuErrBlocks LuErrThm.
From Verif Require Spectral ConstructError QrApply TrmmErr MgsFlat.
Import ListNotations.
Local Open Scope R_scope.
Notation grid := (nat -> nat -> matrix).

(** ** Sums of errors *)
Section Chain.
Variables (v om : R).
Hypothesis Hv : 0 <= v.
Hypothesis Hom : 0 <= om.

(** S0 is S1 plus the products P 0, ..., P (t-1), up to the error of t updates. *)
Definition chain (r c : nat) (S0 S1 : mat) (P : nat -> mat) (t : nat) : Prop :=
  fro r c (msub S0 (madd S1 (fun i j => rsum t (fun k => P k i j)))) <=
  ((1 + v) ^ t - 1) * (fro r c S1 + rsum t (fun k => fro r c (P k))) + om * rsum t (fun k => (1 + v) ^ k).

Lemma chain_ext r c S0 S1 (P P' : nat -> mat) t : (forall j, (j < t)%nat -> P' j = P j) -> chain r c S0 S1 P t -> chain r c S0 S1 P' t.
Proof.
  unfold chain. intros E H.
  rewrite (sum_ext (R := Rring) t (fun k => fro r c (P' k)) (fun k => fro r c (P k))) by (intros j Hj; rewrite (E j Hj); reflexivity).
  eapply Rle_trans; [|exact H]. right. apply fro_ext. intros x y _ _. unfold MatFun.msub, MatFun.madd.
  rewrite (sum_ext (R := Rring) t (fun k => P' k x y) (fun k => P k x y)) by (intros j Hj; rewrite (E j Hj); reflexivity). reflexivity.
Qed.

Lemma chain_0 r c S0 P : chain r c S0 S0 P 0.
Proof. unfold chain. rewrite fro_sub0; [cbn; lra|]. intros i j _ _. unfold MatFun.madd. cbn [sum]. rr. Qed.

Lemma chain_step r c S0 S1 S2 P t : chain r c S0 S1 P t ->
  fro r c (msub S2 (msub S1 (P t))) <= v * (fro r c S2 + fro r c (P t)) + om -> chain r c S0 S2 P (S t).
Proof.
  unfold chain. intros IH E.
  set (e := fro r c (msub S2 (msub S1 (P t)))) in *.
  set (s := fro r c S2) in *. set (p := fro r c (P t)) in *. set (s0 := fro r c S1) in *.
  assert (A1 : fro r c (msub S0 (madd S2 (fun i j => rsum (S t) (fun k => P k i j)))) <=
               fro r c (msub S0 (madd S1 (fun i j => rsum t (fun k => P k i j)))) + e).
  { unfold e. rewrite (fro_swap r c S2). eapply Rle_trans; [|apply fro_triangle]. right. apply fro_ext.
    intros i j _ _. unfold MatFun.msub, MatFun.madd. cbn [sum]. rr. }
  assert (A2 : s0 <= s + p + e).
  { unfold s0. eapply Rle_trans; [apply (fro_dist r c S1 (madd S2 (P t)))|].
    apply Rplus_le_compat; [apply fro_triangle|]. rewrite fro_swap. unfold e. right. apply fro_ext.
    intros i j _ _. unfold MatFun.msub, MatFun.madd. rr. }
  pose proof (pow_R1_Rle (1 + v) t ltac:(lra)) as K. set (x := (1 + v) ^ t) in *.
  set (Sg := rsum t (fun k => fro r c (P k))) in *. set (g := rsum t (fun k => (1 + v) ^ k)) in *.
  assert (E1 : rsum (S t) (fun k => fro r c (P k)) = Sg + p) by reflexivity.
  assert (E2 : rsum (S t) (fun k => (1 + v) ^ k) = g + x) by reflexivity.
  assert (E3 : (1 + v) ^ S t = (1 + v) * x) by reflexivity.
  rewrite E1, E2, E3. eapply Rle_trans; [exact A1|].
  assert (A3 : (x - 1) * (s0 + Sg) <= (x - 1) * ((1 + v) * (s + p) + om + Sg)) by (apply Rmult_le_compat_l; lra).
  assert (Sg0 : 0 <= Sg) by (apply sum_nonneg; intros; apply fro_nonneg).
  assert (A4 : 0 <= x * v * Sg) by (apply Rmult_le_pos; auto; apply Rmult_le_pos; lra).
  clearbody Sg g x s s0 p e. change (car Rring) with R in *. nra.
Qed.

(** The last factor: S1 is nearly P t. *)
Lemma chain_end r c S0 S1 P t lam rho : chain r c S0 S1 P t -> 0 <= rho -> fro r c (P t) <= lam ->
  fro r c (msub S1 (P t)) <= v * lam + om * rho ->
  fro r c (msub S0 (fun i j => rsum (S t) (fun k => P k i j))) <=
  ((1 + v) ^ S t - 1) * (rsum t (fun k => fro r c (P k)) + lam) + om * ((1 + v) ^ t * rho + rsum t (fun k => (1 + v) ^ k)).
Proof.
  unfold chain. intros IH Hr Hl E.
  set (e := fro r c (msub S1 (P t))) in *. set (p := fro r c (P t)) in *. set (s0 := fro r c S1) in *.
  assert (A1 : fro r c (msub S0 (fun i j => rsum (S t) (fun k => P k i j))) <=
               fro r c (msub S0 (madd S1 (fun i j => rsum t (fun k => P k i j)))) + e).
  { unfold e. eapply Rle_trans; [|apply fro_triangle]. right. apply fro_ext.
    intros i j _ _. unfold MatFun.msub, MatFun.madd. cbn [sum]. rr. }
  assert (A2 : s0 <= p + e) by (apply (fro_dist r c S1 (P t))).
  pose proof (pow_R1_Rle (1 + v) t ltac:(lra)) as K. set (x := (1 + v) ^ t) in *.
  set (Sg := rsum t (fun k => fro r c (P k))) in *. set (g := rsum t (fun k => (1 + v) ^ k)) in *.
  assert (E3 : (1 + v) ^ S t = (1 + v) * x) by reflexivity.
  rewrite E3. eapply Rle_trans; [exact A1|].
  assert (O1 : 0 <= om * rho) by (apply Rmult_le_pos; auto).
  assert (A3 : (x - 1) * (s0 + Sg) <= (x - 1) * (lam + v * lam + om * rho + Sg)) by (apply Rmult_le_compat_l; lra).
  assert (Sg0 : 0 <= Sg) by (apply sum_nonneg; intros; apply fro_nonneg).
  assert (A4 : 0 <= x * v * Sg) by (apply Rmult_le_pos; auto; apply Rmult_le_pos; lra).
  clearbody Sg g x s0 p e. change (car Rring) with R in *. nra.
Qed.
End Chain.

(** Blocks of a product of a p x n and an n x q grid. *)
Lemma blocks_product_err3 h g w p n q kappa omega (E L U : mat) : 0 <= kappa -> 0 <= omega ->
  (forall i j, (i < p)%nat -> (j < q)%nat -> bnorm h w E i j <= kappa * rsum n (fun k => bnorm h g L i k * bnorm g w U k j) + omega) ->
  fro (offs h p) (offs w q) E <= kappa * (fro (offs h p) (offs g n) L * fro (offs g n) (offs w q) U) + sqrt (INR p * INR q) * omega.
Proof.
  intros Hk Ho H. rewrite <- (bnorm_fro h w p q E), <- (bnorm_fro h g p n L), <- (bnorm_fro g w n q U).
  set (l := bnorm h g L) in *. set (u := bnorm g w U) in *.
  eapply Rle_trans; [apply (TrmmErr.fro_mono p q _ (madd (mscale (R := Rring) kappa (mmul n l u)) (fun _ _ => omega)))|].
  { intros i j Hi Hj. split; [apply fro_nonneg|]. exact (H i j Hi Hj). }
  eapply Rle_trans; [apply fro_triangle|]. apply Rplus_le_compat.
  - eapply Rle_trans; [|apply Rmult_le_compat_l; [exact Hk|apply (fro_mul p n q l u)]].
    right. apply (TrmmErr.fro_scal p q kappa (mmul n l u) Hk).
  - rewrite fro_const by auto. right. reflexivity.
Qed.

(** A column of blocks. *)
Lemma column_err h p c v s om (E B : mat) : 0 <= v -> 0 <= om -> s = sqrt (INR p) * om ->
  (forall i, (i < p)%nat -> fro (h i) c (mwin (R := Rring) (offs h i) 0 E) <= v * fro (h i) c (mwin (R := Rring) (offs h i) 0 B) + om) ->
  fro (offs h p) c E <= v * fro (offs h p) c B + s.
Proof.
  intros Hv Ho -> H. set (w := fun _ : nat => c).
  assert (EW : offs w 1 = c) by (unfold w; simpl; lia). rewrite <- EW.
  rewrite <- (bnorm_fro h w p 1 E), <- (bnorm_fro h w p 1 B).
  eapply Rle_trans; [apply (TrmmErr.fro_mono p 1 _ (madd (mscale (R := Rring) v (bnorm h w B)) (fun _ _ => om)))|].
  { intros i j Hi Hj. replace j with 0%nat by lia. split; [apply fro_nonneg|]. exact (H i Hi). }
  eapply Rle_trans; [apply fro_triangle|]. apply Rplus_le_compat.
  - right. apply (TrmmErr.fro_scal p 1 v (bnorm h w B) Hv).
  - rewrite fro_const by auto. change (INR 1) with 1. rewrite Rmult_1_r. right. reflexivity.
Qed.

Lemma term_le_rsum n (f : nat -> R) i : (forall j, 0 <= f j) -> (i < n)%nat -> f i <= rsum n f.
Proof.
  intros Hf. induction n as [|n IH]; intros Hi; [lia|].
  change (rsum (S n) f) with (rsum n f + f n). pose proof (Hf n) as F. destruct (Nat.eq_dec i n) as [->|].
  - pose proof (sum_nonneg n f ltac:(intros; apply Hf)). lra.
  - specialize (IH ltac:(lia)). lra.
Qed.

Lemma entry_le_fro m n (f : mat) i j : 0 <= f i j -> (i < m)%nat -> (j < n)%nat -> f i j <= fro m n f.
Proof.
  intros Hf Hi Hj. rewrite <- (sqrt_square (f i j) Hf). unfold fro. apply sqrt_le_1_alt. unfold sumsq.
  assert (P : forall a b, 0 <= f a b * f a b) by (intros; apply Rle_0_sqr).
  eapply Rle_trans; [apply (term_le_rsum n (fun b => f i b * f i b) j); auto|].
  apply (term_le_rsum m (fun a => rsum n (fun b => f a b * f a b)) i); auto.
  intros a. apply sum_nonneg. intros b _. apply P.
Qed.

Section Err.
Variables (e : Q) (u tau : R) (nb : nat).
Hypothesis He : Qeq_bool e 0 = false.
Hypothesis Hu : 0 <= u <= 1.
Hypothesis Htau : 0 <= tau.
Variable Or : oracles Rring.
Hypothesis HA : accurate e u tau nb Or.
Variables (v om : R).
Hypothesis Huu1 : 2 * u + u * u < 1.
Hypothesis Huv : 2 * u + u * u <= v * (1 - (2 * u + u * u)).
Hypothesis Huw : (1 + u) * tau <= om * (1 - (2 * u + u * u)).

Lemma v_pos : 0 <= v.
Proof. assert (0 <= u * u) by (apply Rmult_le_pos; lra). apply Rmult_le_reg_r with (1 - (2 * u + u * u)); lra. Qed.
Lemma om_pos : 0 <= om.
Proof. apply Rmult_le_reg_r with (1 - (2 * u + u * u)); [lra|]. eapply Rle_trans; [|exact Huw]. rewrite Rmult_0_l. apply Rmult_le_pos; lra. Qed.

Lemma u_lt1 : u < 1.
Proof. assert (0 <= u * u) by (apply Rmult_le_pos; lra). lra. Qed.

Lemma flat_hv : u * (1 + u) <= v * (1 - u).
Proof.
  assert (Q1 : 0 <= v) by apply v_pos.
  assert (Q2 : u * (1+u) <= 2*u + u*u) by lra.
  eapply Rle_trans; [exact Q2|]. eapply Rle_trans; [exact Huv|].
  apply Rmult_le_compat_l; [exact Q1|]. assert (0 <= u * u) by (apply Rmult_le_pos; lra). lra.
Qed.
Lemma flat_hw : (1 + u) * tau <= om * (1 - u).
Proof.
  assert (Q1 : 0 <= om) by apply om_pos.
  eapply Rle_trans; [exact Huw|]. apply Rmult_le_compat_l; [exact Q1|]. assert (0 <= u * u) by (apply Rmult_le_pos; lra). lra.
Qed.

Let HS : oracles_shape Or := ac_shape _ _ _ _ _ HA.

(** The product that is stored in Q(i,j), mgs_qr.cpp:303-305: beta is 0. *)
Lemma gemm_zero_err (a b : dense) (C C' : matrix) : good e C -> wf C -> (nrows C <= nb)%nat -> (ncols C <= nb)%nat ->
  gemm Or 1 (MD a) (MD b) C (1%r : car Rring) (0%r : car Rring) false false = Ok C' ->
  let r := nrows C in let c := ncols C in
  wf C' /\ same_layout C C' /\ good e C' /\
  fro r c (msub (ent C') (mmul (d_c a) (d_e a) (d_e b))) <= v * fro r c (ent C') + om.
Proof.
  intros GC WC N1 N2 H r c. set (P := mmul (d_c a) (d_e a) (d_e b)).
  pose proof v_pos as V0. pose proof om_pos as O0.
  assert (TO : trans_ok false false (MD a) (MD b) C) by apply trans_ok_notrans.
  assert (Wa : wf (MD a)) by exact Logic.I. assert (Wb : wf (MD b)) by exact Logic.I.
  pose proof H as HD. apply (gemm_dims Or HS) in HD; auto. destruct HD as [D1 [D2 [D3 _]]].
  destruct C as [d|cc|? ? ?|? ?]; try contradiction.
  - rewrite (gemm_into_dense Or (MD a) (MD b) d 1%r _ false false Logic.I Logic.I) in H.
    apply (gemm_exact left_oracles left_oracles_near) in H; auto. destruct H as [W [L V]].
    assert (V' : feq r c (ent C') P).
    { intros i j Hi Hj. rewrite (V i j Hi Hj). unfold gemm_value, MatFun.madd, mscale, mop, opc. cbn [ent ncols]. fold P.
      generalize (P i j). generalize (d_e d i j). intros x y. rr. }
    split; auto. split; auto. split; [destruct C'; simpl in L; try contradiction; exact Logic.I|].
    rewrite (fro_sub0 r c _ _ V'). pose proof (fro_nonneg r c (ent C')) as P0.
    pose proof (Rmult_le_pos _ _ V0 P0). lra.
  - unfold gemm in H. cbn [gemm_pair fst] in H. unfold gemm_step in H.
    apply assert_Ok in H. destruct H as [_ H]. apply assert_Ok in H. destruct H as [_ H]. apply assert_Ok in H. destruct H as [_ H].
    apply bind_Ok in H. destruct H as [ab [Hab H]]. apply bind_Ok in H. destruct H as [x [Hx H]].
    destruct GC as [G1 [G2 [G3 [G4 G5]]]]. assert (UE : use_eps cc = true) by (unfold use_eps; rewrite G1, He; reflexivity).
    unfold compress_like in Hx. rewrite UE, G1 in Hx.
    destruct (dd_mul_inv (R := Rring) _ _ _ _ _ _ Hab) as [_ [A1 [A2 A3]]].
    unfold opr, opc in D1, D2, D3. cbn [nrows ncols] in D1, D2, D3, N1, N2.
    assert (R1 : d_r ab = l_r cc) by (rewrite A1; exact D1). assert (R2 : d_c ab = l_c cc) by (rewrite A2; exact D3).
    destruct (os_eps _ HS _ _ _ Hx) as [X1 [X2 X3]].
    pose proof (ac_eps _ _ _ _ _ HA ab x ltac:(rewrite R1; auto) ltac:(rewrite R2; auto) Hx) as BX. rewrite R1, R2 in BX. rewrite R1 in X2. rewrite R2 in X3.
    unfold acc_lr in H. apply bind_Ok in H. destruct H as [c' [Hc H]]. inversion H; subst C'; clear H.
    unfold lr_acc in Hc. apply assert_Ok in Hc. destruct Hc as [_ Hc]. apply assert_Ok in Hc. destruct Hc as [_ Hc].
    destruct (lr_scale_spec (R := Rring) cc (0%r : car Rring) WC) as [Ws Es].
    assert (Gs : good e (ML (lr_scale cc (0%r : car Rring)))).
    { exact (conj G1 (conj G2 (conj G3 (conj G4 G5)))). }
    destruct (os_add _ HS _ _ _ Ws X1 ltac:(simpl; auto) ltac:(simpl; auto) Hc) as [W1 [W2 W3]]. cbn [lr_scale l_r l_c] in W2, W3.
    destruct (ac_add _ _ _ _ _ HA _ _ _ Ws X1 ltac:(simpl; auto) ltac:(simpl; auto) Gs Hc) as [G' B].
    cbn [lr_scale l_r l_c] in B.
    assert (E : feq (l_r cc) (l_c cc) (madd (lr_ent (lr_scale cc (0%r : car Rring))) (lr_ent x)) (lr_ent x)).
    { intros i j Hi Hj. unfold MatFun.madd. rewrite (Es i j Hi Hj). unfold mscale.
      generalize (lr_ent cc i j). generalize (lr_ent x i j). intros y z. rr. }
    rewrite (fro_ext _ _ _ _ E), (fro_feq_sub _ _ _ _ _ _ (feq_refl (R := Rring) _ _ (lr_ent c')) E) in B.
    split; [exact W1|]. split; [simpl; auto|]. split; [exact G'|].
    assert (EP : feq (l_r cc) (l_c cc) (d_e ab) P).
    { intros i j Hi Hj. rewrite A3. unfold P. simpl mop. generalize (mmul (d_c a) (d_e a) (d_e b) i j). intros y. rr. }
    rewrite (fro_ext _ _ _ _ EP), (fro_feq_sub _ _ _ _ _ _ (feq_refl (R := Rring) _ _ (lr_ent x)) EP) in BX.
    unfold r, c. cbn [nrows ncols ent]. set (m := l_r cc) in *. set (n := l_c cc) in *.
    pose proof (fro_via m n (lr_ent c') (lr_ent x) P) as T1. pose proof (fro_dist m n (lr_ent x) P) as T2.
    pose proof (fro_dist m n P (lr_ent c')) as T3. rewrite (fro_swap m n P) in T3.
    set (y := fro m n (msub (lr_ent c') P)) in *. set (fp := fro m n P) in *. set (fx := fro m n (lr_ent x)) in *.
    set (fc := fro m n (lr_ent c')) in *. set (dx := fro m n (msub (lr_ent x) P)) in *.
    assert (B1 : u * fx <= u * (fp + (u * fp + tau))) by (apply Rmult_le_compat_l; lra).
    assert (B2 : y <= (2 * u + u * u) * fp + (1 + u) * tau) by lra.
    assert (F0 : 0 <= fc) by apply fro_nonneg.
    assert (U2 : 0 <= 2 * u + u * u) by (assert (0 <= u * u) by (apply Rmult_le_pos; lra); lra).
    set (uu := 2 * u + u * u) in *.
    assert (B3 : uu * fp <= uu * (fc + y)) by (apply Rmult_le_compat_l; lra).
    assert (B4 : uu * fc <= v * (1 - uu) * fc) by (apply Rmult_le_compat_r; auto).
    apply Rmult_le_reg_r with (1 - uu); [lra|]. lra.
Qed.

(** One update A(i,k) - Q(i,j) R(j,k). *)
Lemma gemm_sub_err gfuel (A B C C' : matrix) : flat A -> flat B -> good e C -> wf A -> wf B -> wf C ->
  (nrows C <= nb)%nat -> (ncols C <= nb)%nat ->
  gemm Or gfuel A B C (- (1))%r (1%r : car Rring) false false = Ok C' ->
  let r := nrows C in let c := ncols C in let P := mmul (ncols A) (ent A) (ent B) in
  wf C' /\ same_layout C C' /\ good e C' /\
  fro r c (msub (ent C') (msub (ent C) P)) <= v * (fro r c (ent C') + fro r c P) + om.
Proof.
  intros FA FB GC WA WB WC N1 N2 H r c P.
  apply (MgsFlat.gemm_flat_fuel Or gfuel) in H; auto; [|apply (good_flat e); auto].
  destruct (gemm_err e u tau nb He Hu Htau Or HA A B C _ false false C' FA FB GC WA WB WC N1 N2 H) as [W [L [G [_ [_ E]]]]].
  fold r c in E. cbv zeta in E.
  assert (EP : feq r c (prod (- (1))%r false false A B) (fun i j => - P i j)).
  { intros i j _ _. unfold prod, mscale, mop, opc. fold P. generalize (P i j). intros y. rr. }
  assert (FP : fro r c (prod (- (1))%r false false A B) = fro r c P).
  { rewrite (fro_ext _ _ _ _ EP). transitivity (fro r c (msub (mzero (R := Rring)) P)).
    - apply fro_ext. intros i j _ _. unfold MatFun.msub, mzero. generalize (P i j). intros y. rr.
    - rewrite fro_swap. apply fro_ext. intros i j _ _. unfold MatFun.msub, mzero. generalize (P i j). intros y. rr. }
  assert (EX : feq r c (madd (ent C) (prod (- (1))%r false false A B)) (msub (ent C) P)).
  { intros i j Hi Hj. unfold MatFun.madd, MatFun.msub. rewrite (EP i j Hi Hj). generalize (P i j) (ent C i j). intros y z. rr. }
  rewrite FP, (fro_ext _ _ _ _ EX), (fro_feq_sub _ _ _ _ _ _ (feq_refl (R := Rring) _ _ (ent C')) EX) in E.
  split; auto. split; auto. split; auto.
  apply (flat_result u tau v om (conj (proj1 Hu) u_lt1) flat_hv flat_hw _ (fro r c (msub (ent C) P))); auto; try apply fro_nonneg.
  pose proof (fro_dist r c (msub (ent C) P) (ent C')) as T. rewrite (fro_swap r c (msub (ent C) P)) in T. exact T.
Qed.

Variable L : lapack Rring.
Hypothesis HL : lapack_sound L.
Variable gfuel : nat.
Variables p q : nat.
Variables h w : nat -> nat.
Hypothesis Hp : (0 < p)%nat.
Hypothesis Hh : forall i, (i < p)%nat -> (h i <= nb)%nat.
Hypothesis Hw : forall k, (k < q)%nat -> (w k <= nb)%nat.
Notation mtiles := (mtiles p q h w).
Notation rtiles := (rtiles q w).

(** Block column j of Q is close to a matrix with orthonormal columns. *)
Definition near_orth (Q : grid) (j : nat) : Prop := exists X : mat, orth_cols (R := Rring) (offs h p) (w j) X /\
  forall i, (i < p)%nat -> fro (h i) (w j) (msub (ent (Q i j)) (mwin (R := Rring) (offs h i) 0 X)) <= v * fro (h i) (w j) (ent (Q i j)) + om.

(** One block column: what is stored in Q, times R(j,j). *)
Lemma ortho_err j (A Q Q' : grid) (Rb : dense) : (j < q)%nat -> mtiles A -> mtiles Q -> (forall i, (i < p)%nat -> good e (Q i j)) ->
  ortho_dense L Or gfuel p j A Q = Ok (Q', Rb) ->
  mtiles Q' /\ (forall i, (i < p)%nat -> good e (Q' i j)) /\ (forall i k, k <> j -> Q' i k = Q i k) /\
  d_r Rb = w j /\ d_c Rb = w j /\
  (forall i, (i < p)%nat -> fro (h i) (w j) (msub (ent (A i j)) (mmul (w j) (ent (Q' i j)) (d_e Rb))) <=
    (v * fro (h i) (w j) (ent (Q' i j)) + om) * fro (w j) (w j) (d_e Rb)) /\
  ((forall i, (i < p)%nat -> orthU (A i j)) -> near_orth Q' j) /\
  layouts p q Q Q' /\ (exists Y Qb, thin_qr L Y = Ok (Qb, Rb)).
Proof using He Hu Htau HA Huu1 Huv Huw HL Hp Hh Hw.
  intros Hj TA TQ GQ H. unfold ortho_dense in H. cbv zeta in H.
  apply bind_Ok in H. destruct H as [qb [H1 H]]. apply bind_Ok in H. destruct H as [DB [H2 H]].
  apply bind_Ok in H. destruct H as [[Qb Rb0] [H3 H]]. apply bind_Ok in H. destruct H as [HQb [H4 H]].
  apply bind_Ok in H. destruct H as [Q0 [H5 H]]. inversion H; subst Q0 Rb0; clear H.
  set (rb := fun k => d_r (snd (qb k))) in *.
  assert (F : forall i, (i < p)%nat -> d_r (fst (qb i)) = h i /\ d_c (fst (qb i)) = rb i /\ d_c (snd (qb i)) = w j /\
     feq (h i) (w j) (mmul (rb i) (d_e (fst (qb i))) (d_e (snd (qb i)))) (ent (A i j)) /\
     (orthU (A i j) -> orth_cols (R := Rring) (h i) (rb i) (d_e (fst (qb i))))).
  { intros i Hi. pose proof (collectv_spec _ _ _ _ H1 i Hi) as E. cbv beta in E. unfold rb.
    destruct (qb i) as [U B]. cbn [fst snd]. destruct (TA i j Hi Hj) as [W [D1 D2]].
    pose proof (make_left_orthogonal_ok _ _ _ W E) as M. rewrite D1, D2 in M. tauto. }
  assert (WB : wf (MH p 1 (fun i _ => MD (snd (qb i))))).
  { simpl. split; auto. split; auto. intros a b Ha Hb. split; auto. split; auto.
    destruct (F a Ha) as [_ [_ [E1 _]]]. destruct (F 0%nat Hp) as [_ [_ [E2 _]]]. congruence. }
  destruct (densify_spec _ WB) as [C [E1 [E2 [E3 E4]]]]. rewrite H2 in E1. inversion E1; subst C; clear E1.
  assert (ND : d_r DB = offs rb p) by (rewrite E2; reflexivity).
  assert (NC : d_c DB = w j) by (rewrite E3; simpl; destruct (F 0%nat Hp) as [_ [_ [X _]]]; lia).
  destruct (thin_qr_ok L HL _ _ _ H3) as [T1 [T2 [T3 [T4 [T5 [T6 T7]]]]]]. rewrite ND, NC in *.
  assert (G : forall i, (i < p)%nat -> d_r (HQb i) = rb i /\ d_c (HQb i) = w j /\ feq (rb i) (w j) (d_e (HQb i)) (mwin (R := Rring) (offs rb i) 0 (d_e Qb))).
  { intros i Hi. pose proof (collectv_spec _ _ _ _ H4 i Hi) as E. cbv beta in E.
    destruct (F i Hi) as [_ [_ [X _]]].
    destruct (d_copy_to_spec Qb (d_zeros (d_r (snd (qb i))) (d_c (snd (qb i)))) (offs rb i) 0) as [C [C1 [C2 [C3 C4]]]].
    - simpl. rewrite T2. pose proof (offs_mono rb (S i) p ltac:(lia)) as M. simpl in M. unfold rb in M at 2. lia.
    - simpl. rewrite T3. lia.
    - rewrite E in C1. inversion C1; subst C. simpl in *. rewrite X in *. auto. }
  set (X := fun i => mmul (rb i) (d_e (fst (qb i))) (mwin (R := Rring) (offs rb i) 0 (d_e Qb))).
  apply (for_loop_inv_out _ _ _ _ (fun t Y => mtiles Y /\ (forall i, (i < p)%nat -> good e (Y i j)) /\ (forall i k, k <> j -> Y i k = Q i k) /\ layouts p q Q Y /\
    (forall i, (i < t)%nat -> fro (h i) (w j) (msub (ent (Y i j)) (X i)) <= v * fro (h i) (w j) (ent (Y i j)) + om))) in H5.
  2:{ split; auto. split; auto. split; auto. split; [apply layouts_refl|]. intros; lia. }
  2:{ intros t Y Y' Ht [Y1 [Y2 [Y3 [YL Y4]]]] Hx.
      apply bind_Ok in Hx. destruct Hx as [y [Hy Hx]]. inversion Hx; subst Y'; clear Hx.
      destruct (Y1 t j Ht Hj) as [B1 [B2 B3]]. destruct (F t Ht) as [F1 [F2 [F3 _]]]. destruct (G t Ht) as [G1 [G2 G3]].
      apply (MgsFlat.gemm_flat_fuel Or gfuel) in Hy; [|exact Logic.I|exact Logic.I|apply (good_flat e); auto].
      destruct (gemm_zero_err (fst (qb t)) (HQb t) (Y t j) y (Y2 t Ht) B1) as [W' [L' [G' E']]];
        [rewrite B2; apply Hh; auto|rewrite B3; apply Hw; auto|exact Hy|].
      destruct (same_layout_dims _ _ B1 L') as [D1 D2]. rewrite B2, B3 in E'.
      split; [|split; [|split; [|split]]].
      - intros i' l Hi' Hl. rewrite bupd_at. destruct (Nat.eqb_spec i' t) as [->|]; [destruct (Nat.eqb_spec l j) as [->|]|]; simpl; auto.
        split; auto. split; congruence.
      - intros i' Hi'. rewrite bupd_at, Nat.eqb_refl, andb_true_r. destruct (Nat.eqb_spec i' t) as [->|]; auto.
      - intros i' l Hl. rewrite bupd_oth by auto. auto.
      - intros i' l Hi' Hl. rewrite bupd_at. destruct (Nat.eqb_spec i' t) as [->|]; [destruct (Nat.eqb_spec l j) as [->|]|]; simpl; auto.
        eapply same_layout_trans; [apply YL; auto|exact L'].
      - intros i' Hi'. rewrite bupd_at, Nat.eqb_refl, andb_true_r. destruct (Nat.eqb_spec i' t) as [->|]; [|apply Y4; lia].
        eapply Rle_trans; [|exact E']. right. apply fro_ext. apply (feq_sub (R := Rring)); [apply (feq_refl (R := Rring))|].
        unfold X. rewrite F2. apply (feq_mmul (R := Rring)); [apply (feq_refl (R := Rring))|]. apply (feq_sym (R := Rring)). exact G3. }
  destruct H5 as [Y1 [Y2 [Y3 [YL Y4]]]]. do 5 (split; auto). split.
  2:{ split; [|split; [exact YL|exists DB, Qb; exact H3]]. intros HU. exists (stack (R := Rring) p h X). split.
      - apply (left_orth (R := Rring) p h rb (fun i => d_e (fst (qb i))) (d_e Qb) (w j)); [|exact T6].
        intros i Hi. apply F; auto.
      - intros i Hi. eapply Rle_trans; [|apply (Y4 i Hi)]. right. apply fro_ext.
        apply (feq_sub (R := Rring)); [apply (feq_refl (R := Rring))|]. intros a b Ha Hb. unfold mwin. apply (stack_at (R := Rring)); auto. }
  intros i Hi. specialize (Y4 i Hi).
  assert (XR : feq (h i) (w j) (mmul (w j) (X i) (d_e Rb)) (ent (A i j))).
  { destruct (F i Hi) as [_ [_ [F3 [F4 _]]]]. unfold X. rewrite (meq_assoc (R := Rring)).
    eapply (feq_trans (R := Rring)); [|exact F4]. apply (feq_mmul (R := Rring)); [apply (feq_refl (R := Rring))|].
    intros a b Ha Hb.
    assert (Lr : (offs rb i + a < offs rb p)%nat) by (pose proof (offs_lt rb i p Hi); lia).
    transitivity (mmul (w j) (d_e Qb) (d_e Rb) (offs rb i + a)%nat b).
    { unfold mmul, mwin. apply (sum_ext (R := Rring)). intros; reflexivity. }
    rewrite (T7 _ b Lr Hb). rewrite E4.
    - pose proof (ent_block p 1 (fun i _ => MD (snd (qb i))) i 0 a b Hi Nat.lt_0_1) as EB.
      unfold bheight, bwidth in EB. simpl offs in EB. rewrite Nat.add_0_l in EB.
      apply EB; [exact Ha|]. simpl. destruct (F 0%nat Hp) as [_ [_ [Z _]]]. lia.
    - rewrite <- E2. lia.
    - rewrite <- E3. auto. }
  eapply Rle_trans; [|apply Rmult_le_compat_r; [apply fro_nonneg|exact Y4]].
  eapply Rle_trans; [|apply fro_mul]. rewrite fro_swap. right. apply fro_ext.
  intros a b Ha Hb. unfold MatFun.msub at 1. rewrite <- (XR a b Ha Hb).
  pose proof (meq_sub_l (R := Rring) (w j) (ent (Q' i j)) (X i) (d_e Rb)) as ML. rewrite (ML a b). reflexivity.
Qed.

Definition ggood (A : grid) : Prop := forall i k, (i < p)%nat -> (k < q)%nat -> good e (A i k).
Definition rflat (Rg : grid) : Prop := forall i k, (i <= k)%nat -> (k < q)%nat -> flat (Rg i k).

(** The update of block column k with block column j of Q. *)
Lemma update_err j k (QT : nat -> matrix) (Q A A' : grid) (r r' : matrix) : (j < q)%nat -> (k < q)%nat ->
  mtiles A -> ggood A -> mtiles Q -> (forall i, (i < p)%nat -> flat (Q i j)) -> wf r -> flat r -> nrows r = w j -> ncols r = w k ->
  (forall i, (i < p)%nat -> wf (QT i)) ->
  mgs_update Or gfuel p j k QT Q A r = Ok (A', r') ->
  mtiles A' /\ ggood A' /\ (forall i l, l <> k -> A' i l = A i l) /\ wf r' /\ flat r' /\ nrows r' = w j /\ ncols r' = w k /\ same_layout r r' /\
  forall i, (i < p)%nat -> let P := mmul (w j) (ent (Q i j)) (ent r') in
    fro (h i) (w k) (msub (ent (A' i k)) (msub (ent (A i k)) P)) <= v * (fro (h i) (w k) (ent (A' i k)) + fro (h i) (w k) P) + om.
Proof using He Hu Htau HA Huu1 Huv Huw Hp Hh Hw.
  intros Hj Hk TA GA TQ FQ Wr Fr Nr Cr HT H. unfold mgs_update in H.
  apply bind_Ok in H. destruct H as [r1 [H1 H]]. apply bind_Ok in H. destruct H as [A1 [H2 H]].
  inversion H; subst A1 r1; clear H.
  apply (for_loop_inv_out _ _ _ _ (fun t x => wf x /\ flat x /\ nrows x = w j /\ ncols x = w k /\ same_layout r x)) in H1; [|do 4 (split; auto); apply same_layout_refl|].
  2:{ intros t x x' Ht [X1 [X2 [X3 [X4 X5]]]] Hx. destruct (TA t k Ht Hk) as [B1 _].
      destruct (gemm_upto Or HS _ _ _ _ _ _ _ _ _ (HT t Ht) B1 X1 (trans_ok_notrans _ _ _) Hx) as [W' [L' _]].
      destruct (same_layout_dims _ _ X1 L') as [D1 D2]. split; auto.
      split; [eapply MgsFlat.layout_flat; eauto|]. split; [congruence|]. split; [congruence|]. eapply same_layout_trans; eauto. }
  destruct H1 as [R1 [R2 [R3 [R4 R5]]]].
  apply (for_loop_inv_out _ _ _ _ (fun t X => mtiles X /\ ggood X /\ (forall i l, l <> k -> X i l = A i l) /\
    (forall i, (t <= i)%nat -> X i k = A i k) /\
    (forall i, (i < t)%nat -> let P := mmul (w j) (ent (Q i j)) (ent r') in
      fro (h i) (w k) (msub (ent (X i k)) (msub (ent (A i k)) P)) <= v * (fro (h i) (w k) (ent (X i k)) + fro (h i) (w k) P) + om))) in H2.
  2:{ split; auto. split; auto. split; auto. split; auto. intros; lia. }
  2:{ intros t X X' Ht [X1 [X2 [X3 [X4 X5]]]] Hx.
      apply bind_Ok in Hx. destruct Hx as [y [Hy Hx]]. inversion Hx; subst X'; clear Hx.
      destruct (X1 t k Ht Hk) as [B1 [B2 B3]]. destruct (TQ t j Ht Hj) as [C1 [C2 C3]].
      destruct (gemm_sub_err gfuel (Q t j) r' (X t k) y (FQ t Ht) R2 (X2 t k Ht Hk) C1 R1 B1) as [W' [L' [G' E']]];
        [rewrite B2; apply Hh; auto|rewrite B3; apply Hw; auto|exact Hy|].
      destruct (same_layout_dims _ _ B1 L') as [D1 D2]. rewrite B2, B3, C3, (X4 t (le_n _)) in E'. cbv zeta in E'.
      split; [|split; [|split; [|split]]].
      - intros i' l Hi' Hl. rewrite bupd_at. destruct (Nat.eqb_spec i' t) as [->|]; [destruct (Nat.eqb_spec l k) as [->|]|]; simpl; auto.
        split; auto. split; congruence.
      - intros i' l Hi' Hl. rewrite bupd_at. destruct (Nat.eqb_spec i' t) as [->|]; [destruct (Nat.eqb_spec l k) as [->|]|]; simpl; auto.
      - intros i' l Hl. rewrite bupd_oth by auto. auto.
      - intros i' Hi'. rewrite bupd_oth by lia. apply X4. lia.
      - intros i' Hi'. rewrite bupd_at, Nat.eqb_refl, andb_true_r. destruct (Nat.eqb_spec i' t) as [->|]; [exact E'|]. apply X5. lia. }
  destruct H2 as [A1 [A2 [A3 [_ A5]]]]. auto 12.
Qed.

Definition qp (Q Rg : grid) (i k j : nat) : mat := mmul (w j) (ent (Q i j)) (ent (Rg j k)).
Definition lam (Q Rg : grid) (i k j : nat) : R := fro (h i) (w j) (ent (Q i j)) * fro (w j) (w k) (ent (Rg j k)).

(** Block column k is finished. *)
Definition tile_done (A0 Q Rg : grid) (k : nat) : Prop := forall i, (i < p)%nat ->
  fro (h i) (w k) (msub (ent (A0 i k)) (fun x y => rsum (S k) (fun j => qp Q Rg i k j x y))) <=
  ((1 + v) ^ S k - 1) * rsum (S k) (lam Q Rg i k) + om * ((1 + v) ^ k * fro (w k) (w k) (ent (Rg k k)) + rsum k (fun j => (1 + v) ^ j)).

Record err_inv (A0 Q0 R0 : grid) (t : nat) (A Q Rg : grid) : Prop := {
  ei_A : mtiles A; ei_gA : ggood A;
  ei_Q : mtiles Q; ei_gQ : ggood Q;
  ei_R : rtiles Rg; ei_fR : rflat Rg; ei_R0 : forall i k, (t <= i)%nat \/ (k < i)%nat -> Rg i k = R0 i k;
  ei_lQ : layouts p q Q0 Q; ei_lR : forall i k, (i < k)%nat -> (k < q)%nat -> same_layout (R0 i k) (Rg i k);
  ei_tri : forall k, (k < t)%nat -> exists Y Qb Rb, thin_qr L Y = Ok (Qb, Rb) /\ Rg k k = MD Rb;
  ei_orth : forall k, (k < t)%nat -> near_orth Q k;
  ei_done : forall k, (k < t)%nat -> tile_done A0 Q Rg k;
  ei_rest : forall i k, (i < p)%nat -> (t <= k)%nat -> (k < q)%nat -> chain v om (h i) (w k) (ent (A0 i k)) (ent (A i k)) (qp Q Rg i k) t
}.

Lemma tile_done_ext A0 Q Rg Q' Rg' k : (forall i j, (j <= k)%nat -> Q' i j = Q i j) -> (forall j, (j <= k)%nat -> Rg' j k = Rg j k) ->
  tile_done A0 Q Rg k -> tile_done A0 Q' Rg' k.
Proof using.
  clear. intros EQ ER H i Hi. specialize (H i Hi). rewrite (ER k (le_n _)).
  rewrite (sum_ext (R := Rring) (S k) (lam Q' Rg' i k) (lam Q Rg i k)) by (intros j Hj; unfold lam; rewrite EQ, ER by lia; reflexivity).
  eapply Rle_trans; [|exact H]. right. apply fro_ext. intros x y _ _. unfold MatFun.msub. f_equal.
  apply (sum_ext (R := Rring)). intros j Hj. unfold qp. rewrite EQ, ER by lia. reflexivity.
Qed.

Definition dense_ortho (j : nat) (A Q : grid) (r : matrix) (Q' : grid) (r' : matrix) : Prop :=
  exists Rb, r' = MD Rb /\ ortho_dense L Or gfuel p j A Q = Ok (Q', Rb).

Lemma step_err (ortho : nat -> grid -> grid -> matrix -> outcome (grid * matrix)) (A0 Q0 R0 : grid) j (A Q Rg A' Q' Rg' : grid) :
  (forall Q1 r1, ortho j A Q (R0 j j) = Ok (Q1, r1) -> dense_ortho j A Q (R0 j j) Q1 r1) -> (j < q)%nat ->
  err_inv A0 Q0 R0 j A Q Rg -> mgs_step Or gfuel ortho p q j (A, Q, Rg) = Ok (A', Q', Rg') ->
  err_inv A0 Q0 R0 (S j) A' Q' Rg'.
Proof using He Hu Htau HA Huu1 Huv Huw HL Hp Hh Hw.
  intros HOD Hj [IA IGA IQ IGQ IR IF IR0 ILQ ILR IT IO ID IX] H. unfold mgs_step in H.
  pose proof v_pos as V0. pose proof om_pos as O0.
  apply bind_Ok in H. destruct H as [[Q1 r] [H1 H]]. apply bind_Ok in H. destruct H as [QT [H2 H]].
  apply bind_Ok in H. destruct H as [[A1 R1] [H3 H]]. inversion H; subst A1 Q1 R1; clear H.
  rewrite (IR0 j j) in H1 by auto. destruct (HOD _ _ H1) as [Rb [-> H1']]. clear H1.
  destruct (ortho_err j A Q Q' Rb Hj IA IQ ltac:(intros i Hi; apply IGQ; auto) H1') as [O1 [O2 [O3 [O4 [O5 [O6 [O7 [O8 O9]]]]]]]].
  specialize (O7 ltac:(intros i Hi; apply (good_orthU e); apply IGA; auto)).
  assert (GQ' : ggood Q').
  { intros i k Hi Hk. destruct (Nat.eq_dec k j) as [->|]; [apply O2; auto|]. rewrite O3 by auto. apply IGQ; auto. }
  assert (HT : forall i, (i < p)%nat -> wf (QT i)).
  { intros i Hi. pose proof (collectv_spec _ _ _ _ H2 i Hi) as E. cbv beta in E. destruct (O1 i j Hi Hj) as [B1 _].
    destruct (transpose_spec _ B1 (transpose_ok_no_empty _ _ E)) as [B [E' [W _]]]. rewrite E in E'. inversion E'; subst B. auto. }
  apply (for_loop_inv_out _ _ _ _ (fun t s =>
    mtiles (fst s) /\ ggood (fst s) /\ (forall i l, (l <= j)%nat \/ (j + t < l)%nat -> fst s i l = A i l) /\
    rtiles (snd s) /\ rflat (snd s) /\ (forall i l, i <> j \/ (l < j)%nat \/ (j + t < l)%nat -> snd s i l = Rg i l) /\ snd s j j = MD Rb /\ (forall k, (j < k)%nat -> (k < q)%nat -> same_layout (Rg j k) (snd s j k)) /\
    (forall i k, (i < p)%nat -> (j < k)%nat -> (k <= j + t)%nat -> (k < q)%nat -> let P := mmul (w j) (ent (Q' i j)) (ent (snd s j k)) in
       fro (h i) (w k) (msub (ent (fst s i k)) (msub (ent (A i k)) P)) <= v * (fro (h i) (w k) (ent (fst s i k)) + fro (h i) (w k) P) + om))) in H3.
  2:{ simpl fst. simpl snd. split; auto. split; auto. split; auto. split.
      { intros a b Ha Hb Lab. rewrite bupd_at. destruct (Nat.eqb_spec a j) as [->|]; [destruct (Nat.eqb_spec b j) as [->|]|]; simpl; auto. }
      split. { intros a b Lab Hb. rewrite bupd_at. destruct (Nat.eqb_spec a j) as [->|]; [destruct (Nat.eqb_spec b j) as [->|]|]; simpl; auto. }
      split. { intros a b Lab. apply bupd_oth. lia. }
      split. { rewrite bupd_at, Nat.eqb_refl. reflexivity. }
      split. { intros k Hk1 Hk2. rewrite bupd_oth by lia. apply same_layout_refl. } intros; lia. }
  2:{ intros t [X Y] [X' Y'] Ht [X1 [X2 [X3 [Y1 [Y2 [Y3 [Y4 [Y5 Z]]]]]]]] Hs. cbn [fst snd] in *. set (k := (S j + t)%nat) in *.
      apply bind_Ok in Hs. destruct Hs as [[X0 r0] [Hup Hs]]. inversion Hs; subst X0 Y'; clear Hs.
      assert (Hk : (k < q)%nat) by lia. destruct (Y1 j k Hj Hk ltac:(lia)) as [B1 [B2 B3]].
      destruct (update_err j k QT Q' X X' (Y j k) r0 Hj Hk X1 X2 O1 ltac:(intros i Hi; apply (good_flat e); auto) B1 (Y2 j k ltac:(lia) Hk) B2 B3 HT Hup)
        as [U1 [U2 [U3 [U4 [U5 [U6 [U7 [U9 U8]]]]]]]].
      split; auto. split; auto. split. { intros i l Hl. rewrite U3 by lia. apply X3. lia. }
      split. { intros a b Ha Hb Lab. rewrite bupd_at. destruct (Nat.eqb_spec a j) as [->|]; [destruct (Nat.eqb_spec b k) as [->|]|]; simpl; auto. }
      split. { intros a b Lab Hb. rewrite bupd_at. destruct (Nat.eqb_spec a j) as [->|]; [destruct (Nat.eqb_spec b k) as [->|]|]; simpl; auto. }
      split. { intros a b Lab. rewrite bupd_oth by lia. apply Y3. lia. }
      split. { rewrite bupd_oth by lia. auto. }
      split. { intros k' L1 L2. rewrite bupd_at, Nat.eqb_refl. destruct (Nat.eqb_spec k' k) as [->|]; cbn [andb]; auto.
        eapply same_layout_trans; [apply Y5; lia|exact U9]. }
      intros i k' Hi L1 L2 L3. destruct (Nat.eq_dec k' k) as [->|].
      - rewrite bupd_at, !Nat.eqb_refl. cbn [andb]. specialize (U8 i Hi). rewrite (X3 i k) in U8 by lia. exact U8.
      - rewrite bupd_oth by auto. rewrite U3 by auto. apply Z; auto. lia. }
  cbn [fst snd] in H3. destruct H3 as [A1 [A2 [A3 [R1 [R2 [R3 [R4 [R5 Z]]]]]]]].
  assert (QE : forall i j', (j' < j)%nat -> Q' i j' = Q i j') by (intros; apply O3; lia).
  assert (RE : forall j' k, (j' < j)%nat -> Rg' j' k = Rg j' k) by (intros; apply R3; lia).
  assert (PE : forall i k t', (t' < j)%nat -> qp Q' Rg' i k t' = qp Q Rg i k t') by (intros; unfold qp; rewrite QE, RE by auto; reflexivity).
  split; auto.
  - intros i k Hik. rewrite R3 by lia. apply IR0. lia.
  - eapply layouts_trans; eauto.
  - intros i k Hik Hk. destruct (Nat.eq_dec i j) as [->|]; [|rewrite R3 by auto; apply ILR; auto].
    eapply same_layout_trans; [apply (ILR j k); auto|]. apply R5; auto.
  - intros k Hk. destruct (Nat.eq_dec k j) as [->|].
    + destruct O9 as [Y [Qb E]]. exists Y, Qb, Rb. auto.
    + rewrite RE by lia. apply IT. lia.
  - intros k Hk. destruct (Nat.eq_dec k j) as [->|]; [exact O7|].
    destruct (IO k ltac:(lia)) as [X [X1 X2]]. exists X. split; auto. intros i Hi. rewrite QE by lia. apply X2; auto.
  - intros k Hk. destruct (Nat.eq_dec k j) as [->|].
    + intros i Hi. pose proof (chain_ext v om _ _ _ _ _ (qp Q' Rg' i j) _ (PE i j) (IX i j Hi (le_n _) Hj)) as CH.
      assert (EL : qp Q' Rg' i j j = mmul (w j) (ent (Q' i j)) (d_e Rb)) by (unfold qp; rewrite R4; reflexivity).
      assert (LM : lam Q' Rg' i j j = fro (h i) (w j) (ent (Q' i j)) * fro (w j) (w j) (d_e Rb)) by (unfold lam; rewrite R4; reflexivity).
      pose proof (chain_end v om V0 O0 _ _ _ _ _ _ (lam Q' Rg' i j j) (fro (w j) (w j) (ent (Rg' j j))) CH ltac:(apply fro_nonneg)) as CE.
      specialize (CE ltac:(rewrite EL, LM; apply fro_mul)).
      specialize (CE ltac:(rewrite EL, LM, R4; eapply Rle_trans; [apply (O6 i Hi)|]; right; cbn [ent]; ring)).
      eapply Rle_trans; [exact CE|]. apply Rplus_le_compat_r.
      apply Rmult_le_compat_l; [pose proof (pow_R1_Rle (1 + v) (S j) ltac:(lra)); lra|].
      change (rsum (S j) (lam Q' Rg' i j)) with (rsum j (lam Q' Rg' i j) + lam Q' Rg' i j j). apply Rplus_le_compat_r.
      apply sum_le. intros t' _. unfold qp, lam. apply fro_mul.
    + apply (tile_done_ext A0 Q Rg); [intros; apply QE; lia|intros; apply RE; lia|]. apply ID. lia.
  - intros i k Hi Hk1 Hk2. apply (chain_step v om V0 _ _ _ (ent (A i k))).
    + apply (chain_ext v om _ _ _ _ (qp Q Rg i k)); [intros; apply PE; auto|]. apply IX; auto. lia.
    + apply (Z i k Hi); lia.
Qed.

(** ** Whole matrices *)
Hypothesis Hq : (0 < q)%nat.

Lemma pow_v_mono k : (k <= q)%nat -> (1 + v) ^ k <= (1 + v) ^ q.
Proof using Hu Huu1 Huv. clear Hp Hq. intros Hk. apply Rle_pow; [pose proof v_pos; lra|auto]. Qed.

Lemma pow_sum_le k : (k <= q)%nat -> rsum k (fun j => (1 + v) ^ j) <= INR q * (1 + v) ^ q.
Proof using Hu Huu1 Huv.
  clear Hp Hq. intros Hk. pose proof (pow_lt (1 + v) q ltac:(pose proof v_pos; lra)) as P.
  apply Rle_trans with (INR k * (1 + v) ^ q); [|apply Rmult_le_compat_r; [lra|apply le_INR; auto]].
  induction k as [|k IH]; [cbn; lra|].
  change (rsum (S k) (fun j => (1 + v) ^ j)) with (rsum k (fun j => (1 + v) ^ j) + (1 + v) ^ k).
  rewrite S_INR. specialize (IH ltac:(lia)). pose proof (pow_v_mono k ltac:(lia)). lra.
Qed.

Lemma mgs_grid_inv fuel (a b r : grid) A' Q' R' : mtiles a -> mtiles b -> ggood a -> ggood b ->
  rshape (MH q q r) -> (forall j, (j < q)%nat -> ncols (r 0%nat j) = w j) -> rflat r -> (forall j, (j < q)%nat -> exists d, r j j = MD d) ->
  mgs_qr L Or gfuel fuel (MH p q a) (MH p q b) (MH q q r) = Ok (A', Q', R') ->
  exists a' b' r', A' = MH p q a' /\ Q' = MH p q b' /\ R' = MH q q r' /\ err_inv a b r q a' b' r'.
Proof using He Hu Htau HA Huu1 Huv Huw HL Hp Hh Hw Hq.
  intros TA TB GA GB RS EW FR DR H.
  destruct fuel as [|fuel]; [discriminate|].
  cbn [mgs_qr] in H. rewrite !Nat.eqb_refl in H.
  apply bind_Ok in H. destruct H as [[[a' b'] r'] [H E]]. inversion E; subst A' Q' R'; clear E.
  exists a', b', r'. do 3 (split; auto).
  pose proof RS as [_ [_ [RB RD]]].
  assert (TR0 : rtiles r).
  { intros i j Hi Hj Hij. destruct (RB i j Hi Hj) as [W [D1 [D2 _]]]. rewrite !EW in * by auto. auto. }
  apply (for_loop_inv_out _ _ _ _ (fun t s => err_inv a b r t (fst (fst s)) (snd (fst s)) (snd s))) in H.
  2:{ cbn [fst snd]. split; auto; try (intros; lia).
      - apply layouts_refl.
      - intros. apply same_layout_refl.
      - intros. apply chain_0. }
  2:{ intros t [[A1 Q1] R1] [[A2 Q2] R2] Ht HI Hs. cbn [fst snd] in *. eapply step_err; [|exact Ht|exact HI|exact Hs].
      intros Q3 r3 Ho. destruct (DR t Ht) as [d Ed]. rewrite Ed in Ho. cbv beta iota in Ho.
      apply bind_Ok in Ho. destruct Ho as [[Q4 Rb] [Ho E]]. inversion E; subst Q4 r3. exists Rb. auto. }
  exact H.
Qed.

Theorem mgs_grid_err fuel (a b r : grid) A' Q' R' : mtiles a -> mtiles b -> ggood a -> ggood b ->
  rshape (MH q q r) -> (forall j, (j < q)%nat -> ncols (r 0%nat j) = w j) -> rflat r -> (forall j, (j < q)%nat -> exists d, r j j = MD d) ->
  mgs_qr L Or gfuel fuel (MH p q a) (MH p q b) (MH q q r) = Ok (A', Q', R') ->
  let N := offs h p in let n := offs w q in
  wf Q' /\ nrows Q' = N /\ ncols Q' = n /\ wf R' /\ nrows R' = n /\ ncols R' = n /\
  (forall j, (j < q)%nat -> exists X : mat, orth_cols (R := Rring) N (w j) X /\
    let B := mwin (R := Rring) 0 (offs w j) (ent Q') in fro N (w j) (msub B X) <= v * fro N (w j) B + sqrt (INR p) * om) /\
  fro N n (msub (ent (MH p q a)) (mmul n (ent Q') (ent R'))) <=
    ((1 + v) ^ q - 1) * (fro N n (ent Q') * fro n n (ent R')) + sqrt (INR p * INR q) * (om * (1 + v) ^ q * (fro n n (ent R') + INR q)).
Proof using He Hu Htau HA Huu1 Huv Huw HL Hp Hh Hw Hq.
  intros TA TB GA GB RS EW FR DR H N n. pose proof v_pos as V0. pose proof om_pos as O0.
  destruct (mgs_grid_inv fuel a b r A' Q' R' TA TB GA GB RS EW FR DR H) as [a' [b' [r' [-> [-> [-> INV]]]]]]. clear H.
  pose proof RS as [_ [_ [RB RD]]].
  destruct INV as [_ _ IQ _ IR _ IR0 _ _ _ IO ID _].
  assert (TR : MgsProofs.mtiles q q w w r').
  { intros i j Hi Hj. destruct (le_lt_dec i j) as [Lij|Lij]; [apply IR; auto|].
    rewrite IR0 by lia. destruct (RB i j Hi Hj) as [W [D1 [D2 _]]]. rewrite !EW in * by auto. auto. }
  destruct (grid_dims p q h w b' Hp Hq IQ) as [WQ [Q1 Q2]]. destruct (grid_dims q q w w r' Hq Hq TR) as [WR [R1 R2]].
  do 6 (split; auto).
  assert (SA : QrApply.shaped (R := Rring) p q h w a) by (intros i j Hi Hj; apply TA; auto).
  assert (SQ : QrApply.shaped (R := Rring) p q h w b') by (intros i j Hi Hj; apply IQ; auto).
  assert (SR : QrApply.shaped (R := Rring) q q w w r') by (intros i j Hi Hj; apply TR; auto).
  pose proof (pow_lt (1 + v) q ltac:(lra)) as PQ. pose proof (pow_R1_Rle (1 + v) q ltac:(lra)) as PQ1.
  split.
  { intros j Hj. destruct (IO j Hj) as [X [X1 X2]]. exists X. split; auto. cbv zeta.
    set (B := mwin (R := Rring) 0 (offs w j) (ent (MH p q b'))).
    assert (EB : forall i, (i < p)%nat -> feq (h i) (w j) (mwin (R := Rring) (offs h i) 0 B) (ent (b' i j))).
    { intros i Hi x y Hx Hy. pose proof (TrmmErr.whole_win p q h w b' i j SQ Hi Hj x y Hx Hy) as E. exact E. }
    apply (column_err h p (w j) v (sqrt (INR p) * om) om _ _ V0 O0 eq_refl). intros i Hi.
    rewrite (fro_ext _ _ _ _ (EB i Hi)). eapply Rle_trans; [|apply (X2 i Hi)]. right. apply fro_ext.
    intros x y Hx Hy. unfold MatFun.msub at 2. rewrite <- (EB i Hi x y Hx Hy). reflexivity. }
  apply blocks_product_err3; [lra| |].
  { apply Rmult_le_pos; [apply Rmult_le_pos; lra|]. pose proof (fro_nonneg n n (ent (MH q q r'))). pose proof (pos_INR q). lra. }
  intros i k Hi Hk.
  assert (EQ : forall j, (j < q)%nat -> bnorm h w (ent (MH p q b')) i j = fro (h i) (w j) (ent (b' i j))).
  { intros j Hj. apply fro_ext. apply (TrmmErr.whole_win p q h w b' i j SQ Hi Hj). }
  assert (ER : forall j l, (j < q)%nat -> (l < q)%nat -> bnorm w w (ent (MH q q r')) j l = fro (w j) (w l) (ent (r' j l))).
  { intros j l Hj Hl. apply fro_ext. apply (TrmmErr.whole_win q q w w r' j l SR Hj Hl). }
  rewrite (sum_ext (R := Rring) q _ (lam b' r' i k)) by (intros j Hj; rewrite EQ, ER by auto; reflexivity).
  pose proof (ID k Hk i Hi) as D.
  assert (LE : bnorm h w (msub (ent (MH p q a)) (mmul n (ent (MH p q b')) (ent (MH q q r')))) i k =
     fro (h i) (w k) (msub (ent (a i k)) (fun x y => rsum (S k) (fun j => qp b' r' i k j x y)))).
  { apply fro_ext. intros x y Hx Hy. unfold mwin at 1, MatFun.msub.
    pose proof (TrmmErr.whole_win p q h w a i k SA Hi Hk x y Hx Hy) as Wa. unfold mwin in Wa. rewrite Wa. f_equal.
    pose proof (TrmmErr.prod_win p q q h w w b' r' i k SQ SR Hi Hk x y Hx Hy) as Wp. unfold mwin in Wp. fold n in Wp. rewrite Wp.
    apply (sum_le_zero_ext (R := Rring) (S k) q); [lia|].
    intros j Hj. unfold qp. rewrite IR0 by lia. destruct (RB j k ltac:(lia) Hk) as [_ [D1 [D2 Z]]].
    assert (Z' : feq (w j) (w k) (ent (r j k)) (mzero (R := Rring))) by (rewrite <- (EW j), <- (EW k), <- D1, <- D2 by lia; apply Z; lia).
    transitivity (mmul (w j) (ent (b' i j)) (mzero (R := Rring)) x y); [|apply (mmul_zero_r (R := Rring))].
    apply (mmul_ext (R := Rring)); intros l Hl; try reflexivity; apply Z'; auto. }
  rewrite LE. eapply Rle_trans; [exact D|]. apply Rplus_le_compat.
  - apply Rmult_le_compat; [pose proof (pow_R1_Rle (1 + v) (S k) ltac:(lra)); lra| | |].
    + apply sum_nonneg. intros j _. apply Rmult_le_pos; apply fro_nonneg.
    + pose proof (pow_v_mono (S k) ltac:(lia)). lra.
    + apply rsum_more; [lia|]. intros j. apply Rmult_le_pos; apply fro_nonneg.
  - rewrite Rmult_assoc. apply Rmult_le_compat_l; [auto|].
    assert (RK : fro (w k) (w k) (ent (r' k k)) <= fro n n (ent (MH q q r'))).
    { unfold n. rewrite <- (ER k k Hk Hk), <- (bnorm_fro w w q q (ent (MH q q r'))). apply entry_le_fro; auto. apply fro_nonneg. }
    pose proof (pow_sum_le k ltac:(lia)) as PS. pose proof (pow_v_mono k ltac:(lia)) as PK.
    pose proof (fro_nonneg (w k) (w k) (ent (r' k k))) as F0.
    assert (M : (1 + v) ^ k * fro (w k) (w k) (ent (r' k k)) <= (1 + v) ^ q * fro n n (ent (MH q q r'))).
    { apply Rmult_le_compat; auto. apply pow_le. lra. }
    lra.
Qed.
End Err.
