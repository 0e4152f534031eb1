(** Block LU with truncating low-rank arithmetic: the error of the whole from the errors of the
    single updates. *)
From Coq Require Import List Arith ZArith QArith Lia Bool Reals Lra Ring_theory Ring.
From Verif Require Import Prelude Ring MatFun MatSetoid Matrix MatOps MatSpec MatOpsProofs Lapack Gemm GemmSpec GemmProofs
  GemmCorrect GemmTheorems Triangular TriAlgebra TriSpec TriProofs TriTheorems LuProofs LuCorrect Reflect ReflectSpec ReflectProofs
  ReflectTile ReflectSuccess QrBig QrTiled QrApply SvdRank Householder HouseQr HouseReal Rrqr RrqrRank EckartYoung FroNorm QrErrTile QrErrReal LuErr.
From Verif Require Spectral ConstructError TrmmErr.
Import ListNotations.
Local Open Scope R_scope.

(** ** Solves with a flat right-hand side are exact *)

Section Solve.
Variable Or : oracles Rring.
Hypothesis HS : oracles_shape Or.
Variable rinv : R -> R.
Variable gfuel : nat.
Notation trsm := (trsm (R := Rring) rinv Or gfuel).
Let HN : oracles_near (upto (call_error Or)) Or := shape_near_upto Or HS.

Lemma trsm_lr (A : matrix) (l : lowrank) md s X : trsm A (ML l) md s = Ok X ->
  exists x, trsm A (MD (side_factor s l)) md s = Ok (MD x) /\ X = ML (set_factor s l x).
Proof.
  destruct A as [d|?|m n a|? ?]; intros H; try discriminate; cbn [Triangular.trsm] in *.
  - apply bind_Ok in H. destruct H as [x [Hx H]]. inversion H; subst X. exists x. rewrite Hx. auto.
  - apply bind_Ok in H. destruct H as [x [Hx H]]. inversion H; subst X. exists x. rewrite Hx. auto.
Qed.

Lemma trsm_flat_exact (A B : matrix) md s X : wf A -> wf B -> flat B -> tri_shape A -> nrows A = along s (nrows B) (ncols B) ->
  diag_ok (R := Rring) rinv md (nrows A) (ent A) -> trsm A B md s = Ok X ->
  wf X /\ same_layout B X /\ feq (nrows B) (ncols B) (tri_prod (R := Rring) s (nrows A) (tri (R := Rring) md (unit_of md) (ent A)) (ent X)) (ent B).
Proof.
  intros WA WB FB TS En Hd H.
  assert (K : forall d X, nrows A = along s (d_r d) (d_c d) -> trsm A (MD d) md s = Ok X ->
    exists x, X = MD x /\ d_r x = d_r d /\ d_c x = d_c d /\
    feq (d_r d) (d_c d) (tri_prod (R := Rring) s (nrows A) (tri (R := Rring) md (unit_of md) (ent A)) (d_e x)) (d_e d)).
  { clear B X WB FB En H. intros d X En H.
    assert (HC : conf s A (MD d)) by (destruct A; exact I).
    destruct (trsm_ok _ Or HN rinv gfuel A (MD d) md s X) as [_ [L [_ F]]]; auto; [exact I|].
    destruct X as [x| | |]; simpl in L; try contradiction. exists x. destruct L. split; auto. split; auto. split; auto. apply F. exact I. }
  destruct B as [d|l|? ? ?|? ?]; try destruct FB.
  - destruct (K d X En H) as [x [-> [E1 [E2 F]]]]. split; [exact I|]. split; [simpl; auto|]. exact F.
  - destruct (trsm_lr A l md s X H) as [x [Hx ->]].
    assert (En' : nrows A = along s (d_r (side_factor s l)) (d_c (side_factor s l))).
    { rewrite En. destruct WB as [W1 [W2 [W3 W4]]]. destruct s; simpl in *; lia. }
    destruct (K _ _ En' Hx) as [x' [Ex [E1 [E2 F]]]]. inversion Ex; subst x'; clear Ex.
    split; [simpl; apply set_factor_wf; auto|]. split; [destruct s; simpl; auto|].
    change (nrows (ML l)) with (l_r l) in *. change (ncols (ML l)) with (l_c l) in *.
    change (ent (ML l)) with (lr_ent l). change (ent (ML (set_factor s l x))) with (lr_ent (set_factor s l x)).
    rewrite En. eapply feq_trans.
    + apply set_factor_ent with (g := d_e (side_factor s l)); auto. rewrite <- En. rewrite E1, E2. exact F.
    + rewrite E1, E2. rewrite set_factor_same. apply feq_refl.
Qed.
End Solve.

(** ** The blocks *)

Section Blocks.
Variable Or : oracles Rring.
Hypothesis HS : oracles_shape Or.
Variable rinv : R -> R.
Variable gfuel : nat.
Notation trsm := (trsm (R := Rring) rinv Or gfuel).
Notation acc_gemm := (acc_gemm (R := Rring) Or gfuel).
Let N := upto (call_error Or).
Let HN : oracles_near N Or := shape_near_upto Or HS.

Variable m : nat.
Variables a L U : nat -> nat -> matrix.
Variable rec : matrix -> outcome (matrix * matrix).
Hypothesis Wa : wf (MH m m a).
Hypothesis HL : lu_shape (MH m m a).
Hypothesis Hrec : forall c l u, wf c -> lu_shape c -> udiag (R := Rring) rinv u -> rec c = Ok (l, u) -> lu_of (R := Rring) N c l u.
Hypothesis HU : forall i, (i < m)%nat -> udiag (R := Rring) rinv (U i i).
Hypothesis Hchar : forall p q, (p < m)%nat -> (q < m)%nat ->
  exists c, for_loop (Nat.min p q) (fun k c => acc_gemm rm1 (L p k) (U k q) c) (a p q) = Ok c /\
    (p = q -> rec c = Ok (L p p, U p p)) /\
    (q < p -> trsm (U q q) c Upper SRight = Ok (L p q) /\ U p q = ME (nrows c) (ncols c))%nat /\
    (p < q -> trsm (L p p) c Lower SLeft = Ok (U p q) /\ L p q = ME (nrows c) (ncols c))%nat.
(** Off-diagonal blocks are Dense or LowRank. *)
Hypothesis Hflat : forall p q, (p < m)%nat -> (q < m)%nat -> p <> q -> flat (a p q).
Let h := bheight a.

Lemma done_all p q : (p < m)%nat -> (q < m)%nat -> done (R := Rring) N a L U p q.
Proof.
  intros Hp Hq. apply (all_done N Or HN rinv gfuel m a L U rec Wa HL Hrec m) with (r := m); auto; lia.
Qed.

(** Off-diagonal blocks of the factors have the format of those of A. *)
Lemma factor_layout p q : (p < m)%nat -> (q < m)%nat ->
  ((q < p)%nat -> same_layout (a p q) (L p q)) /\ ((p < q)%nat -> same_layout (a p q) (U p q)).
Proof.
  intros Hp Hq. destruct (Hchar p q Hp Hq) as [c [Hc [_ [C2 C3]]]].
  destruct (updated N Or HN gfuel m a L U Wa HL p q Hp Hq (fun p' q' Hp' Hq' _ => done_all p' q' Hp' Hq') c Hc) as [Wc [Lc [Nr [Nc _]]]].
  fold h in Nr, Nc.
  split; intros Hpq.
  - destruct (C2 Hpq) as [Ht _].
    destruct (done_all q q Hq Hq) as [[_ [WU [_ [_ [F3 F4]]]]] [Hd _]]. destruct (Hd eq_refl) as [_ [TU [_ [_ [_ Up]]]]].
    assert (Fc : flat c). { pose proof (Hflat p q Hp Hq ltac:(lia)) as FF. destruct (a p q), c; simpl in Lc; try contradiction; auto. }
    destruct (trsm_flat_exact Or HS rinv gfuel (U q q) c Upper SRight (L p q) WU Wc Fc TU ltac:(simpl; fold h in F3; lia)
       (udiag_diag (R := Rring) rinv (U q q) WU TU (HU q Hq)) Ht) as [_ [Lx _]].
    eapply same_layout_trans; eauto.
  - destruct (C3 Hpq) as [Ht _].
    destruct (done_all p p Hp Hp) as [[WL [_ [F1 [F2 _]]]] [Hd _]]. destruct (Hd eq_refl) as [TL [_ [_ [_ [Lo _]]]]].
    assert (Fc : flat c). { pose proof (Hflat p q Hp Hq ltac:(lia)) as FF. destruct (a p q), c; simpl in Lc; try contradiction; auto. }
    destruct (trsm_flat_exact Or HS rinv gfuel (L p p) c Lower SLeft (U p q) WL Wc Fc TL ltac:(simpl; fold h in F1; lia) ltac:(intros X; discriminate) Ht)
      as [_ [Lx _]].
    eapply same_layout_trans; eauto.
Qed.

(** What an update may do: keep the invariant [Inv] and err by v and w. *)
Variables v w : R.
Hypothesis Hv : 0 <= v.
Hypothesis Hw : 0 <= w.
Variable Inv : nat -> nat -> matrix -> Prop.
Hypothesis Inv0 : forall p q, (p < m)%nat -> (q < m)%nat -> Inv p q (a p q).
Hypothesis Hstep : forall p q k c c', (p < m)%nat -> (q < m)%nat -> (k < Nat.min p q)%nat -> wf c -> same_layout (a p q) c -> Inv p q c ->
  acc_gemm rm1 (L p k) (U k q) c = Ok c' ->
  Inv p q c' /\
  fro (h p) (h q) (msub (ent c') (msub (ent c) (mmul (h k) (ent (L p k)) (ent (U k q))))) <=
    v * (fro (h p) (h q) (ent c') + fro (h p) (h q) (mmul (h k) (ent (L p k)) (ent (U k q)))) + w.
(** The factorization of the updated diagonal blocks. *)
Variable d : nat.
Hypothesis Hdiag : forall p c l u, (p < m)%nat -> wf c -> same_layout (a p p) c -> Inv p p c -> udiag (R := Rring) rinv u -> rec c = Ok (l, u) ->
  fro (h p) (h p) (msub (ent c) (mmul (h p) (ent l) (ent u))) <= ((1 + v) ^ d - 1) * (fro (h p) (h p) (ent l) * fro (h p) (h p) (ent u)).

Lemma chain_tile p q : (p < m)%nat -> (q < m)%nat ->
  exists c, wf c /\ same_layout (a p q) c /\ Inv p q c /\
    for_loop (Nat.min p q) (fun k c => acc_gemm rm1 (L p k) (U k q) c) (a p q) = Ok c /\
    fro (h p) (h q) (msub (ent (a p q)) (madd (ent c) (fun x y => rsum (Nat.min p q) (fun k => mmul (h k) (ent (L p k)) (ent (U k q)) x y)))) <=
    ((1 + v) ^ Nat.min p q - 1) * (fro (h p) (h q) (ent c) +
        rsum (Nat.min p q) (fun k => fro (h p) (h q) (mmul (h k) (ent (L p k)) (ent (U k q))))) + w * rsum (Nat.min p q) (fun k => (1 + v) ^ k).
Proof.
  intros Hp Hq. destruct (Hchar p q Hp Hq) as [c [Hc _]]. exists c.
  assert (W0 : wf (a p q)) by apply (wf_block _ _ _ p q Wa Hp Hq).
  destruct (for_loop_trace _ _ _ _ Hc) as [st [S0 [Sn Hst]]].
  assert (J : forall k, (k <= Nat.min p q)%nat -> wf (st k) /\ same_layout (a p q) (st k) /\ Inv p q (st k)).
  { induction k as [|k IH]; intros Hk.
    - rewrite S0. split; auto. split; [apply same_layout_refl|]. auto.
    - destruct (IH ltac:(lia)) as [I1 [I2 I3]]. pose proof (Hst k ltac:(lia)) as E. cbv beta in E.
      destruct (gemm_pair_ok N Or HN gfuel) as [Hg _].
      destruct (done_all p k Hp ltac:(lia)) as [[WL [_ [DL1 [DL2 _]]]] _]. destruct (done_all k q ltac:(lia) Hq) as [[_ [WU [_ [_ [DU1 DU2]]]]] _].
      destruct (Hg _ _ _ _ _ _ _ _ WL WU I1 (trans_ok_notrans _ _ _) E) as [_ [_ [_ [W' [L' _]]]]].
      split; auto. split; [eapply same_layout_trans; eauto|].
      apply (Hstep p q k (st k) (st (S k)) Hp Hq ltac:(lia) I1 I2 I3 E). }
  destruct (J (Nat.min p q) (le_n _)) as [J1 [J2 J3]]. rewrite Sn in J1, J2, J3.
  split; auto. split; auto. split; auto. split; auto. rewrite <- Sn, <- S0.
  apply (chain_bound (h p) (h q) (fun k => ent (st k)) (fun k => mmul (h k) (ent (L p k)) (ent (U k q))) v w (Nat.min p q) Hv Hw).
  intros k Hk. destruct (J k ltac:(lia)) as [J4 [J5 J6]].
  apply (Hstep p q k (st k) (st (S k)) Hp Hq Hk J4 J5 J6 (Hst k Hk)).
Qed.

Lemma pow_mono x i j : 1 <= x -> (i <= j)%nat -> x ^ i <= x ^ j.
Proof. intros Hx Hij. apply Rle_pow; auto. Qed.

Definition lup (p q k : nat) : R := fro (h p) (h k) (ent (L p k)) * fro (h k) (h q) (ent (U k q)).
Lemma lup_pos p q k : 0 <= lup p q k.
Proof. apply Rmult_le_pos; apply fro_nonneg. Qed.

(** The last block of the chain. *)
Lemma last_tile p q c : (p < m)%nat -> (q < m)%nat -> wf c -> same_layout (a p q) c -> Inv p q c ->
  for_loop (Nat.min p q) (fun k c => acc_gemm rm1 (L p k) (U k q) c) (a p q) = Ok c ->
  let r := Nat.min p q in
  fro (h p) (h q) (msub (ent c) (mmul (h r) (ent (L p r)) (ent (U r q)))) <= ((1 + v) ^ d - 1) * lup p q r.
Proof.
  intros Hp Hq Wc Lc Ic Hc r. destruct (Hchar p q Hp Hq) as [c' [Hc' [C1 [C2 C3]]]].
  rewrite Hc in Hc'. inversion Hc'; subst c'; clear Hc'.
  assert (K0 : 0 <= (1 + v) ^ d - 1) by (pose proof (pow_R1_Rle (1 + v) d ltac:(lra)); lra).
  assert (Z : 0 <= ((1 + v) ^ d - 1) * lup p q r) by (apply Rmult_le_pos; auto; apply lup_pos).
  destruct (wf_block _ _ _ p q Wa Hp Hq) as [W0 [D1 D2]].
  destruct (same_layout_dims _ _ W0 Lc) as [E1 E2].
  assert (Hsq : forall i, (i < m)%nat -> bheight a i = bwidth a i) by apply HL.
  assert (Nr : nrows c = h p) by (unfold h; lia). assert (Nc : ncols c = h q) by (unfold h; rewrite (Hsq q Hq); lia).
  destruct (Nat.lt_total p q) as [Hpq|[Hpq|Hpq]].
  - assert (Er : r = p) by (unfold r; lia). rewrite Er in *. destruct (C3 Hpq) as [Ht _].
    destruct (done_all p p Hp Hp) as [[WL [_ [F1 [F2 _]]]] [Hd _]]. destruct (Hd eq_refl) as [TL [_ [_ [_ [Lo _]]]]].
    assert (Fc : flat c). { pose proof (Hflat p q Hp Hq ltac:(lia)) as FF. destruct (a p q), c; simpl in Lc; try contradiction; auto. }
    destruct (trsm_flat_exact Or HS rinv gfuel (L p p) c Lower SLeft (U p q) WL Wc Fc TL ltac:(simpl; fold h in F1; lia) ltac:(intros X; discriminate) Ht)
      as [_ [_ F]].
    fold h in F1, F2, Lo. rewrite Nr, Nc, F1 in F. simpl tri_prod in F.
    rewrite fro_sub0; auto. apply (feq_sym (R := Rring)).
    eapply feq_trans; [|exact F]. apply (feq_mmul (R := Rring)); [exact Lo|apply (feq_refl (R := Rring))].
  - subst q. assert (Er : r = p) by (unfold r; lia). rewrite Er in *.
    apply (Hdiag p c (L p p) (U p p) Hp Wc Lc Ic (HU p Hp) (C1 eq_refl)).
  - assert (Er : r = q) by (unfold r; lia). rewrite Er in *. destruct (C2 Hpq) as [Ht _].
    destruct (done_all q q Hq Hq) as [[_ [WU [_ [_ [F3 F4]]]]] [Hd _]]. destruct (Hd eq_refl) as [_ [TU [_ [_ [_ Up]]]]].
    assert (Fc : flat c). { pose proof (Hflat p q Hp Hq ltac:(lia)) as FF. destruct (a p q), c; simpl in Lc; try contradiction; auto. }
    destruct (trsm_flat_exact Or HS rinv gfuel (U q q) c Upper SRight (L p q) WU Wc Fc TU ltac:(simpl; fold h in F3; lia)
       (udiag_diag (R := Rring) rinv (U q q) WU TU (HU q Hq)) Ht) as [_ [_ F]].
    fold h in F3, F4, Up. rewrite Nr, Nc, F3 in F. simpl tri_prod in F.
    rewrite fro_sub0; auto. apply (feq_sym (R := Rring)).
    eapply feq_trans; [|exact F]. apply (feq_mmul (R := Rring)); [apply (feq_refl (R := Rring))|exact Up].
Qed.

Let kappa := (1 + v) ^ (m - 1 + d) - 1.
Let omega := w * rsum (m - 1) (fun k => (1 + v) ^ k).

Lemma kappa_pos : 0 <= kappa.
Proof. unfold kappa. pose proof (pow_R1_Rle (1 + v) (m - 1 + d) ltac:(lra)). lra. Qed.
Lemma omega_pos : 0 <= omega.
Proof. apply Rmult_le_pos; auto. apply sum_nonneg. intros. apply pow_le. lra. Qed.

Lemma rsum_more n n' (f : nat -> R) : (n <= n')%nat -> (forall i, 0 <= f i) -> rsum n f <= rsum n' f.
Proof.
  intros Hn Hf. induction n' as [|n' IH].
  - replace n with 0%nat by lia. lra.
  - destruct (Nat.eq_dec n (S n')) as [->|]; [lra|]. cbn [sum]. specialize (IH ltac:(lia)). pose proof (Hf n').
    eapply Rle_trans; [exact IH|]. change (rsum n' f <= rsum n' f + f n'). lra.
Qed.

Lemma tile_err p q : (p < m)%nat -> (q < m)%nat ->
  fro (h p) (h q) (msub (ent (a p q)) (fun x y => rsum (S (Nat.min p q)) (fun k => mmul (h k) (ent (L p k)) (ent (U k q)) x y))) <=
  kappa * rsum m (lup p q) + omega.
Proof.
  intros Hp Hq. destruct (chain_tile p q Hp Hq) as [c [Wc [Lc [Ic [Hc B]]]]].
  pose proof (last_tile p q c Hp Hq Wc Lc Ic Hc) as B2. cbv zeta in B2. set (r := Nat.min p q) in *.
  assert (Hr : (r <= m - 1)%nat) by (unfold r; lia).
  set (PP := fun k => mmul (h k) (ent (L p k)) (ent (U k q))) in *.
  assert (A1 : fro (h p) (h q) (msub (ent (a p q)) (fun x y => rsum (S r) (fun k => PP k x y))) <=
    fro (h p) (h q) (msub (ent (a p q)) (madd (ent c) (fun x y => rsum r (fun k => PP k x y)))) + fro (h p) (h q) (msub (ent c) (PP r))).
  { eapply Rle_trans; [|apply fro_triangle]. right. apply fro_ext. intros x y _ _. unfold MatFun.msub, MatFun.madd. cbn [sum]. rr. }
  assert (A2 : forall k, fro (h p) (h q) (PP k) <= lup p q k) by (intros k; apply fro_mul).
  assert (A3 : fro (h p) (h q) (ent c) <= fro (h p) (h q) (PP r) + fro (h p) (h q) (msub (ent c) (PP r))) by apply fro_dist.
  assert (A4 : rsum r (fun k => fro (h p) (h q) (PP k)) <= rsum r (lup p q)) by (apply sum_le; intros; apply A2).
  assert (A5 : rsum r (lup p q) + lup p q r <= rsum m (lup p q)).
  { change (rsum (S r) (lup p q) <= rsum m (lup p q)). apply rsum_more; [lia|]. intros. apply lup_pos. }
  assert (A6 : w * rsum r (fun k => (1 + v) ^ k) <= omega).
  { apply Rmult_le_compat_l; auto. apply rsum_more; auto. intros. apply pow_le. lra. }
  pose proof (A2 r) as A7. pose proof (lup_pos p q r) as A8.
  assert (A9 : 0 <= rsum r (lup p q)) by (apply sum_nonneg; intros; apply lup_pos).
  assert (K1 : 1 <= (1 + v) ^ r) by (apply pow_R1_Rle; lra).
  assert (K2 : 1 <= (1 + v) ^ d) by (apply pow_R1_Rle; lra).
  assert (K3 : (1 + v) ^ r * (1 + v) ^ d <= 1 + kappa).
  { rewrite <- pow_add. unfold kappa. pose proof (pow_mono (1 + v) (r + d) (m - 1 + d) ltac:(lra) ltac:(lia)). lra. }
  set (xr := (1 + v) ^ r) in *. set (xd := (1 + v) ^ d) in *. set (lam := lup p q r) in *. set (Sg := rsum r (lup p q)) in *.
  set (Sf := rsum r (fun k => fro (h p) (h q) (PP k))) in *. set (T := rsum m (lup p q)) in *.
  set (E1 := fro (h p) (h q) (msub (ent c) (PP r))) in *. set (cn := fro (h p) (h q) (ent c)) in *.
  set (pn := fro (h p) (h q) (PP r)) in *.
  set (E0 := fro (h p) (h q) (msub (ent (a p q)) (madd (ent c) (fun x y => rsum r (fun k => PP k x y))))) in *.
  change (E0 <= (xr - 1) * (cn + Sf) + w * rsum r (fun k => (1 + v) ^ k)) in B. change (E1 <= (xd - 1) * lam) in B2.
  eapply Rle_trans; [exact A1|]. clearbody Sg Sf T E1 E0 cn pn lam xr xd. change (car Rring) with R in *.
  assert (B3 : (xr - 1) * (cn + Sf) <= (xr - 1) * (xd * lam + Sg)) by (apply Rmult_le_compat_l; lra).
  assert (B4 : E0 + E1 <= (xr * xd - 1) * lam + (xr - 1) * Sg + omega) by lra.
  assert (B5 : (xr * xd - 1) * lam <= kappa * lam) by (apply Rmult_le_compat_r; lra).
  assert (B6 : xr <= xr * xd) by (rewrite <- (Rmult_1_r xr) at 1; apply Rmult_le_compat_l; lra).
  assert (B7 : (xr - 1) * Sg <= kappa * Sg) by (apply Rmult_le_compat_r; lra).
  assert (B8 : kappa * (Sg + lam) <= kappa * T) by (apply Rmult_le_compat_l; [apply kappa_pos|exact A5]).
  lra.
Qed.

Lemma shaped_a : shaped (R := Rring) m m h h a.
Proof.
  intros i j Hi Hj. destruct (wf_block _ _ _ i j Wa Hi Hj) as [_ [D1 D2]].
  assert (Hsq : forall i, (i < m)%nat -> bheight a i = bwidth a i) by apply HL.
  unfold h. rewrite (Hsq j Hj). auto.
Qed.
Lemma shaped_L : shaped (R := Rring) m m h h L.
Proof. intros i j Hi Hj. destruct (done_all i j Hi Hj) as [[_ [_ [D1 [D2 _]]]] _]. auto. Qed.
Lemma shaped_U : shaped (R := Rring) m m h h U.
Proof. intros i j Hi Hj. destruct (done_all i j Hi Hj) as [[_ [_ [_ [_ [D1 D2]]]]] _]. auto. Qed.

Theorem blocks_err : let n := nrows (MH m m a) in
  fro n n (msub (ent (MH m m a)) (mmul n (ent (MH m m L)) (ent (MH m m U)))) <=
  kappa * (fro n n (ent (MH m m L)) * fro n n (ent (MH m m U))) + INR m * omega.
Proof.
  intros n. assert (En : n = offs h m) by reflexivity. rewrite En.
  apply blocks_product_err; [apply kappa_pos|apply omega_pos|].
  intros p q Hp Hq.
  assert (EL : forall k, (k < m)%nat -> bnorm h h (ent (MH m m L)) p k = fro (h p) (h k) (ent (L p k))).
  { intros k Hk. apply fro_ext. apply (TrmmErr.whole_win m m h h L p k shaped_L Hp Hk). }
  assert (EU : forall k, (k < m)%nat -> bnorm h h (ent (MH m m U)) k q = fro (h k) (h q) (ent (U k q))).
  { intros k Hk. apply fro_ext. apply (TrmmErr.whole_win m m h h U k q shaped_U Hk Hq). }
  rewrite (sum_ext (R := Rring) m _ (lup p q)) by (intros k Hk; rewrite EL, EU by auto; reflexivity).
  eapply Rle_trans; [|apply (tile_err p q Hp Hq)]. right. apply fro_ext.
  intros x y Hx Hy. unfold mwin at 1, MatFun.msub.
  pose proof (TrmmErr.whole_win m m h h a p q shaped_a Hp Hq x y Hx Hy) as Wa'. unfold mwin in Wa'. rewrite Wa'. f_equal.
  pose proof (TrmmErr.prod_win m m m h h h L U p q shaped_L shaped_U Hp Hq x y Hx Hy) as Wp. unfold mwin in Wp. rewrite Wp.
  apply (sum_le_zero_ext (R := Rring) (S (Nat.min p q)) m); [lia|].
  intros k Hk. destruct (Nat.lt_ge_cases p k) as [Hpk|Hpk].
  - destruct (done_all p k Hp ltac:(lia)) as [_ [_ [_ [HE _]]]]. rewrite HE by lia. simpl. apply (mmul_zero_l (R := Rring)).
  - destruct (done_all k q ltac:(lia) Hq) as [_ [_ [HE _]]]. rewrite HE by lia. simpl. apply (mmul_zero_r (R := Rring)).
Qed.
End Blocks.
