(** The product of two matrices of Dense and LowRank tiles that overwrites a third
    (gemm.cpp:420-442 with beta 0), with low-rank additions that truncate. *)
From Coq Require Import List Arith ZArith QArith Qreals Lia Bool Reals Lra String Ring_theory Ring.
From Verif Require Import Prelude Ring MatFun MatSetoid Matrix MatOps MatSpec MatOpsProofs Lapack Gemm GemmSpec GemmProofs
  GemmCorrect GemmTheorems Triangular TriAlgebra TriSpec TriProofs TriTheorems Reflect ReflectSpec ReflectProofs ReflectTile ReflectSuccess
  QrBig QrTiled QrStep QrApply QrTheorems QrSuccess RealQr SvdRank Householder HouseQr HouseReal Rrqr RrqrRank EckartYoung
  FroNorm QrErrTile QrErrStep QrErrApply QrErrSucc QrErrReal ConstructError TrmmErr.
Import ListNotations.
Local Open Scope R_scope.

Section Gram.
Notation matrix := (matrix Rring).
Notation lowrank := (lowrank Rring).
Notation grid := (grid Rring).
Notation xmat := (mat Rring).
Notation xsub := (msub (R := Rring)).
Notation xmul := (mmul (R := Rring)).
Notation xfeq := (feq (R := Rring)).
Variables (e : Q) (u tau : R) (nb : nat).
Hypothesis He : Qeq_bool e 0 = false.
Hypothesis Hu : 0 <= u <= 1.
Hypothesis Htau : 0 <= tau.
Variable Or : oracles Rring.
Hypothesis HA : accurate e u tau nb (no_compression Or).
Hypothesis HT : forall a b : lowrank, lr_wf a -> lr_wf b -> l_r a = l_r b -> l_c a = l_c b -> good e (ML a) -> exists c, lr_add Or a b = Ok c.

Definition one_lr (A B C : matrix) : Prop := is_lr A \/ is_lr B \/ is_dense C.

(** The first product: what was in C does not matter. *)
Lemma first_err (A B C : matrix) : flat A -> flat B -> good e C -> wf A -> wf B -> wf C -> one_lr A B C ->
  nrows A = nrows C -> ncols A = nrows B -> ncols B = ncols C ->
  let r := nrows C in let c := ncols C in let P := xmul (ncols A) (ent A) (ent B) in
  exists C', gemm Or 1 A B C (1%r : car Rring) (0%r : car Rring) false false = Ok C' /\
    wf C' /\ same_layout C C' /\ good e C' /\ fro r c (xsub (ent C') P) <= u * fro r c P.
Proof.
  intros FA FB GC WA WB WC HC E1 E2 E3 r c P. pose proof (fro_nonneg r c P) as P0.
  assert (ZP : 0 <= u * fro r c P) by (apply Rmult_le_pos; lra).
  destruct C as [d|l|? ? ?|? ?]; try destruct GC.
  - assert (X : exists C', gemm left_oracles 1 A B (MD d) (1%r : car Rring) (0%r : car Rring) false false = Ok C').
    { apply (gemm_flat_ok left_oracles left_oracles_shape left_oracles_total); auto. }
    destruct X as [C' H]. exists C'. split; [rewrite (gemm_into_dense Or) by auto; exact H|].
    apply (gemm_exact left_oracles left_oracles_near) in H; auto; [|apply trans_ok_notrans]. destruct H as [W [L V]].
    split; auto. split; auto. split; [destruct C'; simpl in L; try contradiction; exact I|].
    rewrite fro_sub0; auto. intros i j Hi Hj. rewrite (V i j Hi Hj). unfold gemm_value, MatFun.madd, mscale, mop, opc. cbn [ent]. fold P.
    generalize (P i j). generalize (d_e d i j). intros x y. rr.
  - assert (GL : good e (ML l)) by (simpl; tauto).
    destruct (gemm_factor A B l (1%r : car Rring) (0%r : car Rring) false false) as [x [WX [X1 [X2 [EX EG]]]]]; auto.
    { intros BD. destruct HC as [[y ->]|[[y ->]|[d HC]]]; [destruct B|destruct A|discriminate]; destruct BD. }
    rewrite EG. unfold acc_lr, lr_acc. change (l_r (lr_scale l (0%r : car Rring))) with (l_r l). change (l_c (lr_scale l (0%r : car Rring))) with (l_c l).
    rewrite (proj2 (Nat.eqb_eq _ _) (eq_sym X1)), (proj2 (Nat.eqb_eq _ _) (eq_sym X2)).
    destruct (lr_scale_spec (R := Rring) l (0%r : car Rring) WC) as [Ws Es].
    assert (Gs : good e (ML (lr_scale l (0%r : car Rring)))) by exact GL.
    destruct (HT (lr_scale l (0%r : car Rring)) x) as [d Hd]; auto; try (cbn [lr_scale l_r l_c]; congruence).
    rewrite Hd. cbn [bind]. exists (ML d). split; auto.
    destruct (os_add _ (ac_shape _ _ _ _ _ HA) _ _ d Ws WX ltac:(simpl; auto) ltac:(simpl; auto) Hd) as [W1 [W2 W3]]. cbn [lr_scale l_r l_c] in W2, W3.
    destruct (ac_add _ _ _ _ _ HA _ _ d Ws WX ltac:(simpl; auto) ltac:(simpl; auto) Gs Hd) as [G' B']. cbn [lr_scale l_r l_c] in B'.
    assert (E : xfeq r c (madd (R := Rring) (lr_ent (lr_scale l (0%r : car Rring))) (lr_ent x)) P).
    { intros i j Hi Hj. unfold MatFun.madd. rewrite (Es i j Hi Hj), (EX i j Hi Hj). unfold mscale, mop, opc. fold P.
      generalize (lr_ent l i j). generalize (P i j). intros y z. rr. }
    split; [exact W1|]. split; [simpl; auto|]. split; [exact G'|].
    change (l_r l) with r in B'. change (l_c l) with c in B'. rewrite (fro_ext _ _ _ _ E), (fro_feq_sub _ _ _ _ _ _ (feq_refl (R := Rring) _ _ (lr_ent d)) E) in B'. exact B'.
Qed.

(** The products of one tile. *)
Lemma gram_tile f n r c (C0 : matrix) (A B : nat -> matrix) (wk : nat -> nat) : (r <= nb)%nat -> (c <= nb)%nat -> (0 < n)%nat ->
  wf C0 -> good e C0 -> nrows C0 = r -> ncols C0 = c ->
  (forall k, (k < n)%nat -> flat (A k) /\ wf (A k) /\ nrows (A k) = r /\ ncols (A k) = wk k) ->
  (forall k, (k < n)%nat -> flat (B k) /\ wf (B k) /\ nrows (B k) = wk k /\ ncols (B k) = c) ->
  (forall k, (k < n)%nat -> one_lr (A k) (B k) C0) ->
  exists X, for_loop n (fun k x => gemm Or (S f) (A k) (B k) x (1%r : car Rring) (if (k =? 0)%nat then (0%r : car Rring) else (1%r : car Rring)) false false) C0 = Ok X /\
    wf X /\ good e X /\ nrows X = r /\ ncols X = c /\
    fro r c (xsub (ent X) (fun i s => rsum n (fun k => xmul (wk k) (ent (A k)) (ent (B k)) i s))) <=
      ((1 + u) ^ n - 1) * rsum n (fun k => fro r (wk k) (ent (A k)) * fro (wk k) c (ent (B k))).
Proof.
  intros N1 N2 Hn W0 G0 R0 C0' HAt HB HO.
  set (P := fun k => xmul (wk k) (ent (A k)) (ent (B k))).
  set (b := fun k => fro r (wk k) (ent (A k)) * fro (wk k) c (ent (B k))).
  set (St := fun n : nat => (fun i s => rsum n (fun k => P k i s)) : xmat).
  set (st := fun n : nat => rsum n b).
  assert (Bp : forall k, 0 <= b k) by (intros; apply Rmult_le_pos; apply fro_nonneg).
  assert (NP : forall k, fro r c (P k) <= b k) by (intros; unfold P, b; apply fro_mul).
  destruct (for_loop_inv n (fun k x => gemm Or (S f) (A k) (B k) x (1%r : car Rring) (if (k =? 0)%nat then (0%r : car Rring) else (1%r : car Rring)) false false) C0
    (fun t X => wf X /\ good e X /\ same_layout C0 X /\ nrows X = r /\ ncols X = c /\
       ((0 < t)%nat -> fro r c (xsub (ent X) (St t)) <= ((1 + u) ^ t - 1) * st t) /\ fro r c (St t) <= st t)) as [X [EX [W [G [L [D1 [D2 [HX _]]]]]]]].
  - split; auto. split; auto. split; [apply same_layout_refl|]. split; auto. split; auto. split; [lia|].
    unfold st. cbn [sum]. right. transitivity (fro r c (mzero (R := Rring))); [apply fro_ext; intros i s _ _; reflexivity|apply fro_zero].
  - intros t X Ht [W [G [L [D1 [D2 [EX SX]]]]]].
    destruct (HAt t Ht) as [FA [WA [A1 A2]]]. destruct (HB t Ht) as [FB [WB [B1 B2]]].
    assert (OX : one_lr (A t) (B t) X).
    { destruct (HO t Ht) as [H|[H|[d H]]]; [left; auto|right; left; auto|right; right]. rewrite H in L. destruct X; try destruct L. eexists. reflexivity. }
    rewrite (gemm_flat_fuel Or f) by (auto; exact (good_flat _ _ G)).
    assert (E2 : xfeq r c (St (S t)) (madd (R := Rring) (St t) (P t))) by (intros i s _ _; reflexivity).
    assert (SS : st (S t) = st t + b t) by reflexivity.
    assert (S1 : fro r c (St (S t)) <= st (S t)).
    { rewrite (fro_ext _ _ _ _ E2). eapply Rle_trans; [apply (fro_triangle r c (St t) (P t))|]. specialize (NP t). lra. }
    destruct t as [|t].
    + rewrite Nat.eqb_refl.
      destruct (first_err (A 0%nat) (B 0%nat) X FA FB G WA WB W OX ltac:(congruence) ltac:(congruence) ltac:(congruence)) as [Y [HY [WY [LY [GY EY]]]]].
      exists Y. split; auto. destruct (layout_dims_flat _ _ (good_flat _ _ G) LY) as [Y1 Y2].
      split; auto. split; auto. split; [eapply same_layout_trans; eauto|]. split; [congruence|]. split; [congruence|]. split; auto. intros _.
      rewrite D1, D2, A2 in EY. fold (P 0%nat) in EY.
      assert (E1 : xfeq r c (St 1%nat) (P 0%nat)) by (intros i s _ _; unfold St; cbn [sum]; rr).
      rewrite (fro_feq_sub _ _ _ _ _ _ (feq_refl (R := Rring) _ _ (ent Y)) E1).
      eapply Rle_trans; [exact EY|]. unfold st. cbn [sum pow]. specialize (NP 0%nat).
      assert (u * fro r c (P 0%nat) <= u * b 0%nat) by (apply Rmult_le_compat_l; lra). change (car Rring) with R in *. cbn. lra.
    + cbn [Nat.eqb].
      destruct (gemm_good_ok e u Hu (no_compression Or) HT (A (S t)) (B (S t)) X (1%r : car Rring) false false FA FB G WA WB W OX) as [Y HY]; try (unfold opr, opc; congruence).
      exists Y. split; [exact (gemm_le Or (A (S t)) (B (S t)) X _ _ _ _ FA FB (good_flat _ _ G) Y HY)|].
      destruct (gemm_err e u tau nb He Hu Htau (no_compression Or) HA (A (S t)) (B (S t)) X (1%r : car Rring) false false Y FA FB G WA WB W ltac:(lia) ltac:(lia) HY)
        as [WY [LY [GY [DY [EY _]]]]].
      rewrite D1, D2 in EY, DY.
      destruct (layout_dims_flat _ _ (good_flat _ _ G) LY) as [Y1 Y2].
      split; auto. split; auto. split; [eapply same_layout_trans; eauto|]. split; [congruence|]. split; [congruence|].
      split; [|exact S1]. intros _. specialize (EX ltac:(lia)).
      set (X1 := madd (R := Rring) (ent X) (prod (1%r : car Rring) false false (A (S t)) (B (S t)))) in *.
      assert (EY' : fro r c (xsub (ent Y) X1) <= u * fro r c X1).
      { pose proof (fro_nonneg r c X1) as F0. destruct OX as [[l El]|[[l El]|[d Ed]]].
        - apply EY. rewrite El. destruct (B (S t)); exact (fun x => x).
        - apply EY. rewrite El. destruct (A (S t)); exact (fun x => x).
        - rewrite (fro_sub0 r c _ _ (DY d Ed)). apply Rmult_le_pos; lra. }
      assert (E1 : xfeq r c X1 (fun i s => ent X i s + P (S t) i s)).
      { intros i s _ _. unfold X1, MatFun.madd, prod, mscale, P, opc. cbn [mop]. rewrite A2. rr. }
      assert (V1 : fro r c (xsub X1 (St (S (S t)))) = fro r c (xsub (ent X) (St (S t)))).
      { rewrite (fro_feq_sub _ _ _ _ _ _ E1 E2). apply fro_ext. intros i s _ _. unfold MatFun.msub, MatFun.madd. rr. }
      assert (V2 : fro r c X1 <= fro r c (St (S (S t))) + fro r c (xsub X1 (St (S (S t))))) by apply fro_dist.
      pose proof (fro_via r c (ent Y) X1 (St (S (S t)))) as V. rewrite V1 in V, V2.
      set (x := fro r c (xsub (ent X) (St (S t)))) in *. set (y := fro r c X1) in *. pose proof (upow_ge1 u Hu (S t)) as U1. specialize (Bp (S t)).
      assert (st0 : 0 <= st (S t)) by (eapply Rle_trans; [|exact SX]; apply fro_nonneg).
      assert (x <= ((1 + u) ^ (S t) - 1) * st (S (S t))) by (eapply Rle_trans; [exact EX|]; apply Rmult_le_compat_l; lra).
      assert (u * y <= u * (st (S (S t)) + x)) by (apply Rmult_le_compat_l; lra).
      assert (u * x <= u * (((1 + u) ^ (S t) - 1) * st (S (S t)))) by (apply Rmult_le_compat_l; lra).
      change ((1 + u) ^ S (S t)) with ((1 + u) * (1 + u) ^ S t). set (z := (1 + u) ^ S t) in *. clearbody z. nra.
  - exists X. auto 10.
Qed.

(** The product of matrices of tiles. *)
Theorem gram_err f m n p h w g (A B C : grid) : (0 < m)%nat -> (0 < n)%nat -> (0 < p)%nat ->
  (forall i, (h i <= nb)%nat) -> (forall j, (w j <= nb)%nat) ->
  (forall i k, (i < m)%nat -> (k < p)%nat -> flat (A i k) /\ wf (A i k) /\ nrows (A i k) = h i /\ ncols (A i k) = g k) ->
  (forall k j, (k < p)%nat -> (j < n)%nat -> flat (B k j) /\ wf (B k j) /\ nrows (B k j) = g k /\ ncols (B k j) = w j) ->
  gtiles e m n h w C -> (forall i k j, (i < m)%nat -> (k < p)%nat -> (j < n)%nat -> one_lr (A i k) (B k j) (C i j)) ->
  exists X, gemm Or (S (S f)) (MH m p A) (MH p n B) (MH m n C) (1%r : car Rring) (0%r : car Rring) false false = Ok (MH m n X) /\
    gtiles e m n h w X /\
    fro (offs h m) (offs w n) (xsub (ent (MH m n X)) (xmul (offs g p) (ent (MH m p A)) (ent (MH p n B)))) <=
      ((1 + u) ^ p - 1) * (fro (offs h m) (offs g p) (ent (MH m p A)) * fro (offs g p) (offs w n) (ent (MH p n B))).
Proof.
  intros Pm Pn Pp Nh Nw TA TB TC HO.
  set (F := fun i j => for_loop p (fun k x => gemm Or (S f) (A i k) (B k j) x (1%r : car Rring) (if (k =? 0)%nat then (0%r : car Rring) else (1%r : car Rring)) false false) (C i j)).
  set (nA := fun i k => fro (h i) (g k) (ent (A i k))). set (nB := fun k j => fro (g k) (w j) (ent (B k j))).
  assert (T : forall i j, (i < m)%nat -> (j < n)%nat -> exists X, F i j = Ok X /\ wf X /\ good e X /\ nrows X = h i /\ ncols X = w j /\
    fro (h i) (w j) (xsub (ent X) (fun r s => rsum p (fun k => xmul (g k) (ent (A i k)) (ent (B k j)) r s))) <= ((1 + u) ^ p - 1) * xmul p nA nB i j).
  { intros i j Hi Hj. destruct (TC i j Hi Hj) as [W [C1 [C2 G]]].
    exact (gram_tile f p (h i) (w j) (C i j) (fun k => A i k) (fun k => B k j) g (Nh i) (Nw j) Pp W G C1 C2
      (fun k Hk => TA i k Hi Hk) (fun k Hk => TB k j Hk Hj) (fun k Hk => HO i k j Hi Hk Hj)). }
  destruct (collect_all m n F) as [X HX]. { intros i j Hi Hj. destruct (T i j Hi Hj) as [x [Ex _]]. eauto. }
  exists X.
  assert (TX : forall i j, (i < m)%nat -> (j < n)%nat -> wf (X i j) /\ good e (X i j) /\ nrows (X i j) = h i /\ ncols (X i j) = w j /\
    fro (h i) (w j) (xsub (ent (X i j)) (fun r s => rsum p (fun k => xmul (g k) (ent (A i k)) (ent (B k j)) r s))) <= ((1 + u) ^ p - 1) * xmul p nA nB i j).
  { intros i j Hi Hj. destruct (T i j Hi Hj) as [x [Ex P]]. pose proof (collect_spec m n F X HX i j Hi Hj) as E. rewrite Ex in E. injection E as <-. exact P. }
  assert (SA : shaped (R := Rring) m p h g A) by (intros i j Hi Hj; destruct (TA i j Hi Hj) as [? [? [? ?]]]; auto).
  assert (SB : shaped (R := Rring) p n g w B) by (intros i j Hi Hj; destruct (TB i j Hi Hj) as [? [? [? ?]]]; auto).
  assert (SC : shaped (R := Rring) m n h w C) by (intros i j Hi Hj; destruct (TC i j Hi Hj) as [? [? [? ?]]]; auto).
  assert (SX : shaped (R := Rring) m n h w X) by (intros i j Hi Hj; destruct (TX i j Hi Hj) as [? [? [? [? _]]]]; auto).
  assert (DM : forall r c h' w' (Y : grid), (0 < r)%nat -> (0 < c)%nat -> shaped (R := Rring) r c h' w' Y -> nrows (MH r c Y) = offs h' r /\ ncols (MH r c Y) = offs w' c).
  { intros r c h' w' Y Hr Hc HY. rewrite nrows_MH, ncols_MH. split; apply offs_ext; intros k Hk; [apply (HY k 0%nat)|apply (HY 0%nat k)]; auto. }
  split.
  { destruct (DM _ _ _ _ A Pm Pp SA) as [A1 A2]. destruct (DM _ _ _ _ B Pp Pn SB) as [B1 B2]. destruct (DM _ _ _ _ C Pm Pn SC) as [C1 C2].
    unfold gemm. cbn [gemm_pair fst]. unfold gemm_step at 1. unfold opr, opc. rewrite A1, A2, B1, B2, C1, C2, !Nat.eqb_refl.
    cbn [dim0 dim1]. unfold opb.
    change (collect m n _) with (collect m n F). rewrite HX. reflexivity. }
  split. { intros i j Hi Hj. destruct (TX i j Hi Hj) as [? [? [? [? _]]]]. auto. }
  rewrite (fro_tiles h w m n).
  eapply Rle_trans.
  { apply (fro_mono m n _ (fun i j => ((1 + u) ^ p - 1) * xmul p nA nB i j)). intros i j Hi Hj. split; [apply fro_nonneg|].
    eapply Rle_trans; [|exact (proj2 (proj2 (proj2 (proj2 (TX i j Hi Hj)))))]. right. apply fro_ext. intros r s Hr Hs. unfold mwin at 1, MatFun.msub. f_equal.
    - exact (whole_win m n h w X i j SX Hi Hj r s Hr Hs).
    - exact (prod_win m p n h g w A B i j SA SB Hi Hj r s Hr Hs). }
  pose proof (upow_ge1 u Hu p). rewrite fro_scal by lra. apply Rmult_le_compat_l; [lra|]. eapply Rle_trans; [apply fro_mul|].
  right. f_equal.
  - rewrite (fro_tiles h g m p). apply fro_ext. intros i k Hi Hk. unfold nA. symmetry. apply fro_ext. exact (whole_win m p h g A i k SA Hi Hk).
  - rewrite (fro_tiles g w p n). apply fro_ext. intros k j Hk Hj. unfold nB. symmetry. apply fro_ext. exact (whole_win p n g w B k j SB Hk Hj).
Qed.
End Gram.
