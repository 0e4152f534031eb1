(** Tiles multiplied by an upper triangular matrix of tiles from the right (trmm.cpp:185-195)
    with low-rank arithmetic that truncates. *)
From Coq Require Import List Arith ZArith QArith Lia Bool Reals Lra Ring_theory Ring.
From Verif Require Import Prelude Ring MatFun MatSetoid Matrix MatOps MatSpec MatOpsProofs Lapack Gemm GemmSpec GemmProofs
  GemmCorrect GemmTheorems Triangular TriAlgebra TriSpec TriProofs TriTheorems Reflect ReflectSpec ReflectProofs ReflectTile ReflectSuccess
  QrBig QrTiled QrStep QrApply QrTheorems QrSuccess RealQr SvdRank Householder HouseQr HouseReal Rrqr RrqrRank EckartYoung
  FroNorm QrErrTile QrErrStep QrErrApply QrErrSucc QrErrReal ConstructError.
Import ListNotations.
Local Open Scope R_scope.

(** The norm of a matrix from the norms of its tiles. *)
Lemma fro_tiles h w m n (f : xmat) :
  fro (offs h m) (offs w n) f = fro m n (fun i j => fro (h i) (w j) (mwin (R := Rring) (offs h i) (offs w j) f)).
Proof.
  unfold fro at 1 2. f_equal. rewrite rsumsq_blocks. unfold sumsq at 2. apply (sum_ext (R := Rring)). intros i _.
  apply (sum_ext (R := Rring)). intros j _. symmetry. apply fro_sq.
Qed.

Lemma fro_mono r c (f g : xmat) : (forall i j, (i < r)%nat -> (j < c)%nat -> 0 <= f i j <= g i j) -> fro r c f <= fro r c g.
Proof.
  intros H. unfold fro. apply sqrt_le_1_alt. unfold sumsq. apply sum_le. intros i Hi. apply sum_le. intros j Hj.
  destruct (H i j Hi Hj). apply Rmult_le_compat; auto.
Qed.
Lemma fro_scal r c a (f : xmat) : 0 <= a -> fro r c (fun i j => a * f i j) = a * fro r c f.
Proof.
  intros Ha. assert (E : sumsq (R := Rring) r c (fun i j => a * f i j) = Rsqr a * sumsq (R := Rring) r c f).
  { unfold sumsq. rewrite <- (rsum_mul_l r (Rsqr a)). apply (sum_ext (R := Rring)). intros i _. rewrite <- (rsum_mul_l c (Rsqr a)).
    apply (sum_ext (R := Rring)). intros j _. unfold Rsqr. rr. }
  unfold fro at 1. rewrite E, sqrt_mult; [|apply Rle_0_sqr|rewrite <- fro_sq; apply Rmult_le_pos; apply fro_nonneg].
  rewrite sqrt_Rsqr; auto.
Qed.

(** A tile of a matrix of tiles. *)
Lemma whole_win p q h w (C : grid Rring) i j : shaped (R := Rring) p q h w C -> (i < p)%nat -> (j < q)%nat ->
  xfeq (h i) (w j) (mwin (R := Rring) (offs h i) (offs w j) (ent (MH p q C))) (ent (C i j)).
Proof.
  intros HC Hi Hj r c Hr Hc. unfold mwin.
  assert (E1 : offs h i = offs (bheight C) i) by (apply offs_ext; intros k Hk; unfold bheight; symmetry; apply HC; lia).
  assert (E2 : offs w j = offs (bwidth C) j) by (apply offs_ext; intros k Hk; unfold bwidth; symmetry; apply HC; lia).
  rewrite E1, E2. apply (ent_block (R := Rring)); auto.
  - unfold bheight. destruct (HC i 0%nat Hi ltac:(lia)) as [-> _]. auto.
  - unfold bwidth. destruct (HC 0%nat j ltac:(lia) Hj) as [_ ->]. auto.
Qed.

(** A tile of a product. *)
Lemma prod_win p q n h w c (B A : grid Rring) i j : shaped (R := Rring) p q h w B -> shaped (R := Rring) q n w c A -> (i < p)%nat -> (j < n)%nat ->
  xfeq (h i) (c j) (mwin (R := Rring) (offs h i) (offs c j) (xmul (offs w q) (ent (MH p q B)) (ent (MH q n A))))
    (fun r s => rsum q (fun k => xmul (w k) (ent (B i k)) (ent (A k j)) r s)).
Proof.
  intros HB HA Hi Hj r s Hr Hs. unfold mwin. rewrite (mmul_offs (R := Rring)). apply (sum_ext (R := Rring)). intros k Hk.
  unfold mmul. apply (sum_ext (R := Rring)). intros l Hl. f_equal.
  - unfold mwin. cbn [Nat.add]. exact (whole_win p q h w B i k HB Hi Hk r l Hr Hl).
  - unfold mwin. cbn [Nat.add]. exact (whole_win q n w c A k j HA Hk Hj l s Hl Hs).
Qed.

Lemma gemm_flat_fuel (Or : oracles Rring) f (A B C : matrix Rring) al be tA tB : flat A -> flat B -> flat C ->
  gemm Or (S f) A B C al be tA tB = gemm Or 1 A B C al be tA tB.
Proof.
  intros FA FB FC. destruct A as [a|a|? ? ?|? ?]; try destruct FA; destruct B as [b|b|? ? ?|? ?]; try destruct FB;
    destruct C as [c|c|? ? ?|? ?]; try destruct FC; reflexivity.
Qed.

Section Trmm.
Notation matrix := (matrix Rring).
Notation lowrank := (lowrank Rring).
Notation grid := (grid Rring).
Variables (e : Q) (u tau : R) (nb : nat).
Hypothesis He : Qeq_bool e 0 = false.
Hypothesis Hu : 0 <= u <= 1.
Hypothesis Htau : 0 <= tau.
Variable Or : oracles Rring.
Hypothesis HA : accurate e u tau nb (no_compression Or).
Hypothesis HT : forall a b : lowrank, lr_wf a -> lr_wf b -> l_r a = l_r b -> l_c a = l_c b -> good e (ML a) -> exists c, lr_add Or a b = Ok c.

Lemma upow_ge1 t : 1 <= (1 + u) ^ t.
Proof. apply (pow_ge1 u (proj1 Hu)). Qed.

(** The products added to one tile. *)
Lemma tile_sum_err f j r c (C0 : matrix) (B A : nat -> matrix) (wk : nat -> nat) : (r <= nb)%nat -> (c <= nb)%nat ->
  wf C0 -> good e C0 -> nrows C0 = r -> ncols C0 = c ->
  (forall k, (k < j)%nat -> flat (B k) /\ wf (B k) /\ nrows (B k) = r /\ ncols (B k) = wk k) ->
  (forall k, (k < j)%nat -> is_lr (A k) /\ wf (A k) /\ nrows (A k) = wk k /\ ncols (A k) = c) ->
  let S0 : xmat := fun i s => (ent C0 i s + rsum j (fun t => xmul (wk (j - 1 - t)%nat) (ent (B (j - 1 - t)%nat)) (ent (A (j - 1 - t)%nat)) i s)) in
  exists X, for_loop j (fun t x => gemm Or (S f) (B (j - 1 - t)%nat) (A (j - 1 - t)%nat) x (1%r : car Rring) (1%r : car Rring) false false) C0 = Ok X /\
    wf X /\ good e X /\ same_layout C0 X /\ nrows X = r /\ ncols X = c /\
    fro r c (xsub (ent X) S0) <=
      ((1 + u) ^ j - 1) * (fro r c (ent C0) + rsum j (fun t => fro r (wk (j - 1 - t)%nat) (ent (B (j - 1 - t)%nat)) * fro (wk (j - 1 - t)%nat) c (ent (A (j - 1 - t)%nat)))).
Proof.
  intros N1 N2 W0 G0 R0 C0' HB HAt S0.
  set (P := fun t => xmul (wk (j - 1 - t)%nat) (ent (B (j - 1 - t)%nat)) (ent (A (j - 1 - t)%nat))).
  set (b := fun t => fro r (wk (j - 1 - t)%nat) (ent (B (j - 1 - t)%nat)) * fro (wk (j - 1 - t)%nat) c (ent (A (j - 1 - t)%nat))).
  set (St := fun n : nat => (fun i s => (ent C0 i s + rsum n (fun t => P t i s))) : xmat).
  set (st := fun n : nat => fro r c (ent C0) + rsum n b).
  assert (Bp : forall t, 0 <= b t) by (intros; apply Rmult_le_pos; apply fro_nonneg).
  destruct (for_loop_inv j (fun t x => gemm Or (S f) (B (j - 1 - t)%nat) (A (j - 1 - t)%nat) x (1%r : car Rring) (1%r : car Rring) false false) C0
    (fun n X => wf X /\ good e X /\ same_layout C0 X /\ nrows X = r /\ ncols X = c /\
       fro r c (xsub (ent X) (St n)) <= ((1 + u) ^ n - 1) * st n /\ fro r c (St n) <= st n)) as [X [EX [W [G [L [D1 [D2 [HX _]]]]]]]].
  - split; auto. split; auto. split; [apply same_layout_refl|]. split; auto. split; auto.
    assert (E : xfeq r c (St 0%nat) (ent C0)) by (intros i s _ _; unfold St; cbn; lra). split.
    + rewrite (fro_sub0 r c (ent C0) (St 0%nat)); [cbn [pow]; unfold st; lra|]. apply (feq_sym (R := Rring)). exact E.
    + rewrite (fro_ext _ _ _ _ E). unfold st. cbn [sum]. cbn. lra.
  - intros t X Ht [W [G [L [D1 [D2 [EX SX]]]]]]. set (k := (j - 1 - t)%nat) in *. assert (Hk : (k < j)%nat) by lia.
    destruct (HB k Hk) as [FB [WB [B1 B2]]]. destruct (HAt k Hk) as [[l EA] [WA [A1 A2]]].
    assert (FA : flat (A k)) by (rewrite EA; exact I).
    rewrite (gemm_flat_fuel Or f) by (auto; exact (good_flat _ _ G)).
    destruct (gemm_good_ok e u Hu (no_compression Or) HT (B k) (A k) X (1%r : car Rring) false false FB FA G WB WA W) as [Y HY]; try (unfold opr, opc; congruence).
    { right. left. exists l. exact EA. }
    exists Y. split; [exact (gemm_le Or (B k) (A k) X _ _ _ _ FB FA (good_flat _ _ G) Y HY)|].
    destruct (gemm_err e u tau nb He Hu Htau (no_compression Or) HA (B k) (A k) X (1%r : car Rring) false false Y FB FA G WB WA W ltac:(lia) ltac:(lia) HY)
      as [WY [LY [GY [_ [EY _]]]]].
    assert (ND : ~ both_dense (B k) (A k)) by (rewrite EA; destruct (B k); exact (fun x => x)).
    specialize (EY ND). rewrite D1, D2 in EY.
    destruct (layout_dims_flat _ _ (good_flat _ _ G) LY) as [Y1 Y2].
    split; auto. split; auto. split; [eapply same_layout_trans; eauto|]. split; [congruence|]. split; [congruence|].
    set (X1 := madd (ent X) (prod (1%r : car Rring) false false (B k) (A k))) in *.
    assert (E1 : xfeq r c X1 (fun i s => ent X i s + P t i s)).
    { intros i s _ _. unfold X1, MatFun.madd, prod, mscale, P, opc. cbn [mop]. fold k. rewrite B2. rr. }
    assert (E2 : xfeq r c (St (S t)) (fun i s => St t i s + P t i s)) by (intros i s _ _; unfold St; cbn [sum]; rr).
    assert (NP : fro r c (P t) <= b t) by (unfold P, b; apply fro_mul).
    assert (SS : st (S t) = st t + b t) by (unfold st; cbn [sum]; rr).
    assert (S1 : fro r c (St (S t)) <= st (S t)).
    { rewrite (fro_ext _ _ _ _ E2). eapply Rle_trans; [apply (fro_triangle r c (St t) (P t))|]. lra. }
    split; [|exact S1].
    assert (V1 : fro r c (xsub X1 (St (S t))) = fro r c (xsub (ent X) (St t))).
    { rewrite (fro_feq_sub _ _ _ _ _ _ E1 E2). apply fro_ext. intros i s _ _. unfold MatFun.msub. rr. }
    assert (V2 : fro r c X1 <= fro r c (St (S t)) + fro r c (xsub X1 (St (S t)))) by apply fro_dist.
    pose proof (fro_via r c (ent Y) X1 (St (S t))) as V. rewrite V1 in V, V2.
    set (x := fro r c (xsub (ent X) (St t))) in *. set (y := fro r c X1) in *. pose proof (upow_ge1 t) as U1. specialize (Bp t).
    assert (st0 : 0 <= st t) by (eapply Rle_trans; [|exact SX]; apply fro_nonneg).
    assert (x <= ((1 + u) ^ t - 1) * st (S t)) by (eapply Rle_trans; [exact EX|]; apply Rmult_le_compat_l; lra).
    assert (u * y <= u * (st (S t) + x)) by (apply Rmult_le_compat_l; lra).
    assert (u * x <= u * (((1 + u) ^ t - 1) * st (S t))) by (apply Rmult_le_compat_l; lra).
    cbn [pow]. nra.
  - exists X. repeat (split; auto).
Qed.

(** The product of a tile with a Dense diagonal block is exact. *)
Lemma trmm_diag f nd ft (a : dense Rring) (B : matrix) : d_r a = d_c a -> d_r a = ncols B -> wf B -> good e B ->
  exists X, trmm Or f nd (S ft) (MD a) B SRight Upper false false (1%r : car Rring) = Ok X /\
    wf X /\ good e X /\ same_layout B X /\ nrows X = nrows B /\ ncols X = ncols B /\
    xfeq (nrows B) (ncols B) (ent X) (xmul (ncols B) (ent B) (tri (R := Rring) Upper false (d_e a))).
Proof.
  intros Sq Dn W G. destruct B as [b|l|? ? ?|? ?]; try destruct G.
  - cbn [ncols] in Dn. cbn [trmm]. unfold d_trmm. rewrite Sq, Nat.eqb_refl. rewrite <- Sq, Dn. cbn [along]. rewrite Nat.eqb_refl. cbn [bind].
    eexists. split; [reflexivity|]. split; [exact I|]. split; [exact I|]. split; [split; reflexivity|]. split; [reflexivity|]. split; [reflexivity|].
    intros i j _ _. cbn [ent d_e ncols]. unfold mscale. cbn [mop]. rr.
  - cbn [ncols] in Dn. cbn [trmm]. destruct W as [W1 [W2 [W3 W4]]]. unfold d_trmm.
    replace (d_r a =? d_c a)%nat with true by (symmetry; apply Nat.eqb_eq; auto). cbn [along side_factor]. rewrite Dn, W4, !Nat.eqb_refl. cbn [bind].
    eexists. split; [reflexivity|].
    split; [repeat split; cbn [set_factor d_r d_c l_r l_c l_U l_S l_V l_rank]; auto|].
    split; [exact (conj H H0)|]. split; [repeat split|]. split; [reflexivity|]. split; [reflexivity|].
    intros i j Hi Hj. cbn [ent ncols]. unfold lr_ent. cbn [set_factor d_r d_c d_e l_r l_c l_U l_S l_V l_rank].
    rewrite (mmul_assoc (R := Rring)). unfold mmul at 1 4. apply (sum_ext (R := Rring)). intros k _. f_equal.
    rewrite (mmul_assoc (R := Rring)). unfold mmul at 1 3. apply (sum_ext (R := Rring)). intros s _. f_equal. unfold mscale. cbn [mop]. rr.
Qed.

(** What the product works with: the triangle of the diagonal blocks and the blocks above. *)
Definition upper_of (w : nat -> nat) (a : grid) : grid := fun i j =>
  if (i =? j)%nat then MD (Dn (w i) (w j) (tri (R := Rring) Upper false (ent (a i j))))
  else if (i <? j)%nat then a i j else MD (Dn (w i) (w j) (mzero (R := Rring))).

Theorem trmm_right_upper f nd ft p q h w (a B : grid) : (0 < p)%nat -> (0 < q)%nat -> (forall i, (h i <= nb)%nat) -> (forall j, (w j <= nb)%nat) ->
  (forall j, (j < q)%nat -> exists d, a j j = MD d /\ d_r d = w j /\ d_c d = w j) ->
  (forall i j, (i < j < q)%nat -> is_lr (a i j) /\ wf (a i j) /\ nrows (a i j) = w i /\ ncols (a i j) = w j) ->
  gtiles e p q h w B ->
  exists X, trmm Or (S f) nd (S (S ft)) (MH q q a) (MH p q B) SRight Upper false false (1%r : car Rring) = Ok (MH p q X) /\
    gtiles e p q h w X /\
    fro (offs h p) (offs w q) (xsub (ent (MH p q X)) (xmul (offs w q) (ent (MH p q B)) (ent (MH q q (upper_of w a))))) <=
      ((1 + u) ^ q - 1) * (fro (offs h p) (offs w q) (ent (MH p q B)) * fro (offs w q) (offs w q) (ent (MH q q (upper_of w a)))).
Proof.
  intros Pp Pq Nh Nw HD HL HB. set (U := upper_of w a).
  set (F := fun i j => let* c := trmm Or (S f) nd (S ft) (a j j) (B i j) SRight Upper false false (1%r : car Rring) in
     for_loop j (fun t c => acc_gemm Or (S f) (1%r : car Rring) (B i (j - 1 - t)%nat) (a (j - 1 - t)%nat j) c) c).
  set (nB := fun i k => fro (h i) (w k) (ent (B i k))). set (nU := fun k j => fro (w k) (w j) (ent (U k j))).
  assert (T : forall i j, (i < p)%nat -> (j < q)%nat -> exists X, F i j = Ok X /\ wf X /\ nrows X = h i /\ ncols X = w j /\ good e X /\
    fro (h i) (w j) (xsub (ent X) (fun r s => rsum q (fun k => xmul (w k) (ent (B i k)) (ent (U k j)) r s))) <=
      ((1 + u) ^ q - 1) * xmul q nB nU i j).
  { intros i j Hi Hj. destruct (HD j Hj) as [d [Ed [D1 D2]]]. destruct (HB i j Hi Hj) as [WB [B1 [B2 GB]]].
    destruct (trmm_diag (S f) nd ft d (B i j) ltac:(congruence) ltac:(congruence) WB GB) as [C0 [E0 [W0 [G0 [L0 [R0 [K0 V0]]]]]]].
    destruct (tile_sum_err f j (h i) (w j) C0 (fun k => B i k) (fun k => a k j) w (Nh i) (Nw j) W0 G0 ltac:(congruence) ltac:(congruence)) as [X [EX [WX [GX [_ [X1 [X2 V]]]]]]].
    { intros k Hk. destruct (HB i k Hi ltac:(lia)) as [? [? [? GG]]]. split; [exact (good_flat _ _ GG)|]. auto. }
    { intros k Hk. apply HL. lia. }
    exists X. split. { unfold F. rewrite Ed, E0. cbn [bind]. exact EX. }
    split; auto. split; auto. split; auto. split; auto.
    rewrite B1, B2 in V0.
    assert (EU : forall k, (k < j)%nat -> U k j = a k j).
    { intros k Hk. unfold U, upper_of. destruct (Nat.eqb_spec k j); [lia|]. destruct (Nat.ltb_spec k j); [auto|lia]. }
    assert (EV : forall k, (j < k)%nat -> U k j = MD (Dn (w k) (w j) (mzero (R := Rring)))).
    { intros k Hk. unfold U, upper_of. destruct (Nat.eqb_spec k j); [lia|]. destruct (Nat.ltb_spec k j); [lia|auto]. }
    assert (ED : U j j = MD (Dn (w j) (w j) (tri (R := Rring) Upper false (d_e d)))).
    { unfold U, upper_of. rewrite Nat.eqb_refl, Ed. reflexivity. }
    assert (Q0 : forall g : nat -> R, (forall k, (j < k < q)%nat -> g k = 0) -> rsum q g = g j + rsum j (fun t => g (j - 1 - t)%nat)).
    { intros g Hg. replace q with (S j + (q - S j))%nat by lia. rewrite (sum_split (R := Rring)).
      rewrite (sum_ext (R := Rring) (q - S j) _ (fun _ => 0)) by (intros k Hk; apply Hg; lia).
      rewrite (sum_zero (R := Rring)). cbn [sum]. rewrite (sum_rev (R := Rring) j g). change (rsum j (fun k => g k)) with (rsum j g). rr. }
    set (S1 := (fun r s => rsum q (fun k => xmul (w k) (ent (B i k)) (ent (U k j)) r s)) : xmat).
    match type of V with fro _ _ (xsub _ ?s) <= _ => set (S0 := s : xmat) in * end.
    assert (E1 : xfeq (h i) (w j) S1 S0).
    { intros r s Hr Hs. unfold S1, S0. rewrite Q0.
      - rewrite (V0 r s Hr Hs), ED. cbn [ent d_e]. f_equal. apply (sum_ext (R := Rring)). intros t Ht. rewrite EU by lia. reflexivity.
      - intros k Hk. rewrite EV by lia. unfold mmul. rewrite (sum_ext (R := Rring) (w k) _ (fun _ => 0)); [apply (sum_zero (R := Rring))|].
        intros l _. cbn [ent d_e]. unfold mzero. rr. }
    rewrite (fro_feq_sub _ _ (ent X) _ (ent X) _ (fun _ _ _ _ => eq_refl) E1). eapply Rle_trans; [exact V|].
    assert (N0 : xmul q nB nU i j = nB i j * nU j j + rsum j (fun t => nB i (j - 1 - t)%nat * nU (j - 1 - t)%nat j)).
    { unfold mmul at 1. apply (Q0 (fun k => nB i k * nU k j)). intros k Hk. unfold nU. rewrite EV by lia.
      cbn [ent d_e]. rewrite fro_zero. rr. }
    assert (N1 : fro (h i) (w j) (ent C0) <= nB i j * nU j j).
    { rewrite (fro_ext _ _ _ _ V0). unfold nB, nU. rewrite ED. cbn [ent d_e]. apply fro_mul. }
    assert (N2 : rsum j (fun t => fro (h i) (w (j - 1 - t)%nat) (ent (B i (j - 1 - t)%nat)) * fro (w (j - 1 - t)%nat) (w j) (ent (a (j - 1 - t)%nat j)))
       = rsum j (fun t => nB i (j - 1 - t)%nat * nU (j - 1 - t)%nat j)).
    { apply (sum_ext (R := Rring)). intros t Ht. unfold nB, nU. rewrite EU by lia. reflexivity. }
    rewrite N2, N0. set (z := rsum j (fun t => nB i (j - 1 - t)%nat * nU (j - 1 - t)%nat j)) in *.
    assert (0 <= z) by (apply sum_nonneg; intros; apply Rmult_le_pos; apply fro_nonneg).
    pose proof (fro_nonneg (h i) (w j) (ent C0)). pose proof (upow_ge1 j).
    assert ((1 + u) ^ j <= (1 + u) ^ q) by (apply Rle_pow; [lra|lia]).
    apply Rmult_le_compat; lra. }
  destruct (collect_all p q F) as [X HX]. { intros i j Hi Hj. destruct (T i j Hi Hj) as [x [Ex _]]. eauto. }
  exists X.
  assert (TX : forall i j, (i < p)%nat -> (j < q)%nat -> wf (X i j) /\ nrows (X i j) = h i /\ ncols (X i j) = w j /\ good e (X i j) /\
    fro (h i) (w j) (xsub (ent (X i j)) (fun r s => rsum q (fun k => xmul (w k) (ent (B i k)) (ent (U k j)) r s))) <=
      ((1 + u) ^ q - 1) * xmul q nB nU i j).
  { intros i j Hi Hj. destruct (T i j Hi Hj) as [x [Ex P]]. pose proof (collect_spec p q F X HX i j Hi Hj) as E. rewrite Ex in E. injection E as <-. exact P. }
  split.
  { change (trmm Or (S f) nd (S (S ft)) (MH q q a) (MH p q B) SRight Upper false false (1%r : car Rring)) with
      (let* x := hh_trmm Or (S f) (fun A B => trmm Or (S f) nd (S ft) A B SRight Upper false false (1%r : car Rring)) nd q q a p q B SRight Upper false (1%r : car Rring) in Ok (MH p q x)).
    unfold hh_trmm. cbn [along]. rewrite Nat.eqb_refl. cbn [negb orb]. fold F. rewrite HX. reflexivity. }
  split. { intros i j Hi Hj. destruct (TX i j Hi Hj) as [? [? [? [? _]]]]. auto. }
  assert (SB : shaped (R := Rring) p q h w B) by (intros i j Hi Hj; destruct (HB i j Hi Hj) as [? [? [? _]]]; auto).
  assert (SX : shaped (R := Rring) p q h w X) by (intros i j Hi Hj; destruct (TX i j Hi Hj) as [? [? [? _]]]; auto).
  assert (SU : shaped (R := Rring) q q w w U).
  { intros i j Hi Hj. unfold U, upper_of. destruct (Nat.eqb_spec i j); [split; reflexivity|]. destruct (Nat.ltb_spec i j); [|split; reflexivity].
    destruct (HL i j ltac:(lia)) as [_ [_ [? ?]]]. auto. }
  rewrite (fro_tiles h w p q).
  eapply Rle_trans. 
  { apply (fro_mono p q _ (fun i j => ((1 + u) ^ q - 1) * xmul q nB nU i j)). intros i j Hi Hj. split; [apply fro_nonneg|].
    eapply Rle_trans; [|exact (proj2 (proj2 (proj2 (proj2 (TX i j Hi Hj)))))]. right. apply fro_ext. intros r s Hr Hs. unfold mwin at 1, MatFun.msub. f_equal.
    - exact (whole_win p q h w X i j SX Hi Hj r s Hr Hs).
    - exact (prod_win p q q h w w B U i j SB SU Hi Hj r s Hr Hs). }
  pose proof (upow_ge1 q). rewrite fro_scal by lra. apply Rmult_le_compat_l; [lra|]. eapply Rle_trans; [apply fro_mul|].
  right. f_equal.
  - rewrite (fro_tiles h w p q). apply fro_ext. intros i k Hi Hk. unfold nB. symmetry. apply fro_ext. exact (whole_win p q h w B i k SB Hi Hk).
  - rewrite (fro_tiles w w q q). apply fro_ext. intros k j Hk Hj. unfold nU. symmetry. apply fro_ext. exact (whole_win q q w w U k j SU Hk Hj).
Qed.
End Trmm.
