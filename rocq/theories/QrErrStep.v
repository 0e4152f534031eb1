(** Tiled Householder QR with low-rank arithmetic that truncates: the loops. *)
From Coq Require Import List Arith ZArith QArith Lia Bool Reals Lra Ring_theory Ring.
From Verif Require Import Prelude Ring MatFun MatSetoid Matrix MatOps MatSpec MatOpsProofs Lapack Gemm GemmSpec GemmProofs
  GemmCorrect GemmTheorems Triangular TriAlgebra TriSpec TriProofs TriTheorems Reflect ReflectSpec ReflectProofs ReflectTile ReflectSuccess
  QrBig QrTiled QrStep QrApply QrTheorems RealQr SvdRank Householder HouseQr HouseReal Rrqr RrqrRank EckartYoung FroNorm QrErrTile.
Import ListNotations.
Local Open Scope R_scope.

Notation xmul := (mmul (R := Rring)).
Notation xsub := (msub (R := Rring)).
Notation xfeq := (feq (R := Rring)).
Notation xmat := (mat Rring).

(** ** Accumulated errors *)

(** What t perturbations, each of at most eta times the current norm plus theta, can do to
    a matrix of norm x. *)
Definition acc (eta theta : R) (t : nat) (x : R) : R := ((1 + eta) ^ t - 1) * x + INR t * (1 + eta) ^ t * theta.

Section Acc.
Variables eta theta : R.
Hypothesis He : 0 <= eta.
Hypothesis Ht : 0 <= theta.
Notation acc := (acc eta theta).

Lemma pow_ge1 t : 1 <= (1 + eta) ^ t.
Proof. apply pow_R1_Rle. lra. Qed.
Lemma acc_0 x : acc 0 x = 0.
Proof. unfold QrErrStep.acc. simpl. lra. Qed.
Lemma acc_nonneg t x : 0 <= x -> 0 <= acc t x.
Proof.
  intros Hx. unfold QrErrStep.acc. pose proof (pow_ge1 t) as P. pose proof (pos_INR t) as Q.
  assert (0 <= ((1 + eta) ^ t - 1) * x) by (apply Rmult_le_pos; lra).
  assert (0 <= INR t * (1 + eta) ^ t * theta) by (apply Rmult_le_pos; [apply Rmult_le_pos|]; lra). lra.
Qed.
Lemma acc_S t x : 0 <= x -> acc t x + eta * (x + acc t x) + theta <= acc (S t) x.
Proof.
  intros Hx. unfold QrErrStep.acc. pose proof (pow_ge1 t) as P. pose proof (pow_ge1 (S t)) as P'. rewrite S_INR.
  assert (E : (1 + eta) ^ S t = (1 + eta) * (1 + eta) ^ t) by reflexivity. rewrite E in *.
  set (y := (1 + eta) ^ t) in *. set (z := (1 + eta) * y) in *.
  assert (Z : eta * y = z - y) by (unfold z; ring).
  assert (1 * theta <= z * theta) by (apply Rmult_le_compat_r; lra).
  replace ((y - 1) * x + INR t * y * theta + eta * (x + ((y - 1) * x + INR t * y * theta)) + theta)
    with ((y - 1) * x + INR t * y * theta + (eta * y) * x + INR t * (eta * y) * theta + theta) by ring.
  rewrite Z. lra.
Qed.
Lemma acc_le t t' x : 0 <= x -> (t <= t')%nat -> acc t x <= acc t' x.
Proof.
  intros Hx L. induction L as [|t' L IH]; [lra|]. pose proof (acc_S t' x Hx) as S. pose proof (acc_nonneg t' x Hx) as P.
  assert (0 <= eta * (x + acc t' x)) by (apply Rmult_le_pos; lra). lra.
Qed.
End Acc.

Lemma fro_orth_sub N c (G f g : xmat) (tr : bool) : orthogonal (R := Rring) N G ->
  fro N c (xsub (xmul N (mop tr G) f) (xmul N (mop tr G) g)) = fro N c (xsub f g).
Proof.
  intros H. rewrite <- (fro_orth N c G (xsub f g) tr H). apply fro_ext. intros i j _ _.
  symmetry. apply (mmul_sub_r (R := Rring)).
Qed.

(** ** Two tiles of a column *)

Section Geometry.
Variable p : nat.
Variable h : nat -> nat.
Let N := offs h p.
Notation stack := (stack (R := Rring) p h).

Lemma sum_two n k i (f : nat -> R) : (k < n)%nat -> (i < n)%nat -> k <> i ->
  (forall b, (b < n)%nat -> b <> k -> b <> i -> f b = 0) -> rsum n f = f k + f i.
Proof.
  intros Hk Hi Hn H.
  set (F := fun b => if (b =? k)%nat then f k else 0). set (G := fun b => if (b =? i)%nat then f i else 0).
  transitivity (rsum n F + rsum n G).
  { transitivity (rsum n (fun b => radd (c := Rring) (F b) (G b))); [|apply (sum_add (R := Rring) n F G)]. apply (sum_ext (R := Rring)). intros b Hb. unfold F, G.
    destruct (Nat.eqb_spec b k) as [Ek|Nk], (Nat.eqb_spec b i) as [Ei|Ni]; try (exfalso; congruence).
    - rewrite Ek. symmetry. apply Rplus_0_r.
    - rewrite Ei. symmetry. apply Rplus_0_l.
    - rewrite (H b Hb Nk Ni). symmetry. apply Rplus_0_l. }
  rewrite (sum_single (R := Rring) n k F), (sum_single (R := Rring) n i G); auto.
  - unfold F, G. rewrite !Nat.eqb_refl. reflexivity.
  - intros b _ Nb. unfold G. destruct (Nat.eqb_spec b i); [congruence|reflexivity].
  - intros b _ Nb. unfold F. destruct (Nat.eqb_spec b k); [congruence|reflexivity].
Qed.

Lemma sumsq_rows0 n m c (f : xmat) : (n <= m)%nat -> (forall r j, (n <= r)%nat -> (r < m)%nat -> (j < c)%nat -> f r j = 0) ->
  sumsq (R := Rring) m c f = sumsq (R := Rring) n c f.
Proof.
  intros L H. unfold sumsq. replace m with (n + (m - n))%nat by lia. rewrite (sum_split (R := Rring)).
  rewrite (sum_zero' (R := Rring) (m - n)); [rr|]. intros r Hr. apply (sum_zero' (R := Rring)). intros j Hj.
  rewrite (H (n + r)%nat j) by lia. rr.
Qed.

(** The tiles k and i are part of the column. *)
Lemma fro_two k i n c (X : nat -> xmat) : (k < p)%nat -> (i < p)%nat -> k <> i -> (n <= h k)%nat ->
  fro (n + h i) c (vst (R := Rring) n (X k) (X i)) <= fro N c (stack X).
Proof.
  intros Hk Hi Hn L. apply sqrt_le_1_alt. rewrite sumsq_vst. unfold N. rewrite sumsq_stack.
  apply Rle_trans with (rsum p (fun b => (if (b =? k)%nat then sumsq (R := Rring) n c (X k) else if (b =? i)%nat then sumsq (R := Rring) (h i) c (X i) else 0))).
  - right. rewrite (sum_two p k i); auto.
    + rewrite !Nat.eqb_refl. destruct (Nat.eqb_spec i k); [congruence|]. reflexivity.
    + intros b _ N1 N2. destruct (Nat.eqb_spec b k); [congruence|]. destruct (Nat.eqb_spec b i); [congruence|reflexivity].
  - apply sum_le. intros b Hb. destruct (Nat.eqb_spec b k) as [->|N1].
    + unfold sumsq. replace (h k) with (n + (h k - n))%nat by lia. rewrite (sum_split (R := Rring)).
      assert (0 <= rsum (h k - n) (fun r => rsum c (fun j => X k (n + r)%nat j * X k (n + r)%nat j))).
      { apply sum_nonneg. intros r _. apply sum_nonneg. intros j _. apply Rle_0_sqr. }
      match goal with |- ?a <= (?b + ?d)%r => change (a <= b + d) end.
      match goal with |- ?a <= ?b + ?d => assert (a = b) by reflexivity; assert (0 <= d) by assumption end. lra.
    + destruct (Nat.eqb_spec b i) as [->|N2]; [lra|]. apply sumsq_pos.
Qed.

(** Only the tiles k and i differ. *)
Lemma fro_two_diff k i n c (X Y : nat -> xmat) : (k < p)%nat -> (i < p)%nat -> k <> i -> (n <= h k)%nat ->
  (forall r j, (n <= r)%nat -> (r < h k)%nat -> (j < c)%nat -> X k r j = Y k r j) ->
  (forall b, (b < p)%nat -> b <> k -> b <> i -> xfeq (h b) c (X b) (Y b)) ->
  fro N c (xsub (stack X) (stack Y)) = fro (n + h i) c (xsub (vst (R := Rring) n (X k) (X i)) (vst (R := Rring) n (Y k) (Y i))).
Proof.
  intros Hk Hi Hn L H1 H2.
  rewrite (fro_ext N c _ (stack (fun b => xsub (X b) (Y b)))) by (intros r j _ _; apply (stack_sub (R := Rring) p h)).
  rewrite (fro_ext (n + h i) c _ (vst (R := Rring) n (xsub (X k) (Y k)) (xsub (X i) (Y i))))
    by (intros r j _ _; unfold vst, msub; destruct (r <? n)%nat; reflexivity).
  unfold fro. f_equal. unfold N. rewrite sumsq_stack, sumsq_vst. rewrite (sum_two p k i); auto.
  - rewrite (sumsq_rows0 n (h k)); auto. intros r j R1 R2 Hj. unfold msub. rewrite (H1 r j R1 R2 Hj). rr.
  - intros b Hb N1 N2. replace 0 with (fro (h b) c (xsub (X b) (Y b)) * fro (h b) c (xsub (X b) (Y b))).
    + symmetry. apply fro_sq.
    + rewrite fro_sub0 by auto. lra.
Qed.

(** An approximate pair reflector on two tiles is an approximate reflector of the column. *)
Lemma GP_err k i n c (V T : xmat) (tr : bool) (X X' : nat -> xmat) (d : R) : (k < p)%nat -> (i < p)%nat -> k <> i -> (n <= h k)%nat ->
  fro (n + h i) c (xsub (vst (R := Rring) n (X' k) (X' i)) (xmul (n + h i) (mop tr (pair_refl (R := Rring) n V T)) (vst (R := Rring) n (X k) (X i)))) <= d ->
  (forall r j, (n <= r)%nat -> (r < h k)%nat -> (j < c)%nat -> X' k r j = X k r j) ->
  (forall b, (b < p)%nat -> b <> k -> b <> i -> xfeq (h b) c (X' b) (X b)) ->
  fro N c (xsub (stack X') (xmul N (mop tr (GP (R := Rring) p h k i n V T)) (stack X))) <= d.
Proof.
  intros Hk Hi Hn L H1 H2 H3. set (M := xmul (n + h i) (mop tr (pair_refl (R := Rring) n V T)) (vst (R := Rring) n (X k) (X i))) in *.
  set (Z := fun b : nat => if (b =? k)%nat then (fun r j => if (r <? n)%nat then M r j else X k r j)
                           else if (b =? i)%nat then (fun r j => M (n + r)%nat j) else X b).
  assert (ZK : forall r j, Z k r j = if (r <? n)%nat then M r j else X k r j) by (intros; unfold Z; rewrite Nat.eqb_refl; reflexivity).
  assert (ZI : forall r j, Z i r j = M (n + r)%nat j).
  { intros. unfold Z. destruct (Nat.eqb_spec i k); [congruence|]. rewrite Nat.eqb_refl. reflexivity. }
  assert (ZB : forall b, b <> k -> b <> i -> Z b = X b).
  { intros b N1 N2. unfold Z. destruct (Nat.eqb_spec b k); [congruence|]. destruct (Nat.eqb_spec b i); [congruence|reflexivity]. }
  assert (ZV : xfeq (n + h i) c (vst (R := Rring) n (Z k) (Z i)) M).
  { intros r j Hr Hj. unfold vst. destruct (Nat.ltb_spec r n).
    - rewrite ZK. destruct (Nat.ltb_spec r n); [reflexivity|lia].
    - rewrite ZI. f_equal. lia. }
  assert (E : xfeq N c (stack Z) (xmul N (mop tr (GP (R := Rring) p h k i n V T)) (stack X))).
  { apply (GP_apply (R := Rring)); auto.
    - intros r j R1 R2 Hj. rewrite ZK. destruct (Nat.ltb_spec r n); [lia|reflexivity].
    - intros b Hb N1 N2. rewrite ZB by auto. apply (feq_refl (R := Rring)). }
  rewrite <- (fro_feq_sub N c _ _ _ _ (feq_refl (R := Rring) _ _ (stack X')) E).
  rewrite (fro_two_diff k i n c X' Z); auto.
  - rewrite (fro_feq_sub _ _ _ _ _ _ (feq_refl (R := Rring) _ _ _) ZV). exact H1.
  - intros r j R1 R2 Hj. rewrite ZK. destruct (Nat.ltb_spec r n); [lia|auto].
  - intros b Hb N1 N2. rewrite ZB by auto. auto.
Qed.
End Geometry.

(** ** Rows of tiles *)

Section Loop.
Notation matrix := (matrix Rring).
Notation grid := (grid Rring).
Variables (e : Q) (u tau : R) (nb : nat).
Hypothesis He : Qeq_bool e 0 = false.
Hypothesis Hu : 0 <= u <= 1.
Hypothesis Htau : 0 <= tau.
Variable Or : oracles Rring.
Hypothesis HA : accurate e u tau nb Or.
Variables p q : nat.
Variables h w : nat -> nat.
Hypothesis Hh : forall i, (i < p)%nat -> (h i <= nb)%nat.
Hypothesis Hw : forall j, (j < q)%nat -> (w j <= nb)%nat.
Let N := offs h p.
Notation column := (column (R := Rring) p h).
Notation Qcol := (Qcol (R := Rring) p h w).
Notation Qfac := (Qfac (R := Rring) p h w).
Notation orthogonal_tiles := (orthogonal_tiles (R := Rring) h w).

(** Bound of the norm of a block of reflectors, and the error of one of them. *)
Definition nu : R := sqrt (INR nb).
Definition eta : R := (8 + 6 * nu) * u.
Definition theta : R := 2 * tau.

Lemma nu_nonneg : 0 <= nu.
Proof. apply sqrt_pos. Qed.
Lemma eta_nonneg : 0 <= eta.
Proof. unfold eta. pose proof nu_nonneg. apply Rmult_le_pos; lra. Qed.
Lemma theta_nonneg : 0 <= theta.
Proof. unfold theta. lra. Qed.

Definition gtiles (cw : nat -> nat) (C : grid) : Prop := forall i j, (i < p)%nat -> (j < q)%nat ->
  wf (C i j) /\ nrows (C i j) = h i /\ ncols (C i j) = cw j /\ good e (C i j).
Lemma gtiles_tiles cw C : gtiles cw C -> tiles (R := Rring) True p q h cw C.
Proof. intros H i j Hi Hj. destruct (H i j Hi Hj) as [H1 [H2 [H3 H4]]]. repeat (split; auto). intros _. exact (good_orthU _ _ H4). Qed.

Lemma larfb_good (V T C : matrix) tr (C' : matrix) : larfb V T C tr = Ok C' -> wf C -> good e C ->
  (forall v t, V = MD v -> T = MD t -> orthogonal (R := Rring) (nrows C) (tile_refl (R := Rring) (d_c t) (d_e v) (d_e t))) -> good e C'.
Proof.
  intros H WC G HQ. pose proof (larfb_ok (R := Rring) _ _ _ _ _ H WC) as [v [t [EV [ET [_ [_ [_ [_ HO]]]]]]]].
  specialize (HO (HQ v t EV ET) (good_orthU _ _ G)). subst V T. unfold larfb in H.
  destruct C as [c|l|? ? ?|? ?]; try discriminate; apply bind_Ok in H; destruct H as [x [Hx H]]; inversion H; subst C'; [exact I|].
  destruct G as [G1 [G2 [G3 [G4 G5]]]]. split; [exact G1|]. split; [exact G2|]. split; [exact G3|]. split; [exact G4|]. exact HO.
Qed.

Lemma tiled_larfb_good cw k tr from (Y T C C' : grid) : (k < p)%nat -> gtiles cw C ->
  ncols (T k k) = w k -> orthogonal (R := Rring) (h k) (tile_refl (R := Rring) (w k) (ent (Y k k)) (ent (T k k))) ->
  tiled_larfb q k tr from Y T C = Ok C' -> gtiles cw C'.
Proof.
  intros Hk HC HT HQ H. unfold tiled_larfb in H.
  apply (for_loop_inv_out _ _ _ _ (fun _ D => gtiles cw D)) in H; auto.
  clear H. intros t D D' Ht D1 Hb. set (j := (from + t)%nat) in *.
  apply bind_Ok in Hb. destruct Hb as [x [Hx Hb]]. inversion Hb; subst D'; clear Hb.
  assert (Hj : (j < q)%nat) by lia.
  destruct (D1 k j Hk Hj) as [W [E1 [E2 E3]]].
  destruct (larfb_ok (R := Rring) _ _ _ _ _ Hx W) as [v [tt [EV [ET [L [WX [LX _]]]]]]].
  destruct (layout_dims (R := Rring) _ _ W WX LX) as [X1 X2].
  assert (GX : good e x).
  { apply (larfb_good _ _ _ _ _ Hx W E3). intros v' t' EV' ET'. rewrite EV' in HQ. rewrite ET' in HQ, HT. cbn [ent ncols] in HQ, HT.
    rewrite E1, HT. exact HQ. }
  intros i' j' Hi' Hj'. destruct (Nat.eq_dec i' k) as [->|Ni]; [destruct (Nat.eq_dec j' j) as [->|Nj]|].
  - rewrite (bupd_same (R := Rring)). split; auto. split; [congruence|]. split; [congruence|auto].
  - rewrite (bupd_other (R := Rring)) by auto. apply D1; auto.
  - rewrite (bupd_other (R := Rring)) by auto. apply D1; auto.
Qed.

Lemma tiled_tpmqrt_err cw k i tr from (Y T C C' : grid) : (k < p)%nat -> (i < p)%nat -> k <> i -> gtiles cw C ->
  (forall j, (j < q)%nat -> (cw j <= nb)%nat) -> (k < q)%nat ->
  wf (Y i k) -> nrows (Y i k) = h i -> ncols (Y i k) = w k -> nrows (T i k) = w k -> ncols (T i k) = w k ->
  (w k <= h k)%nat ->
  orthogonal (R := Rring) (w k + h i) (pair_refl (R := Rring) (w k) (ent (Y i k)) (ent (T i k))) ->
  fro (h i) (w k) (ent (Y i k)) <= nu ->
  tiled_tpmqrt Or q k i tr from Y T C = Ok C' ->
  gtiles cw C' /\
  (forall i' j, (i' <> k /\ i' <> i \/ j < from \/ q <= j)%nat -> C' i' j = C i' j) /\
  (forall j, (from <= j)%nat -> (j < q)%nat ->
     fro N (cw j) (xsub (column C' j) (xmul N (mop tr (GP (R := Rring) p h k i (w k) (ent (Y i k)) (ent (T i k)))) (column C j)))
       <= eta * fro N (cw j) (column C j) + theta).
Proof.
  intros Hk Hi Hki HC Hcw Hkq WY Y1 Y2 T1 T2 LK HQ HV H. unfold tiled_tpmqrt in H.
  set (G := GP (R := Rring) p h k i (w k) (ent (Y i k)) (ent (T i k))) in *.
  apply (for_loop_inv_out _ _ _ _ (fun t D => gtiles cw D /\
    (forall i' j, (i' <> k /\ i' <> i \/ j < from \/ from + t <= j)%nat -> D i' j = C i' j) /\
    (forall j, (from <= j)%nat -> (j < from + t)%nat ->
       fro N (cw j) (xsub (column D j) (xmul N (mop tr G) (column C j))) <= eta * fro N (cw j) (column C j) + theta))) in H.
  - destruct H as [H1 [H2 H3]]. split; auto. split.
    + intros i' j Hij. apply H2. lia.
    + intros j L1 L2. apply H3; auto. lia.
  - split; auto. split; auto. intros j L1 L2. lia.
  - clear H. intros t D D' Ht [D1 [D2 D3]] Hb. set (j := (from + t)%nat) in *.
    apply bind_Ok in Hb. destruct Hb as [[x y] [Hx Hb]]. inversion Hb; subst D'; clear Hb.
    assert (Hj : (j < q)%nat) by lia.
    destruct (D1 k j Hk Hj) as [WK [K1 [K2 K3]]]. destruct (D1 i j Hi Hj) as [WI [I1 [I2 I3]]].
    apply (tpmqrt_err e u tau nb He Hu Htau Or HA nu) in Hx; auto; try congruence;
      try (rewrite ?Y1, ?Y2, ?I1, ?I2; auto; fail); [|apply nu_nonneg].
    cbv zeta in Hx. destruct Hx as [_ [WX [WZ [LX [LZ [GX [GZ [FX RX]]]]]]]].
    destruct (layout_dims (R := Rring) _ _ WK WX LX) as [X1 X2]. destruct (layout_dims (R := Rring) _ _ WI WZ LZ) as [X3 X4].
    split; [|split].
    + intros i' j' Hi' Hj'. destruct (Nat.eq_dec j' j) as [->|Nj].
      * destruct (Nat.eq_dec i' i) as [->|Ni].
        { rewrite (bupd_same (R := Rring)). split; auto. split; [congruence|]. split; [congruence|auto]. }
        rewrite (bupd_other (R := Rring)) by auto. destruct (Nat.eq_dec i' k) as [->|Nk].
        { rewrite (bupd_same (R := Rring)). split; auto. split; [congruence|]. split; [congruence|auto]. }
        rewrite (bupd_other (R := Rring)) by auto. apply D1; auto.
      * rewrite !(bupd_other (R := Rring)) by auto. apply D1; auto.
    + intros i' j' Hij. rewrite !(bupd_other (R := Rring)) by lia. apply D2; lia.
    + intros j' L1 L2. destruct (Nat.eq_dec j' j) as [->|Nj].
      * unfold G. apply (GP_err p h k i (w k)); auto.
        -- rewrite (bupd_same (R := Rring)). rewrite (bupd_other (R := Rring) _ i j y k j) by auto. rewrite (bupd_same (R := Rring)).
           rewrite Y2, I1, I2 in FX. rewrite <- (D2 k j ltac:(lia)), <- (D2 i j ltac:(lia)).
           eapply Rle_trans; [exact FX|]. fold eta. unfold theta. apply Rplus_le_compat_r. apply Rmult_le_compat_l; [apply eta_nonneg|].
           rewrite (D2 k j ltac:(lia)), (D2 i j ltac:(lia)).
           apply (fro_two p h k i (w k) (cw j) (fun b => ent (C b j))); auto.
        -- intros r c L3 L4 L5. rewrite (bupd_other (R := Rring) _ i j y k j) by auto. rewrite (bupd_same (R := Rring)).
           rewrite <- (D2 k j ltac:(lia)). apply RX; [rewrite Y2; auto|rewrite K1; auto|rewrite K2; auto].
        -- intros b Hb N1 N2. rewrite !(bupd_other (R := Rring)) by auto. rewrite D2 by lia. apply (feq_refl (R := Rring)).
      * assert (E : xfeq N (cw j') (column (bupd (bupd D k j x) i j y) j') (column D j')).
        { apply (feq_stack (R := Rring)). intros b Hb. rewrite !(bupd_other (R := Rring)) by auto. apply (feq_refl (R := Rring)). }
        rewrite (fro_feq_sub _ _ _ _ _ _ E (feq_refl (R := Rring) _ _ _)). apply D3; lia.
Qed.

(** ** One column *)

(** The vectors of the reflectors have norm at most one: LAPACKE_dlarfg divides the tail of
    a column by something not smaller than the norm of the column. *)
Definition small_vectors (K : qrt Rring) : Prop := forall a b a' v t, tpqrt2 K a b = Ok (a', v, t) ->
  (d_c b <= d_r a)%nat -> (d_c b <= d_c a)%nat -> fro (d_r b) (d_c b) (d_e v) <= sqrt (INR (d_c b)).

Variable K : qrt Rring.
Hypothesis HK : qrt_ok K.
Hypothesis HS : small_vectors K.

Lemma tpqrt_small (A B T A' V T' : matrix) : tpqrt K A B T = Ok (A', V, T') -> wf B -> good e B ->
  good e V /\ fro (nrows B) (ncols B) (ent V) <= sqrt (INR (ncols B)).
Proof.
  intros H WB GB. unfold tpqrt in H. destruct A as [a|?|? ? ?|? ?]; try discriminate.
  assert (D : forall b t a' v y, d_tpqrt K a b t = Ok (a', v, y) -> fro (d_r b) (d_c b) (d_e v) <= sqrt (INR (d_c b))).
  { intros b t a' v y Hd. unfold d_tpqrt in Hd. destruct (_ && _) eqn:BB in Hd; [|discriminate].
    apply bind_Ok in Hd. destruct Hd as [[[a1 v1] y1] [Hq Hd]]. inversion Hd; subst a1 v1; clear Hd.
    rewrite !andb_true_iff in BB. destruct BB as [[[B1 B2] _] _]. apply Nat.leb_le in B1. apply Nat.leb_le in B2. apply (HS _ _ _ _ _ Hq); auto. }
  destruct B as [b|b|? ? ?|? ?]; try discriminate; destruct T as [t|?|? ? ?|? ?]; try discriminate.
  - apply bind_Ok in H. destruct H as [[[x v] z] [Hx H]]. inversion H; subst A' V T'; clear H. split; [exact I|]. apply (D _ _ _ _ _ Hx).
  - apply bind_Ok in H. destruct H as [sv [Hs H]].
    apply bind_Ok in H. destruct H as [[[x v] z] [Hx H]]. inversion H; subst A' V T'; clear H.
    destruct GB as [G1 [G2 [G3 [G4 [SQ HU]]]]]. destruct WB as [W1 [W2 [W3 W4]]].
    apply D in Hx. destruct (dd_mul_inv (R := Rring) _ _ _ _ _ _ Hs) as [_ [S1 [S2 _]]]. cbn in S1, S2. rewrite S1, S2, W4 in Hx.
    split.
    + cbn [good l_eps l_r l_c l_S d_eye d_fill d_c]. split; [exact G1|]. split; [exact G2|]. split; [exact G3|]. split; [exact G4|]. split; [exact SQ|exact HU].
    + cbn [nrows ncols ent]. set (r := d_r (l_S b)) in *.
      assert (EV : xfeq (l_r b) (l_c b) (lr_ent (Lr (l_r b) (l_c b) (l_rank b) (l_eps b) (l_U b) (d_eye (d_fill (0%r : car Rring) (l_S b))) v))
                     (xmul r (d_e (l_U b)) (d_e v))).
      { unfold lr_ent. cbn [l_U l_S l_V]. rewrite W2.
        change (d_c (d_eye (d_fill (0%r : car Rring) (l_S b)))) with (d_c (l_S b)). rewrite <- SQ. fold r.
        apply (feq_mmul (R := Rring)); [apply (feq_refl (R := Rring))|]. intros i j Hi Hj. rewrite <- (mmul_id_l (R := Rring) r (d_e v) i j Hi).
        apply (mmul_ext (R := Rring)); auto. intros y Hy. apply (d_eye_fill (R := Rring)); [exact Hi|rewrite <- SQ; exact Hy]. }
      rewrite W2 in HU. fold r in HU. eapply Rle_trans; [right; exact (fro_ext _ _ _ _ EV)|]. rewrite (fro_cols _ _ _ _ _ HU). exact Hx.
Qed.

(** Column k reduced down to row k + t; the columns to the right of it have been subject to
    M reflectors before and have norms x originally. *)
Record err_inv (M : nat) (x : nat -> R) (k : nat) (A0 T0 : grid) (t : nat) (s : grid * grid) : Prop := {
  ei_tiles : gtiles w (fst s);
  ei_factors : factors (R := Rring) p q w (snd s);
  ei_A : forall i j, (i < k \/ j < k \/ (j = k /\ k + t < i))%nat -> fst s i j = A0 i j;
  ei_T : forall i j, j <> k -> snd s i j = T0 i j;
  ei_orth : orthogonal_tiles (fst s) (snd s) k t;
  ei_small : forall i, (k < i)%nat -> (i <= k + t)%nat -> fro (h i) (w k) (ent (fst s i k)) <= nu;
  ei_right : forall j, (k < j)%nat -> (j < q)%nat ->
    fro N (w j) (xsub (column (fst s) j) (xmul N (mtr (Qcol (fst s) (snd s) k t)) (column A0 j)))
      <= acc eta theta (M + t) (x j) - acc eta theta M (x j);
  ei_col : xfeq N (w k) (column A0 k) (xmul N (Qcol (fst s) (snd s) k t) (stack (R := Rring) p h (Rpart (R := Rring) A0 (fst s) k t)))
}.

Lemma err_base M x k (A T : grid) (X Y A2 : _) : (k < p)%nat -> (k < q)%nat -> (w k <= h k)%nat -> gtiles w A -> factors (R := Rring) p q w T ->
  geqrt K (A k k) (T k k) = Ok (X, Y) ->
  tiled_larfb q k true (S k) (bupd A k k X) (bupd T k k Y) (bupd A k k X) = Ok A2 ->
  err_inv M x k A T 0 (A2, bupd T k k Y).
Proof.
  intros Hk Hq LK HT' HF HG HL.
  destruct (step_base (R := Rring) K HK p q h w k A T X Y A2 Hk Hq LK (gtiles_tiles w A HT') HF HG HL) as [I1 I2 I3 I4 I5 I6 I7].
  cbn [fst snd] in *. constructor; cbn [fst snd]; auto.
  - destruct (HT' k k Hk Hq) as [W [D1 [D2 _]]].
    pose proof HG as HG'. apply (geqrt_ok (R := Rring) K HK) in HG'; [|rewrite D1, D2; exact LK].
    destruct HG' as [a [t0 [x' [y' [EA [ET [EX [EY [G1 [G2 [G3 [G4 [G5 G6]]]]]]]]]]]]].
    rewrite EA in D1, D2. cbn [nrows ncols] in D1, D2. rewrite D1 in G1, G5. rewrite D2 in G2, G3, G4, G5.
    apply (tiled_larfb_good w k true (S k)) in HL; auto.
    + intros i j Hi Hj. destruct (Nat.eq_dec i k) as [->|Ni]; [destruct (Nat.eq_dec j k) as [->|Nj]|].
      * rewrite (bupd_same (R := Rring)). subst X. split; [exact I|]. split; [exact G1|]. split; [exact G2|exact I].
      * rewrite (bupd_other (R := Rring)) by auto. apply HT'; auto.
      * rewrite (bupd_other (R := Rring)) by auto. apply HT'; auto.
    + rewrite (bupd_same (R := Rring)). subst Y. exact G4.
    + rewrite !(bupd_same (R := Rring)). subst X Y. exact G5.
  - intros i L1 L2. lia.
  - intros j L1 L2. rewrite fro_sub0 by (apply I6; auto). rewrite Nat.add_0_r. lra.
Qed.

Lemma err_next M x k (A0 T0 : grid) t (A T : grid) (X v Y A2 : _) : (k < q)%nat -> (w k <= h k)%nat -> (S k + t < p)%nat ->
  (forall j, (k < j)%nat -> (j < q)%nat -> 0 <= x j /\ fro N (w j) (column A0 j) <= x j + acc eta theta M (x j)) ->
  err_inv M x k A0 T0 t (A, T) ->
  tpqrt K (A k k) (A (S k + t)%nat k) (T (S k + t)%nat k) = Ok (X, v, Y) ->
  let i := (S k + t)%nat in
  tiled_tpmqrt Or q k i true (S k) (bupd (bupd A k k X) i k v) (bupd T i k Y) (bupd (bupd A k k X) i k v) = Ok A2 ->
  err_inv M x k A0 T0 (S t) (A2, bupd T i k Y).
Proof.
  intros Hq LK Hi HX [HTl HT IA IT IO IS IR IC] HP i HM. fold i in HP, Hi. cbn [fst snd] in *.
  assert (Hk : (k < p)%nat) by lia.
  destruct (HTl k k Hk Hq) as [WK [K1 [K2 _]]]. destruct (HTl i k Hi Hq) as [WI [I1 [I2 I3]]].
  destruct (HT i k Hi Hq ltac:(lia)) as [F1 F2].
  destruct (tpqrt_small _ _ _ _ _ _ HP WI I3) as [GV SV]. rewrite I1, I2 in SV.
  assert (SN : fro (h i) (w k) (ent v) <= nu).
  { eapply Rle_trans; [exact SV|]. unfold nu. apply sqrt_le_1_alt. apply le_INR. auto. }
  apply (tpqrt_ok (R := Rring) K HK) in HP; auto; try congruence; [|exact (good_orthU _ _ I3)]. cbv zeta in HP.
  destruct HP as [a [a' [t0 [t' [EA [EX [ET [EY [P1 [P2 [P3 [P4 [P5 [P6 [P7 [_ [P9 [P10 [P11 [P12 P13]]]]]]]]]]]]]]]]]]]].
  rewrite EA in K1, K2. cbn [nrows ncols] in K1, K2. rewrite I2 in *. rewrite I1 in *.
  set (A1 := bupd (bupd A k k X) i k v) in *. set (T1 := bupd T i k Y) in *.
  assert (Nik : i <> k) by lia.
  assert (EKK : A1 k k = MD a').
  { unfold A1. rewrite (bupd_other (R := Rring)) by auto. rewrite (bupd_same (R := Rring)). exact EX. }
  assert (EIK : A1 i k = v) by (unfold A1; apply (bupd_same (R := Rring))).
  assert (EO : forall i' j, (j <> k \/ (i' <> k /\ i' <> i))%nat -> A1 i' j = A i' j).
  { intros i' j H. unfold A1. rewrite !(bupd_other (R := Rring)) by lia. reflexivity. }
  assert (ETI : T1 i k = MD t') by (unfold T1; rewrite (bupd_same (R := Rring)); exact EY).
  destruct (layout_dims (R := Rring) _ _ WI P9 P10) as [V1 V2].
  assert (HA1 : gtiles w A1).
  { intros i' j Hi' Hj. destruct (Nat.eq_dec j k) as [->|Nj]; [|rewrite EO by auto; apply HTl; auto].
    destruct (Nat.eq_dec i' k) as [->|Nk].
    { rewrite EKK. split; [exact I|]. cbn [nrows ncols]. split; [congruence|]. split; [congruence|exact I]. }
    destruct (Nat.eq_dec i' i) as [->|Ni]; [|rewrite EO by auto; apply HTl; auto].
    rewrite EIK. split; auto. split; [congruence|]. split; [congruence|auto]. }
  apply (tiled_tpmqrt_err w k i true (S k)) in HM; auto;
    try (rewrite EIK; auto; congruence); try (rewrite ETI; auto; fail); try (rewrite EIK, ETI; auto; fail).
  destruct HM as [L1 [L2 L3]].
  assert (C2 : forall i', A2 i' k = A1 i' k) by (intros i'; apply L2; lia).
  assert (EL : xfeq (h k) (w k) (tri (R := Rring) Lower true (ent (A k k))) (tri (R := Rring) Lower true (ent (A2 k k)))).
  { rewrite C2, EKK, EA. cbn [ent]. apply (feq_sym (R := Rring)). apply (tri_lower_stable (R := Rring) p h a a' _ _ (w k)); auto. }
  assert (EQ : xfeq N N (Qcol A T k t) (Qcol A2 T1 k t)).
  { apply (Qcol_feq (R := Rring)); [lia|exact EL| |].
    - unfold T1. rewrite (bupd_other (R := Rring)) by auto. apply (feq_refl (R := Rring)).
    - intros i' Li Li'. rewrite C2, EO by lia. unfold T1. rewrite (bupd_other (R := Rring)) by lia. split; apply (feq_refl (R := Rring)). }
  set (G := GP (R := Rring) p h k i (w k) (ent v) (d_e t')).
  assert (EG : Qcol A2 T1 k (S t) = xmul N (Qcol A2 T1 k t) G).
  { cbn [QrTiled.Qcol]. fold N. change (S k + t)%nat with i. rewrite C2, EIK, ETI. reflexivity. }
  assert (OG : orthogonal (R := Rring) N G).
  { unfold G. apply (GP_orth (R := Rring)); auto. }
  constructor; cbn [fst snd].
  - exact L1.
  - intros i' j Hi' Hj. destruct (Nat.eq_dec i' i) as [->|Ni]; [destruct (Nat.eq_dec j k) as [->|Nj]|].
    + rewrite ETI. split; [exact P5|exact P6].
    + unfold T1. rewrite (bupd_other (R := Rring)) by auto. apply HT; auto.
    + unfold T1. rewrite (bupd_other (R := Rring)) by auto. apply HT; auto.
  - intros i' j Hij. rewrite L2 by lia. rewrite EO by lia. apply IA. lia.
  - intros i' j Hj. unfold T1. rewrite (bupd_other (R := Rring)) by auto. apply IT; auto.
  - destruct IO as [IO1 IO2]. split.
    + unfold T1. rewrite (bupd_other (R := Rring)) by auto. eapply (orthogonal_feq (R := Rring)); [|exact IO1].
      unfold tile_refl. apply (refl_feq (R := Rring)); [exact EL|apply (feq_refl (R := Rring))].
    + intros i' Li Li'. rewrite C2. destruct (Nat.eq_dec i' i) as [->|Ni].
      * rewrite EIK, ETI. exact P12.
      * rewrite EO by lia. unfold T1. rewrite (bupd_other (R := Rring)) by auto. apply IO2; lia.
  - intros i' Li Li'. rewrite C2. destruct (Nat.eq_dec i' i) as [->|Ni]; [rewrite EIK; exact SN|]. rewrite EO by lia. apply IS; lia.
  - intros j Lj Hj. rewrite EG.
    assert (EM : xfeq N (w j) (xmul N (mtr (xmul N (Qcol A2 T1 k t) G)) (column A0 j)) (xmul N (mop true G) (xmul N (mtr (Qcol A T k t)) (column A0 j)))).
    { intros r c Hr Hc.
      assert (E1 : meq (R := Rring) (xmul N (mtr (xmul N (Qcol A2 T1 k t) G)) (column A0 j)) (xmul N (mtr G) (xmul N (mtr (Qcol A2 T1 k t)) (column A0 j)))).
      { rewrite (meq_tr (R := Rring)), (meq_assoc (R := Rring)). reflexivity. }
      rewrite (E1 r c). cbn [mop]. apply (feq_mmul (R := Rring) N N (w j)); auto; [apply (feq_refl (R := Rring))|].
      apply (feq_mmul (R := Rring)); [|apply (feq_refl (R := Rring))]. apply (feq_tr (R := Rring)). apply (feq_sym (R := Rring)). exact EQ. }
    rewrite (fro_feq_sub _ _ _ _ _ _ (feq_refl (R := Rring) _ _ _) EM).
    assert (EC : xfeq N (w j) (column A1 j) (column A j)).
    { apply (feq_stack_refl (R := Rring)). intros b Hb. rewrite EO by lia. reflexivity. }
    pose proof (L3 j Lj Hj) as E3. rewrite EIK, ETI in E3. cbn [ent] in E3. fold G in E3.
    rewrite (fro_ext _ _ _ _ EC) in E3.
    assert (E3' : fro N (w j) (xsub (column A2 j) (xmul N (mop true G) (column A j))) <= eta * fro N (w j) (column A j) + theta).
    { erewrite fro_feq_sub; [exact E3|apply (feq_refl (R := Rring))|]. apply (feq_mmul (R := Rring)); [apply (feq_refl (R := Rring))|].
      apply (feq_sym (R := Rring)). exact EC. }
    pose proof (IR j Lj Hj) as E4. destruct (HX j Lj Hj) as [X0 X1].
    pose proof (fro_via N (w j) (column A2 j) (xmul N (mop true G) (column A j)) (xmul N (mop true G) (xmul N (mtr (Qcol A T k t)) (column A0 j)))) as E5.
    rewrite (fro_orth_sub N (w j) G _ _ true OG) in E5.
    assert (OQ : orthogonal (R := Rring) N (Qcol A T k t)) by (apply (Qcol_orth (R := Rring)); auto; lia).
    pose proof (fro_dist N (w j) (column A j) (xmul N (mtr (Qcol A T k t)) (column A0 j))) as E6.
    pose proof (fro_orth N (w j) (Qcol A T k t) (column A0 j) true OQ) as E7. cbn [mop] in E7. rewrite E7 in E6.
    pose proof (acc_S eta theta eta_nonneg theta_nonneg (M + t) (x j) X0) as E8.
    replace (M + S t)%nat with (S (M + t)) by lia.
    assert (E9 : eta * fro N (w j) (column A j) <= eta * (x j + acc eta theta (M + t) (x j))).
    { apply Rmult_le_compat_l; [apply eta_nonneg|]. lra. }
    lra.
  - rewrite EG.
    assert (E1 : meq (R := Rring) (xmul N (xmul N (Qcol A2 T1 k t) G) (stack (R := Rring) p h (Rpart (R := Rring) A0 A2 k (S t))))
       (xmul N (Qcol A2 T1 k t) (xmul N G (stack (R := Rring) p h (Rpart (R := Rring) A0 A2 k (S t)))))) by apply (meq_assoc (R := Rring)).
    eapply feq_trans; [exact IC|]. eapply feq_trans; [|apply (feq_meq (R := Rring)); intros r c; symmetry; apply E1].
    apply (feq_mmul (R := Rring)); [exact EQ|].
    assert (RK : forall s (B : grid), Rpart (R := Rring) A0 B k s k = tri (R := Rring) Upper false (ent (B k k))).
    { intros s B. unfold Rpart. rewrite Nat.ltb_irrefl, Nat.eqb_refl. reflexivity. }
    assert (AI : ent (A0 i k) = ent (A i k)) by (rewrite (IA i k); [reflexivity|lia]).
    unfold G. apply (GP_apply (R := Rring) p h k i (w k) (w k) _ _ false); auto; try lia.
    + cbn [mop]. rewrite !RK, C2, EKK, EA. cbn [ent].
      assert (R1 : Rpart (R := Rring) A0 A k t i = ent (A i k)).
      { unfold Rpart. destruct (Nat.ltb_spec i k); [lia|]. destruct (Nat.eqb_spec i k); [lia|].
        destruct (Nat.leb_spec i (k + t)); [lia|exact AI]. }
      assert (R2 : Rpart (R := Rring) A0 A2 k (S t) i = mzero).
      { unfold Rpart. destruct (Nat.ltb_spec i k); [lia|]. destruct (Nat.eqb_spec i k); [lia|].
        destruct (Nat.leb_spec i (k + S t)); [reflexivity|lia]. }
      rewrite R1, R2. exact P13.
    + intros r j Lr Hr Hj. rewrite !RK. rewrite (tri_upper_zero (R := Rring) p h _ (w k) (w k)) by auto.
      rewrite (tri_upper_zero (R := Rring) p h _ (w k) (w k)) by auto. reflexivity.
    + intros b Hb N1 N2. unfold Rpart. destruct (b <? k)%nat eqn:B; [apply (feq_refl (R := Rring))|].
      destruct (Nat.eqb_spec b k); [congruence|].
      destruct (Nat.leb_spec b (k + t)), (Nat.leb_spec b (k + S t)); try apply (feq_refl (R := Rring)); lia.
Qed.

Lemma err_step M x k (A T A' T' : grid) : (k < q)%nat -> ((k < p)%nat -> (w k <= h k)%nat) -> gtiles w A -> factors (R := Rring) p q w T ->
  (forall j, (k < j)%nat -> (j < q)%nat -> 0 <= x j /\ fro N (w j) (column A j) <= x j + acc eta theta M (x j)) ->
  tiled_step Or K p q k (A, T) = Ok (A', T') -> (k < p)%nat /\ err_inv M x k A T (p - S k) (A', T').
Proof.
  intros Hq LK HTl HT HX H. unfold tiled_step in H. apply assert_Ok in H. destruct H as [B H]. apply Nat.ltb_lt in B.
  split; auto. specialize (LK B). cbn [fst snd] in H. apply bind_Ok in H. destruct H as [[X Y] [HG H]].
  apply bind_Ok in H. destruct H as [A2 [HL H]].
  apply (for_loop_inv_out _ _ _ _ (err_inv M x k A T)) in H; auto.
  - apply (err_base M x k A T X Y); auto.
  - clear H. intros t s s' Ht Hs Hb. destruct s as [B1 T1]. cbn [fst snd] in Hb.
    apply bind_Ok in Hb. destruct Hb as [[[x' v'] y'] [HP Hb]].
    apply bind_Ok in Hb. destruct Hb as [A3 [HM Hb]]. inversion Hb; subst s'; clear Hb.
    apply (err_next M x k A T t B1 T1 x' v' y' A3); auto; lia.
Qed.

(** ** The whole factorization *)

(** Number of reflectors of pairs of tiles in the first n columns. *)
Fixpoint pairs (n : nat) : nat := match n with O => O | S n => (pairs n + (p - S n))%nat end.

Record qr_err (A0 : grid) (n : nat) (s : grid * grid) : Prop := {
  qe_tiles : gtiles w (fst s);
  qe_factors : factors (R := Rring) p q w (snd s);
  qe_p : (n <= p)%nat;
  qe_orth : forall k, (k < n)%nat -> orthogonal_tiles (fst s) (snd s) k (p - S k);
  qe_small : forall i k, (k < n)%nat -> (k < i)%nat -> (i < p)%nat -> fro (h i) (w k) (ent (fst s i k)) <= nu;
  qe_done : forall j, (j < n)%nat ->
    fro N (w j) (xsub (column A0 j) (xmul N (Qfac (fst s) (snd s) n) (stack (R := Rring) p h (fun i => Rtile (R := Rring) (fst s) i j))))
      <= acc eta theta (pairs j) (fro N (w j) (column A0 j));
  qe_todo : forall j, (n <= j)%nat -> (j < q)%nat ->
    fro N (w j) (xsub (column A0 j) (xmul N (Qfac (fst s) (snd s) n) (column (fst s) j)))
      <= acc eta theta (pairs n) (fro N (w j) (column A0 j))
}.

Lemma tiled_qr_err (A T : grid) pt qt (A' T' : grid) : (forall k, (k < q)%nat -> (k < p)%nat -> (w k <= h k)%nat) ->
  gtiles w A -> factors (R := Rring) p q w T ->
  tiled_qr Or K p q A pt qt T = Ok (A', T') -> qr_err A q (A', T').
Proof.
  intros LK HTl HT H. unfold tiled_qr in H. apply assert_Ok in H. destruct H as [_ H].
  apply assert_Ok in H. destruct H as [_ H].
  apply (for_loop_inv_out _ _ _ _ (fun n s => qr_err A n s)) in H; auto.
  - constructor; cbn [fst snd]; auto; try (intros; lia).
    intros j _ Hj. simpl. rewrite fro_sub0 by (apply (feq_sym (R := Rring)); apply (feq_id_l (R := Rring))). rewrite acc_0. lra.
  - clear H. intros n s s' Hn [I1 I2 I3 I4 IS I5 I6] Hb. destruct s as [B U], s' as [B' U']. cbn [fst snd] in *.
    assert (LKp : forall k, (k < n)%nat -> (w k <= h k)%nat) by (intros k Hk; apply LK; lia).
    assert (OQ0 : orthogonal (R := Rring) N (Qfac B U n)) by (apply (Qfac_orth (R := Rring)); auto).
    set (x := fun j => fro N (w j) (column A j)).
    apply (err_step (pairs n) x) in Hb; auto.
    2: { intros j Lj Hj. split; [apply fro_nonneg|]. pose proof (I6 j ltac:(lia) Hj) as E. fold (x j) in E.
         rewrite fro_swap in E. pose proof (fro_dist N (w j) (xmul N (Qfac B U n) (column B j)) (column A j)) as E1.
         pose proof (fro_orth N (w j) (Qfac B U n) (column B j) false OQ0) as E2. cbn [mop] in E2. rewrite E2 in E1. fold (x j) in E1. lra. }
    destruct Hb as [Hp [S1 S2 S3 S4 S5 SS S6 S7]]. cbn [fst snd] in *.
    assert (LN : (w n <= h n)%nat) by auto.
    assert (EQ : Qfac B U n = Qfac B' U' n).
    { apply (Qfac_cong (R := Rring)); intros i k Hk; symmetry; [apply S3; lia|apply S4; lia]. }
    assert (OQ : orthogonal (R := Rring) N (Qfac B' U' n)) by (rewrite <- EQ; exact OQ0).
    assert (OC : orthogonal (R := Rring) N (Qcol B' U' n (p - S n))) by (apply (Qcol_orth (R := Rring)); auto; lia).
    constructor; cbn [fst snd]; auto.
    + intros k Hk. destruct (Nat.eq_dec k n) as [->|Nk]; [exact S5|].
      assert (O := I4 k ltac:(lia)). destruct O as [O1 O2]. split.
      * rewrite S3 by lia. rewrite S4 by lia. exact O1.
      * intros i Hi Hi'. rewrite S3 by lia. rewrite S4 by lia. apply O2; auto.
    + intros i k Hk Hi Hip. destruct (Nat.eq_dec k n) as [->|Nk]; [apply SS; lia|]. rewrite S3 by lia. apply IS; auto; lia.
    + intros j Hj. destruct (Nat.eq_dec j n) as [->|Nj].
      * pose proof (I6 n ltac:(lia) ltac:(lia)) as E. erewrite fro_feq_sub; [exact E|apply (feq_refl (R := Rring))|].
        simpl. intros r c Hr Hc.
        assert (E1 : meq (R := Rring) (xmul N (xmul N (Qfac B' U' n) (Qcol B' U' n (p - S n))) (stack (R := Rring) p h (fun i => Rtile (R := Rring) B' i n)))
           (xmul N (Qfac B' U' n) (xmul N (Qcol B' U' n (p - S n)) (stack (R := Rring) p h (fun i => Rtile (R := Rring) B' i n))))) by apply (meq_assoc (R := Rring)).
        etransitivity; [apply (E1 r c)|]. rewrite EQ.
        apply (feq_mmul (R := Rring) N N (w n)); auto; [apply (feq_refl (R := Rring))|]. apply (feq_sym (R := Rring)). eapply feq_trans; [exact S7|].
        apply (feq_mmul (R := Rring)); [apply (feq_refl (R := Rring))|]. apply (feq_stack_refl (R := Rring)). intros b Hb. unfold Rpart, Rtile.
        destruct (Nat.ltb_spec b n); [rewrite S3 by lia; reflexivity|].
        destruct (Nat.eqb_spec b n); [subst b; reflexivity|]. destruct (Nat.leb_spec b (n + (p - S n))); [reflexivity|lia].
      * pose proof (I5 j ltac:(lia)) as E. erewrite fro_feq_sub; [exact E|apply (feq_refl (R := Rring))|].
        rewrite EQ. simpl. intros r c Hr Hc.
        assert (E1 : meq (R := Rring) (xmul N (xmul N (Qfac B' U' n) (Qcol B' U' n (p - S n))) (stack (R := Rring) p h (fun i => Rtile (R := Rring) B' i j)))
           (xmul N (Qfac B' U' n) (xmul N (Qcol B' U' n (p - S n)) (stack (R := Rring) p h (fun i => Rtile (R := Rring) B' i j))))) by apply (meq_assoc (R := Rring)).
        etransitivity; [apply (E1 r c)|].
        apply (feq_mmul (R := Rring) N N (w j)); auto; [apply (feq_refl (R := Rring))|].
        eapply feq_trans; [apply (Qcol_zero (R := Rring) p h w _ _ _ _ _ false); [lia|auto|]|].
        { intros i Hi Hi'. unfold Rtile. destruct (Nat.ltb_spec i j); [lia|]. destruct (Nat.eqb_spec i j); [lia|]. apply (feq_refl (R := Rring)). }
        apply (feq_stack_refl (R := Rring)). intros b Hb. unfold Rtile. rewrite (S3 b j) by lia. reflexivity.
    + intros j Hj Hj'. pose proof (I6 j ltac:(lia) Hj') as E. pose proof (S6 j ltac:(lia) Hj') as F. rewrite EQ in E.
      fold (x j) in E |- *. cbn [pairs].
      set (C := Qcol B' U' n (p - S n)) in *.
      assert (E1 : xfeq N (w j) (xmul N (Qfac B' U' (S n)) (column B' j)) (xmul N (Qfac B' U' n) (xmul N C (column B' j)))).
      { apply (feq_meq (R := Rring)). cbn [QrTiled.Qfac]. apply (meq_assoc (R := Rring)). }
      rewrite (fro_feq_sub _ _ _ _ _ _ (feq_refl (R := Rring) _ _ _) E1).
      eapply Rle_trans; [apply (fro_via _ _ _ (xmul N (Qfac B' U' n) (column B j)))|].
      pose proof (fro_orth_sub N (w j) (Qfac B' U' n) (column B j) (xmul N C (column B' j)) false OQ) as E2. cbn [mop] in E2. rewrite E2.
      assert (E3 : fro N (w j) (xsub (column B j) (xmul N C (column B' j))) = fro N (w j) (xsub (column B' j) (xmul N (mtr C) (column B j)))).
      { rewrite fro_swap. rewrite <- (fro_orth_sub N (w j) C (column B' j) (xmul N (mtr C) (column B j)) false OC). cbn [mop].
        apply fro_feq_sub; [apply (feq_refl (R := Rring))|]. apply (feq_sym (R := Rring)). apply (orthogonal_cancel (R := Rring) N (w j) C _ false OC). }
      rewrite E3. lra.
Qed.
End Loop.
