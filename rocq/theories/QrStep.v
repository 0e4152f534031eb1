(** One column of tiled Householder QR, and the factorization. *)
From Coq Require Import List Arith ZArith QArith Lia Bool Ring_theory Ring Setoid Morphisms.
From Verif Require Import Prelude Ring MatFun MatSetoid Matrix MatOps MatSpec MatOpsProofs Lapack Gemm GemmSpec GemmProofs
  GemmTheorems Triangular TriAlgebra TriSpec TriProofs Reflect ReflectSpec ReflectProofs ReflectTile QrBig QrTiled.
Import ListNotations.
Local Open Scope nat_scope.

Section Step.
Context {R : cring}.
Add Ring Rr : (cr_th R).
Notation dense := (dense R).
Notation lowrank := (lowrank R).
Notation matrix := (matrix R).
Notation mat := (mat R).
Notation grid := (grid R).

Variable Or : oracles R.
Hypothesis HO : oracles_near exact Or.
Hypothesis HU : keeps_orthU Or.
Variable K : qrt R.
Hypothesis HK : qrt_ok K.
Variables p q : nat.
Variables h w : nat -> nat.
Let N := offs h p.
Notation tiles := (tiles True p q h w).
Notation factors := (factors p q w).
Notation column := (column p h).
Notation Qcol := (Qcol p h w).
Notation Qfac := (Qfac p h w).
Notation orthogonal_tiles := (orthogonal_tiles h w).

(** Column k when it has been reduced down to row k + t: A0 is the matrix at the
    beginning of the step, A the current one. *)
Definition Rpart (A0 A : grid) (k t i : nat) : mat :=
  if i <? k then ent (A0 i k)
  else if i =? k then tri Upper false (ent (A k k))
  else if i <=? k + t then mzero else ent (A0 i k).

Record step_inv (k : nat) (A0 T0 : grid) (t : nat) (s : grid * grid) : Prop := {
  si_tiles : tiles (fst s);
  si_factors : factors (snd s);
  si_A : forall i j, i < k \/ j < k \/ (j = k /\ k + t < i) -> fst s i j = A0 i j;
  si_T : forall i j, j <> k -> snd s i j = T0 i j;
  si_orth : orthogonal_tiles (fst s) (snd s) k t;
  si_right : forall j, k < j -> j < q ->
    feq N (w j) (column (fst s) j) (mmul N (mtr (Qcol (fst s) (snd s) k t)) (column A0 j));
  si_col : feq N (w k) (column A0 k) (mmul N (Qcol (fst s) (snd s) k t) (stack p h (Rpart A0 (fst s) k t)))
}.

Lemma feq_stack_refl c (X X' : nat -> mat) : (forall b, b < p -> X b = X' b) -> feq N c (stack p h X) (stack p h X').
Proof. intros H. apply feq_stack. intros b Hb. rewrite H by auto. apply feq_refl. Qed.

Lemma tri_lower_stable (a a' : dense) r c n : d_r a = r -> d_c a = c ->
  (forall i j, i < d_r a -> j < d_c a -> ~ (i <= j /\ j < n) -> d_e a' i j = d_e a i j) ->
  feq r c (tri Lower true (d_e a')) (tri Lower true (d_e a)).
Proof.
  intros E1 E2 H i j Hi Hj. unfold tri. destruct (Nat.eqb_spec i j); [reflexivity|].
  destruct (Nat.ltb_spec j i); [|reflexivity]. apply H; lia.
Qed.

Lemma tri_upper_zero (f : mat) n c r j : n <= r -> j < c -> c <= n -> tri Upper false f r j = 0%r.
Proof.
  intros H1 H2 H3. unfold tri. destruct (Nat.eqb_spec r j); [lia|]. destruct (Nat.ltb_spec r j); [lia|reflexivity].
Qed.

Lemma step_base k (A T : grid) (x y A2 : _) : k < p -> k < q -> w k <= h k -> tiles A -> factors T ->
  geqrt K (A k k) (T k k) = Ok (x, y) ->
  tiled_larfb q k true (S k) (bupd A k k x) (bupd T k k y) (bupd A k k x) = Ok A2 ->
  step_inv k A T 0 (A2, bupd T k k y).
Proof.
  intros Hk Hq LK HA HT HG HL.
  destruct (HA k k Hk Hq) as [W [D1 [D2 _]]].
  apply (geqrt_ok K HK) in HG; [|rewrite D1, D2; exact LK].
  destruct HG as [a [t0 [x' [y' [EA [ET [EX [EY [G1 [G2 [G3 [G4 [G5 G6]]]]]]]]]]]]].
  rewrite EA in D1, D2. cbn [nrows ncols] in D1, D2. rewrite D1 in G1, G5, G6. rewrite D2 in G2, G3, G4, G5, G6.
  set (A1 := bupd A k k x) in *. set (T1 := bupd T k k y) in *.
  assert (EA1 : A1 k k = MD x') by (unfold A1; rewrite bupd_same; exact EX).
  assert (ET1 : T1 k k = MD y') by (unfold T1; rewrite bupd_same; exact EY).
  assert (HA1 : tiles A1).
  { intros i j Hi Hj. destruct (Nat.eq_dec i k) as [->|Ni]; [destruct (Nat.eq_dec j k) as [->|Nj]|].
    - rewrite EA1. split; [exact I|]. split; [exact G1|]. split; [exact G2|]. intros _; exact I.
    - unfold A1. rewrite bupd_other by auto. apply HA; auto.
    - unfold A1. rewrite bupd_other by auto. apply HA; auto. }
  assert (OQ : orthogonal (h k) (tile_refl (w k) (ent (A1 k k)) (ent (T1 k k)))).
  { rewrite EA1, ET1. exact G5. }
  assert (TC : ncols (T1 k k) = w k) by (rewrite ET1; exact G4).
  apply (tiled_larfb_ok True p q h w w k true (S k)) in HL; auto.
  destruct HL as [L1 [L2 L3]].
  assert (E2 : A2 k k = MD x') by (rewrite L2 by lia; exact EA1).
  constructor; cbn [fst snd].
  - exact L1.
  - intros i j Hi Hj. destruct (Nat.eq_dec i k) as [->|Ni]; [destruct (Nat.eq_dec j k) as [->|Nj]|].
    + rewrite ET1. split; [exact G3|exact G4].
    + unfold T1. rewrite bupd_other by auto. apply HT; auto.
    + unfold T1. rewrite bupd_other by auto. apply HT; auto.
  - intros i j Hij. rewrite L2 by lia. unfold A1. apply bupd_other. lia.
  - intros i j Hj. unfold T1. apply bupd_other; auto.
  - split.
    + rewrite E2. rewrite ET1. exact G5.
    + intros i Hi Hi'. lia.
  - intros j Hj Hj'. eapply feq_trans; [apply L3; auto|].
    cbn [QrTiled.Qcol mop]. rewrite E2, EA1. apply feq_mmul; [apply feq_refl|].
    apply feq_stack_refl. intros b Hb. unfold A1. rewrite bupd_other by lia. reflexivity.
  - cbn [QrTiled.Qcol]. rewrite E2, ET1.
    apply (GL_apply p h k (w k) (w k) _ _ false); auto.
    + cbn [ent mop]. rewrite EA. cbn [ent]. eapply feq_trans; [exact G6|].
      apply feq_mmul; [apply feq_refl|]. unfold Rpart. rewrite Nat.ltb_irrefl, Nat.eqb_refl, E2. apply feq_refl.
    + intros b Hb Hn. unfold Rpart. destruct (b <? k) eqn:B; [apply feq_refl|].
      destruct (Nat.eqb_spec b k); [congruence|]. apply Nat.ltb_ge in B.
      destruct (Nat.leb_spec b (k + 0)); [lia|]. apply feq_refl.
Qed.

Lemma step_next k (A0 T0 : grid) t (A T : grid) (x v y A2 : _) : k < q -> w k <= h k -> S k + t < p ->
  step_inv k A0 T0 t (A, T) ->
  tpqrt K (A k k) (A (S k + t) k) (T (S k + t) k) = Ok (x, v, y) ->
  let i := S k + t in
  tiled_tpmqrt Or q k i true (S k) (bupd (bupd A k k x) i k v) (bupd T i k y) (bupd (bupd A k k x) i k v) = Ok A2 ->
  step_inv k A0 T0 (S t) (A2, bupd T i k y).
Proof.
  intros Hq LK Hi [HA HT IA IT IO IR IC] HP i HM. fold i in HP, Hi. cbn [fst snd] in *.
  assert (Hk : k < p) by lia.
  destruct (HA k k Hk Hq) as [WK [K1 [K2 _]]]. destruct (HA i k Hi Hq) as [WI [I1 [I2 I3]]].
  destruct (HT i k Hi Hq ltac:(lia)) as [F1 F2].
  apply (tpqrt_ok K HK) in HP; auto; try congruence. cbv zeta in HP.
  destruct HP as [a [a' [t0 [t' [EA [EX [ET [EY [P1 [P2 [P3 [P4 [P5 [P6 [P7 [_ [P9 [P10 [P11 [P12 P13]]]]]]]]]]]]]]]]]]]].
  rewrite EA in K1, K2. cbn [nrows ncols] in K1, K2. rewrite I2 in *. rewrite I1 in *.
  set (A1 := bupd (bupd A k k x) i k v) in *. set (T1 := bupd T i k y) in *.
  assert (Nik : i <> k) by lia.
  assert (EKK : A1 k k = MD a').
  { unfold A1. rewrite bupd_other by auto. rewrite bupd_same. exact EX. }
  assert (EIK : A1 i k = v) by (unfold A1; apply bupd_same).
  assert (EO : forall i' j, j <> k \/ (i' <> k /\ i' <> i) -> A1 i' j = A i' j).
  { intros i' j H. unfold A1. rewrite !bupd_other by lia. reflexivity. }
  assert (ETI : T1 i k = MD t') by (unfold T1; rewrite bupd_same; exact EY).
  destruct (layout_dims _ _ WI P9 P10) as [V1 V2].
  assert (HA1 : tiles A1).
  { intros i' j Hi' Hj. destruct (Nat.eq_dec j k) as [->|Nj]; [|rewrite EO by auto; apply HA; auto].
    destruct (Nat.eq_dec i' k) as [->|Nk].
    { rewrite EKK. split; [exact I|]. cbn [nrows ncols]. split; [congruence|]. split; [congruence|]. intros _; exact I. }
    destruct (Nat.eq_dec i' i) as [->|Ni]; [|rewrite EO by auto; apply HA; auto].
    rewrite EIK. split; auto. split; [congruence|]. split; [congruence|]. auto. }
  apply (tiled_tpmqrt_ok Or HO True (fun _ => HU) p q h w w k i true (S k)) in HM; auto;
    try (rewrite EIK; auto; congruence); try (rewrite ETI; auto).
  destruct HM as [L1 [L2 L3]].
  assert (C2 : forall i', A2 i' k = A1 i' k) by (intros i'; apply L2; lia).
  (* the reflectors of the earlier rows are the same *)
  assert (EL : feq (h k) (w k) (tri Lower true (ent (A k k))) (tri Lower true (ent (A2 k k)))).
  { rewrite C2, EKK, EA. cbn [ent]. apply feq_sym. apply (tri_lower_stable a a' _ _ (w k)); auto. }
  assert (EQ : feq N N (Qcol A T k t) (Qcol A2 T1 k t)).
  { apply Qcol_feq; [lia|exact EL| |].
    - unfold T1. rewrite bupd_other by auto. apply feq_refl.
    - intros i' Li Li'. rewrite C2, EO by lia. unfold T1. rewrite bupd_other by lia. split; apply feq_refl. }
  set (G := GP p h k i (w k) (ent v) (d_e t')).
  assert (EG : Qcol A2 T1 k (S t) = mmul N (Qcol A2 T1 k t) G).
  { cbn [QrTiled.Qcol]. fold N. change (S k + t) with i. rewrite C2, EIK, ETI. reflexivity. }
  constructor; cbn [fst snd].
  - exact L1.
  - intros i' j Hi' Hj. destruct (Nat.eq_dec i' i) as [->|Ni]; [destruct (Nat.eq_dec j k) as [->|Nj]|].
    + rewrite ETI. split; [exact P5|exact P6].
    + unfold T1. rewrite bupd_other by auto. apply HT; auto.
    + unfold T1. rewrite bupd_other by auto. apply HT; auto.
  - intros i' j Hij. rewrite L2 by lia. rewrite EO by lia. apply IA. lia.
  - intros i' j Hj. unfold T1. rewrite bupd_other by auto. apply IT; auto.
  - destruct IO as [IO1 IO2]. split.
    + unfold T1. rewrite bupd_other by auto. eapply orthogonal_feq; [|exact IO1].
      unfold tile_refl. apply refl_feq; [exact EL|apply feq_refl].
    + intros i' Li Li'. rewrite C2. destruct (Nat.eq_dec i' i) as [->|Ni].
      * rewrite EIK, ETI. exact P12.
      * rewrite EO by lia. unfold T1. rewrite bupd_other by auto. apply IO2; lia.
  - intros j Lj Hj. rewrite EG. rewrite meq_tr, meq_assoc.
    eapply feq_trans; [apply L3; auto|]. rewrite EIK, ETI. cbn [mop ent]. fold G.
    apply feq_mmul; [apply feq_refl|].
    eapply feq_trans; [|eapply feq_trans; [apply (IR j Lj Hj)|]].
    + apply feq_stack_refl. intros b Hb. rewrite EO by lia. reflexivity.
    + apply feq_mmul; [|apply feq_refl]. apply feq_tr. exact EQ.
  - rewrite EG. rewrite meq_assoc. eapply feq_trans; [exact IC|]. apply feq_mmul; [exact EQ|].
    assert (RK : forall s (B : grid), Rpart A0 B k s k = tri Upper false (ent (B k k))).
    { intros s B. unfold Rpart. rewrite Nat.ltb_irrefl, Nat.eqb_refl. reflexivity. }
    assert (AI : ent (A0 i k) = ent (A i k)) by (rewrite (IA i k); [reflexivity|lia]).
    unfold G. apply (GP_apply p h k i (w k) (w k) _ _ false); auto; try lia.
    + cbn [mop]. rewrite !RK, C2, EKK, EA. cbn [ent].
      assert (R1 : Rpart A0 A k t i = ent (A i k)).
      { unfold Rpart. destruct (Nat.ltb_spec i k); [lia|]. destruct (Nat.eqb_spec i k); [lia|].
        destruct (Nat.leb_spec i (k + t)); [lia|exact AI]. }
      assert (R2 : Rpart A0 A2 k (S t) i = mzero).
      { unfold Rpart. destruct (Nat.ltb_spec i k); [lia|]. destruct (Nat.eqb_spec i k); [lia|].
        destruct (Nat.leb_spec i (k + S t)); [reflexivity|lia]. }
      rewrite R1, R2. exact P13.
    + intros r j Lr Hr Hj. rewrite !RK. rewrite (tri_upper_zero _ (w k) (w k)) by auto.
      rewrite (tri_upper_zero _ (w k) (w k)) by auto. reflexivity.
    + intros b Hb N1 N2. unfold Rpart. destruct (b <? k) eqn:B; [apply feq_refl|].
      destruct (Nat.eqb_spec b k); [congruence|].
      destruct (Nat.leb_spec b (k + t)), (Nat.leb_spec b (k + S t)); try apply feq_refl; lia.
Qed.

Lemma tiled_step_ok k (A T A' T' : grid) : k < q -> (k < p -> w k <= h k) -> tiles A -> factors T ->
  tiled_step Or K p q k (A, T) = Ok (A', T') -> k < p /\ step_inv k A T (p - S k) (A', T').
Proof.
  intros Hq LK HA HT H. unfold tiled_step in H. apply assert_Ok in H. destruct H as [B H]. apply Nat.ltb_lt in B.
  split; auto. specialize (LK B). cbn [fst snd] in H. apply bind_Ok in H. destruct H as [[x y] [HG H]].
  apply bind_Ok in H. destruct H as [A2 [HL H]].
  apply (for_loop_inv_out _ _ _ _ (step_inv k A T)) in H; auto.
  - apply (step_base k A T x y); auto.
  - clear H. intros t s s' Ht Hs Hb. destruct s as [B1 T1]. cbn [fst snd] in Hb.
    apply bind_Ok in Hb. destruct Hb as [[[x' v'] y'] [HP Hb]].
    apply bind_Ok in Hb. destruct Hb as [A3 [HM Hb]]. inversion Hb; subst s'; clear Hb.
    apply (step_next k A T t B1 T1 x' v' y' A3); auto; lia.
Qed.

(** ** The whole factorization *)

(** What the upper triangle of the result stands for. *)
Definition Rtile (A : grid) (i j : nat) : mat :=
  if i <? j then ent (A i j) else if i =? j then tri Upper false (ent (A i j)) else mzero.

Lemma Qcol_cong (Y T Y' T' : grid) k n : (forall i, Y i k = Y' i k) -> (forall i, T i k = T' i k) ->
  Qcol Y T k n = Qcol Y' T' k n.
Proof.
  intros H1 H2. induction n as [|n IH]; simpl; rewrite ?H1, ?H2; [reflexivity|]. rewrite IH. reflexivity.
Qed.
Lemma Qfac_cong (Y T Y' T' : grid) n : (forall i k, k < n -> Y i k = Y' i k) -> (forall i k, k < n -> T i k = T' i k) ->
  Qfac Y T n = Qfac Y' T' n.
Proof.
  intros H1 H2. induction n as [|n IH]; simpl; [reflexivity|].
  rewrite IH by (intros; auto). rewrite (Qcol_cong Y T Y' T') by (intros; auto). reflexivity.
Qed.

Record qr_inv (A0 : grid) (n : nat) (s : grid * grid) : Prop := {
  qi_tiles : tiles (fst s);
  qi_factors : factors (snd s);
  qi_p : n <= p;
  qi_orth : forall k, k < n -> orthogonal_tiles (fst s) (snd s) k (p - S k);
  qi_done : forall j, j < n ->
    feq N (w j) (column A0 j) (mmul N (Qfac (fst s) (snd s) n) (stack p h (fun i => Rtile (fst s) i j)));
  qi_todo : forall j, n <= j -> j < q ->
    feq N (w j) (column A0 j) (mmul N (Qfac (fst s) (snd s) n) (column (fst s) j))
}.

Lemma tiled_qr_ok (A T : grid) pt qt (A' T' : grid) : (forall k, k < q -> k < p -> w k <= h k) -> tiles A -> factors T ->
  tiled_qr Or K p q A pt qt T = Ok (A', T') -> qr_inv A q (A', T').
Proof.
  intros LK HA HT H. unfold tiled_qr in H. apply assert_Ok in H. destruct H as [_ H].
  apply assert_Ok in H. destruct H as [_ H].
  apply (for_loop_inv_out _ _ _ _ (fun n s => qr_inv A n s)) in H; auto.
  - constructor; cbn [fst snd]; auto; try (intros; lia).
    intros j _ Hj. simpl. apply feq_sym. apply feq_id_l.
  - clear H. intros n s s' Hn [I1 I2 I3 I4 I5 I6] Hb. destruct s as [B U], s' as [B' U']. cbn [fst snd] in *.
    apply tiled_step_ok in Hb; auto. destruct Hb as [Hp [S1 S2 S3 S4 S5 S6 S7]]. cbn [fst snd] in *.
    assert (LN : w n <= h n) by auto.
    assert (EQ : Qfac B U n = Qfac B' U' n).
    { apply Qfac_cong; intros i k Hk; symmetry; [apply S3; lia|apply S4; lia]. }
    constructor; cbn [fst snd]; auto.
    + intros k Hk. destruct (Nat.eq_dec k n) as [->|Nk]; [exact S5|].
      assert (O := I4 k ltac:(lia)). destruct O as [O1 O2]. split.
      * rewrite S3 by lia. rewrite S4 by lia. exact O1.
      * intros i Hi Hi'. rewrite S3 by lia. rewrite S4 by lia. apply O2; auto.
    + intros j Hj. destruct (Nat.eq_dec j n) as [->|Nj].
      * simpl. rewrite meq_assoc. eapply feq_trans; [apply (I6 n); lia|].
        rewrite EQ. apply feq_mmul; [apply feq_refl|]. eapply feq_trans; [exact S7|].
        apply feq_mmul; [apply feq_refl|]. apply feq_stack_refl. intros b Hb. unfold Rpart, Rtile.
        destruct (Nat.ltb_spec b n); [rewrite S3 by lia; reflexivity|].
        destruct (Nat.eqb_spec b n); [subst b; reflexivity|]. destruct (Nat.leb_spec b (n + (p - S n))); [reflexivity|lia].
      * eapply feq_trans; [apply (I5 j); lia|]. rewrite EQ. simpl. rewrite meq_assoc.
        apply feq_mmul; [apply feq_refl|]. apply feq_sym.
        eapply feq_trans; [apply (Qcol_zero p h w _ _ _ _ _ false); [lia|auto|]|].
        { intros i Hi Hi'. unfold Rtile. destruct (Nat.ltb_spec i j); [lia|]. destruct (Nat.eqb_spec i j); [lia|]. apply feq_refl. }
        apply feq_stack_refl. intros b Hb. unfold Rtile. rewrite (S3 b j) by lia. reflexivity.
    + intros j Hj Hj'. eapply feq_trans; [apply (I6 j); lia|]. rewrite EQ. simpl. rewrite meq_assoc.
      apply feq_mmul; [apply feq_refl|].
      eapply feq_trans; [|apply feq_mmul; [apply feq_refl|apply feq_sym; apply (S6 j); lia]].
      apply feq_sym. apply (orthogonal_cancel N (w j) _ _ false).
      apply Qcol_orth; auto. lia.
Qed.
End Step.
