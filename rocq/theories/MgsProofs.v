(** Block modified Gram-Schmidt: loops and one block column. *)
From Coq Require Import List Arith ZArith QArith Lia Bool Ring_theory Ring Setoid Morphisms.
From Verif Require Import Prelude Ring MatFun MatSetoid Matrix MatOps MatSpec MatOpsProofs Lapack Gemm GemmSpec GemmProofs
  GemmTheorems Triangular TriAlgebra TriSpec TriProofs Reflect ReflectSpec ReflectProofs ReflectTile QrBig
  Sampled SampledProofs SampledTheorems Mgs.
Import ListNotations.
Local Open Scope nat_scope.

Lemma collectv_spec {A} (d : A) n f (v : nat -> A) : collectv d n f = Ok v -> forall i, i < n -> f i = Ok (v i).
Proof.
  unfold collectv. intros H i Hi. apply bind_Ok in H. destruct H as [u [H1 H2]]. inversion H2; subst v.
  destruct (check_ok_spec _ _ _ H1 i Hi) as [a E]. rewrite E. reflexivity.
Qed.

Section Loop.
Context {R : cring}.
Add Ring Rr : (cr_th R).
Notation dense := (dense R).
Notation lowrank := (lowrank R).
Notation matrix := (matrix R).
Notation mat := (mat R).
Notation grid := (nat -> nat -> matrix).

Variable Or : oracles R.
Hypothesis HO : oracles_near exact Or.
Variable gfuel : nat.

(** p x q blocks of heights h and widths w. *)
Variables p q : nat.
Variables h w : nat -> nat.

Definition mtiles (C : grid) : Prop := forall i j, i < p -> j < q ->
  wf (C i j) /\ nrows (C i j) = h i /\ ncols (C i j) = w j.
Definition rtiles (C : grid) : Prop := forall i j, i < q -> j < q -> i <= j ->
  wf (C i j) /\ nrows (C i j) = w i /\ ncols (C i j) = w j.
Definition mcolumn (C : grid) (j : nat) : mat := stack p h (fun i => ent (C i j)).
Definition layouts (A B : grid) : Prop := forall i j, i < p -> j < q -> same_layout (A i j) (B i j).

Lemma layouts_refl A : layouts A A.
Proof. intros i j _ _. apply same_layout_refl. Qed.
Lemma layouts_trans A B C : layouts A B -> layouts B C -> layouts A C.
Proof. intros H1 H2 i j Hi Hj. eapply same_layout_trans; eauto. Qed.

Lemma bupd_at (b : grid) i j x i' j' : bupd b i j x i' j' = if (i' =? i) && (j' =? j) then x else b i' j'.
Proof. reflexivity. Qed.
Lemma bupd_oth (C : grid) i j x i' j' : i' <> i \/ j' <> j -> bupd C i j x i' j' = C i' j'.
Proof. intros H. apply bupd_ne. intros E. inversion E. destruct H; congruence. Qed.

Lemma mcolumn_ext (A B : grid) j c : (forall i, i < p -> feq (h i) c (ent (A i j)) (ent (B i j))) ->
  feq (offs h p) c (mcolumn A j) (mcolumn B j).
Proof. intros H. apply feq_stack. exact H. Qed.

(** The update of block column k with block column j of Q. *)
Lemma mgs_update_ok j k (QT : nat -> matrix) (Q A A' : grid) (r r' : matrix) : j < q -> k < q -> j < k -> 0 < p ->
  mtiles A -> mtiles Q -> wf r -> nrows r = w j -> ncols r = w k ->
  (forall i, i < p -> wf (QT i) /\ nrows (QT i) = w j /\ ncols (QT i) = h i /\ feq (w j) (h i) (ent (QT i)) (mtr (ent (Q i j)))) ->
  mgs_update Or gfuel p j k QT Q A r = Ok (A', r') ->
  mtiles A' /\ layouts A A' /\ (forall i l, l <> k -> A' i l = A i l) /\
  wf r' /\ same_layout r r' /\ nrows r' = w j /\ ncols r' = w k /\
  feq (w j) (w k) (ent r') (mmul (offs h p) (mtr (mcolumn Q j)) (mcolumn A k)) /\
  feq (offs h p) (w k) (mcolumn A' k) (msub (mcolumn A k) (mmul (w j) (mcolumn Q j) (ent r'))).
Proof.
  intros Hj Hk Hjk Hp HA HQ Wr Nr Cr HT H. unfold mgs_update in H.
  apply bind_Ok in H. destruct H as [r1 [H1 H]]. apply bind_Ok in H. destruct H as [A1 [H2 H]].
  inversion H; subst A1 r1; clear H.
  (* R(j,k) *)
  apply (for_loop_inv_out _ _ _ _ (fun t x => wf x /\ same_layout r x /\ nrows x = w j /\ ncols x = w k /\
    (0 < t -> feq (w j) (w k) (ent x) (fun a b => sum t (fun i => mmul (h i) (mtr (ent (Q i j))) (ent (A i k)) a b))))) in H1.
  2:{ split; auto. split; [apply same_layout_refl|]. split; auto. split; auto. lia. }
  2:{ intros t x x' Ht [X1 [X2 [X3 [X4 X5]]]] Hx.
      destruct (HT t Ht) as [T1 [T2 [T3 T4]]]. destruct (HA t k Ht Hk) as [B1 [B2 B3]].
      destruct (gemm_exact Or HO _ _ _ _ _ _ _ _ _ T1 B1 X1 (trans_ok_notrans _ _ _) Hx) as [W' [L' F']].
      destruct (same_layout_dims _ _ X1 L') as [D1 D2].
      split; auto. split; [eapply same_layout_trans; eauto|]. split; [congruence|]. split; [congruence|].
      intros _ a b Ha Hb. rewrite X3, X4 in F'. rewrite (F' a b Ha Hb). unfold gemm_value, madd, mscale. simpl mop.
      change (opc false (QT t)) with (ncols (QT t)). rewrite T3.
      replace (mmul (h t) (ent (QT t)) (ent (A t k)) a b) with (mmul (h t) (mtr (ent (Q t j))) (ent (A t k)) a b).
      2:{ apply mmul_ext; auto. intros y Hy. symmetry. apply T4; auto. }
      destruct (Nat.eqb_spec t 0) as [->|Nt].
      - simpl. ring.
      - rewrite X5 by lia. simpl sum. ring. }
  destruct H1 as [R1 [R2 [R3 [R4 R5]]]]. specialize (R5 Hp).
  assert (ER : feq (w j) (w k) (ent r') (mmul (offs h p) (mtr (mcolumn Q j)) (mcolumn A k))).
  { eapply feq_trans; [exact R5|]. intros a b _ _. symmetry. unfold mcolumn. rewrite stack_dot. reflexivity. }
  (* A(:,k) *)
  apply (for_loop_inv_out _ _ _ _ (fun t X => mtiles X /\ layouts A X /\ (forall i l, l <> k -> X i l = A i l) /\
    (forall i, t <= i -> X i k = A i k) /\
    (forall i, i < t -> feq (h i) (w k) (ent (X i k)) (msub (ent (A i k)) (mmul (w j) (ent (Q i j)) (ent r')))))) in H2.
  2:{ split; auto. split; [apply layouts_refl|]. split; auto. split; auto. intros; lia. }
  2:{ intros t X X' Ht [X1 [X2 [X3 [X4 X5]]]] Hx.
      apply bind_Ok in Hx. destruct Hx as [y [Hy Hx]]. inversion Hx; subst X'; clear Hx.
      destruct (X1 t k Ht Hk) as [B1 [B2 B3]]. destruct (HQ t j Ht Hj) as [C1 [C2 C3]].
      destruct (gemm_exact Or HO _ _ _ _ _ _ _ _ _ C1 R1 B1 (trans_ok_notrans _ _ _) Hy) as [W' [L' F']].
      destruct (same_layout_dims _ _ B1 L') as [D1 D2]. rewrite B2, B3 in F'.
      split; [|split; [|split; [|split]]].
      - intros i' l Hi' Hl. rewrite bupd_at. destruct (Nat.eqb_spec i' t) as [->|]; [destruct (Nat.eqb_spec l k) as [->|]|]; simpl; auto.
        split; auto. split; congruence.
      - intros i' l Hi' Hl. rewrite bupd_at. destruct (Nat.eqb_spec i' t) as [->|]; [destruct (Nat.eqb_spec l k) as [->|]|]; simpl; auto.
        eapply same_layout_trans; [apply X2; auto|auto].
      - intros i' l Hl. rewrite bupd_oth by auto. auto.
      - intros i' Hi'. rewrite bupd_oth by lia. apply X4. lia.
      - intros i' Hi'. rewrite bupd_at, Nat.eqb_refl, andb_true_r. destruct (Nat.eqb_spec i' t) as [->|].
        + intros a b Ha Hb. rewrite (F' a b Ha Hb). unfold gemm_value, madd, mscale, msub. simpl mop.
          change (opc false (Q t j)) with (ncols (Q t j)). rewrite C3, X4 by lia. ring.
        + apply X5. lia. }
  destruct H2 as [A1 [A2 [A3 [_ A5]]]].
  do 7 (split; auto). split; auto.
  unfold mcolumn at 3. rewrite stack_mul. unfold mcolumn at 2. rewrite stack_sub. apply feq_stack. intros b Hb. apply A5. auto.
Qed.

(** ** All the block columns *)

(** [ortho] factors one block column: column j of Q' times R' is column j of A.  [pre] may
    look at A only up to layouts. *)
Variable ortho : nat -> grid -> grid -> matrix -> outcome (grid * matrix).
Variable pre : nat -> grid -> grid -> matrix -> Prop.
Hypothesis pre_A : forall j A A' Q r, j < q -> layouts A A' -> mtiles A -> pre j A Q r -> pre j A' Q r.
Hypothesis pre_Q : forall j A Q Q' r, j < q -> (forall i, Q' i j = Q i j) -> pre j A Q r -> pre j A Q' r.
Hypothesis ortho_ok : forall j A Q r Q' r', j < q -> mtiles A -> mtiles Q -> wf r -> nrows r = w j -> ncols r = w j ->
  pre j A Q r -> ortho j A Q r = Ok (Q', r') ->
  mtiles Q' /\ (forall i k, k <> j -> Q' i k = Q i k) /\ wf r' /\ nrows r' = w j /\ ncols r' = w j /\
  feq (offs h p) (w j) (mmul (w j) (mcolumn Q' j) (ent r')) (mcolumn A j).

Hypothesis Hp : 0 < p.
Let N := offs h p.

(** Columns of Q times a column of R. *)
Definition qr_sum (Q Rg : grid) (t k : nat) : mat :=
  fun a b => sum t (fun j => mmul (w j) (mcolumn Q j) (ent (Rg j k)) a b).

Record mgs_inv (A0 Q0 R0 : grid) (t : nat) (A Q Rg : grid) : Prop := {
  mi_A : mtiles A; mi_lA : layouts A0 A;
  mi_Q : mtiles Q; mi_Q0 : forall i k, t <= k -> Q i k = Q0 i k;
  mi_R : rtiles Rg; mi_R0 : forall i k, t <= i \/ k < i -> Rg i k = R0 i k;
  mi_done : forall k, k < t -> feq N (w k) (mcolumn A0 k) (qr_sum Q Rg (S k) k);
  mi_rest : forall k, t <= k -> k < q -> feq N (w k) (mcolumn A0 k) (madd (qr_sum Q Rg t k) (mcolumn A k));
  (* orthogonality, as far as each block column of Q is orthonormal and R(j,j) can be cancelled *)
  mi_orth : (forall j, j < t -> orth_cols N (w j) (mcolumn Q j)) ->
    (forall j, j < t -> forall (X : mat) m, feq m (w j) (mmul (w j) X (ent (Rg j j))) mzero -> feq m (w j) X mzero) ->
    (forall j k, j < k -> k < t -> feq (w j) (w k) (mmul N (mtr (mcolumn Q j)) (mcolumn Q k)) mzero) /\
    (forall j k, j < t -> t <= k -> k < q -> feq (w j) (w k) (mmul N (mtr (mcolumn Q j)) (mcolumn A k)) mzero)
}.

Lemma qr_sum_ext (Q Q' Rg Rg' : grid) t k : t <= q ->
  (forall j, j < t -> (forall i, i < p -> Q' i j = Q i j) /\ Rg' j k = Rg j k) ->
  feq N (w k) (qr_sum Q' Rg' t k) (qr_sum Q Rg t k).
Proof.
  intros Ht H a b Ha Hb. unfold qr_sum. apply sum_ext. intros j Hj. destruct (H j Hj) as [E1 E2]. rewrite E2.
  apply mmul_ext; auto. intros x Hx. apply (feq_stack p h (w j)); auto. intros i Hi. rewrite E1 by auto. apply feq_refl.
Qed.

(** What one step of the factorization has to achieve. *)
Lemma mgs_step_inv (A0 Q0 R0 : grid) j (A Q Rg A' Q' Rg' : grid) r : j < q -> mgs_inv A0 Q0 R0 j A Q Rg ->
  mtiles Q' -> (forall i k, k <> j -> Q' i k = Q i k) ->
  feq N (w j) (mmul (w j) (mcolumn Q' j) (ent r)) (mcolumn A j) ->
  mtiles A' -> layouts A A' -> rtiles Rg' ->
  (forall i l, i <> j \/ l < j \/ q <= l -> Rg' i l = Rg i l) -> Rg' j j = r ->
  (forall k, j < k -> k < q ->
     feq (w j) (w k) (ent (Rg' j k)) (mmul N (mtr (mcolumn Q' j)) (mcolumn A k)) /\
     feq N (w k) (mcolumn A' k) (msub (mcolumn A k) (mmul (w j) (mcolumn Q' j) (ent (Rg' j k))))) ->
  mgs_inv A0 Q0 R0 (S j) A' Q' Rg'.
Proof.
  intros Hj [IA IL IQ IQ0 IR IR0 ID IX IO] O1 O2 O6 A1 A2 R1 R2 R3 Z.
  assert (QE : forall j', j' < j -> forall i, i < p -> Q' i j' = Q i j') by (intros; apply O2; lia).
  assert (RE : forall j' k, j' < j -> Rg' j' k = Rg j' k) by (intros; apply R2; lia).
  split; auto.
  - eapply layouts_trans; eauto.
  - intros i k Hk. rewrite O2 by lia. apply IQ0. lia.
  - intros i k Hik. rewrite R2 by lia. apply IR0. lia.
  - intros k Hk. destruct (Nat.eq_dec k j) as [->|].
    + eapply feq_trans; [apply (IX j); auto|]. intros a b Ha Hb. unfold madd, qr_sum. simpl sum. f_equal.
      * symmetry. apply (qr_sum_ext Q Q' Rg Rg' j j); auto; lia.
      * rewrite R3. symmetry. apply O6; auto.
    + eapply feq_trans; [apply ID; lia|]. apply feq_sym. apply qr_sum_ext; [lia|]. intros j' Hj'. split; [apply QE; lia|apply RE; lia].
  - intros k Hk1 Hk2. destruct (Z k ltac:(lia) Hk2) as [Z1 Z2].
    eapply feq_trans; [apply (IX k); [lia|auto]|]. intros a b Ha Hb. unfold madd.
    rewrite (Z2 a b Ha Hb). unfold msub. unfold qr_sum at 2. simpl sum.
    fold (qr_sum Q' Rg' j k a b). rewrite (qr_sum_ext Q Q' Rg Rg' j k ltac:(lia)); auto. ring.
  - intros HO1 HO2.
    assert (CE : forall j', j' < j -> feq N (w j') (mcolumn Q' j') (mcolumn Q j')).
    { intros j' Hj'. apply mcolumn_ext. intros i Hi. rewrite QE by auto. apply feq_refl. }
    destruct IO as [P1 P2].
    + intros j' Hj'. intros a b Ha Hb. rewrite <- (HO1 j' ltac:(lia) a b Ha Hb). 
      apply mmul_ext; intros x Hx; [unfold mtr|]; symmetry; apply CE; auto.
    + intros j' Hj' X m HX. apply (HO2 j' ltac:(lia)). rewrite RE by auto. exact HX.
    + assert (TE : forall j' k (Y : mat), j' < j -> feq (w j') (w k) (mmul N (mtr (mcolumn Q' j')) Y) (mmul N (mtr (mcolumn Q j')) Y)).
      { intros j' k Y Hj'. apply feq_mmul; [|apply feq_refl]. apply feq_tr. apply CE. auto. }
      assert (NEW : forall j', j' < j -> feq (w j') (w j) (mmul N (mtr (mcolumn Q' j')) (mcolumn Q' j)) mzero).
      { intros j' Hj'. apply (HO2 j (le_n _)). rewrite R3. rewrite meq_assoc.
        eapply feq_trans; [apply feq_mmul; [apply feq_refl|exact O6]|].
        eapply feq_trans; [apply TE; auto|]. apply P2; auto. }
      split.
      * intros j' k L1 L2. destruct (Nat.eq_dec k j) as [->|].
        -- apply NEW. auto.
        -- eapply feq_trans; [apply TE; lia|]. eapply feq_trans; [apply feq_mmul; [apply feq_refl|apply CE; lia]|]. apply P1; lia.
      * intros j' k L1 L2 L3. destruct (Z k ltac:(lia) L3) as [Z1 Z2].
        eapply feq_trans; [apply feq_mmul; [apply feq_refl|exact Z2]|]. rewrite meq_sub_r. rewrite <- meq_assoc.
        destruct (Nat.eq_dec j' j) as [->|].
        -- intros a b Ha Hb. unfold msub.
           replace (mmul (w j) (mmul N (mtr (mcolumn Q' j)) (mcolumn Q' j)) (ent (Rg' j k)) a b) with (ent (Rg' j k) a b).
           ++ rewrite (Z1 a b Ha Hb). unfold mzero. ring.
           ++ symmetry. transitivity (mmul (w j) mid (ent (Rg' j k)) a b); [|apply mmul_id_l; auto].
              apply mmul_ext; auto. intros x Hx. apply (HO1 j); auto.
        -- intros a b Ha Hb. unfold msub.
           assert (E1 : mmul N (mtr (mcolumn Q' j')) (mcolumn A k) a b = 0%r).
           { rewrite (TE j' k (mcolumn A k) ltac:(lia) a b Ha Hb). apply (P2 j' k); auto; lia. }
           assert (E2 : mmul (w j) (mmul N (mtr (mcolumn Q' j')) (mcolumn Q' j)) (ent (Rg' j k)) a b = 0%r).
           { transitivity (mmul (w j) mzero (ent (Rg' j k)) a b); [|apply mmul_zero_l].
             apply mmul_ext; auto. intros x Hx. apply NEW; auto; lia. }
           rewrite E1, E2. unfold mzero. ring.
Qed.

Lemma mgs_step_ok (A0 Q0 R0 : grid) j (A Q Rg A' Q' Rg' : grid) : j < q -> pre j A0 Q0 (R0 j j) -> mtiles A0 ->
  mgs_inv A0 Q0 R0 j A Q Rg -> mgs_step Or gfuel ortho p q j (A, Q, Rg) = Ok (A', Q', Rg') ->
  mgs_inv A0 Q0 R0 (S j) A' Q' Rg'.
Proof.
  intros Hj HP HA0 [IA IL IQ IQ0 IR IR0 ID IX IO] H. unfold mgs_step in H.
  apply bind_Ok in H. destruct H as [[Q1 r] [H1 H]]. apply bind_Ok in H. destruct H as [QT [H2 H]].
  apply bind_Ok in H. destruct H as [[A1 R1] [H3 H]]. inversion H; subst A1 Q1 R1; clear H.
  assert (HP' : pre j A Q (Rg j j)).
  { rewrite (IR0 j j) by auto. apply (pre_Q j A Q0 Q); auto. eapply pre_A; eauto. }
  destruct (IR j j Hj Hj (le_n _)) as [RJ1 [RJ2 RJ3]].
  destruct (ortho_ok j A Q (Rg j j) Q' r Hj IA IQ RJ1 RJ2 RJ3 HP' H1) as [O1 [O2 [O3 [O4 [O5 O6]]]]].
  assert (HT : forall i, i < p -> wf (QT i) /\ nrows (QT i) = w j /\ ncols (QT i) = h i /\
    feq (w j) (h i) (ent (QT i)) (mtr (ent (Q' i j)))).
  { intros i Hi. pose proof (collectv_spec _ _ _ _ H2 i Hi) as E. cbv beta in E.
    destruct (O1 i j Hi Hj) as [B1 [B2 B3]].
    destruct (transpose_spec _ B1 (transpose_ok_no_empty _ _ E)) as [B [E' [W [_ [D1 [D2 F]]]]]].
    rewrite E in E'. inversion E'; subst B. rewrite B2, B3 in *. auto. }
  clear H1 H2.
  (* the loop over k *)
  apply (for_loop_inv_out _ _ _ _ (fun t s => 
    mtiles (fst s) /\ layouts A (fst s) /\ (forall i l, l <= j \/ j + t < l -> fst s i l = A i l) /\
    rtiles (snd s) /\ (forall i l, i <> j \/ l < j \/ j + t < l -> snd s i l = Rg i l) /\ snd s j j = r /\
    (forall k, j < k -> k <= j + t -> k < q ->
       feq (w j) (w k) (ent (snd s j k)) (mmul N (mtr (mcolumn Q' j)) (mcolumn A k)) /\
       feq N (w k) (mcolumn (fst s) k) (msub (mcolumn A k) (mmul (w j) (mcolumn Q' j) (ent (snd s j k))))))) in H3.
  2:{ simpl fst. simpl snd. split; auto. split; [apply layouts_refl|]. split; auto. split.
      { intros a b Ha Hb L. rewrite bupd_at. destruct (Nat.eqb_spec a j) as [->|]; [destruct (Nat.eqb_spec b j) as [->|]|]; simpl; auto. }
      split. { intros a b L. apply bupd_oth. lia. }
      split. { rewrite bupd_at, Nat.eqb_refl. reflexivity. } intros; lia. }
  2:{ intros t [X Y] [X' Y'] Ht [X1 [X2 [X3 [Y1 [Y2 [Y3 Z]]]]]] Hs. cbn [fst snd] in *. set (k := S j + t) in *.
      apply bind_Ok in Hs. destruct Hs as [[X0 r0] [Hu Hs]]. inversion Hs; subst X0 Y'; clear Hs.
      assert (Hk : k < q) by lia. destruct (Y1 j k Hj Hk ltac:(lia)) as [B1 [B2 B3]].
      destruct (mgs_update_ok j k QT Q' X X' (Y j k) r0 Hj Hk ltac:(lia) Hp X1 O1 B1 B2 B3 HT Hu)
        as [U1 [U2 [U3 [U4 [U5 [U6 [U7 [U8 U9]]]]]]]].
      assert (EK : feq N (w k) (mcolumn X k) (mcolumn A k)).
      { apply mcolumn_ext. intros i Hi. rewrite X3 by lia. apply feq_refl. }
      split; auto. split; [eapply layouts_trans; eauto|]. split. { intros i l Hl. rewrite U3 by lia. apply X3. lia. }
      split. { intros a b Ha Hb Lab. rewrite bupd_at. destruct (Nat.eqb_spec a j) as [->|]; [destruct (Nat.eqb_spec b k) as [->|]|]; simpl; auto. }
      split. { intros a b L. rewrite bupd_oth by lia. apply Y2. lia. }
      split. { rewrite bupd_oth by lia. auto. }
      intros k' L1 L2 L3. destruct (Nat.eq_dec k' k) as [->|].
      - rewrite bupd_at, !Nat.eqb_refl. cbn [andb]. split.
        + eapply feq_trans; [exact U8|]. apply feq_mmul; [apply feq_refl|exact EK].
        + eapply feq_trans; [exact U9|]. apply feq_sub; [exact EK|apply feq_refl].
      - rewrite bupd_oth by auto. destruct (Z k' L1 ltac:(lia) L3) as [Z1 Z2]. split; auto.
        eapply feq_trans; [|exact Z2]. apply mcolumn_ext. intros i Hi. rewrite U3 by auto. apply feq_refl. }
  cbn [fst snd] in H3. destruct H3 as [A1 [A2 [A3 [R1 [R2 [R3 Z]]]]]].
  apply (mgs_step_inv A0 Q0 R0 j A Q Rg A' Q' Rg' r); auto.
  - split; auto.
  - intros i l Hl. apply R2. lia.
  - intros k L1 L2. apply Z; auto. lia.
Qed.

Lemma mgs_loop_ok (A0 Q0 R0 A Q Rg : grid) : mtiles A0 -> mtiles Q0 -> rtiles R0 -> (forall j, j < q -> pre j A0 Q0 (R0 j j)) ->
  for_loop q (mgs_step Or gfuel ortho p q) (A0, Q0, R0) = Ok (A, Q, Rg) -> mgs_inv A0 Q0 R0 q A Q Rg.
Proof.
  intros HA HQ HR HP H.
  apply (for_loop_inv_out _ _ _ _ (fun t s => mgs_inv A0 Q0 R0 t (fst (fst s)) (snd (fst s)) (snd s))) in H; [exact H| |].
  - cbn [fst snd]. split; auto.
    + apply layouts_refl.
    + intros k Hk. lia.
    + intros k _ _ a b _ _. unfold madd, qr_sum. simpl. ring.
    + intros _ _. split; intros; lia.
  - intros t [[A1 Q1] R1] [[A2 Q2] R2] Ht HI Hs. cbn [fst snd] in *. eapply mgs_step_ok; eauto.
Qed.
End Loop.
