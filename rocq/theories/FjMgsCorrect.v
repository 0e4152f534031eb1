(** The loops of examples/forkjoin_blocked_mgs_blr_qr.cpp factor A. *)
From Coq Require Import List Arith ZArith QArith Lia Bool Ring_theory Ring Setoid Morphisms.
From Verif Require Import Prelude IndexRange Ring MatFun MatSetoid Matrix MatOps MatSpec MatOpsProofs Lapack Gemm GemmSpec GemmProofs
  GemmTheorems Triangular TriAlgebra TriSpec TriProofs Reflect ReflectSpec ReflectProofs ReflectTile QrBig
  Sampled SampledProofs SampledTheorems Mgs MgsProofs MgsOrtho MgsNested MgsTheorems FjMgs.
Import ListNotations.
Local Open Scope nat_scope.

Section Correct.
Context {R : cring}.
Add Ring Rr : (cr_th R).
Notation matrix := (matrix R).
Notation mat := (mat R).
Notation grid := (nat -> nat -> matrix).

Variable L : lapack R.
Hypothesis HL : lapack_sound L.
Variable Or : oracles R.
Hypothesis HO : oracles_near exact Or.
Variable gfuel : nat.

Lemma ortho_col_ok fuel p q h w j (A Q : grid) r Q' r' : 0 < p -> j < q -> mtiles p q h w A -> mtiles p q h w Q ->
  wf r -> nrows r = w j -> ncols r = w j -> col_pre p j A Q r -> ortho_col L Or gfuel fuel p j A Q r = Ok (Q', r') ->
  mtiles p q h w Q' /\ (forall i k, k <> j -> Q' i k = Q i k) /\ wf r' /\ nrows r' = w j /\ ncols r' = w j /\
  feq (offs h p) (w j) (mmul (w j) (mcolumn p h Q' j) (ent r')) (mcolumn p h A j).
Proof.
  intros Hp Hj TA TQ W D1 D2 HC HE. unfold ortho_col in HE. destruct r as [d|l|m n rr|x y]; try discriminate.
  - apply bind_Ok in HE. destruct HE as [[Q3 Rb] [HE E]]. inversion E; subst Q3 r'; clear E.
    destruct (ortho_dense_ok L HL Or HO gfuel p q h w Hp j A Q Q' Rb Hj TA TQ HE) as [O1 [_ [O2 [O3 [O4 [O5 _]]]]]].
    repeat (split; [first [exact I|assumption]|]). assumption.
  - apply bind_Ok in HE. destruct HE as [[[[P nC] SA] QL] [E1 HE]].
    apply bind_Ok in HE. destruct HE as [[[AA QS] RR] [E2 HE]].
    destruct QS as [|?|P' nC' QS|?]; try discriminate.
    apply bind_Ok in HE. destruct HE as [Q3 [E3 E]]. inversion E; subst Q3 r'; clear E.
    eapply (ortho_hier_ok L Or gfuel fuel (mgs_main L HL Or HO gfuel fuel)); eauto.
Qed.

Section Steps.
Variables p q : nat.
Variables h w : nat -> nat.
Hypothesis Hp : 0 < p.
Let N := offs h p.

(** R(j,k) of one column. *)
Lemma fj_rjk_ok j k (QT : nat -> matrix) (Q A Rg Rg' : grid) : k < q ->
  mtiles p q h w A -> wf (Rg j k) -> nrows (Rg j k) = w j -> ncols (Rg j k) = w k ->
  feq (w j) (w k) (ent (Rg j k)) mzero ->
  (forall i, i < p -> wf (QT i) /\ nrows (QT i) = w j /\ ncols (QT i) = h i /\ feq (w j) (h i) (ent (QT i)) (mtr (ent (Q i j)))) ->
  fj_rjk Or gfuel p j k QT A Rg = Ok Rg' ->
  (forall i l, i <> j \/ l <> k -> Rg' i l = Rg i l) /\
  wf (Rg' j k) /\ nrows (Rg' j k) = w j /\ ncols (Rg' j k) = w k /\
  feq (w j) (w k) (ent (Rg' j k)) (mmul N (mtr (mcolumn p h Q j)) (mcolumn p h A k)).
Proof.
  intros Hk HA Wr Nr Cr Zr HT H. unfold fj_rjk in H. apply bind_Ok in H. destruct H as [r' [H1 H]]. inversion H; subst Rg'; clear H.
  apply (for_loop_inv_out _ _ _ _ (fun t x => wf x /\ nrows x = w j /\ ncols x = w k /\
    feq (w j) (w k) (ent x) (fun a b => sum t (fun i => mmul (h i) (mtr (ent (Q i j))) (ent (A i k)) a b)))) in H1.
  2:{ split; auto. }
  2:{ intros t x x' Ht [X1 [X3 [X4 X5]]] Hx.
      destruct (HT t Ht) as [T1 [T2 [T3 T4]]]. destruct (HA t k Ht Hk) as [B1 [B2 B3]].
      destruct (gemm_exact Or HO _ _ _ _ _ _ _ _ _ T1 B1 X1 (trans_ok_notrans _ _ _) Hx) as [W' [L' F']].
      destruct (same_layout_dims _ _ X1 L') as [D1 D2].
      split; auto. split; [congruence|]. split; [congruence|].
      intros a b Ha Hb. rewrite X3, X4 in F'. rewrite (F' a b Ha Hb). unfold gemm_value, madd, mscale. simpl mop.
      change (opc false (QT t)) with (ncols (QT t)). rewrite T3.
      replace (mmul (h t) (ent (QT t)) (ent (A t k)) a b) with (mmul (h t) (mtr (ent (Q t j))) (ent (A t k)) a b).
      2:{ apply mmul_ext; auto. intros y Hy. symmetry. apply T4; auto. }
      rewrite X5 by auto. simpl sum. ring. }
  destruct H1 as [R1 [R3 [R4 R5]]].
  assert (E : bupd Rg j k r' j k = r') by (rewrite bupd_at, !Nat.eqb_refl; reflexivity). rewrite E.
  split; [intros; apply bupd_oth; auto|]. split; [auto|]. split; [auto|]. split; [auto|].
  eapply feq_trans; [exact R5|]. intros a b _ _. symmetry. unfold mcolumn, N. rewrite stack_dot. reflexivity.
Qed.

(** One block column of A. *)
Lemma fj_aik_ok j k (Q Rg A A' : grid) : j < q -> k < q -> mtiles p q h w A -> mtiles p q h w Q ->
  wf (Rg j k) -> nrows (Rg j k) = w j -> ncols (Rg j k) = w k ->
  for_loop p (fun i A => fj_aik Or gfuel j k i Q Rg A) A = Ok A' ->
  mtiles p q h w A' /\ layouts p q A A' /\ (forall i l, l <> k -> A' i l = A i l) /\
  feq N (w k) (mcolumn p h A' k) (msub (mcolumn p h A k) (mmul (w j) (mcolumn p h Q j) (ent (Rg j k)))).
Proof.
  intros Hj Hk HA HQ R1 _ _ H2.
  apply (for_loop_inv_out _ _ _ _ (fun t X => mtiles p q h w X /\ layouts p q A X /\ (forall i l, l <> k -> X i l = A i l) /\
    (forall i, t <= i -> X i k = A i k) /\
    (forall i, i < t -> feq (h i) (w k) (ent (X i k)) (msub (ent (A i k)) (mmul (w j) (ent (Q i j)) (ent (Rg j k))))))) in H2.
  2:{ split; auto. split; [apply layouts_refl|]. split; auto. split; auto. intros; lia. }
  2:{ intros t X X' Ht [X1 [X2 [X3 [X4 X5]]]] Hx. unfold fj_aik in Hx.
      apply bind_Ok in Hx. destruct Hx as [y [Hy Hx]]. inversion Hx; subst X'; clear Hx.
      destruct (X1 t k Ht Hk) as [B1 [B2 B3]]. destruct (HQ t j Ht Hj) as [C1 [C2 C3]].
      destruct (gemm_exact Or HO _ _ _ _ _ _ _ _ _ C1 R1 B1 (trans_ok_notrans _ _ _) Hy) as [W' [L' F']].
      destruct (same_layout_dims _ _ B1 L') as [D1 D2]. rewrite B2, B3 in F'.
      split; [|split; [|split; [|split]]].
      - intros i' l Hi' Hl. rewrite bupd_at. destruct (Nat.eqb_spec i' t) as [->|]; [destruct (Nat.eqb_spec l k) as [->|]|]; simpl; auto.
        split; auto. split; congruence.
      - intros i' l Hi' Hl. rewrite bupd_at. destruct (Nat.eqb_spec i' t) as [->|]; [destruct (Nat.eqb_spec l k) as [->|]|]; simpl; auto.
        eapply same_layout_trans; [apply X2; auto|auto].
      - intros i' l Hl. rewrite bupd_oth by auto. auto.
      - intros i' Hi'. rewrite bupd_oth by lia. apply X4. lia.
      - intros i' Hi'. rewrite bupd_at, Nat.eqb_refl, andb_true_r. destruct (Nat.eqb_spec i' t) as [->|].
        + intros a b Ha Hb. rewrite (F' a b Ha Hb). unfold gemm_value, madd, mscale, msub. simpl mop.
          change (opc false (Q t j)) with (ncols (Q t j)). rewrite C3, X4 by lia. ring.
        + apply X5. lia. }
  destruct H2 as [A1 [A2 [A3 [_ A5]]]]. split; auto. split; auto. split; auto.
  unfold mcolumn at 3. rewrite stack_mul. unfold mcolumn at 2. rewrite stack_sub. apply feq_stack. intros b Hb. apply A5. auto.
Qed.

Variables A0 Q0 R0 : grid.
Hypothesis TA0 : mtiles p q h w A0.
Hypothesis TQ0 : mtiles p q h w Q0.
Hypothesis TR0 : rtiles q w R0.
Hypothesis CP : forall j, j < q -> col_pre p j A0 Q0 (R0 j j).
(** R starts with zeros. *)
Hypothesis ZR : forall j k, j < k -> k < q -> feq (w j) (w k) (ent (R0 j k)) mzero.

Lemma fj_step_ok fuel j A Q Rg W A' Q' Rg' W' : j < q -> mgs_inv p q h w A0 Q0 R0 j A Q Rg ->
  fj_step L Or gfuel fuel p q j (A, Q, Rg, W) = Ok (A', Q', Rg', W') -> mgs_inv p q h w A0 Q0 R0 (S j) A' Q' Rg'.
Proof.
  intros Hj INV H. pose proof INV as [IA IL IQ IQ0 IR IR0 ID IX IO]. unfold fj_step in H.
  apply bind_Ok in H. destruct H as [[Q1 r] [H1 H]]. apply bind_Ok in H. destruct H as [QT [H2 H]]. cbv zeta in H.
  apply bind_Ok in H. destruct H as [R1 [H3 H]]. apply bind_Ok in H. destruct H as [A1 [H4 H]].
  inversion H; subst A1 Q1 R1 W'; clear H.
  destruct (IR j j Hj Hj (le_n _)) as [RJ1 [RJ2 RJ3]].
  assert (HP' : col_pre p j A Q (Rg j j)).
  { rewrite (IR0 j j) by auto. apply (col_pre_Q p j A Q0 Q); auto. eapply col_pre_A; eauto. }
  destruct (ortho_col_ok fuel p q h w j A Q (Rg j j) Q' r Hp Hj IA IQ RJ1 RJ2 RJ3 HP' H1) as [O1 [O2 [O3 [O4 [O5 O6]]]]].
  set (WT := fun i => if i <? p then QT i else W i) in *.
  assert (HT : forall i, i < p -> wf (WT i) /\ nrows (WT i) = w j /\ ncols (WT i) = h i /\
    feq (w j) (h i) (ent (WT i)) (mtr (ent (Q' i j)))).
  { intros i Hi. unfold WT. destruct (Nat.ltb_spec i p); [|lia].
    pose proof (collectv_spec _ _ _ _ H2 i Hi) as E. cbv beta in E.
    destruct (O1 i j Hi Hj) as [B1 [B2 B3]].
    destruct (transpose_spec _ B1 (transpose_ok_no_empty _ _ E)) as [B [E' [W' [_ [D1 [D2 F]]]]]].
    rewrite E in E'. inversion E'; subst B. rewrite B2, B3 in *. auto. }
  (* the loop for R *)
  apply (for_loop_inv_out _ _ _ _ (fun t Y => rtiles q w Y /\
    (forall i l, i <> j \/ l < j \/ j + t < l -> Y i l = Rg i l) /\ Y j j = r /\
    (forall k, j < k -> k <= j + t -> k < q -> feq (w j) (w k) (ent (Y j k)) (mmul N (mtr (mcolumn p h Q' j)) (mcolumn p h A k))))) in H3.
  2:{ split. { intros a b Ha Hb Lab. rewrite bupd_at. destruct (Nat.eqb_spec a j) as [->|]; [destruct (Nat.eqb_spec b j) as [->|]|]; simpl; auto. }
      split. { intros a b Hab. apply bupd_oth. lia. }
      split. { rewrite bupd_at, Nat.eqb_refl. reflexivity. } intros; lia. }
  2:{ intros t Y Y' Ht [Y1 [Y2 [Y3 Z]]] Hs. set (k := S j + t) in *.
      assert (Hk : k < q) by lia. destruct (Y1 j k Hj Hk ltac:(lia)) as [B1 [B2 B3]].
      assert (ZJ : feq (w j) (w k) (ent (Y j k)) mzero).
      { rewrite Y2 by lia. rewrite IR0 by lia. apply ZR; lia. }
      destruct (fj_rjk_ok j k WT Q' A Y Y' Hk IA B1 B2 B3 ZJ HT Hs) as [U1 [U2 [U3 [U4 U5]]]].
      split.
      { intros a b Ha Hb Lab. destruct (Nat.eq_dec a j) as [->|]; [destruct (Nat.eq_dec b k) as [->|]|];
          [auto|rewrite U1 by auto; auto|rewrite U1 by auto; auto]. }
      split. { intros a b Hab. rewrite U1 by lia. apply Y2. lia. }
      split. { rewrite U1 by lia. auto. }
      intros k' L1 L2 L3. destruct (Nat.eq_dec k' k) as [->|]; [exact U5|]. rewrite U1 by auto. apply Z; auto. lia. }
  destruct H3 as [R1 [R2 [R3 Z]]].
  (* the loop for A *)
  apply (for_loop_inv_out _ _ _ _ (fun t X => mtiles p q h w X /\ layouts p q A X /\
    (forall i l, l <= j \/ j + t < l -> X i l = A i l) /\
    (forall k, j < k -> k <= j + t -> k < q ->
       feq N (w k) (mcolumn p h X k) (msub (mcolumn p h A k) (mmul (w j) (mcolumn p h Q' j) (ent (Rg' j k))))))) in H4.
  2:{ split; auto. split; [apply layouts_refl|]. split; auto. intros; lia. }
  2:{ intros t X X' Ht [X1 [X2 [X3 X4]]] Hs. set (k := S j + t) in *.
      assert (Hk : k < q) by lia. destruct (R1 j k Hj Hk ltac:(lia)) as [B1 [B2 B3]].
      destruct (fj_aik_ok j k Q' Rg' X X' Hj Hk X1 O1 B1 B2 B3 Hs) as [U1 [U2 [U3 U4]]].
      split; auto. split; [eapply layouts_trans; eauto|]. split. { intros i l Hl. rewrite U3 by lia. apply X3. lia. }
      intros k' L1 L2 L3. destruct (Nat.eq_dec k' k) as [->|].
      - eapply feq_trans; [exact U4|]. apply feq_sub; [|apply feq_refl]. apply mcolumn_ext. intros i Hi. rewrite X3 by lia. apply feq_refl.
      - eapply feq_trans; [|apply X4; auto; lia]. apply mcolumn_ext. intros i Hi. rewrite U3 by auto. apply feq_refl. }
  destruct H4 as [A1 [A2 [A3 A4]]].
  apply (mgs_step_inv p q h w Hp A0 Q0 R0 j A Q Rg A' Q' Rg' r); auto.
  - intros i l Hl. apply R2. lia.
  - intros k L1 L2. split; [apply Z; auto; lia|apply A4; auto; lia].
Qed.

Lemma fj_mgs_inv fuel W A Q Rg W' : fj_mgs L Or gfuel fuel p q (A0, Q0, R0, W) = Ok (A, Q, Rg, W') ->
  mgs_inv p q h w A0 Q0 R0 q A Q Rg.
Proof.
  intros H. unfold fj_mgs in H.
  apply (for_loop_inv_out _ _ _ _ (fun t s => let '(A, Q, Rg, _) := s in mgs_inv p q h w A0 Q0 R0 t A Q Rg)) in H; [exact H| |].
  - split; auto.
    + apply layouts_refl.
    + intros k Hk. lia.
    + intros k _ _ a b _ _. unfold madd, qr_sum. simpl. ring.
    + intros _ _. split; intros; lia.
  - intros t [[[A1 Q1] R1] W1] [[[A2 Q2] R2] W2] Ht HI Hs. eapply fj_step_ok; eauto.
Qed.
End Steps.

Theorem fj_mgs_reconstructs fuel p q (a b r : grid) W A' Q' R' W' : mgs_pre p q a b r ->
  (forall i j, i < j -> j < q -> feq (nrows (r i j)) (ncols (r i j)) (ent (r i j)) mzero) ->
  fj_mgs L Or gfuel fuel p q (a, b, r, W) = Ok (A', Q', R', W') ->
  let A := MH p q a in let Q' := MH p q Q' in let R' := MH q q R' in
  wf Q' /\ wf R' /\ nrows Q' = nrows A /\ ncols Q' = ncols A /\ nrows R' = ncols A /\ ncols R' = ncols A /\
  feq (nrows A) (ncols A) (mmul (ncols A) (ent Q') (ent R')) (ent A).
Proof.
  intros HP HZ H A. destruct (mgs_pre_tiles _ _ _ _ _ HP) as [Hp [Hq [TA TB]]].
  destruct HP as [_ [_ [_ [_ [RS [EW CP]]]]]]. pose proof RS as [_ [_ [RS' _]]].
  assert (INV : mgs_inv p q (bheight a) (bwidth a) a b r q A' Q' R').
  { apply (fj_mgs_inv p q (bheight a) (bwidth a) Hp a b r TA TB) with (fuel := fuel) (W := W) (W' := W'); auto.
    - intros i j Hi Hj Hij. destruct (RS' i j Hi Hj) as [W1 [D1 [D2 _]]]. rewrite !EW in * by auto. auto.
    - intros j k Hjk Hk. destruct (RS' j k ltac:(lia) Hk) as [W1 [D1 [D2 _]]]. specialize (HZ j k Hjk Hk).
      rewrite D1, D2, !EW in HZ by lia. exact HZ. }
  pose proof (mi_Q _ _ _ _ _ _ _ _ _ _ _ INV) as TQ.
  destruct (grid_dims _ _ _ _ _ Hp Hq TQ) as [WQ [Q1 Q2]].
  destruct (mgs_product p q _ _ a b r A' Q' R' Hp Hq TA RS EW INV) as [WR [R1 [R2 PR]]].
  unfold A. rewrite !nrows_MH, !ncols_MH in *. auto 10.
Qed.
End Correct.
