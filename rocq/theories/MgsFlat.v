(** Block modified Gram-Schmidt on Dense and LowRank tiles gives orthonormal columns. *)
From Coq Require Import List Arith ZArith QArith Lia Bool Ring_theory Ring Setoid Morphisms.
From Verif Require Import Prelude IndexRange Ring MatFun MatSetoid Matrix MatOps MatSpec MatOpsProofs Lapack Gemm GemmSpec GemmProofs
  GemmTheorems Triangular TriAlgebra TriSpec TriProofs Reflect ReflectSpec ReflectProofs ReflectTile QrBig
  Sampled SampledProofs SampledTheorems Mgs MgsProofs MgsOrtho MgsNested MgsTheorems.
Import ListNotations.
Local Open Scope nat_scope.

Section Flat.
Context {R : cring}.
Add Ring Rr : (cr_th R).
Notation dense := (dense R).
Notation lowrank := (lowrank R).
Notation matrix := (matrix R).
Notation mat := (mat R).
Notation grid := (nat -> nat -> matrix).

Variable L : lapack R.
Hypothesis HL : lapack_sound L.
Variable Or : oracles R.
Hypothesis HO : oracles_near exact Or.
Hypothesis HU : keeps_orthU Or.
Variable gfuel : nat.

Lemma gemm_flat_fuel (A B C : matrix) alpha beta tA tB C' : flat A -> flat B -> flat C ->
  gemm Or gfuel A B C alpha beta tA tB = Ok C' -> gemm Or 1 A B C alpha beta tA tB = Ok C'.
Proof.
  destruct gfuel as [|f]; [discriminate|].
  destruct A, B, C; simpl; try contradiction; intros _ _ _ H; exact H.
Qed.

Lemma gemm_flat_orthU (A B C : matrix) alpha beta tA tB C' : flat A -> flat B -> flat C ->
  wf A -> wf B -> wf C -> gemm Or gfuel A B C alpha beta tA tB = Ok C' -> orthU C -> orthU C'.
Proof. intros F1 F2 F3 W1 W2 W3 H. apply (gemm_orthU Or A B C alpha beta tA tB C'); auto. apply gemm_flat_fuel; auto. Qed.

Lemma layout_flat (A B : matrix) : same_layout A B -> flat A -> flat B.
Proof. destruct A, B; simpl; tauto. Qed.

Variables p q : nat.
Variables h w : nat -> nat.
Hypothesis Hp : 0 < p.

Definition gflat (A : grid) : Prop := forall i j, i < p -> j < q -> flat (A i j).
Definition gorth (A : grid) : Prop := forall i j, i < p -> j < q -> orthU (A i j).

Lemma update_orthU j k (QT : nat -> matrix) (Q A A' : grid) (r r' : matrix) : j < q -> k < q -> j < k ->
  mtiles p q h w A -> mtiles p q h w Q -> wf r -> nrows r = w j -> ncols r = w k ->
  (forall i, i < p -> wf (QT i) /\ nrows (QT i) = w j /\ ncols (QT i) = h i /\ feq (w j) (h i) (ent (QT i)) (mtr (ent (Q i j)))) ->
  gflat A -> gflat Q -> flat r -> gorth A ->
  mgs_update Or gfuel p j k QT Q A r = Ok (A', r') -> gorth A'.
Proof.
  intros Hj Hk Hjk HA HQ Wr Nr Cr HT FA FQ Fr OA H.
  destruct (mgs_update_ok Or HO gfuel p q h w j k QT Q A A' r r' Hj Hk Hjk Hp HA HQ Wr Nr Cr HT H)
    as [U1 [U2 [U3 [U4 [U5 _]]]]].
  unfold mgs_update in H. apply bind_Ok in H. destruct H as [r1 [_ H]]. apply bind_Ok in H. destruct H as [A1 [H2 H]].
  inversion H; subst A1 r1; clear H.
  apply (for_loop_inv_out _ _ _ _ (fun t X => mtiles p q h w X /\ gflat X /\ gorth X)) in H2; [apply H2|auto|].
  intros t X X' Ht [X1 [X2 X3]] Hx. apply bind_Ok in Hx. destruct Hx as [y [Hy Hx]]. inversion Hx; subst X'; clear Hx.
  destruct (X1 t k Ht Hk) as [B1 [B2 B3]]. destruct (HQ t j Ht Hj) as [C1 _].
  destruct (gemm_exact Or HO _ _ _ _ _ _ _ _ _ C1 U4 B1 (trans_ok_notrans _ _ _) Hy) as [W' [L' _]].
  destruct (same_layout_dims _ _ B1 L') as [D1 D2].
  assert (Fr' : flat r') by (eapply layout_flat; eauto).
  pose proof (gemm_flat_orthU _ _ _ _ _ _ _ _ (FQ t j Ht Hj) Fr' (X2 t k Ht Hk) C1 U4 B1 Hy (X3 t k Ht Hk)) as O'.
  pose proof (layout_flat _ _ L' (X2 t k Ht Hk)) as F'.
  split; [|split]; intros i' l Hi' Hl; rewrite bupd_at;
    (destruct (Nat.eqb_spec i' t) as [->|]; [destruct (Nat.eqb_spec l k) as [->|]|]; simpl; auto).
  split; auto. split; congruence.
Qed.

Definition ortho_flat (j : nat) (A Q : grid) (Rjj : matrix) : outcome (grid * matrix) :=
  match Rjj with MD _ => let* (Q', Rb) := ortho_dense L Or gfuel p j A Q in Ok (Q', MD Rb) | _ => Abort end.

Record flat_inv (t : nat) (A Q Rg : grid) : Prop := {
  fi_A : mtiles p q h w A; fi_Q : mtiles p q h w Q; fi_R : rtiles q w Rg;
  fi_fA : gflat A; fi_fQ : gflat Q; fi_fR : forall i j, i <= j -> j < q -> flat (Rg i j);
  fi_oA : gorth A;
  fi_oQ : forall j, j < t -> orth_cols (offs h p) (w j) (mcolumn p h Q j) }.

Lemma flat_step j (A Q Rg A' Q' Rg' : grid) ortho : j < q ->
  (forall A Q r Q' r', ortho j A Q r = Ok (Q', r') -> flat r -> exists Rb, r' = MD Rb /\ ortho_dense L Or gfuel p j A Q = Ok (Q', Rb)) ->
  flat_inv j A Q Rg ->
  mgs_step Or gfuel ortho p q j (A, Q, Rg) = Ok (A', Q', Rg') -> flat_inv (S j) A' Q' Rg'.
Proof.
  intros Hj HF [IA IQ IR FA FQ FR OA OQ] H. unfold mgs_step in H.
  apply bind_Ok in H. destruct H as [[Q1 r] [H1 H]]. apply bind_Ok in H. destruct H as [QT [H2 H]].
  apply bind_Ok in H. destruct H as [[A1 R1] [H3 H]]. inversion H; subst A1 Q1 R1; clear H.
  destruct (HF _ _ _ _ _ H1 (FR j j (le_n _) Hj)) as [Rb [-> H1']].
  destruct (ortho_dense_ok L HL Or HO gfuel p q h w Hp j A Q Q' Rb Hj IA IQ H1') as [O1 [O2 [O3 [O4 [O5 [O6 O7]]]]]].
  assert (HT : forall i, i < p -> wf (QT i) /\ nrows (QT i) = w j /\ ncols (QT i) = h i /\
    feq (w j) (h i) (ent (QT i)) (mtr (ent (Q' i j)))).
  { intros i Hi. pose proof (collectv_spec _ _ _ _ H2 i Hi) as E. cbv beta in E.
    destruct (O1 i j Hi Hj) as [B1 [B2 B3]].
    destruct (transpose_spec _ B1 (transpose_ok_no_empty _ _ E)) as [B [E' [W [_ [D1 [D2 F]]]]]].
    rewrite E in E'. inversion E'; subst B. rewrite B2, B3 in *. auto. }
  assert (FQ' : gflat Q') by (intros i k Hi Hk; eapply layout_flat; [apply O2; auto|apply FQ; auto]).
  apply (for_loop_inv_out _ _ _ _ (fun t s => mtiles p q h w (fst s) /\ gflat (fst s) /\ gorth (fst s) /\
    rtiles q w (snd s) /\ (forall i k, i <= k -> k < q -> flat (snd s i k)))) in H3.
  - cbn [fst snd] in H3. destruct H3 as [X1 [X2 [X3 [X4 X5]]]]. split; auto.
    intros l Hl. destruct (Nat.eq_dec l j) as [->|].
    + apply O7. intros i Hi. apply OA; auto.
    + assert (E : feq (offs h p) (w l) (mcolumn p h Q' l) (mcolumn p h Q l)).
      { apply mcolumn_ext. intros i Hi. rewrite O3 by auto. apply feq_refl. }
      intros x y Hx Hy. rewrite <- (OQ l ltac:(lia) x y Hx Hy). apply mmul_ext; intros z Hz; [unfold mtr|]; apply E; auto.
  - cbn [fst snd]. split; auto. split; auto. split; auto. split.
    + intros a b Ha Hb Lab. rewrite bupd_at. destruct (Nat.eqb_spec a j) as [->|]; [destruct (Nat.eqb_spec b j) as [->|]|]; simpl; auto.
    + intros a b Lab Hb. rewrite bupd_at. destruct (Nat.eqb_spec a j) as [->|]; [destruct (Nat.eqb_spec b j) as [->|]|]; simpl; auto.
  - intros t [X Y] [X' Y'] Ht [X1 [X2 [X3 [Y1 Y2]]]] Hs. cbn [fst snd] in *. set (k := S j + t) in *.
    apply bind_Ok in Hs. destruct Hs as [[X0 r0] [Hu Hs]]. inversion Hs; subst X0 Y'; clear Hs.
    assert (Hk : k < q) by lia. destruct (Y1 j k Hj Hk ltac:(lia)) as [B1 [B2 B3]].
    destruct (mgs_update_ok Or HO gfuel p q h w j k QT Q' X X' (Y j k) r0 Hj Hk ltac:(lia) Hp X1 O1 B1 B2 B3 HT Hu)
      as [U1 [U2 [U3 [U4 [U5 [U6 [U7 [U8 U9]]]]]]]].
    split; auto. split. { intros i l Hi Hl. eapply layout_flat; [apply U2; auto|auto]. }
    split. { apply (update_orthU j k QT Q' X X' (Y j k) r0); auto; try lia. apply Y2; lia. }
    split.
    + intros a b Ha Hb Lab. rewrite bupd_at. destruct (Nat.eqb_spec a j) as [->|]; [destruct (Nat.eqb_spec b k) as [->|]|]; simpl; auto.
    + intros a b Lab Hb. rewrite bupd_at. destruct (Nat.eqb_spec a j) as [->|]; [destruct (Nat.eqb_spec b k) as [->|]|]; simpl; auto.
      eapply layout_flat; [exact U5|]. apply Y2; lia.
Qed.

End Flat.

Section Result.
Context {R : cring}.
Add Ring Rr2 : (cr_th R).
Notation matrix := (matrix R).
Notation mat := (mat R).
Notation grid := (nat -> nat -> matrix).
Variable L : lapack R.
Hypothesis HL : lapack_sound L.
Variable Or : oracles R.
Hypothesis HO : oracles_near exact Or.
Hypothesis HU : keeps_orthU Or.
Variable gfuel : nat.

(** Dense and LowRank tiles, the latter with orthonormal U: the columns of Q are
    orthonormal if the diagonal blocks of R are invertible. *)
Lemma mgs_flat_orthonormal fuel p q (a b r : grid) A' Q' R' : mgs_pre p q a b r ->
  gflat p q a -> gflat p q b -> (forall i j, i <= j -> j < q -> flat (r i j)) -> gorth p q a ->
  mgs_qr L Or gfuel fuel (MH p q a) (MH p q b) (MH q q r) = Ok (A', Q', R') ->
  (forall j, j < q -> orth_cols (nrows (MH p q a)) (bwidth a j) (block_col a j (ent Q'))) /\
  ((forall j, j < q -> has_inverse (bwidth a j) (diag_block a j (ent R'))) ->
   orth_cols (nrows (MH p q a)) (ncols (MH p q a)) (ent Q')).
Proof.
  intros HP FA FB FR OA H.
  assert (C : forall j, j < q -> orth_cols (nrows (MH p q a)) (bwidth a j) (block_col a j (ent Q'))).
  2:{ split; auto. intros HI. eapply (mgs_orthogonal L HL Or HO gfuel); eauto. }
  destruct (mgs_pre_tiles _ _ _ _ _ HP) as [Hp [Hq [TA TB]]].
  pose proof HP as [_ [_ [_ [_ [RS [EW CP]]]]]].
  destruct fuel as [|fuel]; [discriminate|]. cbn [mgs_qr] in H. rewrite !Nat.eqb_refl in H. cbv zeta in H. simpl in H.
  apply bind_Ok in H. destruct H as [[[a' b'] r'] [H E]]. inversion E; subst A' Q' R'; clear E.
  apply (for_loop_inv_out _ _ _ _ (fun t s => flat_inv p q (bheight a) (bwidth a) t (fst (fst s)) (snd (fst s)) (snd s))) in H.
  - cbn [fst snd] in H. destruct H as [_ TQ _ _ _ _ _ OQ]. intros j Hj.
    change (nrows (MH p q a)) with (offs (bheight a) p).
    pose proof (column_window p q _ _ b' j Hp Hj TQ) as CW.
    intros x y Hx Hy. rewrite <- (OQ j Hj x y Hx Hy). apply mmul_ext; intros z Hz; [unfold mtr|]; apply CW; auto.
  - cbn [fst snd]. split; auto.
    + destruct RS as [_ [_ [RS _]]]. intros i j Hi Hj Hij. destruct (RS i j Hi Hj) as [W [D1 [D2 _]]].
      unfold bwidth. rewrite !EW in * by auto. auto.
    + intros j Hj. lia.
  - intros t [[A1 Q1] R1] [[A2 Q2] R2] Ht HI Hs. cbn [fst snd] in *. revert Hs. eapply (flat_step L HL Or HO HU gfuel); eauto.
    intros A3 Q3 r3 Q4 r4 HE F3. destruct r3; try contradiction; try discriminate.
    apply bind_Ok in HE. destruct HE as [[Q5 Rb] [HE E]]. inversion E; subst. eauto.
Qed.
End Result.
