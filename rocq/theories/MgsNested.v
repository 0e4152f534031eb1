(** Block modified Gram-Schmidt with hierarchical blocks: splitting a block column,
    recursion and restoring. *)
From Coq Require Import List Arith ZArith QArith Lia Bool Ring_theory Ring Setoid Morphisms.
From Verif Require Import Prelude IndexRange Ring MatFun MatSetoid Matrix MatOps MatSpec MatOpsProofs Lapack Gemm GemmSpec GemmProofs
  GemmTheorems Triangular TriAlgebra TriSpec TriProofs Reflect ReflectSpec ReflectProofs ReflectTile QrBig
  Sampled SampledProofs SampledTheorems Mgs MgsProofs MgsOrtho.
Import ListNotations.
Local Open Scope nat_scope.

Lemma offs_add h a b : offs h (a + b) = offs h a + offs (fun t => h (a + t)) b.
Proof.
  induction b; simpl.
  - rewrite Nat.add_0_r. lia.
  - rewrite <- plus_n_Sm. simpl. rewrite IHb. lia.
Qed.

(** Segments of a vector of heights. *)
Definition seg (hs rows : nat -> nat) (i : nat) : nat := offs (fun t => hs (offs rows i + t)) (rows i).
Lemma offs_seg hs rows i : offs hs (offs rows i) = offs (seg hs rows) i.
Proof. induction i; simpl; auto. rewrite offs_add, IHi. reflexivity. Qed.

Section Nested.
Context {R : cring}.
Add Ring Rr : (cr_th R).
Notation dense := (dense R).
Notation lowrank := (lowrank R).
Notation matrix := (matrix R).
Notation mat := (mat R).
Notation grid := (nat -> nat -> matrix).

(** R is square with square diagonal blocks, all blocks match, and everything below the
    diagonal blocks is zero. *)
Fixpoint rshape (Rm : matrix) : Prop :=
  match Rm with
  | MD d => d_r d = d_c d
  | MH m n r => m = n /\ 0 < n /\
      (forall i j, i < n -> j < n -> wf (r i j) /\ nrows (r i j) = ncols (r 0 i) /\ ncols (r i j) = ncols (r 0 j) /\
         (j < i -> feq (nrows (r i j)) (ncols (r i j)) (ent (r i j)) mzero)) /\
      forall j, j < n -> rshape (r j j)
  | _ => False
  end.

(** The block columns of A(i,j) are those of R(j,j): a Dense or LowRank of c columns is
    divided evenly. *)
Fixpoint fits_width (Rm : matrix) (c : nat) : Prop :=
  match Rm with
  | MH _ n r => forall j, j < n ->
      Z.of_nat (ncols (r 0 j)) = ir_n (ir_split_child (IR 0 (Z.of_nat c)) (Z.of_nat n) (Z.of_nat j)) /\
      fits_width (r j j) (ncols (r 0 j))
  | _ => True
  end.
Fixpoint fits (Rm : matrix) (A : matrix) : Prop :=
  match Rm with
  | MH _ n r =>
      match A with
      | MH m k b => k = n -> forall j, j < n -> ncols (b 0 j) = ncols (r 0 j) /\ forall i, i < m -> fits (r j j) (b i j)
      | _ => fits_width Rm (ncols A)
      end
  | _ => True
  end.

Definition same_kind (A Q : matrix) : Prop :=
  match A, Q with
  | MD _, MD _ => True
  | ML _, ML _ => True
  | ME _ _, ME _ _ => True
  | MH m _ _, MH m' _ _ => m' = m
  | _, _ => False
  end.

Lemma fits_leaf Rm A : (forall m n b, A <> MH m n b) -> fits_width Rm (ncols A) -> fits Rm A.
Proof. destruct Rm as [|?|?|?]; simpl; auto. destruct A; auto. intros H. exfalso. eapply H; eauto. Qed.

Lemma fits_layout Rm : forall A A', wf A -> same_layout A A' -> fits Rm A -> fits Rm A'.
Proof.
  induction Rm as [d|l|m n r IH|a b]; intros A A' W HL HF; simpl; auto.
  destruct A as [x|x|ma ka ba|x y], A' as [x'|x'|ma' ka' ba'|x' y']; simpl in HL; try contradiction.
  - destruct HL as [E1 E2]. simpl in HF |- *. rewrite E2. exact HF.
  - destruct HL as [E1 E2]. simpl in HF |- *. rewrite E2. exact HF.
  - destruct HL as [E1 [E2 E3]]. rewrite E2. intros E j Hj.
    pose proof W as [W1 [W2 W3]]. destruct (HF E j Hj) as [F1 F2]. split.
    + rewrite <- F1. apply same_layout_dims; [apply W3; lia|]. apply E3; lia.
    + rewrite E1. intros i Hi. apply (IH j j (ba i j)); [apply W3; lia|apply E3; lia|apply F2; auto].
  - destruct HL as [E1 E2]. simpl in HF |- *. rewrite E2. exact HF.
Qed.

Lemma same_kind_layout A A' Q : same_layout A A' -> same_kind A Q -> same_kind A' Q.
Proof.
  destruct A, A', Q; simpl; auto; try tauto. intros [E1 [E2 _]]. congruence.
Qed.
Lemma same_kind_refl A : same_kind A A.
Proof. destruct A; simpl; auto. Qed.

(** ** Rows of blocks *)

Lemma grid_dims P n hs ws (G : grid) : 0 < P -> 0 < n -> mtiles P n hs ws G ->
  wf (MH P n G) /\ nrows (MH P n G) = offs hs P /\ ncols (MH P n G) = offs ws n.
Proof.
  intros HP Hn HG. split; [|split].
  - simpl. split; auto. split; auto. intros i j Hi Hj. destruct (HG i j Hi Hj) as [W [D1 D2]].
    destruct (HG i 0 Hi Hn) as [_ [D3 _]]. destruct (HG 0 j HP Hj) as [_ [_ D4]]. split; auto. split; congruence.
  - simpl. apply offs_ext. intros i Hi. apply HG; auto.
  - simpl. apply offs_ext. intros i Hi. apply HG; auto.
Qed.

Lemma ent_at P n hs ws (G : grid) : 0 < P -> 0 < n -> mtiles P n hs ws G ->
  forall i j a b, i < P -> j < n -> a < hs i -> b < ws j ->
  ent (MH P n G) (offs hs i + a) (offs ws j + b) = ent (G i j) a b.
Proof.
  intros HP Hn HG i j a b Hi Hj Ha Hb.
  assert (E1 : offs hs i = offs (bheight G) i).
  { apply offs_ext. intros t Ht. symmetry. apply HG; auto. lia. }
  assert (E2 : offs ws j = offs (bwidth G) j).
  { apply offs_ext. intros t Ht. symmetry. apply HG; auto. lia. }
  rewrite E1, E2. apply ent_block; auto.
  - unfold bheight. destruct (HG i 0 Hi Hn) as [_ [D _]]. lia.
  - unfold bwidth. destruct (HG 0 j HP Hj) as [_ [_ D]]. lia.
Qed.

Lemma grid_ent_feq P n hs ws (G : grid) (f : mat) : 0 < P -> 0 < n -> mtiles P n hs ws G ->
  (forall i j a b, i < P -> j < n -> a < hs i -> b < ws j -> ent (G i j) a b = f (offs hs i + a) (offs ws j + b)) ->
  feq (offs hs P) (offs ws n) (ent (MH P n G)) f.
Proof.
  intros HP Hn HG H x y Hx Hy.
  destruct (locate_in hs P x Hx) as [i [a [_ [Hi [Ha ->]]]]].
  destruct (locate_in ws n y Hy) as [j [b [_ [Hj [Hb ->]]]]].
  rewrite (ent_at P n hs ws G); auto.
Qed.

Lemma window P n hs ws (G : grid) a m : 0 < m -> 0 < n -> a + m <= P -> mtiles P n hs ws G ->
  mtiles m n (fun t => hs (a + t)) ws (fun t c => G (a + t) c) /\
  feq (offs (fun t => hs (a + t)) m) (offs ws n) (mwin (offs hs a) 0 (ent (MH P n G))) (ent (MH m n (fun t c => G (a + t) c))).
Proof.
  intros Hm Hn Ha HG.
  assert (T : mtiles m n (fun t => hs (a + t)) ws (fun t c => G (a + t) c)).
  { intros i j Hi Hj. apply HG; auto. lia. }
  split; auto. apply feq_sym. apply grid_ent_feq; auto.
  intros i j x y Hi Hj Hx Hy. unfold mwin. rewrite Nat.add_assoc, <- offs_add. simpl.
  symmetry. apply (ent_at P n hs ws G); auto; lia.
Qed.

(** Columns of a grid next to each other. *)
Lemma column_window P n hs ws (G : grid) j : 0 < P -> j < n -> mtiles P n hs ws G ->
  feq (offs hs P) (ws j) (mwin 0 (offs ws j) (ent (MH P n G))) (mcolumn P hs G j).
Proof.
  intros HP Hj HG x y Hx Hy.
  destruct (locate_in hs P x Hx) as [i [a [_ [Hi [Ha ->]]]]].
  unfold mwin, mcolumn. rewrite stack_at by auto. simpl. apply (ent_at P n hs ws G); auto. lia.
Qed.

(** ** The result of the loop as a product *)

Lemma mgs_product p q h w (A0 Q0 R0 A Q Rg : grid) : 0 < p -> 0 < q -> mtiles p q h w A0 ->
  rshape (MH q q R0) -> (forall j, j < q -> ncols (R0 0 j) = w j) ->
  mgs_inv p q h w A0 Q0 R0 q A Q Rg ->
  wf (MH q q Rg) /\ nrows (MH q q Rg) = offs w q /\ ncols (MH q q Rg) = offs w q /\
  feq (offs h p) (offs w q) (mmul (offs w q) (ent (MH p q Q)) (ent (MH q q Rg))) (ent (MH p q A0)).
Proof.
  intros Hp Hq HA [_ [_ [RS _]]] EW [_ _ IQ _ IR IR0 ID _ _].
  assert (TR : mtiles q q w w Rg).
  { intros i j Hi Hj. destruct (le_lt_dec i j) as [L|L]; [apply IR; auto|].
    rewrite IR0 by lia. destruct (RS i j Hi Hj) as [W [D1 [D2 _]]]. rewrite !EW in * by auto. auto. }
  assert (ZR : forall i j, i < q -> j < i -> feq (w i) (w j) (ent (Rg i j)) mzero).
  { intros i j Hi Hj. rewrite IR0 by lia. destruct (RS i j Hi ltac:(lia)) as [W [D1 [D2 Z]]].
    rewrite !EW in * by lia. specialize (Z Hj). rewrite D1, D2 in Z. exact Z. }
  destruct (grid_dims q q w w Rg Hq Hq TR) as [W [D1 D2]].
  split; auto. split; auto. split; auto.
  apply feq_sym. apply grid_ent_feq; auto. intros i j a b Hi Hj Ha Hb.
  assert (Hx : offs h i + a < offs h p) by (pose proof (offs_lt h i p Hi); lia).
  transitivity (mcolumn p h A0 j (offs h i + a) b).
  { unfold mcolumn. rewrite stack_at; auto. }
  rewrite (ID j Hj _ _ Hx Hb). unfold qr_sum. rewrite mmul_offs.
  replace q with (S j + (q - S j)) at 1 by lia. rewrite sum_split.
  set (x0 := offs h i + a) in *. set (y0 := offs w j + b).
  transitivity (sum (S j) (fun k => mmul (w k) (mcolumn p h Q k) (ent (Rg k j)) x0 b) + 0)%r; [ring|].
  f_equal.
  - apply sum_ext. intros k Hk. unfold mmul. apply sum_ext. intros x Hx'. f_equal.
    + symmetry. apply (column_window p q h w Q k); auto. lia.
    + unfold mwin. rewrite Nat.add_0_l. symmetry. apply (ent_at q q w w Rg); auto. lia.
  - symmetry. apply sum_zero'. intros k Hk. unfold mmul. apply sum_zero'. intros x Hx'.
    assert (E : mwin (offs w (S j + k)) 0 (ent (MH q q Rg)) x y0 = 0%r).
    { transitivity (ent (Rg (S j + k) j) x b); [|apply ZR; auto; lia].
      unfold mwin. rewrite Nat.add_0_l. apply (ent_at q q w w Rg); auto; lia. }
    rewrite E. ring.
Qed.

(** ** Splitting *)

Definition left_of (A : matrix) (U : dense) : dense := match A with ML _ => U | _ => eye (nrows A) end.

Lemma split_by_column_ok (A : matrix) n (r : grid) c (b : grid) (U : dense) : wf A -> 0 < n -> fits (MH n n r) A ->
  ncols A = c -> offs (fun j => ncols (r 0 j)) n = c ->
  split_by_column A n = Ok (b, U) ->
  0 < split_rows A /\
  (forall t j, t < split_rows A -> j < n -> wf (b t j) /\ nrows (b t j) = nrows (b t 0) /\ ncols (b t j) = ncols (r 0 j) /\
     fits (r j j) (b t j)) /\
  d_r (left_of A U) = nrows A /\ d_c (left_of A U) = offs (fun t => nrows (b t 0)) (split_rows A) /\
  feq (nrows A) c (mmul (d_c (left_of A U)) (d_e (left_of A U)) (ent (MH (split_rows A) n b))) (ent A).
Proof.
  intros W Hn HF EC EW H.
  (* a Dense row *)
  assert (SD : forall d m k b', d_c d = c -> split (MD d) 1 n = Ok (MH m k b') -> fits_width (MH n n r) (d_c d) ->
    (forall j, j < n -> wf (b' 0 j) /\ nrows (b' 0 j) = d_r d /\ ncols (b' 0 j) = ncols (r 0 j) /\ fits (r j j) (b' 0 j)) /\
    feq (d_r d) c (ent (MH 1 n (fun _ j => b' 0 j))) (d_e d)).
  { intros d m k b' Ec Hs Hf.
    destruct (split_spec (MD d) 1 n _ I Nat.lt_0_1 Hn Hs) as [h' [w' [[b2 [E1 [E2 [E3 [E4 [E5 E6]]]]]] [E7 E8]]]].
    inversion E1; subst m k b2; clear E1. simpl in E4, E5, E6.
    assert (K : forall j, exists d', b' 0 j = MD d').
    { intros j. unfold split in Hs. apply bind_Ok in Hs. destruct Hs as [rs [_ Hs]]. apply bind_Ok in Hs. destruct Hs as [cs [_ Hs]].
      simpl in Hs. unfold split_dense in Hs. destruct (_ && _); [|discriminate]. inversion Hs. eexists. reflexivity. }
    assert (X : forall j, j < n -> wf (b' 0 j) /\ nrows (b' 0 j) = d_r d /\ ncols (b' 0 j) = ncols (r 0 j) /\ fits (r j j) (b' 0 j)).
    { intros j Hj. destruct (K j) as [d' Ed]. destruct (E3 0 j Nat.lt_0_1 Hj) as [D1 D2].
      destruct (E3 0 0 Nat.lt_0_1 Hn) as [D3 _]. destruct (Hf j Hj) as [F1 F2].
      pose proof (E8 j Hj) as F3. simpl ncols in F3. rewrite <- F1 in F3. apply Nat2Z.inj in F3.
      rewrite Ed. split; [exact I|]. rewrite <- Ed. split; [lia|]. split; [congruence|].
      apply fits_leaf; [rewrite Ed; discriminate|]. rewrite D2, F3. exact F2. }
    split; auto. rewrite <- Ec. eapply feq_trans; [|exact E6].
    destruct (grid_dims 1 n (fun _ => d_r d) (fun j => ncols (r 0 j)) (fun _ j => b' 0 j) Nat.lt_0_1 Hn) as [_ [G1 G2]].
    { intros i j Hi Hj. destruct (X j Hj) as [X1 [X2 [X3 _]]]. auto. }
    intros x y Hx Hy.
    assert (EN : ncols (MH 1 n (fun _ j => b' 0 j)) = ncols (MH 1 n b')) by reflexivity.
    assert (Hx' : x < nrows (MH 1 n (fun _ j => b' 0 j))) by (rewrite G1; simpl; lia).
    assert (Hy' : y < ncols (MH 1 n (fun _ j => b' 0 j))) by (rewrite G2, EW; lia).
    apply (ent_blocks 1 n (fun _ j => b' 0 j) (ent (MH 1 n b'))); auto.
    intros bi bj i j Hi Hj Hi' Hj'. replace bi with 0 by lia. symmetry. apply (ent_block 1 n b' 0 bj); auto; lia. }
  destruct A as [d|l|m k b0|x y]; simpl in H; try discriminate.
  - (* Dense *)
    apply bind_Ok in H. destruct H as [s [Hs H]]. destruct s as [|?|m k b'|?]; try discriminate. inversion H; subst b U; clear H.
    destruct (SD d m k b' EC Hs HF) as [X Y]. cbn [split_rows left_of]. split; auto. split.
    { intros t j Ht Hj. destruct (X j Hj) as [X1 [X2 [X3 X4]]]. destruct (X 0 Hn) as [_ [X5 _]]. split; auto. split; [congruence|auto]. }
    split; auto. destruct (X 0 Hn) as [_ [X5 _]]. split. { simpl. lia. }
    cbn [d_c d_e eye nrows ent]. eapply feq_trans; [|exact Y]. intros a b Ha Hb. apply mmul_id_l. auto.
  - (* LowRank *)
    apply bind_Ok in H. destruct H as [[U1 SV] [HSV H]]. apply bind_Ok in HSV. destruct HSV as [SV1 [HSV HE]].
    inversion HE; subst U1 SV1; clear HE.
    apply bind_Ok in H. destruct H as [s [Hs H]]. destruct s as [|?|m k b'|?]; try discriminate. inversion H; subst b U; clear H.
    assert (HM : make_left_orthogonal (ML l) = Ok (l_U l, SV)) by (simpl; rewrite HSV; reflexivity).
    destruct (make_left_orthogonal_ok _ _ _ W HM) as [M1 [M2 [M3 [M4 _]]]].
    assert (HF' : fits_width (MH n n r) (d_c SV)) by (rewrite M3; exact HF).
    destruct (SD SV m k b' ltac:(congruence) Hs HF') as [X Y]. cbn [split_rows left_of]. split; auto. split.
    { intros t j Ht Hj. destruct (X j Hj) as [X1 [X2 [X3 X4]]]. destruct (X 0 Hn) as [_ [X5 _]]. split; auto. split; [congruence|auto]. }
    split; auto. destruct (X 0 Hn) as [_ [X5 _]]. split. { simpl. lia. }
    rewrite EC in M4. eapply feq_trans; [|exact M4]. rewrite M2. apply feq_mmul; [apply feq_refl|exact Y].
  - (* Hierarchical *)
    apply assert_Ok in H. destruct H as [H1 H]. apply Nat.leb_le in H1.
    destruct (Nat.ltb_spec k n); [discriminate|]. assert (k = n) by lia. inversion H; subst b U; clear H.
    pose proof W as [W1 [W2 W3]]. cbn [split_rows left_of]. split; auto. split.
    { intros t j Ht Hj. destruct (W3 t j Ht ltac:(lia)) as [V1 [V2 V3]]. destruct (HF H2 j Hj) as [F1 F2].
      split; auto. split; auto. split; [congruence|]. apply F2. auto. }
    split; auto. split; [reflexivity|]. rewrite H2. cbn [d_c d_e eye nrows].
    intros a b Ha Hb. apply mmul_id_l. exact Ha.
Qed.

(** ** Restoring *)

Lemma concat_columns_ok (A Qij : matrix) P n hs ws (S : grid) (U : dense) cur x cur' rb : same_kind A Qij -> 0 < n ->
  0 < split_rows A -> cur + split_rows A <= P -> mtiles P n hs ws S -> wf A ->
  nrows Qij = nrows A -> d_r (left_of A U) = nrows A -> d_c (left_of A U) = rb ->
  rb = offs (fun t => hs (cur + t)) (split_rows A) ->
  concat_columns Qij P n S U cur = Ok (x, cur') ->
  cur' = cur + split_rows A /\ wf x /\ nrows x = nrows A /\ ncols x = offs ws n /\
  feq (nrows A) (offs ws n) (ent x) (mmul rb (d_e (left_of A U)) (mwin (offs hs cur) 0 (ent (MH P n S)))).
Proof.
  intros HK Hn Hm HP HS W HQ D1 D2 Erb H.
  destruct (window P n hs ws S cur (split_rows A) Hm Hn HP HS) as [WT WE]. rewrite <- Erb in WE.
  destruct (grid_dims _ _ _ _ _ Hm Hn WT) as [WW [WR WC]]. rewrite <- Erb in WR.
  set (G := MH (split_rows A) n (fun t c => S (cur + t) c)) in *.
  set (M := ent (MH P n S)) in *.
  assert (RW : forall m, split_rows A = m -> G = MH m n (fun t c => S (cur + t) c)) by (intros m <-; reflexivity).
  (* one row of blocks *)
  assert (DR : split_rows A = 1 -> forall d, densify (MH 1 n (fun _ c => S cur c)) = Ok d ->
     d_r d = rb /\ d_c d = offs ws n /\ feq rb (offs ws n) (d_e d) (mwin (offs hs cur) 0 M)).
  { intros E1 d Hd. 
    assert (T1 : mtiles 1 n (fun _ => hs cur) ws (fun _ c => S cur c)) by (intros i j Hi Hj; apply HS; lia).
    destruct (grid_dims 1 n _ _ _ Nat.lt_0_1 Hn T1) as [V1 [V2 V3]].
    destruct (densify_spec _ V1) as [C [C1 [C2 [C3 C4]]]]. rewrite Hd in C1. inversion C1; subst C; clear C1.
    rewrite V2, V3 in *. simpl offs in *. rewrite E1 in Erb. simpl in Erb. rewrite Nat.add_0_r in Erb.
    split; [congruence|]. split; auto. rewrite Erb in *.
    eapply feq_trans; [exact C4|]. apply feq_sym. eapply feq_trans; [exact WE|].
    rewrite (RW 1 E1). intros a b Ha Hb.
    apply (ent_blocks 1 n (fun t c => S (cur + t) c) (ent (MH 1 n (fun _ c => S cur c)))).
    2:{ rewrite <- (RW 1 E1), WR. exact Ha. }
    2:{ rewrite <- (RW 1 E1), WC. exact Hb. }
    intros bi bj i j Hi Hj Hi' Hj'. assert (bi = 0) by lia. subst bi.
    unfold bheight, bwidth in *. rewrite Nat.add_0_r in *.
    symmetry. exact (ent_block 1 n (fun _ c => S cur c) 0 bj i j Hi Hj Hi' Hj'). }
  clearbody M.
  destruct A as [d|l|m k b|a b], Qij as [d'|l'|m' k' b'|a' b']; simpl in HK; try contradiction; cbn [concat_columns] in H; try discriminate.
  - (* Dense *)
    apply assert_Ok in H. destruct H as [_ H]. apply bind_Ok in H. destruct H as [y [Hy H]].
    apply assert_Ok in H. destruct H as [A1 H]. apply assert_Ok in H. destruct H as [A2 H].
    inversion H; subst x cur'; clear H. destruct (DR eq_refl y Hy) as [Y1 [Y2 Y3]].
    apply Nat.eqb_eq in A1, A2. cbn [split_rows left_of nrows ncols ent eye d_e d_c d_r] in *.
    split; auto. split; [exact I|]. split; [congruence|]. split; auto.
    rewrite D2. eapply feq_trans; [exact Y3|]. intros a b Ha Hb. symmetry. apply mmul_id_l. auto.
  - (* LowRank *)
    apply assert_Ok in H. destruct H as [_ H]. apply bind_Ok in H. destruct H as [y [Hy H]].
    apply assert_Ok in H. destruct H as [A1 H]. apply assert_Ok in H. destruct H as [A2 H]. apply assert_Ok in H. destruct H as [A3 H].
    inversion H; subst x cur'; clear H. destruct (DR eq_refl y Hy) as [Y1 [Y2 Y3]].
    apply Nat.eqb_eq in A1, A2, A3. cbn [split_rows left_of nrows ncols ent] in *.
    split; auto. split. { unfold wf, lr_wf. simpl. auto 8. } split; [exact D1|]. split; [exact Y2|].
    unfold lr_ent. cbn [l_U l_S l_V d_c d_e eye]. rewrite D2.
    apply feq_mmul; [apply feq_refl|]. eapply feq_trans; [|exact Y3].
    intros a b Ha Hb. apply mmul_id_l. auto.
  - (* Hierarchical *)
    apply assert_Ok in H. destruct H as [A1 H]. apply assert_Ok in H. destruct H as [A2 H].
    inversion H; subst x cur'; clear H. apply Nat.eqb_eq in A1. apply Nat.leb_le in A2.
    cbn [split_rows left_of] in *.
    assert (EG : MH m' k' (fun i c => S (cur + i) c) = G) by (unfold G; congruence). rewrite EG.
    assert (ER : nrows (MH m k b) = rb) by (rewrite <- D2; reflexivity).
    split; [congruence|]. split; auto. split; [congruence|]. split; auto. rewrite ER.
    eapply feq_trans; [apply feq_sym; exact WE|]. cbn [d_e eye]. intros a c Ha Hc. symmetry. apply mmul_id_l. exact Ha.
Qed.

End Nested.
