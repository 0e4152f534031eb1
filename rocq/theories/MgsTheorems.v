(** Block modified Gram-Schmidt QR reconstructs the input. *)
From Coq Require Import List Arith ZArith QArith Lia Bool Ring_theory Ring Setoid Morphisms.
From Verif Require Import Prelude IndexRange Ring MatFun MatSetoid Matrix MatOps MatSpec MatOpsProofs Lapack Gemm GemmSpec GemmProofs
  GemmTheorems Triangular TriAlgebra TriSpec TriProofs Reflect ReflectSpec ReflectProofs ReflectTile QrBig
  Sampled SampledProofs SampledTheorems Mgs MgsProofs MgsOrtho MgsNested.
Import ListNotations.
Local Open Scope nat_scope.

Section Main.
Context {R : cring}.
Add Ring Rr : (cr_th R).
Notation dense := (dense R).
Notation lowrank := (lowrank R).
Notation matrix := (matrix R).
Notation mat := (mat R).
Notation grid := (nat -> nat -> matrix).

Variable L : lapack R.
Hypothesis HL : lapack_sound L.
Variable Or : oracles R.
Hypothesis HO : oracles_near exact Or.
Variable gfuel : nat.

(** What is required of block column j: a hierarchical R(j,j) needs a matching block
    structure, and blocks of Q of the classes of those of A. *)
Definition col_pre (p j : nat) (A Q : grid) (r : matrix) : Prop :=
  rshape r /\
  match r with MH _ _ _ => forall i, i < p -> fits r (A i j) /\ same_kind (A i j) (Q i j) | _ => True end.

Lemma col_pre_A p q h w j A A' Q r : j < q -> layouts p q A A' -> mtiles p q h w A -> col_pre p j A Q r -> col_pre p j A' Q r.
Proof.
  intros Hj HLy HA [H1 H2]. split; auto. destruct r; auto. intros i Hi. destruct (H2 i Hi) as [F K].
  split; [eapply fits_layout; eauto; apply HA; auto|eapply same_kind_layout; eauto].
Qed.
Lemma col_pre_Q p j A Q Q' r : (forall i, Q' i j = Q i j) -> col_pre p j A Q r -> col_pre p j A Q' r.
Proof. intros E [H1 H2]. split; auto. destruct r; auto. intros i Hi. rewrite E. auto. Qed.

Definition mgs_good (fuel : nat) : Prop := forall p q h w (a b r : grid) A' Q' R', 0 < p -> 0 < q ->
  mtiles p q h w a -> mtiles p q h w b -> rshape (MH q q r) -> (forall j, j < q -> ncols (r 0 j) = w j) ->
  (forall j, j < q -> col_pre p j a b (r j j)) ->
  mgs_qr L Or gfuel fuel (MH p q a) (MH p q b) (MH q q r) = Ok (A', Q', R') ->
  exists a' b' r', A' = MH p q a' /\ Q' = MH p q b' /\ R' = MH q q r' /\ mgs_inv p q h w a b r q a' b' r'.

(** Orthogonalizing a block column by recursion. *)
Lemma ortho_hier_ok fuel : mgs_good fuel -> forall p q h w j (A Q : grid) m n r P nC SA QL A' P' nC' QS R' Q',
  0 < p -> j < q -> mtiles p q h w A -> mtiles p q h w Q ->
  nrows (MH m n r) = w j -> ncols (MH m n r) = w j -> col_pre p j A Q (MH m n r) ->
  split_block_col p j A = Ok (P, nC, SA, QL) ->
  mgs_qr L Or gfuel fuel (MH P nC SA) (MH P nC SA) (MH m n r) = Ok (A', MH P' nC' QS, R') ->
  restore_block_col p j P' nC' QS QL Q = Ok Q' ->
  mtiles p q h w Q' /\ (forall i k, k <> j -> Q' i k = Q i k) /\ wf R' /\ nrows R' = w j /\ ncols R' = w j /\
  feq (offs h p) (w j) (mmul (w j) (mcolumn p h Q' j) (ent R')) (mcolumn p h A j).
Proof.
  intros IH p q h w j A Q m n r P nC SA QL A' P' nC' QS R' Q' Hp Hj HA HQ NR NC [HS HF] H1 H2 H3.
  assert (Hmn : m = nC /\ n = nC).
  { destruct fuel; [discriminate|]. cbn [mgs_qr] in H2. rewrite !Nat.eqb_refl in H2. simpl in H2.
    apply assert_Ok in H2. destruct H2 as [E1 H2]. apply assert_Ok in H2. destruct H2 as [E2 _].
    apply Nat.eqb_eq in E1, E2. auto. }
  destruct Hmn; subst m n. pose proof HS as [_ [Hn [HRS HRD]]].
  set (ws := fun c => ncols (r 0 c)).
  assert (EW : offs ws nC = w j) by (rewrite <- NC; reflexivity).
  unfold split_block_col in H1. cbv zeta in H1.
  set (rows := fun i => split_rows (A i j)) in *.
  apply bind_Ok in H1. destruct H1 as [nC0 [H11 H1]]. apply bind_Ok in H1. destruct H1 as [s [H12 H1]].
  inversion H1 as [[EP EN ES EQ]]. subst nC0 QL. clear H1 H11.
  (* the pieces *)
  assert (SP : forall i, i < p -> 0 < rows i /\
    (forall t c, t < rows i -> c < nC -> wf (fst (s i) t c) /\ nrows (fst (s i) t c) = nrows (fst (s i) t 0) /\
       ncols (fst (s i) t c) = ws c /\ fits (r c c) (fst (s i) t c)) /\
    d_r (left_of (A i j) (snd (s i))) = h i /\
    d_c (left_of (A i j) (snd (s i))) = offs (fun t => nrows (fst (s i) t 0)) (rows i) /\
    feq (h i) (w j) (mmul (d_c (left_of (A i j) (snd (s i)))) (d_e (left_of (A i j) (snd (s i)))) (ent (MH (rows i) nC (fst (s i))))) (ent (A i j))).
  { intros i Hi. pose proof (collectv_spec _ _ _ _ H12 i Hi) as E. cbv beta in E.
    destruct (s i) as [bi Ui]. cbn [fst snd]. destruct (HA i j Hi Hj) as [W [D1 D2]]. destruct (HF i Hi) as [F _].
    destruct (split_by_column_ok (A i j) nC r (w j) bi Ui W Hn F D2 EW E) as [X1 [X2 [X3 [X4 X5]]]].
    rewrite D1 in *. auto. }
  assert (SAt : forall i t c, i < p -> t < rows i -> SA (offs rows i + t) c = fst (s i) t c).
  { intros i t c Hi Ht. rewrite <- ES. rewrite locate_offs by auto. reflexivity. }
  set (hs := fun x => nrows (SA x 0)).
  assert (HP : 0 < P).
  { rewrite <- EP. destruct (SP 0 Hp) as [X _]. pose proof (offs_lt rows 0 p Hp). lia. }
  assert (TS : mtiles P nC hs ws SA /\ (forall x c, x < P -> c < nC -> fits (r c c) (SA x c))).
  { assert (X : forall x c, x < P -> c < nC -> wf (SA x c) /\ nrows (SA x c) = hs x /\ ncols (SA x c) = ws c /\ fits (r c c) (SA x c)).
    { intros x c Hx Hc. rewrite <- EP in Hx. destruct (locate_in rows p x Hx) as [i [t [_ [Hi [Ht ->]]]]].
      unfold hs. rewrite !SAt by auto. apply SP; auto. }
    split; intros x c Hx Hc; destruct (X x c Hx Hc) as [X1 [X2 [X3 X4]]]; auto. }
  destruct TS as [TS FS].
  (* the recursive call *)
  destruct (IH P nC hs ws SA SA r A' (MH P' nC' QS) R' HP Hn TS TS HS (fun _ _ => eq_refl)) as [a' [b' [r' [E1 [E2 [E3 INV]]]]]]; auto.
  { intros c Hc. split; [apply HRD; auto|]. destruct (r c c) as [| |mm nn rr|] eqn:Er; auto.
    intros x Hx. split; [rewrite <- Er; apply FS; auto|apply same_kind_refl]. }
  inversion E2; subst P' nC' QS; clear E2.
  pose proof (mi_Q _ _ _ _ _ _ _ _ _ _ _ INV) as TQ.
  destruct (mgs_product P nC hs ws SA SA r a' b' r' HP Hn TS HS (fun _ _ => eq_refl) INV) as [WR [RR [RC PR]]].
  rewrite <- E3 in *.
  (* putting the blocks back *)
  set (rb := seg hs rows).
  assert (RB : forall i, i < p -> d_c (left_of (A i j) (snd (s i))) = rb i).
  { intros i Hi. destruct (SP i Hi) as [_ [_ [_ [X _]]]]. rewrite X. unfold rb, seg. apply offs_ext. intros t Ht.
    unfold hs. rewrite SAt by auto. reflexivity. }
  assert (OB : forall i, offs hs (offs rows i) = offs rb i) by (intros; apply offs_seg).
  unfold restore_block_col in H3. apply bind_Ok in H3. destruct H3 as [[X cur] [H3 E]]. inversion E; subst X; clear E.
  set (U := fun i => d_e (left_of (A i j) (snd (s i)))).
  set (M := ent (MH P nC b')) in *.
  apply (for_loop_inv_out _ _ _ _ (fun t st => snd st = offs rows t /\ (forall i k, k <> j -> fst st i k = Q i k) /\
    (forall i, t <= i -> fst st i j = Q i j) /\
    (forall i, i < t -> wf (fst st i j) /\ nrows (fst st i j) = h i /\ ncols (fst st i j) = w j /\
       feq (h i) (w j) (ent (fst st i j)) (mmul (rb i) (U i) (mwin (offs rb i) 0 M))))) in H3.
  2:{ cbn [fst snd]. split; auto. split; auto. split; auto. intros; lia. }
  2:{ intros t [X c] [X' c'] Ht [I1 [I2 [I3 I4]]] Hs. cbn [fst snd] in *.
      apply bind_Ok in Hs. destruct Hs as [[y c1] [Hc Hs]]. inversion Hs; subst X' c1; clear Hs.
      subst c. rewrite I3 in Hc by lia. destruct (HA t j Ht Hj) as [W [D1 D2]]. destruct (HQ t j Ht Hj) as [W' [D1' D2']].
      destruct (HF t Ht) as [_ SK]. destruct (SP t Ht) as [S1 [_ [S2 [_ _]]]].
      assert (LP : offs rows t + rows t <= P) by (rewrite <- EP; apply offs_lt; auto).
      destruct (concat_columns_ok (A t j) (Q t j) P nC hs ws b' (snd (s t)) (offs rows t) y c' (rb t) SK Hn S1 LP TQ W)
        as [C1 [C2 [C3 [C4 C5]]]]; auto; try congruence.
      fold M in C5. rewrite OB, EW, D1 in *. split; [exact C1|]. split.
      { intros i k Hk. rewrite bupd_oth by auto. auto. }
      split. { intros i Hi. rewrite bupd_oth by lia. apply I3. lia. }
      intros i Hi. rewrite bupd_at, Nat.eqb_refl, andb_true_r. destruct (Nat.eqb_spec i t) as [->|].
      - auto.
      - apply I4. lia. }
  cbn [fst snd] in H3. destruct H3 as [_ [Q1 [_ Q2]]].
  split.
  { intros i k Hi Hk. destruct (Nat.eq_dec k j) as [->|]; [|rewrite Q1 by auto; apply HQ; auto].
    destruct (Q2 i Hi) as [X1 [X2 [X3 _]]]. auto. }
  split; auto. split; auto. split; [congruence|]. split; [congruence|].
  assert (CQ : feq (offs h p) (w j) (mcolumn p h Q' j) (stack p h (fun i => mmul (rb i) (U i) (mwin (offs rb i) 0 M)))).
  { apply feq_stack. intros i Hi. apply Q2. auto. }
  eapply feq_trans; [apply feq_mmul; [exact CQ|apply feq_refl]|].
  assert (PR' : feq (offs rb p) (w j) (mmul (w j) M (ent R')) (ent (MH P nC SA))).
  { rewrite <- OB, EP, <- EW. exact PR. }
  eapply feq_trans; [apply (left_mul p h rb _ _ _ _ _ _ PR')|].
  apply feq_stack. intros i Hi. destruct (SP i Hi) as [S1 [S3 [_ [_ S2]]]].
  eapply feq_trans; [|exact S2]. rewrite RB by auto. apply feq_mmul; [apply feq_refl|].
  rewrite <- OB. assert (LP : offs rows i + rows i <= P) by (rewrite <- EP; apply offs_lt; auto).
  destruct (window P nC hs ws SA (offs rows i) (rows i) S1 Hn LP TS) as [T1 T2]. rewrite EW in T2. 
  eapply feq_trans; [exact T2|]. rewrite <- EW.
  apply grid_ent_feq; auto. intros x y a c Hx Hy Ha Hc. rewrite SAt by auto.
  assert (T3 : mtiles (rows i) nC (fun t => hs (offs rows i + t)) ws (fst (s i))).
  { intros x' y' Hx' Hy'. rewrite <- SAt by auto. apply TS; auto. lia. }
  symmetry. apply (ent_at (rows i) nC _ ws (fst (s i)) S1 Hn T3); auto.
Qed.

Lemma mgs_main fuel : mgs_good fuel.
Proof.
  induction fuel as [|fuel IH]; intros p q h w a b r A' Q' R' Hp Hq HA HQ HR EW HP H; [discriminate|].
  cbn [mgs_qr] in H. rewrite !Nat.eqb_refl in H.
  apply bind_Ok in H. destruct H as [[[a' b'] r'] [H E]]. inversion E; subst A' Q' R'; clear E.
  exists a', b', r'. do 3 (split; auto).
  pose proof HR as [_ [_ [RS RD]]].
  refine (mgs_loop_ok Or HO gfuel p q h w _ (col_pre p) _ _ _ Hp a b r a' b' r' HA HQ _ HP H).
  - intros j A1 A2 Q1 r1 Hj. apply col_pre_A. auto.
  - intros j A1 Q1 Q2 r1 Hj. apply col_pre_Q.
  - intros j A1 Q1 r1 Q2 r2 Hj TA TQ W D1 D2 HC HE. cbv beta in HE.
    destruct r1 as [d|l|m n rr|x y]; try discriminate.
    + apply bind_Ok in HE. destruct HE as [[Q3 Rb] [HE E]]. inversion E; subst Q3 r2; clear E.
      destruct (ortho_dense_ok L HL Or HO gfuel p q h w Hp j A1 Q1 Q2 Rb Hj TA TQ HE) as [O1 [_ [O2 [O3 [O4 [O5 _]]]]]].
      repeat (split; [first [exact I|assumption]|]). assumption.
    + apply bind_Ok in HE. destruct HE as [[[[P nC] SA] QL] [E1 HE]].
      apply bind_Ok in HE. destruct HE as [[[AA QS] RR] [E2 HE]].
      destruct QS as [|?|P' nC' QS|?]; try discriminate.
      apply bind_Ok in HE. destruct HE as [Q3 [E3 E]]. inversion E; subst Q3 r2; clear E.
      eapply (ortho_hier_ok fuel IH); eauto.
  - intros i j Hi Hj Hij. destruct (RS i j Hi Hj) as [W [D1 [D2 _]]]. rewrite !EW in * by auto. auto.
Qed.

(** ** Statements about whole matrices *)

(** Q has the blocks of A, R square blocks of the widths of A, and every block column
    satisfies [col_pre]. *)
Definition mgs_pre (p q : nat) (a b r : grid) : Prop :=
  wf (MH p q a) /\ wf (MH p q b) /\
  (forall i, i < p -> nrows (b i 0) = nrows (a i 0)) /\ (forall j, j < q -> ncols (b 0 j) = ncols (a 0 j)) /\
  rshape (MH q q r) /\ (forall j, j < q -> ncols (r 0 j) = ncols (a 0 j)) /\
  forall j, j < q -> col_pre p j a b (r j j).

Lemma mgs_pre_tiles p q a b r : mgs_pre p q a b r ->
  0 < p /\ 0 < q /\ mtiles p q (bheight a) (bwidth a) a /\ mtiles p q (bheight a) (bwidth a) b.
Proof.
  intros [WA [WB [E1 [E2 _]]]]. pose proof WA as [Hp [Hq _]]. split; auto. split; auto.
  split; intros i j Hi Hj.
  - apply (wf_block _ _ _ i j WA Hi Hj).
  - destruct (wf_block _ _ _ i j WB Hi Hj) as [W [D1 D2]]. split; auto. unfold bheight, bwidth in *.
    rewrite D1, D2. auto.
Qed.

Lemma mgs_reconstructs fuel p q (a b r : grid) A' Q' R' : mgs_pre p q a b r ->
  mgs_qr L Or gfuel fuel (MH p q a) (MH p q b) (MH q q r) = Ok (A', Q', R') ->
  let A := MH p q a in
  wf Q' /\ wf R' /\ nrows Q' = nrows A /\ ncols Q' = ncols A /\ nrows R' = ncols A /\ ncols R' = ncols A /\
  feq (nrows A) (ncols A) (mmul (ncols A) (ent Q') (ent R')) (ent A).
Proof.
  intros HP H A. destruct (mgs_pre_tiles _ _ _ _ _ HP) as [Hp [Hq [TA TB]]].
  destruct HP as [_ [_ [_ [_ [RS [EW CP]]]]]].
  destruct (mgs_main fuel p q (bheight a) (bwidth a) a b r A' Q' R' Hp Hq TA TB RS EW CP H) as [a' [b' [r' [-> [-> [-> INV]]]]]].
  pose proof (mi_Q _ _ _ _ _ _ _ _ _ _ _ INV) as TQ.
  destruct (grid_dims _ _ _ _ _ Hp Hq TQ) as [WQ [Q1 Q2]].
  destruct (mgs_product p q _ _ a b r a' b' r' Hp Hq TA RS EW INV) as [WR [R1 [R2 PR]]].
  unfold A. rewrite !nrows_MH, !ncols_MH in *. auto 10.
Qed.

(** The blocks of R below the diagonal stay what they were. *)
Lemma mgs_upper fuel p q (a b r : grid) A' Q' R' : mgs_pre p q a b r ->
  mgs_qr L Or gfuel fuel (MH p q a) (MH p q b) (MH q q r) = Ok (A', Q', R') ->
  forall i j x y, i < q -> j < i -> x < ncols (a 0 i) -> y < ncols (a 0 j) ->
  ent R' (offs (bwidth a) i + x) (offs (bwidth a) j + y) = 0%r.
Proof.
  intros HP H i j x y Hi Hj Hx Hy. destruct (mgs_pre_tiles _ _ _ _ _ HP) as [Hp [Hq [TA TB]]].
  destruct HP as [_ [_ [_ [_ [RS [EW CP]]]]]].
  destruct (mgs_main fuel p q (bheight a) (bwidth a) a b r A' Q' R' Hp Hq TA TB RS EW CP H) as [a' [b' [r' [-> [-> [-> INV]]]]]].
  destruct INV as [_ _ _ _ IR IR0 _ _ _]. destruct RS as [_ [_ [RS _]]].
  assert (TR : mtiles q q (bwidth a) (bwidth a) r').
  { intros i' j' Hi' Hj'. destruct (le_lt_dec i' j') as [L'|L']; [apply IR; auto|].
    rewrite IR0 by lia. destruct (RS i' j' Hi' Hj') as [W [D1 [D2 _]]]. unfold bwidth. rewrite !EW in * by auto. auto. }
  rewrite (ent_at q q _ _ r' Hq Hq TR) by (auto; lia). rewrite IR0 by lia.
  destruct (RS i j Hi ltac:(lia)) as [W [D1 [D2 Z]]]. apply Z; auto; rewrite ?D1, ?D2, EW by lia; auto.
Qed.

(** R can be cancelled on the right. *)
Definition has_inverse (n : nat) (f : mat) : Prop := exists g : mat, feq n n (mmul n f g) mid.

Lemma inverse_cancels n f (X : mat) m : has_inverse n f -> feq m n (mmul n X f) mzero -> feq m n X mzero.
Proof.
  intros [g E] H i j Hi Hj.
  transitivity (mmul n X mid i j). { symmetry. apply mmul_id_r. auto. }
  transitivity (mmul n X (mmul n f g) i j). { apply mmul_ext; auto. intros x Hx. symmetry. apply E; auto. }
  rewrite <- mmul_assoc. transitivity (mmul n mzero g i j); [|apply mmul_zero_l].
  apply mmul_ext; auto.
Qed.

Definition block_col (a : grid) (j : nat) (f : mat) : mat := mwin 0 (offs (bwidth a) j) f.
Definition diag_block (a : grid) (j : nat) (f : mat) : mat := mwin (offs (bwidth a) j) (offs (bwidth a) j) f.

(** If the block columns of Q come out orthonormal and the diagonal blocks of R
    invertible, then the whole Q is orthonormal. *)
Lemma mgs_orthogonal fuel p q (a b r : grid) A' Q' R' : mgs_pre p q a b r ->
  mgs_qr L Or gfuel fuel (MH p q a) (MH p q b) (MH q q r) = Ok (A', Q', R') ->
  let N := nrows (MH p q a) in
  (forall j, j < q -> orth_cols N (bwidth a j) (block_col a j (ent Q'))) ->
  (forall j, j < q -> has_inverse (bwidth a j) (diag_block a j (ent R'))) ->
  orth_cols N (ncols (MH p q a)) (ent Q').
Proof.
  intros HP H N H1 H2. destruct (mgs_pre_tiles _ _ _ _ _ HP) as [Hp [Hq [TA TB]]].
  destruct HP as [_ [_ [_ [_ [RS [EW CP]]]]]].
  destruct (mgs_main fuel p q (bheight a) (bwidth a) a b r A' Q' R' Hp Hq TA TB RS EW CP H) as [a' [b' [r' [-> [-> [-> INV]]]]]].
  pose proof (mi_Q _ _ _ _ _ _ _ _ _ _ _ INV) as TQ. pose proof (mi_orth _ _ _ _ _ _ _ _ _ _ _ INV) as IO.
  destruct INV as [_ _ _ _ IR IR0 _ _ _]. destruct RS as [_ [_ [RS _]]].
  assert (EN : N = offs (bheight a) p) by reflexivity. clearbody N. subst N.
  assert (TR : mtiles q q (bwidth a) (bwidth a) r').
  { intros i' j' Hi' Hj'. destruct (le_lt_dec i' j') as [L'|L']; [apply IR; auto|].
    rewrite IR0 by lia. destruct (RS i' j' Hi' Hj') as [W [D1 [D2 _]]]. unfold bwidth. rewrite !EW in * by auto. auto. }
  assert (CW : forall j, j < q -> feq (offs (bheight a) p) (bwidth a j) (block_col a j (ent (MH p q b'))) (mcolumn p (bheight a) b' j)).
  { intros j Hj. apply column_window; auto. }
  assert (O1 : forall j, j < q -> orth_cols (offs (bheight a) p) (bwidth a j) (mcolumn p (bheight a) b' j)).
  { intros j Hj x y Hx Hy. rewrite <- (H1 j Hj x y Hx Hy). apply mmul_ext; intros z Hz; [unfold mtr|]; symmetry; apply CW; auto. }
  destruct IO as [P1 _]; auto.
  { intros j Hj X m HX. apply (inverse_cancels _ (diag_block a j (ent (MH q q r')))); [apply H2; auto|].
    eapply feq_trans; [|exact HX]. apply feq_mmul; [apply feq_refl|]. intros x y Hx Hy. unfold diag_block, mwin.
    apply (ent_at q q _ _ r' Hq Hq TR); auto. }
  rewrite ncols_MH. intros x y Hx Hy.
  destruct (locate_in _ q x Hx) as [i [s [_ [Hi [Hs Ex]]]]]. destruct (locate_in _ q y Hy) as [j [t [_ [Hj [Ht Ey]]]]].
  subst x y.
  transitivity (mmul (offs (bheight a) p) (mtr (mcolumn p (bheight a) b' i)) (mcolumn p (bheight a) b' j) s t).
  { unfold mmul. apply sum_ext. intros z Hz. unfold mtr.
    rewrite <- (CW i Hi z s Hz Hs), <- (CW j Hj z t Hz Ht). unfold block_col, mwin. rewrite Nat.add_0_l. reflexivity. }
  destruct (lt_eq_lt_dec i j) as [[Lt|Eq]|Gt].
  - rewrite (P1 i j Lt Hj s t Hs Ht). unfold mid, mzero. destruct (Nat.eqb_spec (offs (bwidth a) i + s) (offs (bwidth a) j + t)); auto.
    exfalso. pose proof (offs_lt (bwidth a) i j Lt). lia.
  - subst j. rewrite (O1 i Hi s t Hs Ht). unfold mid. destruct (Nat.eqb_spec s t), (Nat.eqb_spec (offs (bwidth a) i + s) (offs (bwidth a) i + t)); auto; lia.
  - transitivity (mmul (offs (bheight a) p) (mtr (mcolumn p (bheight a) b' j)) (mcolumn p (bheight a) b' i) t s).
    { unfold mmul, mtr. apply sum_ext. intros z Hz. ring. }
    rewrite (P1 j i Gt Hi t s Ht Hs). unfold mid, mzero. destruct (Nat.eqb_spec (offs (bwidth a) i + s) (offs (bwidth a) j + t)); auto.
    exfalso. pose proof (offs_lt (bwidth a) j i Gt). lia.
Qed.

End Main.
