(** What the reflector kernels compute. *)
From Coq Require Import List Arith ZArith QArith Lia Bool Ring_theory Ring Setoid Morphisms.
From Verif Require Import Prelude Ring MatFun MatSetoid Matrix MatOps MatSpec MatOpsProofs Lapack Gemm GemmSpec GemmProofs
  GemmCorrect GemmTheorems Triangular TriAlgebra TriSpec TriProofs TriTheorems Reflect ReflectSpec.
Import ListNotations.
Local Open Scope nat_scope.

Section Proofs.
Context {R : cring}.
Add Ring Rr : (cr_th R).
Notation dense := (dense R).
Notation lowrank := (lowrank R).
Notation matrix := (matrix R).
Notation mat := (mat R).
Variable Or : oracles R.

Lemma oracles_near_shape N (O : oracles R) : oracles_near N O -> oracles_shape O.
Proof.
  intros [H1 H2 H3]. constructor.
  - intros a b c Wa Wb E1 E2 H. destruct (H1 a b c Wa Wb E1 E2 H) as [X1 [X2 [X3 _]]]. auto.
  - intros d r c H. destruct (H2 d r c H) as [X1 [X2 [X3 _]]]. auto.
  - intros d e c H. destruct (H3 d e c H) as [X1 [X2 [X3 _]]]. auto.
Qed.

(** ** Products with reflectors *)

Lemma tile_apply m n c (V T x : mat) (tr : bool) :
  feq m c (msub x (mmul n (tri Lower true V) (mmul n (mop tr (tri Upper false T)) (mmul m (mtr (tri Lower true V)) x))))
      (mmul m (mop tr (tile_refl n V T)) x).
Proof.
  unfold tile_refl. rewrite refl_op. apply feq_sym. apply refl_apply.
Qed.

Lemma pair_apply n m c (V T a b w : mat) :
  feq n c w (mmul n T (madd a (mmul m (mtr V) b))) ->
  feq (n + m) c (vst n (msub a w) (msub b (mmul n V w)))
      (mmul (n + m) (refl n (vst n mid V) T) (vst n a b)).
Proof.
  intros H. eapply feq_trans; [|apply feq_sym; apply refl_apply].
  rewrite vst_sub. apply feq_sub; [apply feq_refl|].
  assert (E : feq n c w (mmul n T (mmul (n + m) (mtr (vst n mid V)) (vst n a b)))).
  { eapply feq_trans; [exact H|]. apply feq_mmul; [apply feq_refl|]. rewrite vst_dot.
    apply feq_add; [|apply feq_refl]. intros i j Hi Hj.
    transitivity (mmul n mid a i j); [symmetry; apply mmul_id_l; auto|].
    apply mmul_ext; auto. intros x _. symmetry. apply mtr_mid. }
  rewrite vst_mul. apply feq_vst.
  - intros i j Hi Hj. rewrite mmul_id_l by auto. apply E; auto.
  - apply feq_mmul; [apply feq_refl|exact E].
Qed.

(** ** larfb *)

Lemma dlarfb_ok (v t c x : dense) tr : dlarfb v t c tr = Ok x ->
  d_c t <= d_r c /\ d_r x = d_r c /\ d_c x = d_c c /\
  feq (d_r c) (d_c c) (d_e x) (mmul (d_r c) (mop tr (tile_refl (d_c t) (d_e v) (d_e t))) (d_e c)).
Proof.
  unfold dlarfb. destruct (_ && _) eqn:B; [|discriminate]. intros H. inversion H; subst x; clear H.
  apply andb_true_iff in B. destruct B as [_ B]. apply Nat.leb_le in B.
  split; auto. split; auto. split; auto. simpl. apply tile_apply.
Qed.

Lemma orth_cols_op N k (Q U : mat) (tr : bool) : orthogonal N Q -> orth_cols N k U ->
  orth_cols N k (mmul N (mop tr Q) U).
Proof.
  intros [H1 H2] HU. apply orth_cols_mul; auto. destruct tr; simpl; [|exact H2].
  unfold orth_cols. intros i j Hi Hj. rewrite <- H1 by auto. apply mmul_ext; reflexivity.
Qed.

Lemma orth_cols_feq N k (U U' : mat) : feq N k U U' -> orth_cols N k U -> orth_cols N k U'.
Proof.
  intros F H. unfold orth_cols in *. eapply feq_trans; [|exact H].
  apply feq_mmul; [apply feq_tr|]; apply feq_sym; auto.
Qed.

Lemma larfb_ok (V T C : matrix) tr (C' : matrix) : larfb V T C tr = Ok C' -> wf C ->
  exists v t, V = MD v /\ T = MD t /\ d_c t <= nrows C /\ wf C' /\ same_layout C C' /\
    feq (nrows C) (ncols C) (ent C') (mmul (nrows C) (mop tr (tile_refl (d_c t) (d_e v) (d_e t))) (ent C)) /\
    (orthogonal (nrows C) (tile_refl (d_c t) (d_e v) (d_e t)) -> orthU C -> orthU C').
Proof.
  unfold larfb. intros H WC. destruct V as [v|?|? ? ?|? ?]; try discriminate.
  destruct T as [t|?|? ? ?|? ?]; try discriminate. exists v, t. split; auto. split; auto.
  destruct C as [c|l|? ? ?|? ?]; try discriminate.
  - apply bind_Ok in H. destruct H as [x [Hx H]]. inversion H; subst C'; clear H.
    destruct (dlarfb_ok _ _ _ _ _ Hx) as [L [D1 [D2 F]]]. simpl nrows. simpl ncols. simpl. repeat split; auto.
  - apply bind_Ok in H. destruct H as [x [Hx H]]. inversion H; subst C'; clear H.
    destruct (dlarfb_ok _ _ _ _ _ Hx) as [L [D1 [D2 F]]]. destruct WC as [W1 [W2 [W3 W4]]].
    rewrite W1 in L, D1, F. change (nrows (ML l)) with (l_r l). change (ncols (ML l)) with (l_c l).
    split; auto. split.
    { apply (set_factor_wf SLeft); [split; auto| |]; simpl; congruence. }
    split; [simpl; auto|]. split.
    + simpl ent. unfold lr_ent. cbn [set_factor l_U l_S l_V].
      eapply feq_trans; [|apply meq_feq; apply meq_assoc]. rewrite D2.
      apply feq_mmul; [exact F|apply feq_refl].
    + intros HQ [HS HU]. split; [exact HS|]. cbn [set_factor l_U l_r] in HU |- *. rewrite D2. eapply orth_cols_feq; [apply feq_sym; exact F|].
      apply orth_cols_op; auto.
Qed.

(** ** tpmqrt *)

Lemma dtprfb_ok (v t a b x y : dense) tr : dtprfb v t a b tr = Ok (x, y) ->
  d_r v = d_r b -> d_c a = d_c b ->
  let n := d_c t in
  let m := d_r b in
  n <= d_r a /\ d_r x = d_r a /\ d_c x = d_c a /\ d_r y = m /\ d_c y = d_c b /\
  feq (n + m) (d_c b) (vst n (d_e x) (d_e y))
      (mmul (n + m) (mop tr (pair_refl n (d_e v) (d_e t))) (vst n (d_e a) (d_e b))) /\
  (forall i j, n <= i -> i < d_r a -> j < d_c a -> d_e x i j = d_e a i j).
Proof.
  unfold dtprfb. destruct (_ && _) eqn:B; [|discriminate]. intros H E1 E2. inversion H; subst x y; clear H.
  repeat (apply andb_true_iff in B; destruct B as [B ?]). repeat match goal with H : (_ <=? _) = true |- _ => apply Nat.leb_le in H end.
  cbv zeta. cbn [d_r d_c d_e]. repeat (split; auto).
  - unfold pair_refl. rewrite refl_op. eapply feq_trans; [|apply pair_apply; apply feq_refl].
    apply feq_vst.
    + intros i j Hi Hj. destruct (Nat.ltb_spec i (d_c t)); [|lia]. destruct (Nat.ltb_spec j (d_c b)); [|lia]. reflexivity.
    + intros i j Hi Hj. reflexivity.
  - intros i j Hi Hi' Hj. destruct (Nat.ltb_spec i (d_c t)); [lia|]. reflexivity.
Qed.

(** A matrix of the form D or LR. *)
Definition flat (A : matrix) : Prop := match A with MD _ | ML _ => True | _ => False end.

Lemma flat_layout (A B : matrix) : same_layout A B -> flat A -> flat B.
Proof. destruct A, B; simpl; intuition. Qed.

Lemma layout_dims_flat (A B : matrix) : flat A -> same_layout A B -> nrows B = nrows A /\ ncols B = ncols A.
Proof. destruct A, B; simpl; intuition. Qed.

(** A gemm into a LowRank with flat factors ends with an addition to the scaled C. *)
Lemma gemm_orthU (A B C : matrix) alpha beta tA tB (C' : matrix) : keeps_orthU Or -> oracles_near exact Or ->
  flat A -> flat B -> flat C -> wf A -> wf B -> wf C ->
  gemm Or 1 A B C alpha beta tA tB = Ok C' -> orthU C -> orthU C'.
Proof.
  intros HK HO FA FB FC WA WB WC H HU.
  destruct C as [c|c|? ? ?|? ?]; try destruct FC.
  - destruct (gemm_exact Or HO 1 A B (MD c) alpha beta tA tB C') as [_ [L _]]; auto.
    { destruct A, B; simpl in *; tauto. }
    destruct C'; simpl in L; try contradiction. simpl. auto.
  - assert (K : forall x, lr_wf x -> acc_lr Or c beta x = Ok C' -> orthU C').
    { intros x Wx Hx. unfold acc_lr in Hx. apply bind_Ok in Hx. destruct Hx as [d [Hd Hx]]. inversion Hx; subst C'.
      unfold lr_acc in Hd. apply assert_Ok in Hd. destruct Hd as [B1 Hd]. apply assert_Ok in Hd. destruct Hd as [B2 Hd].
      apply Nat.eqb_eq in B1. apply Nat.eqb_eq in B2.
      apply (HK (lr_scale c beta) x d); auto. }
    unfold gemm in H. cbn [gemm_pair fst] in H. unfold gemm_step in H.
    apply assert_Ok in H. destruct H as [E1 H]. apply assert_Ok in H. destruct H as [E2 H].
    apply assert_Ok in H. destruct H as [E3 H].
    apply Nat.eqb_eq in E1. apply Nat.eqb_eq in E2. apply Nat.eqb_eq in E3.
    destruct A as [a|a|? ? ?|? ?]; try destruct FA; destruct B as [b|b|? ? ?|? ?]; try destruct FB.
    + apply bind_Ok in H. destruct H as [ab [Hab H]]. apply bind_Ok in H. destruct H as [x [Hx H]].
      apply (K x); auto. unfold compress_like in Hx. destruct (use_eps c).
      * eapply (on_eps _ _ HO); eauto.
      * eapply (on_rank _ _ HO); eauto.
    + apply bind_Ok in H. destruct H as [u [Hu H]]. apply dd_mul_inv in Hu.
      destruct Hu as [U1 [U2 [U3 U4]]]. apply (K _ ) in H; auto.
      destruct WB as [W1 [W2 [W3 W4]]]. unfold lr_wf, lr_make, lr_mid, lr_right. cbn [l_U l_S l_V l_r l_c].
      destruct tB; simpl; simpl in U1, U2, U3, U4; split; auto; split; try congruence; split; congruence.
    + apply bind_Ok in H. destruct H as [u [Hu H]]. apply dd_mul_inv in Hu.
      destruct Hu as [U1 [U2 [U3 U4]]]. apply (K _ ) in H; auto.
      destruct WA as [W1 [W2 [W3 W4]]]. unfold lr_wf, lr_make, lr_mid, lr_left. cbn [l_U l_S l_V l_r l_c].
      destruct tA; simpl; simpl in U1, U2, U3, U4; split; auto; split; try congruence; split; congruence.
    + apply bind_Ok in H. destruct H as [s [Hs H]]. apply (K _ ) in H; auto.
      destruct WA as [W1 [W2 [W3 W4]]]. destruct WB as [X1 [X2 [X3 X4]]].
      unfold lr_lr_mid in Hs. apply bind_Ok in Hs. destruct Hs as [x [Hx Hs]].
      apply bind_Ok in Hs. destruct Hs as [y [Hy Hs]].
      apply dd_mul_inv in Hx. apply dd_mul_inv in Hy. apply dd_mul_inv in Hs.
      destruct Hx as [P1 [P2 [P3 P4]]]. destruct Hy as [Q1 [Q2 [Q3 Q4]]]. destruct Hs as [S1 [S2 [S3 S4]]].
      unfold lr_wf, lr_make, lr_left, lr_right. cbn [l_U l_S l_V l_r l_c].
      destruct tA, tB; simpl; simpl in *; split; auto; split; try congruence; split; congruence.
Qed.

Lemma eye_wf n : wf (MD (@eye R n)).
Proof. exact I. Qed.

Lemma feq_meq r c (a b : mat) : meq a b -> feq r c a b.
Proof. intros H i j _ _. apply H. Qed.

Lemma tpm_finish_ok (V A B C : matrix) (t : dense) tr (A' B' : matrix) : oracles_near exact Or ->
  wf V -> wf A -> wf B -> wf C -> flat V -> flat A -> flat B -> flat C ->
  let n := ncols V in
  let m := nrows B in
  let c := ncols B in
  nrows V = m -> d_r t = n -> d_c t = n -> nrows A = n -> ncols A = c -> nrows C = n -> ncols C = c ->
  feq n c (ent C) (madd (ent A) (mmul m (mtr (ent V)) (ent B))) ->
  tpm_finish Or V (MD t) A B C tr = Ok (A', B') ->
  wf A' /\ wf B' /\ same_layout A A' /\ same_layout B B' /\
  feq (n + m) c (vst n (ent A') (ent B'))
      (mmul (n + m) (mop tr (pair_refl n (ent V) (d_e t))) (vst n (ent A) (ent B))) /\
  (keeps_orthU Or -> (orthU A -> orthU A') /\ (orthU B -> orthU B')).
Proof.
  intros HO WV WA WB WC FV FA FB FC n m c DV T1 T2 A1 A2 C1 C2 HC H.
  unfold tpm_finish in H. apply bind_Ok in H. destruct H as [X [HX H]].
  apply bind_Ok in H. destruct H as [A1' [HA H]]. apply bind_Ok in H. destruct H as [B1' [HB H]].
  inversion H; subst A1' B1'; clear H.
  apply (trmm_exact Or 1 HO) in HX; auto; [|apply andb_false_r|exact I|simpl; congruence|simpl; congruence].
  destruct HX as [WX [LX EX]].
  destruct (layout_dims_flat _ _ FC LX) as [X1 X2]. assert (FX := flat_layout _ _ LX FC).
  pose proof HA as HA'. pose proof HB as HB'.
  apply (gemm_exact Or HO) in HA; auto; [|apply eye_wf|apply trans_ok_notrans].
  apply (gemm_exact Or HO) in HB; auto; [|apply trans_ok_notrans].
  destruct HA as [WA' [LA EA]]. destruct HB as [WB' [LB EB]].
  split; auto. split; auto. split; auto. split; auto. split.
  - unfold pair_refl. rewrite refl_op.
    set (T := mop tr (tri Upper false (d_e t))).
    assert (EX' : feq n c (ent X) (mmul n T (madd (ent A) (mmul m (mtr (ent V)) (ent B))))).
    { rewrite C1, C2 in EX. eapply feq_trans; [exact EX|]. simpl nrows. rewrite T1. simpl ent.
      eapply feq_trans; [apply feq_meq; apply meq_scale_1|]. unfold tri_prod. fold T.
      apply feq_mmul; [apply feq_refl|exact HC]. }
    eapply feq_trans; [|apply pair_apply; exact EX']. apply feq_vst.
    + rewrite A1, A2 in EA. eapply feq_trans; [exact EA|]. unfold gemm_value. simpl opc. rewrite X1, C1. fold n.
      intros i j Hi Hj. unfold madd, mscale, msub. cbn [mop ent]. 
      replace (mmul n (d_e (eye n)) (ent X) i j) with (ent X i j)
        by (symmetry; apply (mmul_id_l n); auto).
      ring.
    + eapply feq_trans; [exact EB|]. unfold gemm_value. simpl opc. fold n.
      intros i j Hi Hj. unfold madd, mscale, msub. cbn [mop]. ring.
  - intros HK. split; intros HU.
    + eapply gemm_orthU; [exact HK|exact HO| | |exact FA| | |exact WA|exact HA'|exact HU]; auto; exact I.
    + eapply gemm_orthU; [exact HK|exact HO| | |exact FB| | |exact WB|exact HB'|exact HU]; auto.
Qed.

Lemma tpmqrt_ok (V A B : matrix) (T : matrix) tr (A' B' : matrix) : oracles_near exact Or ->
  wf V -> wf A -> wf B ->
  let n := ncols V in
  let m := nrows B in
  let c := ncols B in
  nrows V = m -> nrows T = n -> ncols T = n -> ncols A = c ->
  tpmqrt Or V T A B tr = Ok (A', B') ->
  (exists t, T = MD t) /\ flat V /\ flat A /\ flat B /\ n <= nrows A /\
  wf A' /\ wf B' /\ same_layout A A' /\ same_layout B B' /\
  feq (n + m) c (vst n (ent A') (ent B'))
      (mmul (n + m) (mop tr (pair_refl n (ent V) (ent T))) (vst n (ent A) (ent B))) /\
  (forall i j, n <= i -> i < nrows A -> j < ncols A -> ent A' i j = ent A i j) /\
  (keeps_orthU Or -> (orthU A -> orthU A') /\ (orthU B -> orthU B')).
Proof.
  intros HO WV WA WB n m c DV T1 T2 A2 H. unfold tpmqrt in H.
  assert (Via : forall t, T = MD t -> flat V -> flat A -> flat B -> no_empty V ->
    (let* Vt := transpose V in
     let* C := gemm Or 1 Vt B A 1%r 1%r false false in
     tpm_finish Or V T A B C tr) = Ok (A', B') ->
    n <= nrows A /\
    wf A' /\ wf B' /\ same_layout A A' /\ same_layout B B' /\
    feq (n + m) c (vst n (ent A') (ent B'))
        (mmul (n + m) (mop tr (pair_refl n (ent V) (ent T))) (vst n (ent A) (ent B))) /\
    (forall i j, n <= i -> i < nrows A -> j < ncols A -> ent A' i j = ent A i j) /\
    (keeps_orthU Or -> (orthU A -> orthU A') /\ (orthU B -> orthU B'))).
  { clear H. intros t ET FV FA FB NV H. apply bind_Ok in H. destruct H as [Vt [HT H]].
    apply bind_Ok in H. destruct H as [C [HC H]].
    destruct (transpose_spec V WV NV) as [Vt' [E [WT [NT [R1 [R2 RE]]]]]]. rewrite E in HT.
    inversion HT; subst Vt'; clear HT E.
    pose proof HC as HD. apply (gemm_dims Or (oracles_near_shape exact Or HO)) in HD; auto; [|apply trans_ok_notrans].
    apply (gemm_exact Or HO) in HC; auto; [|apply trans_ok_notrans].
    destruct HC as [WC [LC EC]]. destruct HD as [D1 [D2 [D3 _]]]. unfold opr, opc in D1, D2, D3.
    rewrite R1 in D1. destruct (layout_dims_flat _ _ FA LC) as [Y1 Y2]. assert (FC := flat_layout _ _ LC FA).
    subst T. fold n in D1. 
    apply tpm_finish_ok in H; auto; try congruence; try (rewrite Y1; symmetry; exact D1).
    - destruct H as [Z1 [Z2 [Z3 [Z4 [Z5 Z6]]]]]. split; [lia|]. do 4 (split; auto). split; auto. split; auto.
      intros i j Hi Hi'. lia.
    - eapply feq_trans; [rewrite <- D1, A2 in EC; exact EC|]. fold n c m. unfold gemm_value. simpl mop. unfold opc.
      rewrite R2, DV. fold m.
      assert (E : feq n c (mmul m (ent Vt) (ent B)) (mmul m (mtr (ent V)) (ent B))).
      { apply feq_mmul; [|apply feq_refl]. rewrite <- DV. exact RE. }
      intros i j Hi Hj. unfold madd, mscale. rewrite (E i j Hi Hj). ring. }
  destruct T as [t|?|? ? ?|? ?]; try (destruct V as [?|?|? ? ?|? ?]; discriminate).
  split; [exists t; reflexivity|].
  destruct V as [v|v|? ? ?|? ?]; try discriminate; destruct A as [a|a|? ? ?|? ?]; try discriminate;
    destruct B as [b|b|? ? ?|? ?]; try discriminate;
    (split; [exact I|]; split; [exact I|]; split; [exact I|]);
    try (apply (Via t); auto; exact I).
  - apply bind_Ok in H. destruct H as [[x y] [Hx H]]. inversion H; subst A' B'; clear H.
    apply dtprfb_ok in Hx; auto. simpl in T2. change (d_c v) with n in T2. cbv zeta in Hx. rewrite T2 in Hx.
    destruct Hx as [H1 [H2 [H3 [H4 [H5 [H6 H7]]]]]].
    split; [exact H1|]. split; [exact I|]. split; [exact I|]. split; [simpl; auto|]. split; [simpl; auto|].
    split; [exact H6|]. split; [exact H7|]. simpl. auto.
  - apply bind_Ok in H. destruct H as [dc [HD H]]. apply bind_Ok in H. destruct H as [C [HC H]].
    destruct (densify_spec (ML a) WA) as [dc' [E [E1 [E2 E3]]]]. rewrite E in HD. inversion HD; subst dc'; clear HD E.
    assert (TO : trans_ok true false (MD v) (MD b) (MD dc)) by (simpl; auto).
    pose proof HC as HD. apply (gemm_dims Or (oracles_near_shape exact Or HO)) in HD; auto.
    apply (gemm_exact Or HO) in HC; auto.
    destruct HC as [WC [LC EC]]. destruct HD as [D1 [D2 [D3 _]]]. unfold opr, opc in D1, D2, D3.
    change (nrows (MD dc)) with (d_r dc) in *. change (ncols (MD dc)) with (d_c dc) in *.
    rewrite E1 in *. rewrite E2 in *. 
    destruct (layout_dims_flat (MD dc) C I LC) as [Y1 Y2]. assert (FC := flat_layout (MD dc) C LC I).
    simpl in Y1, Y2. fold n in D1.
    apply tpm_finish_ok in H; auto; try exact I; try congruence; try (rewrite Y1, E1; symmetry; exact D1).
    + destruct H as [Z1 [Z2 [Z3 [Z4 [Z5 Z6]]]]]. split; [rewrite <- D1; auto|]. do 4 (split; auto). split; auto. split; auto.
      intros i j Hi Hi'. rewrite <- D1 in Hi'. lia.
    + eapply feq_trans; [rewrite <- D1, A2 in EC; exact EC|]. fold n c m. unfold gemm_value. cbn [mop]. unfold opc.
      rewrite DV. fold m.
      rewrite <- D1, A2 in E3. intros i j Hi Hj. unfold madd, mscale. cbn [ent]. rewrite (E3 i j Hi Hj). cbn [ent]. ring.
Qed.
End Proofs.
