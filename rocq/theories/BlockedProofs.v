(** One block column of blocked Householder QR: the reflector it produces and its
    application. *)
From Coq Require Import List Arith ZArith QArith Lia Bool Ring_theory Ring Setoid Morphisms.
From Verif Require Import Prelude Ring MatFun MatSetoid Matrix MatOps MatSpec MatOpsProofs Lapack Gemm GemmSpec GemmProofs
  GemmTheorems Triangular TriAlgebra TriSpec TriProofs TriTheorems Reflect ReflectSpec ReflectProofs ReflectTile QrBig
  Mgs MgsProofs Blocked.
Import ListNotations.
Local Open Scope nat_scope.

Section Algebra.
Context {R : cring}.
Add Ring Rr : (cr_th R).
Notation mat := (mat R).

(** A unit lower trapezoid has independent columns. *)
Lemma unit_lower_inj n c (Y X : mat) : feq n c (mmul n (tri Lower true Y) X) mzero -> feq n c X mzero.
Proof.
  intros H. assert (S : forall m i, i < m -> i < n -> forall j, j < c -> X i j = 0%r).
  { induction m as [|m IH]; intros i Hi Hn j Hj; [lia|]. specialize (H i j Hn Hj). unfold mmul, mzero in H.
    rewrite (sum_single n i) in H; auto.
    - unfold tri in H. rewrite Nat.eqb_refl in H. rewrite <- H. ring.
    - intros x Hx Hne. unfold tri. destruct (Nat.eqb_spec i x); [congruence|]. destruct (Nat.ltb_spec x i); [|ring].
      rewrite (IH x) by lia. ring. }
  intros i j Hi Hj. apply (S (Datatypes.S i)); auto.
Qed.

Lemma orth_balanced_lower N n (V T : mat) : n <= N ->
  orthogonal N (refl n (tri Lower true V) T) -> balanced n (mmul N (mtr (tri Lower true V)) (tri Lower true V)) T.
Proof.
  set (Y := tri Lower true V). intros L [H1 H2].
  assert (top : forall X : mat, feq N N (msub mid (mmul n Y (mmul n X (mtr Y)))) mid -> feq n n X mzero).
  { intros X H.
    assert (Z : feq n n (mmul n Y (mmul n X (mtr Y))) mzero).
    { intros i j Hi Hj. specialize (H i j ltac:(lia) ltac:(lia)). unfold msub, mzero in *.
      match goal with |- ?a = _ => replace a with (mid i j - (mid i j - a))%r by ring end. rewrite H. ring. }
    apply unit_lower_inj in Z. assert (Z' := feq_tr _ _ _ _ Z). rewrite meq_tr in Z'. rewrite meq_tr_tr in Z'.
    apply (unit_lower_inj n n V (mtr X)) in Z'. intros i j Hi Hj. exact (Z' j i Hj Hi). }
  assert (E : meq (mtr (refl n Y T)) (refl n Y (mtr T))) by apply refl_tr. rewrite E in H1, H2.
  split.
  - assert (H := feq_trans _ _ _ _ _ (feq_sym _ _ _ _ (refl_mul N n Y T (mtr T))) H1).
    apply top in H. intros i j Hi Hj. specialize (H i j Hi Hj). unfold msub, mzero in H.
    match goal with |- ?a = ?b => replace a with ((a - b) + b)%r by ring end. rewrite H. ring.
  - assert (H := feq_trans _ _ _ _ _ (feq_sym _ _ _ _ (refl_mul N n Y (mtr T) T)) H2).
    apply top in H. intros i j Hi Hj. specialize (H i j Hi Hj). unfold msub, mzero in H.
    unfold madd in *. unfold mtr in H at 1. unfold mtr at 1.
    match goal with |- ?a = ?b => replace a with ((T j i + T i j - b) + b)%r by ring end. rewrite H. ring.
Qed.
End Algebra.

Section Column.
Context {R : cring}.
Add Ring Rr : (cr_th R).
Notation dense := (dense R).
Notation lowrank := (lowrank R).
Notation matrix := (matrix R).
Notation mat := (mat R).
Variable Or : oracles R.
Hypothesis HO : oracles_near exact Or.
Variable K : qrt R.
Hypothesis HK : qrt_ok K.
Variable p : nat.
Variable h : nat -> nat.
Let N := offs h p.

(** The vectors of block column k: nothing above the diagonal block. *)
Definition bigB (k : nat) (y : nat -> matrix) : nat -> mat :=
  fun b => if b <? k then mzero else if b =? k then tri Lower true (ent (y k)) else ent (y b).
Definition GB (k n : nat) (y : nat -> matrix) (t : matrix) : mat :=
  refl n (stack p h (bigB k y)) (tri Upper false (ent t)).

(** Blocks of a column of width c, from block row k on. *)
Definition cblocks (o : Prop) (k c : nat) (a : nat -> matrix) : Prop := forall i, k <= i -> i < p ->
  wf (a i) /\ flat (a i) /\ nrows (a i) = h i /\ ncols (a i) = c /\ (o -> orthU (a i)).

(** Reflectors of order n that fit. *)
Definition bvectors (k n : nat) (y : nat -> matrix) (t : matrix) : Prop :=
  k < p /\ h k = n /\ (exists v, y k = MD v) /\ (exists d, t = MD d) /\
  nrows t = n /\ ncols t = n /\ cblocks False k n y.

Lemma GB_zero k n c y t (tr : bool) (X : nat -> mat) : (forall i, k <= i -> i < p -> feq (h i) c (X i) mzero) ->
  feq N c (mmul N (mop tr (GB k n y t)) (stack p h X)) (stack p h X).
Proof.
  intros HX. unfold GB. rewrite refl_op.
  eapply feq_trans; [apply (refl_stack p h n c _ _ X mzero)|].
  - apply feq_sym. eapply feq_trans; [apply feq_mmul; [apply feq_refl|]|rewrite meq_zero_r; apply feq_refl].
    intros i j Hi Hj. unfold tsum. apply sum_zero'. intros b Hb. unfold bigB. destruct (Nat.ltb_spec b k).
    + unfold mmul. apply sum_zero'. intros x _. unfold mtr, mzero. ring.
    + unfold mmul. apply sum_zero'. intros x Hx. rewrite (HX b) by auto. unfold mzero. ring.
  - apply feq_stack. intros b Hb. rewrite meq_zero_r. intros i j _ _. unfold msub, mzero. ring.
Qed.

Lemma sum_from k (f : nat -> R) : k < p -> (forall b, b < k -> f b = 0%r) ->
  sum p f = (f k + sum (p - S k) (fun i => f (S k + i)%nat))%r.
Proof.
  intros Hk H. replace p with (k + S (p - S k)) at 1 by lia. rewrite sum_split, sum_first.
  rewrite sum_zero' by auto. rewrite Nat.add_0_r.
  replace (sum (p - S k) (fun i => f (k + S i)%nat)) with (sum (p - S k) (fun i => f (S k + i)%nat)); [ring|].
  apply sum_ext. intros i _. f_equal. lia.
Qed.

Lemma apply_col_ok (o : Prop) k n c tr y t (a a' : nat -> matrix) : (o -> keeps_orthU Or) ->
  bvectors k n y t -> cblocks o k c a -> apply_col Or p k tr y t a = Ok a' ->
  cblocks o k c a' /\ (forall i, i < k \/ p <= i -> a' i = a i) /\ (forall i, k <= i -> i < p -> same_layout (a i) (a' i)) /\
  feq N c (stack p h (fun i => ent (a' i))) (mmul N (mop tr (GB k n y t)) (stack p h (fun i => ent (a i)))).
Proof.
  intros HU [Hk [Hn [[v EV] [[td ET] [T1 [T2 HY]]]]]] HA H. unfold apply_col in H.
  rewrite (proj2 (Nat.ltb_lt k p) Hk) in H.
  apply bind_Ok in H. destruct H as [yt [HT H]].
  apply bind_Ok in H. destruct H as [c1 [H1 H]].
  apply bind_Ok in H. destruct H as [c2 [H2 H]].
  apply bind_Ok in H. destruct H as [c3 [H3 H]].
  destruct (HA k (Nat.le_refl k) Hk) as [WK [FK [K1 [K2 _]]]].
  destruct (HY k (Nat.le_refl k) Hk) as [WYK [_ [YK1 [YK2 _]]]].
  assert (TSK : tri_shape (y k)). { rewrite EV in *. simpl in *. congruence. }
  (* C = Ykk^T Akj *)
  apply (trmm_exact Or 1 HO) in H1; auto; [|simpl; congruence].
  destruct H1 as [W1 [L1 E1]]. destruct (layout_dims_flat _ _ FK L1) as [D1 D2]. assert (F1 := flat_layout _ _ L1 FK).
  set (P := fun m : nat => madd (mmul n (mtr (tri Lower true (ent (y k)))) (ent (a k)))
    (fun i j => sum m (fun b => mmul (h (S k + b)) (mtr (ent (y (S k + b)))) (ent (a (S k + b))) i j))).
  apply (for_loop_inv_out _ _ _ _ (fun m d => wf d /\ flat d /\ nrows d = n /\ ncols d = c /\ feq n c (ent d) (P m))) in H2.
  2:{ split; auto. split; auto. split; [congruence|]. split; [congruence|].
      rewrite K1, K2, Hn in E1. eapply feq_trans; [exact E1|]. rewrite meq_scale_1. unfold tri_prod. rewrite YK1, Hn. cbn [mop].
      intros i j Hi Hj. unfold P, madd. simpl. ring. }
  2:{ clear H2. intros m d d' Hm [I1 [I2 [I3 [I4 I5]]]] Hg.
      assert (Hb : S k + m < p) by lia.
      destruct (HA (S k + m) ltac:(lia) Hb) as [WB [FB [B1 [B2 _]]]].
      destruct (HY (S k + m) ltac:(lia) Hb) as [WY [FY [Y1 [Y2 _]]]].
      assert (ETr := collectv_spec _ _ _ _ HT (S m) ltac:(lia)). cbv beta in ETr.
      replace (k + S m) with (S k + m) in ETr by lia.
      destruct (transpose_spec (y (S k + m)) WY) as [yt' [E [WT [NT [R1 [R2 RE]]]]]].
      { destruct (y (S k + m)); simpl in *; tauto. }
      rewrite E in ETr. inversion ETr as [E']. rewrite <- E' in Hg. clear ETr E'.
      apply (gemm_exact Or HO) in Hg; auto; [|apply trans_ok_notrans].
      destruct Hg as [G1 [G2 G3]]. destruct (layout_dims_flat _ _ I2 G2) as [G4 G5]. assert (G6 := flat_layout _ _ G2 I2).
      split; auto. split; auto. split; [congruence|]. split; [congruence|].
      rewrite I3, I4 in G3. eapply feq_trans; [exact G3|]. unfold gemm_value. unfold opc. cbn [mop]. rewrite R2, Y1.
      intros i j Hi Hj. unfold P, madd, mscale. rewrite sum_S. rewrite (I5 i j Hi Hj). unfold P, madd.
      replace (mmul (h (S k + m)) (ent yt') (ent (a (S k + m))) i j)
        with (mmul (h (S k + m)) (mtr (ent (y (S k + m)))) (ent (a (S k + m))) i j); [ring|].
      apply mmul_ext; auto. intros x Hx. symmetry. apply RE; [rewrite Y2; auto|rewrite Y1; auto]. }
  destruct H2 as [W2 [F2 [D3 [D4 E2]]]].
  (* C = op(T) C *)
  rewrite ET in H3, T1, T2. cbn [nrows ncols] in T1, T2.
  apply (trmm_exact Or 1 HO) in H3; auto; [|apply andb_false_r|exact I|simpl; congruence|simpl; congruence].
  destruct H3 as [W3 [L3 E3]]. destruct (layout_dims_flat _ _ F2 L3) as [D5 D6]. assert (F3 := flat_layout _ _ L3 F2).
  rewrite D3, D4 in *.
  set (T' := mop tr (tri Upper false (d_e td))).
  assert (EW : feq n c (ent c3) (mmul n T' (tsum p (fun b => mmul (h b) (mtr (bigB k y b)) (ent (a b)))))).
  { eapply feq_trans; [exact E3|]. rewrite meq_scale_1. unfold tri_prod. cbn [nrows ent]. rewrite T1. fold T'.
    apply feq_mmul; [apply feq_refl|]. eapply feq_trans; [exact E2|]. intros i j Hi Hj. unfold tsum.
    rewrite (sum_from k); auto.
    - unfold P, madd. f_equal.
      + unfold bigB. rewrite Nat.ltb_irrefl, Nat.eqb_refl, Hn. reflexivity.
      + apply sum_ext. intros b Hb. unfold bigB. destruct (Nat.ltb_spec (S k + b) k); [lia|].
        destruct (Nat.eqb_spec (S k + b) k); [lia|]. reflexivity.
    - intros b Hb. unfold bigB. destruct (Nat.ltb_spec b k); [|lia].
      unfold mmul. apply sum_zero'. intros x _. unfold mtr, mzero. ring. }
  (* A -= Y C *)
  apply (for_loop_inv_out _ _ _ _ (fun m b =>
    cblocks o k c b /\ (forall i, i < k \/ k + m <= i -> b i = a i) /\ (forall i, k <= i -> i < p -> same_layout (a i) (b i)) /\
    (forall i, k <= i -> i < k + m -> i < p -> feq (h i) c (ent (b i)) (msub (ent (a i)) (mmul n (bigB k y i) (ent c3)))))) in H.
  - destruct H as [I1 [I2 [I3 I4]]]. split; auto. split; [intros i Hi; apply I2; lia|]. split; auto.
    unfold GB. rewrite refl_op. apply feq_sym. rewrite ET. cbn [ent]. fold T'.
    eapply feq_trans; [apply (refl_stack p h n c _ T' _ (ent c3)); exact EW|].
    apply feq_stack. intros b Hb. apply feq_sym. destruct (Nat.lt_ge_cases b k) as [Lb|Lb].
    + rewrite I2 by auto. unfold bigB. destruct (Nat.ltb_spec b k); [|lia]. rewrite meq_zero_l.
      intros i j _ _. unfold msub, mzero. ring.
    + apply I4; auto. lia.
  - split; [exact HA|]. split; auto. split; [|intros i L1' L2'; lia].
    intros i Hi Hp. destruct (HA i Hi Hp) as [_ [F _]]. destruct (a i); simpl in *; tauto.
  - clear H. intros m b b' Hm [I1 [I2 [I3 I4]]] Hb.
    assert (UP : forall i x, k <= i -> i < p -> i = k + m -> wf x -> same_layout (b i) x -> (o -> orthU x) ->
      feq (h i) c (ent x) (msub (ent (a i)) (mmul n (bigB k y i) (ent c3))) ->
      b' = vupd b i x ->
      cblocks o k c b' /\ (forall i, i < k \/ k + S m <= i -> b' i = a i) /\ (forall i, k <= i -> i < p -> same_layout (a i) (b' i)) /\
      (forall i, k <= i -> i < k + S m -> i < p -> feq (h i) c (ent (b' i)) (msub (ent (a i)) (mmul n (bigB k y i) (ent c3))))).
    { intros i x Hi Hp Em Wx Lx Ox Ex ->. destruct (I1 i Hi Hp) as [J1 [J2 [J3 [J4 _]]]].
      destruct (layout_dims_flat _ _ J2 Lx) as [X1 X2]. assert (Fx := flat_layout _ _ Lx J2).
      split; [|split; [|split]].
      - intros i' Hi' Hp'. unfold vupd. destruct (Nat.eqb_spec i' i) as [->|Ne]; [|apply I1; auto].
        split; auto. split; auto. split; [congruence|]. split; [congruence|auto].
      - intros i' Hi'. unfold vupd. destruct (Nat.eqb_spec i' i); [lia|]. apply I2. lia.
      - intros i' Hi' Hp'. unfold vupd. destruct (Nat.eqb_spec i' i) as [->|Ne]; [|apply I3; auto].
        rewrite I2 in Lx by lia. exact Lx.
      - intros i' Hi' Hm' Hp'. unfold vupd. destruct (Nat.eqb_spec i' i) as [->|Ne]; [exact Ex|]. apply I4; auto. lia. }
    assert (Hi : k + m < p) by lia. destruct (I1 (k + m) ltac:(lia) Hi) as [J1 [J2 [J3 [J4 J5]]]].
    assert (EB : b (k + m) = a (k + m)) by (apply I2; lia).
    destruct (Nat.eqb_spec m 0) as [->|Nm].
    + rewrite Nat.add_0_r in *.
      apply bind_Ok in Hb. destruct Hb as [c4 [H4 Hb]]. apply bind_Ok in Hb. destruct Hb as [x [Hx Hb]]. injection Hb as Eb; symmetry in Eb.
      apply (trmm_exact Or 1 HO) in H4; auto; [|simpl; congruence].
      destruct H4 as [W4 [L4 E4]]. destruct (layout_dims_flat _ _ F3 L4) as [Z1 Z2]. assert (F4 := flat_layout _ _ L4 F3).
      rewrite D5, D6, YK1, Hn in E4. pose proof Hx as Hx'.
      apply (gemm_exact Or HO) in Hx; auto; [|apply eye_wf|apply trans_ok_notrans].
      destruct Hx as [Wx [Lx Ex]].
      apply (UP k x); auto; try lia.
      * intros ho. eapply gemm_orthU; [exact (HU ho)|exact HO| | |exact J2| | |exact J1|exact Hx'|exact (J5 ho)]; auto; exact I.
      * rewrite J3, J4 in Ex. eapply feq_trans; [exact Ex|]. unfold gemm_value. cbn [opc mop ncols ent d_c eye]. rewrite Z1, D5, EB.
        unfold bigB. rewrite Nat.ltb_irrefl, Nat.eqb_refl. rewrite Hn.
        intros i j Hi' Hj. unfold madd, mscale, msub.
        replace (mmul n (d_e (eye n)) (ent c4) i j) with (ent c4 i j) by (symmetry; apply (mmul_id_l n); auto).
        rewrite (E4 i j Hi' Hj). unfold mscale, tri_prod. cbn [mop]. ring.
    + apply bind_Ok in Hb. destruct Hb as [x [Hx Hb]]. injection Hb as Eb; symmetry in Eb. pose proof Hx as Hx'.
      destruct (HY (k + m) ltac:(lia) Hi) as [WY [FY [Y1 [Y2 _]]]].
      apply (gemm_exact Or HO) in Hx; auto; [|apply trans_ok_notrans].
      destruct Hx as [Wx [Lx Ex]].
      apply (UP (k + m) x); auto; try lia.
      * intros ho. eapply gemm_orthU; [exact (HU ho)|exact HO| | |exact J2| | |exact J1|exact Hx'|exact (J5 ho)]; auto.
      * rewrite J3, J4 in Ex. eapply feq_trans; [exact Ex|]. unfold gemm_value. cbn [opc mop]. rewrite Y2, EB.
        unfold bigB. destruct (Nat.ltb_spec (k + m) k); [lia|]. destruct (Nat.eqb_spec (k + m) k); [lia|].
        intros i j Hi' Hj. unfold madd, mscale, msub. ring.
Qed.

(** A block is an orthonormal basis times its right factor; a new right factor keeps the
    basis. *)
Lemma block_factor (A : matrix) (r : dense) : wf A -> orthU A -> right_factor A = Ok r ->
  d_c r = ncols A /\ (forall d, A = MD d -> r = d) /\
  exists U : mat, orth_cols (nrows A) (d_r r) U /\ feq (nrows A) (ncols A) (ent A) (mmul (d_r r) U (d_e r)) /\
  (forall s A', d_r s = d_r r -> d_c s = d_c r -> set_right_factor A s = Ok A' ->
     wf A' /\ same_layout A A' /\ orthU A' /\ feq (nrows A) (ncols A) (ent A') (mmul (d_r r) U (d_e s)) /\
     (forall d, A = MD d -> A' = MD s)).
Proof.
  intros W HU H. destruct A as [d|l|? ? ?|? ?]; try discriminate.
  - injection H as <-. simpl. split; auto. split; [intros d' E; congruence|]. exists mid. split.
    + intros i j Hi Hj. rewrite mmul_id_r by auto. unfold mtr, mid. rewrite Nat.eqb_sym. reflexivity.
    + split; [intros i j Hi Hj; symmetry; apply mmul_id_l; auto|].
      intros s A' E1 E2 E. injection E as <-. split; [exact I|]. split; [simpl; auto|]. split; [exact I|].
      split; [intros i j Hi Hj; symmetry; apply mmul_id_l; auto|reflexivity].
  - destruct W as [W1 [W2 [W3 W4]]]. destruct HU as [SQ HU]. cbn [right_factor] in H.
    apply dd_mul_inv in H. destruct H as [_ [S1 [S2 S3]]]. simpl in S1, S2, S3.
    split; [simpl; congruence|]. split; [discriminate|]. exists (d_e (l_U l)).
    rewrite S1, <- W2. split; [exact HU|]. split.
    + cbn [ent nrows ncols]. unfold lr_ent. apply feq_mmul; [apply feq_refl|]. intros i j Hi Hj. rewrite S3. ring.
    + intros s A' E1 E2 E. injection E as <-. cbn [nrows ncols]. split; [|split; [simpl; auto|split; [|split]]].
      * simpl. unfold lr_wf. cbn [l_U l_S l_V l_r l_c d_eye d_fill d_r d_c]. split; auto. split; auto. split; congruence.
      * split; [exact SQ|exact HU].
      * cbn [ent]. unfold lr_ent. cbn [l_U l_S l_V].
        change (d_c (d_eye (d_fill 0%r (l_S l)))) with (d_c (l_S l)).
        apply feq_mmul; [apply feq_refl|]. intros i j Hi Hj. rewrite <- SQ, <- W2.
        rewrite <- (mmul_id_l (d_c (l_U l)) (d_e s) i j Hi).
        apply mmul_ext; auto. intros y Hy. apply d_eye_fill; [rewrite <- W2; exact Hi|rewrite <- SQ, <- W2; exact Hy].
      * discriminate.
Qed.

(** What is left of a column: the triangle in block k and nothing below. *)
Definition Rcol (k : nat) (a a' : nat -> matrix) : nat -> mat := fun i =>
  if i <? k then ent (a i) else if i =? k then tri Upper false (ent (a' k)) else mzero.

Lemma lift_gram m n r (U s Y : mat) : orth_cols m r U -> feq m n Y (mmul r U s) ->
  feq n n (mmul m (mtr Y) Y) (mmul r (mtr s) s).
Proof.
  intros HU E. eapply feq_trans; [apply feq_mmul; [apply feq_tr; exact E|exact E]|].
  rewrite meq_tr. rewrite meq_assoc. apply feq_mmul; [apply feq_refl|]. rewrite <- meq_assoc.
  eapply feq_trans; [apply feq_mmul; [exact HU|apply feq_refl]|]. intros i j Hi _. apply mmul_id_l; auto.
Qed.

Lemma tri_col_ok k n (a a' : nat -> matrix) t : h k = n -> (exists d, a k = MD d) -> cblocks True k n a ->
  tri_col K p k a = Ok (a', t) ->
  bvectors k n a' t /\ cblocks True k n a' /\ (forall i, i < k \/ p <= i -> a' i = a i) /\
  orthogonal N (GB k n a' t) /\
  feq N n (stack p h (fun i => ent (a i))) (mmul N (GB k n a' t) (stack p h (Rcol k a a'))).
Proof.
  intros Hn [d0 E0] HA H. unfold tri_col in H. destruct (Nat.ltb_spec k p) as [Hk|]; [|discriminate].
  apply bind_Ok in H. destruct H as [r [Hr H]].
  apply bind_Ok in H. destruct H as [D [HD H]].
  apply bind_Ok in H. destruct H as [[x t'] [HG H]].
  destruct x as [x|?|? ? ?|? ?]; try discriminate.
  apply bind_Ok in H. destruct H as [s [Hs H]].
  apply bind_Ok in H. destruct H as [b [Hb H]]. injection H as -> ->.
  set (m := p - k) in *.
  assert (HB : forall i, i < m -> wf (a (k + i)) /\ flat (a (k + i)) /\ nrows (a (k + i)) = h (k + i) /\ ncols (a (k + i)) = n /\ orthU (a (k + i))).
  { intros i Hi. destruct (HA (k + i) ltac:(lia) ltac:(lia)) as [X1 [X2 [X3 [X4 X5]]]]. repeat (split; auto). }
  assert (HF : forall i, i < m -> right_factor (a (k + i)) = Ok (r i)).
  { intros i Hi. exact (collectv_spec _ _ _ _ Hr i Hi). }
  assert (RC : forall i, i < m -> d_c (r i) = n).
  { intros i Hi. destruct (HB i Hi) as [X1 [X2 [X3 [X4 X5]]]].
    destruct (block_factor _ _ X1 X5 (HF i Hi)) as [X6 _]. congruence. }
  assert (R0 : r 0 = d0).
  { destruct (HB 0 ltac:(lia)) as [X1 [X2 [X3 [X4 X5]]]].
    destruct (block_factor _ _ X1 X5 (HF 0 ltac:(lia))) as [_ [X6 _]]. apply X6. rewrite Nat.add_0_r. exact E0. }
  set (hs := fun i => d_r (r i)).
  assert (H0 : hs 0 = n).
  { unfold hs. rewrite R0. destruct (HB 0 ltac:(lia)) as [_ [_ [X3 _]]]. rewrite Nat.add_0_r, E0, Hn in X3. exact X3. }
  set (M := offs hs m).
  (* the stacked right factors *)
  assert (WD : wf (MH m 1 (fun i _ => MD (r i)))).
  { simpl. split; [lia|]. split; [lia|]. intros i j Hi Hj. split; [exact I|]. split; auto. rewrite !RC by lia. reflexivity. }
  destruct (densify_spec _ WD) as [D' [ED [D1 [D2 D3]]]]. rewrite ED in HD. injection HD as ->.
  change (nrows (MH m 1 (fun i _ => MD (r i)))) with M in *.
  assert (C1 : ncols (MH m 1 (fun i _ => MD (r i))) = n). { simpl. rewrite RC by lia. lia. }
  rewrite C1 in *.
  assert (ES : feq M n (d_e D) (stack m hs (fun i => d_e (r i)))).
  { eapply feq_trans; [exact D3|]. intros i j Hi Hj. destruct (locate_in hs m i Hi) as [bi [i' [_ [B1 [B2 ->]]]]].
    rewrite stack_at by auto.
    transitivity (ent (MH m 1 (fun i _ => MD (r i))) (offs (bheight (fun i _ => MD (r i))) bi + i') (offs (bwidth (fun i _ => MD (r i))) 0 + j)); [reflexivity|].
    apply (ent_block m 1 (fun i _ => MD (r i)) bi 0 i' j); auto. unfold bwidth. simpl. rewrite RC by lia. exact Hj. }
  assert (LM : n <= M). { unfold M. pose proof (offs_lt hs 0 m ltac:(lia)) as X. simpl in X. rewrite H0 in X. exact X. }
  apply (geqrt_ok K HK) in HG; [|cbn [nrows ncols]; lia].
  destruct HG as [a0 [t0 [x' [td [EA [ET [EX [EY [G1 [G2 [G3 [G4 [G5 G6]]]]]]]]]]]]].
  injection EA as <-. injection EX as <-. subst t. clear ET t0. rewrite D1 in G1, G5, G6. rewrite D2 in G2, G3, G4, G5, G6.
  (* slices *)
  assert (SL : forall i, i < m -> d_r (s i) = hs i /\ d_c (s i) = n /\ feq (hs i) n (d_e (s i)) (mwin (offs hs i) 0 (d_e x))).
  { intros i Hi. assert (E := collectv_spec _ _ _ _ Hs i Hi). cbv beta in E. apply assert_Ok in E. destruct E as [_ E].
    assert (Q := offs_lt hs i m Hi). change (offs (fun b => d_r (r b)) i) with (offs hs i) in E.
    destruct (d_copy_to_spec x (d_zeros (d_r (r i)) (d_c (r i))) (offs hs i) 0) as [C [EC [C2 [C3 C4]]]].
    - cbn [d_zeros d_r]. fold (hs i). rewrite G1. fold M in Q. lia.
    - cbn [d_zeros d_c]. rewrite RC by auto. lia.
    - rewrite EC in E. injection E as <-. cbn [d_zeros d_r d_c] in C2, C3, C4. rewrite RC in C3, C4 by auto. auto. }
  (* the new blocks *)
  apply (for_loop_inv_out _ _ _ _ (fun u c =>
    (forall i, i < u -> set_right_factor (a (k + i)) (s i) = Ok (c (k + i))) /\ (forall i, i < k \/ k + u <= i -> c i = a i))) in Hb.
  2:{ split; [intros i Hi; lia|auto]. }
  2:{ clear Hb. intros u c c' Hu [I1 I2] Hb. apply bind_Ok in Hb. destruct Hb as [z [Hz Hb]]. injection Hb as <-. split.
      - intros i Hi. unfold vupd. destruct (Nat.eqb_spec (k + i) (k + u)) as [E|E].
        + assert (i = u) by lia. subst i. rewrite <- (I2 (k + u)) by lia. exact Hz.
        + apply I1. lia.
      - intros i Hi. unfold vupd. destruct (Nat.eqb_spec i (k + u)); [lia|]. apply I2. lia. }
  destruct Hb as [B1 B2].
  assert (HF2 : forall i, i < m -> wf (a' (k + i)) /\ same_layout (a (k + i)) (a' (k + i)) /\ orthU (a' (k + i)) /\
    (forall d, a (k + i) = MD d -> a' (k + i) = MD (s i)) /\
    exists U : mat, orth_cols (h (k + i)) (hs i) U /\ feq (h (k + i)) n (ent (a (k + i))) (mmul (hs i) U (d_e (r i))) /\
      feq (h (k + i)) n (ent (a' (k + i))) (mmul (hs i) U (d_e (s i)))).
  { intros i Hi. destruct (HB i Hi) as [X1 [X2 [X3 [X4 X5]]]]. destruct (SL i Hi) as [S1 [S2 S3]].
    destruct (block_factor _ _ X1 X5 (HF i Hi)) as [Y1 [Y2 [U [Y3 [Y4 Y5]]]]].
    destruct (Y5 (s i) (a' (k + i)) S1 ltac:(rewrite S2, RC; auto) (B1 i Hi)) as [Z1 [Z2 [Z3 [Z4 Z5]]]].
    rewrite X3, X4 in *. split; auto. split; auto. split; auto. split; auto. exists U. auto. }
  assert (EK : a' k = MD (s 0)).
  { destruct (HF2 0 ltac:(lia)) as [_ [_ [_ [X _]]]]. rewrite Nat.add_0_r in X. apply (X d0 E0). }
  assert (CB : cblocks True k n a').
  { intros i Hi Hp. replace i with (k + (i - k)) by lia. destruct (HF2 (i - k) ltac:(lia)) as [X1 [X2 [X3 _]]].
    destruct (HB (i - k) ltac:(lia)) as [Y1 [Y2 [Y3 [Y4 _]]]]. destruct (layout_dims_flat _ _ Y2 X2) as [Z1 Z2].
    split; auto. split; [exact (flat_layout _ _ X2 Y2)|]. split; [congruence|]. split; [congruence|auto]. }
  set (T := tri Upper false (d_e td)).
  set (L0 := tri Lower true (d_e (s 0))). set (R1 := tri Upper false (d_e (s 0))).
  set (Ys := fun i => if i =? 0 then L0 else d_e (s i)).
  set (Rs := fun i : nat => if i =? 0 then R1 else mzero).
  assert (EYs : feq M n (tri Lower true (d_e x)) (stack m hs Ys)).
  { intros i j Hi Hj. destruct (locate_in hs m i Hi) as [bi [i' [_ [Q1 [Q2 ->]]]]]. rewrite stack_at by auto.
    destruct (SL bi Q1) as [_ [_ S3]]. specialize (S3 i' j Q2 Hj). unfold mwin in S3. unfold Ys.
    destruct (Nat.eqb_spec bi 0) as [->|Nb].
    - unfold L0, tri. simpl. rewrite S3. reflexivity.
    - pose proof (offs_mono hs 1 bi ltac:(lia)) as Q. simpl in Q. rewrite H0 in Q.
      unfold tri. destruct (Nat.eqb_spec (offs hs bi + i') j); [lia|]. destruct (Nat.ltb_spec j (offs hs bi + i')); [|lia].
      rewrite S3. reflexivity. }
  assert (ERs : feq M n (tri Upper false (d_e x)) (stack m hs Rs)).
  { intros i j Hi Hj. destruct (locate_in hs m i Hi) as [bi [i' [_ [Q1 [Q2 ->]]]]]. rewrite stack_at by auto.
    destruct (SL bi Q1) as [_ [_ S3]]. specialize (S3 i' j Q2 Hj). unfold mwin in S3. unfold Rs.
    destruct (Nat.eqb_spec bi 0) as [->|Nb].
    - unfold R1, tri. simpl. rewrite S3. reflexivity.
    - pose proof (offs_mono hs 1 bi ltac:(lia)) as Q. simpl in Q. rewrite H0 in Q.
      unfold tri. destruct (Nat.eqb_spec (offs hs bi + i') j); [lia|]. destruct (Nat.ltb_spec (offs hs bi + i') j); [lia|]. reflexivity. }
  split; [|split; [exact CB|split; [intros i Hi; apply B2; lia|]]].
  { split; [exact Hk|]. split; [exact Hn|]. split; [eauto|]. split; [eauto|]. cbn [nrows ncols].
    split; [exact G3|]. split; [exact G4|]. intros i Hi Hp. destruct (CB i Hi Hp) as [X1 [X2 [X3 [X4 _]]]]. repeat (split; auto). tauto. }
  (* big blocks *)
  assert (BK : bigB k a' k = L0). { unfold bigB. rewrite Nat.ltb_irrefl, Nat.eqb_refl, EK. reflexivity. }
  assert (BI : forall i, 0 < i -> bigB k a' (k + i) = ent (a' (k + i))).
  { intros i Hi. unfold bigB. destruct (Nat.ltb_spec (k + i) k); [lia|]. destruct (Nat.eqb_spec (k + i) k); [lia|reflexivity]. }
  assert (BZ : forall b, b < k -> bigB k a' b = mzero).
  { intros b Hb. unfold bigB. destruct (Nat.ltb_spec b k); [reflexivity|lia]. }
  split.
  - (* orthogonal *)
    unfold GB. apply balanced_orth. cbn [ent]. fold T.
    eapply balanced_gram; [|apply (orth_balanced_lower M n (d_e x) T LM); exact G5].
    eapply feq_trans; [apply feq_mmul; [apply feq_tr; exact EYs|exact EYs]|].
    intros i j Hi Hj. unfold M, N. rewrite !stack_dot.
    rewrite (sum_from k); [|exact Hk|].
    2:{ intros b Hb. rewrite BZ by auto. unfold mmul. apply sum_zero'. intros y _. unfold mtr, mzero. ring. }
    replace m with (S (p - S k)) by lia. rewrite sum_first. f_equal.
    + rewrite BK. unfold Ys. simpl. rewrite H0, Hn. reflexivity.
    + apply sum_ext. intros u Hu. replace (S k + u) with (k + S u) by lia. rewrite BI by lia.
      destruct (HF2 (S u) ltac:(lia)) as [_ [_ [_ [_ [U [U1 [U2 U3]]]]]]].
      symmetry. unfold Ys. cbn [Nat.eqb]. exact (lift_gram _ n _ U _ _ U1 U3 i j Hi Hj).
  - (* value *)
    set (W := mmul n T (mmul n (mtr L0) R1)).
    assert (VS : feq M n (d_e D) (stack m hs (fun i => msub (Rs i) (mmul n (Ys i) W)))).
    { eapply feq_trans; [exact G6|]. unfold tile_refl.
      eapply feq_trans; [apply feq_mmul; [apply refl_feq; [exact EYs|apply feq_refl]|exact ERs]|].
      apply refl_stack. unfold W. apply feq_mmul; [apply feq_refl|]. intros i j Hi Hj. unfold tsum.
      rewrite (sum_single m 0); [|lia|].
      - unfold Ys, Rs. simpl. rewrite H0. reflexivity.
      - intros b Hb Hne. unfold Rs. destruct (Nat.eqb_spec b 0); [congruence|]. apply mmul_zero_r. }
    assert (VB : forall i, i < m -> feq (hs i) n (d_e (r i)) (msub (Rs i) (mmul n (Ys i) W))).
    { apply (feq_stack_inv m hs n). eapply feq_trans; [apply feq_sym; exact ES|exact VS]. }
    unfold GB. cbn [ent]. fold T. apply feq_sym.
    eapply feq_trans; [apply (refl_stack p h n n _ T _ W)|].
    { unfold W. apply feq_mmul; [apply feq_refl|]. intros i j Hi Hj. unfold tsum. rewrite (sum_single p k); auto.
      - rewrite BK, Hn. unfold Rcol. rewrite Nat.ltb_irrefl, Nat.eqb_refl, EK. reflexivity.
      - intros b Hb Hne. destruct (Nat.lt_ge_cases b k) as [L|L].
        + rewrite BZ by auto. unfold mmul. apply sum_zero'. intros y _. unfold mtr, mzero. ring.
        + unfold Rcol. destruct (Nat.ltb_spec b k); [lia|]. destruct (Nat.eqb_spec b k); [congruence|]. apply mmul_zero_r. }
    apply feq_stack. intros b Hb. destruct (Nat.lt_ge_cases b k) as [L|L].
    + rewrite BZ by auto. unfold Rcol. destruct (Nat.ltb_spec b k); [|lia]. rewrite meq_zero_l.
      intros i j _ _. unfold msub, mzero. ring.
    + replace b with (k + (b - k)) by lia. set (i := b - k). destruct (Nat.eq_dec i 0) as [E|E].
      * rewrite E, Nat.add_0_r. rewrite BK, Hn. unfold Rcol. rewrite Nat.ltb_irrefl, Nat.eqb_refl, EK, E0. cbn [ent]. fold R1.
        rewrite <- R0. apply feq_sym. rewrite <- H0 at 1. apply (VB 0). lia.
      * rewrite BI by lia. unfold Rcol. destruct (Nat.ltb_spec (k + i) k); [lia|]. destruct (Nat.eqb_spec (k + i) k); [lia|].
        assert (Hi : i < m) by lia.
        destruct (HF2 i Hi) as [_ [_ [_ [_ [U [U1 [U2 U3]]]]]]]. apply feq_sym. eapply feq_trans; [exact U2|].
        eapply feq_trans; [apply feq_mmul; [apply feq_refl|apply (VB i Hi)]|].
        unfold Rs, Ys. destruct (Nat.eqb_spec i 0); [lia|].
        rewrite meq_sub_r. rewrite meq_zero_r. apply feq_sub; [apply feq_refl|]. rewrite <- meq_assoc.
        apply feq_mmul; [apply feq_sym; exact U3|apply feq_refl].
Qed.
End Column.
