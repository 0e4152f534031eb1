(** gemm computes beta*C + alpha*op(A)*op(B). *)
From Coq Require Import List Arith ZArith QArith Lia Bool Ring_theory Ring Setoid Morphisms.
From Verif Require Import Prelude Ring MatFun MatSetoid Matrix MatOps MatSpec MatOpsProofs Gemm GemmSpec GemmProofs.
Import ListNotations.
Local Open Scope nat_scope.

Section Correct.
Context {R : cring}.
Add Ring Rr : (cr_th R).
Notation dense := (dense R).
Notation lowrank := (lowrank R).
Notation matrix := (matrix R).
Notation mat := (mat R).
Variable N : nearness R.
Variable Or : oracles R.
Hypothesis HO : oracles_near N Or.
Notation near := (near N).
Notation rel := (rel N).

Definition gemm_ok (g : gemm_t (R:=R)) : Prop :=
  forall A B C alpha beta tA tB C', wf A -> wf B -> wf C -> trans_ok tA tB A B C ->
  g A B C alpha beta tA tB = Ok C' ->
  opr tA A = nrows C /\ opc tA A = opr tB B /\ opc tB B = ncols C /\
  wf C' /\ same_layout C C' /\
  rel C (ent C') (gemm_value (opc tA A) (ent A) (ent B) (ent C) alpha beta tA tB).

Definition new_ok (gn : new_t (R:=R)) : Prop :=
  forall A B alpha tA tB C', wf A -> wf B -> trans_ok tA tB A B (MD (d_zeros 0 0)) ->
  gn A B alpha tA tB = Ok C' ->
  opc tA A = opr tB B /\ wf C' /\ no_lr C' /\ nrows C' = opr tA A /\ ncols C' = opc tB B /\
  feq (opr tA A) (opc tB B) (ent C') (mscale alpha (mmul (opc tA A) (mop tA (ent A)) (mop tB (ent B)))).

Lemma opr_dims (t : bool) (A A' : matrix) : nrows A' = nrows A -> ncols A' = ncols A ->
  opr t A' = opr t A /\ opc t A' = opc t A.
Proof. intros H1 H2. unfold opr, opc. rewrite H1, H2. auto. Qed.

Lemma value_ext (A A' B B' : matrix) (C : mat) alpha beta tA tB :
  nrows A' = nrows A -> ncols A' = ncols A -> nrows B' = nrows B -> ncols B' = ncols B ->
  opc tA A = opr tB B ->
  feq (nrows A) (ncols A) (ent A') (ent A) -> feq (nrows B) (ncols B) (ent B') (ent B) ->
  feq (opr tA A) (opc tB B) (gemm_value (opc tA A') (ent A') (ent B') C alpha beta tA tB)
      (gemm_value (opc tA A) (ent A) (ent B) C alpha beta tA tB).
Proof.
  intros D1 D2 D3 D4 E F G. unfold gemm_value.
  destruct (opr_dims tA A A' D1 D2) as [_ ->].
  apply feq_add; [apply feq_refl|]. apply feq_scale. apply feq_mul.
  - exact (feq_mop tA _ _ _ _ F).
  - rewrite E. exact (feq_mop tB _ _ _ _ G).
Qed.

Lemma trans_sub_B (A : matrix) tA tB bm bn (b : nat -> nat -> matrix) C :
  (forall m n a, A <> MH m n a) -> ~ is_lr C -> trans_ok tA tB A (MH bm bn b) C ->
  forall B' C', trans_ok tA tB A B' C'.
Proof.
  intros HA HC H B' C'. destruct A as [d|l|m n a|r c]; simpl; auto.
  - simpl in H. destruct H as [H|H]; [contradiction|]. destruct B'; auto.
  - exfalso. eapply HA; eauto.
Qed.

Lemma trans_sub_A (B : matrix) tA tB am an (a : nat -> nat -> matrix) C :
  (forall m n b, B <> MH m n b) -> ~ is_lr C -> trans_ok tA tB (MH am an a) B C ->
  forall A' C', trans_ok tA tB A' B C'.
Proof.
  intros HB HC H A' C'. destruct B as [d|l|m n b|r c].
  - destruct A'; simpl; auto.
  - simpl in H. destruct H as [H|[-> ->]]; [contradiction|]. apply trans_ok_notrans.
  - exfalso. eapply HB; eauto.
  - destruct A'; simpl; auto.
Qed.

Lemma trans_ok_layout tA tB (A : matrix) : forall B C C', same_layout C C' -> trans_ok tA tB A B C -> trans_ok tA tB A B C'.
Proof.
  induction A as [d|l|m n a IH|r c]; intros [d'|l'|m' n' b'|r' c'] C C' L H; simpl in *; auto.
  - destruct H as [H|H]; auto. destruct C, C'; simpl in *; try contradiction; auto.
  - destruct H as [H|H]; auto. destruct C, C'; simpl in *; try contradiction; auto.
  - intros i j k Hi Hk Hk' Hj. specialize (H i j k Hi Hk Hk' Hj).
    destruct C as [| |p q c|], C' as [| |p' q' c'|]; simpl in L; try contradiction; try exact H.
    destruct L as [-> [-> L]]. intros Hp Hq. specialize (H Hp Hq).
    destruct tA; eapply IH; eauto.
Qed.

Lemma one_block (b : nat -> nat -> matrix) : wf (MH 1 1 b) ->
  wf (b 0 0) /\ nrows (b 0 0) = nrows (MH 1 1 b) /\ ncols (b 0 0) = ncols (MH 1 1 b) /\
  feq (nrows (MH 1 1 b)) (ncols (MH 1 1 b)) (ent (b 0 0)) (ent (MH 1 1 b)).
Proof.
  intros W. destruct (wf_block _ _ _ 0 0 W) as [W1 _]; [lia|lia|].
  split; auto. split; [reflexivity|]. split; [reflexivity|].
  intros i j Hi Hj. symmetry. apply (ent_block 1 1 b 0 0 i j); auto.
Qed.

(** * Accumulation over the inner block index *)

Lemma loop_ok (g : gemm_t (R:=R)) K (body : nat -> matrix -> outcome matrix) (fA fB : nat -> matrix) c0 alpha beta tA tB c' :
  gemm_ok g -> 0 < K -> wf c0 ->
  (forall k, k < K -> wf (fA k) /\ wf (fB k) /\ forall c, same_layout c0 c -> trans_ok tA tB (fA k) (fB k) c) ->
  (forall k c c1, k < K -> body k c = Ok c1 -> g (fA k) (fB k) c alpha (if k =? 0 then beta else 1%r) tA tB = Ok c1) ->
  for_loop K body c0 = Ok c' ->
  wf c' /\ same_layout c0 c' /\
  (forall k, k < K -> opr tA (fA k) = nrows c0 /\ opc tA (fA k) = opr tB (fB k) /\ opc tB (fB k) = ncols c0) /\
  rel c0 (ent c') (madd (mscale beta (ent c0)) (mscale alpha (sum_products K tA tB fA fB))).
Proof.
  intros Hg HK W0 HF Hb Hrun.
  set (Inv := fun (k : nat) (c : matrix) => wf c /\ same_layout c0 c /\
     (forall l, l < k -> opr tA (fA l) = nrows c0 /\ opc tA (fA l) = opr tB (fB l) /\ opc tB (fB l) = ncols c0) /\
     (k = 0 -> c = c0) /\
     (0 < k -> rel c0 (ent c) (madd (mscale beta (ent c0)) (mscale alpha (sum_products k tA tB fA fB))))).
  assert (HI : Inv K c').
  { apply (for_loop_inv_out K body c0 c' Inv Hrun).
    - unfold Inv. split; auto. split; [apply same_layout_refl|]. split; [intros; lia|]. split; [auto|lia].
    - intros k c c1 Hk [I1 [I2 [I3 [I4 I5]]]] Hc1. unfold Inv.
      destruct (HF k Hk) as [WA [WB HT]].
      destruct (Hg _ _ _ _ _ _ _ _ WA WB I1 (HT c I2) (Hb k c c1 Hk Hc1)) as [G1 [G2 [G3 [G4 [G5 G6]]]]].
      destruct (same_layout_dims c0 c W0 I2) as [E1 E2].
      split; auto. split; [eapply same_layout_trans; eauto|]. split.
      { intros l Hl. destruct (Nat.eq_dec l k) as [->|].
        - rewrite <- E1, <- E2. auto.
        - apply I3. lia. }
      split; [intros; lia|]. intros _.
      apply (rel_layout N c0 c _ _ W0 I2) in G6.
      eapply rel_trans; [exact G6|]. unfold gemm_value.
      destruct (Nat.eq_dec k 0) as [->|Hk0].
      + rewrite (I4 eq_refl). simpl Nat.eqb. apply rel_feq.
        apply feq_add; [apply feq_refl|]. apply feq_scale.
        apply meq_feq. intros x y. unfold sum_products. simpl sum. ring.
      + replace (k =? 0) with false by (symmetry; apply Nat.eqb_neq; auto).
        assert (P : 0 < k) by lia. specialize (I5 P).
        apply (rel_eq_l N c0 (madd (ent c) (mscale alpha (mmul (opc tA (fA k)) (mop tA (ent (fA k))) (mop tB (ent (fB k))))))).
        2:{ apply feq_add; [apply meq_feq; apply meq_scale_1|apply feq_refl]. }
        eapply rel_eq_r; [apply rel_add; exact I5|].
        apply meq_feq. intros x y. unfold madd, mscale, sum_products. simpl sum. ring. }
  destruct HI as [I1 [I2 [I3 [I4 I5]]]]. auto.
Qed.

(** * Combining blocks *)

Lemma hhh_combine (tA tB : bool) am an a bm bn b m n c c' alpha beta :
  wf (MH am an a) -> wf (MH bm bn b) -> wf (MH m n c) ->
  dim0 tA am an = m -> dim1 tA am an = dim0 tB bm bn -> dim1 tB bm bn = n ->
  (forall i j, i < m -> j < n ->
     wf (c' i j) /\ same_layout (c i j) (c' i j) /\
     (forall k, k < dim1 tA am an -> opr tA (opb tA a i k) = nrows (c i j) /\
         opc tA (opb tA a i k) = opr tB (opb tB b k j) /\ opc tB (opb tB b k j) = ncols (c i j)) /\
     rel (c i j) (ent (c' i j))
       (madd (mscale beta (ent (c i j)))
          (mscale alpha (sum_products (dim1 tA am an) tA tB (fun k => opb tA a i k) (fun k => opb tB b k j))))) ->
  wf (MH m n c') /\ same_layout (MH m n c) (MH m n c') /\
  rel (MH m n c) (ent (MH m n c'))
    (gemm_value (opc tA (MH am an a)) (ent (MH am an a)) (ent (MH bm bn b)) (ent (MH m n c)) alpha beta tA tB).
Proof.
  intros WA WB WC Em EK En H.
  destruct (dims_pos tA _ _ _ WA) as [PA0 PA1]. destruct (dims_pos tB _ _ _ WB) as [PB0 PB1].
  assert (Hm : 0 < m) by lia. assert (Hn : 0 < n) by lia.
  assert (EI : forall k, k < dim1 tA am an -> ow tA a k = oh tB b k).
  { intros k Hk. destruct (H 0 0 Hm Hn) as [_ [_ [Hd _]]]. destruct (Hd k Hk) as [_ [E _]].
    destruct (op_block tA _ _ a 0 k WA PA0 Hk) as [_ [_ [E1 _]]].
    assert (Hk' : k < dim0 tB bm bn) by lia.
    destruct (op_block tB _ _ b k 0 WB Hk' PB1) as [_ [E2 _]]. congruence. }
  assert (Eh : forall i, i < m -> oh tA a i = bheight c i).
  { intros i Hi. destruct (H i 0 Hi Hn) as [_ [_ [Hd _]]]. destruct (Hd 0 PA1) as [E _].
    assert (Hi' : i < dim0 tA am an) by lia.
    destruct (op_block tA _ _ a i 0 WA Hi' PA1) as [_ [E1 _]].
    destruct (wf_block _ _ _ i 0 WC Hi Hn) as [_ [E2 _]]. congruence. }
  assert (Ew : forall j, j < n -> ow tB b j = bwidth c j).
  { intros j Hj. destruct (H 0 j Hm Hj) as [_ [_ [Hd _]]]. destruct (Hd 0 PA1) as [_ [_ E]].
    assert (Hj' : j < dim1 tB bm bn) by lia. assert (P : 0 < dim0 tB bm bn) by lia.
    destruct (op_block tB _ _ b 0 j WB P Hj') as [_ [_ [E1 _]]].
    destruct (wf_block _ _ _ 0 j WC Hm Hj) as [_ [_ E2]]. congruence. }
  apply rel_collect; auto. intros i j Hi Hj.
  destruct (H i j Hi Hj) as [H1 [H2 [H3 H4]]]. split; auto. split; auto.
  eapply rel_eq_r; [exact H4|].
  destruct (wf_block _ _ _ i j WC Hi Hj) as [_ [D1 D2]]. rewrite D1, D2.
  intros x y Hx Hy. unfold gemm_value, mwin, madd, mscale.
  rewrite ent_block by auto. f_equal. f_equal.
  assert (Hi' : i < dim0 tA am an) by lia. assert (Hj' : j < dim1 tB bm bn) by lia.
  pose proof (product_block tA tB am an a bm bn b i j WA WB (Nat.eq_le_incl _ _ EK) Hi' Hj' EI) as P.
  rewrite (Eh i Hi), (Ew j Hj) in P. specialize (P x y Hx Hy). rewrite <- P. unfold mwin.
  rewrite (offs_ext (oh tA a) (bheight c) i) by (intros; apply Eh; lia).
  rewrite (offs_ext (ow tB b) (bwidth c) j) by (intros; apply Ew; lia). reflexivity.
Qed.

(** Block row times ... : C and op(B) have one block row. *)
Lemma row_combine (A : matrix) (tA tB : bool) bm bn b n c c' alpha beta :
  wf (MH bm bn b) -> wf (MH 1 n c) -> dim0 tB bm bn = 1 -> dim1 tB bm bn = n ->
  (forall j, j < n ->
     opr tA A = nrows (c 0 j) /\ opc tA A = opr tB (opb tB b 0 j) /\ opc tB (opb tB b 0 j) = ncols (c 0 j) /\
     wf (c' 0 j) /\ same_layout (c 0 j) (c' 0 j) /\
     rel (c 0 j) (ent (c' 0 j)) (gemm_value (opc tA A) (ent A) (ent (opb tB b 0 j)) (ent (c 0 j)) alpha beta tA tB)) ->
  wf (MH 1 n c') /\ same_layout (MH 1 n c) (MH 1 n c') /\
  rel (MH 1 n c) (ent (MH 1 n c'))
    (gemm_value (opc tA A) (ent A) (ent (MH bm bn b)) (ent (MH 1 n c)) alpha beta tA tB).
Proof.
  intros WB WC E0 E1 H.
  assert (P0 : 0 < dim0 tB bm bn) by lia.
  assert (Ew : forall j, j < n -> ow tB b j = bwidth c j).
  { intros j Hj. destruct (H j Hj) as [_ [_ [E _]]].
    assert (Hj' : j < dim1 tB bm bn) by lia.
    destruct (op_block tB _ _ b 0 j WB P0 Hj') as [_ [_ [E2 _]]].
    assert (P1 : 0 < 1) by lia.
    destruct (wf_block _ _ _ 0 j WC P1 Hj) as [_ [_ E3]]. congruence. }
  apply rel_collect; auto. intros i j Hi Hj. assert (i = 0) by lia. subst i.
  destruct (H j Hj) as [H1 [H2 [H3 [H4 [H5 H6]]]]]. split; auto. split; auto.
  eapply rel_eq_r; [exact H6|].
  destruct (wf_block _ _ _ 0 j WC Hi Hj) as [_ [D1 D2]]. rewrite D1, D2.
  intros x y Hx Hy. unfold gemm_value, mwin, madd, mscale.
  rewrite ent_block by auto. f_equal. f_equal.
  assert (Hj' : j < dim1 tB bm bn) by lia.
  destruct (op_block tB _ _ b 0 j WB P0 Hj') as [_ [E2 [E3 F]]].
  unfold mmul. apply sum_ext. intros z Hz. f_equal.
  rewrite <- (offs_ext (ow tB b) (bwidth c) j) by (intros; apply Ew; lia).
  symmetry. apply (F z y); [lia|]. rewrite Ew; auto.
Qed.

(** C has one block column, op(A) has one block column. *)
Lemma col_combine (B : matrix) (tA tB : bool) am an a m c c' alpha beta :
  wf (MH am an a) -> wf (MH m 1 c) -> dim1 tA am an = 1 -> dim0 tA am an <= m ->
  opr tA (MH am an a) = nrows (MH m 1 c) ->
  (forall i, i < dim0 tA am an ->
     opr tA (opb tA a i 0) = nrows (c i 0) /\ opc tA (opb tA a i 0) = opr tB B /\ opc tB B = ncols (c i 0) /\
     wf (c' i 0) /\ same_layout (c i 0) (c' i 0) /\
     rel (c i 0) (ent (c' i 0)) (gemm_value (opc tA (opb tA a i 0)) (ent (opb tA a i 0)) (ent B) (ent (c i 0)) alpha beta tA tB)) ->
  let c'' := fun i j => if i <? dim0 tA am an then c' i 0 else c i j in
  wf (MH m 1 c'') /\ same_layout (MH m 1 c) (MH m 1 c'') /\
  rel (MH m 1 c) (ent (MH m 1 c''))
    (gemm_value (opc tA (MH am an a)) (ent (MH am an a)) (ent B) (ent (MH m 1 c)) alpha beta tA tB).
Proof.
  intros WA WC E1 Em Er H c''.
  assert (P1 : 0 < 1) by lia. assert (PA1 : 0 < dim1 tA am an) by lia.
  assert (Eh : forall i, i < dim0 tA am an -> oh tA a i = bheight c i).
  { intros i Hi. destruct (H i Hi) as [E _].
    destruct (op_block tA _ _ a i 0 WA Hi PA1) as [_ [E2 _]].
    assert (Hi' : i < m) by lia.
    destruct (wf_block _ _ _ i 0 WC Hi' P1) as [_ [E3 _]]. congruence. }
  assert (Ez : forall i, dim0 tA am an <= i -> i < m -> bheight c i = 0).
  { intros i Hi1 Hi2. rewrite opr_MH, nrows_MH in Er.
    rewrite (offs_ext (oh tA a) (bheight c)) in Er by auto.
    pose proof (offs_lt (bheight c) i m Hi2). pose proof (offs_mono (bheight c) _ _ Hi1). lia. }
  apply rel_collect; auto. intros i j Hi Hj. assert (j = 0) by lia. subst j.
  destruct (wf_block _ _ _ i 0 WC Hi Hj) as [Wc [D1 D2]].
  unfold c''. destruct (Nat.ltb_spec i (dim0 tA am an)) as [Hi'|Hi'].
  - destruct (H i Hi') as [H1 [H2 [H3 [H4 [H5 H6]]]]]. split; auto. split; auto.
    eapply rel_eq_r; [exact H6|]. rewrite D1, D2.
    intros x y Hx Hy. unfold gemm_value, mwin, madd, mscale.
    rewrite ent_block by auto. f_equal. f_equal.
    destruct (op_block tA _ _ a i 0 WA Hi' PA1) as [_ [E2 [E3 F]]].
    assert (EK : opc tA (MH am an a) = ow tA a 0).
    { rewrite opc_MH, E1. reflexivity. }
    rewrite E3, EK. unfold mmul. apply sum_ext. intros z Hz. f_equal.
    rewrite <- (offs_ext (oh tA a) (bheight c) i) by (intros; apply Eh; lia).
    symmetry. apply (F x z); [|lia]. rewrite Eh; auto.
  - split; auto. split; [apply same_layout_refl|].
    apply rel_feq. rewrite D1, (Ez i Hi' Hi). intros x y Hx. lia.
Qed.

(** * Operands given as products *)

(** op(A)*op(B) for LowRank factors, as the factors the code forms. *)

Section Step.
Variable g : gemm_t (R:=R).
Variable gn : new_t (R:=R).
Hypothesis Hg : gemm_ok g.
Hypothesis Hgn : new_ok gn.

Lemma into_views_ok (A B : matrix) (c : dense) nr nc alpha beta tA tB C' :
  wf A -> wf B -> 0 < nr -> 0 < nc -> (forall C, trans_ok tA tB A B C) ->
  into_views g A B c nr nc alpha beta tA tB = Ok C' ->
  wf C' /\ same_layout (MD c) C' /\
  rel (MD c) (ent C') (gemm_value (opc tA A) (ent A) (ent B) (d_e c) alpha beta tA tB).
Proof.
  intros WA WB Hr Hc HT H. unfold into_views in H.
  apply bind_Ok in H. destruct H as [CH [HS H]]. apply bind_Ok in H. destruct H as [CH' [Hg' H]].
  destruct (split_D c nr nc CH Hr Hc HS) as [b [-> [W [D1 [D2 [F HD]]]]]].
  destruct (Hg _ _ _ _ _ _ _ _ WA WB W (HT _) Hg') as [G1 [G2 [G3 [G4 [G5 G6]]]]].
  destruct CH' as [| |m' n' b'|]; try discriminate. inversion H; subst C'; clear H.
  split; [exact I|]. split; [simpl; auto|].
  apply rel_feq. cbn [nrows ncols join ent d_e].
  assert (HN : no_lr (MH nr nc b)).
  { simpl. intros i j _ _. destruct (HD i j) as [x ->]. exact I. }
  destruct G6 as [_ G6]. specialize (G6 HN). rewrite D1, D2 in G6.
  eapply feq_trans; [exact G6|]. unfold gemm_value. apply feq_add; [|apply feq_refl].
  apply feq_scale. exact F.
Qed.

(** Replacing the operands by others that represent the same matrices. *)
Lemma via (A A' B B' C : matrix) alpha beta tA tB C' :
  wf A' -> wf B' -> wf C -> trans_ok tA tB A' B' C ->
  nrows A' = nrows A -> ncols A' = ncols A -> nrows B' = nrows B -> ncols B' = ncols B ->
  feq (nrows A) (ncols A) (ent A') (ent A) -> feq (nrows B) (ncols B) (ent B') (ent B) ->
  opr tA A = nrows C -> opc tA A = opr tB B -> opc tB B = ncols C ->
  g A' B' C alpha beta tA tB = Ok C' ->
  wf C' /\ same_layout C C' /\
  rel C (ent C') (gemm_value (opc tA A) (ent A) (ent B) (ent C) alpha beta tA tB).
Proof.
  intros WA WB WC HT D1 D2 D3 D4 F G E1 E2 E3 H.
  destruct (Hg _ _ _ _ _ _ _ _ WA WB WC HT H) as [_ [_ [_ [G4 [G5 G6]]]]].
  split; auto. split; auto. eapply rel_eq_r; [exact G6|].
  rewrite <- E1, <- E3. apply value_ext; auto.
Qed.

(** Results accumulated from a LowRank product. *)
Lemma acc_lr_case (c x : lowrank) beta C' r k (f : mat) : lr_wf c -> lr_wf x ->
  l_r x = r -> l_c x = k -> feq r k (lr_ent x) f -> acc_lr Or c beta x = Ok C' ->
  wf C' /\ same_layout (ML c) C' /\ rel (ML c) (ent C') (madd (mscale beta (lr_ent c)) f).
Proof.
  intros Wc Wx Dr Dc F H.
  destruct (acc_lr_spec N Or HO c x beta C' Wc Wx H) as [E1 [E2 [W [L Rl]]]].
  split; auto. split; auto. eapply rel_eq_r; [exact Rl|]. apply feq_add; [apply feq_refl|].
  simpl. rewrite E1, E2, Dr, Dc. exact F.
Qed.

Lemma acc_h_case (C : matrix) (x : lowrank) beta C' r k (f : mat) : wf C -> lr_wf x ->
  l_r x = r -> l_c x = k -> feq r k (lr_ent x) f -> acc_h Or C beta x = Ok C' ->
  wf C' /\ same_layout C C' /\ rel C (ent C') (madd (mscale beta (ent C)) f).
Proof.
  intros Wc Wx Dr Dc F H.
  destruct (acc_h_spec N Or HO C x beta C' Wc Wx H) as [E1 [E2 [W [L Rl]]]].
  split; auto. split; auto. eapply rel_eq_r; [exact Rl|]. apply feq_add; [apply feq_refl|].
  rewrite E1, E2, Dr, Dc. exact F.
Qed.

(** LowRank * X, the right factor formed by a product with the right basis. *)
Lemma lr_times (a : lowrank) (v : dense) (B : matrix) alpha tA tB :
  lr_wf a -> opc tA (ML a) = opr tB B ->
  d_r v = dR tA (oR tA a) -> d_c v = opc tB B ->
  feq (d_r v) (d_c v) (d_e v) (mscale alpha (mmul (dC tA (oR tA a)) (mop tA (d_e (oR tA a))) (mop tB (ent B)))) ->
  let x := lr_make (lr_left tA a) (lr_mid tA a) v in
  lr_wf x /\ l_r x = opr tA (ML a) /\ l_c x = opc tB B /\
  feq (opr tA (ML a)) (opc tB B) (lr_ent x)
    (mscale alpha (mmul (opc tA (ML a)) (mop tA (lr_ent a)) (mop tB (ent B)))).
Proof.
  intros Wa E Dr Dc F x.
  destruct (lr_op tA a Wa) as [k1 [k2 [L1 [L2 [L3 [L4 [L5 [L6 L7]]]]]]]].
  destruct (left_dims tA a) as [A1 [A2 A3]]. destruct (mid_dims tA a) as [M1 [M2 M3]].
  destruct (lr_make_spec (lr_left tA a) (lr_mid tA a) v k1 k2 (mop tA (d_e (oL tA a))) (mop tA (d_e (l_S a)))
     (mscale alpha (mmul (dC tA (oR tA a)) (mop tA (d_e (oR tA a))) (mop tB (ent B))))) as [W G]; try congruence.
  { rewrite A1. rewrite <- L2. exact A3. }
  { rewrite <- L3 at 1. rewrite <- L4. exact M3. }
  { rewrite Dr, L5 in F. exact F. }
  split; [exact W|]. split; [simpl; congruence|]. split; [exact Dc|].
  rewrite A1, L1, Dc in G. eapply feq_trans; [exact G|]. apply meq_feq.
  rewrite L6, L7, !meq_scale_r, !meq_assoc. reflexivity.
Qed.

(** X * LowRank *)
Lemma times_lr (A : matrix) (u : dense) (b : lowrank) alpha tA tB :
  lr_wf b -> opc tA A = opr tB (ML b) ->
  d_r u = opr tA A -> d_c u = dC tB (oL tB b) ->
  feq (d_r u) (d_c u) (d_e u) (mscale alpha (mmul (opc tA A) (mop tA (ent A)) (mop tB (d_e (oL tB b))))) ->
  let x := lr_make u (lr_mid tB b) (lr_right tB b) in
  lr_wf x /\ l_r x = opr tA A /\ l_c x = opc tB (ML b) /\
  feq (opr tA A) (opc tB (ML b)) (lr_ent x)
    (mscale alpha (mmul (opc tA A) (mop tA (ent A)) (mop tB (lr_ent b)))).
Proof.
  intros Wb E Dr Dc F x.
  destruct (lr_op tB b Wb) as [k1 [k2 [L1 [L2 [L3 [L4 [L5 [L6 L7]]]]]]]].
  destruct (right_dims tB b) as [A1 [A2 A3]]. destruct (mid_dims tB b) as [M1 [M2 M3]].
  destruct (lr_make_spec u (lr_mid tB b) (lr_right tB b) k1 k2
     (mscale alpha (mmul (opc tA A) (mop tA (ent A)) (mop tB (d_e (oL tB b)))))
     (mop tB (d_e (l_S b))) (mop tB (d_e (oR tB b)))) as [W G]; try congruence.
  { rewrite Dc, L2 in F. exact F. }
  { rewrite <- L3 at 1. rewrite <- L4. exact M3. }
  { rewrite A2. rewrite <- L5. exact A3. }
  split; [exact W|]. split; [exact Dr|]. split; [simpl; congruence|].
  rewrite Dr, A2, L6 in G. eapply feq_trans; [exact G|]. apply meq_feq.
  rewrite L7, !meq_scale_l, !meq_assoc. reflexivity.
Qed.

(** LowRank * LowRank, gemm.cpp:261-266. *)
Lemma lr_lr_times (a b : lowrank) (s : dense) alpha tA tB :
  lr_wf a -> lr_wf b -> opc tA (ML a) = opr tB (ML b) -> lr_lr_mid a b alpha tA tB = Ok s ->
  let x := lr_make (lr_left tA a) s (lr_right tB b) in
  lr_wf x /\ l_r x = opr tA (ML a) /\ l_c x = opc tB (ML b) /\
  feq (opr tA (ML a)) (opc tB (ML b)) (lr_ent x)
    (mscale alpha (mmul (opc tA (ML a)) (mop tA (lr_ent a)) (mop tB (lr_ent b)))).
Proof.
  intros Wa Wb E H x. unfold lr_lr_mid in H.
  apply bind_Ok in H. destruct H as [p [Hp H]]. apply bind_Ok in H. destruct H as [q [Hq H]].
  fold (oR tA a) in Hp. fold (oL tB b) in Hq.
  apply mul_inv in Hp. destruct Hp as [P1 [P2 [P3 P4]]].
  apply mul_inv in Hq. destruct Hq as [Q1 [Q2 [Q3 Q4]]].
  apply mul_inv in H. destruct H as [S1 [S2 [S3 S4]]]. unfold dC, dR in S1, S2, S3. cbn [mop] in S4.
  destruct (lr_op tA a Wa) as [k1 [k2 [L1 [L2 [L3 [L4 [L5 [L6 L7]]]]]]]].
  destruct (lr_op tB b Wb) as [k3 [k4 [R1 [R2 [R3 [R4 [R5 [R6 R7]]]]]]]].
  destruct (left_dims tA a) as [A1 [A2 A3]]. destruct (right_dims tB b) as [B1 [B2 B3]].
  destruct (lr_make_spec (lr_left tA a) s (lr_right tB b) k1 k4
     (mop tA (d_e (oL tA a))) (d_e s) (mop tB (d_e (oR tB b)))) as [W G]; try congruence.
  { rewrite A1. rewrite <- L2. exact A3. }
  { rewrite B2. rewrite <- R5. exact B3. }
  split; [exact W|]. split; [simpl; congruence|]. split; [simpl; congruence|].
  rewrite A1, L1, B2, R6 in G. eapply feq_trans; [exact G|]. apply meq_feq.
  rewrite S4. unfold dC. rewrite P4, Q4, P3, L7, R7, L4, L6, Q1, R3, !meq_scale_1, !meq_scale_l, !meq_scale_r, !meq_assoc.
  reflexivity.
Qed.


Lemma MD_not_MH (d : dense) m n (b : nat -> nat -> matrix) : MD d <> MH m n b.
Proof. discriminate. Qed.
Lemma ML_not_MH (d : lowrank) m n (b : nat -> nat -> matrix) : ML d <> MH m n b.
Proof. discriminate. Qed.
Lemma ME_not_MH r c m n (b : nat -> nat -> matrix) : ME r c <> MH m n b.
Proof. discriminate. Qed.
Lemma MD_not_lr (d : dense) : ~ is_lr (MD d).
Proof. intros []. Qed.
Lemma MH_not_lr m n (b : nat -> nat -> matrix) : ~ is_lr (MH m n b).
Proof. intros []. Qed.

(** A Dense operand is compatible with everything. *)
Lemma trans_D_l (d : dense) tA tB B C : trans_ok tA tB (MD d) B C.
Proof. exact I. Qed.
Lemma trans_D_r (d : dense) tA tB (A : matrix) C : trans_ok tA tB A (MD d) C.
Proof. destruct A; simpl; auto. Qed.
Lemma trans_HD_l m n (a : nat -> nat -> matrix) tA tB B C :
  (forall i j, exists x, a i j = MD x) -> (forall l, B <> ML l) -> trans_ok tA tB (MH m n a) B C.
Proof.
  intros H HB. destruct B; simpl; auto.
  - exfalso. eapply HB. reflexivity.
  - intros i j k _ _ _ _. destruct tA; [destruct (H k i) as [x ->]|destruct (H i k) as [x ->]]; destruct C; intros; exact I.
Qed.
Lemma trans_HD_r m n (b : nat -> nat -> matrix) tA tB A C :
  (forall i j, exists x, b i j = MD x) -> (forall l, A <> ML l) -> trans_ok tA tB A (MH m n b) C.
Proof.
  intros H HA. destruct A; simpl; auto.
  - exfalso. eapply HA. reflexivity.
  - intros i j k _ _ _ _. destruct tB; cbn [opb];
      [destruct (H j k) as [x ->]|destruct (H k j) as [x ->]]; destruct C; intros; apply trans_D_r.
Qed.

(** The vector loops. *)
Lemma row_case (A : matrix) (tA tB : bool) bm bn b m n c alpha beta c' :
  wf A -> wf (MH bm bn b) -> wf (MH m n c) -> (forall B C, trans_ok tA tB A B C) ->
  dim0 tB bm bn = 1 -> m = 1 -> dim1 tB bm bn = n ->
  collect 1 n (fun _ j =>
          let* bj := hvec bm bn b j in
          let* cj := hvec m n c j in g A bj cj alpha beta tA tB) = Ok c' ->
  wf (MH m n c') /\ same_layout (MH m n c) (MH m n c') /\
  rel (MH m n c) (ent (MH m n c'))
    (gemm_value (opc tA A) (ent A) (ent (MH bm bn b)) (ent (MH m n c)) alpha beta tA tB).
Proof.
  intros WA WB WC HT E0 -> E1 H.
  apply row_combine; auto. intros j Hj.
  assert (P1 : 0 < 1) by lia.
  pose proof (collect_spec _ _ _ _ H 0 j P1 Hj) as E. cbv beta in E.
  apply bind_Ok in E. destruct E as [bj [Hbj E]]. apply bind_Ok in E. destruct E as [cj [Hcj E]].
  apply (hvec_row tB) in Hbj; auto. destruct Hbj as [_ ->].
  apply (hvec_row false) in Hcj; auto. destruct Hcj as [_ ->]. cbn [opb] in E.
  assert (P0 : 0 < dim0 tB bm bn) by lia. assert (Hj' : j < dim1 tB bm bn) by lia.
  destruct (op_block tB _ _ b 0 j WB P0 Hj') as [Wb _].
  destruct (wf_block _ _ _ 0 j WC P1 Hj) as [Wc _].
  apply (Hg A _ _ _ _ _ _ _ WA Wb Wc (HT _ _) E).
Qed.

Lemma col_case (B : matrix) (tA tB : bool) am an a m n c alpha beta c' :
  wf (MH am an a) -> wf B -> wf (MH m n c) -> (forall A C, trans_ok tA tB A B C) ->
  opr tA (MH am an a) = nrows (MH m n c) ->
  dim1 tA am an = 1 -> n = 1 ->
  collect (dim0 tA am an) 1 (fun i _ =>
          let* ai := hvec am an a i in
          let* ci := hvec m n c i in g ai B ci alpha beta tA tB) = Ok c' ->
  let c'' := fun i j => if i <? dim0 tA am an then c' i 0 else c i j in
  wf (MH m n c'') /\ same_layout (MH m n c) (MH m n c'') /\
  rel (MH m n c) (ent (MH m n c''))
    (gemm_value (opc tA (MH am an a)) (ent (MH am an a)) (ent B) (ent (MH m n c)) alpha beta tA tB).
Proof.
  intros WA WB WC HT Er E1 -> H.
  assert (P1 : 0 < 1) by lia.
  assert (HH : forall i, i < dim0 tA am an -> i < m /\ g (opb tA a i 0) B (c i 0) alpha beta tA tB = Ok (c' i 0)).
  { intros i Hi. pose proof (collect_spec _ _ _ _ H i 0 Hi P1) as E. cbv beta in E.
    apply bind_Ok in E. destruct E as [ai [Hai E]]. apply bind_Ok in E. destruct E as [ci [Hci E]].
    apply (hvec_col tA) in Hai; auto. destruct Hai as [_ ->].
    apply (hvec_col false) in Hci; auto. destruct Hci as [? ->]. auto. }
  apply col_combine; auto.
  { destruct (dim0 tA am an) as [|k] eqn:Ek; [lia|]. destruct (HH k) as [? _]; lia. }
  intros i Hi. destruct (HH i Hi) as [Hi' E].
  assert (PA1 : 0 < dim1 tA am an) by lia.
  destruct (op_block tA _ _ a i 0 WA Hi PA1) as [Wa _].
  destruct (wf_block _ _ _ i 0 WC Hi' P1) as [Wc _].
  apply (Hg _ _ _ _ _ _ _ _ Wa WB Wc (HT _ _) E).
Qed.

Lemma lr_dims_l (a b c : nat) : a = b -> b = c -> a = c.
Proof. congruence. Qed.

Ltac bnd H x := apply bind_Ok in H; let E := fresh "E" in destruct H as [x [E H]].
Ltac inv H := inversion H; subst; clear H.

Lemma gemm_step_ok : gemm_ok (gemm_step Or g gn).
Proof.
  intros A B C alpha beta tA tB C' WA WB WC HT H. unfold gemm_step in H.
  apply assert_Ok in H. destruct H as [E1 H]. apply Nat.eqb_eq in E1.
  apply assert_Ok in H. destruct H as [E2 H]. apply Nat.eqb_eq in E2.
  apply assert_Ok in H. destruct H as [E3 H]. apply Nat.eqb_eq in E3.
  do 3 (split; [assumption|]).
  destruct A as [a|a|am an a|ar ac].
  - (* A Dense *)
    destruct B as [b|b|bm bn b|br bc].
    + destruct C as [c|c|m n c|cr cc]; try discriminate.
      * (* D D D *)
        bnd H d. inv H. apply gemm_inv in E. destruct E as [_ [_ [_ [D1 [D2 D3]]]]].
        split; [exact I|]. split; [simpl; auto|]. apply rel_feq. apply meq_feq. exact D3.
      * (* D D LR *)
        bnd H ab. bnd H x. apply mul_inv in E. destruct E as [M1 [M2 [M3 M4]]].
        assert (X : lr_wf x /\ l_r x = d_r ab /\ l_c x = d_c ab /\ near (d_r ab) (d_c ab) (lr_ent x) (d_e ab)).
        { unfold compress_like in E0. destruct (use_eps c); [apply (on_eps _ _ HO) in E0|apply (on_rank _ _ HO) in E0]; exact E0. }
        destruct X as [Wx [X1 [X2 X3]]].
        destruct (acc_lr_spec N Or HO c x beta C' WC Wx H) as [A1 [A2 [A3 [A4 [A5 _]]]]].
        split; auto. split; auto. split; [|intros []].
        eapply near_trans; [exact A5|]. unfold gemm_value. cbn [nrows ncols].
        eapply near_trans; [apply near_feq; apply meq_feq; apply meq_add_comm|].
        eapply near_trans; [|apply near_feq; apply meq_feq; apply meq_add_comm].
        apply near_add. rewrite A1, A2, X1, X2. eapply near_trans; [exact X3|].
        apply near_feq. apply meq_feq. exact M4.
      * (* D D H *)
        pose proof WC as [Pm [Pn _]].
        destruct ((m =? 1) && (n =? 1)); [discriminate|].
        destruct (n =? 1).
        { bnd H AH. apply split_D in E; [|destruct tA; lia|destruct tA; lia].
          destruct E as [ah [-> [W [D1 [D2 [F FD]]]]]].
          apply (via (MD a) (MH (if tA then 1 else m) (if tA then m else 1) ah) (MD b) (MD b) (MH m n c) alpha beta tA tB C');
            auto; try apply feq_refl; try apply trans_D_r. }
        destruct (m =? 1).
        { bnd H BH. apply split_D in E; [|destruct tB; lia|destruct tB; lia].
          destruct E as [bh [-> [W [D1 [D2 [F FD]]]]]].
          apply (via (MD a) (MD a) (MD b) (MH (if tB then n else 1) (if tB then 1 else n) bh) (MH m n c) alpha beta tA tB C');
            auto; try apply feq_refl. }
        { bnd H AH. apply split_D in E; [|destruct tA; lia|destruct tA; lia].
          destruct E as [ah [-> [W [D1 [D2 [F FD]]]]]].
          bnd H BH. apply split_D in E; [|destruct tB; lia|destruct tB; lia].
          destruct E as [bh [-> [W' [D1' [D2' [F' FD']]]]]].
          apply (via (MD a) (MH (if tA then 1 else m) (if tA then m else 1) ah) (MD b) (MH (if tB then n else 1) (if tB then 1 else n) bh) (MH m n c) alpha beta tA tB C');
            auto; try apply feq_refl; try (apply trans_HD_l; auto; discriminate). }
    + destruct C as [c|c|m n c|cr cc]; try discriminate; simpl in WB.
      * (* D LR D *)
        bnd H x. bnd H y. bnd H d. inv H. fold (oL tB b) in E. fold (oR tB b) in E4.
        apply mul_inv in E. destruct E as [M1 [M2 [M3 M4]]].
        apply mul_inv in E0. destruct E0 as [P1 [P2 [P3 P4]]].
        apply gemm_inv in E4. destruct E4 as [G1 [G2 [G3 [G4 [G5 G6]]]]].
        destruct (lr_op tB b WB) as [k1 [k2 [L1 [L2 [L3 [L4 [L5 [L6 L7]]]]]]]].
        split; [exact I|]. split; [simpl; auto|]. apply rel_feq. apply meq_feq.
        cbn [ent]. rewrite G6. unfold gemm_value. apply madd_meq; [reflexivity|].
        unfold dC. rewrite P4, M4, P3. unfold mop at 1 2. unfold dC at 2. rewrite M3, L4, L2, L7.
        rewrite !meq_scale_1, !meq_scale_l, !meq_assoc. unfold opc, dC. destruct tA; reflexivity.
      * (* D LR LR *)
        bnd H u. fold (oL tB b) in E. apply mul_inv in E. destruct E as [M1 [M2 [M3 M4]]].
        destruct (times_lr (MD a) u b alpha tA tB WB E2) as [Wx [X1 [X2 X3]]]; auto.
        { apply meq_feq. exact M4. }
        apply (acc_lr_case c _ beta C' _ _ _ WC Wx X1 X2 X3 H).
      * (* D LR H *)
        bnd H u. fold (oL tB b) in E. apply mul_inv in E. destruct E as [M1 [M2 [M3 M4]]].
        destruct (times_lr (MD a) u b alpha tA tB WB E2) as [Wx [X1 [X2 X3]]]; auto.
        { apply meq_feq. exact M4. }
        apply (acc_h_case _ _ beta C' _ _ _ WC Wx X1 X2 X3 H).
    + destruct (dims_pos tB _ _ _ WB) as [PB0 PB1].
      destruct C as [c|c|m n c|cr cc]; try discriminate.
      * (* D H D *)
        destruct ((bm =? 1) && (bn =? 1)) eqn:E11.
        { apply andb_true_iff in E11. destruct E11 as [Q1 Q2]. apply Nat.eqb_eq in Q1. apply Nat.eqb_eq in Q2. subst bm bn.
          destruct (one_block b WB) as [W0 [D1 [D2 F]]].
          apply (via (MD a) (MD a) (MH 1 1 b) (b 0 0) (MD c) alpha beta tA tB C'); auto; try apply feq_refl. }
        { apply (into_views_ok (MD a) (MH bm bn b) c 1 (dim1 tB bm bn) alpha beta tA tB C'); auto. }
      * (* D H LR *)
        bnd H HA. apply split_D in E; [|destruct tA; lia|destruct tA; lia].
        destruct E as [ah [-> [W [D1 [D2 [F FD]]]]]].
        match type of H with g ?X _ _ _ _ _ _ = _ =>
        apply (via (MD a) X (MH bm bn b) (MH bm bn b) (ML c) alpha beta tA tB C') end; auto; try apply feq_refl; try (apply trans_HD_l; auto; discriminate).
      * (* D H H *)
        apply assert_Ok in H. destruct H as [E4 H]. apply Nat.eqb_eq in E4.
        destruct ((bm =? 1) && (bn =? 1)) eqn:E11.
        { apply andb_true_iff in E11. destruct E11 as [Q1 Q2]. apply Nat.eqb_eq in Q1. apply Nat.eqb_eq in Q2. subst bm bn.
          destruct (one_block b WB) as [W0 [D1 [D2 F]]].
          apply (via (MD a) (MD a) (MH 1 1 b) (b 0 0) (MH m n c) alpha beta tA tB C'); auto; try apply feq_refl. }
        destruct ((dim0 tB bm bn =? 1) && (m =? 1)) eqn:E01.
        { apply andb_true_iff in E01. destruct E01 as [Q1 Q2]. apply Nat.eqb_eq in Q1. apply Nat.eqb_eq in Q2.
          bnd H c'. inv H. apply (row_case (MD a) tA tB bm bn b 1 _ c alpha beta c'); auto. }
        pose proof WC as [Pm [Pn _]].
        bnd H HA. apply split_D in E; [|destruct tA; lia|destruct tA; lia].
        destruct E as [ah [-> [W [D1 [D2 [F FD]]]]]].
        match type of H with g ?X _ _ _ _ _ _ = _ =>
        apply (via (MD a) X (MH bm bn b) (MH bm bn b) (MH m n c) alpha beta tA tB C') end; auto; try apply feq_refl; try (apply trans_HD_l; auto; discriminate).
    + destruct C; discriminate.
  - (* A LowRank *)
    simpl in WA. destruct (lr_op tA a WA) as [k1 [k2 [L1 [L2 [L3 [L4 [L5 [L6 L7]]]]]]]].
    destruct B as [b|b|bm bn b|br bc].
    + destruct C as [c|c|m n c|cr cc]; try discriminate.
      * (* LR D D *)
        bnd H x. bnd H y. bnd H d. inv H. fold (oR tA a) in E. fold (oL tA a) in E4.
        apply mul_inv in E. destruct E as [M1 [M2 [M3 M4]]].
        apply mul_inv in E0. destruct E0 as [P1 [P2 [P3 P4]]].
        apply gemm_inv in E4. destruct E4 as [G1 [G2 [G3 [G4 [G5 G6]]]]].
        split; [exact I|]. split; [simpl; auto|]. apply rel_feq. apply meq_feq.
        cbn [ent]. rewrite G6. unfold gemm_value. apply madd_meq; [reflexivity|].
        cbn [mop]. rewrite P4. cbn [mop]. rewrite M4, L7, L6.
        rewrite !meq_scale_1, !meq_scale_r, !meq_assoc. reflexivity.
      * (* LR D LR *)
        bnd H v. fold (oR tA a) in E. apply mul_inv in E. destruct E as [M1 [M2 [M3 M4]]].
        destruct (lr_times a v (MD b) alpha tA tB WA E2) as [Wx [X1 [X2 X3]]]; auto.
        { apply meq_feq. exact M4. }
        apply (acc_lr_case c _ beta C' _ _ _ WC Wx X1 X2 X3 H).
      * (* LR D H *)
        bnd H v. fold (oR tA a) in E. apply mul_inv in E. destruct E as [M1 [M2 [M3 M4]]].
        destruct (lr_times a v (MD b) alpha tA tB WA E2) as [Wx [X1 [X2 X3]]]; auto.
        { apply meq_feq. exact M4. }
        apply (acc_h_case _ _ beta C' _ _ _ WC Wx X1 X2 X3 H).
    + simpl in WB. destruct (lr_op tB b WB) as [k3 [k4 [R1 [R2 [R3 [R4 [R5 [R6 R7]]]]]]]].
      destruct C as [c|c|m n c|cr cc]; try discriminate.
      * (* LR LR D *)
        bnd H x. bnd H y. bnd H z. bnd H w. bnd H d. inv H.
        fold (oR tA a) (oL tB b) in E. fold (oL tA a) in E5. fold (oR tB b) in E6.
        apply mul_inv in E. destruct E as [M1 [M2 [M3 M4]]].
        apply mul_inv in E0. destruct E0 as [P1 [P2 [P3 P4]]].
        apply mul_inv in E4. destruct E4 as [Q1 [Q2 [Q3 Q4]]].
        apply mul_inv in E5. destruct E5 as [S1 [S2 [S3 S4]]].
        apply gemm_inv in E6. destruct E6 as [G1 [G2 [G3 [G4 [G5 G6]]]]].
        split; [exact I|]. split; [simpl; auto|]. apply rel_feq. apply meq_feq.
        cbn [ent]. rewrite G6. unfold gemm_value. apply madd_meq; [reflexivity|].
        cbn [mop]. unfold dC at 1. rewrite S4. cbn [mop]. rewrite Q4. cbn [mop]. rewrite P4. cbn [mop]. rewrite M4.
        unfold dC at 2. unfold dC in Q1, Q2, Q3, S1, S2, S3, P3. cbn in P3, S3, Q1, Q3. rewrite S3, Q3, P3, M3.
        fold (dC tB (l_S b)). rewrite L7, R7.
        rewrite L6.
        rewrite !meq_scale_1, !meq_scale_r, !meq_scale_l, !meq_scale_r, !meq_scale_l, !meq_assoc. reflexivity.
      * (* LR LR LR *)
        bnd H s. destruct (lr_lr_times a b s alpha tA tB WA WB E2 E) as [Wx [X1 [X2 X3]]].
        apply (acc_lr_case c _ beta C' _ _ _ WC Wx X1 X2 X3 H).
      * (* LR LR H *)
        bnd H s. destruct (lr_lr_times a b s alpha tA tB WA WB E2 E) as [Wx [X1 [X2 X3]]].
        apply (acc_h_case _ _ beta C' _ _ _ WC Wx X1 X2 X3 H).
    + destruct (dims_pos tB _ _ _ WB) as [PB0 PB1].
      destruct C as [c|c|m n c|cr cc]; try discriminate.
      * (* LR H D *)
        assert (HT' : forall B' C', trans_ok tA tB (ML a) B' C').
        { eapply trans_sub_B; [apply ML_not_MH|apply MD_not_lr|exact HT]. }
        destruct ((bm =? 1) && (bn =? 1)) eqn:E11.
        { apply andb_true_iff in E11. destruct E11 as [Q1 Q2]. apply Nat.eqb_eq in Q1. apply Nat.eqb_eq in Q2. subst bm bn.
          destruct (one_block b WB) as [W0 [D1 [D2 F]]].
          apply (via (ML a) (ML a) (MH 1 1 b) (b 0 0) (MD c) alpha beta tA tB C'); auto; try apply feq_refl. }
        { apply (into_views_ok (ML a) (MH bm bn b) c 1 (dim1 tB bm bn) alpha beta tA tB C'); auto. }
      * (* LR H LR *)
        bnd H x. bnd H v. fold (oR tA a) in E.
        destruct (Hgn (MD (oR tA a)) (MH bm bn b) alpha tA tB x I WB (trans_D_l _ _ _ _ _) E) as [N1 [N2 [N3 [N4 [N5 N6]]]]].
        destruct x; try discriminate. inv E0. simpl nrows in N4. simpl ncols in N5.
        destruct (lr_times a v (MH bm bn b) alpha tA tB WA E2) as [Wx [X1 [X2 X3]]]; auto.
        { rewrite N4, N5. exact N6. }
        apply (acc_lr_case c _ beta C' _ _ _ WC Wx X1 X2 X3 H).
      * (* LR H H *)
        assert (HT' : forall B' C', trans_ok tA tB (ML a) B' C').
        { eapply trans_sub_B; [apply ML_not_MH|apply (MH_not_lr m n c)|exact HT]. }
        apply assert_Ok in H. destruct H as [E4 H]. apply Nat.eqb_eq in E4.
        destruct ((bm =? 1) && (bn =? 1)) eqn:E11.
        { apply andb_true_iff in E11. destruct E11 as [Q1 Q2]. apply Nat.eqb_eq in Q1. apply Nat.eqb_eq in Q2. subst bm bn.
          destruct (one_block b WB) as [W0 [D1 [D2 F]]].
          apply (via (ML a) (ML a) (MH 1 1 b) (b 0 0) (MH m n c) alpha beta tA tB C'); auto; try apply feq_refl. }
        destruct ((dim0 tB bm bn =? 1) && (m =? 1)) eqn:E01.
        { apply andb_true_iff in E01. destruct E01 as [Q1 Q2]. apply Nat.eqb_eq in Q1. apply Nat.eqb_eq in Q2.
          bnd H c'. inv H. apply (row_case (ML a) tA tB bm bn b 1 _ c alpha beta c'); auto. }
        simpl in HT. destruct HT as [[]| ->].
        bnd H x. bnd H v.
        destruct (Hgn (MD (l_V a)) (MH bm bn b) alpha false tB x I WB I E) as [N1 [N2 [N3 [N4 [N5 N6]]]]].
        destruct x; try discriminate. inv E0. simpl nrows in N4. simpl ncols in N5.
        destruct (lr_times a v (MH bm bn b) alpha false tB WA E2) as [Wx [X1 [X2 X3]]]; auto.
        { rewrite N4, N5. exact N6. }
        apply (acc_h_case _ _ beta C' _ _ _ WC Wx X1 X2 X3 H).
    + destruct C; discriminate.
  - (* A Hierarchical *)
    destruct (dims_pos tA _ _ _ WA) as [PA0 PA1].
    destruct B as [b|b|bm bn b|br bc].
    + destruct C as [c|c|m n c|cr cc]; try discriminate.
      * (* H D D *)
        destruct ((am =? 1) && (an =? 1)) eqn:E11.
        { apply andb_true_iff in E11. destruct E11 as [Q1 Q2]. apply Nat.eqb_eq in Q1. apply Nat.eqb_eq in Q2. subst am an.
          destruct (one_block a WA) as [W0 [D1 [D2 F]]].
          apply (via (MH 1 1 a) (a 0 0) (MD b) (MD b) (MD c) alpha beta tA tB C'); auto; try apply feq_refl; try apply trans_D_r. }
        { apply (into_views_ok (MH am an a) (MD b) c (dim0 tA am an) 1 alpha beta tA tB C'); auto. }
      * (* H D LR *)
        bnd H HB. apply split_D in E; [|destruct tB; lia|destruct tB; lia].
        destruct E as [bh [-> [W [D1 [D2 [F FD]]]]]].
        match type of H with g _ ?X _ _ _ _ _ = _ =>
        apply (via (MH am an a) (MH am an a) (MD b) X (ML c) alpha beta tA tB C') end; auto; try apply feq_refl; try (apply trans_HD_r; auto; discriminate).
      * (* H D H *)
        destruct ((am =? 1) && (an =? 1)) eqn:E11.
        { apply andb_true_iff in E11. destruct E11 as [Q1 Q2]. apply Nat.eqb_eq in Q1. apply Nat.eqb_eq in Q2. subst am an.
          destruct (one_block a WA) as [W0 [D1 [D2 F]]].
          apply (via (MH 1 1 a) (a 0 0) (MD b) (MD b) (MH m n c) alpha beta tA tB C'); auto; try apply feq_refl; try apply trans_D_r. }
        destruct ((dim1 tA am an =? 1) && (n =? 1)) eqn:E01.
        { apply andb_true_iff in E01. destruct E01 as [Q1 Q2]. apply Nat.eqb_eq in Q1. apply Nat.eqb_eq in Q2.
          bnd H c'. inv H. apply (col_case (MD b) tA tB am an a m 1 c alpha beta c'); auto.
          intros; try apply trans_D_r. }
        pose proof WC as [Pm [Pn _]].
        bnd H HB. apply split_D in E; [|destruct tB; lia|destruct tB; lia].
        destruct E as [bh [-> [W [D1 [D2 [F FD]]]]]].
        match type of H with g _ ?X _ _ _ _ _ = _ =>
        apply (via (MH am an a) (MH am an a) (MD b) X (MH m n c) alpha beta tA tB C') end; auto; try apply feq_refl; try (apply trans_HD_r; auto; discriminate).
    + simpl in WB.
      destruct C as [c|c|m n c|cr cc]; try discriminate.
      * (* H LR D *)
        assert (HT' : forall A' C', trans_ok tA tB A' (ML b) C').
        { eapply trans_sub_A; [apply ML_not_MH|apply MD_not_lr|exact HT]. }
        destruct ((am =? 1) && (an =? 1)) eqn:E11.
        { apply andb_true_iff in E11. destruct E11 as [Q1 Q2]. apply Nat.eqb_eq in Q1. apply Nat.eqb_eq in Q2. subst am an.
          destruct (one_block a WA) as [W0 [D1 [D2 F]]].
          apply (via (MH 1 1 a) (a 0 0) (ML b) (ML b) (MD c) alpha beta tA tB C'); auto; try apply feq_refl. }
        { apply (into_views_ok (MH am an a) (ML b) c (dim0 tA am an) 1 alpha beta tA tB C'); auto. }
      * (* H LR LR *)
        bnd H x. bnd H u. fold (oL tB b) in E.
        destruct (Hgn (MH am an a) (MD (oL tB b)) alpha tA tB x WA I (trans_D_r _ _ _ _ _) E) as [N1 [N2 [N3 [N4 [N5 N6]]]]].
        destruct x; try discriminate. inv E0. simpl nrows in N4. simpl ncols in N5.
        destruct (times_lr (MH am an a) u b alpha tA tB WB E2) as [Wx [X1 [X2 X3]]]; auto.
        { rewrite N4, N5. exact N6. }
        apply (acc_lr_case c _ beta C' _ _ _ WC Wx X1 X2 X3 H).
      * (* H LR H *)
        assert (HT' : forall A' C', trans_ok tA tB A' (ML b) C').
        { eapply trans_sub_A; [apply ML_not_MH|apply (MH_not_lr m n c)|exact HT]. }
        destruct ((am =? 1) && (an =? 1)) eqn:E11.
        { apply andb_true_iff in E11. destruct E11 as [Q1 Q2]. apply Nat.eqb_eq in Q1. apply Nat.eqb_eq in Q2. subst am an.
          destruct (one_block a WA) as [W0 [D1 [D2 F]]].
          apply (via (MH 1 1 a) (a 0 0) (ML b) (ML b) (MH m n c) alpha beta tA tB C'); auto; try apply feq_refl. }
        destruct ((dim1 tA am an =? 1) && (n =? 1)) eqn:E01.
        { apply andb_true_iff in E01. destruct E01 as [Q1 Q2]. apply Nat.eqb_eq in Q1. apply Nat.eqb_eq in Q2.
          bnd H c'. inv H. apply (col_case (ML b) tA tB am an a m 1 c alpha beta c'); auto. }
        simpl in HT. destruct HT as [[]|[-> ->]].
        bnd H x. bnd H u.
        destruct (Hgn (MH am an a) (MD (l_U b)) alpha false false x WA I (trans_D_r _ _ _ _ _) E) as [N1 [N2 [N3 [N4 [N5 N6]]]]].
        destruct x; try discriminate. inv E0. simpl nrows in N4. simpl ncols in N5.
        destruct (times_lr (MH am an a) u b alpha false false WB E2) as [Wx [X1 [X2 X3]]]; auto.
        { rewrite N4, N5. exact N6. }
        apply (acc_h_case _ _ beta C' _ _ _ WC Wx X1 X2 X3 H).
    + destruct (dims_pos tB _ _ _ WB) as [PB0 PB1].
      destruct C as [c|c|m n c|cr cc]; try discriminate.
      * (* H H D *)
        assert (HT' : forall C, trans_ok tA tB (MH am an a) (MH bm bn b) C) by (intros; eapply trans_ok_D; exact HT).
        apply assert_Ok in H. destruct H as [E4 H]. apply Nat.eqb_eq in E4.
        destruct ((dim0 tA am an =? 1) && (dim1 tB bm bn =? 1)) eqn:E01.
        2:{ apply (into_views_ok (MH am an a) (MH bm bn b) c (dim0 tA am an) (dim1 tB bm bn) alpha beta tA tB C'); auto. }
        apply andb_true_iff in E01. destruct E01 as [Q1 Q2]. apply Nat.eqb_eq in Q1. apply Nat.eqb_eq in Q2.
        match type of H with for_loop _ ?bd _ = _ =>
          destruct (loop_ok g (dim1 tA am an) bd (fun k => opb tA a 0 k) (fun k => opb tB b k 0) (MD c) alpha beta tA tB C' Hg PA1 I)
            as [W' [L [Ld Lr]]]; [| |exact H|] end.
        { intros k Hk. assert (Hk' : k < dim0 tB bm bn) by lia.
          split; [apply (op_block tA am an a 0 k WA PA0 Hk)|]. split; [apply (op_block tB bm bn b k 0 WB Hk' PB1)|].
          intros c0 _. simpl in HT. eapply trans_ok_D. apply (HT 0 0 k PA0 Hk Hk' PB1). }
        { intros k c0 c1 Hk Hb. bnd Hb ak. bnd Hb bk.
          apply (hvec_row tA) in E; auto. destruct E as [_ ->].
          apply (hvec_col tB) in E0; auto. destruct E0 as [_ ->]. exact Hb. }
        split; auto. split; auto. eapply rel_eq_r; [exact Lr|].
        unfold gemm_value. apply feq_add; [apply feq_refl|]. apply feq_scale. apply feq_sym.
        assert (EI : forall k, k < dim1 tA am an -> ow tA a k = oh tB b k).
        { intros k Hk. destruct (Ld k Hk) as [_ [E _]].
          assert (Hk' : k < dim0 tB bm bn) by lia.
          destruct (op_block tA _ _ a 0 k WA PA0 Hk) as [_ [_ [F1 _]]].
          destruct (op_block tB _ _ b k 0 WB Hk' PB1) as [_ [F2 _]]. congruence. }
        pose proof (product_block tA tB am an a bm bn b 0 0 WA WB (Nat.eq_le_incl _ _ E4) PA0 PB1 EI) as P.
        rewrite opr_MH, Q1 in E1. rewrite opc_MH, Q2 in E3. cbn [offs plus nrows ncols] in E1, E3.
        cbn [nrows ncols]. rewrite <- E1, <- E3. exact P.
      * (* H H LR *)
        assert (HT' : forall C, trans_ok tA tB (MH am an a) (MH bm bn b) C).
        { intros C. eapply (trans_ok_D tA tB _ _ (d_zeros 0 0)). exact HT. }
        destruct (use_eps c).
        { bnd H cd. destruct (densify_spec (ML c) WC) as [cd' [F0 [F1 [F2 F3]]]].
          rewrite F0 in E. inv E.
          bnd H x. destruct (Hg _ _ (MD cd) _ _ _ _ _ WA WB I (HT' _) E) as [G1 [G2 [G3 [G4 [G5 G6]]]]].
          destruct (layout_dense _ _ G5) as [d [-> [D1 D2]]].
          simpl to_dense in H. simpl bind in H. bnd H c'. inv H. apply (on_eps _ _ HO) in E0.
          destruct E0 as [X1 [X2 [X3 X4]]]. simpl in F1, F2.
          split; [exact X1|]. split; [simpl; split; congruence|]. split; [|intros []].
          cbn [nrows ncols ent]. rewrite <- F1, <- F2, <- D1, <- D2. eapply near_trans; [exact X4|].
          apply near_feq. apply rel_dense in G6. rewrite D1, D2. eapply feq_trans; [exact G6|].
          unfold gemm_value. apply feq_add; [|apply feq_refl]. apply feq_scale. rewrite F1, F2. exact F3. }
        { bnd H AB. destruct (Hgn _ _ _ _ _ _ WA WB (HT' _) E) as [N1 [N2 [N3 [N4 [N5 N6]]]]].
          bnd H x. destruct AB as [| |p q ab|]; try discriminate. unfold crank_h in E0.
          apply assert_Ok in E0. destruct E0 as [_ E0]. apply assert_Ok in E0. destruct E0 as [_ E0].
          bnd E0 d. destruct (densify_spec (MH p q ab) N2) as [d' [F0 [F1 [F2 F3]]]].
          rewrite F0 in E4. inv E4. apply (on_rank _ _ HO) in E0. destruct E0 as [Wx [X2 [X3 X4]]].
          destruct (acc_lr_spec N Or HO c x beta C' WC Wx H) as [A1 [A2 [A3 [A4 [A5 _]]]]].
          split; auto. split; auto. split; [|intros []].
          eapply near_trans; [exact A5|]. unfold gemm_value. cbn [nrows ncols].
          eapply near_trans; [apply near_feq; apply meq_feq; apply meq_add_comm|].
          eapply near_trans; [|apply near_feq; apply meq_feq; apply meq_add_comm].
          apply near_add. rewrite A1, A2, X2, X3. eapply near_trans; [exact X4|].
          apply near_feq. rewrite F1, F2. eapply feq_trans; [exact F3|]. rewrite N4, N5. exact N6. }
      * (* H H H *)
        apply assert_Ok in H. destruct H as [E4 H]. apply Nat.eqb_eq in E4.
        apply assert_Ok in H. destruct H as [E5 H]. apply Nat.eqb_eq in E5.
        apply assert_Ok in H. destruct H as [E6 H]. apply Nat.eqb_eq in E6.
        bnd H c'. inv H.
        apply hhh_combine; auto. intros i j Hi Hj.
        pose proof (collect_spec _ _ _ _ E i j Hi Hj) as Hl. cbv beta in Hl.
        destruct (wf_block _ _ _ i j WC Hi Hj) as [Wc _].
        match type of Hl with for_loop _ ?bd _ = _ =>
          apply (loop_ok g (dim1 tA am an) bd (fun k => opb tA a i k) (fun k => opb tB b k j) (c i j) alpha beta tA tB (c' i j) Hg PA1 Wc);
            [| |exact Hl] end.
        { intros k Hk. assert (Hk' : k < dim0 tB bm bn) by lia.
          split; [apply (op_block tA am an a i k WA Hi Hk)|]. split; [apply (op_block tB bm bn b k j WB Hk' Hj)|].
          intros c0 L. apply (trans_ok_layout tA tB _ _ (c i j)); auto. apply (HT i j k Hi Hk Hk' Hj Hi Hj). }
        { intros k c0 c1 Hk Hb. exact Hb. }
    + destruct C as [c|c|m n c|cr cc]; try discriminate.
      (* H Empty D *)
      assert (HT' : forall A' C' : matrix, trans_ok tA tB A' (ME br bc) C').
      { eapply trans_sub_A; [apply ME_not_MH|apply MD_not_lr|exact HT]. }
      destruct ((am =? 1) && (an =? 1)) eqn:E11.
      { apply andb_true_iff in E11. destruct E11 as [Q1 Q2]. apply Nat.eqb_eq in Q1. apply Nat.eqb_eq in Q2. subst am an.
        destruct (one_block a WA) as [W0 [D1 [D2 F]]].
        apply (via (MH 1 1 a) (a 0 0) (ME br bc) (ME br bc) (MD c) alpha beta tA tB C'); auto; try apply feq_refl. }
      { apply (into_views_ok (MH am an a) (ME br bc) c (dim0 tA am an) 1 alpha beta tA tB C'); auto. }
  - (* A Empty *)
    destruct B as [b|b|bm bn b|br bc]; try (destruct C; discriminate).
    destruct (dims_pos tB _ _ _ WB) as [PB0 PB1].
    destruct C as [c|c|m n c|cr cc]; try discriminate.
    destruct ((bm =? 1) && (bn =? 1)) eqn:E11.
    { apply andb_true_iff in E11. destruct E11 as [Q1 Q2]. apply Nat.eqb_eq in Q1. apply Nat.eqb_eq in Q2. subst bm bn.
      destruct (one_block b WB) as [W0 [D1 [D2 F]]].
      apply (via (ME ar ac) (ME ar ac) (MH 1 1 b) (b 0 0) (MD c) alpha beta tA tB C'); auto; try apply feq_refl. }
    { apply (into_views_ok (ME ar ac) (MH bm bn b) c 1 (dim1 tB bm bn) alpha beta tA tB C'); auto. }
Qed.

Lemma new_dense_case (A B : matrix) alpha tA tB C' :
  wf A -> wf B -> trans_ok tA tB A B (MD (d_zeros 0 0)) ->
  g A B (MD (d_zeros (opr tA A) (opc tB B))) alpha 0%r tA tB = Ok C' ->
  opc tA A = opr tB B /\ wf C' /\ no_lr C' /\ nrows C' = opr tA A /\ ncols C' = opc tB B /\
  feq (opr tA A) (opc tB B) (ent C') (mscale alpha (mmul (opc tA A) (mop tA (ent A)) (mop tB (ent B)))).
Proof.
  intros WA WB HT H.
  destruct (Hg A B (MD (d_zeros (opr tA A) (opc tB B))) alpha 0%r tA tB C' WA WB I (trans_ok_D _ _ _ _ _ _ HT) H)
    as [_ [G2 [_ [G4 [G5 G6]]]]].
  destruct (layout_dense _ _ G5) as [d [-> [D1 D2]]]. apply rel_dense in G6. simpl in D1, D2, G6.
  split; auto. split; auto. split; [exact I|]. split; auto. split; auto.
  eapply feq_trans; [exact G6|]. unfold gemm_value. apply meq_feq.
  rewrite meq_scale_0, meq_add_0_l. reflexivity.
Qed.

Lemma new_step_ok : new_ok (new_step g gn).
Proof.
  intros A B alpha tA tB C' WA WB HT H. unfold new_step in H.
  apply assert_Ok in H. destruct H as [E2 H]. apply Nat.eqb_eq in E2.
  destruct A as [a|a|am an a|ar ac]; try (apply new_dense_case; auto; fail).
  destruct B as [b|b|bm bn b|br bc]; try (apply new_dense_case; auto; fail).
  destruct ((dim0 tA am an =? 1) && (dim1 tB bm bn =? 1)); [apply new_dense_case; auto|].
  split; auto.
  destruct (dims_pos tA _ _ _ WA) as [PA0 PA1]. destruct (dims_pos tB _ _ _ WB) as [PB0 PB1].
  bnd H c. inv H.
  (* the code reads blocks of op(B) with the inner block count of op(A) *)
  set (K := dim1 tA am an) in *.
  assert (EK : forall i j, i < dim0 tA am an -> j < dim1 tB bm bn ->
     wf (c i j) /\ no_lr (c i j) /\ nrows (c i j) = oh tA a i /\ ncols (c i j) = ow tB b j /\
     (forall l, l < K -> l < dim0 tB bm bn /\ opc tA (opb tA a i l) = opr tB (opb tB b l j)) /\
     feq (oh tA a i) (ow tB b j) (ent (c i j))
       (mscale alpha (sum_products K tA tB (fun k => opb tA a i k) (fun k => opb tB b k j)))).
  { intros i j Hi Hj. pose proof (collect_spec _ _ _ _ E i j Hi Hj) as Hl. cbv beta in Hl.
    bnd Hl c0.
    assert (HTb : forall k, k < K -> k < dim0 tB bm bn -> trans_ok tA tB (opb tA a i k) (opb tB b k j) (MD (d_zeros 0 0))).
    { intros k Hk Hk'. exact (HT i j k Hi Hk Hk' Hj). }
    destruct (op_block tA _ _ a i 0 WA Hi PA1) as [Wa [Da1 [Da2 _]]].
    destruct (op_block tB _ _ b 0 j WB PB0 Hj) as [Wb [Db1 [Db2 _]]].
    destruct (Hgn _ _ _ _ _ _ Wa Wb (HTb 0 PA1 PB0) E0) as [N1 [N2 [N3 [N4 [N5 N6]]]]].
    set (Inv := fun (k : nat) (x : matrix) => wf x /\ no_lr x /\ nrows x = oh tA a i /\ ncols x = ow tB b j /\
      (forall l, l < S k -> l < dim0 tB bm bn /\ opc tA (opb tA a i l) = opr tB (opb tB b l j)) /\
      feq (oh tA a i) (ow tB b j) (ent x)
       (mscale alpha (sum_products (S k) tA tB (fun k => opb tA a i k) (fun k => opb tB b k j)))).
    assert (HI : Inv (K - 1) (c i j)).
    { apply (for_loop_inv_out _ _ _ _ Inv Hl).
      - unfold Inv. split; auto. split; auto. split; [congruence|]. split; [congruence|].
        split. { intros l Hl'. assert (l = 0) by lia. subst. auto. }
        rewrite Da1, Db2 in N6. eapply feq_trans; [exact N6|]. apply meq_feq. intros x y.
        unfold mscale, sum_products. simpl sum. ring.
      - intros k x x' Hk [I1 [I2 [I3 [I4 [I5 I6]]]]] Hx. unfold Inv.
        assert (Hk1 : S k < dim1 tA am an) by (unfold K in *; lia).
        apply assert_Ok in Hx. destruct Hx as [Hk2 Hx]. apply Nat.ltb_lt in Hk2.
        destruct (op_block tA _ _ a i (S k) WA Hi Hk1) as [Wa' [Da1' [Da2' _]]].
        destruct (op_block tB _ _ b (S k) j WB Hk2 Hj) as [Wb' [Db1' [Db2' _]]].
        destruct (Hg _ _ x _ _ _ _ _ Wa' Wb' I1 (trans_ok_D _ _ _ _ _ _ (HTb (S k) Hk1 Hk2)) Hx) as [G1 [G2 [G3 [G4 [G5 G6]]]]].
        destruct (same_layout_dims _ _ I1 G5) as [X1 X2].
        split; auto. split. { apply (same_layout_no_lr _ _ G5). exact I2. }
        split; [congruence|]. split; [congruence|].
        split. { intros l Hl'. destruct (Nat.eq_dec l (S k)) as [->|]; [auto|apply I5; lia]. }
        destruct G6 as [_ G6]. specialize (G6 I2). rewrite I3, I4 in G6.
        eapply feq_trans; [exact G6|]. unfold gemm_value.
        eapply feq_trans; [apply feq_add; [apply feq_scale; exact I6|apply feq_refl]|].
        apply meq_feq. intros p q. unfold madd, mscale, sum_products.
        change (sum (S (S k))) with (fun f => (@sum R (S k) f + f (S k))%r). cbv beta. ring. }
    unfold Inv in HI. replace (S (K - 1)) with K in HI by lia. exact HI. }
  assert (HK : K <= dim0 tB bm bn).
  { destruct (EK 0 0 PA0 PB1) as [_ [_ [_ [_ [Hl _]]]]]. destruct (Hl (K - 1)) as [Hl' _]; lia. }
  assert (EI : forall k, k < dim1 tA am an -> ow tA a k = oh tB b k).
  { intros k Hk. destruct (EK 0 0 PA0 PB1) as [_ [_ [_ [_ [Hl _]]]]]. destruct (Hl k Hk) as [Hk' Ek].
    destruct (op_block tA _ _ a 0 k WA PA0 Hk) as [_ [_ [F1 _]]].
    destruct (op_block tB _ _ b k 0 WB Hk' PB1) as [_ [F2 _]]. congruence. }
  assert (Eh : forall i, i < dim0 tA am an -> bheight c i = oh tA a i).
  { intros i Hi. unfold bheight. apply (EK i 0 Hi PB1). }
  assert (Ew : forall j, j < dim1 tB bm bn -> bwidth c j = ow tB b j).
  { intros j Hj. unfold bwidth. apply (EK 0 j PA0 Hj). }
  split.
  { split; auto. split; auto. intros i j Hi Hj.
    destruct (EK i j Hi Hj) as [X1 [_ [X2 [X3 _]]]]. split; auto.
    unfold bheight in Eh. unfold bwidth in Ew. rewrite Eh, Ew by auto. auto. }
  split. { intros i j Hi Hj. apply EK; auto. }
  assert (Dr : nrows (MH (dim0 tA am an) (dim1 tB bm bn) c) = opr tA (MH am an a)).
  { rewrite nrows_MH, opr_MH. apply offs_ext. auto. }
  assert (Dc : ncols (MH (dim0 tA am an) (dim1 tB bm bn) c) = opc tB (MH bm bn b)).
  { rewrite ncols_MH, opc_MH. apply offs_ext. auto. }
  split; auto. split; auto. rewrite <- Dr, <- Dc.
  apply feq_by_blocks. intros bi bj x y Hbi Hbj Hx Hy. rewrite ent_block by auto.
  destruct (EK bi bj Hbi Hbj) as [_ [_ [_ [_ [_ F]]]]].
  rewrite Eh in Hx by auto. rewrite Ew in Hy by auto. rewrite (F x y Hx Hy). unfold mscale.
  f_equal. pose proof (product_block tA tB am an a bm bn b bi bj WA WB HK Hbi Hbj EI) as P.
  fold K in P. rewrite <- (P x y Hx Hy). unfold mwin. symmetry.
  rewrite (offs_ext (bheight c) (oh tA a) bi) by (intros; apply Eh; lia).
  rewrite (offs_ext (bwidth c) (ow tB b) bj) by (intros; apply Ew; lia). reflexivity.
Qed.

End Step.

Lemma gemm_pair_ok fuel : gemm_ok (gemm Or fuel) /\ new_ok (gemm_new Or fuel).
Proof.
  unfold gemm, gemm_new. induction fuel as [|f [IH1 IH2]].
  - split.
    + intros A B C alpha beta tA tB C' _ _ _ _ H. discriminate.
    + intros A B alpha tA tB C' _ _ _ H. discriminate.
  - split; cbn [gemm_pair fst snd].
    + apply gemm_step_ok; auto.
    + apply new_step_ok; auto.
Qed.

End Correct.
