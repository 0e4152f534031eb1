(** Block LU and the solution of linear systems. *)
From Coq Require Import List Arith ZArith QArith Lia Bool Ring_theory Ring Setoid Morphisms.
From Verif Require Import Prelude Ring MatFun MatSetoid Matrix MatOps MatSpec MatOpsProofs Gemm GemmSpec
  GemmProofs GemmCorrect Triangular TriAlgebra TriSpec TriProofs LuProofs.
Import ListNotations.
Local Open Scope nat_scope.

Section Lu.
Context {R : cring}.
Add Ring Rr : (cr_th R).
Notation dense := (dense R).
Notation lowrank := (lowrank R).
Notation matrix := (matrix R).
Notation mat := (mat R).
Variable N : nearness R.
Variable Or : oracles R.
Hypothesis HO : oracles_near N Or.
Variable rinv : R -> R.
Variable gfuel : nat.
Notation rel := (rel N).
Notation trsm := (trsm rinv Or gfuel).
Notation acc_gemm := (acc_gemm Or gfuel).

(** * Shapes *)

Lemma same_layout_diag (A : matrix) : lu_shape A -> forall B, same_layout A B -> same_diag A B.
Proof.
  induction A as [d|l|m n a IH|r c]; intros HS [| |m' n' b|] H; simpl in *; auto.
  destruct H as [-> [-> H]]. destruct HS as [-> [_ [HS _]]].
  split; auto.
Qed.

Lemma same_diag_trans (A : matrix) : forall B C, same_diag A B -> same_diag B C -> same_diag A C.
Proof.
  induction A as [d|l|m n a IH|r c]; intros [| |m' n' b|] [| |m2 n2 b2|] H1 H2; simpl in *; try contradiction; auto.
  destruct H1 as [-> [-> H1]]. destruct H2 as [-> [-> H2]]. split; auto. split; auto.
  intros i Hi. eapply IH; eauto.
Qed.

Lemma conf_diag s (A : matrix) : forall A' B, same_diag A A' -> conf s A B -> conf s A' B.
Proof.
  induction A as [d|l|m n a IH|r c]; intros A' B H1 H2; destruct A' as [| |m2 n2 a2|]; simpl in *; try contradiction; auto.
  destruct H1 as [-> [-> H1]]. destruct B as [| |m' n' b|]; auto.
  destruct H2 as [E H2]. split; auto. intros i j Hi Hj. eapply IH; [|apply H2; auto].
  apply H1. rewrite <- E. destruct s; simpl; auto.
Qed.

Lemma lu_shape_layout (A : matrix) : wf A -> lu_shape A -> forall B, wf B -> same_layout A B -> lu_shape B.
Proof.
  induction A as [d|l|m n a IH|r c]; intros WA HS [d'|l'|m' n' b|r' c'] WB H; simpl in H; try contradiction.
  - simpl in *. lia.
  - simpl in *. lia.
  - destruct H as [-> [-> H]]. destruct HS as [-> [Hsq [HS HC]]].
    assert (D : forall i j, i < n -> j < n -> nrows (b i j) = nrows (a i j) /\ ncols (b i j) = ncols (a i j)).
    { intros i j Hi Hj. apply same_layout_dims; auto. apply (wf_block _ _ _ i j WA Hi Hj). }
    assert (P : 0 < n) by apply WA.
    simpl. split; auto. split; [|split].
    + intros i Hi. unfold bheight, bwidth. destruct (D i 0 Hi P) as [-> _]. destruct (D 0 i P Hi) as [_ ->].
      apply Hsq; auto.
    + intros i Hi. apply (IH i i); auto.
      * apply (wf_block _ _ _ i i WA Hi Hi).
      * apply (wf_block _ _ _ i i WB Hi Hi).
    + intros i j Hij Hj. destruct (HC i j Hij Hj) as [C1 C2]. assert (Hi : i < n) by lia.
      assert (SD : same_diag (a i i) (b i i)) by (apply same_layout_diag; auto).
      split; (eapply conf_layout; [|eapply conf_diag; [exact SD|eauto]]); auto.
  - simpl in *. lia.
Qed.

Lemma lu_shape_square (A : matrix) : lu_shape A -> nrows A = ncols A.
Proof.
  destruct A as [d|l|m n a|r c]; intros HS; auto.
  destruct HS as [-> [Hsq _]]. rewrite nrows_MH, ncols_MH. apply offs_ext. auto.
Qed.

Lemma udiag_diag (A : matrix) : wf A -> tri_shape A -> udiag rinv A -> diag_ok rinv Upper (nrows A) (ent A).
Proof.
  induction A as [d|l|m n a IH|r c]; intros W TS H; try (intros _; exact H).
  destruct TS as [-> [Hsq TS]]. intros _ i Hi. rewrite nrows_MH in Hi.
  destruct (locate_in _ _ _ Hi) as [bi [i' [_ [B1 [B2 B3]]]]].
  assert (E : ent (MH n n a) i i = ent (a bi bi) i' i').
  { rewrite B3 at 1.
    replace i with (offs (bwidth a) bi + i').
    - apply ent_block; auto. rewrite <- Hsq; auto.
    - rewrite B3. f_equal. apply offs_ext. intros k Hk. symmetry. apply Hsq. lia. }
  rewrite E. destruct (wf_block _ _ _ bi bi W B1 B1) as [W' [D1 D2]].
  apply (IH bi bi W' (TS bi B1) (H bi B1) eq_refl). rewrite D1. exact B2.
Qed.

(** * The factors *)

(** [L] and [U] are triangular factors of [A]. *)
Definition lu_of (A L U : matrix) : Prop :=
  wf L /\ wf U /\ tri_shape L /\ tri_shape U /\ same_diag A L /\ same_diag A U /\
  (nrows L = nrows A /\ ncols L = nrows A /\ nrows U = nrows A /\ ncols U = nrows A) /\
  feq (nrows A) (nrows A) (ent L) (tri Lower true (ent L)) /\
  feq (nrows A) (nrows A) (ent U) (tri Upper false (ent U)) /\
  rel A (mmul (nrows A) (ent L) (ent U)) (ent A).

Section Blocks.
Variable m : nat.
Variables a L U : nat -> nat -> matrix.
Variable rec : matrix -> outcome (matrix * matrix).
Hypothesis Wa : wf (MH m m a).
Hypothesis HS : lu_shape (MH m m a).
Hypothesis Hrec : forall c l u, wf c -> lu_shape c -> udiag rinv u -> rec c = Ok (l, u) -> lu_of c l u.
(** The first [lim] steps were taken. *)
Variable lim : nat.
Hypothesis HU : forall i, i < m -> i < lim -> udiag rinv (U i i).
Hypothesis Hchar : forall p q, p < m -> q < m -> Nat.min p q < lim ->
  exists c, for_loop (Nat.min p q) (fun k c => acc_gemm rm1 (L p k) (U k q) c) (a p q) = Ok c /\
    (p = q -> rec c = Ok (L p p, U p p)) /\
    (q < p -> trsm (U q q) c Upper SRight = Ok (L p q) /\ U p q = ME (nrows c) (ncols c)) /\
    (p < q -> trsm (L p p) c Lower SLeft = Ok (U p q) /\ L p q = ME (nrows c) (ncols c)).

Let h := bheight a.

Lemma shape_parts : (forall i, i < m -> bheight a i = bwidth a i) /\ (forall i, i < m -> lu_shape (a i i)) /\
  (forall i j, i < j -> j < m -> conf SLeft (a i i) (a i j) /\ conf SRight (a i i) (a j i)).
Proof. apply HS. Qed.

Lemma dims_a p q : p < m -> q < m -> wf (a p q) /\ nrows (a p q) = h p /\ ncols (a p q) = h q.
Proof.
  intros Hp Hq. destruct HS as [_ [Hsq _]]. unfold h. rewrite (Hsq q Hq).
  apply (wf_block _ _ _ p q Wa Hp Hq).
Qed.

(** What holds of finished blocks. *)
Definition done (p q : nat) : Prop :=
  (wf (L p q) /\ wf (U p q) /\ nrows (L p q) = h p /\ ncols (L p q) = h q /\
   nrows (U p q) = h p /\ ncols (U p q) = h q) /\
  (p = q -> tri_shape (L p p) /\ tri_shape (U p p) /\ same_diag (a p p) (L p p) /\ same_diag (a p p) (U p p) /\
     feq (h p) (h p) (ent (L p p)) (tri Lower true (ent (L p p))) /\
     feq (h p) (h p) (ent (U p p)) (tri Upper false (ent (U p p)))) /\
  (q < p -> U p q = ME (h p) (h q)) /\ (p < q -> L p q = ME (h p) (h q)) /\
  rel (a p q) (sum_products (S (Nat.min p q)) false false (fun k => L p k) (fun k => U k q)) (ent (a p q)).

(** The block before its own factorization or solve. *)
Lemma updated p q : p < m -> q < m -> (forall p' q', p' < m -> q' < m -> Nat.min p' q' < Nat.min p q -> done p' q') ->
  forall c, for_loop (Nat.min p q) (fun k c => acc_gemm rm1 (L p k) (U k q) c) (a p q) = Ok c ->
  wf c /\ same_layout (a p q) c /\ nrows c = h p /\ ncols c = h q /\
  rel (a p q) (madd (ent c) (sum_products (Nat.min p q) false false (fun k => L p k) (fun k => U k q))) (ent (a p q)).
Proof.
  intros Hp Hq Hd c Hc. destruct (dims_a p q Hp Hq) as [Wpq [D1 D2]].
  destruct (acc_ok N Or HO gfuel (Nat.min p q) rm1 (fun k c => acc_gemm rm1 (L p k) (U k q) c)
              (fun k => L p k) (fun k => U k q) (a p q) c Wpq) as [G1 [G2 G3]]; auto.
  { intros t Ht. split.
    - destruct (Hd p t) as [[W _] _]; auto; lia.
    - destruct (Hd t q) as [[_ [W _]] _]; auto; lia. }
  destruct (same_layout_dims _ _ Wpq G2) as [E1 E2].
  split; auto. split; auto. split; [lia|]. split; [lia|].
  eapply rel_eq_r; [apply rel_add; exact G3|].
  intros x y _ _. unfold madd, mscale, rm1. ring.
Qed.

(** The last product completes the block. *)
Lemma complete p q (c : matrix) (Lr Ur : matrix) :
  same_layout (a p q) c -> wf (a p q) -> 
  L p (Nat.min p q) = Lr -> U (Nat.min p q) q = Ur ->
  rel (a p q) (madd (ent c) (sum_products (Nat.min p q) false false (fun k => L p k) (fun k => U k q))) (ent (a p q)) ->
  rel c (mmul (ncols Lr) (ent Lr) (ent Ur)) (ent c) ->
  rel (a p q) (sum_products (S (Nat.min p q)) false false (fun k => L p k) (fun k => U k q)) (ent (a p q)).
Proof.
  intros Lc Wpq EL EU H1 H2. apply (rel_layout N (a p q) c _ _ Wpq Lc) in H2.
  apply (rel_eq_l N (a p q) (madd (mmul (ncols Lr) (ent Lr) (ent Ur))
           (sum_products (Nat.min p q) false false (fun k => L p k) (fun k => U k q)))).
  2:{ intros x y _ _. unfold madd, sum_products. rewrite sum_S. rewrite EL, EU. unfold opc, mop. ring. }
  eapply rel_trans; [apply rel_add; exact H2|exact H1].
Qed.

Lemma all_done : forall r, r <= lim -> forall p q, p < m -> q < m -> Nat.min p q < r -> done p q.
Proof.
  induction r as [|r IH']; intros Hlim p q Hp Hq Hr; [lia|].
  pose proof (IH' ltac:(lia)) as IH. clear IH'.
  destruct shape_parts as [Hsq [HSd HCf]].
  (* the diagonal block first *)
  assert (Hdiag : forall p, p < m -> p < S r -> done p p).
  { clear p q Hp Hq Hr. intros p Hp Hr.
    destruct (dims_a p p Hp Hp) as [Wpp [D1 D2]].
    destruct (Hchar p p Hp Hp ltac:(lia)) as [c [Hc [H1 _]]]. specialize (H1 eq_refl).
    destruct (updated p p Hp Hp) with (c := c) as [W1 [L1 [E1 [E2 R1]]]]; auto.
    { intros p' q' Hp' Hq' Hm. apply IH; auto. lia. }
    assert (Sc : lu_shape c) by (apply (lu_shape_layout (a p p)); auto).
    destruct (Hrec c _ _ W1 Sc (HU p Hp ltac:(lia)) H1) as [WL [WU [TL [TU [SL [SU [[F1 [F2 [F3 F4]]] [Lo [Up Rl]]]]]]]]].
    rewrite E1 in *.
    assert (SD : same_diag (a p p) c) by (apply same_layout_diag; auto).
    split; [repeat (split; auto)|]. split; [|split; [lia|split; [lia|]]].
    - intros _. split; auto. split; auto. split; [eapply same_diag_trans; eauto|].
      split; [eapply same_diag_trans; eauto|]. split; auto.
    - apply (complete p p c (L p p) (U p p)); auto.
      + now rewrite Nat.min_id.
      + now rewrite Nat.min_id.
      + rewrite F2. exact Rl. }
  destruct (Nat.lt_total p q) as [Hpq|[->|Hpq]]; [| apply Hdiag; auto; rewrite Nat.min_id in Hr; auto |].
  - (* p < q: a block of U *)
    rewrite Nat.min_l in Hr by lia.
    destruct (dims_a p q Hp Hq) as [Wpq [D1 D2]].
    destruct (Hdiag p Hp Hr) as [[WL [WU [F1 [F2 [F3 F4]]]]] [Hd _]].
    destruct (Hd eq_refl) as [TL [TU [SL [SU [Lo Up]]]]].
    destruct (Hchar p q Hp Hq ltac:(lia)) as [c [Hc [_ [_ H1]]]]. destruct (H1 Hpq) as [Ht EL].
    destruct (updated p q Hp Hq) with (c := c) as [W1 [L1 [E1 [E2 R1]]]]; auto.
    { intros p' q' Hp' Hq' Hm. apply IH; auto. lia. }
    destruct (trsm_ok N Or HO rinv gfuel (L p p) c Lower SLeft (U p q)) as [X1 [X2 X3]]; auto.
    { apply (conf_diag SLeft (a p p)); auto. apply (conf_layout SLeft (a p p) (a p q)); auto.
      apply HCf; auto. }
    { simpl. rewrite F1, E1. reflexivity. }
    { intros E; discriminate. }
    destruct (same_layout_dims _ _ W1 X2) as [Y1 Y2].
    split; [|split; [lia|split; [lia|split]]].
    + rewrite EL. simpl. rewrite E1, E2. repeat (split; auto); lia.
    + intros _. rewrite EL, E1, E2. reflexivity.
    + apply (complete p q c (L p p) (U p q)); auto.
      * now rewrite Nat.min_l by lia.
      * now rewrite Nat.min_l by lia.
      * simpl tri_prod in X3. eapply rel_eq_l; [exact X3|]. rewrite E1, E2, F1, F2.
        apply feq_mmul with (k := h p); [|apply feq_refl]. exact Lo.
  - (* q < p: a block of L *)
    rewrite Nat.min_r in Hr by lia.
    destruct (dims_a p q Hp Hq) as [Wpq [D1 D2]].
    destruct (Hdiag q Hq Hr) as [[WL [WU [F1 [F2 [F3 F4]]]]] [Hd _]].
    destruct (Hd eq_refl) as [TL [TU [SL [SU [Lo Up]]]]].
    destruct (Hchar p q Hp Hq ltac:(lia)) as [c [Hc [_ [H1 _]]]]. destruct (H1 Hpq) as [Ht EU].
    destruct (updated p q Hp Hq) with (c := c) as [W1 [L1 [E1 [E2 R1]]]]; auto.
    { intros p' q' Hp' Hq' Hm. apply IH; auto. lia. }
    destruct (trsm_ok N Or HO rinv gfuel (U q q) c Upper SRight (L p q)) as [X1 [X2 X3]]; auto.
    { apply (conf_diag SRight (a q q)); auto. apply (conf_layout SRight (a q q) (a p q)); auto.
      apply HCf; auto. }
    { simpl. rewrite F3, E2. reflexivity. }
    { apply udiag_diag; auto. apply HU; auto. lia. }
    destruct (same_layout_dims _ _ W1 X2) as [Y1 Y2].
    split; [|split; [lia|split; [|split; [lia|]]]].
    + rewrite EU. simpl. rewrite E1, E2. repeat (split; auto); lia.
    + intros _. rewrite EU, E1, E2. reflexivity.
    + apply (complete p q c (L p q) (U q q)); auto.
      * now rewrite Nat.min_r by lia.
      * now rewrite Nat.min_r by lia.
      * simpl tri_prod in X3. eapply rel_eq_l; [exact X3|]. rewrite E1, E2, F3, Y2, E2.
        apply feq_mmul with (k := h q); [apply feq_refl|]. exact Up.
Qed.

Lemma blocks_lu : m <= lim -> lu_of (MH m m a) (MH m m L) (MH m m U).
Proof.
  intros Hlim. destruct shape_parts as [Hsq [HSd HCf]].
  assert (HD : forall p q, p < m -> q < m -> done p q).
  { intros p q Hp Hq. apply (all_done (S (Nat.min p q))); auto. lia. }
  assert (P : 0 < m) by apply Wa.
  assert (HhL : forall i, i < m -> bheight L i = h i /\ bwidth L i = h i /\ bheight U i = h i /\ bwidth U i = h i).
  { intros i Hi. unfold bheight, bwidth.
    destruct (HD i 0 Hi P) as [[_ [_ [A1 [A2 [A3 A4]]]]] _].
    destruct (HD 0 i P Hi) as [[_ [_ [B1 [B2 [B3 B4]]]]] _]. auto. }
  assert (WL : wf (MH m m L)).
  { simpl. split; auto. split; auto. intros i j Hi Hj.
    destruct (HD i j Hi Hj) as [[W [_ [A1 [A2 _]]]] _]. split; auto.
    destruct (HhL i Hi) as [E1 _]. destruct (HhL j Hj) as [_ [E2 _]]. unfold bheight, bwidth in *. lia. }
  assert (WU : wf (MH m m U)).
  { simpl. split; auto. split; auto. intros i j Hi Hj.
    destruct (HD i j Hi Hj) as [[_ [W [_ [_ [A1 A2]]]]] _]. split; auto.
    destruct (HhL i Hi) as [_ [_ [E1 _]]]. destruct (HhL j Hj) as [_ [_ [_ E2]]]. unfold bheight, bwidth in *. lia. }
  assert (EhL : forall k, k <= m -> offs (bheight L) k = offs h k).
  { intros k Hk. apply offs_ext. intros i Hi. apply HhL. lia. }
  assert (EwL : forall k, k <= m -> offs (bwidth L) k = offs h k).
  { intros k Hk. apply offs_ext. intros i Hi. apply HhL. lia. }
  assert (EhU : forall k, k <= m -> offs (bheight U) k = offs h k).
  { intros k Hk. apply offs_ext. intros i Hi. apply HhL. lia. }
  assert (EwU : forall k, k <= m -> offs (bwidth U) k = offs h k).
  { intros k Hk. apply offs_ext. intros i Hi. apply HhL. lia. }
  assert (Ewa : forall k, k <= m -> offs (bwidth a) k = offs h k).
  { intros k Hk. apply offs_ext. intros i Hi. symmetry. apply Hsq. lia. }
  assert (En : nrows (MH m m a) = offs h m) by reflexivity.
  split; auto. split; auto. split; [|split; [|split; [|split; [|split; [|split; [|split]]]]]].
  - simpl. split; auto. split.
    + intros i Hi. destruct (HhL i Hi) as [-> [-> _]]. reflexivity.
    + intros i Hi. destruct (HD i i Hi Hi) as [_ [Hd _]]. apply Hd; auto.
  - simpl. split; auto. split.
    + intros i Hi. destruct (HhL i Hi) as [_ [_ [-> ->]]]. reflexivity.
    + intros i Hi. destruct (HD i i Hi Hi) as [_ [Hd _]]. apply Hd; auto.
  - simpl. split; auto. split; auto. intros i Hi. destruct (HD i i Hi Hi) as [_ [Hd _]]. apply Hd; auto.
  - simpl. split; auto. split; auto. intros i Hi. destruct (HD i i Hi Hi) as [_ [Hd _]]. apply Hd; auto.
  - rewrite !nrows_MH, !ncols_MH. rewrite EhL, EwL, EhU, EwU by lia. auto.
  - (* L is unit lower triangular *)
    rewrite En. intros i j Hi Hj.
    destruct (locate_in _ _ _ Hi) as [p [x [_ [P1 [P2 P3]]]]].
    destruct (locate_in _ _ _ Hj) as [q [y [_ [Q1 [Q2 Q3]]]]]. subst i j.
    assert (EB : forall p q x y, p < m -> q < m -> x < h p -> y < h q ->
       ent (MH m m L) (offs h p + x) (offs h q + y) = ent (L p q) x y).
    { intros p' q' x' y' H1 H2 H3 H4. rewrite <- (EhL p') by lia. rewrite <- (EwL q') by lia.
      apply ent_block; auto.
      - destruct (HhL p' H1) as [-> _]. auto.
      - destruct (HhL q' H2) as [_ [-> _]]. auto. }
    destruct (Nat.eq_dec p q) as [<-|Hn].
    + pose proof (tri_win Lower true h p (ent (MH m m L)) x y) as T. unfold mwin at 1 in T. rewrite T.
      rewrite EB by auto. destruct (HD p p P1 P1) as [_ [Hd _]]. destruct (Hd eq_refl) as [_ [_ [_ [_ [Lo _]]]]].
      rewrite (Lo x y P2 Q2) at 1. symmetry. apply (tri_ext Lower true (h p)); auto.
      intros u v Hu Hv. unfold mwin. apply EB; auto.
    + pose proof (tri_off Lower true h p q (ent (MH m m L)) x y Hn P2 Q2) as T. unfold mwin in T. rewrite T.
      destruct (q <? p) eqn:E; auto. apply Nat.ltb_ge in E.
      rewrite EB by auto. destruct (HD p q P1 Q1) as [_ [_ [_ [HL _]]]]. rewrite HL by lia. reflexivity.
  - rewrite En. intros i j Hi Hj.
    destruct (locate_in _ _ _ Hi) as [p [x [_ [P1 [P2 P3]]]]].
    destruct (locate_in _ _ _ Hj) as [q [y [_ [Q1 [Q2 Q3]]]]]. subst i j.
    assert (EB : forall p q x y, p < m -> q < m -> x < h p -> y < h q ->
       ent (MH m m U) (offs h p + x) (offs h q + y) = ent (U p q) x y).
    { intros p' q' x' y' H1 H2 H3 H4. rewrite <- (EhU p') by lia. rewrite <- (EwU q') by lia.
      apply ent_block; auto.
      - destruct (HhL p' H1) as [_ [_ [-> _]]]. auto.
      - destruct (HhL q' H2) as [_ [_ [_ ->]]]. auto. }
    destruct (Nat.eq_dec p q) as [<-|Hn].
    + pose proof (tri_win Upper false h p (ent (MH m m U)) x y) as T. unfold mwin at 1 in T. rewrite T.
      rewrite EB by auto. destruct (HD p p P1 P1) as [_ [Hd _]]. destruct (Hd eq_refl) as [_ [_ [_ [_ [_ Up]]]]].
      rewrite (Up x y P2 Q2) at 1. symmetry. apply (tri_ext Upper false (h p)); auto.
      intros u v Hu Hv. unfold mwin. apply EB; auto.
    + pose proof (tri_off Upper false h p q (ent (MH m m U)) x y Hn P2 Q2) as T. unfold mwin in T. rewrite T.
      destruct (p <? q) eqn:E; auto. apply Nat.ltb_ge in E.
      rewrite EB by auto. destruct (HD p q P1 Q1) as [_ [_ [HL _]]]. rewrite HL by lia. reflexivity.
  - (* the product *)
    apply rel_blocks; auto. intros p q Hp Hq.
    destruct (HD p q Hp Hq) as [_ [_ [_ [_ Rl]]]].
    destruct (dims_a p q Hp Hq) as [Wpq [D1 D2]].
    eapply rel_trans.
    2:{ apply rel_feq with (f := ent (a p q)). rewrite D1, D2. intros x y Hx Hy. unfold mwin. symmetry.
        rewrite Hsq in Hy by auto. apply ent_block; auto. }
    eapply rel_eq_l; [exact Rl|]. rewrite D1, D2.
    pose proof (product_block false false m m L m m U p q WL WU (le_n m) Hp Hq) as PB.
    cbn [dim1 dim0 opb oh ow opc mop] in PB.
    assert (EI : forall k, k < m -> bwidth L k = bheight U k).
    { intros k Hk. destruct (HhL k Hk) as [_ [-> [-> _]]]. reflexivity. }
    specialize (PB EI). change (oh false L) with (bheight L) in PB. change (ow false U) with (bwidth U) in PB.
    rewrite ncols_MH in PB. rewrite EwL in PB by lia.
    rewrite (EhL p) in PB by lia. rewrite (EwU q) in PB by lia.
    destruct (HhL p Hp) as [Ep _]. destruct (HhL q Hq) as [_ [_ [_ Eq]]]. rewrite Ep, Eq in PB.
    rewrite (Ewa q) by lia. rewrite En. eapply feq_trans; [exact PB|].
    intros x y Hx Hy. unfold sum_products.
    apply (sum_le_zero_ext (S (Nat.min p q)) m); [lia|].
    intros k Hk. unfold opc, mop.
    destruct (Nat.lt_ge_cases p k) as [Hpk|Hpk].
    + assert (Hkm : k < m) by lia.
      destruct (HD p k Hp Hkm) as [_ [_ [_ [HL _]]]]. rewrite HL by lia. simpl. apply mmul_zero_l.
    + assert (Hkm : k < m) by lia.
      destruct (HD k q Hkm Hq) as [_ [_ [HL _]]]. rewrite HL by lia. simpl. apply mmul_zero_r.
Qed.
End Blocks.

(** * getrf *)

Variable dgetrf : dense -> outcome (dense * (nat -> nat)).
Hypothesis HX : lu_contract dgetrf.
Notation getrf := (getrf rinv Or gfuel (no_exchange dgetrf)).

Lemma d_getrf_ok (dg : dense -> outcome (dense * (nat -> nat))) (A l u : dense) : d_getrf dg A = Ok (l, u) ->
  exists X p, dg A = Ok (X, p) /\ d_r l = d_r A /\ d_c l = d_c A /\ d_r u = d_r A /\ d_c u = d_c A /\
  feq (d_r A) (d_c A) (d_e l) (tri Lower true (d_e X)) /\
  feq (d_r A) (d_c A) (d_e u) (tri Upper false (d_e X)).
Proof.
  unfold d_getrf. intros H. apply bind_Ok in H. destruct H as [[X p] [HX' H]].
  apply assert_Ok in H. destruct H as [Hle H]. inversion H; subst l u; clear H. cbn [d_r d_c d_e].
  exists X, p. repeat (split; [solve [auto]|]). split.
  - intros i j Hi Hj. unfold tri.
    destruct (Nat.lt_ge_cases j (S i)) as [Hji|Hji].
    + rewrite loop_upd_in; auto; [|apply ij_loop_nodup|apply in_ij_loop; lia].
      destruct (i =? j) eqn:E; auto. apply Nat.eqb_neq in E.
      replace (j <? i) with true by (symmetry; apply Nat.ltb_lt; lia). reflexivity.
    + rewrite loop_upd_out by (rewrite in_ij_loop; lia).
      replace (i =? j) with false by (symmetry; apply Nat.eqb_neq; lia).
      replace (j <? i) with false by (symmetry; apply Nat.ltb_ge; lia). reflexivity.
  - intros i j Hi Hj. unfold tri.
    destruct (Nat.lt_ge_cases j i) as [Hji|Hji].
    + rewrite loop_upd_in; auto; [|apply ij_loop_nodup|apply in_ij_loop; lia].
      replace (i =? j) with false by (symmetry; apply Nat.eqb_neq; lia).
      replace (i <? j) with false by (symmetry; apply Nat.ltb_ge; lia). reflexivity.
    + rewrite loop_upd_out by (rewrite in_ij_loop; lia).
      destruct (i =? j) eqn:E; auto. apply Nat.eqb_neq in E.
      replace (i <? j) with true by (symmetry; apply Nat.ltb_lt; lia). reflexivity.
Qed.

(** Dense: the product is a row permutation of the input. *)
Lemma dense_lu (A l u : dense) : d_r A = d_c A -> d_getrf dgetrf A = Ok (l, u) ->
  exists X p, dgetrf A = Ok (X, p) /\ (forall i, i < d_r A -> p i < d_r A) /\
  feq (d_r A) (d_c A) (mmul (d_r A) (d_e l) (d_e u)) (fun i j => d_e A (p i) j).
Proof.
  intros Esq H. destruct (d_getrf_ok dgetrf A l u H) as [X [p [HXp [_ [_ [_ [_ [F1 F2]]]]]]]].
  destruct (HX A X p HXp Esq) as [Hp F]. exists X, p. split; auto. split; auto.
  eapply feq_trans; [|exact F]. apply feq_mmul; [rewrite Esq in *; exact F1|exact F2].
Qed.

Lemma no_exchange_ok A X p : no_exchange dgetrf A = Ok (X, p) -> dgetrf A = Ok (X, p) /\ forall i, i < d_r A -> p i = i.
Proof.
  unfold no_exchange. intros H. apply bind_Ok in H. destruct H as [[X' p'] [H1 H]].
  destruct (forallb _ _) eqn:E; [|discriminate]. inversion H; subst. split; auto.
  intros i Hi. rewrite forallb_forall in E. apply Nat.eqb_eq. apply E. apply in_seq. lia.
Qed.

Lemma tri_tri u un n (f : mat) : feq n n (tri u un f) (tri u un (tri u un f)).
Proof.
  intros i j _ _. unfold tri. destruct (i =? j) eqn:E; auto.
  - destruct un; auto.
  - destruct u; [destruct (i <? j)|destruct (j <? i)]; auto.
Qed.

Lemma getrf_ok fuel : forall A L U, wf A -> lu_shape A -> udiag rinv U -> getrf fuel A = Ok (L, U) -> lu_of A L U.
Proof.
  induction fuel as [|fuel IH]; intros A L U W HS HU H; [discriminate|].
  destruct A as [d|l|m n a|r c]; try discriminate; cbn [Triangular.getrf] in H.
  - apply bind_Ok in H. destruct H as [[l u] [H1 H]]. inversion H; subst L U; clear H.
    destruct (d_getrf_ok _ d l u H1) as [X [p [HXp [E1 [E2 [E3 [E4 [F1 F2]]]]]]]].
    apply no_exchange_ok in HXp. destruct HXp as [HXp Hid]. simpl in HS.
    destruct (HX d X p HXp HS) as [_ F]. rewrite <- HS in *.
    unfold lu_of. cbn [nrows ncols ent tri_shape same_diag wf].
    split; auto. split; auto. split; [congruence|]. split; [congruence|]. split; auto. split; auto. split; auto.
    split; [|split].
    + eapply feq_trans; [exact F1|]. eapply feq_trans; [apply tri_tri|]. apply tri_ext. apply feq_sym. exact F1.
    + eapply feq_trans; [exact F2|]. eapply feq_trans; [apply tri_tri|]. apply tri_ext. apply feq_sym. exact F2.
    + apply rel_feq. cbn [nrows ncols]. rewrite <- HS. eapply feq_trans; [|eapply feq_trans; [exact F|]].
      * apply feq_mmul; auto.
      * intros i j Hi Hj. rewrite Hid by auto. reflexivity.
  - destruct HS as [E HS]. subst n. apply assert_Ok in H. destruct H as [_ H].
    apply bind_Ok in H. destruct H as [[Lb Ub] [H1 H]]. inversion H; subst L U; clear H.
    apply (blocks_lu m a Lb Ub (getrf fuel)) with (lim := m); auto.
    + simpl. auto.
    + intros p q Hp Hq _. eapply lu_char; eauto.
Qed.

(** * Solving A x = b *)

Lemma solve_ok fuel A L U (b y x : matrix) : wf A -> lu_shape A -> wf b -> conf SLeft A b -> nrows b = nrows A ->
  no_lr b -> udiag rinv U -> getrf fuel A = Ok (L, U) ->
  trsm L b Lower SLeft = Ok y -> trsm U y Upper SLeft = Ok x ->
  same_layout b x /\
  feq (nrows A) (ncols b) (mmul (nrows A) (mmul (nrows A) (ent L) (ent U)) (ent x)) (ent b) /\
  rel A (mmul (nrows A) (ent L) (ent U)) (ent A).
Proof.
  intros W HS Wb Cb Eb Nb HU HLU Hy Hx.
  destruct (getrf_ok fuel A L U W HS HU HLU) as [WL [WU [TL [TU [SL [SU [[F1 [F2 [F3 F4]]] [Lo [Up Rl]]]]]]]]].
  destruct (trsm_ok N Or HO rinv gfuel L b Lower SLeft y) as [X1 [X2 [_ X3]]]; auto.
  { apply (conf_diag SLeft A); auto. }
  { simpl. congruence. }
  { intros E; discriminate. }
  specialize (X3 Nb).
  destruct (same_layout_dims _ _ Wb X2) as [E1 E2].
  destruct (trsm_ok N Or HO rinv gfuel U y Upper SLeft x) as [Y1 [Y2 [_ Y3]]]; auto.
  { apply (conf_layout SLeft U b); auto. apply (conf_diag SLeft A); auto. }
  { simpl. congruence. }
  { apply udiag_diag; auto. }
  assert (Ny : no_lr y) by (apply (same_layout_no_lr b y X2); auto).
  specialize (Y3 Ny).
  split; [eapply same_layout_trans; eauto|]. split; auto.
  cbn [tri_prod unit_of] in X3, Y3. rewrite E1, E2, F3, Eb in *. rewrite F1 in X3.
  eapply feq_trans; [|exact X3].
  eapply feq_trans; [apply meq_feq; apply meq_assoc|].
  apply feq_mmul with (k := nrows A); auto.
  eapply feq_trans; [|exact Y3]. apply feq_mmul with (k := nrows A); [auto|apply feq_refl].
Qed.
End Lu.
