(** Block LU: a diagonal block at the time it is factored is a Schur complement of the
    matrix. *)
From Coq Require Import List Arith ZArith Lia Bool Ring_theory Ring Setoid Morphisms.
From Verif Require Import Prelude Ring MatFun MatSetoid Matrix MatOps MatSpec MatOpsProofs Gemm GemmSpec
  GemmProofs GemmCorrect Triangular TriAlgebra TriSpec TriProofs LuProofs LuCorrect.
Import ListNotations.
Local Open Scope nat_scope.

Section Schur.
Context {R : cring}.
Add Ring Rr : (cr_th R).
Notation dense := (dense R).
Notation matrix := (matrix R).
Notation mat := (mat R).

Lemma block_product m1 k1 n1 (a L U : nat -> nat -> matrix) : wf (MH m1 n1 a) -> wf (MH m1 k1 L) -> wf (MH k1 n1 U) ->
  (forall i, i < m1 -> bheight L i = bheight a i) -> (forall j, j < n1 -> bwidth U j = bwidth a j) ->
  (forall k, k < k1 -> bwidth L k = bheight U k) ->
  (forall i j, i < m1 -> j < n1 ->
     feq (bheight a i) (bwidth a j) (sum_products k1 false false (fun k => L i k) (fun k => U k j)) (ent (a i j))) ->
  feq (nrows (MH m1 n1 a)) (ncols (MH m1 n1 a)) (mmul (ncols (MH m1 k1 L)) (ent (MH m1 k1 L)) (ent (MH k1 n1 U))) (ent (MH m1 n1 a)).
Proof.
  intros Wa WL WU H1 H2 H3 HP. apply feq_sym. apply ent_blocks. intros i j x y Hi Hj Hx Hy.
  pose proof (product_block false false m1 k1 L k1 n1 U i j WL WU (le_n _) Hi Hj H3) as PB.
  cbn [dim1 dim0 opb opc mop] in PB. change (oh false L) with (bheight L) in PB. change (ow false U) with (bwidth U) in PB.
  rewrite (H1 i Hi), (H2 j Hj) in PB.
  rewrite (offs_ext (bheight L) (bheight a) i) in PB by (intros; apply H1; lia).
  rewrite (offs_ext (bwidth U) (bwidth a) j) in PB by (intros; apply H2; lia).
  specialize (PB x y Hx Hy). unfold mwin in PB. rewrite PB. symmetry. apply HP; auto.
Qed.

Variable N : nearness R.
Variable Or : oracles R.
Hypothesis HO : oracles_near N Or.
Variable rinv : R -> R.
Variable gfuel : nat.
Notation rel := (rel N).
Notation trsm := (trsm rinv Or gfuel).
Notation acc_gemm := (acc_gemm Or gfuel).

Variable m : nat.
Variables a L U : nat -> nat -> matrix.
Variable rec : matrix -> outcome (matrix * matrix).
Hypothesis Wa : wf (MH m m a).
Hypothesis HS : lu_shape (MH m m a).
Hypothesis Hrec : forall c l u, wf c -> lu_shape c -> udiag rinv u -> rec c = Ok (l, u) -> lu_of N c l u.
Variable p : nat.
Hypothesis Hp : p < m.
Hypothesis HU : forall i, i < m -> i < p -> udiag rinv (U i i).
Hypothesis Hchar : forall i j, i < m -> j < m -> Nat.min i j < p ->
  exists c, for_loop (Nat.min i j) (fun k c => acc_gemm rm1 (L i k) (U k j) c) (a i j) = Ok c /\
    (i = j -> rec c = Ok (L i i, U i i)) /\
    (j < i -> trsm (U j j) c Upper SRight = Ok (L i j) /\ U i j = ME (nrows c) (ncols c)) /\
    (i < j -> trsm (L i i) c Lower SLeft = Ok (U i j) /\ L i j = ME (nrows c) (ncols c)).
Hypothesis tight : forall i j, i < m -> j < m -> forall f g, rel (a i j) f g -> feq (nrows (a i j)) (ncols (a i j)) f g.
Variable c : matrix.
Hypothesis Hc : for_loop p (fun k c => acc_gemm rm1 (L p k) (U k p) c) (a p p) = Ok c.

Let h := bheight a.
Let F := ent (MH m m a).
Let s := offs h p.

Lemma schur_wf : wf c /\ same_layout (a p p) c /\ lu_shape c /\ nrows c = h p /\ ncols c = h p.
Proof.
  destruct (updated N Or HO gfuel m a L U Wa HS p p Hp Hp) with (c := c) as [W1 [L1 [E1 [E2 _]]]].
  - intros i j Hi Hj Hm. apply (all_done N Or HO rinv gfuel m a L U rec Wa HS Hrec p HU Hchar p (le_n _)); auto. lia.
  - rewrite Nat.min_id. exact Hc.
  - split; auto. split; auto. split; auto. apply (lu_shape_layout (a p p)); auto.
    + apply (wf_block _ _ _ p p Wa Hp Hp).
    + apply HS. exact Hp.
Qed.

Lemma F_block i j x y : i < m -> j < m -> x < h i -> y < h j -> F (offs h i + x) (offs h j + y) = ent (a i j) x y.
Proof.
  intros Hi Hj Hx Hy. destruct HS as [_ [Hsq _]].
  replace (offs h j) with (offs (bwidth a) j) by (apply offs_ext; intros; symmetry; apply Hsq; lia).
  apply ent_block; auto. rewrite <- Hsq; auto.
Qed.

Theorem schur_block : exists X : mat,
  (forall r k, r < h p -> k < s -> sum s (fun l => (X r l * F l k)%r) = F (s + r) k) /\
  (forall r j, r < h p -> j < h p -> ent c r j = (F (s + r)%nat (s + j)%nat - sum s (fun k => (X r k * F k (s + j)%nat)%r))%r).
Proof.
  assert (HD : forall i j, i < m -> j < m -> Nat.min i j < p -> done N a L U i j).
  { intros i j Hi Hj Hm. apply (all_done N Or HO rinv gfuel m a L U rec Wa HS Hrec p HU Hchar p (le_n _)); auto. }
  destruct (updated N Or HO gfuel m a L U Wa HS p p Hp Hp) with (c := c) as [W1 [L1 [E1 [E2 R1]]]].
  { intros i j Hi Hj Hm. apply HD; auto. lia. }
  { rewrite Nat.min_id. exact Hc. }
  apply tight in R1; auto. destruct (dims_a m a Wa HS p p Hp Hp) as [Wpp [D1 D2]]. rewrite D1, D2 in R1.
  rewrite Nat.min_id in R1. fold h in R1, D1, D2, E1, E2.
  destruct (Nat.eq_dec p 0) as [E0|Hpos].
  { exists (fun _ _ => rO). unfold s. rewrite E0. split; [simpl; intros; lia|]. intros r j Hr Hj.
    rewrite E0 in R1. rewrite (F_block 0 0) by (auto; lia). rewrite <- (R1 r j Hr Hj). unfold madd, sum_products. simpl. ring. }
  (* the leading part *)
  assert (Hsq : forall i, i < m -> bheight a i = bwidth a i) by apply HS.
  assert (Wlead : wf (MH p p a)).
  { destruct Wa as [P1 [P2 P3]]. simpl. split; [lia|]. split; [lia|]. intros i j Hi Hj. apply P3; lia. }
  assert (Slead : lu_shape (MH p p a)).
  { destruct HS as [_ [P1 [P2 P3]]]. simpl. split; auto. split; [intros; apply P1; lia|]. split; [intros; apply P2; lia|].
    intros; apply P3; lia. }
  destruct (blocks_lu N Or HO rinv gfuel p a L U rec Wlead Slead Hrec p) as [WL1 [WU1 [_ [_ [_ [_ [[N1 [N2 [N3 N4]]] [Lo [Up Rl]]]]]]]]].
  { intros i Hi _. apply HU; auto. lia. }
  { intros i j Hi Hj Hm. apply Hchar; auto; lia. }
  { lia. }
  change (nrows (MH p p a)) with s in *.
  assert (HhL : forall i, i < m -> bheight L i = h i /\ bwidth L i = h i /\ bheight U i = h i /\ bwidth U i = h i).
  { intros i Hi. unfold bheight, bwidth.
    destruct (HD i 0) as [[_ [_ [A1 [A2 [A3 A4]]]]] _]; try lia.
    destruct (HD 0 i) as [[_ [_ [B1 [B2 [B3 B4]]]]] _]; try lia. auto. }
  assert (full : forall i j, i < m -> j < m -> Nat.min i j < p ->
    feq (h i) (h j) (sum_products p false false (fun k => L i k) (fun k => U k j)) (ent (a i j))).
  { intros i j Hi Hj Hm. destruct (HD i j Hi Hj Hm) as [_ [_ [_ [_ Rij]]]]. apply tight in Rij; auto.
    destruct (dims_a m a Wa HS i j Hi Hj) as [_ [G1 G2]]. rewrite G1, G2 in Rij. fold h in Rij.
    intros x y Hx Hy. rewrite <- (Rij x y Hx Hy). unfold sum_products. symmetry.
    symmetry. apply (sum_le_zero_ext (S (Nat.min i j)) p); [lia|]. intros k Hk. unfold opc, mop.
    destruct (Nat.lt_ge_cases i k) as [Hik|Hik].
    - destruct (HD i k) as [_ [_ [_ [HL _]]]]; try lia. rewrite HL by lia. simpl. apply mmul_zero_l.
    - destruct (HD k j) as [_ [_ [HL _]]]; try lia. rewrite HL by lia. simpl. apply mmul_zero_r. }
  (* the block row of L and the block column of U *)
  set (Lr := MH 1 p (fun _ k => L p k)). set (Uc := MH p 1 (fun k _ => U k p)).
  assert (WLr : wf Lr).
  { unfold Lr. simpl. split; [lia|]. split; [lia|]. intros i j Hi Hj.
    destruct (HD p j) as [[W [_ [G1 [G2 _]]]] _]; try lia. destruct (HD p 0) as [[_ [_ [G3 _]]] _]; try lia. rewrite G1, G3. auto. }
  assert (WUc : wf Uc).
  { unfold Uc. simpl. split; [lia|]. split; [lia|]. intros i j Hi Hj.
    destruct (HD i p) as [[_ [W [_ [_ [G1 G2]]]]] _]; try lia. destruct (HD 0 p) as [[_ [_ [_ [_ [_ G3]]]]] _]; try lia. rewrite G2, G3. auto. }
  assert (Offs : forall f, (forall i, i < p -> f i = h i) -> offs f p = s).
  { intros f Hf. unfold s. apply offs_ext. auto. }
  assert (EF : feq s s (ent (MH p p a)) F).
  { intros i j Hi Hj. destruct (locate_in _ _ _ Hi) as [bi [x [_ [B1 [B2 B3]]]]]. destruct (locate_in _ _ _ Hj) as [bj [y [_ [C1 [C2 C3]]]]].
    subst i j. rewrite F_block by lia. replace (offs h bj) with (offs (bwidth a) bj) by (apply offs_ext; intros; symmetry; apply Hsq; lia).
    apply ent_block; auto. rewrite <- Hsq by lia. exact C2. }
  assert (P1 : feq s s (mmul s (ent (MH p p L)) (ent (MH p p U))) F).
  { eapply feq_trans; [|exact EF].
    assert (Q1 : forall i, i < p -> bheight L i = bheight a i) by (intros i Hi; apply HhL; lia).
    assert (Q2 : forall i, i < p -> bwidth U i = bwidth a i) by (intros i Hi; rewrite <- Hsq by lia; apply HhL; lia).
    assert (Q3 : forall k, k < p -> bwidth L k = bheight U k) by (intros k Hk; destruct (HhL k) as [_ [-> [-> _]]]; auto; lia).
    pose proof (block_product p p p a L U Wlead WL1 WU1 Q1 Q2 Q3) as B. rewrite N2 in B.
    rewrite nrows_MH, ncols_MH in B. change (offs (bheight a) p) with s in B. rewrite (Offs (bwidth a)) in B by (intros; symmetry; apply Hsq; lia).
    apply B. intros i j Hi Hj. rewrite <- (Hsq j) by lia. apply full; lia. }
  assert (EwL : offs (bwidth (fun _ k => L p k)) p = s).
  { apply Offs. intros i Hi. unfold bwidth. destruct (HD p i) as [[_ [_ [_ [G _]]]] _]; try lia. exact G. }
  assert (P2 : feq (h p) s (mmul s (ent Lr) (ent (MH p p U))) (fun r k => F (s + r) k)).
  { set (Ac := MH 1 p (fun _ k => a p k)).
    assert (WAc : wf Ac).
    { unfold Ac. simpl. split; [lia|]. split; [lia|]. intros i j Hi Hj.
      destruct (dims_a m a Wa HS p j Hp) as [W [G1 G2]]; [lia|]. destruct (dims_a m a Wa HS p 0 Hp) as [_ [G3 _]]; [lia|]. rewrite G1, G3. auto. }
    assert (Q1 : forall i, i < 1 -> bheight (fun _ k => L p k) i = bheight (fun _ k => a p k) i).
    { intros i Hi. unfold bheight. destruct (HD p 0) as [[_ [_ [G _]]] _]; try lia. rewrite G. reflexivity. }
    assert (Ew : forall j, j < p -> bwidth (fun _ k => a p k) j = h j).
    { intros j Hj. unfold bwidth. apply (dims_a m a Wa HS p j Hp). lia. }
    assert (Q2 : forall j, j < p -> bwidth U j = bwidth (fun _ k => a p k) j) by (intros j Hj; rewrite Ew by auto; apply HhL; lia).
    assert (Q3 : forall k, k < p -> bwidth (fun _ k => L p k) k = bheight U k).
    { intros k Hk. unfold bwidth. destruct (HD p k) as [[_ [_ [_ [G _]]]] _]; try lia. rewrite G. symmetry. apply HhL. lia. }
    pose proof (block_product 1 p p (fun _ k => a p k) (fun _ k => L p k) U WAc WLr WU1 Q1 Q2 Q3) as B.
    rewrite (ncols_MH 1 p (fun _ k => L p k)), EwL in B. unfold Ac in *. rewrite nrows_MH, ncols_MH in B.
    rewrite (Offs (bwidth (fun _ k => a p k))) in B by exact Ew.
    change (offs (bheight (fun _ k => a p k)) 1) with (h p) in B.
    eapply feq_trans; [apply B|].
    - intros i j Hi Hj. rewrite Ew by auto. change (bheight (fun _ k => a p k) i) with (h p). apply full; lia.
    - intros r k Hr Hk. destruct (locate_in _ _ _ Hk) as [bj [y [_ [C1 [C2 C3]]]]]. subst k. unfold s at 1.
      rewrite F_block by lia. replace (offs h bj) with (offs (bwidth (fun _ k => a p k)) bj) by (apply offs_ext; intros; apply Ew; lia).
      pose proof (ent_block 1 p (fun _ k => a p k) 0 bj r y ltac:(lia) C1 Hr ltac:(rewrite Ew by lia; exact C2)) as EB.
      exact EB. }
  assert (P3 : feq s (h p) (mmul s (ent (MH p p L)) (ent Uc)) (fun k j => F k (s + j))).
  { set (Ab := MH p 1 (fun k _ => a k p)).
    assert (WAb : wf Ab).
    { unfold Ab. simpl. split; [lia|]. split; [lia|]. intros i j Hi Hj.
      destruct (dims_a m a Wa HS i p) as [W [G1 G2]]; [lia|lia|]. destruct (dims_a m a Wa HS 0 p) as [_ [_ G3]]; [lia|lia|]. rewrite G2, G3. auto. }
    assert (Eh : forall i, i < p -> bheight (fun k _ => a k p) i = h i).
    { intros i Hi. unfold bheight. apply (dims_a m a Wa HS i p); lia. }
    assert (Q1 : forall i, i < p -> bheight L i = bheight (fun k _ => a k p) i) by (intros j Hj; rewrite Eh by auto; apply HhL; lia).
    assert (Ew : bwidth (fun k _ => a k p) 0 = h p).
    { unfold bwidth. apply (dims_a m a Wa HS 0 p); lia. }
    assert (Q2 : forall j, j < 1 -> bwidth (fun k _ => U k p) j = bwidth (fun k _ => a k p) j).
    { intros [|j] Hj; [|lia]. rewrite Ew. unfold bwidth. destruct (HD 0 p) as [[_ [_ [_ [_ [_ G]]]]] _]; try lia. exact G. }
    assert (Q3 : forall k, k < p -> bwidth L k = bheight (fun k _ => U k p) k).
    { intros k Hk. unfold bheight. destruct (HD k p) as [[_ [_ [_ [_ [G _]]]]] _]; try lia. rewrite G. apply HhL. lia. }
    pose proof (block_product p p 1 (fun k _ => a k p) L (fun k _ => U k p) WAb WL1 WUc Q1 Q2 Q3) as B.
    rewrite N2 in B. unfold Ab in *. rewrite nrows_MH, ncols_MH in B. rewrite (Offs (bheight (fun k _ => a k p))) in B by exact Eh.
    change (offs (bwidth (fun k _ => a k p)) 1) with (bwidth (fun k _ => a k p) 0) in B. rewrite Ew in B.
    eapply feq_trans; [apply B|].
    - intros i [|j] Hi Hj; [|lia]. rewrite Eh, Ew by auto. apply full; lia.
    - intros k r Hk Hr. destruct (locate_in _ _ _ Hk) as [bi [x [_ [C1 [C2 C3]]]]]. subst k. unfold s at 1.
      rewrite F_block by lia. replace (offs h bi) with (offs (bheight (fun k _ => a k p)) bi) by (apply offs_ext; intros; apply Eh; lia).
      pose proof (ent_block p 1 (fun k _ => a k p) bi 0 x r C1 ltac:(lia) ltac:(rewrite Eh by lia; exact C2) ltac:(rewrite Ew; exact Hr)) as EB.
      exact EB. }
  (* the product of the two *)
  assert (P4 : feq (h p) (h p) (mmul s (ent Lr) (ent Uc)) (sum_products p false false (fun k => L p k) (fun k => U k p))).
  { assert (Q3 : forall k, k < p -> bwidth (fun _ k => L p k) k = bheight (fun k _ => U k p) k).
    { intros k Hk. unfold bwidth, bheight. destruct (HD p k) as [[_ [_ [_ [G _]]]] _]; try lia.
      destruct (HD k p) as [[_ [_ [_ [_ [G' _]]]]] _]; lia. }
    pose proof (product_block false false 1 p (fun _ k => L p k) p 1 (fun k _ => U k p) 0 0 WLr WUc (le_n _) Nat.lt_0_1 Nat.lt_0_1 Q3) as PB.
    cbn [dim1 dim0 opb opc mop] in PB. rewrite (ncols_MH 1 p (fun _ k => L p k)), EwL in PB. cbn [offs] in PB.
    assert (X1 : oh false (fun _ k => L p k) 0 = h p).
    { destruct (HD p 0) as [[_ [_ [G _]]] _]; try lia. exact G. }
    assert (X2 : ow false (fun k _ => U k p) 0 = h p).
    { destruct (HD 0 p) as [[_ [_ [_ [_ [_ G]]]]] _]; try lia. exact G. }
    rewrite X1, X2 in PB. exact PB. }
  (* the multipliers *)
  exists (dtrsm rinv Lower SRight s (ent (MH p p L)) (ent Lr)).
  set (X := dtrsm rinv Lower SRight s (ent (MH p p L)) (ent Lr)).
  assert (EX : forall r k, k < s -> mmul s X (ent (MH p p L)) r k = ent Lr r k).
  { intros r k Hk. pose proof (dtrsm_right rinv Lower s (ent (MH p p L)) (ent Lr) r k) as T. fold X in T.
    rewrite <- T; auto; [|intros E; discriminate].
    unfold mmul. apply sum_ext. intros l Hl. rewrite (Lo l k Hl Hk). reflexivity. }
  split.
  - intros r k Hr Hk. rewrite <- (P2 r k Hr Hk).
    assert (T : sum s (fun l => (X r l * F l k)%r) = mmul s X (mmul s (ent (MH p p L)) (ent (MH p p U))) r k).
    { unfold mmul at 1. apply sum_ext. intros l Hl. rewrite (P1 l k Hl Hk). reflexivity. }
    rewrite T. rewrite <- (meq_assoc s s X (ent (MH p p L)) (ent (MH p p U)) r k). unfold mmul at 1 3. apply sum_ext.
    intros l Hl. rewrite EX by auto. reflexivity.
  - intros r j Hr Hj. unfold s at 1 2. rewrite F_block by auto. rewrite <- (R1 r j Hr Hj). unfold madd.
    rewrite <- (P4 r j Hr Hj).
    assert (T : sum s (fun k => (X r k * F k (s + j)%nat)%r) = mmul s X (mmul s (ent (MH p p L)) (ent Uc)) r j).
    { unfold mmul at 1. apply sum_ext. intros l Hl. rewrite (P3 l j Hl Hj). reflexivity. }
    rewrite T. rewrite <- (meq_assoc s s X (ent (MH p p L)) (ent Uc) r j).
    assert (T2 : mmul s (mmul s X (ent (MH p p L))) (ent Uc) r j = mmul s (ent Lr) (ent Uc) r j).
    { unfold mmul at 1 3. apply sum_ext. intros l Hl. rewrite EX by auto. reflexivity. }
    rewrite T2. ring.
Qed.
End Schur.
