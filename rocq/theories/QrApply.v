(** Multiplication by the stored reflectors, and the factorization as an equation of
    matrices. *)
From Coq Require Import List Arith ZArith QArith Lia Bool Ring_theory Ring Setoid Morphisms.
From Verif Require Import Prelude Ring MatFun MatSetoid Matrix MatOps MatSpec MatOpsProofs Lapack Gemm GemmSpec GemmProofs
  GemmTheorems Triangular TriAlgebra TriSpec TriProofs Reflect ReflectSpec ReflectProofs ReflectTile QrBig QrTiled QrStep.
Import ListNotations.
Local Open Scope nat_scope.

Section Apply.
Context {R : cring}.
Add Ring Rr : (cr_th R).
Notation dense := (dense R).
Notation lowrank := (lowrank R).
Notation matrix := (matrix R).
Notation mat := (mat R).
Notation grid := (grid R).

Variable Or : oracles R.
Hypothesis HO : oracles_near exact Or.
Variables p q : nat.
Variables h w cw : nat -> nat.
Let N := offs h p.
Notation tilesC := (tiles False p q h cw).
Notation tilesY := (tiles False p q h w).
Notation factors := (factors p q w).
Notation column := (column p h).
Notation Qcol := (Qcol p h w).
Notation Qfac := (Qfac p h w).

Variables Y T : grid.
Hypothesis HY : tilesY Y.
Hypothesis HT : factors T.
Hypothesis LK : forall k, k < q -> k < p -> w k <= h k.

Lemma larfb_cols k tr (C C' : grid) : k < q -> k < p -> tilesC C -> tiled_larfb q k tr k Y T C = Ok C' ->
  tilesC C' /\ (forall i j, j < k \/ q <= j -> C' i j = C i j) /\
  (forall j, k <= j -> j < q ->
     feq N (cw j) (column C' j) (mmul N (mop tr (Qcol Y T k 0)) (column C j))).
Proof.
  intros Hq Hp HC H. apply (tiled_larfb_ok False p q h w cw) in H; auto; [|apply HT; auto|tauto].
  destruct H as [H1 [H2 H3]]. split; [exact H1|]. split; [|exact H3]. intros i j Hj. apply H2. lia.
Qed.

Lemma tpmqrt_cols k n tr (C C' : grid) : k < q -> S k + n < p -> tilesC C ->
  tiled_tpmqrt Or q k (S k + n) tr k Y T C = Ok C' ->
  tilesC C' /\ (forall i j, j < k \/ q <= j -> C' i j = C i j) /\
  (forall j, k <= j -> j < q ->
     feq N (cw j) (column C' j)
       (mmul N (mop tr (GP p h k (S k + n) (w k) (ent (Y (S k + n) k)) (ent (T (S k + n) k)))) (column C j))).
Proof.
  intros Hq Hp HC H. destruct (HY (S k + n) k Hp Hq) as [W [D1 [D2 _]]]. destruct (HT (S k + n) k Hp Hq ltac:(lia)) as [F1 F2].
  apply (tiled_tpmqrt_ok Or HO False (fun f : False => match f with end) p q h w cw) in H; auto; try lia;
    [|apply LK; lia].
  destruct H as [H1 [H2 H3]]. split; [exact H1|]. split; [|exact H3]. intros i j Hj. apply H2. lia.
Qed.

(** Q^T, first column of reflectors first. *)
Lemma apply_true (C C' : grid) : tilesC C -> tiled_apply Or p q Y T C true = Ok C' ->
  q <= p /\ tilesC C' /\
  forall j, j < q -> feq N (cw j) (column C' j) (mmul N (mtr (Qfac Y T (S j))) (column C j)).
Proof.
  intros HC H. unfold tiled_apply in H. apply assert_Ok in H. destruct H as [B H]. apply Nat.leb_le in B. split; auto.
  apply (for_loop_inv_out _ _ _ _ (fun n D => tilesC D /\
    forall j, j < q -> feq N (cw j) (column D j) (mmul N (mtr (Qfac Y T (Nat.min (S j) n))) (column C j)))) in H.
  - destruct H as [H1 H2]. split; auto. intros j Hj. rewrite <- (Nat.min_l (S j) q) by lia. apply H2; auto.
  - split; auto. intros j Hj. simpl. apply feq_sym. eapply feq_trans; [|apply feq_id_l].
    apply feq_mmul; [|apply feq_refl]. intros r s Hr Hs. unfold mtr, mid. rewrite Nat.eqb_sym. reflexivity.
  - clear H. intros k D D' Hk [D1 D2] Hb. apply bind_Ok in Hb. destruct Hb as [D0 [HL Hb]].
    apply larfb_cols in HL; auto; [|lia]. destruct HL as [L1 [L2 L3]].
    apply (for_loop_inv_out _ _ _ _ (fun t E => tilesC E /\ (forall i j, j < k \/ q <= j -> E i j = D i j) /\
      forall j, k <= j -> j < q -> feq N (cw j) (column E j) (mmul N (mtr (Qcol Y T k t)) (column D j)))) in Hb.
    + destruct Hb as [E1 [E2 E3]]. split; auto. intros j Hj. destruct (Nat.lt_ge_cases j k) as [Lj|Lj].
      * rewrite Nat.min_l by lia. rewrite <- (Nat.min_l (S j) k) by lia. eapply feq_trans; [|apply D2; auto].
        apply feq_stack_refl. intros b Hb. rewrite E2 by auto. reflexivity.
      * rewrite Nat.min_r by lia. eapply feq_trans; [apply E3; auto|]. simpl.
        rewrite meq_tr, meq_assoc. apply feq_mmul; [apply feq_refl|]. eapply feq_trans; [apply D2; auto|].
        rewrite Nat.min_r by lia. apply feq_refl.
    + split; auto.
    + clear Hb. intros t E E' Ht [E1 [E2 E3]] Hs. apply tpmqrt_cols in Hs; auto; [|lia].
      destruct Hs as [F1 [F2 F3]]. split; auto. split.
      * intros i j Hj. rewrite F2 by auto. apply E2; auto.
      * intros j Lj Hj. eapply feq_trans; [apply F3; auto|].
        assert (X : meq (mtr (Qcol Y T k (S t)))
          (mmul N (mtr (GP p h k (S k + t) (w k) (ent (Y (S k + t) k)) (ent (T (S k + t) k)))) (mtr (Qcol Y T k t)))).
        { cbn [QrTiled.Qcol]. apply meq_tr. }
        rewrite X. rewrite meq_assoc. apply feq_mmul; [apply feq_refl|]. apply E3; auto.
Qed.

(** Q, last column of reflectors first. *)
Lemma apply_false (C C' : grid) : tilesC C -> tiled_apply Or p q Y T C false = Ok C' ->
  q <= p /\ tilesC C' /\
  forall j, j < q -> feq N (cw j) (column C' j) (mmul N (Qfac Y T (S j)) (column C j)).
Proof.
  intros HC H. unfold tiled_apply in H. apply assert_Ok in H. destruct H as [B H]. apply Nat.leb_le in B. split; auto.
  apply (for_loop_inv_out _ _ _ _ (fun n D => tilesC D /\
    forall j, j < q -> feq N (cw j) (mmul N (Qfac Y T (Nat.min (S j) (q - n))) (column D j))
                                    (mmul N (Qfac Y T (S j)) (column C j)))) in H.
  - destruct H as [H1 H2]. split; auto. intros j Hj. eapply feq_trans; [|apply H2; auto].
    rewrite Nat.sub_diag, Nat.min_0_r. simpl. apply feq_sym. apply feq_id_l.
  - split; auto. intros j Hj. rewrite Nat.sub_0_r, Nat.min_l by lia. apply feq_refl.
  - clear H. intros n D D' Hn [D1 D2] Hb. set (k := q - 1 - n) in *. assert (Hk : k < q) by lia.
    apply bind_Ok in Hb. destruct Hb as [D0 [Hl Hb]].
    apply (for_loop_inv_out _ _ _ _ (fun t E => tilesC E /\ (forall i j, j < k \/ q <= j -> E i j = D i j) /\
      forall j, k <= j -> j < q ->
        feq N (cw j) (mmul N (Qcol Y T k (p - S k - t)) (column E j)) (mmul N (Qcol Y T k (p - S k)) (column D j)))) in Hl.
    + destruct Hl as [E1 [E2 E3]]. apply larfb_cols in Hb; auto; [|lia]. destruct Hb as [L1 [L2 L3]].
      split; auto. intros j Hj. destruct (Nat.lt_ge_cases j k) as [Lj|Lj].
      * eapply feq_trans; [|apply D2; auto]. rewrite !Nat.min_l by lia. apply feq_mmul; [apply feq_refl|].
        apply feq_stack_refl. intros b Hb. rewrite L2, E2 by auto. reflexivity.
      * eapply feq_trans; [|apply D2; auto]. rewrite !Nat.min_r by lia.
        replace (q - S n) with k by lia. replace (q - n) with (S k) by lia. simpl. rewrite meq_assoc.
        apply feq_mmul; [apply feq_refl|]. eapply feq_trans; [apply L3; auto|].
        eapply feq_trans; [|apply E3; auto]. rewrite Nat.sub_diag. apply feq_refl.
    + split; auto. split; auto. intros j Lj Hj. rewrite Nat.sub_0_r. apply feq_refl.
    + clear Hl. intros t E E' Ht [E1 [E2 E3]] Hs.
      replace (p - 1 - t) with (S k + (p - S k - S t)) in Hs by lia.
      apply tpmqrt_cols in Hs; auto; [|lia]. destruct Hs as [F1 [F2 F3]]. split; auto. split.
      * intros i j Hj. rewrite F2 by auto. apply E2; auto.
      * intros j Lj Hj. eapply feq_trans; [|apply E3; auto].
        replace (p - S k - t) with (S (p - S k - S t)) by lia. cbn [QrTiled.Qcol]. rewrite meq_assoc.
        apply feq_mmul; [apply feq_refl|]. apply F3; auto.
Qed.
End Apply.

Section Final.
Context {R : cring}.
Add Ring Rr : (cr_th R).
Notation dense := (dense R).
Notation lowrank := (lowrank R).
Notation matrix := (matrix R).
Notation mat := (mat R).
Notation grid := (grid R).
Variables p q : nat.
Variables h w : nat -> nat.
Let N := offs h p.
Notation column := (column p h).

(** Tiles of given dimensions. *)
Definition shaped (cw : nat -> nat) (C : grid) : Prop := forall i j, i < p -> j < q ->
  nrows (C i j) = h i /\ ncols (C i j) = cw j.

Lemma tiles_shaped o cw (C : grid) : tiles o p q h cw C -> shaped cw C.
Proof. intros H i j Hi Hj. destruct (H i j Hi Hj) as [_ [H1 [H2 _]]]. auto. Qed.

Lemma column_ent cw (C : grid) j r c : 0 < p -> 0 < q -> shaped cw C -> j < q -> r < N -> c < cw j ->
  ent (MH p q C) r (offs cw j + c) = column C j r c.
Proof.
  intros Hp Hq HC Hj Hr Hc. destruct (locate_in h p r Hr) as [b [r' [E [Hb [Hr' ->]]]]].
  unfold QrTiled.column. rewrite stack_at by auto.
  assert (E1 : offs h b = offs (bheight C) b).
  { apply offs_ext. intros i Hi. unfold bheight. symmetry. apply HC; lia. }
  assert (E2 : offs cw j = offs (bwidth C) j).
  { apply offs_ext. intros i Hi. unfold bwidth. symmetry. apply HC; lia. }
  rewrite E1, E2. apply ent_block; auto.
  - unfold bheight. destruct (HC b 0 Hb Hq) as [-> _]. auto.
  - unfold bwidth. destruct (HC 0 j Hp Hj) as [_ ->]. auto.
Qed.

Lemma dims_MH cw (C : grid) : 0 < p -> 0 < q -> shaped cw C -> nrows (MH p q C) = N /\ ncols (MH p q C) = offs cw q.
Proof.
  intros Hp Hq HC. split; simpl; apply offs_ext; intros i Hi; apply HC; auto.
Qed.

Lemma by_columns cw (Q : mat) (C D : grid) : 0 < p -> 0 < q -> shaped cw C -> shaped cw D ->
  (forall j, j < q -> feq N (cw j) (column C j) (mmul N Q (column D j))) ->
  feq N (offs cw q) (ent (MH p q C)) (mmul N Q (ent (MH p q D))).
Proof.
  intros Hp Hq HC HD H r s Hr Hs. destruct (locate_in cw q s Hs) as [j [c [E [Hj [Hc ->]]]]].
  rewrite (column_ent cw) by auto. rewrite (H j Hj r c Hr Hc).
  unfold mmul. apply sum_ext. intros x Hx. rewrite (column_ent cw) by auto. reflexivity.
Qed.

(** The block upper triangular factor held in A. *)
Definition Rgrid (A : grid) : grid := fun i j => MD (Dn (h i) (w j) (Rtile A i j)).
Lemma Rgrid_shaped A : shaped w (Rgrid A).
Proof. intros i j _ _. split; reflexivity. Qed.

Definition block_upper (C : grid) : Prop := forall i j, i < p -> j < i -> j < q ->
  feq (nrows (C i j)) (ncols (C i j)) (ent (C i j)) mzero.

Variable Or : oracles R.
Hypothesis HO : oracles_near exact Or.
Hypothesis HU : keeps_orthU Or.
Variable K : qrt R.
Hypothesis HK : qrt_ok K.

(** The input: tiles of matching dimensions, no wider than high on the diagonal, LowRank
    tiles with an orthonormal left basis. *)
Definition qr_input (A T : grid) : Prop :=
  0 < q /\ (forall k, k < q -> k < p -> w k <= h k) /\ tiles True p q h w A /\ factors p q w T.

Lemma tiles_weaken (o o' : Prop) cw (C : grid) : (o' -> o) -> tiles o p q h cw C -> tiles o' p q h cw C.
Proof. intros H HC i j Hi Hj. destruct (HC i j Hi Hj) as [H1 [H2 [H3 H4]]]. repeat (split; auto). Qed.

Theorem tiled_qr_correct (A T : grid) pt qt (A' T' : grid) : qr_input A T ->
  tiled_qr Or K p q A pt qt T = Ok (A', T') ->
  exists Q : mat,
    orthogonal N Q /\
    feq N (offs w q) (ent (MH p q A)) (mmul N Q (ent (MH p q (Rgrid A')))) /\
    (* multiplying by the stored reflectors *)
    (forall cw C C', tiles False p q h cw C -> block_upper C -> tiled_apply Or p q A' T' C false = Ok C' ->
       feq N (offs cw q) (ent (MH p q C')) (mmul N Q (ent (MH p q C)))) /\
    (forall C', tiled_apply Or p q A' T' A true = Ok C' ->
       feq N (offs w q) (ent (MH p q C')) (ent (MH p q (Rgrid A')))).
Proof.
  intros [Hq [LK [HA HT]]] H. apply (tiled_qr_ok Or HO HU K HK p q h w) in H; auto.
  destruct H as [I1 I2 I3 I4 I5 I6]. cbn [fst snd] in *.
  assert (Hp : 0 < p) by lia.
  exists (Qfac p h w A' T' q).
  assert (LK' : forall k, k < q -> w k <= h k) by (intros k Hk; apply LK; lia).
  assert (OQ : forall n, n <= q -> orthogonal N (Qfac p h w A' T' n)).
  { intros n Hn. apply Qfac_orth; [lia| |]; intros k Hk; [apply LK; lia|apply I4; lia]. }
  assert (ER : feq N (offs w q) (ent (MH p q A)) (mmul N (Qfac p h w A' T' q) (ent (MH p q (Rgrid A'))))).
  { apply by_columns; [exact Hp|exact Hq|exact (tiles_shaped _ _ _ HA)|apply Rgrid_shaped|].
    intros j Hj. exact (I5 j Hj). }
  split; [apply OQ; auto|]. split; [exact ER|]. split.
  - intros cw C C' HC HB Ha. apply (apply_false Or HO p q h w cw) in Ha; auto;
      [|eapply tiles_weaken; [|exact I1]; tauto].
    destruct Ha as [_ [HC' Ha]]. apply by_columns; [exact Hp|exact Hq|exact (tiles_shaped _ _ _ HC')|exact (tiles_shaped _ _ _ HC)|].
    intros j Hj. eapply feq_trans; [apply Ha; auto|]. apply feq_sym.
    apply Qfac_more; auto.
    intros i Hi Hi'. destruct (HC i j Hi' Hj) as [_ [E1 [E2 _]]]. rewrite <- E1, <- E2. apply HB; auto; lia.
  - intros C' Ha. apply (apply_true Or HO p q h w w) in Ha; auto;
      [|eapply tiles_weaken; [|exact I1]; tauto|eapply tiles_weaken; [|exact HA]; tauto].
    destruct Ha as [_ [HC' Ha]].
    eapply feq_trans; [apply (by_columns w mid C' (Rgrid A')); [exact Hp|exact Hq|exact (tiles_shaped _ _ _ HC')|apply Rgrid_shaped|]|].
    2:{ intros r s Hr Hs. apply mmul_id_l; auto. }
    intros j Hj. eapply feq_trans; [apply Ha; auto|]. apply feq_sym. eapply feq_trans; [apply feq_id_l|].
    assert (E : feq N (w j) (column A j) (mmul N (Qfac p h w A' T' (S j)) (column (Rgrid A') j))).
    { eapply feq_trans; [apply I5; auto|]. apply Qfac_more; auto.
      intros i Hi Hi'. cbn [Rgrid ent d_e]. unfold Rtile.
      destruct (Nat.ltb_spec i j); [lia|]. destruct (Nat.eqb_spec i j); [lia|]. apply feq_refl. }
    apply feq_sym. eapply feq_trans; [apply feq_mmul; [apply feq_refl|exact E]|].
    apply (orthogonal_cancel N (w j) (Qfac p h w A' T' (S j)) _ true). apply OQ. lia.
Qed.
End Final.
