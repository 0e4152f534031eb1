(** Tiled Householder QR: invariants of the loops. *)
From Coq Require Import List Arith ZArith QArith Lia Bool Ring_theory Ring Setoid Morphisms.
From Verif Require Import Prelude Ring MatFun MatSetoid Matrix MatOps MatSpec MatOpsProofs Lapack Gemm GemmSpec GemmProofs
  GemmTheorems Triangular TriAlgebra TriSpec TriProofs Reflect ReflectSpec ReflectProofs ReflectTile QrBig.
Import ListNotations.
Local Open Scope nat_scope.

Section Tiled.
Context {R : cring}.
Add Ring Rr : (cr_th R).
Notation dense := (dense R).
Notation lowrank := (lowrank R).
Notation matrix := (matrix R).
Notation mat := (mat R).
Notation grid := (grid R).

Variable Or : oracles R.
Hypothesis HO : oracles_near exact Or.
(** Whether the left bases of the LowRank tiles that are written are to be orthonormal. *)
Variable o : Prop.
Hypothesis HU : o -> keeps_orthU Or.

(** p x q tiles; h and w are the heights and widths of the tiles of the reflectors. *)
Variables p q : nat.
Variables h w : nat -> nat.
Let N := offs h p.

(** Tiles of a grid with column widths cw. *)
Definition tiles (cw : nat -> nat) (C : grid) : Prop := forall i j, i < p -> j < q ->
  wf (C i j) /\ nrows (C i j) = h i /\ ncols (C i j) = cw j /\ (o -> orthU (C i j)).
(** T(i,j) is of the order of the width of column j, from the diagonal down; the tiles above
    are not looked at (the examples have 0 x 0 ones there). *)
Definition factors (T : grid) : Prop := forall i j, i < p -> j < q -> j <= i -> nrows (T i j) = w j /\ ncols (T i j) = w j.

Definition column (C : grid) (j : nat) : mat := stack p h (fun i => ent (C i j)).

Lemma bupd_same (C : grid) i j x : bupd C i j x i j = x.
Proof. apply bupd_eq. Qed.
Lemma bupd_other (C : grid) i j x i' j' : i' <> i \/ j' <> j -> bupd C i j x i' j' = C i' j'.
Proof. intros H. apply bupd_ne. intros E. inversion E. destruct H; congruence. Qed.

Lemma layout_dims (A B : matrix) : wf A -> wf B -> same_layout A B -> nrows B = nrows A /\ ncols B = ncols A.
Proof. intros WA WB L. exact (same_layout_dims A B WA L). Qed.

(** ** larfb over a row of tiles *)

Lemma tiled_larfb_ok cw k tr from (Y T C C' : grid) : k < p -> tiles cw C ->
  ncols (T k k) = w k -> (o -> orthogonal (h k) (tile_refl (w k) (ent (Y k k)) (ent (T k k)))) ->
  tiled_larfb q k tr from Y T C = Ok C' ->
  tiles cw C' /\
  (forall i j, i <> k \/ j < from \/ q <= j -> C' i j = C i j) /\
  (forall j, from <= j -> j < q ->
     feq N (cw j) (column C' j) (mmul N (mop tr (GL p h k (w k) (ent (Y k k)) (ent (T k k)))) (column C j))).
Proof.
  intros Hk HC HT HQ H. unfold tiled_larfb in H.
  set (G := GL p h k (w k) (ent (Y k k)) (ent (T k k))) in *.
  apply (for_loop_inv_out _ _ _ _ (fun t D => tiles cw D /\
    (forall i j, i <> k \/ j < from \/ from + t <= j -> D i j = C i j) /\
    (forall j, from <= j -> j < from + t -> feq N (cw j) (column D j) (mmul N (mop tr G) (column C j))))) in H.
  - destruct H as [H1 [H2 H3]]. split; auto. split.
    + intros i j Hij. apply H2. lia.
    + intros j L1 L2. apply H3; auto. lia.
  - split; auto. split; auto. intros j L1 L2. lia.
  - clear H. intros t D D' Ht [D1 [D2 D3]] Hb. set (j := from + t) in *.
    apply bind_Ok in Hb. destruct Hb as [x [Hx Hb]]. inversion Hb; subst D'; clear Hb.
    assert (Hj : j < q) by lia.
    destruct (D1 k j Hk Hj) as [W [E1 [E2 E3]]].
    destruct (larfb_ok _ _ _ _ _ Hx W) as [v [tt [EV [ET [L [WX [LX [FX OX]]]]]]]].
    destruct (layout_dims _ _ W WX LX) as [X1 X2].
    rewrite EV, ET in HQ. rewrite ET in HT. cbn [ent ncols] in HQ, HT.
    split; [|split].
    + intros i' j' Hi' Hj'. destruct (Nat.eq_dec i' k) as [->|Ni]; [destruct (Nat.eq_dec j' j) as [->|Nj]|].
      * rewrite bupd_same. split; auto. split; [congruence|]. split; [congruence|].
        intros ho. apply OX; auto. rewrite E1, HT. auto.
      * rewrite bupd_other by auto. apply D1; auto.
      * rewrite bupd_other by auto. apply D1; auto.
    + intros i' j' Hij. rewrite bupd_other; [apply D2; lia|]. lia.
    + intros j' L1 L2. destruct (Nat.eq_dec j' j) as [->|Nj].
      * unfold G. apply GL_apply; auto.
        -- rewrite bupd_same. rewrite EV, ET. cbn [ent]. rewrite E1, E2, HT in FX.
           rewrite <- (D2 k j ltac:(lia)). exact FX.
        -- intros b Hb Hn. rewrite bupd_other by auto. rewrite D2 by lia. apply feq_refl.
      * eapply feq_trans; [|apply D3; lia]. apply feq_stack. intros b Hb.
        rewrite bupd_other by auto. apply feq_refl.
Qed.

(** ** tpmqrt over two rows of tiles *)

Lemma tiled_tpmqrt_ok cw k i tr from (Y T C C' : grid) : k < p -> i < p -> k <> i -> tiles cw C ->
  wf (Y i k) -> nrows (Y i k) = h i -> ncols (Y i k) = w k -> nrows (T i k) = w k -> ncols (T i k) = w k ->
  w k <= h k ->
  tiled_tpmqrt Or q k i tr from Y T C = Ok C' ->
  tiles cw C' /\
  (forall i' j, i' <> k /\ i' <> i \/ j < from \/ q <= j -> C' i' j = C i' j) /\
  (forall j, from <= j -> j < q ->
     feq N (cw j) (column C' j) (mmul N (mop tr (GP p h k i (w k) (ent (Y i k)) (ent (T i k)))) (column C j))).
Proof.
  intros Hk Hi Hki HC WY Y1 Y2 T1 T2 LK H. unfold tiled_tpmqrt in H.
  set (G := GP p h k i (w k) (ent (Y i k)) (ent (T i k))) in *.
  apply (for_loop_inv_out _ _ _ _ (fun t D => tiles cw D /\
    (forall i' j, i' <> k /\ i' <> i \/ j < from \/ from + t <= j -> D i' j = C i' j) /\
    (forall j, from <= j -> j < from + t -> feq N (cw j) (column D j) (mmul N (mop tr G) (column C j))))) in H.
  - destruct H as [H1 [H2 H3]]. split; auto. split.
    + intros i' j Hij. apply H2. lia.
    + intros j L1 L2. apply H3; auto. lia.
  - split; auto. split; auto. intros j L1 L2. lia.
  - clear H. intros t D D' Ht [D1 [D2 D3]] Hb. set (j := from + t) in *.
    apply bind_Ok in Hb. destruct Hb as [[x y] [Hx Hb]]. inversion Hb; subst D'; clear Hb.
    assert (Hj : j < q) by lia.
    destruct (D1 k j Hk Hj) as [WK [K1 [K2 K3]]]. destruct (D1 i j Hi Hj) as [WI [I1 [I2 I3]]].
    apply (tpmqrt_ok Or) in Hx; auto; try congruence.
    cbv zeta in Hx. destruct Hx as [_ [_ [_ [_ [_ [WX [WZ [LX [LZ [FX [RX OX]]]]]]]]]]].
    destruct (layout_dims _ _ WK WX LX) as [X1 X2]. destruct (layout_dims _ _ WI WZ LZ) as [X3 X4].
    split; [|split].
    + intros i' j' Hi' Hj'. destruct (Nat.eq_dec j' j) as [->|Nj].
      * destruct (Nat.eq_dec i' i) as [->|Ni].
        { rewrite bupd_same. split; auto. split; [congruence|]. split; [congruence|].
          intros ho. apply OX; auto. }
        rewrite bupd_other by auto. destruct (Nat.eq_dec i' k) as [->|Nk].
        { rewrite bupd_same. split; auto. split; [congruence|]. split; [congruence|].
          intros ho. apply OX; auto. }
        rewrite bupd_other by auto. apply D1; auto.
      * rewrite !bupd_other by auto. apply D1; auto.
    + intros i' j' Hij. rewrite !bupd_other by lia. apply D2; lia.
    + intros j' L1 L2. destruct (Nat.eq_dec j' j) as [->|Nj].
      * unfold G. apply GP_apply; auto.
        -- rewrite bupd_same. rewrite (bupd_other _ i j y k j) by auto. rewrite bupd_same.
           rewrite Y2, I1, I2 in FX. rewrite <- (D2 k j ltac:(lia)), <- (D2 i j ltac:(lia)). exact FX.
        -- intros r c L3 L4 L5. rewrite (bupd_other _ i j y k j) by auto. rewrite bupd_same.
           rewrite <- (D2 k j ltac:(lia)). apply RX; [rewrite Y2; auto|rewrite K1; auto|rewrite K2; auto].
        -- intros b Hb N1 N2. rewrite !bupd_other by auto. rewrite D2 by lia. apply feq_refl.
      * eapply feq_trans; [|apply D3; lia]. apply feq_stack. intros b Hb.
        rewrite !bupd_other by auto. apply feq_refl.
Qed.

(** ** The orthogonal factor of a column of reflectors *)

(** Product of the tile reflector (k,k) and the pair reflectors (k+1..k+n, k). *)
Fixpoint Qcol (Y T : grid) (k n : nat) : mat :=
  match n with
  | O => GL p h k (w k) (ent (Y k k)) (ent (T k k))
  | S n => mmul N (Qcol Y T k n) (GP p h k (S k + n) (w k) (ent (Y (S k + n) k)) (ent (T (S k + n) k)))
  end.
(** Product over the first columns. *)
Fixpoint Qfac (Y T : grid) (n : nat) : mat :=
  match n with
  | O => mid
  | S n => mmul N (Qfac Y T n) (Qcol Y T n (p - S n))
  end.

(** All the reflectors of column k up to row k + n are orthogonal. *)
Definition orthogonal_tiles (Y T : grid) (k n : nat) : Prop :=
  orthogonal (h k) (tile_refl (w k) (ent (Y k k)) (ent (T k k))) /\
  forall i, k < i -> i <= k + n -> orthogonal (w k + h i) (pair_refl (w k) (ent (Y i k)) (ent (T i k))).

Lemma Qcol_orth Y T k n : k + n < p -> w k <= h k -> orthogonal_tiles Y T k n -> orthogonal N (Qcol Y T k n).
Proof.
  intros L LK [H1 H2]. induction n as [|n IH]; simpl.
  - apply GL_orth; auto. lia.
  - apply orthogonal_mul.
    + apply IH; [lia|]. intros i Hi Hi'. apply H2; lia.
    + apply GP_orth; auto; try lia. apply H2; lia.
Qed.

Lemma Qfac_orth Y T n : n <= p -> (forall k, k < n -> w k <= h k) ->
  (forall k, k < n -> orthogonal_tiles Y T k (p - S k)) -> orthogonal N (Qfac Y T n).
Proof.
  intros L LK H. induction n as [|n IH]; simpl.
  - apply orthogonal_mid.
  - apply orthogonal_mul; [apply IH; auto; lia|]. apply Qcol_orth; auto. lia.
Qed.

(** Only the tiles of column k matter, and of tile (k,k) only what is below the diagonal. *)
Lemma Qcol_feq (Y T Y' T' : grid) k n : k + n < p ->
  feq (h k) (w k) (tri Lower true (ent (Y k k))) (tri Lower true (ent (Y' k k))) ->
  feq (w k) (w k) (ent (T k k)) (ent (T' k k)) ->
  (forall i, k < i -> i <= k + n -> feq (h i) (w k) (ent (Y i k)) (ent (Y' i k)) /\ feq (w k) (w k) (ent (T i k)) (ent (T' i k))) ->
  feq N N (Qcol Y T k n) (Qcol Y' T' k n).
Proof.
  intros L H1 H2 H3. induction n as [|n IH]; simpl.
  - apply GL_feq; auto. lia.
  - apply feq_mmul.
    + apply IH; [lia|]. intros i Hi Hi'. apply H3; lia.
    + change (S (k + n)) with (S k + n). destruct (H3 (S k + n) ltac:(lia) ltac:(lia)). apply GP_feq; auto. lia.
Qed.

Lemma Qcol_zero Y T k n c (tr : bool) (X : nat -> mat) : k + n < p -> w k <= h k ->
  (forall i, k <= i -> i <= k + n -> feq (h i) c (X i) mzero) ->
  feq N c (mmul N (mop tr (Qcol Y T k n)) (stack p h X)) (stack p h X).
Proof.
  intros L LK HX. induction n as [|n IH]; simpl.
  - apply GL_zero; [lia|]. apply HX; lia.
  - rewrite meq_op_mul. change (S (k + n)) with (S k + n).
    set (G := GP p h k (S k + n) (w k) (ent (Y (S k + n) k)) (ent (T (S k + n) k))).
    assert (HG : forall t, feq N c (mmul N (mop t G) (stack p h X)) (stack p h X)).
    { intros t. apply GP_zero; auto; try lia; apply HX; lia. }
    assert (HQ : feq N c (mmul N (mop tr (Qcol Y T k n)) (stack p h X)) (stack p h X)).
    { apply IH; [lia|]. intros i Hi Hi'. apply HX; lia. }
    destruct tr; rewrite meq_assoc.
    + eapply feq_trans; [|apply (HG true)]. apply feq_mmul; [apply feq_refl|exact HQ].
    + eapply feq_trans; [|exact HQ]. apply feq_mmul; [apply feq_refl|exact (HG false)].
Qed.

(** Block columns that end above tile k are not affected by the later columns. *)
Lemma Qfac_more Y T c (X : nat -> mat) n m : n <= m -> m <= p -> (forall k, k < m -> w k <= h k) ->
  (forall i, n <= i -> i < p -> feq (h i) c (X i) mzero) ->
  feq N c (mmul N (Qfac Y T m) (stack p h X)) (mmul N (Qfac Y T n) (stack p h X)).
Proof.
  intros L1 L2 LK HX. induction L1 as [|m L1 IH]; [apply feq_refl|].
  simpl. rewrite meq_assoc. eapply feq_trans; [|apply IH; auto; lia].
  apply feq_mmul; [apply feq_refl|]. apply (Qcol_zero Y T m (p - S m) c false); [lia|auto|].
  intros i Hi Hi'. apply HX; lia.
Qed.
End Tiled.
