(** Blocked Householder QR: the whole factorization and the multiplication by the stored
    reflectors. *)
From Coq Require Import List Arith ZArith QArith Lia Bool Ring_theory Ring Setoid Morphisms.
From Verif Require Import Prelude Ring MatFun MatSetoid Matrix MatOps MatSpec MatOpsProofs Lapack Gemm GemmSpec GemmProofs
  GemmTheorems Triangular TriAlgebra TriSpec TriProofs TriTheorems Reflect ReflectSpec ReflectProofs ReflectTile QrBig
  QrTiled QrStep QrApply Mgs MgsProofs Blocked BlockedProofs.
Import ListNotations.
Local Open Scope nat_scope.

Section BQr.
Context {R : cring}.
Add Ring Rr : (cr_th R).
Notation dense := (dense R).
Notation lowrank := (lowrank R).
Notation matrix := (matrix R).
Notation mat := (mat R).
Notation grid := (grid R).
Variable Or : oracles R.
Hypothesis HO : oracles_near exact Or.
Variables p q : nat.
Variables h w : nat -> nat.
Let N := offs h p.
Notation column := (column p h).
Notation GB := (GB p h).
Notation bvectors := (bvectors p h).
Notation cblocks := (cblocks p h).

(** Dense and LowRank blocks of given dimensions. *)
Definition btiles (o : Prop) (cw : nat -> nat) (C : grid) : Prop := forall i j, i < p -> j < q ->
  wf (C i j) /\ flat (C i j) /\ nrows (C i j) = h i /\ ncols (C i j) = cw j /\ (o -> orthU (C i j)).
Definition ddiag (A : grid) : Prop := forall k, k < q -> k < p -> exists d, A k k = MD d.

Lemma btiles_col o cw C k j : btiles o cw C -> j < q -> cblocks o k (cw j) (fun i => C i j).
Proof. intros H Hj i _ Hi. apply H; auto. Qed.
Lemma btiles_weaken (o o' : Prop) cw C : (o' -> o) -> btiles o cw C -> btiles o' cw C.
Proof. intros H HC i j Hi Hj. destruct (HC i j Hi Hj) as [H1 [H2 [H3 [H4 H5]]]]. repeat (split; auto). Qed.
Lemma btiles_shaped o cw C : btiles o cw C -> shaped p q h cw C.
Proof. intros H i j Hi Hj. destruct (H i j Hi Hj) as [_ [_ [H1 [H2 _]]]]. auto. Qed.

Lemma bvectors_cong k n (y y' : nat -> matrix) t : (forall i, y' i = y i) -> bvectors k n y t -> bvectors k n y' t.
Proof.
  intros E [H1 [H2 [[v H3] [H4 [H5 [H6 H7]]]]]]. split; auto. split; auto. split; [exists v; rewrite E; exact H3|].
  split; auto. split; auto. split; auto. intros i Hi Hp. rewrite E. apply H7; auto.
Qed.
Lemma GB_cong k n (y y' : nat -> matrix) t : (forall i, y' i = y i) -> feq N N (GB k n y' t) (GB k n y t).
Proof.
  intros E. unfold BlockedProofs.GB. apply refl_feq; [|apply feq_refl]. apply feq_stack. intros b Hb. unfold bigB.
  rewrite !E. apply feq_refl.
Qed.

(** The product of the reflectors of the first n columns. *)
Fixpoint Qblk (Y T : grid) (n : nat) : mat :=
  match n with 0 => mid | S k => mmul N (Qblk Y T k) (GB k (w k) (fun i => Y i k) (T k 0)) end.

Lemma Qblk_cong (Y T Y' T' : grid) n : (forall i k, k < n -> Y' i k = Y i k) -> (forall k, k < n -> T' k 0 = T k 0) ->
  feq N N (Qblk Y' T' n) (Qblk Y T n).
Proof.
  intros HY HT. induction n as [|n IH]; simpl; [apply feq_refl|]. apply feq_mmul.
  - apply IH; intros; auto.
  - rewrite HT by auto. apply GB_cong. intros i. apply HY. auto.
Qed.

Definition orth_cols_upto (Y T : grid) (n : nat) : Prop :=
  forall k, k < n -> orthogonal N (GB k (w k) (fun i => Y i k) (T k 0)).
Lemma Qblk_orth Y T n : orth_cols_upto Y T n -> orthogonal N (Qblk Y T n).
Proof.
  induction n as [|n IH]; intros H; simpl.
  - apply orthogonal_mid.
  - apply orthogonal_mul; [apply IH; intros k Hk; apply H; lia|apply H; lia].
Qed.

(** Reflectors below the blocks of a column do not matter. *)
Lemma Qblk_more Y T n m c (X : nat -> mat) : n <= m -> (forall i, n <= i -> i < p -> feq (h i) c (X i) mzero) ->
  feq N c (mmul N (Qblk Y T m) (stack p h X)) (mmul N (Qblk Y T n) (stack p h X)).
Proof.
  intros L HX. induction L as [|m L IH]; [apply feq_refl|]. cbn [Qblk]. rewrite meq_assoc.
  eapply feq_trans; [|exact IH]. apply feq_mmul; [apply feq_refl|].
  apply (GB_zero p h m (w m) c _ _ false). intros i Hi Hp. apply HX; lia.
Qed.

(** ** One application *)

Lemma block_apply_ok (o : Prop) cw k tr (Y T C C' : grid) j : (o -> keeps_orthU Or) -> j < q ->
  bvectors k (w k) (fun i => Y i k) (T k 0) -> btiles o cw C -> block_apply Or p k tr Y T C j = Ok C' ->
  btiles o cw C' /\ (forall i j', j' <> j -> C' i j' = C i j') /\
  (forall i, i < p -> same_layout (C i j) (C' i j)) /\
  feq N (cw j) (column C' j) (mmul N (mop tr (GB k (w k) (fun i => Y i k) (T k 0))) (column C j)).
Proof.
  intros HU Hj HV HC H. unfold block_apply in H. apply bind_Ok in H. destruct H as [a [Ha H]]. injection H as <-.
  apply (apply_col_ok Or HO p h o k (w k) (cw j)) in Ha; auto; [|apply btiles_col; auto].
  destruct Ha as [H1 [H2 [H3 H4]]].
  assert (ES : forall i, set_col C j a i j = a i) by (intros i; unfold set_col; rewrite Nat.eqb_refl; reflexivity).
  assert (EO : forall i j', j' <> j -> set_col C j a i j' = C i j').
  { intros i j' Ne. unfold set_col. destruct (Nat.eqb_spec j' j); [congruence|reflexivity]. }
  assert (SL : forall i, i < p -> same_layout (C i j) (a i)).
  { intros i Hi. destruct (Nat.lt_ge_cases i k); [|apply H3; auto]. rewrite H2 by auto.
    destruct (HC i j Hi Hj) as [_ [F _]]. destruct (C i j); simpl in *; tauto. }
  split; [|split; [exact EO|split]].
  - intros i j' Hi Hj'. destruct (Nat.eq_dec j' j) as [->|Ne]; [|rewrite EO by auto; apply HC; auto].
    rewrite ES. destruct (Nat.lt_ge_cases i k); [|apply H1; auto]. rewrite H2 by auto. apply HC; auto.
  - intros i Hi. rewrite ES. auto.
  - eapply feq_trans; [|exact H4]. apply feq_stack_refl. intros b Hb. rewrite ES. reflexivity.
Qed.

(** ** Multiplication by the stored reflectors *)

Section Apply.
Variable cw : nat -> nat.
Variables Y T : grid.
Hypothesis HV : forall k, k < q -> bvectors k (w k) (fun i => Y i k) (T k 0).

Lemma cols_ok pc k tr (C C' : grid) : k < q -> btiles False cw C ->
  for_loop (q - k) (fun t C => assert! pc =? p in block_apply Or p k tr Y T C (k + t)) C = Ok C' ->
  btiles False cw C' /\ (forall i j, j < k \/ q <= j -> C' i j = C i j) /\
  (forall j, k <= j -> j < q ->
     feq N (cw j) (column C' j) (mmul N (mop tr (GB k (w k) (fun i => Y i k) (T k 0))) (column C j))).
Proof.
  intros Hk HC H.
  apply (for_loop_inv_out _ _ _ _ (fun u D => btiles False cw D /\ (forall i j, j < k \/ k + u <= j -> D i j = C i j) /\
    (forall j, k <= j -> j < k + u -> j < q ->
     feq N (cw j) (column D j) (mmul N (mop tr (GB k (w k) (fun i => Y i k) (T k 0))) (column C j))))) in H.
  - destruct H as [H1 [H2 H3]]. split; auto. split; [intros; apply H2; lia|]. intros. apply H3; auto; lia.
  - split; auto. split; auto. intros; lia.
  - clear H. intros u D D' Hu [J1 [J2 J3]] Hs. apply assert_Ok in Hs. destruct Hs as [_ Hs].
    apply (block_apply_ok False cw k tr) in Hs; auto; try lia; try tauto.
    destruct Hs as [L1 [L2 [_ L4]]]. split; auto. split.
    + intros i j Hj. rewrite L2 by lia. apply J2. lia.
    + intros j L L' Hj. destruct (Nat.eq_dec j (k + u)) as [->|Ne].
      * eapply feq_trans; [exact L4|]. apply feq_mmul; [apply feq_refl|].
        apply feq_stack_refl. intros b Hb. rewrite J2 by lia. reflexivity.
      * eapply feq_trans; [|apply J3; lia]. apply feq_stack_refl. intros b Hb. rewrite L2 by auto. reflexivity.
Qed.

(** Block column j is multiplied by (the transpose of) the product of the reflectors of
    columns 0..j. *)
Lemma blocked_apply_ok pc (C C' : grid) tr : btiles False cw C -> blocked_apply Or p q Y T pc C tr = Ok C' ->
  btiles False cw C' /\
  forall j, j < q -> feq N (cw j) (column C' j) (mmul N (mop tr (Qblk Y T (S j))) (column C j)).
Proof.
  intros HC H. unfold blocked_apply in H. destruct tr; cbn [mop].
  - apply (for_loop_inv_out _ _ _ _ (fun n D => btiles False cw D /\
      forall j, j < q -> feq N (cw j) (column D j) (mmul N (mtr (Qblk Y T (Nat.min (S j) n))) (column C j)))) in H.
    + destruct H as [H1 H2]. split; auto. intros j Hj. rewrite <- (Nat.min_l (S j) q) by lia. apply H2; auto.
    + split; auto. intros j Hj. simpl. apply feq_sym. eapply feq_trans; [|apply feq_id_l].
      apply feq_mmul; [|apply feq_refl]. intros r s Hr Hs. unfold mtr, mid. rewrite Nat.eqb_sym. reflexivity.
    + clear H. intros k D D' Hk [D1 D2] Hb. cbv beta in Hb. apply cols_ok in Hb; auto. destruct Hb as [L1 [L2 L3]].
      split; auto. intros j Hj. destruct (Nat.lt_ge_cases j k) as [Lj|Lj].
      * rewrite Nat.min_l by lia. rewrite <- (Nat.min_l (S j) k) by lia. eapply feq_trans; [|apply D2; auto].
        apply feq_stack_refl. intros b Hb. rewrite L2 by auto. reflexivity.
      * rewrite Nat.min_r by lia. eapply feq_trans; [apply L3; auto|]. simpl.
        rewrite meq_tr, meq_assoc. apply feq_mmul; [apply feq_refl|]. eapply feq_trans; [apply D2; auto|].
        rewrite Nat.min_r by lia. apply feq_refl.
  - apply (for_loop_inv_out _ _ _ _ (fun n D => btiles False cw D /\
      forall j, j < q -> feq N (cw j) (mmul N (Qblk Y T (Nat.min (S j) (q - n))) (column D j))
                                      (mmul N (Qblk Y T (S j)) (column C j)))) in H.
    + destruct H as [H1 H2]. split; auto. intros j Hj. eapply feq_trans; [|apply H2; auto].
      rewrite Nat.sub_diag, Nat.min_0_r. simpl. apply feq_sym. apply feq_id_l.
    + split; auto. intros j Hj. rewrite Nat.sub_0_r, Nat.min_l by lia. apply feq_refl.
    + clear H. intros n D D' Hn [D1 D2] Hb. cbv beta in Hb. set (k := q - 1 - n) in *. assert (Hk : k < q) by lia.
      apply cols_ok in Hb; auto. destruct Hb as [L1 [L2 L3]].
      split; auto. intros j Hj. eapply feq_trans; [|apply D2; auto]. destruct (Nat.lt_ge_cases j k) as [Lj|Lj].
      * rewrite !Nat.min_l by lia. apply feq_mmul; [apply feq_refl|].
        apply feq_stack_refl. intros b Hb. rewrite L2 by auto. reflexivity.
      * rewrite !Nat.min_r by lia. replace (q - S n) with k by lia. replace (q - n) with (S k) by lia.
        cbn [Qblk]. rewrite meq_assoc. apply feq_mmul; [apply feq_refl|]. exact (L3 j Lj Hj).
Qed.
End Apply.

(** ** The factorization *)

Record bq_inv (A0 : grid) (n : nat) (s : grid * grid) : Prop := {
  bq_tiles : btiles True w (fst s);
  bq_diag : ddiag (fst s);
  bq_p : n <= p;
  bq_vec : forall k, k < n -> bvectors k (w k) (fun i => fst s i k) (snd s k 0);
  bq_orth : orth_cols_upto (fst s) (snd s) n;
  bq_done : forall j, j < n ->
    feq N (w j) (column A0 j) (mmul N (Qblk (fst s) (snd s) n) (stack p h (fun i => Rtile (fst s) i j)));
  bq_todo : forall j, n <= j -> j < q ->
    feq N (w j) (column A0 j) (mmul N (Qblk (fst s) (snd s) n) (column (fst s) j))
}.

Hypothesis HU : keeps_orthU Or.
Variable K : qrt R.
Hypothesis HK : qrt_ok K.
Hypothesis SQ : forall k, k < q -> k < p -> h k = w k.

Lemma blocked_qr_ok (A T : grid) pt qt (A' T' : grid) : btiles True w A -> ddiag A ->
  blocked_qr Or K p q A pt qt T = Ok (A', T') -> bq_inv A q (A', T').
Proof.
  intros HA HD H. unfold blocked_qr in H. apply assert_Ok in H. destruct H as [_ H].
  apply assert_Ok in H. destruct H as [_ H].
  apply (for_loop_inv_out _ _ _ _ (fun n s => bq_inv A n s)) in H; auto.
  - constructor; cbn [fst snd]; auto; try (intros; lia).
    + intros k Hk. lia.
    + intros j _ Hj. simpl. apply feq_sym. apply feq_id_l.
  - clear H. intros n s s' Hn [I1 I2 I3 I4 I5 I6 I7] Hb. destruct s as [B U]. cbn [fst snd] in *.
    apply bind_Ok in Hb. destruct Hb as [[B1 U1] [HT Hb]]. cbn [fst snd] in *.
    apply bind_Ok in Hb. destruct Hb as [B2 [HL Hb]]. injection Hb as <-. cbn [fst snd] in *.
    unfold block_tri in HT. cbn [fst snd] in HT. apply bind_Ok in HT. destruct HT as [[a t] [HT E]]. injection E as <- <-.
    assert (Hp : n < p). { unfold tri_col in HT. destruct (Nat.ltb_spec n p); [auto|discriminate]. }
    destruct (I2 n Hn Hp) as [d0 Ed].
    apply (tri_col_ok K HK p h n (w n)) in HT; [|apply SQ; auto|eauto|apply btiles_col; auto].
    destruct HT as [T1 [T2 [T3 [T4 T5]]]].
    set (G := GB n (w n) a t) in *.
    set (B1 := set_col B n a) in *. set (U1 := bupd U n 0 t) in *.
    assert (ES : forall i, B1 i n = a i) by (intros i; unfold B1, set_col; rewrite Nat.eqb_refl; reflexivity).
    assert (EO : forall i j, j <> n -> B1 i j = B i j).
    { intros i j Ne. unfold B1, set_col. destruct (Nat.eqb_spec j n); [congruence|reflexivity]. }
    assert (EU : U1 n 0 = t) by apply bupd_same.
    assert (EUo : forall k, k <> n -> U1 k 0 = U k 0) by (intros k Ne; apply bupd_other; auto).
    assert (BT1 : btiles True w B1).
    { intros i j Hi Hj. destruct (Nat.eq_dec j n) as [->|Ne]; [|rewrite EO by auto; apply I1; auto].
      rewrite ES. destruct (Nat.lt_ge_cases i n); [rewrite T3 by auto; apply I1; auto|]. apply T2; auto. }
    assert (BD1 : ddiag B1).
    { intros k Hk Hkp. destruct (Nat.eq_dec k n) as [->|Ne]; [|rewrite EO by auto; apply I2; auto].
      rewrite ES. destruct T1 as [_ [_ [T1 _]]]. exact T1. }
    (* the columns to the right *)
    apply (for_loop_inv_out _ _ _ _ (fun u D => btiles True w D /\ ddiag D /\
      (forall i j, j < S n \/ S n + u <= j -> D i j = B1 i j) /\
      (forall j, S n <= j -> j < S n + u -> j < q -> feq N (w j) (column D j) (mmul N (mtr G) (column B j))))) in HL.
    2:{ split; auto. split; auto. split; auto. intros; lia. }
    2:{ clear HL. intros u D D' Hu [J1 [J2 [J3 J4]]] Hs. rewrite <- EU in T1.
        apply (block_apply_ok True w n true) in Hs; auto; try lia.
        2:{ eapply bvectors_cong; [|exact T1]. intros i. cbv beta. rewrite J3 by lia. apply ES. }
        destruct Hs as [L1 [L2 [L3 L4]]]. split; auto. split; [|split].
        - intros k Hk Hkp. destruct (J2 k Hk Hkp) as [d Hd]. destruct (Nat.eq_dec k (S n + u)) as [E|Ne].
          + rewrite <- E in L3. specialize (L3 k Hkp). rewrite Hd in L3. destruct (D' k k); simpl in L3; try tauto. eauto.
          + rewrite L2 by auto. eauto.
        - intros i j Hj. rewrite L2 by lia. apply J3. lia.
        - intros j L L' Hj. destruct (Nat.eq_dec j (S n + u)) as [->|Ne].
          + eapply feq_trans; [exact L4|]. cbn [mop]. apply feq_mmul.
            * apply feq_tr. rewrite EU. unfold G. apply GB_cong. intros i. rewrite J3 by lia. apply ES.
            * apply feq_stack_refl. intros b Hb. rewrite J3 by lia. rewrite EO by lia. reflexivity.
          + eapply feq_trans; [|apply J4; lia]. apply feq_stack_refl. intros b Hb. rewrite L2 by auto. reflexivity. }
    destruct HL as [J1 [J2 [J3 J4]]].
    assert (C2 : forall i k, k < n -> B2 i k = B i k) by (intros i k Hk; rewrite J3 by lia; apply EO; lia).
    assert (CN : forall i, B2 i n = a i) by (intros i; rewrite J3 by lia; apply ES).
    assert (EQ : feq N N (Qblk B U n) (Qblk B2 U1 n)).
    { apply feq_sym, Qblk_cong; intros; [apply C2; auto|apply EUo; lia]. }
    assert (EG : feq N N G (GB n (w n) (fun i => B2 i n) (U1 n 0))).
    { rewrite EU. apply feq_sym. apply GB_cong. exact CN. }
    constructor; cbn [fst snd]; auto.
    + intros k Hk. destruct (Nat.eq_dec k n) as [->|Ne].
      * rewrite EU. eapply bvectors_cong; [|exact T1]. exact CN.
      * rewrite EUo by auto. eapply bvectors_cong; [|apply (I4 k); lia]. intros i. apply C2. lia.
    + intros k Hk. destruct (Nat.eq_dec k n) as [->|Ne].
      * eapply orthogonal_feq; [|exact T4]. exact EG.
      * rewrite EUo by auto. eapply orthogonal_feq; [|apply (I5 k); lia]. apply feq_sym, GB_cong. intros i. apply C2. lia.
    + intros j Hj. simpl. rewrite meq_assoc. destruct (Nat.eq_dec j n) as [->|Nj].
      * eapply feq_trans; [apply (I7 n); lia|]. apply feq_mmul; [exact EQ|].
        eapply feq_trans; [exact T5|]. apply feq_mmul; [exact EG|]. apply feq_stack_refl. intros b Hb.
        unfold Rcol, Rtile. destruct (Nat.ltb_spec b n); [rewrite CN, T3 by auto; reflexivity|].
        destruct (Nat.eqb_spec b n); [subst b; rewrite CN; reflexivity|reflexivity].
      * eapply feq_trans; [apply (I6 j); lia|]. apply feq_mmul; [exact EQ|]. apply feq_sym.
        eapply feq_trans; [apply (GB_zero p h n (w n) (w j) _ _ false)|].
        { intros i Hi Hi'. unfold Rtile. destruct (Nat.ltb_spec i j); [lia|]. destruct (Nat.eqb_spec i j); [lia|]. apply feq_refl. }
        apply feq_stack_refl. intros b Hb. unfold Rtile. rewrite (C2 b j) by lia. reflexivity.
    + intros j Hj Hj'. simpl. rewrite meq_assoc. eapply feq_trans; [apply (I7 j); lia|].
      apply feq_mmul; [exact EQ|].
      eapply feq_trans; [|apply feq_mmul; [exact EG|apply feq_sym; apply (J4 j); lia]].
      apply feq_sym. apply (orthogonal_cancel N (w j) _ _ false). exact T4.
Qed.

(** What a BLR matrix has to be like: Dense and LowRank blocks, LowRank ones with an
    orthonormal left basis, the blocks on the diagonal Dense. *)
Definition bqr_input (A : grid) : Prop := 0 < q /\ btiles True w A /\ ddiag A.

Theorem blocked_qr_correct (A T : grid) pt qt (A' T' : grid) : bqr_input A ->
  blocked_qr Or K p q A pt qt T = Ok (A', T') ->
  exists Q : mat,
    orthogonal N Q /\
    feq N (offs w q) (ent (MH p q A)) (mmul N Q (ent (MH p q (Rgrid h w A')))) /\
    (forall cw pc C C', btiles False cw C -> block_upper p q C -> blocked_apply Or p q A' T' pc C false = Ok C' ->
       feq N (offs cw q) (ent (MH p q C')) (mmul N Q (ent (MH p q C)))) /\
    (forall pc C', blocked_apply Or p q A' T' pc A true = Ok C' ->
       feq N (offs w q) (ent (MH p q C')) (ent (MH p q (Rgrid h w A')))) /\
    (* only the part of A' on and above the diagonal is the factor R *)
    q <= p /\ btiles True w A' /\ ddiag A'.
Proof.
  intros [Hq [HA HD]] H. apply blocked_qr_ok in H; auto.
  destruct H as [I1 I2 I3 I4 I5 I6 I7]. cbn [fst snd] in *.
  assert (Hp : 0 < p) by lia.
  exists (Qblk A' T' q).
  assert (OQ : forall n, n <= q -> orthogonal N (Qblk A' T' n)).
  { intros n Hn. apply Qblk_orth. intros k Hk. apply I5. lia. }
  split; [apply OQ; auto|]. split; [|split; [|split; [|auto]]].
  - apply (by_columns p q h w); [exact Hp|exact Hq|exact (btiles_shaped _ _ _ HA)|apply Rgrid_shaped|].
    intros j Hj. exact (I6 j Hj).
  - intros cw pc C C' HC HB Ha. apply (blocked_apply_ok cw A' T' I4) in Ha; auto. destruct Ha as [HC' Ha].
    apply (by_columns p q h cw); [exact Hp|exact Hq|exact (btiles_shaped _ _ _ HC')|exact (btiles_shaped _ _ _ HC)|].
    intros j Hj. eapply feq_trans; [apply Ha; auto|]. apply feq_sym.
    apply Qblk_more; [lia|].
    intros i Hi Hi'. destruct (HC i j Hi' Hj) as [_ [_ [E1 [E2 _]]]]. rewrite <- E1, <- E2. apply HB; auto; lia.
  - intros pc C' Ha. apply (blocked_apply_ok w A' T' I4) in Ha; [|eapply btiles_weaken; [|exact HA]; tauto].
    destruct Ha as [HC' Ha].
    eapply feq_trans; [apply (by_columns p q h w mid C' (Rgrid h w A')); [exact Hp|exact Hq|exact (btiles_shaped _ _ _ HC')|apply Rgrid_shaped|]|].
    2:{ intros r s Hr Hs. apply mmul_id_l; auto. }
    intros j Hj. eapply feq_trans; [apply Ha; auto|]. apply feq_sym. eapply feq_trans; [apply feq_id_l|].
    assert (E : feq N (w j) (column A j) (mmul N (Qblk A' T' (S j)) (column (Rgrid h w A') j))).
    { eapply feq_trans; [apply I6; auto|]. apply Qblk_more; [lia|].
      intros i Hi Hi'. cbn [Rgrid ent d_e]. unfold Rtile.
      destruct (Nat.ltb_spec i j); [lia|]. destruct (Nat.eqb_spec i j); [lia|]. apply feq_refl. }
    apply feq_sym. eapply feq_trans; [apply feq_mmul; [apply feq_refl|exact E]|].
    apply (orthogonal_cancel N (w j) (Qblk A' T' (S j)) _ true). apply OQ. lia.
Qed.
End BQr.
