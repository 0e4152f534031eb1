(** Reflectors that act on some tiles of a column of tiles, as matrices of full order. *)
From Coq Require Import List Arith ZArith QArith Lia Bool Ring_theory Ring Setoid Morphisms.
From Verif Require Import Prelude Ring MatFun MatSetoid Matrix MatOps MatSpec MatOpsProofs Lapack
  Triangular Reflect ReflectSpec ReflectProofs ReflectTile.
Import ListNotations.
Local Open Scope nat_scope.

Section Big.
Context {R : cring}.
Add Ring Rr : (cr_th R).
Notation dense := (dense R).
Notation lowrank := (lowrank R).
Notation matrix := (matrix R).
Notation mat := (mat R).

(** p tiles of heights h on top of each other. *)
Variable p : nat.
Variable h : nat -> nat.
Let N := offs h p.

Definition stack (X : nat -> mat) : mat := fun r c => let '(b, r') := locate h p r in X b r' c.

Lemma stack_at (X : nat -> mat) b r c : b < p -> r < h b -> stack X (offs h b + r) c = X b r c.
Proof. intros Hb Hr. unfold stack. rewrite (locate_offs h p b r Hb Hr). reflexivity. Qed.

Lemma feq_stack c (X X' : nat -> mat) : (forall b, b < p -> feq (h b) c (X b) (X' b)) -> feq N c (stack X) (stack X').
Proof.
  intros H r j Hr Hj. destruct (locate_in h p r Hr) as [b [r' [E [Hb [Hr' ->]]]]].
  rewrite !stack_at by auto. apply H; auto.
Qed.
Lemma feq_stack_inv c (X X' : nat -> mat) : feq N c (stack X) (stack X') -> forall b, b < p -> feq (h b) c (X b) (X' b).
Proof.
  intros H b Hb r j Hr Hj. rewrite <- (stack_at X b r j Hb Hr), <- (stack_at X' b r j Hb Hr). apply H; auto.
  pose proof (offs_lt h b p Hb). unfold N. lia.
Qed.

Lemma stack_dot (X X' : nat -> mat) i j :
  mmul N (mtr (stack X)) (stack X') i j = sum p (fun b => mmul (h b) (mtr (X b)) (X' b) i j).
Proof.
  unfold N. rewrite mmul_offs. apply sum_ext. intros b Hb. apply mmul_ext; intros x Hx; unfold mwin, mtr.
  - rewrite Nat.add_0_l. apply stack_at; auto.
  - rewrite Nat.add_0_l. apply stack_at; auto.
Qed.

Definition tsum (f : nat -> mat) : mat := fun i j => sum p (fun b => f b i j).

Lemma stack_mul k (X : nat -> mat) (M : mat) : meq (mmul k (stack X) M) (stack (fun b => mmul k (X b) M)).
Proof. intros r j. unfold mmul, stack. destruct (locate h p r). reflexivity. Qed.
Lemma stack_sub (X Y : nat -> mat) : meq (msub (stack X) (stack Y)) (stack (fun b => msub (X b) (Y b))).
Proof. intros r j. unfold msub, stack. destruct (locate h p r). reflexivity. Qed.

(** A reflector with stacked vectors applied to a stacked column. *)
Lemma refl_stack n c (Y : nat -> mat) (T : mat) (X : nat -> mat) (W : mat) :
  feq n c W (mmul n T (tsum (fun b => mmul (h b) (mtr (Y b)) (X b)))) ->
  feq N c (mmul N (refl n (stack Y) T) (stack X)) (stack (fun b => msub (X b) (mmul n (Y b) W))).
Proof.
  intros HW. eapply feq_trans; [apply refl_apply|].
  rewrite <- stack_sub. apply feq_sub; [apply feq_refl|]. rewrite <- stack_mul.
  apply feq_mmul; [apply feq_refl|]. eapply feq_trans; [|apply feq_sym; exact HW].
  apply feq_mmul; [apply feq_refl|]. intros i j Hi Hj. apply stack_dot.
Qed.

(** ** Orthogonality carries over *)

Lemma rows_orth N1 N2 n (Y Y' T : mat) :
  (forall r, r < N2 -> (forall c, c < n -> Y' r c = 0%r) \/ (exists s, s < N1 /\ forall c, c < n -> Y' r c = Y s c)) ->
  feq n n (mmul N2 (mtr Y') Y') (mmul N1 (mtr Y) Y) ->
  orthogonal N1 (refl n Y T) -> orthogonal N2 (refl n Y' T).
Proof.
  intros HR HG [H1 H2].
  assert (E : meq (mtr (refl n Y T)) (refl n Y (mtr T))) by apply refl_tr.
  assert (E' : meq (mtr (refl n Y' T)) (refl n Y' (mtr T))) by apply refl_tr.
  rewrite E in H1, H2.
  assert (key : forall T1 T2, feq N1 N1 (mmul N1 (refl n Y T1) (refl n Y T2)) mid ->
                              feq N2 N2 (mmul N2 (refl n Y' T1) (refl n Y' T2)) mid).
  { intros T1 T2 H. eapply feq_trans; [apply refl_mul|]. apply sub_zero.
    set (M' := msub (madd T1 T2) (mmul n T1 (mmul n (mmul N2 (mtr Y') Y') T2))).
    set (M := msub (madd T1 T2) (mmul n T1 (mmul n (mmul N1 (mtr Y) Y) T2))).
    assert (EM : feq n n M' M).
    { apply feq_sub; [apply feq_refl|]. apply feq_mmul; [apply feq_refl|]. apply feq_mmul; [exact HG|apply feq_refl]. }
    assert (Z : feq N1 N1 (mmul n Y (mmul n M (mtr Y))) mzero).
    { intros r s Hr Hs. assert (X := refl_mul N1 n Y T1 T2 r s Hr Hs). rewrite (H r s Hr Hs) in X.
      fold M in X. unfold msub at 1 in X. unfold mzero.
      match goal with |- ?a = _ => replace a with (mid r s - (mid r s - a))%r by ring end.
      rewrite <- X. ring. }
    intros r s Hr Hs.
    destruct (HR r Hr) as [Zr|[r' [Hr' Er]]].
    { unfold mmul at 1. apply sum_zero'. intros x Hx. rewrite Zr by auto. ring. }
    destruct (HR s Hs) as [Zs|[s' [Hs' Es]]].
    { rewrite <- meq_assoc. unfold mmul at 1. apply sum_zero'. intros x Hx. unfold mtr. rewrite Zs by auto. ring. }
    transitivity (mmul n Y (mmul n M (mtr Y)) r' s'); [|rewrite (Z r' s' Hr' Hs'); reflexivity].
    unfold mmul at 1 3. apply sum_ext. intros x Hx. rewrite Er by auto. f_equal.
    unfold mmul. apply sum_ext. intros y Hy. unfold mtr. rewrite Es by auto. f_equal. apply EM; auto. }
  split.
  - rewrite E'. apply key. exact H1.
  - rewrite E'. apply key. exact H2.
Qed.

(** ** One tile *)

Definition bigL (k : nat) (V : mat) : nat -> mat := fun b => if b =? k then tri Lower true V else mzero.
Definition GL (k n : nat) (V T : mat) : mat := refl n (stack (bigL k V)) (tri Upper false T).

Lemma tsum_single k (f : nat -> mat) : k < p -> (forall b, b < p -> b <> k -> meq (f b) mzero) -> meq (tsum f) (f k).
Proof.
  intros Hk H i j. unfold tsum. apply (sum_single p k); auto. intros b Hb Hn. apply H; auto.
Qed.

Lemma GL_apply k n c (V T : mat) (tr : bool) (X X' : nat -> mat) : k < p ->
  feq (h k) c (X' k) (mmul (h k) (mop tr (tile_refl n V T)) (X k)) ->
  (forall b, b < p -> b <> k -> feq (h b) c (X' b) (X b)) ->
  feq N c (stack X') (mmul N (mop tr (GL k n V T)) (stack X)).
Proof.
  intros Hk H1 H2. unfold GL. rewrite refl_op. apply feq_sym.
  eapply feq_trans; [apply refl_stack; apply feq_refl|]. apply feq_stack. intros b Hb.
  set (T' := mop tr (tri Upper false T)).
  assert (E : meq (tsum (fun b => mmul (h b) (mtr (bigL k V b)) (X b))) (mmul (h k) (mtr (tri Lower true V)) (X k))).
  { rewrite (tsum_single k); [unfold bigL; rewrite Nat.eqb_refl; reflexivity|auto|].
    intros b' _ Hn. unfold bigL. destruct (Nat.eqb_spec b' k); [congruence|].
    assert (Z : meq (mtr mzero) (@mzero R)) by (intros ? ?; reflexivity). rewrite Z. apply meq_zero_l. }
  rewrite E. destruct (Nat.eq_dec b k) as [->|Hn].
  - eapply feq_trans; [|apply feq_sym; exact H1]. unfold bigL. rewrite Nat.eqb_refl.
    unfold tile_refl. rewrite refl_op. fold T'. apply feq_sym. apply refl_apply.
  - unfold bigL. destruct (Nat.eqb_spec b k); [congruence|]. rewrite meq_zero_l.
    eapply feq_trans; [|apply feq_sym; apply H2; auto]. intros i j Hi Hj. unfold msub, mzero. ring.
Qed.

Lemma GL_orth k n (V T : mat) : k < p -> orthogonal (h k) (tile_refl n V T) -> orthogonal N (GL k n V T).
Proof.
  intros Hk. unfold tile_refl, GL. apply rows_orth.
  - intros r Hr. destruct (locate_in h p r Hr) as [b [r' [_ [Hb [Hr' ->]]]]].
    unfold bigL. destruct (Nat.eq_dec b k) as [->|Hn].
    + right. exists r'. split; auto. intros c Hc. rewrite stack_at by auto. rewrite Nat.eqb_refl. reflexivity.
    + left. intros c Hc. rewrite stack_at by auto. destruct (Nat.eqb_spec b k); [congruence|reflexivity].
  - intros i j Hi Hj. rewrite stack_dot. rewrite (sum_single p k); auto.
    + unfold bigL. rewrite Nat.eqb_refl. reflexivity.
    + intros b Hb Hn. unfold bigL. destruct (Nat.eqb_spec b k); [congruence|].
      unfold mmul. apply sum_zero'. intros x _. unfold mzero. ring.
Qed.

Lemma GL_feq k n (V V' T T' : mat) : k < p -> feq (h k) n (tri Lower true V) (tri Lower true V') -> feq n n T T' ->
  feq N N (GL k n V T) (GL k n V' T').
Proof.
  intros Hk H1 H2. apply refl_feq; [|apply tri_feq; auto]. apply feq_stack. intros b Hb. unfold bigL.
  destruct (Nat.eqb_spec b k); [subst; auto|apply feq_refl].
Qed.

(** A column without entries in the tile is left alone. *)
Lemma GL_zero k n c (V T : mat) (tr : bool) (X : nat -> mat) : k < p -> feq (h k) c (X k) mzero ->
  feq N c (mmul N (mop tr (GL k n V T)) (stack X)) (stack X).
Proof.
  intros Hk H. apply feq_sym. apply GL_apply; auto.
  - eapply feq_trans; [exact H|]. apply feq_sym. eapply feq_trans; [apply feq_mmul; [apply feq_refl|exact H]|].
    rewrite meq_zero_r. apply feq_refl.
  - intros b _ _. apply feq_refl.
Qed.

(** ** The first n rows of one tile and another tile *)

Definition top (n : nat) : mat := fun r c => if r <? n then mid r c else 0%r.
Definition bigP (k i n : nat) (V : mat) : nat -> mat :=
  fun b => if b =? k then top n else if b =? i then V else mzero.
Definition GP (k i n : nat) (V T : mat) : mat := refl n (stack (bigP k i n V)) (tri Upper false T).

Lemma sum_two m k i (f : nat -> R) : k < m -> i < m -> k <> i ->
  (forall b, b < m -> b <> k -> b <> i -> f b = 0%r) -> sum m f = (f k + f i)%r.
Proof.
  intros Hk Hi Hn H.
  assert (E : sum m f = (sum m (fun b => if Nat.eqb b k then f b else 0%r) + sum m (fun b => if Nat.eqb b i then f b else 0%r))%r).
  { rewrite <- sum_add. apply sum_ext. intros b Hb. destruct (Nat.eqb_spec b k), (Nat.eqb_spec b i); subst; try congruence.
    - ring.
    - ring.
    - rewrite H by auto. ring. }
  rewrite E. rewrite (sum_single m k), (sum_single m i); auto.
  - rewrite !Nat.eqb_refl. reflexivity.
  - intros b Hb Hb'. destruct (Nat.eqb_spec b i); [congruence|reflexivity].
  - intros b Hb Hb'. destruct (Nat.eqb_spec b k); [congruence|reflexivity].
Qed.

Lemma top_dot n m (x : mat) i j : n <= m -> i < n -> mmul m (mtr (top n)) x i j = x i j.
Proof.
  intros L Hi. unfold mmul. rewrite (sum_single m i); [|lia|].
  - unfold mtr, top, mid. destruct (Nat.ltb_spec i n); [|lia]. rewrite Nat.eqb_refl. ring.
  - intros y Hy Hn. unfold mtr, top, mid. destruct (y <? n); [|ring].
    destruct (Nat.eqb_spec y i); [congruence|ring].
Qed.
Lemma top_mul n (x : mat) r j : mmul n (top n) x r j = if r <? n then x r j else 0%r.
Proof.
  unfold top. destruct (Nat.ltb_spec r n).
  - rewrite <- (mmul_id_l n x r j) by auto. apply mmul_ext; auto. intros y Hy.
    destruct (Nat.ltb_spec r n); [reflexivity|lia].
  - unfold mmul. apply sum_zero'. intros y Hy. destruct (Nat.ltb_spec r n); [lia|ring].
Qed.

Lemma bigP_dot k i n c (V : mat) (X : nat -> mat) : k < p -> i < p -> k <> i -> n <= h k ->
  feq n c (tsum (fun b => mmul (h b) (mtr (bigP k i n V b)) (X b))) (madd (X k) (mmul (h i) (mtr V) (X i))).
Proof.
  intros Hk Hi Hn L r j Hr Hj. unfold tsum. rewrite (sum_two p k i); auto.
  - unfold bigP. rewrite !Nat.eqb_refl. destruct (Nat.eqb_spec i k); [congruence|].
    rewrite top_dot by auto. reflexivity.
  - intros b Hb H1 H2. unfold bigP. destruct (Nat.eqb_spec b k); [congruence|]. destruct (Nat.eqb_spec b i); [congruence|].
    unfold mmul. apply sum_zero'. intros x _. unfold mtr, mzero. ring.
Qed.

Lemma GP_apply k i n c (V T : mat) (tr : bool) (X X' : nat -> mat) : k < p -> i < p -> k <> i -> n <= h k ->
  feq (n + h i) c (vst n (X' k) (X' i)) (mmul (n + h i) (mop tr (pair_refl n V T)) (vst n (X k) (X i))) ->
  (forall r j, n <= r -> r < h k -> j < c -> X' k r j = X k r j) ->
  (forall b, b < p -> b <> k -> b <> i -> feq (h b) c (X' b) (X b)) ->
  feq N c (stack X') (mmul N (mop tr (GP k i n V T)) (stack X)).
Proof.
  intros Hk Hi Hn L H1 H2 H3. unfold GP. rewrite refl_op. set (T' := mop tr (tri Upper false T)).
  set (W := mmul n T' (madd (X k) (mmul (h i) (mtr V) (X i)))).
  unfold pair_refl in H1. rewrite refl_op in H1. fold T' in H1.
  assert (H1' := feq_trans _ _ _ _ _ H1 (feq_sym _ _ _ _ (pair_apply n (h i) c V T' (X k) (X i) W (feq_refl _ _ _)))).
  apply feq_vst_inv in H1'. destruct H1' as [K1 K2].
  apply feq_sym. eapply feq_trans.
  { apply (refl_stack n c _ T' X W). unfold W. apply feq_mmul; [apply feq_refl|]. apply feq_sym. apply bigP_dot; auto. }
  apply feq_stack. intros b Hb. apply feq_sym. unfold bigP.
  destruct (Nat.eqb_spec b k) as [->|Nk].
  - intros r j Hr Hj. unfold msub. rewrite top_mul. destruct (Nat.ltb_spec r n).
    + apply K1; auto.
    + rewrite H2 by auto. ring.
  - destruct (Nat.eqb_spec b i) as [->|Ni]; [exact K2|].
    rewrite meq_zero_l. eapply feq_trans; [apply H3; auto|]. intros r j _ _. unfold msub, mzero. ring.
Qed.

Lemma GP_orth k i n (V T : mat) : k < p -> i < p -> k <> i -> n <= h k ->
  orthogonal (n + h i) (pair_refl n V T) -> orthogonal N (GP k i n V T).
Proof.
  intros Hk Hi Hn L. unfold pair_refl, GP. apply rows_orth.
  - intros r Hr. destruct (locate_in h p r Hr) as [b [r' [_ [Hb [Hr' ->]]]]].
    unfold bigP. destruct (Nat.eq_dec b k) as [->|Nk].
    + destruct (Nat.ltb_spec r' n).
      * right. exists r'. split; [lia|]. intros c Hc. rewrite stack_at by auto. rewrite Nat.eqb_refl.
        unfold top, vst. destruct (Nat.ltb_spec r' n); [reflexivity|lia].
      * left. intros c Hc. rewrite stack_at by auto. rewrite Nat.eqb_refl.
        unfold top. destruct (Nat.ltb_spec r' n); [lia|reflexivity].
    + destruct (Nat.eq_dec b i) as [->|Ni].
      * right. exists (n + r'). split; [lia|]. intros c Hc. rewrite stack_at by auto. rewrite vst_bot.
        destruct (Nat.eqb_spec i k); [congruence|]. rewrite Nat.eqb_refl. reflexivity.
      * left. intros c Hc. rewrite stack_at by auto. destruct (Nat.eqb_spec b k); [congruence|].
        destruct (Nat.eqb_spec b i); [congruence|reflexivity].
  - intros r s Hr Hs. rewrite stack_dot. rewrite vst_dot.
    etransitivity; [apply (bigP_dot k i n n V (bigP k i n V)); auto|].
    unfold madd. f_equal.
    + unfold bigP. rewrite Nat.eqb_refl. rewrite mmul_id_r by auto. unfold top, mtr, mid.
      destruct (Nat.ltb_spec r n); [|lia]. rewrite Nat.eqb_sym. reflexivity.
    + unfold bigP. destruct (Nat.eqb_spec i k); [congruence|]. rewrite Nat.eqb_refl. reflexivity.
Qed.

Lemma GP_feq k i n (V V' T T' : mat) : i < p -> feq (h i) n V V' -> feq n n T T' ->
  feq N N (GP k i n V T) (GP k i n V' T').
Proof.
  intros Hi H1 H2. apply refl_feq; [|apply tri_feq; auto]. apply feq_stack. intros b Hb. unfold bigP.
  destruct (Nat.eqb_spec b k); [apply feq_refl|].
  destruct (Nat.eqb_spec b i); [subst; auto|apply feq_refl].
Qed.

Lemma GP_zero k i n c (V T : mat) (tr : bool) (X : nat -> mat) : k < p -> i < p -> k <> i -> n <= h k ->
  feq (h k) c (X k) mzero -> feq (h i) c (X i) mzero ->
  feq N c (mmul N (mop tr (GP k i n V T)) (stack X)) (stack X).
Proof.
  intros Hk Hi Hn L H1 H2. apply feq_sym. apply GP_apply; auto.
  - assert (Z : feq (n + h i) c (vst n (X k) (X i)) mzero).
    { intros r j Hr Hj. unfold vst. destruct (Nat.ltb_spec r n); [rewrite H1 by lia; reflexivity|rewrite H2 by lia; reflexivity]. }
    eapply feq_trans; [exact Z|]. apply feq_sym. eapply feq_trans; [apply feq_mmul; [apply feq_refl|exact Z]|].
    rewrite meq_zero_r. apply feq_refl.
  - intros b _ _ _. apply feq_refl.
Qed.

(** ** Orthogonal matrices *)

Lemma orthogonal_mid M : orthogonal M (@mid R).
Proof.
  split; intros i j Hi Hj.
  - rewrite mmul_id_l by auto. unfold mtr, mid. rewrite Nat.eqb_sym. reflexivity.
  - rewrite mmul_id_r by auto. unfold mtr, mid. rewrite Nat.eqb_sym. reflexivity.
Qed.
Lemma feq_id_l r c (f : mat) : feq r c (mmul r mid f) f.
Proof. intros i j Hi _. apply mmul_id_l; auto. Qed.
Lemma orthogonal_mul M (P Q : mat) : orthogonal M P -> orthogonal M Q -> orthogonal M (mmul M P Q).
Proof.
  intros [P1 P2] [Q1 Q2]. split.
  - rewrite meq_tr, meq_assoc. rewrite <- (meq_assoc M M Q (mtr Q)).
    eapply feq_trans; [|exact P1]. apply feq_mmul; [apply feq_refl|].
    eapply feq_trans; [apply feq_mmul; [exact Q1|apply feq_refl]|]. apply feq_id_l.
  - rewrite meq_tr, meq_assoc. rewrite <- (meq_assoc M M (mtr P) P).
    eapply feq_trans; [|exact Q2]. apply feq_mmul; [apply feq_refl|].
    eapply feq_trans; [apply feq_mmul; [exact P2|apply feq_refl]|]. apply feq_id_l.
Qed.
Lemma orthogonal_cancel M c (Q x : mat) (tr : bool) : orthogonal M Q ->
  feq M c (mmul M (mop tr Q) (mmul M (mop (negb tr) Q) x)) x.
Proof.
  intros [H1 H2]. rewrite <- meq_assoc. eapply feq_trans; [|apply feq_id_l].
  apply feq_mmul; [|apply feq_refl]. destruct tr; simpl; auto.
Qed.
End Big.
