(** The tile factorizations geqrt and tpqrt, Dense and LowRank tiles. *)
From Coq Require Import List Arith ZArith QArith Lia Bool Ring_theory Ring Setoid Morphisms.
From Verif Require Import Prelude Ring MatFun MatSetoid Matrix MatOps MatSpec MatOpsProofs Lapack Gemm GemmSpec GemmProofs
  Triangular TriAlgebra TriSpec TriProofs Reflect ReflectSpec ReflectProofs.
Import ListNotations.
Local Open Scope nat_scope.

Section Tile.
Context {R : cring}.
Add Ring Rr : (cr_th R).
Notation dense := (dense R).
Notation lowrank := (lowrank R).
Notation matrix := (matrix R).
Notation mat := (mat R).

(** ** When a reflector is orthogonal *)

(** T + T^T = T G T^T = T^T G T, with G the Gram matrix of the vectors. *)
Definition balanced (n : nat) (G T : mat) : Prop :=
  feq n n (madd T (mtr T)) (mmul n T (mmul n G (mtr T))) /\
  feq n n (madd T (mtr T)) (mmul n (mtr T) (mmul n G T)).

Lemma refl_mul N n (Y T T' : mat) :
  feq N N (mmul N (refl n Y T) (refl n Y T'))
      (msub mid (mmul n Y (mmul n (msub (madd T T') (mmul n T (mmul n (mmul N (mtr Y) Y) T'))) (mtr Y)))).
Proof.
  eapply feq_trans; [apply refl_apply|].
  assert (E : feq n N (mmul N (mtr Y) (refl n Y T'))
    (msub (mtr Y) (mmul n (mmul n (mmul N (mtr Y) Y) T') (mtr Y)))).
  { unfold refl. rewrite meq_sub_r. apply feq_sub.
    - intros i j Hi Hj. apply mmul_id_r; auto.
    - apply meq_feq. rewrite !meq_assoc. reflexivity. }
  eapply feq_trans; [apply feq_sub; [apply feq_refl|]; apply feq_mmul; [apply feq_refl|];
    apply feq_mmul; [apply feq_refl|exact E]|].
  apply meq_feq. unfold refl.
  rewrite !meq_sub_r, !meq_sub_l, !meq_add_l, !meq_sub_r, !meq_add_r, !meq_assoc.
  intros i j. unfold msub, madd. ring.
Qed.

Lemma sub_zero N (Z : mat) : feq N N Z mzero -> feq N N (msub mid Z) mid.
Proof. intros H i j Hi Hj. unfold msub. rewrite (H i j Hi Hj). unfold mzero. ring. Qed.

Lemma balanced_orth N n (Y T : mat) : balanced n (mmul N (mtr Y) Y) T -> orthogonal N (refl n Y T).
Proof.
  intros [H1 H2]. split.
  - assert (E : meq (mtr (refl n Y T)) (refl n Y (mtr T))) by apply refl_tr. rewrite E.
    eapply feq_trans; [apply refl_mul|].
    assert (Z : feq N N (mmul n Y (mmul n (msub (madd T (mtr T)) (mmul n T (mmul n (mmul N (mtr Y) Y) (mtr T)))) (mtr Y))) mzero).
    { eapply feq_trans; [apply feq_mmul; [apply feq_refl|]; apply feq_mmul; [|apply feq_refl]|].
      - intros i j Hi Hj. instantiate (1 := mzero). unfold msub, mzero. rewrite (H1 i j Hi Hj). ring.
      - rewrite meq_zero_l, meq_zero_r. apply feq_refl. }
    apply sub_zero; exact Z.
  - assert (E : meq (mtr (refl n Y T)) (refl n Y (mtr T))) by apply refl_tr. rewrite E.
    eapply feq_trans; [apply refl_mul|].
    assert (Z : feq N N (mmul n Y (mmul n (msub (madd (mtr T) T) (mmul n (mtr T) (mmul n (mmul N (mtr Y) Y) T))) (mtr Y))) mzero).
    { eapply feq_trans; [apply feq_mmul; [apply feq_refl|]; apply feq_mmul; [|apply feq_refl]|].
      - intros i j Hi Hj. instantiate (1 := mzero). unfold msub, mzero.
        pose proof (H2 i j Hi Hj) as X. unfold madd, mtr in X. unfold madd, mtr.
        replace (T j i + T i j)%r with (T i j + T j i)%r by ring. rewrite X. unfold mtr. ring.
      - rewrite meq_zero_l, meq_zero_r. apply feq_refl. }
    apply sub_zero; exact Z.
Qed.

(** With the identity on top of the vectors the converse holds. *)
Lemma orth_balanced n m (V T : mat) :
  orthogonal (n + m) (refl n (vst n mid V) T) -> balanced n (mmul (n + m) (mtr (vst n mid V)) (vst n mid V)) T.
Proof.
  set (Y := vst n mid V). intros [H1 H2].
  assert (top : forall X : mat, feq (n + m) (n + m) (msub mid (mmul n Y (mmul n X (mtr Y)))) mid -> feq n n X mzero).
  { intros X H i j Hi Hj. specialize (H i j ltac:(lia) ltac:(lia)). unfold msub in H.
    assert (E : mmul n Y (mmul n X (mtr Y)) i j = X i j).
    { transitivity (mmul n mid (mmul n X (mtr Y)) i j).
      - apply mmul_ext; auto. intros x Hx. unfold Y, vst. destruct (Nat.ltb_spec i n); [reflexivity|lia].
      - rewrite mmul_id_l by auto. rewrite <- (mmul_id_r n X i j Hj). apply mmul_ext; auto.
        intros x Hx. unfold mtr, Y, vst. destruct (Nat.ltb_spec j n); [|lia]. unfold mid. rewrite Nat.eqb_sym. reflexivity. }
    rewrite E in H. unfold mzero. replace (X i j) with (mid i j - (mid i j - X i j))%r by ring. rewrite H. ring. }
  assert (E : meq (mtr (refl n Y T)) (refl n Y (mtr T))) by apply refl_tr. rewrite E in H1, H2.
  split.
  - assert (H := feq_trans _ _ _ _ _ (feq_sym _ _ _ _ (refl_mul (n + m) n Y T (mtr T))) H1).
    apply top in H. intros i j Hi Hj. specialize (H i j Hi Hj). unfold msub, mzero in H.
    match goal with |- ?a = ?b => replace a with ((a - b) + b)%r by ring end. rewrite H. ring.
  - assert (H := feq_trans _ _ _ _ _ (feq_sym _ _ _ _ (refl_mul (n + m) n Y (mtr T) T)) H2).
    apply top in H. intros i j Hi Hj. specialize (H i j Hi Hj). unfold msub, mzero in H.
    unfold madd in *. unfold mtr in H at 1. unfold mtr at 1.
    match goal with |- ?a = ?b => replace a with ((T j i + T i j - b) + b)%r by ring end. rewrite H. ring.
Qed.

Lemma balanced_gram n (G G' T : mat) : feq n n G G' -> balanced n G T -> balanced n G' T.
Proof.
  intros E [H1 H2]. split.
  - eapply feq_trans; [exact H1|]. apply feq_mmul; [apply feq_refl|]. apply feq_mmul; [exact E|apply feq_refl].
  - eapply feq_trans; [exact H2|]. apply feq_mmul; [apply feq_refl|]. apply feq_mmul; [exact E|apply feq_refl].
Qed.

(** ** Entries that matter *)

Lemma refl_feq N n (Y Y' T T' : mat) : feq N n Y Y' -> feq n n T T' -> feq N N (refl n Y T) (refl n Y' T').
Proof.
  intros H1 H2. unfold refl. apply feq_sub; [apply feq_refl|]. apply feq_mmul; auto. apply feq_mmul; auto.
  apply feq_tr; auto.
Qed.
Lemma orthogonal_feq N (Q Q' : mat) : feq N N Q Q' -> orthogonal N Q -> orthogonal N Q'.
Proof.
  intros E [H1 H2]. assert (E' := feq_sym _ _ _ _ E). split.
  - eapply feq_trans; [|exact H1]. apply feq_mmul; auto. apply feq_tr; auto.
  - eapply feq_trans; [|exact H2]. apply feq_mmul; auto. apply feq_tr; auto.
Qed.
Lemma tri_feq r c u un (f g : mat) : feq r c f g -> feq r c (tri u un f) (tri u un g).
Proof.
  intros H i j Hi Hj. unfold tri. rewrite (H i j Hi Hj). reflexivity.
Qed.
Lemma pair_refl_feq n m (V V' T T' : mat) : feq m n V V' -> feq n n T T' ->
  feq (n + m) (n + m) (pair_refl n V T) (pair_refl n V' T').
Proof.
  intros H1 H2. unfold pair_refl. apply refl_feq; [apply feq_vst; [apply feq_refl|auto]|]. apply tri_feq; auto.
Qed.
Lemma orthogonal_tr N (Q : mat) : orthogonal N Q -> orthogonal N (mtr Q).
Proof. intros [H1 H2]. split; [exact H2|exact H1]. Qed.

(** ** Widening the lower vectors by an orthonormal basis *)

Lemma gram_lift n m r (U V : mat) : orth_cols m r U ->
  feq n n (mmul (n + r) (mtr (vst n mid V)) (vst n mid V))
      (mmul (n + m) (mtr (vst n mid (mmul r U V))) (vst n mid (mmul r U V))).
Proof.
  intros HU. rewrite !vst_dot. apply feq_add; [apply feq_refl|].
  rewrite meq_tr, meq_assoc. apply feq_mmul; [apply feq_refl|].
  rewrite <- meq_assoc. intros i j Hi Hj. rewrite <- (mmul_id_l r V i j Hi).
  apply mmul_ext; auto. intros x Hx. symmetry. apply HU; auto.
Qed.

Lemma pair_lift n m r (U V T : mat) : orth_cols m r U ->
  orthogonal (n + r) (pair_refl n V T) -> orthogonal (n + m) (pair_refl n (mmul r U V) T).
Proof.
  intros HU H. unfold pair_refl in *. apply balanced_orth. eapply balanced_gram; [apply gram_lift; exact HU|].
  apply orth_balanced. exact H.
Qed.

(** What a reflector does to a block with zeros below. *)
Lemma pair_on_top n m c (V T x : mat) :
  feq (n + m) c (mmul (n + m) (refl n (vst n mid V) T) (vst n x mzero))
      (vst n (msub x (mmul n T x)) (msub mzero (mmul n V (mmul n T x)))).
Proof.
  apply feq_sym. eapply feq_trans; [|apply pair_apply; apply feq_refl].
  assert (E : feq n c (mmul n T x) (mmul n T (madd x (mmul m (mtr V) mzero)))).
  { rewrite meq_zero_r, meq_add_0_r. apply feq_refl. }
  apply feq_vst; (apply feq_sub; [apply feq_refl|]).
  - exact E.
  - apply feq_mmul; [apply feq_refl|exact E].
Qed.

Lemma pair_value_lift n m r c (U V T x top b : mat) :
  feq (n + r) c (vst n top b) (mmul (n + r) (pair_refl n V T) (vst n x mzero)) ->
  feq (n + m) c (vst n top (mmul r U b)) (mmul (n + m) (pair_refl n (mmul r U V) T) (vst n x mzero)).
Proof.
  unfold pair_refl. intros H. eapply feq_trans; [|apply feq_sym; apply pair_on_top].
  assert (H' := feq_trans _ _ _ _ _ H (pair_on_top n r c V _ x)).
  apply feq_vst_inv in H'. destruct H' as [H1 H2]. apply feq_vst; [exact H1|].
  eapply feq_trans; [apply feq_mmul; [apply feq_refl|exact H2]|]. apply meq_feq.
  rewrite meq_sub_r, meq_zero_r, meq_assoc. reflexivity.
Qed.

Lemma d_eye_fill (A : dense) i j : i < d_r A -> j < d_c A -> d_e (d_eye (d_fill 0%r A)) i j = mid i j.
Proof.
  intros Hi Hj. cbn [d_eye d_e]. rewrite d_eye_ent_gen. unfold mid.
  destruct (Nat.eqb_spec i j) as [E|E].
  - destruct (Nat.ltb_spec i (Nat.min (d_r (d_fill 0%r A)) (d_c (d_fill 0%r A)))) as [L|L]; [reflexivity|].
    cbn [d_fill d_r d_c] in L. lia.
  - simpl andb. cbv iota. exact (d_fill_ent 0%r A i j Hi Hj).
Qed.

(** ** The model's kernels *)
Variable K : qrt R.
Hypothesis HK : qrt_ok K.

Lemma geqrt_ok (A T A' T' : matrix) : geqrt K A T = Ok (A', T') -> ncols A <= nrows A ->
  exists a t a' t', A = MD a /\ T = MD t /\ A' = MD a' /\ T' = MD t' /\ is_geqrt a a' t'.
Proof.
  unfold geqrt. intros H L. destruct A as [a|?|? ? ?|? ?]; try discriminate.
  destruct T as [t|?|? ? ?|? ?]; try discriminate.
  apply assert_Ok in H. destruct H as [_ H]. apply assert_Ok in H. destruct H as [_ H].
  simpl in L. destruct (Nat.ltb_spec (d_r a) (d_c a)); [lia|].
  apply bind_Ok in H. destruct H as [[x y] [Hx H]]. inversion H; subst A' T'; clear H.
  exists a, t, x, y. do 4 (split; auto). eapply (ok_geqrt _ HK); eauto.
Qed.

Lemma d_tpqrt_ok (a b t a' v y : dense) : d_tpqrt K a b t = Ok (a', v, y) -> d_c b = d_c t -> d_r t = d_c t ->
  d_c b <= d_r a /\ d_c b <= d_c a /\ d_r y = d_c b /\ d_c y = d_c b /\ is_tpqrt a b a' v y.
Proof.
  unfold d_tpqrt. intros H E1 E2. destruct (_ && _) eqn:B; [|discriminate].
  repeat (apply andb_true_iff in B; destruct B as [B ?]).
  repeat match goal with H : (_ <=? _) = true |- _ => apply Nat.leb_le in H end.
  apply bind_Ok in H. destruct H as [[[x w] z] [Hx H]]. inversion H; subst a' v y; clear H.
  split; auto. split; auto. split; [simpl; congruence|]. split; [simpl; congruence|].
  apply (ok_tpqrt _ HK) in Hx; auto. destruct Hx as [D1 [D2 [D3 [D4 [F [HO HE]]]]]].
  unfold is_tpqrt. cbv zeta. cbn [d_e].
  assert (ET : feq (d_c b) (d_c b) (d_e z)
    (fun i j => if (i <? d_c b) && (j <? d_c b) then d_e z i j else d_e t i j)).
  { intros i j Hi Hj. destruct (Nat.ltb_spec i (d_c b)); [|lia]. destruct (Nat.ltb_spec j (d_c b)); [|lia]. reflexivity. }
  do 4 (split; auto). split; auto. split.
  - eapply orthogonal_feq; [apply pair_refl_feq; [apply feq_refl|exact ET]|exact HO].
  - eapply feq_trans; [exact HE|]. apply feq_mmul; [|apply feq_refl].
    apply pair_refl_feq; [apply feq_refl|exact ET].
Qed.

Lemma tpqrt_ok (A B T A' V T' : matrix) : tpqrt K A B T = Ok (A', V, T') ->
  wf B -> orthU B -> nrows T = ncols B -> ncols T = ncols B ->
  let n := ncols B in
  let m := nrows B in
  exists a a' t t', A = MD a /\ A' = MD a' /\ T = MD t /\ T' = MD t' /\
    n <= d_r a /\ n <= d_c a /\ d_r a' = d_r a /\ d_c a' = d_c a /\ d_r t' = n /\ d_c t' = n /\
    (forall i j, i < d_r a -> j < d_c a -> ~ (i <= j /\ j < n) -> d_e a' i j = d_e a i j) /\
    flat B /\ wf V /\ same_layout B V /\ orthU V /\
    orthogonal (n + m) (pair_refl n (ent V) (d_e t')) /\
    feq (n + m) n (vst n (tri Upper false (d_e a)) (ent B))
        (mmul (n + m) (pair_refl n (ent V) (d_e t')) (vst n (tri Upper false (d_e a')) mzero)).
Proof.
  intros H WB HB T1 T2 n m. unfold tpqrt in H.
  destruct A as [a|?|? ? ?|? ?]; try discriminate.
  destruct B as [b|b|? ? ?|? ?]; try discriminate;
    destruct T as [t|?|? ? ?|? ?]; try discriminate.
  - apply bind_Ok in H. destruct H as [[[x w] z] [Hx H]]. inversion H; subst A' V T'; clear H.
    simpl in T1, T2. apply d_tpqrt_ok in Hx; [|simpl in T2; congruence|congruence].
    destruct Hx as [L1 [L2 [Y1 [Y2 [D1 [D2 [D3 [D4 [F [HO HE]]]]]]]]]].
    exists a, x, t, z. do 4 (split; auto). do 2 (split; auto). do 4 (split; auto).
    split; [exact F|]. split; [exact I|]. split; [exact I|]. split; [simpl; auto|]. split; [exact I|].
    split; [exact HO|exact HE].
  - apply bind_Ok in H. destruct H as [sv [Hs H]].
    apply bind_Ok in H. destruct H as [[[x w] z] [Hx H]]. inversion H; subst A' V T'; clear H.
    destruct WB as [W1 [W2 [W3 W4]]]. simpl in T1, T2, HB.
    apply dd_mul_inv in Hs. destruct Hs as [_ [S1 [S2 S3]]]. simpl in S1, S2, S3.
    apply d_tpqrt_ok in Hx; [|congruence|congruence].
    destruct Hx as [L1 [L2 [Y1 [Y2 [D1 [D2 [D3 [D4 [F [HO HE]]]]]]]]]].
    assert (N : d_c sv = n) by (rewrite S2; exact W4). rewrite N in *.
    assert (M : d_r sv = d_r (l_S b)) by exact S1. rewrite M in *.
    exists a, x, t, z. do 4 (split; auto). do 2 (split; auto). do 4 (split; auto).
    split; [exact F|]. split; [exact I|].
    set (r := d_r (l_S b)) in *. destruct HB as [SQ HU]. fold r in SQ, W2.
    assert (WF : wf (ML (Lr (l_r b) (l_c b) (l_rank b) (l_eps b) (l_U b) (d_eye (d_fill 0%r (l_S b))) w))).
    { simpl. unfold lr_wf. cbn [l_U l_S l_V l_r l_c d_eye d_fill d_r d_c]. split; auto. split; auto. split; congruence. }
    assert (EV : feq m n (ent (ML (Lr (l_r b) (l_c b) (l_rank b) (l_eps b) (l_U b) (d_eye (d_fill 0%r (l_S b))) w)))
                     (mmul r (d_e (l_U b)) (d_e w))).
    { simpl ent. unfold lr_ent. cbn [l_U l_S l_V]. rewrite W2.
      change (d_c (d_eye (d_fill 0%r (l_S b)))) with (d_c (l_S b)). rewrite <- SQ.
      apply feq_mmul; [apply feq_refl|]. intros i j Hi Hj. rewrite <- (mmul_id_l r (d_e w) i j Hi).
      apply mmul_ext; auto. intros y Hy. apply d_eye_fill; [exact Hi|rewrite <- SQ; exact Hy]. }
    split; [exact WF|]. split; [simpl; auto|]. split; [split; [exact SQ|exact HU]|].
    rewrite W2 in HU.
    split.
    + eapply orthogonal_feq; [apply pair_refl_feq; [apply feq_sym; exact EV|apply feq_refl]|].
      apply (pair_lift n m r); [exact HU|exact HO].
    + eapply feq_trans; [|apply feq_mmul; [apply pair_refl_feq; [apply feq_sym; exact EV|apply feq_refl]|apply feq_refl]].
      eapply feq_trans; [|apply (pair_value_lift n m r n); exact HE].
      apply feq_vst; [apply feq_refl|]. simpl ent. unfold lr_ent. rewrite W2.
      apply feq_mmul; [apply feq_refl|]. intros i j Hi Hj. rewrite S3. ring.
Qed.
End Tile.
