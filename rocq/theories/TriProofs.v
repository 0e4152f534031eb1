(** trsm solves, trmm multiplies. *)
From Coq Require Import List Arith ZArith QArith Lia Bool FinFun Ring_theory Ring Setoid Morphisms.
From Verif Require Import Prelude Ring MatFun MatSetoid Matrix MatOps MatSpec MatOpsProofs Gemm GemmSpec
  GemmProofs GemmCorrect Triangular TriAlgebra TriSpec.
Import ListNotations.
Local Open Scope nat_scope.

Section Cells.
Context {R : cring}.
Notation matrix := (matrix R).

(** * Blocks updated one after the other *)

Lemma bupd_eq (b : nat -> nat -> matrix) i j x : bupd b i j x i j = x.
Proof. unfold bupd. rewrite !Nat.eqb_refl. reflexivity. Qed.
Lemma bupd_ne (b : nat -> nat -> matrix) i j x p q : (p, q) <> (i, j) -> bupd b i j x p q = b p q.
Proof.
  intros H. unfold bupd. destruct (p =? i) eqn:E1; auto. destruct (q =? j) eqn:E2; auto.
  apply Nat.eqb_eq in E1, E2. subst. contradiction.
Qed.

Lemma run_cells_outside l f (b x : nat -> nat -> matrix) : run_cells l f b = Ok x ->
  forall p q, ~ In (p, q) l -> x p q = b p q.
Proof.
  revert b. induction l as [|[i j] l IH]; intros b H p q Hn; simpl in H.
  - congruence.
  - apply bind_Ok in H. destruct H as [y [_ H]]. rewrite (IH _ H p q).
    + apply bupd_ne. intros E. apply Hn. left. auto.
    + intros Hin. apply Hn. right. auto.
Qed.

Lemma run_cells_spec l f (b x : nat -> nat -> matrix) : NoDup l -> run_cells l f b = Ok x ->
  forall l1 i j l2, l = l1 ++ (i, j) :: l2 ->
  exists b', f b' i j = Ok (x i j) /\
    (forall p q, In (p, q) l1 -> b' p q = x p q) /\ (forall p q, ~ In (p, q) l1 -> b' p q = b p q).
Proof.
  revert b. induction l as [|[i0 j0] l IH]; intros b ND H l1 i j l2 E.
  - destruct l1; discriminate.
  - simpl in H. apply bind_Ok in H. destruct H as [y [Hy H]]. inversion ND as [|? ? N1 N2]; subst.
    destruct l1 as [|c l1]; simpl in E; inversion E; subst.
    + exists b. split; [|split].
      * rewrite Hy. f_equal. rewrite (run_cells_outside _ _ _ _ H i j N1). symmetry. apply bupd_eq.
      * intros p q [].
      * auto.
    + destruct (IH _ N2 H l1 i j l2 eq_refl) as [b' [F1 [F2 F3]]].
      exists b'. split; auto. split.
      * intros p q [Hc|Hin]; auto.
        inversion Hc; subst. rewrite F3.
        -- rewrite (run_cells_outside _ _ _ _ H p q N1). reflexivity.
        -- intros Hin. apply N1. apply in_or_app. auto.
      * intros p q Hn. rewrite F3.
        -- apply bupd_ne. intros Ec. apply Hn. left. congruence.
        -- intros Hin. apply Hn. right. auto.
Qed.

Lemma seq_at n i : i < n -> seq 0 n = seq 0 i ++ i :: seq (S i) (n - S i).
Proof.
  intros H. replace n with (i + S (n - S i)) at 1 by lia. rewrite seq_app. reflexivity.
Qed.

Lemma rows_cols_at m n i j : i < m -> j < n -> exists l1 l2, rows_cols m n = l1 ++ (i, j) :: l2 /\
  (forall k, k < j -> In (i, k) l1) /\ ~ In (i, j) l1.
Proof.
  intros Hi Hj. unfold rows_cols, ij_all, ij_loop. rewrite Nat.sub_0_r.
  rewrite (seq_at m i Hi), flat_map_app. simpl flat_map.
  rewrite (seq_at n j Hj), map_app. simpl map.
  exists (flat_map (fun i0 => map (fun j0 => (i0, j0)) (seq 0 j ++ j :: seq (S j) (n - S j))) (seq 0 i)
          ++ map (fun j0 => (i, j0)) (seq 0 j)).
  eexists. split; [rewrite <- !app_assoc; reflexivity|]. split.
  - intros k Hk. apply in_or_app. right. apply in_map_iff. exists k. split; auto. apply in_seq. lia.
  - intros Hin. apply in_app_or in Hin. destruct Hin as [Hin|Hin].
    + apply in_flat_map in Hin. destruct Hin as [a [Ha Hin]]. apply in_map_iff in Hin.
      destruct Hin as [c [E _]]. inversion E; subst. apply in_seq in Ha. lia.
    + apply in_map_iff in Hin. destruct Hin as [c [E Hc]]. inversion E; subst. apply in_seq in Hc. lia.
Qed.

Lemma cols_rows_at m n i j : i < m -> j < n -> exists l1 l2, cols_rows m n = l1 ++ (i, j) :: l2 /\
  (forall k, k < i -> In (k, j) l1) /\ ~ In (i, j) l1.
Proof.
  intros Hi Hj. unfold cols_rows.
  rewrite (seq_at n j Hj), flat_map_app. simpl flat_map.
  rewrite (seq_at m i Hi), map_app. simpl map.
  exists (flat_map (fun j0 => map (fun i0 => (i0, j0)) (seq 0 i ++ i :: seq (S i) (m - S i))) (seq 0 j)
          ++ map (fun i0 => (i0, j)) (seq 0 i)).
  eexists. split; [rewrite <- !app_assoc; reflexivity|]. split.
  - intros k Hk. apply in_or_app. right. apply in_map_iff. exists k. split; auto. apply in_seq. lia.
  - intros Hin. apply in_app_or in Hin. destruct Hin as [Hin|Hin].
    + apply in_flat_map in Hin. destruct Hin as [a [Ha Hin]]. apply in_map_iff in Hin.
      destruct Hin as [c [E _]]. inversion E; subst. apply in_seq in Ha. lia.
    + apply in_map_iff in Hin. destruct Hin as [c [E Hc]]. inversion E; subst. apply in_seq in Hc. lia.
Qed.

Lemma cols_rows_nodup m n : NoDup (cols_rows m n).
Proof.
  unfold cols_rows. apply NoDup_flat_map.
  - apply seq_NoDup.
  - intros a _. apply Injective_map_NoDup; [|apply seq_NoDup]. intros x y E. congruence.
  - intros a b x Ha Hb Hin Hin'. apply in_map_iff in Hin, Hin'.
    destruct Hin as [c [E _]]. destruct Hin' as [c' [E' _]]. congruence.
Qed.

Lemma rows_down_at m i : i < m -> exists l1 l2, rows_down m = l1 ++ (i, 0) :: l2 /\
  (forall k, i < k < m -> In (k, 0) l1) /\ ~ In (i, 0) l1.
Proof.
  intros Hi. unfold rows_down. rewrite (seq_at m i Hi), rev_app_distr. simpl rev.
  rewrite !map_app. exists (map (fun i0 => (i0, 0)) (rev (seq (S i) (m - S i)))). eexists. split.
  - simpl map. rewrite <- !app_assoc. reflexivity.
  - split.
    + intros k Hk. apply in_map_iff. exists k. split; auto. apply in_rev. rewrite rev_involutive.
      apply in_seq. lia.
    + intros Hin. apply in_map_iff in Hin. destruct Hin as [c [E Hc]]. inversion E; subst.
      apply in_rev in Hc. apply in_seq in Hc. lia.
Qed.

Lemma rows_down_nodup m : NoDup (rows_down m).
Proof.
  unfold rows_down. apply Injective_map_NoDup; [intros x y E; congruence|].
  apply NoDup_rev, seq_NoDup.
Qed.

(** Heights known everywhere but in one place, and in total. *)
Lemma offs_but_one (h g : nat -> nat) i0 m : (forall i, i < m -> i <> i0 -> h i = g i) ->
  (m <= i0 -> offs h m = offs g m) /\ (i0 < m -> offs h m + g i0 = offs g m + h i0).
Proof.
  induction m as [|m IH]; intros H; [split; [auto|lia]|].
  destruct IH as [I1 I2]. { intros i Hi Hn. apply H; auto. }
  simpl. split; intros Hm.
  - rewrite I1 by lia. rewrite (H m) by lia. reflexivity.
  - destruct (Nat.eq_dec m i0) as [->|Hn].
    + rewrite I1 by lia. lia.
    + rewrite (H m) by lia. assert (i0 < m) by lia. specialize (I2 H0). lia.
Qed.

Lemma heights_total (h g : nat -> nat) i0 m : i0 < m -> (forall i, i < m -> i <> i0 -> h i = g i) ->
  offs h m = offs g m -> forall i, i < m -> h i = g i.
Proof.
  intros H0 H E i Hi. destruct (Nat.eq_dec i i0) as [->|]; auto.
  destruct (offs_but_one h g i0 m H) as [_ H2]. specialize (H2 H0). lia.
Qed.
End Cells.

Section Proofs.
Context {R : cring}.
Add Ring Rr : (cr_th R).
Notation dense := (dense R).
Notation lowrank := (lowrank R).
Notation matrix := (matrix R).
Notation mat := (mat R).
Variable N : nearness R.
Variable Or : oracles R.
Hypothesis HO : oracles_near N Or.
Variable rinv : R -> R.
Variable gfuel : nat.
Notation near := (near N).
Notation rel := (rel N).
Notation trsm := (trsm rinv Or gfuel).
Notation trmm := (trmm Or gfuel).
Notation acc_gemm := (acc_gemm Or gfuel).
Notation triS u f := (tri u (unit_of u) f).

Lemma acc_dims alpha (X Y C C' : matrix) : acc_gemm alpha X Y C = Ok C' ->
  nrows X = nrows C /\ ncols X = nrows Y /\ ncols Y = ncols C.
Proof.
  unfold Triangular.acc_gemm, gemm. destruct gfuel as [|f]; [discriminate|].
  cbn [gemm_pair fst]. unfold gemm_step. intros H.
  apply assert_Ok in H. destruct H as [E1 H]. apply assert_Ok in H. destruct H as [E2 H].
  apply assert_Ok in H. destruct H as [E3 _].
  apply Nat.eqb_eq in E1, E2, E3. auto.
Qed.

(** Accumulation of products. *)
Lemma acc_ok K alpha (body : nat -> matrix -> outcome matrix) (fA fB : nat -> matrix) c0 c' : wf c0 ->
  (forall t, t < K -> wf (fA t) /\ wf (fB t)) ->
  (forall t c c1, t < K -> body t c = Ok c1 -> acc_gemm alpha (fA t) (fB t) c = Ok c1) ->
  for_loop K body c0 = Ok c' ->
  wf c' /\ same_layout c0 c' /\
  rel c0 (ent c') (madd (ent c0) (mscale alpha (sum_products K false false fA fB))).
Proof.
  intros W HF Hb H. destruct (gemm_pair_ok N Or HO gfuel) as [Hg _].
  destruct K as [|K].
  - simpl in H. inversion H; subst. split; auto. split; [apply same_layout_refl|].
    apply rel_feq. intros x y _ _. unfold madd, mscale, sum_products. simpl. ring.
  - destruct (loop_ok N (gemm Or gfuel) (S K) body fA fB c0 alpha rI false false c' Hg) as [G1 [G2 [_ G4]]]; auto.
    + lia.
    + intros k Hk. destruct (HF k Hk). split; auto. split; auto. intros. apply trans_ok_notrans.
    + intros k c c1 Hk Hc. replace (if k =? 0 then rI else 1%r) with (@rI R) by (destruct (k =? 0); auto). apply Hb; auto.
    + split; auto. split; auto. eapply rel_eq_r; [exact G4|].
      apply feq_add; [|apply feq_refl]. apply meq_feq. apply meq_scale_1.
Qed.

(** * Block rows and columns of a product with a block triangle *)

Lemma win_left u un m (a : nat -> nat -> matrix) n x i j :
  wf (MH m m a) -> (forall i, i < m -> bheight a i = bwidth a i) ->
  wf (MH m n x) -> (forall i, i < m -> bheight x i = bheight a i) -> i < m -> j < n ->
  feq (bheight x i) (bwidth x j)
    (mwin (offs (bheight x) i) (offs (bwidth x) j) (mmul (nrows (MH m m a)) (tri u un (ent (MH m m a))) (ent (MH m n x))))
    (madd (mmul (nrows (a i i)) (tri u un (ent (a i i))) (ent (x i j)))
          (sum_products (cnt u m i) false false (fun t => a i (ix u i t)) (fun t => x (ix u i t) j))).
Proof.
  intros Wa Hsq Wx Hh Hi Hj r c Hr Hc. rewrite nrows_MH.
  assert (Eo : forall k, k <= m -> offs (bheight x) k = offs (bheight a) k).
  { intros k Hk. apply offs_ext. intros l Hl. apply Hh. lia. }
  assert (Ew : forall k, k <= m -> offs (bwidth a) k = offs (bheight a) k).
  { intros k Hk. apply offs_ext. intros l Hl. symmetry. apply Hsq. lia. }
  rewrite (Eo i) by lia. rewrite Hh in Hr by auto.
  rewrite (left_block u un (bheight a) m (ent (MH m m a)) (ent (MH m n x)) i _ r c Hi Hr).
  assert (EA : forall k, k < m -> feq (bheight a i) (bheight a k)
     (mwin (offs (bheight a) i) (offs (bheight a) k) (ent (MH m m a))) (ent (a i k))).
  { intros k Hk p q Hp Hq. unfold mwin. rewrite <- (Ew k) by lia.
    apply ent_block; auto. rewrite <- Hsq; auto. }
  assert (EX : forall k, k < m -> feq (bheight a k) (bwidth x j)
     (mwin (offs (bheight a) k) (offs (bwidth x) j) (ent (MH m n x))) (ent (x k j))).
  { intros k Hk p q Hp Hq. unfold mwin. rewrite <- (Eo k) by lia.
    apply ent_block; auto. rewrite Hh; auto. }
  unfold madd, sum_products. f_equal.
  - destruct (wf_block _ _ _ i i Wa Hi Hi) as [_ [D1 D2]]. rewrite D1.
    apply feq_mmul with (r := bheight a i) (c := bwidth x j); auto.
    apply tri_ext. apply EA; auto.
  - apply sum_ext. intros t Ht. pose proof (ix_lt u m i t Hi Ht) as Hk.
    destruct (wf_block _ _ _ i _ Wa Hi Hk) as [_ [D1 D2]].
    unfold opc, mop. rewrite D2, <- Hsq by auto.
    apply feq_mmul with (r := bheight a i) (c := bwidth x j); auto.
Qed.

Lemma win_right u un m n (a x : nat -> nat -> matrix) i j :
  wf (MH n n a) -> (forall i, i < n -> bheight a i = bwidth a i) ->
  wf (MH m n x) -> (forall i, i < n -> bwidth x i = bheight a i) -> i < m -> j < n ->
  feq (bheight x i) (bwidth x j)
    (mwin (offs (bheight x) i) (offs (bwidth x) j) (mmul (nrows (MH n n a)) (ent (MH m n x)) (tri u un (ent (MH n n a)))))
    (madd (mmul (nrows (a j j)) (ent (x i j)) (tri u un (ent (a j j))))
          (sum_products (cnt (flip u) n j) false false (fun t => x i (ix (flip u) j t)) (fun t => a (ix (flip u) j t) j))).
Proof.
  intros Wa Hsq Wx Hh Hi Hj r c Hr Hc. rewrite nrows_MH.
  assert (Eo : forall k, k <= n -> offs (bwidth x) k = offs (bheight a) k).
  { intros k Hk. apply offs_ext. intros l Hl. apply Hh. lia. }
  assert (Ew : forall k, k <= n -> offs (bwidth a) k = offs (bheight a) k).
  { intros k Hk. apply offs_ext. intros l Hl. symmetry. apply Hsq. lia. }
  rewrite (Eo j) by lia. rewrite Hh in Hc by auto.
  rewrite (right_block u un (bheight a) n (ent (MH n n a)) (ent (MH m n x)) j _ r c Hj Hc).
  assert (EA : forall k, k < n -> feq (bheight a k) (bheight a j)
     (mwin (offs (bheight a) k) (offs (bheight a) j) (ent (MH n n a))) (ent (a k j))).
  { intros k Hk p q Hp Hq. unfold mwin. rewrite <- (Ew j) by lia.
    apply ent_block; auto. rewrite <- Hsq; auto. }
  assert (EX : forall k, k < n -> feq (bheight x i) (bheight a k)
     (mwin (offs (bheight x) i) (offs (bheight a) k) (ent (MH m n x))) (ent (x i k))).
  { intros k Hk p q Hp Hq. unfold mwin. rewrite <- (Eo k) by lia.
    apply ent_block; auto. rewrite Hh; auto. }
  unfold madd, sum_products. f_equal.
  - destruct (wf_block _ _ _ j j Wa Hj Hj) as [_ [D1 D2]]. rewrite D1.
    apply feq_mmul with (r := bheight x i) (c := bheight a j); auto.
    apply tri_ext. apply EA; auto.
  - apply sum_ext. intros t Ht. pose proof (ix_lt (flip u) n j t Hj Ht) as Hk.
    destruct (wf_block _ _ _ i _ Wx Hi Hk) as [_ [D1 D2]].
    unfold opc, mop. rewrite D2, Hh by auto.
    apply feq_mmul with (r := bheight x i) (c := bheight a j); auto.
Qed.

(** * trsm *)

Lemma conf_layout s (A : matrix) : forall B B', same_layout B B' -> conf s A B -> conf s A B'.
Proof.
  induction A as [d|l|m n a IH|r c]; intros B B' L H; auto.
  destruct B as [| |m' n' b|], B' as [| |m2 n2 b2|]; simpl in *; try contradiction; auto.
  destruct L as [-> [-> L]]. destruct H as [E H]. split; auto.
  intros i j Hi Hj. eapply IH; eauto.
Qed.

Lemma for_loop_first {S'} K (f : nat -> S' -> outcome S') s s' : for_loop (S K) f s = Ok s' ->
  exists s1, f 0 s = Ok s1.
Proof.
  revert s'. induction K as [|K IH]; intros s' H.
  - simpl in H. eauto.
  - change (for_loop (S (S K)) f s) with (bind (for_loop (S K) f s) (f (S K))) in H.
    apply bind_Ok in H. destruct H as [s1 [H _]]. eauto.
Qed.

Lemma for_loop_eq {S'} K (f g : nat -> S' -> outcome S') s : (forall t c, t < K -> f t c = g t c) ->
  for_loop K f s = for_loop K g s.
Proof.
  induction K as [|K IH]; intros H; simpl; auto.
  rewrite IH by (intros; apply H; lia). destruct (for_loop K g s); simpl; auto.
Qed.

Lemma at_in m n (a : nat -> nat -> matrix) i j : i < m -> j < n -> at_ m n a i j = Ok (a i j).
Proof.
  intros Hi Hj. unfold at_. replace (i <? m) with true by (symmetry; apply Nat.ltb_lt; auto).
  replace (j <? n) with true by (symmetry; apply Nat.ltb_lt; auto). reflexivity.
Qed.

Definition rec_ok (s : side) (u : mode) (m : nat) (a : nat -> nat -> matrix) (rec : nat -> matrix -> outcome matrix) : Prop :=
  forall k c c', k < m -> wf c -> conf s (a k k) c -> nrows (a k k) = along s (nrows c) (ncols c) ->
  rec k c = Ok c' ->
  wf c' /\ same_layout c c' /\
  rel c (tri_prod s (nrows (a k k)) (triS u (ent (a k k))) (ent c')) (ent c).

Lemma hh_left u m n (a b x : nat -> nat -> matrix) rec (ord : nat -> nat -> nat) :
  wf (MH m m a) -> (forall i, i < m -> bheight a i = bwidth a i) ->
  wf (MH m n b) -> nrows (MH m m a) = nrows (MH m n b) ->
  (forall i j, i < m -> j < n -> conf SLeft (a i i) (b i j)) ->
  rec_ok SLeft u m a rec ->
  (forall i t, i < m -> t < cnt u m i ->
     ord i t < m /\ match u with Lower => ord i t < i | Upper => i < ord i t end) ->
  (forall i (F : nat -> R), i < m -> sum (cnt u m i) (fun t => F (ord i t)) = sum (cnt u m i) (fun t => F (ix u i t))) ->
  (forall i j, i < m -> j < n -> exists c,
     for_loop (cnt u m i) (fun t c => acc_gemm rm1 (a i (ord i t)) (x (ord i t) j) c) (b i j) = Ok c /\
     rec i c = Ok (x i j)) ->
  wf (MH m n x) /\ same_layout (MH m n b) (MH m n x) /\
  rel (MH m n b) (mmul (nrows (MH m m a)) (triS u (ent (MH m m a))) (ent (MH m n x))) (ent (MH m n b)).
Proof.
  intros Wa Hsq Wb Etot Hconf Hrec Hord Hsum Hchar.
  assert (Pm : 0 < m) by apply Wb. assert (Pn : 0 < n) by apply Wb.
  (* heights *)
  assert (Hh : forall i, i < m -> bheight a i = bheight b i).
  { apply (heights_total _ _ (match u with Lower => 0 | Upper => m - 1 end)).
    - destruct u; lia.
    - intros i Hi Hn. destruct (Hchar i 0 Hi Pn) as [c [Hc _]].
      destruct (cnt u m i) as [|K] eqn:EK; [destruct u; simpl in EK; lia|].
      apply for_loop_first in Hc. destruct Hc as [c1 Hc]. apply acc_dims in Hc. destruct Hc as [E _].
      destruct (Hord i 0 Hi) as [Ho _]; [lia|].
      destruct (wf_block _ _ _ i (ord i 0) Wa Hi Ho) as [_ [D1 _]]. 
      destruct (wf_block _ _ _ i 0 Wb Hi Pn) as [_ [D2 _]]. congruence.
    - exact Etot. }
  (* every block *)
  assert (Hcell : forall k i j, match u with Lower => i | Upper => m - i end < k -> i < m -> j < n ->
     wf (x i j) /\ same_layout (b i j) (x i j)).
  { intros k. induction k as [|k IH]; intros i j Hk Hi Hj; [lia|].
    destruct (Hchar i j Hi Hj) as [c [Hc Hx]].
    destruct (wf_block _ _ _ i j Wb Hi Hj) as [Wbij [D1 D2]].
    destruct (acc_ok (cnt u m i) rm1 (fun t c => acc_gemm rm1 (a i (ord i t)) (x (ord i t) j) c)
                (fun t => a i (ord i t)) (fun t => x (ord i t) j) (b i j) c Wbij) as [G1 [G2 G3]]; auto.
    { intros t Ht. destruct (Hord i t Hi Ht) as [Ho Ho']. split.
      - apply (wf_block _ _ _ i (ord i t) Wa Hi Ho).
      - apply IH; auto. destruct u; lia. }
    destruct (same_layout_dims _ _ Wbij G2) as [E1 E2].
    destruct (Hrec i c (x i j) Hi G1) as [H1 [H2 H3]]; auto.
    - eapply conf_layout; [exact G2|]. apply Hconf; auto.
    - simpl along. rewrite E1, D1. rewrite <- Hh by auto.
      apply (wf_block _ _ _ i i Wa Hi Hi).
    - split; auto. eapply same_layout_trans; eauto. }
  assert (Hlay : forall i j, i < m -> j < n -> wf (x i j) /\ same_layout (b i j) (x i j)).
  { intros i j Hi Hj. apply (Hcell (S (match u with Lower => i | Upper => m - i end))); auto. }
  destruct (layout_blocks m n b x Wb Hlay) as [Wx [Lx [Ehx Ewx]]].
  split; auto. split; auto.
  apply rel_blocks; auto. intros i j Hi Hj.
  destruct (Hchar i j Hi Hj) as [c [Hc Hx]].
  destruct (wf_block _ _ _ i j Wb Hi Hj) as [Wbij [D1 D2]].
  destruct (acc_ok (cnt u m i) rm1 (fun t c => acc_gemm rm1 (a i (ord i t)) (x (ord i t) j) c)
              (fun t => a i (ord i t)) (fun t => x (ord i t) j) (b i j) c Wbij) as [G1 [G2 G3]]; auto.
  { intros t Ht. destruct (Hord i t Hi Ht) as [Ho Ho']. split.
    - apply (wf_block _ _ _ i (ord i t) Wa Hi Ho).
    - apply Hlay; auto. }
  destruct (same_layout_dims _ _ Wbij G2) as [E1 E2].
  destruct (Hrec i c (x i j) Hi G1) as [H1 [H2 H3]]; auto.
  { eapply conf_layout; [exact G2|]. apply Hconf; auto. }
  { simpl along. rewrite E1, D1. rewrite <- Hh by auto. apply (wf_block _ _ _ i i Wa Hi Hi). }
  apply (rel_layout N (b i j) c _ _ Wbij G2) in H3. simpl tri_prod in H3.
  set (P := sum_products (cnt u m i) false false (fun t => a i (ord i t)) (fun t => x (ord i t) j)) in *.
  apply (rel_eq_l N (b i j) (madd (mmul (nrows (a i i)) (triS u (ent (a i i))) (ent (x i j))) P)).
  2:{ rewrite D1, D2.
      assert (Eo : offs (bheight b) i = offs (bheight x) i) by (apply offs_ext; intros; symmetry; apply Ehx; lia).
      assert (Eo' : offs (bwidth b) j = offs (bwidth x) j) by (apply offs_ext; intros; symmetry; apply Ewx; lia).
      rewrite Eo, Eo', <- Ehx, <- Ewx by auto.
      eapply feq_trans.
      - apply win_left; auto. intros k Hk. rewrite Ehx by auto. symmetry. apply Hh; auto.
      - apply feq_add; [apply feq_refl|]. intros p q _ _. unfold P, sum_products. symmetry.
        apply (Hsum i (fun k => mmul (opc false (a i k)) (mop false (ent (a i k))) (mop false (ent (x k j))) p q)); auto. }
  eapply rel_trans; [apply rel_add; exact H3|].
  eapply rel_eq_r; [apply rel_add; exact G3|].
  rewrite D1, D2. intros p q Hp Hq. unfold madd, mscale. unfold mwin. rewrite ent_block by auto.
  unfold rm1. ring.
Qed.

Lemma hh_right u m n (a b x : nat -> nat -> matrix) rec (ord : nat -> nat -> nat) :
  wf (MH n n a) -> (forall i, i < n -> bheight a i = bwidth a i) ->
  wf (MH m n b) -> nrows (MH n n a) = ncols (MH m n b) ->
  (forall i j, i < m -> j < n -> conf SRight (a j j) (b i j)) ->
  rec_ok SRight u n a rec ->
  (forall i t, i < n -> t < cnt (flip u) n i ->
     ord i t < n /\ match flip u with Lower => ord i t < i | Upper => i < ord i t end) ->
  (forall i (F : nat -> R), i < n -> sum (cnt (flip u) n i) (fun t => F (ord i t)) = sum (cnt (flip u) n i) (fun t => F (ix (flip u) i t))) ->
  (forall i j, i < m -> j < n -> exists c,
     for_loop (cnt (flip u) n j) (fun t c => acc_gemm rm1 (x i (ord j t)) (a (ord j t) j) c) (b i j) = Ok c /\
     rec j c = Ok (x i j)) ->
  wf (MH m n x) /\ same_layout (MH m n b) (MH m n x) /\
  rel (MH m n b) (mmul (nrows (MH n n a)) (ent (MH m n x)) (triS u (ent (MH n n a)))) (ent (MH m n b)).
Proof.
  intros Wa Hsq Wb Etot Hconf Hrec Hord Hsum Hchar.
  assert (Pm : 0 < m) by apply Wb. assert (Pn : 0 < n) by apply Wb.
  assert (Hh : forall i, i < n -> bheight a i = bwidth b i).
  { apply (heights_total _ _ (match flip u with Lower => 0 | Upper => n - 1 end)).
    - destruct u; simpl; lia.
    - intros i Hi Hn. destruct (Hchar 0 i Pm Hi) as [c [Hc _]].
      destruct (cnt (flip u) n i) as [|K] eqn:EK; [destruct u; simpl in EK, Hn; lia|].
      apply for_loop_first in Hc. destruct Hc as [c1 Hc]. apply acc_dims in Hc. destruct Hc as [_ [_ E]].
      destruct (Hord i 0 Hi) as [Ho _]; [lia|].
      destruct (wf_block _ _ _ (ord i 0) i Wa Ho Hi) as [_ [_ D1]]. 
      destruct (wf_block _ _ _ 0 i Wb Pm Hi) as [_ [_ D2]]. rewrite Hsq by auto. congruence.
    - exact Etot. }
  assert (Hcell : forall k i j, match flip u with Lower => j | Upper => n - j end < k -> i < m -> j < n ->
     wf (x i j) /\ same_layout (b i j) (x i j)).
  { intros k. induction k as [|k IH]; intros i j Hk Hi Hj; [lia|].
    destruct (Hchar i j Hi Hj) as [c [Hc Hx]].
    destruct (wf_block _ _ _ i j Wb Hi Hj) as [Wbij [D1 D2]].
    destruct (acc_ok (cnt (flip u) n j) rm1 (fun t c => acc_gemm rm1 (x i (ord j t)) (a (ord j t) j) c)
                (fun t => x i (ord j t)) (fun t => a (ord j t) j) (b i j) c Wbij) as [G1 [G2 G3]]; auto.
    { intros t Ht. destruct (Hord j t Hj Ht) as [Ho Ho']. split.
      - apply IH; auto. destruct u; simpl in *; lia.
      - apply (wf_block _ _ _ (ord j t) j Wa Ho Hj). }
    destruct (same_layout_dims _ _ Wbij G2) as [E1 E2].
    destruct (Hrec j c (x i j) Hj G1) as [H1 [H2 H3]]; auto.
    - eapply conf_layout; [exact G2|]. apply Hconf; auto.
    - simpl along. rewrite E2, D2. rewrite <- Hh by auto.
      apply (wf_block _ _ _ j j Wa Hj Hj).
    - split; auto. eapply same_layout_trans; eauto. }
  assert (Hlay : forall i j, i < m -> j < n -> wf (x i j) /\ same_layout (b i j) (x i j)).
  { intros i j Hi Hj. apply (Hcell (S (match flip u with Lower => j | Upper => n - j end))); auto. }
  destruct (layout_blocks m n b x Wb Hlay) as [Wx [Lx [Ehx Ewx]]].
  split; auto. split; auto.
  apply rel_blocks; auto. intros i j Hi Hj.
  destruct (Hchar i j Hi Hj) as [c [Hc Hx]].
  destruct (wf_block _ _ _ i j Wb Hi Hj) as [Wbij [D1 D2]].
  destruct (acc_ok (cnt (flip u) n j) rm1 (fun t c => acc_gemm rm1 (x i (ord j t)) (a (ord j t) j) c)
              (fun t => x i (ord j t)) (fun t => a (ord j t) j) (b i j) c Wbij) as [G1 [G2 G3]]; auto.
  { intros t Ht. destruct (Hord j t Hj Ht) as [Ho Ho']. split.
    - apply Hlay; auto.
    - apply (wf_block _ _ _ (ord j t) j Wa Ho Hj). }
  destruct (same_layout_dims _ _ Wbij G2) as [E1 E2].
  destruct (Hrec j c (x i j) Hj G1) as [H1 [H2 H3]]; auto.
  { eapply conf_layout; [exact G2|]. apply Hconf; auto. }
  { simpl along. rewrite E2, D2. rewrite <- Hh by auto. apply (wf_block _ _ _ j j Wa Hj Hj). }
  apply (rel_layout N (b i j) c _ _ Wbij G2) in H3. simpl tri_prod in H3.
  set (P := sum_products (cnt (flip u) n j) false false (fun t => x i (ord j t)) (fun t => a (ord j t) j)) in *.
  apply (rel_eq_l N (b i j) (madd (mmul (nrows (a j j)) (ent (x i j)) (triS u (ent (a j j)))) P)).
  2:{ rewrite D1, D2.
      assert (Eo : offs (bheight b) i = offs (bheight x) i) by (apply offs_ext; intros; symmetry; apply Ehx; lia).
      assert (Eo' : offs (bwidth b) j = offs (bwidth x) j) by (apply offs_ext; intros; symmetry; apply Ewx; lia).
      rewrite Eo, Eo', <- Ehx, <- Ewx by auto.
      eapply feq_trans.
      - apply win_right; auto. intros k Hk. rewrite Ewx by auto. symmetry. apply Hh; auto.
      - apply feq_add; [apply feq_refl|]. intros p q _ _. unfold P, sum_products. symmetry.
        apply (Hsum j (fun k => mmul (opc false (x i k)) (mop false (ent (x i k))) (mop false (ent (a k j))) p q)); auto. }
  eapply rel_trans; [apply rel_add; exact H3|].
  eapply rel_eq_r; [apply rel_add; exact G3|].
  rewrite D1, D2. intros p q Hp Hq. unfold madd, mscale. unfold mwin. rewrite ent_block by auto.
  unfold rm1. ring.
Qed.

Lemma hh_trsm_ok rec m (a : nat -> nat -> matrix) m' n' b u s x :
  wf (MH m m a) -> (forall i, i < m -> bheight a i = bwidth a i) ->
  wf (MH m' n' b) -> along s m' n' = m ->
  nrows (MH m m a) = along s (nrows (MH m' n' b)) (ncols (MH m' n' b)) ->
  (forall i j, i < m' -> j < n' -> conf s (a (along s i j) (along s i j)) (b i j)) ->
  rec_ok s u m a rec ->
  hh_trsm Or gfuel rec m m a m' n' b u s = Ok x ->
  wf (MH m' n' x) /\ same_layout (MH m' n' b) (MH m' n' x) /\
  rel (MH m' n' b) (tri_prod s (nrows (MH m m a)) (triS u (ent (MH m m a))) (ent (MH m' n' x))) (ent (MH m' n' b)).
Proof.
  intros Wa Hsq Wb Em Etot Hconf Hrec H. unfold hh_trsm in H.
  destruct u, s; cbn [along tri_prod] in *; try discriminate.
  - (* Upper, Left *)
    destruct (n' =? 1) eqn:E1; [|discriminate]. apply Nat.eqb_eq in E1. subst n' m'.
    apply (hh_left Upper m 1 a b x rec (fun _ t => m - 1 - t)); auto.
    + intros i t Hi Ht. simpl in *. lia.
    + intros i F Hi. unfold cnt, ix. rewrite (sum_up_down m i F). replace (m - 1 - i) with (m - S i) by lia. reflexivity.
    + intros i j Hi Hj. assert (j = 0) by lia. subst j.
      destruct (rows_down_at m i Hi) as [l1 [l2 [El [Hd Hn]]]].
      destruct (run_cells_spec _ _ _ _ (rows_down_nodup m) H _ _ _ _ El) as [b' [F1 [F2 F3]]].
      apply bind_Ok in F1. destruct F1 as [c [F1 F4]]. exists c.
      apply bind_Ok in F4. destruct F4 as [y [_ F4]]. split; auto.
      rewrite (F3 i 0 Hn) in F1. rewrite <- F1. simpl cnt. replace (m - S i) with (m - 1 - i) by lia.
      apply for_loop_eq. intros t c0 Ht. rewrite at_in by lia. simpl bind.
      rewrite F2; auto. apply Hd. lia.
  - (* Upper, Right *)
    subst n'. apply (hh_right Upper m' m a b x rec (fun _ t => t)); auto.
    + intros i t Hi Ht. simpl in *. lia.
    + intros i j Hi Hj.
      destruct (rows_cols_at m' m i j Hi Hj) as [l1 [l2 [El [Hd Hn]]]].
      destruct (run_cells_spec _ _ _ _ (ij_loop_nodup _ _ _) H _ _ _ _ El) as [b' [F1 [F2 F3]]].
      apply bind_Ok in F1. destruct F1 as [c [F1 F4]]. exists c.
      apply bind_Ok in F4. destruct F4 as [y [_ F4]]. split; auto.
      rewrite (F3 i j Hn) in F1. rewrite <- F1. simpl cnt.
      apply for_loop_eq. intros t c0 Ht. rewrite at_in by lia. simpl bind.
      rewrite F2; auto.
  - (* Lower, Left *)
    subst m'. apply (hh_left Lower m n' a b x rec (fun _ t => t)); auto.
    + intros i t Hi Ht. simpl in *. lia.
    + intros i j Hi Hj.
      destruct (cols_rows_at m n' i j Hi Hj) as [l1 [l2 [El [Hd Hn]]]].
      destruct (run_cells_spec _ _ _ _ (cols_rows_nodup _ _) H _ _ _ _ El) as [b' [F1 [F2 F3]]].
      apply bind_Ok in F1. destruct F1 as [c [F1 F4]]. exists c.
      apply bind_Ok in F4. destruct F4 as [y [_ F4]]. split; auto.
      rewrite (F3 i j Hn) in F1. rewrite <- F1. simpl cnt.
      apply for_loop_eq. intros t c0 Ht. rewrite at_in by lia. simpl bind.
      rewrite F2; auto.
Qed.

(** ** Factors of a LowRank *)

Lemma set_factor_wf s (l : lowrank) d : lr_wf l -> d_r d = d_r (side_factor s l) ->
  d_c d = d_c (side_factor s l) -> lr_wf (set_factor s l d).
Proof.
  unfold lr_wf. intros [W1 [W2 [W3 W4]]] E1 E2. destruct s; simpl in *; rewrite ?E1, ?E2; auto.
Qed.

Lemma set_factor_ent s (l : lowrank) d n (T : mat) g : lr_wf l ->
  n = along s (l_r l) (l_c l) ->
  d_r d = d_r (side_factor s l) -> d_c d = d_c (side_factor s l) ->
  feq (d_r d) (d_c d) (tri_prod s n T (d_e d)) g ->
  feq (l_r l) (l_c l) (tri_prod s n T (lr_ent (set_factor s l d)))
      (lr_ent (set_factor s l (Dn (d_r d) (d_c d) g))).
Proof.
  intros [W1 [W2 [W3 W4]]] En E1 E2 F. destruct s; cbn [along tri_prod set_factor side_factor] in *.
  - unfold lr_ent. cbn [l_U l_S l_V d_c d_r d_e].
    eapply feq_trans; [apply meq_feq; symmetry; apply meq_assoc|].
    apply feq_mmul with (k := d_c d); [|apply feq_refl].
    rewrite <- W1, <- E1. exact F.
  - unfold lr_ent. cbn [l_U l_S l_V d_c d_r d_e].
    eapply feq_trans; [apply meq_feq; apply meq_assoc|].
    apply feq_mmul with (k := d_c (l_U l)); [apply feq_refl|].
    eapply feq_trans; [apply meq_feq; apply meq_assoc|].
    apply feq_mmul with (k := d_c (l_S l)); [apply feq_refl|].
    eapply feq_le; [exact F|lia|lia].
Qed.

Lemma set_factor_same s (l : lowrank) : 
  lr_ent (set_factor s l (Dn (d_r (side_factor s l)) (d_c (side_factor s l)) (d_e (side_factor s l)))) = lr_ent l.
Proof. destruct s; simpl; unfold lr_ent; simpl; [destruct (l_U l)|destruct (l_V l)]; reflexivity. Qed.

Lemma d_trsm_ok (a b x : dense) u s : d_r a = d_c a -> d_r a = along s (d_r b) (d_c b) ->
  diag_ok rinv u (d_r a) (d_e a) -> d_trsm rinv a b u s = Ok x ->
  d_r x = d_r b /\ d_c x = d_c b /\
  feq (d_r b) (d_c b) (tri_prod s (d_r a) (triS u (d_e a)) (d_e x)) (d_e b).
Proof.
  intros Esq En Hd H. unfold d_trsm in H. apply ub_Ok in H. destruct H as [_ H]. inversion H; subst x; clear H.
  cbn [d_r d_c d_e]. split; auto. split; auto. rewrite <- En.
  intros i j Hi Hj. destruct s; cbn [along tri_prod] in *.
  - apply dtrsm_left; auto. lia.
  - apply dtrsm_right; auto. lia.
Qed.

Lemma diag_ok_block u m (a : nat -> nat -> matrix) k : wf (MH m m a) ->
  (forall i, i < m -> bheight a i = bwidth a i) -> k < m ->
  diag_ok rinv u (nrows (MH m m a)) (ent (MH m m a)) -> diag_ok rinv u (nrows (a k k)) (ent (a k k)).
Proof.
  intros Wa Hsq Hk H Hu i Hi. destruct (wf_block _ _ _ k k Wa Hk Hk) as [_ [D1 D2]]. rewrite D1 in Hi.
  specialize (H Hu (offs (bheight a) k + i)).
  assert (E : ent (MH m m a) (offs (bheight a) k + i) (offs (bheight a) k + i) = ent (a k k) i i).
  { rewrite <- (ent_block m m a k k i i); auto; [|rewrite <- Hsq; auto].
    f_equal. f_equal. apply offs_ext. intros l Hl. apply Hsq. lia. }
  rewrite E in H. apply H. rewrite nrows_MH. pose proof (offs_lt (bheight a) k m Hk). lia.
Qed.

Lemma conf_D s (A : matrix) d : conf s A (MD d).
Proof. destruct A; exact I. Qed.

(** trsm leaves a solution in B. *)
Lemma trsm_ok (A : matrix) : forall B u s X,
  wf A -> wf B -> tri_shape A -> conf s A B -> nrows A = along s (nrows B) (ncols B) ->
  diag_ok rinv u (nrows A) (ent A) -> trsm A B u s = Ok X ->
  wf X /\ same_layout B X /\ rel B (tri_prod s (nrows A) (triS u (ent A)) (ent X)) (ent B).
Proof.
  induction A as [d|l|m n a IH|r c]; intros B u s X WA WB TS HC En Hd H; try discriminate.
  - destruct B as [b|l|m' n' b|r c]; try discriminate.
    + simpl in H. apply bind_Ok in H. destruct H as [x [Hx H]]. inversion H; subst X; clear H.
      destruct (d_trsm_ok d b x u s TS En Hd Hx) as [E1 [E2 F]].
      split; [exact I|]. split; [simpl; auto|]. apply rel_feq. exact F.
    + simpl in H. apply bind_Ok in H. destruct H as [x [Hx H]]. inversion H; subst X; clear H.
      simpl in WB. simpl in En.
      assert (En' : d_r d = along s (d_r (side_factor s l)) (d_c (side_factor s l))).
      { destruct WB as [W1 [W2 [W3 W4]]]. destruct s; simpl in *; lia. }
      destruct (d_trsm_ok d _ x u s TS En' Hd Hx) as [E1 [E2 F]].
      split; [simpl; apply set_factor_wf; auto|]. split; [destruct s; simpl; auto|].
      apply rel_feq. cbn [nrows ncols ent]. eapply feq_trans.
      * apply set_factor_ent with (g := d_e (side_factor s l)); auto. rewrite E1, E2. exact F.
      * rewrite E1, E2. rewrite set_factor_same. apply feq_refl.
  - destruct TS as [-> [Hsq TS]].
    assert (Hrec : rec_ok s u n a (fun k c => trsm (a k k) c u s)).
    { intros k c c' Hk Wc Hc E Hx. apply IH; auto.
      - apply (wf_block _ _ _ k k WA Hk Hk).
      - apply diag_ok_block with (m := n); auto. }
    assert (HD : forall (d d' : dense), nrows (MH n n a) = along s (d_r d) (d_c d) ->
       (let* BH := split (MD d) (side_rows s n) (side_cols s n) in
        match BH with
        | MH m' n' b => let* x := hh_trsm Or gfuel (fun k c => trsm (a k k) c u s) n n a m' n' b u s in
                        Ok (join (d_r d) (d_c d) m' n' x)
        | _ => Abort
        end) = Ok d' ->
       d_r d' = d_r d /\ d_c d' = d_c d /\
       feq (d_r d) (d_c d) (tri_prod s (nrows (MH n n a)) (triS u (ent (MH n n a))) (d_e d')) (d_e d)).
    { clear B X WB HC En H. intros d d' En H.
      assert (P : 0 < n) by apply WA.
      apply bind_Ok in H. destruct H as [BH [HS H]].
      assert (P1 : 0 < side_rows s n) by (destruct s; simpl; lia).
      assert (P2 : 0 < side_cols s n) by (destruct s; simpl; lia).
      destruct (split_D d _ _ BH P1 P2 HS) as [b [-> [W [D1 [D2 [F FD]]]]]].
      apply bind_Ok in H. destruct H as [x [Hx H]]. inversion H; subst d'; clear H.
      unfold join. cbn [d_r d_c d_e]. split; auto. split; auto.
      destruct (hh_trsm_ok (fun k c => trsm (a k k) c u s) n a _ _ b u s x WA Hsq W) as [G1 [G2 [_ G3]]]; auto.
      - destruct s; reflexivity.
      - rewrite D1, D2. exact En.
      - intros i j Hi Hj. destruct (FD i j) as [y ->]. apply conf_D.
      - rewrite D1, D2 in G3. eapply feq_trans; [apply G3|exact F].
        simpl. intros i j _ _. destruct (FD i j) as [y ->]. exact I. }
    destruct B as [b|l|m' n' b|r c]; try discriminate.
    + cbn [Triangular.trsm] in H. apply bind_Ok in H. destruct H as [x [Hx H]]. inversion H; subst X; clear H.
      destruct (HD b x En Hx) as [E1 [E2 F]].
      split; [exact I|]. split; [simpl; auto|]. apply rel_feq. exact F.
    + cbn [Triangular.trsm] in H. apply bind_Ok in H. destruct H as [x [Hx H]]. inversion H; subst X; clear H.
      simpl in WB.
      assert (En' : nrows (MH n n a) = along s (d_r (side_factor s l)) (d_c (side_factor s l))).
      { rewrite En. destruct WB as [W1 [W2 [W3 W4]]]. destruct s; simpl in *; lia. }
      destruct (HD _ x En' Hx) as [E1 [E2 F]].
      split; [simpl; apply set_factor_wf; auto|]. split; [destruct s; simpl; auto|].
      apply rel_feq. change (nrows (ML l)) with (l_r l). change (ncols (ML l)) with (l_c l).
      change (ent (ML l)) with (lr_ent l). change (ent (ML (set_factor s l x))) with (lr_ent (set_factor s l x)).
      eapply feq_trans.
      * apply set_factor_ent with (g := d_e (side_factor s l)); auto. rewrite E1, E2. exact F.
      * rewrite E1, E2. rewrite set_factor_same. apply feq_refl.
    + cbn [Triangular.trsm] in H. apply bind_Ok in H. destruct H as [x [Hx H]]. inversion H; subst X; clear H.
      destruct HC as [HC1 HC2]. eapply hh_trsm_ok; eauto.
Qed.

(** * trmm *)

Lemma for_loop_each {S'} K (f : nat -> S' -> outcome S') s s' : for_loop K f s = Ok s' ->
  forall t, t < K -> exists s1 s2, f t s1 = Ok s2.
Proof.
  revert s'. induction K as [|K IH]; intros s' H t Ht; [lia|].
  simpl in H. apply bind_Ok in H. destruct H as [s1 [H1 H2]].
  destruct (Nat.eq_dec t K) as [->|]; eauto. apply (IH s1 H1). lia.
Qed.

Definition mul_rec_ok (s : side) (u : mode) (un : bool) (alpha : R) (m : nat) (a : nat -> nat -> matrix)
  (rec : matrix -> matrix -> outcome matrix) : Prop :=
  forall k c c', k < m -> wf c -> nrows (a k k) = along s (nrows c) (ncols c) ->
  rec (a k k) c = Ok c' ->
  wf c' /\ same_layout c c' /\
  rel c (ent c') (mscale alpha (tri_prod s (nrows (a k k)) (tri u un (ent (a k k))) (ent c))).

Lemma mul_left u un alpha m n (a b x : nat -> nat -> matrix) rec (ord : nat -> nat -> nat) :
  wf (MH m m a) -> (forall i, i < m -> bheight a i = bwidth a i) ->
  wf (MH m n b) -> nrows (MH m m a) = nrows (MH m n b) ->
  mul_rec_ok SLeft u un alpha m a rec ->
  (forall i t, i < m -> t < cnt u m i -> ord i t < m) ->
  (forall k, k < m -> k <> match u with Lower => m - 1 | Upper => 0 end ->
     exists i t, i < m /\ t < cnt u m i /\ ord i t = k) ->
  (forall i (F : nat -> R), i < m -> sum (cnt u m i) (fun t => F (ord i t)) = sum (cnt u m i) (fun t => F (ix u i t))) ->
  (forall i j, i < m -> j < n -> exists c, rec (a i i) (b i j) = Ok c /\
     for_loop (cnt u m i) (fun t c => acc_gemm alpha (a i (ord i t)) (b (ord i t) j) c) c = Ok (x i j)) ->
  wf (MH m n x) /\ same_layout (MH m n b) (MH m n x) /\
  rel (MH m n b) (ent (MH m n x)) (mscale alpha (mmul (nrows (MH m m a)) (tri u un (ent (MH m m a))) (ent (MH m n b)))).
Proof.
  intros Wa Hsq Wb Etot Hrec Hord Hsurj Hsum Hchar.
  assert (Pm : 0 < m) by apply Wb. assert (Pn : 0 < n) by apply Wb.
  assert (Hh : forall i, i < m -> bheight a i = bheight b i).
  { apply (heights_total _ _ (match u with Lower => m - 1 | Upper => 0 end)).
    - destruct u; lia.
    - intros k Hk Hn. destruct (Hsurj k Hk Hn) as [i [t [Hi [Ht E]]]].
      destruct (Hchar i 0 Hi Pn) as [c [_ Hc]].
      destruct (for_loop_each _ _ _ _ Hc t Ht) as [c1 [c2 H1]]. apply acc_dims in H1.
      destruct H1 as [_ [H1 _]]. rewrite E in H1.
      destruct (wf_block _ _ _ i k Wa Hi Hk) as [_ [_ D1]].
      rewrite Hsq by auto. rewrite <- D1, H1. reflexivity.
    - exact Etot. }
  apply rel_collect; auto. intros i j Hi Hj.
  destruct (Hchar i j Hi Hj) as [c [Hc Hx]].
  destruct (wf_block _ _ _ i j Wb Hi Hj) as [Wbij [D1 D2]].
  destruct (Hrec i (b i j) c Hi Wbij) as [G1 [G2 G3]]; auto.
  { simpl along. rewrite D1. rewrite <- Hh by auto. apply (wf_block _ _ _ i i Wa Hi Hi). }
  destruct (acc_ok (cnt u m i) alpha (fun t c => acc_gemm alpha (a i (ord i t)) (b (ord i t) j) c)
              (fun t => a i (ord i t)) (fun t => b (ord i t) j) c (x i j) G1) as [F1 [F2 F3]]; auto.
  { intros t Ht. pose proof (Hord i t Hi Ht) as Ho. split.
    - apply (wf_block _ _ _ i (ord i t) Wa Hi Ho).
    - apply (wf_block _ _ _ (ord i t) j Wb Ho Hj). }
  split; auto. split; [eapply same_layout_trans; eauto|].
  apply (rel_layout N (b i j) c _ _ Wbij G2) in F3.
  set (P := sum_products (cnt u m i) false false (fun t => a i (ord i t)) (fun t => b (ord i t) j)) in *.
  eapply rel_trans; [exact F3|]. eapply rel_eq_r; [apply rel_add; exact G3|].
  simpl tri_prod. rewrite D1, D2.
  pose proof (win_left u un m a n b i j Wa Hsq Wb) as Wn.
  assert (Hh' : forall i, i < m -> bheight b i = bheight a i) by (intros; symmetry; auto).
  specialize (Wn Hh' Hi Hj). apply feq_sym.
  intros p q Hp Hq. specialize (Wn p q Hp Hq). unfold mwin in Wn |- *. unfold mscale at 1.
  rewrite Wn. unfold madd, mscale. 
  replace (P p q) with (sum_products (cnt u m i) false false (fun t => a i (ix u i t)) (fun t => b (ix u i t) j) p q).
  - ring.
  - unfold P, sum_products. symmetry.
    apply (Hsum i (fun k => mmul (opc false (a i k)) (mop false (ent (a i k))) (mop false (ent (b k j))) p q)); auto.
Qed.

Lemma mul_right u un alpha m n (a b x : nat -> nat -> matrix) rec (ord : nat -> nat -> nat) :
  wf (MH n n a) -> (forall i, i < n -> bheight a i = bwidth a i) ->
  wf (MH m n b) -> nrows (MH n n a) = ncols (MH m n b) ->
  mul_rec_ok SRight u un alpha n a rec ->
  (forall i t, i < n -> t < cnt (flip u) n i -> ord i t < n) ->
  (forall k, k < n -> k <> match u with Lower => 0 | Upper => n - 1 end ->
     exists i t, i < n /\ t < cnt (flip u) n i /\ ord i t = k) ->
  (forall i (F : nat -> R), i < n -> sum (cnt (flip u) n i) (fun t => F (ord i t)) = sum (cnt (flip u) n i) (fun t => F (ix (flip u) i t))) ->
  (forall i j, i < m -> j < n -> exists c, rec (a j j) (b i j) = Ok c /\
     for_loop (cnt (flip u) n j) (fun t c => acc_gemm alpha (b i (ord j t)) (a (ord j t) j) c) c = Ok (x i j)) ->
  wf (MH m n x) /\ same_layout (MH m n b) (MH m n x) /\
  rel (MH m n b) (ent (MH m n x)) (mscale alpha (mmul (nrows (MH n n a)) (ent (MH m n b)) (tri u un (ent (MH n n a))))).
Proof.
  intros Wa Hsq Wb Etot Hrec Hord Hsurj Hsum Hchar.
  assert (Pm : 0 < m) by apply Wb. assert (Pn : 0 < n) by apply Wb.
  assert (Hh : forall i, i < n -> bheight a i = bwidth b i).
  { apply (heights_total _ _ (match u with Lower => 0 | Upper => n - 1 end)).
    - destruct u; lia.
    - intros k Hk Hn. destruct (Hsurj k Hk Hn) as [i [t [Hi [Ht E]]]].
      destruct (Hchar 0 i Pm Hi) as [c [_ Hc]].
      destruct (for_loop_each _ _ _ _ Hc t Ht) as [c1 [c2 H1]]. apply acc_dims in H1.
      destruct H1 as [_ [H1 _]]. rewrite E in H1.
      destruct (wf_block _ _ _ k i Wa Hk Hi) as [_ [D1 _]].
      rewrite <- D1, <- H1. reflexivity.
    - exact Etot. }
  apply rel_collect; auto. intros i j Hi Hj.
  destruct (Hchar i j Hi Hj) as [c [Hc Hx]].
  destruct (wf_block _ _ _ i j Wb Hi Hj) as [Wbij [D1 D2]].
  destruct (Hrec j (b i j) c Hj Wbij) as [G1 [G2 G3]]; auto.
  { simpl along. rewrite D2. rewrite <- Hh by auto. apply (wf_block _ _ _ j j Wa Hj Hj). }
  destruct (acc_ok (cnt (flip u) n j) alpha (fun t c => acc_gemm alpha (b i (ord j t)) (a (ord j t) j) c)
              (fun t => b i (ord j t)) (fun t => a (ord j t) j) c (x i j) G1) as [F1 [F2 F3]]; auto.
  { intros t Ht. pose proof (Hord j t Hj Ht) as Ho. split.
    - apply (wf_block _ _ _ i (ord j t) Wb Hi Ho).
    - apply (wf_block _ _ _ (ord j t) j Wa Ho Hj). }
  split; auto. split; [eapply same_layout_trans; eauto|].
  apply (rel_layout N (b i j) c _ _ Wbij G2) in F3.
  set (P := sum_products (cnt (flip u) n j) false false (fun t => b i (ord j t)) (fun t => a (ord j t) j)) in *.
  eapply rel_trans; [exact F3|]. eapply rel_eq_r; [apply rel_add; exact G3|].
  simpl tri_prod. rewrite D1, D2.
  pose proof (win_right u un m n a b i j Wa Hsq Wb) as Wn.
  assert (Hh' : forall i, i < n -> bwidth b i = bheight a i) by (intros; symmetry; auto).
  specialize (Wn Hh' Hi Hj). apply feq_sym.
  intros p q Hp Hq. specialize (Wn p q Hp Hq). unfold mwin in Wn |- *. unfold mscale at 1.
  rewrite Wn. unfold madd, mscale. 
  replace (P p q) with (sum_products (cnt (flip u) n j) false false (fun t => b i (ix (flip u) j t)) (fun t => a (ix (flip u) j t) j) p q).
  - ring.
  - unfold P, sum_products. symmetry.
    apply (Hsum j (fun k => mmul (opc false (b i k)) (mop false (ent (b i k))) (mop false (ent (a k j))) p q)); auto.
Qed.

Lemma hh_trmm_ok rec nd m n (a : nat -> nat -> matrix) m' n' b s u t un alpha x :
  t && nd = false ->
  wf (MH m n a) -> (forall i, i < m -> bheight a i = bwidth a i) ->
  wf (MH m' n' b) -> nrows (MH m n a) = along s (nrows (MH m' n' b)) (ncols (MH m' n' b)) ->
  mul_rec_ok s u un alpha m a rec ->
  hh_trmm Or gfuel rec nd m n a m' n' b s u t alpha = Ok x ->
  t = false /\ wf (MH m' n' x) /\ same_layout (MH m' n' b) (MH m' n' x) /\
  rel (MH m' n' b) (ent (MH m' n' x))
      (mscale alpha (tri_prod s (nrows (MH m n a)) (tri u un (ent (MH m n a))) (ent (MH m' n' b)))).
Proof.
  intros Htn Wa Hsq Wb Etot Hrec H. unfold hh_trmm in H.
  apply assert_Ok in H. destruct H as [E1 H]. apply Nat.eqb_eq in E1. subst n.
  apply assert_Ok in H. destruct H as [E2 H]. apply Nat.eqb_eq in E2.
  apply assert_Ok in H. destruct H as [E3 H].
  split; [destruct t, nd; simpl in *; congruence|].
  pose proof (collect_spec _ _ _ _ H) as HC. clear H. cbv beta in HC.
  assert (Pm : 0 < m) by apply Wa.
  destruct u, s; cbn [along tri_prod] in *.
  - subst m'. apply (mul_left Upper un alpha m n' a b x rec (fun i t => S i + t)); auto.
    + intros i v Hi Hv. simpl in *. lia.
    + intros k Hk Hn. exists 0, (k - 1). simpl. lia.
    + intros i j Hi Hj. specialize (HC i j Hi Hj). apply bind_Ok in HC. exact HC.
  - subst n'. apply (mul_right Upper un alpha m' m a b x rec (fun j t => j - 1 - t)); auto.
    + intros i v Hi Hv. simpl in *. lia.
    + intros k Hk Hn. exists (m - 1), (m - 1 - 1 - k). simpl. lia.
    + intros i F Hi. simpl. symmetry. apply sum_rev.
    + intros i j Hi Hj. specialize (HC i j Hi Hj). apply bind_Ok in HC. exact HC.
  - subst m'. apply (mul_left Lower un alpha m n' a b x rec (fun i t => i - 1 - t)); auto.
    + intros i v Hi Hv. simpl in *. lia.
    + intros k Hk Hn. exists (m - 1), (m - 1 - 1 - k). simpl. lia.
    + intros i F Hi. simpl. symmetry. apply sum_rev.
    + intros i j Hi Hj. specialize (HC i j Hi Hj). apply bind_Ok in HC. exact HC.
  - subst n'. apply (mul_right Lower un alpha m' m a b x rec (fun j t => S j + t)); auto.
    + intros i v Hi Hv. simpl in *. lia.
    + intros k Hk Hn. exists 0, (k - 1). simpl. lia.
    + intros i j Hi Hj. specialize (HC i j Hi Hj). apply bind_Ok in HC. exact HC.
Qed.

Lemma d_trmm_ok (a b x : dense) s u t un alpha : d_trmm a b s u t un alpha = Ok x ->
  d_r a = d_c a /\ d_r a = along s (d_r b) (d_c b) /\ d_r x = d_r b /\ d_c x = d_c b /\
  d_e x = mscale alpha (tri_prod s (d_r a) (mop t (tri u un (d_e a))) (d_e b)).
Proof.
  unfold d_trmm. intros H. apply assert_Ok in H. destruct H as [E1 H]. apply Nat.eqb_eq in E1.
  apply assert_Ok in H. destruct H as [E2 H]. apply Nat.eqb_eq in E2.
  inversion H; subst x; clear H. cbn [d_r d_c d_e]. destruct s; auto.
Qed.

Lemma lr_scaled_factor s (l : lowrank) d n (T : mat) alpha : lr_wf l ->
  d_r d = d_r (side_factor s l) -> d_c d = d_c (side_factor s l) ->
  feq (d_r d) (d_c d) (d_e d) (mscale alpha (tri_prod s n T (d_e (side_factor s l)))) ->
  feq (l_r l) (l_c l) (lr_ent (set_factor s l d)) (mscale alpha (tri_prod s n T (lr_ent l))).
Proof.
  intros [W1 [W2 [W3 W4]]] E1 E2 F. destruct s; cbn [along tri_prod set_factor side_factor] in *.
  - unfold lr_ent. cbn [l_U l_S l_V]. rewrite E2.
    eapply feq_trans.
    { apply feq_mmul with (k := d_c (l_U l)); [|apply feq_refl].
      rewrite E1, E2, W1 in F. exact F. }
    apply meq_feq. rewrite meq_scale_l. rewrite meq_assoc. reflexivity.
  - unfold lr_ent. cbn [l_U l_S l_V].
    eapply feq_trans.
    { apply feq_mmul with (k := d_c (l_U l)); [apply feq_refl|].
      apply feq_mmul with (k := d_c (l_S l)); [apply feq_refl|].
      rewrite E1, E2, W4, <- W3 in F. exact F. }
    apply meq_feq. rewrite meq_scale_r. rewrite meq_scale_r. rewrite !meq_assoc. reflexivity.
Qed.

Lemma split_square (d : dense) k H : 0 < k -> d_r d = d_c d -> split (MD d) k k = Ok H ->
  exists a, H = MH k k a /\ wf H /\ nrows H = d_r d /\ feq (d_r d) (d_c d) (ent H) (d_e d) /\
  (forall i, i < k -> bheight a i = bwidth a i) /\ (forall i, i < k -> tri_shape (a i i)).
Proof.
  intros Pk Esq HS.
  destruct (split_spec (MD d) k k H I Pk Pk HS) as [h [w [[b [E [W [Hb [D1 [D2 F]]]]]] [Hh Hw]]]].
  destruct (split_D d k k H Pk Pk HS) as [b' [E' [_ [_ [_ [_ FD]]]]]].
  assert (Ehw : forall i, i < k -> h i = w i).
  { intros i Hi. specialize (Hh i Hi). specialize (Hw i Hi). simpl in Hh, Hw. rewrite Esq in Hh. lia. }
  exists b. split; auto. split; auto. split; auto. split; auto.
  assert (S1 : forall i, i < k -> bheight b i = bwidth b i).
  { intros i Hi. unfold bheight, bwidth. destruct (Hb i 0 Hi Pk) as [-> _].
    destruct (Hb 0 i Pk Hi) as [_ ->]. auto. }
  split; auto. intros i Hi. rewrite E in E'. inversion E'; subst b'.
  destruct (FD i i) as [y Ey]. destruct (Hb i i Hi Hi) as [B1 B2]. rewrite Ey in *. simpl in *.
  rewrite B1, B2. auto.
Qed.

Lemma trmm_ok nd fuel : forall (A B : matrix) s u t un alpha X, t && nd = false ->
  wf A -> wf B -> tri_shape A -> nrows A = along s (nrows B) (ncols B) ->
  trmm nd fuel A B s u t un alpha = Ok X ->
  wf X /\ same_layout B X /\
  rel B (ent X) (mscale alpha (tri_prod s (nrows A) (mop t (tri u un (ent A))) (ent B))).
Proof.
  induction fuel as [|fuel IH]; intros A B s u t un alpha X Htn WA WB TS En H; [discriminate|].
  cbn [Triangular.trmm] in H.
  set (rec := fun A B => trmm nd fuel A B s u t un alpha) in *.
  assert (Hrec : forall m n (a : nat -> nat -> matrix), t = false -> m = n -> wf (MH m n a) ->
     (forall i, i < m -> tri_shape (a i i)) -> mul_rec_ok s u un alpha m a rec).
  { intros m n a -> <- Wa Ts k c c' Hk Wc E Hx.
    apply (IH (a k k) c s u false un alpha c'); auto. apply (wf_block _ _ _ k k Wa Hk Hk). }
  assert (HT : forall m n a m' n' b x,
     hh_trmm Or gfuel rec nd m n a m' n' b s u t alpha = Ok x -> t = false /\ m = n).
  { intros m n a m' n' b x Hx. unfold hh_trmm in Hx.
    apply assert_Ok in Hx. destruct Hx as [E1 Hx]. apply Nat.eqb_eq in E1.
    apply assert_Ok in Hx. destruct Hx as [_ Hx]. apply assert_Ok in Hx. destruct Hx as [E3 _].
    split; auto. destruct t, nd; simpl in *; congruence. }
  assert (HD : forall m n a (d d' : dense), A = MH m n a ->
    (assert! m =? n in
      assert! nrows (MH m n a) =? along s (d_r d) (d_c d) in
      let* BH := split (MD d) (side_rows s m) (side_cols s m) in
      match BH with
      | MH m' n' b => let* x := hh_trmm Or gfuel rec nd m n a m' n' b s u t alpha in
                      Ok (join (d_r d) (d_c d) m' n' x)
      | _ => Abort
      end) = Ok d' ->
     d_r d' = d_r d /\ d_c d' = d_c d /\
     feq (d_r d) (d_c d) (d_e d') (mscale alpha (tri_prod s (nrows A) (mop t (tri u un (ent A))) (d_e d)))).
  { clear B X WB En H. intros m n a d d' -> H.
    apply assert_Ok in H. destruct H as [E1 H]. apply Nat.eqb_eq in E1. subst n.
    apply assert_Ok in H. destruct H as [En H]. apply Nat.eqb_eq in En.
    assert (P : 0 < m) by apply WA.
    apply bind_Ok in H. destruct H as [BH [HS H]].
    assert (P1 : 0 < side_rows s m) by (destruct s; simpl; lia).
    assert (P2 : 0 < side_cols s m) by (destruct s; simpl; lia).
    destruct (split_D d _ _ BH P1 P2 HS) as [b [-> [W [D1 [D2 [F FD]]]]]].
    apply bind_Ok in H. destruct H as [x [Hx H]]. inversion H; subst d'; clear H.
    unfold join. cbn [d_r d_c d_e]. split; auto. split; auto.
    destruct TS as [_ [Hsq TS]]. destruct (HT _ _ _ _ _ _ _ Hx) as [Et _].
    destruct (hh_trmm_ok rec nd m m a _ _ b s u t un alpha x Htn WA Hsq W) as [_ [G1 [G2 [_ G3]]]]; auto.
    - rewrite D1, D2. exact En.
    - apply Hrec with (n := m); auto.
    - rewrite D1, D2 in G3. rewrite Et. unfold mop. eapply feq_trans; [apply G3|].
      + simpl. intros i j _ _. destruct (FD i j) as [y ->]. exact I.
      + apply feq_scale. destruct s; cbn [tri_prod along] in *.
        * apply feq_mmul with (k := nrows (MH m m a)); [apply feq_refl|]. rewrite En. exact F.
        * apply feq_mmul with (k := nrows (MH m m a)); [|apply feq_refl]. rewrite En. exact F. }
  destruct A as [a|a|m n a|r c]; [| |destruct TS as [-> [Hsq TS]]|].
  - destruct B as [b|l|m' n' b|r c]; try discriminate.
    + apply bind_Ok in H. destruct H as [x [Hx H]]. inversion H; subst X; clear H.
      destruct (d_trmm_ok a b x _ _ _ _ _ Hx) as [E1 [E2 [E3 [E4 E5]]]].
      split; [exact I|]. split; [simpl; auto|]. apply rel_feq. cbn [ent]. rewrite E5. apply feq_refl.
    + apply assert_Ok in H. destruct H as [_ H]. apply assert_Ok in H. destruct H as [_ H].
      apply bind_Ok in H. destruct H as [x [Hx H]]. inversion H; subst X; clear H.
      destruct (d_trmm_ok a _ x _ _ _ _ _ Hx) as [E1 [E2 [E3 [E4 E5]]]].
      simpl in WB.
      split; [simpl; apply set_factor_wf; auto|]. split; [destruct s; simpl; auto|].
      apply rel_feq. cbn [nrows ncols ent]. apply lr_scaled_factor; auto. rewrite E5. apply feq_refl.
    + apply assert_Ok in H. destruct H as [_ H]. apply assert_Ok in H. destruct H as [_ H].
      apply bind_Ok in H. destruct H as [AH [HS H]].
      assert (P : 0 < along s m' n') by (destruct WB as [P1 [P2 _]]; destruct s; simpl; lia).
      destruct (split_square a _ AH P TS HS) as [a' [-> [W [D1 [F [Sq Ts]]]]]].
      apply bind_Ok in H. destruct H as [x [Hx H]]. inversion H; subst X; clear H.
      destruct (HT _ _ _ _ _ _ _ Hx) as [Et _].
      destruct (hh_trmm_ok rec nd _ _ a' _ _ b s u t un alpha x Htn W Sq WB) as [_ [G1 [G2 G3]]]; auto.
      * rewrite D1. exact En.
      * apply Hrec with (n := along s m' n'); auto.
      * split; auto. split; auto. eapply rel_eq_r; [exact G3|]. rewrite D1, Et. unfold mop.
        change (nrows (MD a)) with (d_r a) in En |- *. change (ent (MD a)) with (d_e a). apply feq_scale.
        assert (F' : feq (d_r a) (d_r a) (tri u un (ent (MH (along s m' n') (along s m' n') a'))) (tri u un (d_e a))).
        { apply tri_ext. simpl in TS. rewrite <- TS in F. exact F. }
        destruct s; cbn [tri_prod along] in *.
        -- apply feq_mmul with (k := d_r a); [|apply feq_refl].
           rewrite <- En. exact F'.
        -- apply feq_mmul with (k := d_r a); [apply feq_refl|].
           rewrite <- En. exact F'.
  - destruct B; discriminate.
  - destruct B as [b|l|m' n' b|r c]; try discriminate.
    + apply bind_Ok in H. destruct H as [x [Hx H]]. inversion H; subst X; clear H.
      destruct (HD _ _ _ b x eq_refl Hx) as [E1 [E2 F]].
      split; [exact I|]. split; [simpl; auto|]. apply rel_feq. exact F.
    + apply assert_Ok in H. destruct H as [_ H]. apply assert_Ok in H. destruct H as [_ H].
      apply bind_Ok in H. destruct H as [x [Hx H]]. inversion H; subst X; clear H.
      destruct (HD _ _ _ _ x eq_refl Hx) as [E1 [E2 F]].
      simpl in WB.
      split; [simpl; apply set_factor_wf; auto|]. split; [destruct s; simpl; auto|].
      apply rel_feq. change (nrows (ML l)) with (l_r l). change (ncols (ML l)) with (l_c l).
      change (ent (ML l)) with (lr_ent l). change (ent (ML (set_factor s l x))) with (lr_ent (set_factor s l x)).
      apply lr_scaled_factor; auto. rewrite E1, E2. exact F.
    + apply bind_Ok in H. destruct H as [x [Hx H]]. inversion H; subst X; clear H.
      destruct (HT _ _ _ _ _ _ _ Hx) as [Et _].
      destruct (hh_trmm_ok rec nd _ _ a _ _ b s u t un alpha x Htn WA Hsq WB En) as [_ [G1 [G2 G3]]]; auto.
      * apply Hrec with (n := n); auto.
      * rewrite Et. auto.
  - destruct B; discriminate.
Qed.
End Proofs.
