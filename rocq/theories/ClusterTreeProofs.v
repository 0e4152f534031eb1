From Coq Require Import List Arith ZArith Lia Bool.
From Verif Require Import Prelude IndexRange IndexRangeSpec IndexRangeProofs
  ClusterTree ClusterTreeSpec.
Import ListNotations.
Local Open Scope Z_scope.

(** * Sequencing *)

Lemma mapM_Forall2 {A B} (f : A -> outcome B) l : forall bs,
  mapM f l = Ok bs <-> Forall2 (fun a b => f a = Ok b) l bs.
Proof.
  induction l as [|a l IH]; intros bs; simpl.
  - split; intros H; [inversion H; constructor|inversion H; auto].
  - split.
    + intros H. apply bind_Ok in H. destruct H as [b [Hb H]].
      apply bind_Ok in H. destruct H as [bs' [Hbs H]]. inversion H; subst.
      constructor; auto. apply IH; auto.
    + intros H. inversion H; subst. rewrite H2. simpl.
      apply IH in H4. rewrite H4. reflexivity.
Qed.

Lemma mapM_all_Ok {A B} (f : A -> outcome B) l :
  (forall a, In a l -> exists b, f a = Ok b) -> exists bs, mapM f l = Ok bs.
Proof.
  induction l as [|a l IH]; intros H; simpl; [eauto|].
  destruct (H a) as [b Hb]; [left; auto|]. rewrite Hb. simpl.
  destruct IH as [bs Hbs]; [intros; apply H; right; auto|]. rewrite Hbs. simpl. eauto.
Qed.

Lemma Forall2_nth_error {A B} (P : A -> B -> Prop) l1 l2 n a :
  Forall2 P l1 l2 -> nth_error l1 n = Some a ->
  exists b, nth_error l2 n = Some b /\ P a b.
Proof.
  intros H; revert n a; induction H; intros n a Hn; destruct n; simpl in *; try discriminate.
  - inversion Hn; subst. eauto.
  - eauto.
Qed.

Lemma Forall2_nth_error_r {A B} (P : A -> B -> Prop) l1 l2 n b :
  Forall2 P l1 l2 -> nth_error l2 n = Some b ->
  exists a, nth_error l1 n = Some a /\ P a b.
Proof.
  intros H; revert n b; induction H; intros n a Hn; destruct n; simpl in *; try discriminate.
  - inversion Hn; subst. eauto.
  - eauto.
Qed.

Lemma Forall2_len {A B} (P : A -> B -> Prop) l1 l2 :
  Forall2 P l1 l2 -> length l1 = length l2.
Proof. induction 1; simpl; auto. Qed.

Lemma Forall2_imp {A B} (P Q : A -> B -> Prop) l1 l2 :
  (forall a b, P a b -> Q a b) -> Forall2 P l1 l2 -> Forall2 Q l1 l2.
Proof. induction 2; constructor; auto. Qed.

(** * Positions *)

Lemma block_positions_In bm bn i j :
  In (i, j) (block_positions bm bn) <-> (i < Z.to_nat bm)%nat /\ (j < Z.to_nat bn)%nat.
Proof.
  unfold block_positions. rewrite in_flat_map. split.
  - intros [x [Hx Hy]]. apply in_seq in Hx. apply in_map_iff in Hy.
    destruct Hy as [y [E Hy]]. apply in_seq in Hy. inversion E; subst. lia.
  - intros [Hi Hj]. exists i. split; [apply in_seq; lia|].
    apply in_map_iff. exists j. split; auto. apply in_seq; lia.
Qed.

Lemma nth_error_flat_map_rows (n : nat) : forall m a i j,
  (i < m)%nat -> (j < n)%nat ->
  nth_error (flat_map (fun i => map (fun j => (i, j)) (seq 0 n)) (seq a m)) (i * n + j)
  = Some ((a + i)%nat, j).
Proof.
  induction m as [|m IH]; intros a i j Hi Hj; [lia|].
  simpl. destruct i as [|i].
  - simpl. rewrite nth_error_app1 by (rewrite map_length, seq_length; lia).
    erewrite map_nth_error; [rewrite Nat.add_0_r; reflexivity|].
    rewrite nth_error_nth' with (d := 0%nat) by (rewrite seq_length; lia).
    rewrite seq_nth by lia. f_equal; lia.
  - rewrite nth_error_app2 by (rewrite map_length, seq_length; lia).
    rewrite map_length, seq_length.
    replace (S i * n + j - n)%nat with (i * n + j)%nat by lia.
    rewrite IH by lia. do 2 f_equal. lia.
Qed.

Lemma block_positions_nth bm bn i j :
  (i < Z.to_nat bm)%nat -> (j < Z.to_nat bn)%nat ->
  nth_error (block_positions bm bn) (i * Z.to_nat bn + j) = Some (i, j).
Proof. intros. unfold block_positions. rewrite nth_error_flat_map_rows; auto. Qed.

Lemma flat_map_const_length {A B} (f : A -> list B) n l :
  (forall a, In a l -> length (f a) = n) -> length (flat_map f l) = (length l * n)%nat.
Proof.
  induction l as [|a l IH]; simpl; intros H; auto.
  rewrite app_length, IH by (intros; apply H; auto). rewrite H by auto. reflexivity.
Qed.

Lemma block_positions_length bm bn :
  length (block_positions bm bn) = (Z.to_nat bm * Z.to_nat bn)%nat.
Proof.
  unfold block_positions. rewrite flat_map_const_length with (n := Z.to_nat bn).
  - now rewrite seq_length.
  - intros. now rewrite map_length, seq_length.
Qed.

(** * Shape of a built tree *)

Lemma ct_build_inv fuel nd root t :
  ct_build fuel nd root = Ok t ->
  exists f, fuel = S f /\ ct_node t = nd /\
    ((root || negb (is_leaf nd) = true /\
      Forall2 (fun ij c => ct_build f (child_node nd ij) false = Ok c)
              (block_positions (cn_bm nd) (cn_bn nd)) (ct_children t))
     \/ (root || negb (is_leaf nd) = false /\ ct_children t = [])).
Proof.
  destruct fuel as [|f]; simpl; [discriminate|].
  intros H. exists f. split; auto.
  destruct (root || negb (is_leaf nd)) eqn:E.
  - apply bind_Ok in H. destruct H as [cs [Hcs H]]. inversion H; subst. simpl.
    split; auto. left. split; auto. apply mapM_Forall2; auto.
  - inversion H; subst. simpl. auto.
Qed.

(** * Fuel *)

Lemma ct_build_S f nd root :
  ct_build (S f) nd root =
  if root || negb (is_leaf nd) then
    bind (mapM (fun ij => ct_build f (child_node nd ij) false)
               (block_positions (cn_bm nd) (cn_bn nd))) (fun cs => Ok (CT nd cs))
  else Ok (CT nd []).
Proof. reflexivity. Qed.

Lemma ct_build_mono fuel : forall nd root t,
  ct_build fuel nd root = Ok t -> ct_build (S fuel) nd root = Ok t.
Proof.
  induction fuel as [|f IH]; intros nd root t H; [discriminate|].
  pose proof (ct_build_inv _ _ _ _ H) as [f' [E [Hnd Hc]]]. inversion E; subst f'.
  destruct t as [nd1 cs]; cbn [ct_node ct_children] in Hnd, Hc; subst nd1.
  destruct Hc as [[Hb Hc]|[Hb Hc]].
  - assert (Hm : mapM (fun ij => ct_build (S f) (child_node nd ij) false)
               (block_positions (cn_bm nd) (cn_bn nd)) = Ok cs).
    { apply mapM_Forall2. eapply Forall2_imp; [|exact Hc].
      intros a b Hab. apply IH in Hab. exact Hab. }
    rewrite ct_build_S, Hb. etransitivity; [exact (f_equal (fun x => bind x _) Hm)|reflexivity].
  - subst. simpl. rewrite Hb. reflexivity.
Qed.

Lemma ct_build_mono_le f1 f2 nd root t :
  (f1 <= f2)%nat -> ct_build f1 nd root = Ok t -> ct_build f2 nd root = Ok t.
Proof. intros Hle H. induction Hle; auto. apply ct_build_mono; auto. Qed.

(** * Leaves partition the block *)

Lemma filter_length_flat_map {A B} (p : B -> bool) (f : A -> list B) l :
  length (filter p (flat_map f l)) =
  fold_right (fun a acc => (length (filter p (f a)) + acc)%nat) 0%nat l.
Proof.
  induction l as [|a l IH]; simpl; auto.
  rewrite filter_app, app_length, IH. reflexivity.
Qed.

Lemma fold_right_Forall2 {A B} (f : A -> nat) (g : B -> nat) l1 l2 :
  Forall2 (fun a b => f a = g b) l1 l2 ->
  fold_right (fun a acc => (f a + acc)%nat) 0%nat l1 =
  fold_right (fun a acc => (g a + acc)%nat) 0%nat l2.
Proof. induction 1; simpl; auto. Qed.

Lemma fold_right_flat_map {A B} (f : B -> nat) (g : A -> list B) l :
  fold_right (fun a acc => (f a + acc)%nat) 0%nat (flat_map g l) =
  fold_right (fun a acc => (fold_right (fun b acc' => (f b + acc')%nat) 0%nat (g a) + acc)%nat) 0%nat l.
Proof.
  induction l as [|a l IH]; simpl; auto.
  rewrite fold_right_app, IH.
  assert (Hg : forall l2 x y, fold_right (fun b acc => (f b + acc)%nat) (x + y)%nat l2 =
            (fold_right (fun b acc => (f b + acc)%nat) x l2 + y)%nat).
  { induction l2; simpl; intros; auto. rewrite IHl2. lia. }
  rewrite <- Hg. reflexivity.
Qed.

Definition b2n (b : bool) : nat := if b then 1%nat else 0%nat.

Lemma filter_count {A} (p : A -> bool) l :
  length (filter p l) = fold_right (fun a acc => (b2n (p a) + acc)%nat) 0%nat l.
Proof. induction l as [|a l IH]; simpl; auto. destruct (p a); simpl; auto. Qed.

Lemma fold_right_map' {A B} (f : B -> nat) (g : A -> B) l :
  fold_right (fun a acc => (f a + acc)%nat) 0%nat (map g l) =
  fold_right (fun a acc => (f (g a) + acc)%nat) 0%nat l.
Proof. induction l; simpl; auto. Qed.

Lemma fold_right_scale {A} (f : A -> nat) c l :
  fold_right (fun a acc => (c * f a + acc)%nat) 0%nat l =
  (c * fold_right (fun a acc => (f a + acc)%nat) 0%nat l)%nat.
Proof. induction l; simpl; [lia|]. rewrite IHl. lia. Qed.

Lemma fold_right_ext_nat {A} (f g : A -> nat) l :
  (forall a, In a l -> f a = g a) ->
  fold_right (fun a acc => (f a + acc)%nat) 0%nat l =
  fold_right (fun a acc => (g a + acc)%nat) 0%nat l.
Proof.
  induction l as [|x l IH]; simpl; intros H; [reflexivity|]. rewrite H, IH; auto.
Qed.

Lemma nth_map_seq {A} (l : list A) d :
  map (fun i => nth i l d) (seq 0 (length l)) = l.
Proof.
  apply nth_ext with (d := d) (d' := d).
  - rewrite map_length, seq_length; auto.
  - intros n Hn. rewrite map_length, seq_length in Hn.
    rewrite nth_indep with (d' := nth 0 l d) by (rewrite map_length, seq_length; auto).
    rewrite (map_nth (fun i => nth i l d)). rewrite seq_nth; auto.
Qed.

Lemma fold_right_nat_scale_r {A} (f : A -> nat) c l :
  fold_right (fun a acc => (f a * c + acc)%nat) 0%nat l =
  (fold_right (fun a acc => (f a + acc)%nat) 0%nat l * c)%nat.
Proof. induction l; simpl; [lia|]. rewrite IHl. lia. Qed.

Lemma leaf_count_children x y nd cs :
  cs <> [] ->
  leaf_count x y (CT nd cs) =
  fold_right (fun c acc => (leaf_count x y c + acc)%nat) 0%nat cs.
Proof.
  intros H. unfold leaf_count.
  replace (ct_leaves (CT nd cs)) with (flat_map ct_leaves cs).
  - apply filter_length_flat_map.
  - destruct cs; [congruence|reflexivity].
Qed.

Lemma regular_child nd cs c : regular (CT nd cs) -> In c cs -> regular c.
Proof.
  intros H Hc s Hs. apply H. simpl. right. apply in_flat_map. eauto.
Qed.

Lemma in_block_nodes_self t : In t (ct_nodes t).
Proof. destruct t; simpl; auto. Qed.

Lemma leaf_count_partition fuel : forall nd root t,
  ct_build fuel nd root = Ok t -> regular t ->
  forall x y, leaf_count x y t = b2n (in_block x y t).
Proof.
  induction fuel as [|f IH]; intros nd root t H Hreg x y; [discriminate|].
  pose proof (ct_build_inv _ _ _ _ H) as [f' [E [Hnd Hc]]]. inversion E; subst f'.
  destruct t as [nd' cs]; simpl in Hnd, Hc; subst nd'.
  destruct cs as [|c0 cs0].
  { unfold leaf_count, in_block; simpl.
    destruct (ir_memb x (cn_rows nd) && ir_memb y (cn_cols nd)); reflexivity. }
  remember (c0 :: cs0) as cs eqn:Ecs.
  destruct Hc as [[Hb Hc]|[_ Hc]]; [|subst; discriminate].
  rewrite leaf_count_children by (subst; discriminate).
  assert (Hcnt : fold_right (fun c acc => (leaf_count x y c + acc)%nat) 0%nat cs =
    fold_right (fun ij acc => (b2n (ir_memb x (cn_rows (child_node nd ij)) &&
                                    ir_memb y (cn_cols (child_node nd ij))) + acc)%nat) 0%nat
      (block_positions (cn_bm nd) (cn_bn nd))).
  { symmetry. apply fold_right_Forall2.
    assert (Hall : forall c, In c cs -> regular c) by (intros; eapply regular_child; eauto).
    clear - Hc IH Hall.
    induction Hc as [|ij c l1 l2 Hij Hrest IHF]; constructor.
    - symmetry. rewrite (IH _ _ _ Hij); [|apply Hall; left; auto].
      pose proof (ct_build_inv _ _ _ _ Hij) as [? [_ [Hn _]]].
      unfold in_block. rewrite Hn. reflexivity.
    - apply IHF. intros; apply Hall; right; auto. }
  rewrite Hcnt. clear Hcnt.
  assert (Hpos : block_positions (cn_bm nd) (cn_bn nd) <> []).
  { intros E0. rewrite E0 in Hc. inversion Hc. subst. discriminate. }
  assert (Hbm : 1 <= cn_bm nd /\ 1 <= cn_bn nd).
  { assert (0 < length (block_positions (cn_bm nd) (cn_bn nd)))%nat
      by (destruct (block_positions (cn_bm nd) (cn_bn nd)); [congruence|simpl; lia]).
    rewrite block_positions_length in H0. nia. }
  destruct Hbm as [Hbm Hbn].
  (* every row range and every column range of the split is non-negative *)
  assert (Hchild : forall i j, (i < Z.to_nat (cn_bm nd))%nat -> (j < Z.to_nat (cn_bn nd))%nat ->
     0 <= ir_n (cn_rows (child_node nd (i, j))) /\ 0 <= ir_n (cn_cols (child_node nd (i, j)))).
  { intros i j Hi Hj.
    destruct (Forall2_nth_error _ _ _ _ _ Hc (block_positions_nth _ _ i j Hi Hj)) as [c [Hc1 Hc2]].
    pose proof (ct_build_inv _ _ _ _ Hc2) as [? [_ [Hn _]]]. rewrite <- Hn.
    apply Hreg. simpl. right. apply in_flat_map. exists c. split.
    - eapply nth_error_In; eauto.
    - apply in_block_nodes_self. }
  assert (Hrows : all_nonneg (ir_split (cn_rows nd) (cn_bm nd))).
  { apply Forall_forall. intros r Hr. apply In_nth with (d := IR 0 0) in Hr.
    destruct Hr as [i [Hi Hr]]. rewrite ir_split_length in Hi.
    destruct (Hchild i 0%nat) as [H1 _]; [lia|lia|]. simpl in H1. rewrite Hr in H1. exact H1. }
  assert (Hcols : all_nonneg (ir_split (cn_cols nd) (cn_bn nd))).
  { apply Forall_forall. intros r Hr. apply In_nth with (d := IR 0 0) in Hr.
    destruct Hr as [j [Hj Hr]]. rewrite ir_split_length in Hj.
    destruct (Hchild 0%nat j) as [_ H1]; [lia|lia|]. simpl in H1. rewrite Hr in H1. exact H1. }
  pose proof (ir_split_tiles _ _ Hbm Hrows x) as Hx.
  pose proof (ir_split_tiles _ _ Hbn Hcols y) as Hy.
  unfold block_positions. rewrite fold_right_flat_map.
  rewrite (fold_right_ext_nat _
    (fun i => (b2n (ir_memb x (nth i (ir_split (cn_rows nd) (cn_bm nd)) (IR 0 0))) *
              b2n (ir_memb y (cn_cols nd)))%nat)).
  - rewrite fold_right_nat_scale_r.
    rewrite <- (fold_right_map' (fun r => b2n (ir_memb x r))
       (fun i => nth i (ir_split (cn_rows nd) (cn_bm nd)) (IR 0 0))).
    rewrite <- (ir_split_length (cn_rows nd) (cn_bm nd)). rewrite nth_map_seq.
    rewrite <- filter_count. rewrite Hx. unfold in_block; simpl.
    destruct (ir_memb x (cn_rows nd)), (ir_memb y (cn_cols nd)); reflexivity.
  - intros i Hi. rewrite fold_right_map'. simpl.
    rewrite (fold_right_ext_nat _
      (fun j => (b2n (ir_memb x (nth i (ir_split (cn_rows nd) (cn_bm nd)) (IR 0 0))) *
                b2n (ir_memb y (nth j (ir_split (cn_cols nd) (cn_bn nd)) (IR 0 0))))%nat)).
    + rewrite fold_right_scale.
      rewrite <- (fold_right_map' (fun r => b2n (ir_memb y r))
        (fun j => nth j (ir_split (cn_cols nd) (cn_bn nd)) (IR 0 0))).
      rewrite <- (ir_split_length (cn_cols nd) (cn_bn nd)). rewrite nth_map_seq.
      rewrite <- filter_count. rewrite Hy. reflexivity.
    + intros j Hj. cbn [child_node cn_rows cn_cols fst snd].
      destruct (ir_memb x (nth i _ _)), (ir_memb y (nth j _ _)); reflexivity.
Qed.

(** * Coordinates *)

Lemma ct_at_build f nd root t i j :
  ct_build (S f) nd root = Ok t -> root || negb (is_leaf nd) = true ->
  0 <= i < cn_bm nd -> 0 <= j < cn_bn nd ->
  exists c, ct_at t i j = Ok c /\
    ct_build f (child_node nd (Z.to_nat i, Z.to_nat j)) false = Ok c.
Proof.
  intros H Hb Hi Hj.
  pose proof (ct_build_inv _ _ _ _ H) as [f' [E [Hnd Hc]]]. inversion E; subst f'.
  destruct Hc as [[_ Hc]|[Hb' _]]; [|congruence].
  unfold ct_at. rewrite Hnd.
  replace (i * cn_bn nd + j <? 0) with false by (symmetry; apply Z.ltb_ge; nia).
  replace (Z.to_nat (i * cn_bn nd + j)) with (Z.to_nat i * Z.to_nat (cn_bn nd) + Z.to_nat j)%nat by nia.
  destruct (Forall2_nth_error _ _ _ _ _ Hc
    (block_positions_nth (cn_bm nd) (cn_bn nd) (Z.to_nat i) (Z.to_nat j) ltac:(lia) ltac:(lia)))
    as [c [Hc1 Hc2]].
  rewrite Hc1. eauto.
Qed.

Lemma ct_at_spec f nd root t i j :
  ct_build f nd root = Ok t -> ct_children t <> [] ->
  0 <= i < cn_bm nd -> 0 <= j < cn_bn nd ->
  exists c, ct_at t i j = Ok c /\
    cn_irel (ct_node c) = i /\ cn_jrel (ct_node c) = j /\
    cn_level (ct_node c) = cn_level nd + 1 /\
    cn_iabs (ct_node c) = cn_iabs nd * cn_bm nd + i /\
    cn_jabs (ct_node c) = cn_jabs nd * cn_bn nd + j /\
    cn_bm (ct_node c) = cn_bm nd /\ cn_bn (ct_node c) = cn_bn nd /\
    cn_nleaf (ct_node c) = cn_nleaf nd /\
    nth_error (ir_split (cn_rows nd) (cn_bm nd)) (Z.to_nat i) = Some (cn_rows (ct_node c)) /\
    nth_error (ir_split (cn_cols nd) (cn_bn nd)) (Z.to_nat j) = Some (cn_cols (ct_node c)).
Proof.
  intros H Hne Hi Hj.
  destruct f as [|f]; [discriminate|].
  pose proof (ct_build_inv _ _ _ _ H) as [f' [E [Hnd Hc]]]. inversion E; subst f'.
  destruct Hc as [[Hb _]|[_ Hc]]; [|congruence].
  destruct (ct_at_build f nd root t i j H Hb Hi Hj) as [c [Hc1 Hc2]].
  exists c. split; auto.
  pose proof (ct_build_inv _ _ _ _ Hc2) as [? [_ [Hn _]]]. rewrite Hn. simpl.
  repeat split; try lia.
  - rewrite nth_error_nth' with (d := IR 0 0); [reflexivity|]. rewrite ir_split_length; lia.
  - rewrite nth_error_nth' with (d := IR 0 0); [reflexivity|]. rewrite ir_split_length; lia.
Qed.

Lemma ct_at_out f nd root t i j c :
  ct_build f nd root = Ok t -> ct_at t i j = Ok c -> 0 <= i -> 0 <= j < cn_bn nd ->
  ct_children t <> [] /\ i < cn_bm nd.
Proof.
  intros H Hat Hi Hj.
  pose proof (ct_build_inv _ _ _ _ H) as [f' [E [Hnd Hc]]].
  unfold ct_at in Hat. rewrite Hnd in Hat.
  destruct (i * cn_bn nd + j <? 0) eqn:El; [discriminate|].
  destruct (nth_error (ct_children t) (Z.to_nat (i * cn_bn nd + j))) eqn:En; [|discriminate].
  assert (Hne : ct_children t <> []).
  { intros E0. rewrite E0 in En. destruct (Z.to_nat (i * cn_bn nd + j)); discriminate. }
  split; auto.
  destruct Hc as [[_ Hc]|[_ Hc]]; [|congruence].
  apply Forall2_len in Hc. rewrite block_positions_length in Hc.
  assert (Hl : (Z.to_nat (i * cn_bn nd + j) < length (ct_children t))%nat)
    by (apply nth_error_Some; congruence).
  rewrite <- Hc in Hl.
  assert (0 < Z.to_nat (cn_bm nd))%nat by nia.
  nia.
Qed.

(** Absolute positions along a path. *)
Lemma ct_follow_abs path : forall f nd root t s,
  ct_build f nd root = Ok t -> valid_path (cn_bm nd) (cn_bn nd) path ->
  ct_follow t path = Ok s ->
  cn_iabs (ct_node s) = fold_left (fun a ij => a * cn_bm nd + fst ij) path (cn_iabs nd) /\
  cn_jabs (ct_node s) = fold_left (fun a ij => a * cn_bn nd + snd ij) path (cn_jabs nd) /\
  cn_level (ct_node s) = cn_level nd + Z.of_nat (length path) /\
  cn_bm (ct_node s) = cn_bm nd /\ cn_bn (ct_node s) = cn_bn nd.
Proof.
  induction path as [|[i j] p IH]; intros f nd root t s H Hv Hf.
  - simpl in *. inversion Hf; subst.
    pose proof (ct_build_inv _ _ _ _ H) as [? [_ [Hn _]]]. rewrite Hn. repeat split; lia.
  - cbn [ct_follow] in Hf. apply bind_Ok in Hf. destruct Hf as [c [Hat Hf]].
    inversion Hv as [|? ? [Hi Hj] Hv']; subst; simpl in Hi, Hj.
    destruct (ct_at_out _ _ _ _ _ _ _ H Hat) as [Hne _]; [lia|lia|].
    destruct f as [|f]; [discriminate|].
    pose proof (ct_build_inv _ _ _ _ H) as [f' [E [Hnd Hc]]]. inversion E; subst f'.
    destruct Hc as [[Hb _]|[_ Hc]]; [|congruence].
    destruct (ct_at_build f nd root t i j H Hb Hi Hj) as [c' [Hc1 Hc2]].
    rewrite Hat in Hc1. inversion Hc1; subst c'.
    specialize (IH _ _ _ _ _ Hc2 Hv' Hf). cbn [cn_bm cn_bn child_node cn_iabs cn_jabs cn_level fst snd] in IH.
    destruct IH as [I1 [I2 [I3 [I4 I5]]]].
    cbn [fold_left fst snd length].
    rewrite Z2Nat.id in I1, I2 by lia.
    repeat split; auto; lia.
Qed.

Lemma fold_digits_inj b : 1 <= b -> forall (l1 l2 : list Z) a1 a2,
  length l1 = length l2 ->
  Forall (fun d => 0 <= d < b) l1 -> Forall (fun d => 0 <= d < b) l2 ->
  fold_left (fun a d => a * b + d) l1 a1 = fold_left (fun a d => a * b + d) l2 a2 ->
  a1 = a2 /\ l1 = l2.
Proof.
  intros Hb l1. induction l1 as [|x l1 IH] using rev_ind; intros l2 a1 a2 Hlen H1 H2 E.
  - destruct l2; [simpl in *; auto|discriminate].
  - destruct l2 as [|y l2] using rev_ind.
    + rewrite app_length in Hlen; simpl in Hlen; lia.
    + clear IHl2. rewrite !app_length in Hlen; simpl in Hlen.
      rewrite !fold_left_app in E. simpl in E.
      apply Forall_app in H1. apply Forall_app in H2.
      destruct H1 as [H1 Hx], H2 as [H2 Hy]. inversion Hx; inversion Hy; subst.
      assert (fold_left (fun a d => a * b + d) l1 a1 = fold_left (fun a d => a * b + d) l2 a2 /\ x = y).
      { apply (Z.div_mod_unique b); [left; auto|left; auto|]. lia. }
      destruct H as [E1 E2]. apply IH in E1; auto; [|lia]. destruct E1; subst; auto.
Qed.

Lemma fold_left_map_digits {A} (g : A -> Z) b l : forall a,
  fold_left (fun a ij => a * b + g ij) l a = fold_left (fun a d => a * b + d) (map g l) a.
Proof. induction l; simpl; intros; auto. Qed.

Lemma valid_path_fst bm bn p : valid_path bm bn p -> Forall (fun d => 0 <= d < bm) (map fst p).
Proof. intros H. apply Forall_map. eapply Forall_impl; [|exact H]. simpl. tauto. Qed.
Lemma valid_path_snd bm bn p : valid_path bm bn p -> Forall (fun d => 0 <= d < bn) (map snd p).
Proof. intros H. apply Forall_map. eapply Forall_impl; [|exact H]. simpl. tauto. Qed.

Lemma map_fst_snd_eq {A B} (p q : list (A * B)) :
  map fst p = map fst q -> map snd p = map snd q -> p = q.
Proof.
  revert q; induction p as [|[a b] p IH]; intros [|[c d] q]; simpl; intros H1 H2; try discriminate; auto.
  inversion H1; inversion H2; subst. f_equal. auto.
Qed.

Lemma ct_abs_inj f nd root t p q s s' :
  ct_build f nd root = Ok t ->
  valid_path (cn_bm nd) (cn_bn nd) p -> valid_path (cn_bm nd) (cn_bn nd) q ->
  length p = length q ->
  ct_follow t p = Ok s -> ct_follow t q = Ok s' ->
  cn_iabs (ct_node s) = cn_iabs (ct_node s') -> cn_jabs (ct_node s) = cn_jabs (ct_node s') ->
  p = q.
Proof.
  intros H Hp Hq Hl Hs Hs' Ei Ej.
  destruct p as [|x p0] eqn:Ep.
  { destruct q; [auto|discriminate]. }
  rewrite <- Ep in *.
  assert (Hb : 1 <= cn_bm nd /\ 1 <= cn_bn nd).
  { rewrite Ep in Hp. inversion Hp as [|? ? [? ?] ?]; lia. }
  destruct (ct_follow_abs p _ _ _ _ _ H Hp Hs) as [A1 [A2 _]].
  destruct (ct_follow_abs q _ _ _ _ _ H Hq Hs') as [B1 [B2 _]].
  rewrite A1, B1 in Ei. rewrite A2, B2 in Ej.
  rewrite (fold_left_map_digits fst _ p), (fold_left_map_digits fst _ q) in Ei.
  rewrite (fold_left_map_digits snd _ p), (fold_left_map_digits snd _ q) in Ej.
  apply fold_digits_inj in Ei; try (rewrite !map_length; auto); try lia;
    eauto using valid_path_fst.
  apply fold_digits_inj in Ej; try (rewrite !map_length; auto); try lia;
    eauto using valid_path_snd.
  apply map_fst_snd_eq; tauto.
Qed.

(** * Block rows and columns *)

Lemma get_block_row_spec f nd root p i j c :
  ct_build f nd root = Ok p -> ct_at p i j = Ok c ->
  0 <= i < cn_bm nd -> 0 <= j < cn_bn nd ->
  exists l, get_block_row (Some p) c = Ok l /\
    length l = Z.to_nat (cn_bn nd) /\
    nth_error l (Z.to_nat j) = Some c /\
    (forall k s, nth_error l k = Some s ->
       ct_at p i (Z.of_nat k) = Ok s /\ cn_rows (ct_node s) = cn_rows (ct_node c)).
Proof.
  intros H Hat Hi Hj.
  destruct (ct_at_out _ _ _ _ _ _ _ H Hat) as [Hne _]; [lia|lia|].
  destruct (ct_at_spec _ _ _ _ i j H Hne Hi Hj)
    as [c' [Hc1 [Hr1 [_ [_ [_ [_ [_ [_ [_ [Hrow _]]]]]]]]]]].
  rewrite Hat in Hc1; inversion Hc1; subst c'.
  pose proof (ct_build_inv _ _ _ _ H) as [? [_ [Hnd _]]].
  unfold get_block_row. rewrite Hnd, Hr1.
  destruct (mapM_all_Ok (fun j => ct_at p i (Z.of_nat j)) (seq 0 (Z.to_nat (cn_bn nd)))) as [l Hl].
  { intros k Hk. apply in_seq in Hk.
    destruct (ct_at_spec _ _ _ _ i (Z.of_nat k) H Hne Hi) as [s [Hs _]]; [lia|eauto]. }
  exists l. split; auto.
  apply mapM_Forall2 in Hl.
  pose proof (Forall2_len _ _ _ Hl) as Hlen. rewrite seq_length in Hlen.
  split; [auto|]. split.
  - assert (Hn : nth_error (seq 0 (Z.to_nat (cn_bn nd))) (Z.to_nat j) = Some (Z.to_nat j)).
    { rewrite nth_error_nth' with (d := 0%nat) by (rewrite seq_length; lia).
      rewrite seq_nth by lia. reflexivity. }
    destruct (Forall2_nth_error _ _ _ _ _ Hl Hn) as [s [Hs1 Hs2]].
    rewrite Hs1. rewrite Z2Nat.id in Hs2 by lia. congruence.
  - intros k s Hk. destruct (Forall2_nth_error_r _ _ _ _ _ Hl Hk) as [k' [Hk1 Hk2]].
    assert (Hlt : (k < Z.to_nat (cn_bn nd))%nat).
    { rewrite Hlen. apply nth_error_Some. congruence. }
    rewrite nth_error_nth' with (d := 0%nat) in Hk1 by (rewrite seq_length; lia).
    rewrite seq_nth in Hk1 by lia. inversion Hk1; subst k'. simpl in Hk2. split; auto.
    destruct (ct_at_spec _ _ _ _ i (Z.of_nat k) H Hne Hi)
      as [s' [Hs1 [_ [_ [_ [_ [_ [_ [_ [_ [Hrow' _]]]]]]]]]]]; [lia|].
    rewrite Hk2 in Hs1; inversion Hs1; subst s'. congruence.
Qed.

Lemma get_block_col_spec f nd root p i j c :
  ct_build f nd root = Ok p -> ct_at p i j = Ok c ->
  0 <= i < cn_bm nd -> 0 <= j < cn_bn nd ->
  exists l, get_block_col (Some p) c = Ok l /\
    length l = Z.to_nat (cn_bm nd) /\
    nth_error l (Z.to_nat i) = Some c /\
    (forall k s, nth_error l k = Some s ->
       ct_at p (Z.of_nat k) j = Ok s /\ cn_cols (ct_node s) = cn_cols (ct_node c)).
Proof.
  intros H Hat Hi Hj.
  destruct (ct_at_out _ _ _ _ _ _ _ H Hat) as [Hne _]; [lia|lia|].
  destruct (ct_at_spec _ _ _ _ i j H Hne Hi Hj)
    as [c' [Hc1 [_ [Hr1 [_ [_ [_ [_ [_ [_ [_ Hrow]]]]]]]]]]].
  rewrite Hat in Hc1; inversion Hc1; subst c'.
  pose proof (ct_build_inv _ _ _ _ H) as [? [_ [Hnd _]]].
  unfold get_block_col. rewrite Hnd, Hr1.
  destruct (mapM_all_Ok (fun i => ct_at p (Z.of_nat i) j) (seq 0 (Z.to_nat (cn_bm nd)))) as [l Hl].
  { intros k Hk. apply in_seq in Hk.
    destruct (ct_at_spec _ _ _ _ (Z.of_nat k) j H Hne) as [s [Hs _]]; [lia|lia|eauto]. }
  exists l. split; auto.
  apply mapM_Forall2 in Hl.
  pose proof (Forall2_len _ _ _ Hl) as Hlen. rewrite seq_length in Hlen.
  split; [auto|]. split.
  - assert (Hn : nth_error (seq 0 (Z.to_nat (cn_bm nd))) (Z.to_nat i) = Some (Z.to_nat i)).
    { rewrite nth_error_nth' with (d := 0%nat) by (rewrite seq_length; lia).
      rewrite seq_nth by lia. reflexivity. }
    destruct (Forall2_nth_error _ _ _ _ _ Hl Hn) as [s [Hs1 Hs2]].
    rewrite Hs1. rewrite Z2Nat.id in Hs2 by lia. congruence.
  - intros k s Hk. destruct (Forall2_nth_error_r _ _ _ _ _ Hl Hk) as [k' [Hk1 Hk2]].
    assert (Hlt : (k < Z.to_nat (cn_bm nd))%nat).
    { rewrite Hlen. apply nth_error_Some. congruence. }
    rewrite nth_error_nth' with (d := 0%nat) in Hk1 by (rewrite seq_length; lia).
    rewrite seq_nth in Hk1 by lia. inversion Hk1; subst k'. simpl in Hk2. split; auto.
    destruct (ct_at_spec _ _ _ _ (Z.of_nat k) j H Hne)
      as [s' [Hs1 [_ [_ [_ [_ [_ [_ [_ [_ [_ Hrow']]]]]]]]]]]; [lia|lia|].
    rewrite Hk2 in Hs1; inversion Hs1; subst s'. congruence.
Qed.
