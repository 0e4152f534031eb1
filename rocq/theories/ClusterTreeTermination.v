(** Termination and non-termination of cluster tree construction. *)
From Coq Require Import List Arith ZArith Lia Bool.
From Verif Require Import Prelude IndexRange IndexRangeSpec IndexRangeProofs
  ClusterTree ClusterTreeSpec ClusterTreeProofs.
Import ListNotations.
Local Open Scope Z_scope.

Lemma split_child_bound r k i :
  2 <= k -> 0 <= i < k ->
  2 * ir_n (ir_split_child r k i) <= Z.max 1 (ir_n r) + 1.
Proof.
  intros Hk Hi. unfold ir_split_child; cbn [ir_n ir_start].
  destruct (Z_le_gt_dec 0 (ir_n r)) as [Hn|Hn].
  - destruct (ceil_bounds (ir_n r) k Hn ltac:(lia)) as [Hc Hc0].
    set (c := Z.quot (ir_n r + k - 1) k) in *.
    assert (Hdiv : 2 * c <= Z.max 1 (ir_n r) + 1).
    { clearbody c. destruct (Z.eq_dec c 0) as [E0|E0]; [subst c; lia|].
      destruct (Z.eq_dec c 1) as [E1|E1]; [subst c; lia|].
      (* c >= 2: n > k*(c-1) >= 2*(c-1) *)
      assert (ir_n r + 1 > k * (c - 1)) by lia.
      nia. }
    destruct (i =? k - 1); [|lia].
    assert (ir_n r - c * (k - 1) <= c) by lia. lia.
  - assert (Hc : Z.quot (ir_n r + k - 1) k <= 0).
    { destruct (Z_le_gt_dec 0 (ir_n r + k - 1)).
      - rewrite Z.quot_div_nonneg by lia. assert ((ir_n r + k - 1) / k < 1) by (apply Z.div_lt_upper_bound; lia). lia.
      - pose proof (Z.quot_opp_l (- (ir_n r + k - 1)) k ltac:(lia)) as Ho.
        rewrite Z.opp_involutive in Ho. rewrite Ho.
        assert (0 <= Z.quot (- (ir_n r + k - 1)) k) by (apply Z.quot_pos; lia). lia. }
    destruct (i =? k - 1); [|lia].
    assert (Hge : ir_n r + k - 1 <= k * Z.quot (ir_n r + k - 1) k \/ Z.quot (ir_n r + k - 1) k = 0).
    { destruct (Z_le_gt_dec 0 (ir_n r + k - 1)).
      - right. apply Z.quot_small. lia.
      - left. pose proof (Z.quot_rem (ir_n r + k - 1) k ltac:(lia)).
        pose proof (Z.rem_nonpos (ir_n r + k - 1) k ltac:(lia) ltac:(lia)). lia. }
    destruct Hge as [Hge|Hge]; [|rewrite Hge; lia].
    set (c := Z.quot (ir_n r + k - 1) k) in *. nia.
Qed.

Lemma split_child_one r : ir_n (ir_split_child r 1 0) = ir_n r.
Proof. unfold ir_split_child; simpl. lia. Qed.

(** Size that still has to shrink. *)
Definition ct_measure (nd : cnode) : Z :=
  Z.max 1 (Z.max (if 2 <=? cn_bm nd then ir_n (cn_rows nd) else 0)
                 (if 2 <=? cn_bn nd then ir_n (cn_cols nd) else 0)).

Definition ct_shrinks (nd : cnode) : Prop :=
  1 <= cn_nleaf nd /\ 1 <= cn_bm nd /\ 1 <= cn_bn nd /\
  (2 <= cn_bm nd \/ ir_n (cn_rows nd) <= cn_nleaf nd) /\
  (2 <= cn_bn nd \/ ir_n (cn_cols nd) <= cn_nleaf nd).

Lemma ct_shrinks_child nd i j :
  ct_shrinks nd -> (i < Z.to_nat (cn_bm nd))%nat -> (j < Z.to_nat (cn_bn nd))%nat ->
  ct_shrinks (child_node nd (i, j)) /\ 2 * ct_measure (child_node nd (i, j)) <= ct_measure nd + 1.
Proof.
  intros [Hl [Hbm [Hbn [Hr Hc]]]] Hi Hj.
  unfold ct_shrinks, ct_measure; cbn [child_node cn_bm cn_bn cn_nleaf cn_rows cn_cols fst snd].
  rewrite !ir_split_nth by auto.
  assert (Hrow : cn_bm nd = 1 -> ir_n (ir_split_child (cn_rows nd) (cn_bm nd) (Z.of_nat i)) = ir_n (cn_rows nd)).
  { intros E. rewrite E in *. replace (Z.of_nat i) with 0 by lia. apply split_child_one. }
  assert (Hcol : cn_bn nd = 1 -> ir_n (ir_split_child (cn_cols nd) (cn_bn nd) (Z.of_nat j)) = ir_n (cn_cols nd)).
  { intros E. rewrite E in *. replace (Z.of_nat j) with 0 by lia. apply split_child_one. }
  split.
  - repeat split; auto.
    + destruct Hr as [Hr|Hr]; auto. destruct (Z.eq_dec (cn_bm nd) 1) as [E|E]; [|left; lia].
      right. rewrite Hrow by auto. exact Hr.
    + destruct Hc as [Hc|Hc]; auto. destruct (Z.eq_dec (cn_bn nd) 1) as [E|E]; [|left; lia].
      right. rewrite Hcol by auto. exact Hc.
  - assert (B1 : 2 <= cn_bm nd -> 2 * ir_n (ir_split_child (cn_rows nd) (cn_bm nd) (Z.of_nat i))
                 <= Z.max 1 (ir_n (cn_rows nd)) + 1)
      by (intros; apply split_child_bound; lia).
    assert (B2 : 2 <= cn_bn nd -> 2 * ir_n (ir_split_child (cn_cols nd) (cn_bn nd) (Z.of_nat j))
                 <= Z.max 1 (ir_n (cn_cols nd)) + 1)
      by (intros; apply split_child_bound; lia).
    destruct (Z.leb_spec 2 (cn_bm nd)); destruct (Z.leb_spec 2 (cn_bn nd)); lia.
Qed.

Lemma ct_build_terminates f : forall nd,
  ct_shrinks nd -> ct_measure nd <= 2 ^ Z.of_nat f ->
  exists t, ct_build (S f) nd false = Ok t.
Proof.
  induction f as [|f IH]; intros nd Hs Hm.
  - exists (CT nd []). simpl.
    replace (is_leaf nd) with true; [reflexivity|].
    symmetry. unfold is_leaf. destruct Hs as [Hl [Hbm [Hbn [Hr Hc]]]].
    unfold ct_measure in Hm. simpl in Hm. apply orb_true_iff. left.
    apply andb_true_iff. split; apply Z.leb_le.
    + destruct Hr as [Hr|Hr]; auto. destruct (Z.leb_spec 2 (cn_bm nd)); lia.
    + destruct Hc as [Hc|Hc]; auto. destruct (Z.leb_spec 2 (cn_bn nd)); lia.
  - rewrite ct_build_S. simpl orb. destruct (negb (is_leaf nd)); [|eauto].
    destruct (mapM_all_Ok (fun ij => ct_build (S f) (child_node nd ij) false)
                (block_positions (cn_bm nd) (cn_bn nd))) as [cs Hcs].
    + intros [i j] Hij. apply block_positions_In in Hij. destruct Hij as [Hi Hj].
      destruct (ct_shrinks_child nd i j Hs Hi Hj) as [Hs' Hm'].
      apply IH; auto.
      rewrite Nat2Z.inj_succ, Z.pow_succ_r in Hm by lia.
      assert (0 < 2 ^ Z.of_nat f) by (apply Z.pow_pos_nonneg; lia). lia.
    + rewrite Hcs. simpl. eauto.
Qed.

Lemma cluster_tree_terminates rows cols bm bn nleaf f :
  1 <= nleaf -> 1 <= bm -> 1 <= bn ->
  (2 <= bm \/ ir_n rows <= nleaf) -> (2 <= bn \/ ir_n cols <= nleaf) ->
  Z.max 1 (Z.max (ir_n rows) (ir_n cols)) <= 2 ^ Z.of_nat f ->
  exists t, cluster_tree (S (S f)) rows cols bm bn nleaf = Ok t.
Proof.
  intros Hl Hbm Hbn Hr Hc Hf. unfold cluster_tree.
  rewrite ct_build_S. simpl orb. cbv iota.
  assert (Hs : ct_shrinks (root_node rows cols bm bn nleaf)) by (unfold ct_shrinks; simpl; tauto).
  destruct (mapM_all_Ok (fun ij => ct_build (S f) (child_node (root_node rows cols bm bn nleaf) ij) false)
                (block_positions (cn_bm (root_node rows cols bm bn nleaf)) (cn_bn (root_node rows cols bm bn nleaf)))) as [cs Hcs].
  - intros [i j] Hij. apply block_positions_In in Hij. destruct Hij as [Hi Hj].
    destruct (ct_shrinks_child _ i j Hs Hi Hj) as [Hs' Hm'].
    apply ct_build_terminates; auto.
    assert (ct_measure (root_node rows cols bm bn nleaf) <= Z.max 1 (Z.max (ir_n rows) (ir_n cols))).
    { unfold ct_measure; simpl. destruct (2 <=? bm), (2 <=? bn); lia. }
    assert (1 <= ct_measure (root_node rows cols bm bn nleaf)) by (unfold ct_measure; lia).
    lia.
  - rewrite Hcs. simpl. eauto.
Qed.

Lemma cluster_tree_terminates_leaf0 rows cols bm bn :
  exists t, cluster_tree 2 rows cols bm bn 0 = Ok t.
Proof.
  unfold cluster_tree. rewrite ct_build_S. simpl orb. cbv iota.
  destruct (mapM_all_Ok (fun ij => ct_build 1 (child_node (root_node rows cols bm bn 0) ij) false)
      (block_positions (cn_bm (root_node rows cols bm bn 0)) (cn_bn (root_node rows cols bm bn 0)))) as [cs Hcs].
  - intros [i j] _. rewrite ct_build_S.
    replace (is_leaf (child_node (root_node rows cols bm bn 0) (i, j))) with true.
    + simpl. eauto.
    + symmetry. unfold is_leaf. simpl. apply orb_true_r.
  - rewrite Hcs. simpl. eauto.
Qed.

Lemma block_positions_cons bm bn : 1 <= bm -> 1 <= bn ->
  exists l, block_positions bm bn = (0%nat, 0%nat) :: l.
Proof.
  intros H1 H2. unfold block_positions.
  destruct (Z.to_nat bm) eqn:E1; [lia|]. destruct (Z.to_nat bn) eqn:E2; [lia|].
  simpl. eauto.
Qed.

Lemma ct_build_diverges f : forall nd root,
  1 <= cn_nleaf nd -> 1 <= cn_bm nd -> 1 <= cn_bn nd ->
  (cn_bm nd = 1 /\ cn_nleaf nd < ir_n (cn_rows nd)) \/
  (cn_bn nd = 1 /\ cn_nleaf nd < ir_n (cn_cols nd)) ->
  ct_build f nd root = NoFuel.
Proof.
  induction f as [|f IH]; intros nd root Hl Hbm Hbn Hd; auto.
  rewrite ct_build_S.
  assert (El : is_leaf nd = false).
  { unfold is_leaf. apply orb_false_iff. split.
    - apply andb_false_iff. destruct Hd as [[_ Hd]|[_ Hd]]; [left|right]; apply Z.leb_gt; lia.
    - apply Z.eqb_neq. lia. }
  rewrite El. rewrite orb_true_r.
  destruct (block_positions_cons (cn_bm nd) (cn_bn nd) Hbm Hbn) as [l El'].
  rewrite El'. cbn [mapM].
  rewrite IH; [reflexivity|exact Hl|exact Hbm|exact Hbn|].
  cbn [child_node cn_bm cn_bn cn_nleaf cn_rows cn_cols fst snd].
  rewrite !ir_split_nth by lia.
  destruct Hd as [[E Hd]|[E Hd]]; [left|right]; split; auto; rewrite E;
    replace (Z.of_nat 0) with 0 by reflexivity; rewrite split_child_one; exact Hd.
Qed.

Lemma cluster_tree_terminates_iff rows cols bm bn nleaf :
  1 <= nleaf -> 1 <= bm -> 1 <= bn ->
  ((exists f t, cluster_tree f rows cols bm bn nleaf = Ok t) <->
   (2 <= bm \/ ir_n rows <= nleaf) /\ (2 <= bn \/ ir_n cols <= nleaf)).
Proof.
  intros Hl Hbm Hbn. split.
  - intros [f [t H]].
    destruct (Z_le_gt_dec 2 bm) as [B1|B1]; destruct (Z_le_gt_dec 2 bn) as [B2|B2];
    destruct (Z_le_gt_dec (ir_n rows) nleaf) as [R|R];
    destruct (Z_le_gt_dec (ir_n cols) nleaf) as [C|C]; auto; exfalso;
    unfold cluster_tree in H; rewrite ct_build_diverges in H; try discriminate; simpl; lia.
  - intros [Hr Hc].
    set (M := Z.max 1 (Z.max (ir_n rows) (ir_n cols))).
    exists (S (S (Z.to_nat (Z.log2_up M)))).
    apply cluster_tree_terminates; auto. fold M.
    rewrite Z2Nat.id by (apply Z.log2_up_nonneg).
    destruct (Z.eq_dec M 1) as [E|E].
    + rewrite E. simpl. lia.
    + apply Z.log2_up_spec. lia.
Qed.
