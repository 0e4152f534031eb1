(** Families of sizes for which every split in a cluster tree is regular. *)
From Coq Require Import List Arith ZArith Lia Bool.
From Verif Require Import Prelude IndexRange IndexRangeSpec IndexRangeProofs
  ClusterTree ClusterTreeSpec ClusterTreeProofs.
Import ListNotations.
Local Open Scope Z_scope.

Lemma ct_nodes_inv (P : cnode -> Prop) (root : bool) f : forall nd t,
  ct_build f nd root = Ok t -> P nd ->
  (forall nd i j, P nd -> root || negb (is_leaf nd) = true ->
     (i < Z.to_nat (cn_bm nd))%nat -> (j < Z.to_nat (cn_bn nd))%nat -> P (child_node nd (i, j))) ->
  forall s, In s (ct_nodes t) -> P (ct_node s).
Proof.
  revert root. induction f as [|f IH]; intros root nd t H HP Hstep s Hs; [discriminate|].
  pose proof (ct_build_inv _ _ _ _ H) as [f' [E [Hnd Hc]]]. inversion E; subst f'.
  destruct t as [nd1 cs]; cbn [ct_node ct_children] in Hnd, Hc; subst nd1.
  simpl in Hs. destruct Hs as [<-|Hs]; [exact HP|].
  apply in_flat_map in Hs. destruct Hs as [c [Hc1 Hs]].
  destruct Hc as [[Hb Hc]|[_ Hc]]; [|subst; destruct Hc1].
  apply In_nth_error in Hc1. destruct Hc1 as [n Hn].
  destruct (Forall2_nth_error_r _ _ _ _ _ Hc Hn) as [[i j] [Hij Hbuild]].
  apply nth_error_In in Hij. apply block_positions_In in Hij. destruct Hij as [Hi Hj].
  apply (IH false (child_node nd (i, j)) c Hbuild); auto.
  intros nd' i' j' HP' Hb' Hi' Hj'. apply Hstep; auto. simpl in Hb'. rewrite Hb'. apply orb_true_r.
Qed.

Lemma split_child_two_nonneg r k i :
  0 <= ir_n r -> 1 <= k <= 2 -> 0 <= i < k -> 0 <= ir_n (ir_split_child r k i).
Proof.
  intros Hn Hk Hi. unfold ir_split_child; cbn [ir_n ir_start].
  destruct (ceil_bounds (ir_n r) k Hn ltac:(lia)) as [Hc Hc0].
  assert (k = 1 \/ k = 2) as [E|E] by lia; subst k; destruct (i =? _); lia.
Qed.

Lemma regular_two f rows cols bm bn nleaf t :
  1 <= bm <= 2 -> 1 <= bn <= 2 -> 0 <= ir_n rows -> 0 <= ir_n cols ->
  cluster_tree f rows cols bm bn nleaf = Ok t -> regular t.
Proof.
  intros Hbm Hbn Hr Hc H s Hs.
  pose (P := fun nd => cn_bm nd = bm /\ cn_bn nd = bn /\ 0 <= ir_n (cn_rows nd) /\ 0 <= ir_n (cn_cols nd)).
  assert (HP : P (ct_node s)); [|destruct HP as [_ [_ HP]]; exact HP].
  apply (ct_nodes_inv P true f _ t H); [unfold P; simpl; tauto| |exact Hs].
  intros nd i j [E1 [E2 [H1 H2]]] _ Hi Hj. unfold P; cbn [child_node cn_bm cn_bn cn_nleaf cn_rows cn_cols fst snd].
  rewrite !ir_split_nth by auto. repeat split; auto.
  - apply split_child_two_nonneg; auto; lia.
  - apply split_child_two_nonneg; auto; lia.
Qed.

Lemma split_child_div r k q i :
  1 <= k -> 0 <= q -> ir_n r = q * k -> 0 <= i < k -> ir_n (ir_split_child r k i) = q.
Proof.
  intros Hk Hq E Hi. unfold ir_split_child; cbn [ir_n ir_start]. rewrite E.
  replace (q * k + k - 1) with (k - 1 + q * k) by lia.
  rewrite Z.quot_div_nonneg by nia. rewrite Z.div_add by lia.
  rewrite Z.div_small by lia. destruct (i =? k - 1); lia.
Qed.

Lemma regular_pow f rows cols bm bn nleaf s s' l t :
  1 <= bm -> 1 <= bn -> 0 <= s <= nleaf -> 0 <= s' <= nleaf ->
  ir_n rows = s * bm ^ Z.of_nat (S l) -> ir_n cols = s' * bn ^ Z.of_nat (S l) ->
  cluster_tree f rows cols bm bn nleaf = Ok t -> regular t.
Proof.
  intros Hbm Hbn Hs Hs' Er Ec H u Hu.
  assert (Hstep : forall nd l i j, cn_bm nd = bm -> cn_bn nd = bn ->
     ir_n (cn_rows nd) = s * bm ^ Z.of_nat (S l) -> ir_n (cn_cols nd) = s' * bn ^ Z.of_nat (S l) ->
     (i < Z.to_nat bm)%nat -> (j < Z.to_nat bn)%nat ->
     ir_n (cn_rows (child_node nd (i, j))) = s * bm ^ Z.of_nat l /\
     ir_n (cn_cols (child_node nd (i, j))) = s' * bn ^ Z.of_nat l).
  { intros nd l' i j E1 E2 H1 H2 Hi Hj. cbn [child_node cn_bm cn_bn cn_nleaf cn_rows cn_cols fst snd].
    rewrite E1, E2. rewrite !ir_split_nth by auto.
    rewrite Nat2Z.inj_succ, Z.pow_succ_r in H1, H2 by lia.
    assert (0 < bm ^ Z.of_nat l') by (apply Z.pow_pos_nonneg; lia).
    assert (0 < bn ^ Z.of_nat l') by (apply Z.pow_pos_nonneg; lia).
    split; apply split_child_div; try lia; nia. }
  pose (P := fun nd => cn_bm nd = bm /\ cn_bn nd = bn /\ cn_nleaf nd = nleaf /\
     exists l, ir_n (cn_rows nd) = s * bm ^ Z.of_nat l /\ ir_n (cn_cols nd) = s' * bn ^ Z.of_nat l).
  assert (Hnn : forall nd, P nd -> 0 <= ir_n (cn_rows nd) /\ 0 <= ir_n (cn_cols nd)).
  { intros nd [_ [_ [_ [l' [E1 E2]]]]].
    assert (0 < bm ^ Z.of_nat l') by (apply Z.pow_pos_nonneg; lia).
    assert (0 < bn ^ Z.of_nat l') by (apply Z.pow_pos_nonneg; lia). nia. }
  apply Hnn.
  (* the root is split unconditionally; treat it first *)
  unfold cluster_tree in H. pose proof (ct_build_inv _ _ _ _ H) as [f' [E [Hnd Hc]]]. subst f.
  destruct t as [nd1 cs]; cbn [ct_node ct_children] in Hnd, Hc; subst nd1.
  assert (HPr : P (root_node rows cols bm bn nleaf)) by (unfold P; simpl; repeat split; auto; exists (S l); auto).
  simpl in Hu. destruct Hu as [<-|Hu]; [exact HPr|].
  apply in_flat_map in Hu. destruct Hu as [c [Hc1 Hu]].
  destruct Hc as [[Hb Hc]|[_ Hc]]; [|subst; destruct Hc1].
  apply In_nth_error in Hc1. destruct Hc1 as [n Hn].
  destruct (Forall2_nth_error_r _ _ _ _ _ Hc Hn) as [[i j] [Hij Hbuild]].
  apply nth_error_In in Hij. apply block_positions_In in Hij. destruct Hij as [Hi Hj].
  apply (ct_nodes_inv P false f' _ c Hbuild); [| |exact Hu].
  - repeat split; auto. exists l. apply Hstep; auto.
  - intros nd i' j' [E1 [E2 [E3 [l' [E4 E5]]]]] Hb' Hi' Hj'.
    repeat split; auto.
    destruct l' as [|l'].
    + exfalso. simpl in E4, E5. unfold is_leaf in Hb'.
      replace (ir_n (cn_rows nd) <=? cn_nleaf nd) with true in Hb' by (symmetry; apply Z.leb_le; lia).
      replace (ir_n (cn_cols nd) <=? cn_nleaf nd) with true in Hb' by (symmetry; apply Z.leb_le; lia).
      discriminate.
    + exists l'. rewrite E1 in Hi'. rewrite E2 in Hj'. apply Hstep; auto.
Qed.

(** * Statements about whole trees *)

Lemma ct_nodes_build f : forall nd root t,
  ct_build f nd root = Ok t ->
  forall s, In s (ct_nodes t) ->
  (exists f' root', ct_build f' (ct_node s) root' = Ok s) /\
  cn_bm (ct_node s) = cn_bm nd /\ cn_bn (ct_node s) = cn_bn nd.
Proof.
  induction f as [|f IH]; intros nd root t H s Hs; [discriminate|].
  pose proof (ct_build_inv _ _ _ _ H) as [f' [E [Hnd Hc]]]. inversion E; subst f'.
  destruct t as [nd1 cs]; cbn [ct_node ct_children] in Hnd, Hc; subst nd1.
  simpl in Hs. destruct Hs as [<-|Hs].
  { cbn [ct_node]. eauto. }
  apply in_flat_map in Hs. destruct Hs as [c [Hc1 Hs]].
  destruct Hc as [[Hb Hc]|[_ Hc]]; [|subst; destruct Hc1].
  apply In_nth_error in Hc1. destruct Hc1 as [n Hn].
  destruct (Forall2_nth_error_r _ _ _ _ _ Hc Hn) as [[i j] [Hij Hbuild]].
  destruct (IH _ _ _ Hbuild s Hs) as [HA [HB HC]]. split; auto.
Qed.

Lemma cluster_tree_partition fuel rows cols bm bn nleaf t :
  cluster_tree fuel rows cols bm bn nleaf = Ok t -> regular t ->
  forall x y, leaf_count x y t = if ir_memb x rows && ir_memb y cols then 1%nat else 0%nat.
Proof.
  intros H Hr x y. unfold cluster_tree in H.
  rewrite (leaf_count_partition _ _ _ _ H Hr).
  pose proof (ct_build_inv _ _ _ _ H) as [? [_ [Hnd _]]].
  unfold in_block. rewrite Hnd. cbn [root_node cn_rows cn_cols].
  destruct (_ && _); reflexivity.
Qed.

Fixpoint ctree_ind' (P : ctree -> Prop)
    (H : forall nd cs, Forall P cs -> P (CT nd cs)) (t : ctree) : P t :=
  match t with
  | CT nd cs => H nd cs ((fix go l : Forall P l :=
      match l with [] => Forall_nil P | c :: l' => Forall_cons c (ctree_ind' P H c) (go l') end) cs)
  end.

Lemma regular_sub t s : regular t -> In s (ct_nodes t) -> regular s.
Proof.
  revert s. induction t as [nd cs IH] using ctree_ind'; intros s Hreg Hs.
  simpl in Hs. destruct Hs as [<-|Hs]; [exact Hreg|].
  apply in_flat_map in Hs. destruct Hs as [c [Hc1 Hs]].
  rewrite Forall_forall in IH. apply (IH c Hc1); auto.
  intros u Hu. apply Hreg. simpl. right. apply in_flat_map. eauto.
Qed.

Lemma cluster_tree_subpartition fuel rows cols bm bn nleaf t s :
  cluster_tree fuel rows cols bm bn nleaf = Ok t -> regular t -> In s (ct_nodes t) ->
  forall x y, leaf_count x y s = if in_block x y s then 1%nat else 0%nat.
Proof.
  intros H Hr Hs x y.
  destruct (ct_nodes_build _ _ _ _ H s Hs) as [[f' [root' Hb]] _].
  rewrite (leaf_count_partition _ _ _ _ Hb (regular_sub _ _ Hr Hs)). reflexivity.
Qed.

Lemma cluster_tree_coordinates fuel rows cols bm bn nleaf t s i j :
  cluster_tree fuel rows cols bm bn nleaf = Ok t -> In s (ct_nodes t) -> ct_children s <> [] ->
  0 <= i < bm -> 0 <= j < bn ->
  exists c, ct_at s i j = Ok c /\
    cn_irel (ct_node c) = i /\ cn_jrel (ct_node c) = j /\
    cn_level (ct_node c) = cn_level (ct_node s) + 1 /\
    cn_iabs (ct_node c) = cn_iabs (ct_node s) * bm + i /\
    cn_jabs (ct_node c) = cn_jabs (ct_node s) * bn + j /\
    cn_nleaf (ct_node c) = cn_nleaf (ct_node s) /\
    nth_error (ir_split (cn_rows (ct_node s)) bm) (Z.to_nat i) = Some (cn_rows (ct_node c)) /\
    nth_error (ir_split (cn_cols (ct_node s)) bn) (Z.to_nat j) = Some (cn_cols (ct_node c)).
Proof.
  intros H Hs Hne Hi Hj.
  destruct (ct_nodes_build _ _ _ _ H s Hs) as [[f' [root' Hb]] [Em En]].
  cbn [root_node cn_bm cn_bn] in Em, En.
  destruct (ct_at_spec _ _ _ _ i j Hb Hne) as [c [H1 [H2 [H3 [H4 [H5 [H6 [H7 [H8 [H9 [H10 H11]]]]]]]]]]]; try lia.
  exists c. rewrite Em in *. rewrite En in *. repeat split; auto.
Qed.

Lemma cluster_tree_abs_unique fuel rows cols bm bn nleaf t p q s s' :
  cluster_tree fuel rows cols bm bn nleaf = Ok t ->
  valid_path bm bn p -> valid_path bm bn q ->
  ct_follow t p = Ok s -> ct_follow t q = Ok s' ->
  cn_level (ct_node s) = cn_level (ct_node s') ->
  cn_iabs (ct_node s) = cn_iabs (ct_node s') -> cn_jabs (ct_node s) = cn_jabs (ct_node s') ->
  p = q.
Proof.
  intros H Hp Hq Hs Hs' El Ei Ej. unfold cluster_tree in H.
  destruct (ct_follow_abs p _ _ _ _ _ H Hp Hs) as [_ [_ [L1 _]]].
  destruct (ct_follow_abs q _ _ _ _ _ H Hq Hs') as [_ [_ [L2 _]]].
  eapply (ct_abs_inj _ _ _ _ p q); eauto.
  apply Nat2Z.inj. cbn [root_node cn_level] in *. lia.
Qed.

Lemma cluster_tree_abs_path fuel rows cols bm bn nleaf t p s :
  cluster_tree fuel rows cols bm bn nleaf = Ok t ->
  valid_path bm bn p -> ct_follow t p = Ok s ->
  cn_iabs (ct_node s) = path_row bm p /\ cn_jabs (ct_node s) = path_col bn p /\
  cn_level (ct_node s) = Z.of_nat (length p).
Proof.
  intros H Hp Hs. unfold cluster_tree in H.
  destruct (ct_follow_abs p _ _ _ _ _ H Hp Hs) as [A [B [C _]]].
  cbn [root_node cn_level cn_iabs cn_jabs cn_bm cn_bn] in *. repeat split; auto.
Qed.
