(** Trees in which no block is compressed: the idiom "admis = N / nleaf" of the examples
    (blocked_mgs_h_qr.cpp:26-33 and 51). *)
From Coq Require Import List Arith ZArith QArith Lia Bool.
From Verif Require Import Prelude Ring MatFun Matrix MatOps MatSpec MatOpsProofs IndexRange IndexRangeSpec
  IndexRangeProofs ClusterTree ClusterTreeSpec ClusterTreeProofs ClusterTreeRegular Admissible Triangular TriProofs
  Construct ConstructProofs.
Import ListNotations.
Local Open Scope nat_scope.

Section Nodes.
Variables (r0 c0 s k nleaf : Z) (e : nat).
Hypothesis Hk : (1 <= k)%Z.
Hypothesis Hs : (1 <= s <= nleaf)%Z.

(** A node at depth l of a square tree over s * k^e rows and columns. *)
Definition square_node (l : nat) (nd : cnode) : Prop :=
  let w := (s * k ^ Z.of_nat (e - l))%Z in
  l <= e /\ cn_bm nd = k /\ cn_bn nd = k /\ cn_nleaf nd = nleaf /\
  (0 <= cn_iabs nd < k ^ Z.of_nat l)%Z /\ (0 <= cn_jabs nd < k ^ Z.of_nat l)%Z /\
  cn_rows nd = IR (r0 + cn_iabs nd * w) w /\ cn_cols nd = IR (c0 + cn_jabs nd * w) w.

Lemma equal_part a w q i : (0 <= q)%Z -> w = (q * k)%Z -> i < Z.to_nat k ->
  nth i (ir_split (IR a w) k) (IR 0 0) = IR (a + q * Z.of_nat i) q.
Proof using Hk.
  intros Hq E Hi. rewrite ir_split_nth by auto.
  pose proof (split_child_div (IR a w) k q (Z.of_nat i) ltac:(lia) Hq E ltac:(lia)) as D.
  unfold ir_split_child in *. cbn [ir_n ir_start] in *. rewrite D. f_equal. f_equal.
  rewrite E. replace (q * k + k - 1)%Z with (k - 1 + q * k)%Z by lia.
  rewrite Z.quot_div_nonneg by nia. rewrite Z.div_add by lia. rewrite Z.div_small by lia. lia.
Qed.

Lemma square_child l nd i j : square_node l nd -> l < e -> i < Z.to_nat k -> j < Z.to_nat k ->
  square_node (S l) (child_node nd (i, j)).
Proof using Hk Hs.
  intros [L [E1 [E2 [E3 [B1 [B2 [Er Ec]]]]]]] Hl Hi Hj. unfold square_node. cbn [child_node cn_bm cn_bn cn_nleaf cn_iabs cn_jabs cn_rows cn_cols fst snd].
  assert (W : (s * k ^ Z.of_nat (e - l) = s * k ^ Z.of_nat (e - S l) * k)%Z).
  { replace (e - l) with (S (e - S l)) by lia. rewrite Nat2Z.inj_succ, Z.pow_succ_r by lia. ring. }
  assert (P : (0 <= s * k ^ Z.of_nat (e - S l))%Z) by (pose proof (Z.pow_nonneg k (Z.of_nat (e - S l)) ltac:(lia)); nia).
  split; [lia|]. split; auto. split; auto. split; auto. rewrite E1, E2, Er, Ec.
  rewrite Nat2Z.inj_succ, Z.pow_succ_r by lia. split; [nia|]. split; [nia|].
  rewrite !(equal_part _ _ _ _ P W) by auto. rewrite W. split; f_equal; ring.
Qed.

Lemma square_leaf l nd : square_node l nd -> is_leaf nd = false -> l < e.
Proof using Hs.
  intros [L [_ [_ [E3 [_ [_ [Er Ec]]]]]]] H. destruct (Nat.eq_dec l e) as [->|N]; [|lia]. exfalso.
  unfold is_leaf in H. rewrite Er, Ec, E3 in H. cbn [ir_n] in H. rewrite Nat.sub_diag in H. change (k ^ Z.of_nat 0)%Z with 1%Z in H.
  apply orb_false_iff in H. destruct H as [H _]. apply andb_false_iff in H. destruct H as [H|H]; apply Z.leb_gt in H; lia.
Qed.

Lemma square_below f : forall l nd t, square_node l nd -> ct_build f nd false = Ok t ->
  forall x, In x (ct_nodes t) -> exists l', l <= l' /\ square_node l' (ct_node x).
Proof using Hk Hs.
  induction f as [|f IH]; intros l nd t Hq H x Hx; [discriminate|].
  destruct (ct_build_inv _ _ _ _ H) as [f' [Ef [E HC]]]. inversion Ef; subst f'.
  destruct t as [nd' cs]. simpl in E. subst nd'. simpl in Hx. destruct Hx as [<-|Hx]; [exists l; auto|].
  apply in_flat_map in Hx. destruct Hx as [c [Hc Hx]]. simpl in HC.
  destruct HC as [[HL HF]|[_ HF]]; [|subst; destruct Hc].
  destruct (In_nth_error _ _ Hc) as [m Hm]. destruct (Forall2_nth_error_r _ _ _ _ _ HF Hm) as [[i j] [Hp Hb]].
  apply nth_error_In in Hp. apply block_positions_In in Hp. destruct Hp as [Hi Hj].
  pose proof Hq as [_ [E1 [E2 _]]]. rewrite E1 in Hi. rewrite E2 in Hj.
  assert (L : l < e) by (apply (square_leaf l nd Hq); cbn [orb] in HL; destruct (is_leaf nd); [discriminate|reflexivity]).
  destruct (IH (S l) _ c (square_child l nd i j Hq L Hi Hj) Hb x Hx) as [l' [L' Q]]. exists l'. split; [lia|exact Q].
Qed.

Lemma square_tree f t : 1 <= e ->
  cluster_tree f (IR r0 (s * k ^ Z.of_nat e)) (IR c0 (s * k ^ Z.of_nat e)) k k nleaf = Ok t ->
  forall x, In x (ct_nodes t) -> x = t \/ exists l, 1 <= l /\ square_node l (ct_node x).
Proof using Hk Hs.
  intros He H x Hx.
  set (nd := root_node (IR r0 (s * k ^ Z.of_nat e)) (IR c0 (s * k ^ Z.of_nat e)) k k nleaf) in *.
  assert (Q0 : square_node 0 nd).
  { unfold square_node, nd. cbn [root_node cn_bm cn_bn cn_nleaf cn_iabs cn_jabs cn_rows cn_cols]. rewrite Nat.sub_0_r.
    change (k ^ Z.of_nat 0)%Z with 1%Z. split; [lia|]. split; auto. split; auto. split; auto. split; [lia|]. split; [lia|]. split; f_equal; lia. }
  unfold cluster_tree in H. fold nd in H. destruct (ct_build_inv _ _ _ _ H) as [f' [Ef [E HC]]].
  destruct t as [nd' cs]. simpl in E. rewrite E in *. simpl in Hx. destruct Hx as [<-|Hx]; [auto|]. right.
  apply in_flat_map in Hx. destruct Hx as [c [Hc Hx]]. simpl in HC.
  destruct HC as [[_ HF]|[_ HF]]; [|subst cs; destruct Hc].
  destruct (In_nth_error _ _ Hc) as [m Hm]. destruct (Forall2_nth_error_r _ _ _ _ _ HF Hm) as [[i j] [Hp Hb]].
  apply nth_error_In in Hp. apply block_positions_In in Hp. destruct Hp as [Hi Hj].
  apply (square_below f' 1 _ c (square_child 0 nd i j Q0 ltac:(lia) Hi Hj) Hb x Hx).
Qed.
End Nodes.

(** Construction needs the compression at admissible nodes only. *)
Lemma hier_total_dense {R : cring} (ini : initializer R) f : forall nd root t, ct_build f nd root = Ok t -> regular t ->
  (forall c x, In c (ct_children t) -> In x (ct_nodes c) -> in_adm ini (ct_node x) = Ok false /\
     exists D, in_fill ini (cn_rows (ct_node x)) (cn_cols (ct_node x)) = Ok D) ->
  exists M, hier ini t = Ok M.
Proof.
  induction f as [|f IH]; intros nd root t Hb Hreg HA; [discriminate|].
  destruct (ct_build_inv _ _ _ _ Hb) as [f' [Ef [End HC]]]. inversion Ef; subst f'; clear Ef.
  destruct t as [nd' cs]. simpl in End. subst nd'. simpl in HC. cbn [ct_children] in HA. rewrite hier_go.
  destruct HC as [[_ HF]|[_ ->]]; [|simpl; eauto].
  destruct (go_total ini (hier ini) (cn_bm nd) (cn_bn nd) cs (fun _ _ => ME 0 0)) as [b ->]; [| |simpl; eauto].
  - intros c Hc. unfold hblock.
    assert (Rc : regular c) by exact (regular_child nd cs c Hreg Hc).
    destruct (HA c c Hc (in_block_nodes_self c)) as [Ea [D ED]]. rewrite Ea. cbn [bind].
    assert (GD : get_dense ini (ct_node c) = Ok D).
    { unfold get_dense. destruct (Rc c (in_block_nodes_self c)) as [N1 N2].
      replace ((0 <=? ir_n (cn_rows (ct_node c))) && (0 <=? ir_n (cn_cols (ct_node c))))%Z with true; auto.
      symmetry; rewrite andb_true_iff; lia. }
    destruct (is_leaf (ct_node c)); [rewrite GD; cbn [bind]; eauto|].
    destruct (In_nth_error _ _ Hc) as [m Hm]. destruct (Forall2_nth_error_r _ _ _ _ _ HF Hm) as [ij [_ Hbc]].
    apply (IH _ _ _ Hbc Rc). intros c' x Hc' Hx. apply (HA c x Hc).
    destruct c as [ndc csc]. simpl in *. right. apply in_flat_map. eauto.
  - intros c Hc. destruct (In_nth_error _ _ Hc) as [m Hm].
    destruct (Forall2_nth_error_r _ _ _ _ _ HF Hm) as [[i j] [Hp Hbc]]. apply nth_error_In in Hp.
    apply block_positions_In in Hp. destruct (ct_build_inv _ _ _ _ Hbc) as [_ [_ [E _]]]. rewrite E. simpl. lia.
Qed.

(** Nodes below a child of the root are not the root. *)
Lemma below_not_root f nd root t c x : ct_build f nd root = Ok t -> In c (ct_children t) -> In x (ct_nodes c) -> x <> t.
Proof.
  intros H Hc Hx E. subst x.
  assert (L : forall f nd root t s, ct_build f nd root = Ok t -> In s (ct_nodes t) ->
      (cn_level nd <= cn_level (ct_node s))%Z).
  { clear. induction f as [|f IH]; intros nd root t s H Hs; [discriminate|].
    destruct (ct_build_inv _ _ _ _ H) as [f' [Ef [E HC]]]. inversion Ef; subst f'.
    destruct t as [nd' cs]. simpl in E. subst nd'. simpl in Hs. destruct Hs as [<-|Hs]; [simpl; lia|].
    apply in_flat_map in Hs. destruct Hs as [c [Hc Hs]]. simpl in HC.
    destruct HC as [[_ HF]|[_ HF]]; [|subst; destruct Hc].
    destruct (In_nth_error _ _ Hc) as [k Hk]. destruct (Forall2_nth_error_r _ _ _ _ _ HF Hk) as [ij [_ Hb]].
    specialize (IH _ _ _ _ Hb Hs). simpl in IH. lia. }
  destruct (ct_build_inv _ _ _ _ H) as [f' [_ [E HC]]]. destruct t as [nd' cs]. simpl in E, Hc, HC. subst nd'.
  destruct HC as [[_ HF]|[_ HF]]; [|subst; destruct Hc].
  destruct (In_nth_error _ _ Hc) as [k Hk]. destruct (Forall2_nth_error_r _ _ _ _ _ HF Hk) as [ij [_ Hb']].
  specialize (L _ _ _ _ _ Hb' Hx). simpl in L. lia.
Qed.

(** Nearness: |i-j| of a node at depth l of a k-ary tree is at most k^l - 1. *)
Lemma position_near admis r0 c0 s k nleaf e l nd params : (1 <= k)%Z -> square_node r0 c0 s k nleaf e l nd ->
  (k ^ Z.of_nat e - 1 <= Qtrunc admis)%Z -> is_admissible PositionBased params admis nd = Ok false.
Proof.
  intros Hk [L [_ [_ [_ [B1 [B2 _]]]]]] Ha. unfold is_admissible, position_admissible, dist_to_diag.
  assert (P : (k ^ Z.of_nat l <= k ^ Z.of_nat e)%Z) by (apply Z.pow_le_mono_r; lia).
  replace (Z.abs (cn_iabs nd - cn_jabs nd) >? Qtrunc admis)%Z with false.
  - rewrite andb_false_r. reflexivity.
  - symmetry. rewrite Z.gtb_ltb. apply Z.ltb_ge. lia.
Qed.
