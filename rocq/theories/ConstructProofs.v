(** What the constructed matrices represent. *)
From Coq Require Import List Arith ZArith Lia Bool.
From Verif Require Import Prelude Ring MatFun Matrix MatOps MatSpec MatOpsProofs IndexRange IndexRangeSpec
  IndexRangeProofs ClusterTree ClusterTreeSpec ClusterTreeProofs Triangular TriProofs Construct.
Import ListNotations.
Local Open Scope nat_scope.

Section ConstructProofs.
Context {R : cring}.
Notation dense := (dense R).
Notation lowrank := (lowrank R).
Notation matrix := (matrix R).
Variable ini : initializer R.

(** The nodes at which a block of the matrix is stored: the first admissible node or
    leaf on the way down. *)
Inductive kept : ctree -> ctree -> Prop :=
| kept_here c : (in_adm ini (ct_node c) = Ok true \/ is_leaf (ct_node c) = true) -> kept c c
| kept_below c k s : in_adm ini (ct_node c) = Ok false -> is_leaf (ct_node c) = false ->
    In k (ct_children c) -> kept k s -> kept c s.
Definition storage (t s : ctree) : Prop := exists k, In k (ct_children t) /\ kept k s.

(** Position of an absolute index in a range. *)
Definition pos (r : irange) (x : Z) : nat := Z.to_nat (x - ir_start r).

(** [v] is what the block of [s] holds at the matrix position (x,y). *)
Definition block_value (s : ctree) (x y : Z) (v : R) : Prop :=
  let nd := ct_node s in
  exists D, in_fill ini (cn_rows nd) (cn_cols nd) = Ok D /\
    ((in_adm ini nd = Ok true /\ exists l, in_comp ini D = Ok l /\
        v = lr_ent l (pos (cn_rows nd) x) (pos (cn_cols nd) y)) \/
     (in_adm ini nd = Ok false /\ is_leaf nd = true /\ v = d_e D (pos (cn_rows nd) x) (pos (cn_cols nd) y))).

(** The initializer makes blocks of the size asked for. *)
Definition shapely : Prop :=
  (forall r c D, in_fill ini r c = Ok D -> d_r D = Z.to_nat (ir_n r) /\ d_c D = Z.to_nat (ir_n c)) /\
  (forall D l, in_comp ini D = Ok l -> lr_wf l /\ l_r l = d_r D /\ l_c l = d_c D).

(** * The loop over the children *)
Section Loop.
Variable rec : ctree -> outcome matrix.
Variables bm bn : Z.
Fixpoint go (cs : list ctree) (b : nat -> nat -> matrix) : outcome (nat -> nat -> matrix) :=
  match cs with
  | [] => Ok b
  | c :: cs' =>
      let i := cn_irel (ct_node c) in
      let j := cn_jrel (ct_node c) in
      let* x := hblock ini rec c in
      assert! ((0 <=? i) && (i <? bm) && (0 <=? j) && (j <? bn))%Z in
      go cs' (bupd b (Z.to_nat i) (Z.to_nat j) x)
  end.

Lemma go_spec ps : forall cs b b', NoDup ps ->
  Forall2 (fun ij c => cn_irel (ct_node c) = Z.of_nat (fst ij) /\ cn_jrel (ct_node c) = Z.of_nat (snd ij)) ps cs ->
  go cs b = Ok b' ->
  (forall i j, ~ In (i, j) ps -> b' i j = b i j) /\
  Forall2 (fun ij c => hblock ini rec c = Ok (b' (fst ij) (snd ij))) ps cs.
Proof.
  induction ps as [|[i j] ps IH]; intros cs b b' ND HF H; inversion HF; subst; clear HF; simpl in H.
  - inversion H; subst. split; auto.
  - rename y into c. rename l' into cs'. destruct H2 as [E1 E2]. simpl in E1, E2.
    apply bind_Ok in H. destruct H as [x [Hx H]]. apply assert_Ok in H. destruct H as [_ H].
    rewrite E1, E2, !Nat2Z.id in H. apply NoDup_cons_iff in ND. destruct ND as [Hni ND].
    destruct (IH _ _ _ ND H4 H) as [G1 G2]. split.
    + intros i' j' Hn. rewrite G1 by (intros Hc; apply Hn; right; auto).
      unfold bupd. destruct ((i' =? i) && (j' =? j)) eqn:E; auto.
      apply andb_prop in E. destruct E as [Ea Eb]. apply Nat.eqb_eq in Ea, Eb. subst.
      exfalso. apply Hn. left; auto.
    + constructor; auto. simpl. rewrite G1 by auto. unfold bupd. rewrite !Nat.eqb_refl. exact Hx.
Qed.
End Loop.

Lemma hier_go nd cs : hier ini (CT nd cs) =
  let* b := go (hier ini) (cn_bm nd) (cn_bn nd) cs (fun _ _ => ME 0 0) in
  Ok (MH (Z.to_nat (cn_bm nd)) (Z.to_nat (cn_bn nd)) b).
Proof. reflexivity. Qed.

Lemma positions_nodup bm bn : NoDup (block_positions bm bn).
Proof.
  pose proof (ij_loop_nodup (Z.to_nat bm) (fun _ => 0) (fun _ => Z.to_nat bn)) as H.
  unfold ij_loop in H. cbv beta in H. rewrite Nat.sub_0_r in H. exact H.
Qed.

(** * Offsets of the blocks *)
Definition part (r : irange) (k : Z) (i : nat) : irange := nth i (ir_split r k) (IR 0 0).
Definition len (r : irange) : nat := Z.to_nat (ir_n r).

Lemma part_offs r k : (forall i, i < Z.to_nat k -> (0 <= ir_n (part r k i))%Z) ->
  (forall i, i < Z.to_nat k -> Z.of_nat (offs (fun i => len (part r k i)) i) = (ir_start (part r k i) - ir_start r)%Z) /\
  ((1 <= k)%Z -> Z.of_nat (offs (fun i => len (part r k i)) (Z.to_nat k)) = ir_n r)%Z.
Proof.
  intros Hn.
  assert (A : forall i, i < Z.to_nat k ->
    Z.of_nat (offs (fun i => len (part r k i)) i) = (Z.quot (ir_n r + k - 1) k * Z.of_nat i)%Z).
  { induction i as [|i IH]; intros Hi; [simpl; lia|].
    change (offs (fun i => len (part r k i)) (S i)) with (offs (fun i => len (part r k i)) i + len (part r k i)).
    rewrite Nat2Z.inj_add, IH by lia. unfold len. rewrite Z2Nat.id by (apply Hn; lia).
    unfold part. rewrite ir_split_sizes by lia.
    replace (i =? Z.to_nat k - 1) with false by (symmetry; apply Nat.eqb_neq; lia). lia. }
  split.
  - intros i Hi. rewrite A by auto. unfold part. rewrite ir_split_nth by auto. unfold ir_split_child. simpl. lia.
  - intros Hk. replace (Z.to_nat k) with (S (Z.to_nat k - 1)) by lia.
    change (offs (fun i => len (part r k i)) (S (Z.to_nat k - 1))) with
      (offs (fun i => len (part r k i)) (Z.to_nat k - 1) + len (part r k (Z.to_nat k - 1))).
    rewrite Nat2Z.inj_add, A by lia. unfold len. rewrite Z2Nat.id by (apply Hn; lia).
    unfold part. rewrite ir_split_sizes by lia. rewrite Nat.eqb_refl.
    replace (Z.of_nat (Z.to_nat k - 1)) with (k - 1)%Z by lia. lia.
Qed.

Lemma part_find r k x : (1 <= k)%Z -> (forall i, i < Z.to_nat k -> (0 <= ir_n (part r k i))%Z) ->
  ir_memb x r = true -> exists i, i < Z.to_nat k /\ ir_memb x (part r k i) = true.
Proof.
  intros Hk Hn Hx.
  assert (NN : all_nonneg (ir_split r k)).
  { unfold all_nonneg. rewrite Forall_forall. intros p Hp. apply (In_nth _ _ (IR 0 0)) in Hp.
    destruct Hp as [i [Hi E]]. rewrite ir_split_length in Hi. rewrite <- E. apply (Hn i Hi). }
  pose proof (ir_split_tiles r k Hk NN x) as T. rewrite Hx in T.
  destruct (filter (ir_memb x) (ir_split r k)) as [|p l] eqn:E; [discriminate|].
  assert (Hp : In p (filter (ir_memb x) (ir_split r k))) by (rewrite E; left; auto).
  apply filter_In in Hp. destruct Hp as [Hp Hm]. apply (In_nth _ _ (IR 0 0)) in Hp.
  destruct Hp as [i [Hi Ei]]. rewrite ir_split_length in Hi. exists i. split; auto. unfold part. now rewrite Ei.
Qed.

Lemma part_sub r k i x : (1 <= k)%Z -> (forall i, i < Z.to_nat k -> (0 <= ir_n (part r k i))%Z) -> i < Z.to_nat k ->
  ir_memb x (part r k i) = true -> ir_memb x r = true.
Proof.
  intros Hk Hn Hi Hx. destruct (part_offs r k Hn) as [A B]. specialize (B Hk).
  apply ir_memb_spec in Hx. apply ir_memb_spec. unfold ir_mem in *.
  assert (LT : offs (fun i => len (part r k i)) i + len (part r k i) <= offs (fun i => len (part r k i)) (Z.to_nat k)).
  { change (offs (fun i => len (part r k i)) (S i) <= offs (fun i => len (part r k i)) (Z.to_nat k)).
    apply offs_mono. lia. }
  pose proof (A i Hi) as Ai. pose proof (Hn i Hi). unfold len in LT at 2. lia.
Qed.

(** * The children of a built node *)
Lemma child_of f nd root t : ct_build f nd root = Ok t -> root || negb (is_leaf nd) = true ->
  forall ij c, In (ij, c) (combine (block_positions (cn_bm nd) (cn_bn nd)) (ct_children t)) ->
  exists f', ct_build f' (child_node nd ij) false = Ok c.
Proof.
  intros H Hr. destruct (ct_build_inv f nd root t H) as [f' [_ [_ [[_ HF]|[E _]]]]]; [|congruence].
  intros ij c Hin. exists f'. revert Hin.
  induction HF as [|ij' c' l1 l2 H1 H2 IH]; intros Hin; [destruct Hin|].
  destruct Hin as [Hin|Hin]; [inversion Hin; subst; auto|auto].
Qed.

Definition good_block (c : ctree) (M : matrix) : Prop :=
  wf M /\ nrows M = len (cn_rows (ct_node c)) /\ ncols M = len (cn_cols (ct_node c)) /\
  (forall s x y, kept c s -> in_block x y s = true -> in_block x y c = true /\
     block_value s x y (ent M (pos (cn_rows (ct_node c)) x) (pos (cn_cols (ct_node c)) y))) /\
  (forall x y, in_block x y c = true -> exists s, kept c s /\ in_block x y s = true).

Definition good_tree (t : ctree) (M : matrix) : Prop :=
  wf M /\ nrows M = len (cn_rows (ct_node t)) /\ ncols M = len (cn_cols (ct_node t)) /\
  (forall s x y, storage t s -> in_block x y s = true -> in_block x y t = true /\
     block_value s x y (ent M (pos (cn_rows (ct_node t)) x) (pos (cn_cols (ct_node t)) y))) /\
  (forall x y, in_block x y t = true -> exists s, storage t s /\ in_block x y s = true).

Lemma Forall2_both {A B} (P Q : A -> B -> Prop) l1 l2 :
  Forall2 P l1 l2 -> Forall2 Q l1 l2 -> Forall2 (fun a b => P a b /\ Q a b) l1 l2.
Proof. intros H1. induction H1; intros H2; inversion H2; subst; constructor; auto. Qed.

Lemma hier_good (SH : shapely) f : forall nd root t M, ct_build f nd root = Ok t -> root || negb (is_leaf nd) = true ->
  (1 <= cn_bm nd)%Z -> (1 <= cn_bn nd)%Z -> regular t -> hier ini t = Ok M -> good_tree t M.
Proof.
  induction f as [|f IH]; intros nd root t M Hb Hr Hbm Hbn Hreg H; [discriminate|].
  destruct (ct_build_inv _ _ _ _ Hb) as [f' [Ef [End [[_ HF]|[E _]]]]]; [|congruence].
  inversion Ef; subst f'; clear Ef.
  destruct t as [nd' cs]. simpl in End. subst nd'. simpl in HF. rewrite hier_go in H.
  apply bind_Ok in H. destruct H as [b [Hg H]]. inversion H; subst M; clear H.
  set (bm := Z.to_nat (cn_bm nd)) in *. set (bn := Z.to_nat (cn_bn nd)) in *.
  assert (HP : Forall2 (fun ij c => cn_irel (ct_node c) = Z.of_nat (fst ij) /\ cn_jrel (ct_node c) = Z.of_nat (snd ij))
     (block_positions (cn_bm nd) (cn_bn nd)) cs).
  { eapply Forall2_imp; [|exact HF]. intros [i j] c Hc. cbv beta in Hc.
    destruct (ct_build_inv _ _ _ _ Hc) as [_ [_ [Ec _]]]. rewrite Ec. auto. }
  destruct (go_spec _ _ _ _ _ _ _ (positions_nodup _ _) HP Hg) as [_ HG].
  pose proof (Forall2_both _ _ _ _ HF HG) as HB.
  (* every block *)
  assert (CH0 : forall i j c, i < bm -> j < bn -> In c cs -> ct_build f (child_node nd (i, j)) false = Ok c ->
     hblock ini (hier ini) c = Ok (b i j) -> ct_node c = child_node nd (i, j) /\ good_block c (b i j)).
  { intros i j c Hi Hj Hin H1 H2.
    destruct (ct_build_inv _ _ _ _ H1) as [fc [_ [Ec _]]]. split; auto.
    assert (Rc : regular c) by (eapply regular_child; eauto).
    assert (Nc : (0 <= ir_n (cn_rows (ct_node c)))%Z /\ (0 <= ir_n (cn_cols (ct_node c)))%Z).
    { apply Rc. apply in_block_nodes_self. }
    unfold hblock in H2. apply bind_Ok in H2. destruct H2 as [a [Ha H2]].
    assert (GD : forall d, get_dense ini (ct_node c) = Ok d ->
       in_fill ini (cn_rows (ct_node c)) (cn_cols (ct_node c)) = Ok d).
    { intros d. unfold get_dense. destruct ((0 <=? _)%Z && (0 <=? _)%Z); [auto|discriminate]. }
    destruct a.
    - apply bind_Ok in H2. destruct H2 as [l [Hl H2]]. inversion H2; subst. clear H2.
      unfold get_compressed in Hl. apply bind_Ok in Hl. destruct Hl as [d [Hd Hl]]. apply GD in Hd.
      destruct SH as [S1 S2]. destruct (S1 _ _ _ Hd) as [E1 E2]. destruct (S2 _ _ Hl) as [W [E3 E4]].
      unfold good_block. cbn [wf nrows ncols ent]. split; auto.
      split; [rewrite E3, E1; reflexivity|]. split; [rewrite E4, E2; reflexivity|]. split.
      + intros s x y Hk Hx. inversion Hk; subst; [|congruence]. split; auto.
        exists d. split; auto. left. split; auto. exists l. auto.
      + intros x y Hx. exists c. split; auto. apply kept_here. auto.
    - destruct (is_leaf (ct_node c)) eqn:El.
      + apply bind_Ok in H2. destruct H2 as [d [Hd H2]]. inversion H2; subst. clear H2. apply GD in Hd.
        destruct SH as [S1 S2]. destruct (S1 _ _ _ Hd) as [E1 E2].
        unfold good_block. cbn [wf nrows ncols ent]. split; auto. split; auto. split; auto. split.
        * intros s x y Hk Hx. inversion Hk; subst; [|congruence]. split; auto.
          exists d. split; auto.
        * intros x y Hx. exists c. split; auto. apply kept_here. auto.
      + assert (GT : good_tree c (b i j)).
        { apply (IH (child_node nd (i, j)) false); auto. rewrite <- Ec, El. reflexivity. }
        destruct GT as [W [D1 [D2 [G1 G2]]]].
        split; auto. split; auto. split; auto. split.
        * intros s x y Hk Hx. apply G1; auto. inversion Hk; subst.
          -- destruct H as [H|H]; congruence.
          -- exists k. auto.
        * intros x y Hx. destruct (G2 x y Hx) as [s [[k [Hk1 Hk2]] Hs]]. exists s. split; auto.
          eapply kept_below; eauto. }
  assert (CH : forall i j, i < bm -> j < bn -> exists c, In c cs /\ ct_node c = child_node nd (i, j) /\
     good_block c (b i j)).
  { intros i j Hi Hj.
    destruct (Forall2_nth_error _ _ _ _ _ HB (block_positions_nth _ _ i j Hi Hj)) as [c [Hc [H1 H2]]].
    assert (Hin : In c cs) by (eapply nth_error_In; eauto).
    destruct (CH0 i j c Hi Hj Hin H1 H2) as [Ec GB]. eauto. }
  assert (P1 : 0 < bm) by (subst bm; lia). assert (P2 : 0 < bn) by (subst bn; lia).
  (* regularity of the two splits *)
  assert (NR : forall i, i < bm -> (0 <= ir_n (part (cn_rows nd) (cn_bm nd) i))%Z).
  { intros i Hi. destruct (CH i 0 Hi P2) as [c [Hin [Ec _]]].
    destruct (Hreg c) as [N1 _]; [simpl; right; apply in_flat_map; exists c; split; auto; apply in_block_nodes_self|].
    rewrite Ec in N1. exact N1. }
  assert (NC : forall j, j < bn -> (0 <= ir_n (part (cn_cols nd) (cn_bn nd) j))%Z).
  { intros j Hj. destruct (CH 0 j P1 Hj) as [c [Hin [Ec _]]].
    destruct (Hreg c) as [_ N1]; [simpl; right; apply in_flat_map; exists c; split; auto; apply in_block_nodes_self|].
    rewrite Ec in N1. exact N1. }
  assert (DB : forall i j, i < bm -> j < bn -> wf (b i j) /\
     nrows (b i j) = len (part (cn_rows nd) (cn_bm nd) i) /\ ncols (b i j) = len (part (cn_cols nd) (cn_bn nd) j)).
  { intros i j Hi Hj. destruct (CH i j Hi Hj) as [c [_ [Ec [W [D1 [D2 _]]]]]]. rewrite Ec in D1, D2.
    split; auto. }
  assert (WM : wf (MH bm bn b)).
  { simpl. split; auto. split; auto. intros i j Hi Hj.
    destruct (DB i j Hi Hj) as [W [-> ->]]. destruct (DB i 0 Hi P2) as [_ [-> _]].
    destruct (DB 0 j P1 Hj) as [_ [_ ->]]. auto. }
  assert (OH : forall i, i <= bm -> offs (bheight b) i = offs (fun i => len (part (cn_rows nd) (cn_bm nd) i)) i).
  { intros i Hi. apply offs_ext. intros k Hk. unfold bheight. apply DB; lia. }
  assert (OW : forall j, j <= bn -> offs (bwidth b) j = offs (fun j => len (part (cn_cols nd) (cn_bn nd) j)) j).
  { intros j Hj. apply offs_ext. intros k Hk. unfold bwidth. apply DB; lia. }
  destruct (part_offs (cn_rows nd) (cn_bm nd) NR) as [AR BR].
  destruct (part_offs (cn_cols nd) (cn_bn nd) NC) as [AC BC].
  specialize (BR Hbm). specialize (BC Hbn).
  (* entries of a child *)
  assert (EE : forall i j x y, i < bm -> j < bn -> ir_memb x (part (cn_rows nd) (cn_bm nd) i) = true ->
     ir_memb y (part (cn_cols nd) (cn_bn nd) j) = true ->
     ent (MH bm bn b) (pos (cn_rows nd) x) (pos (cn_cols nd) y) =
     ent (b i j) (pos (part (cn_rows nd) (cn_bm nd) i) x) (pos (part (cn_cols nd) (cn_bn nd) j) y)).
  { intros i j x y Hi Hj Hx Hy. apply ir_memb_spec in Hx, Hy. unfold ir_mem in *.
    assert (Ex : pos (cn_rows nd) x = offs (bheight b) i + pos (part (cn_rows nd) (cn_bm nd) i) x).
    { rewrite OH by lia. unfold pos. pose proof (AR i Hi). lia. }
    assert (Ey : pos (cn_cols nd) y = offs (bwidth b) j + pos (part (cn_cols nd) (cn_bn nd) j) y).
    { rewrite OW by lia. unfold pos. pose proof (AC j Hj). lia. }
    rewrite Ex, Ey. apply ent_block; auto.
    - unfold bheight. destruct (DB i 0 Hi P2) as [_ [-> _]]. unfold len, pos. lia.
    - unfold bwidth. destruct (DB 0 j P1 Hj) as [_ [_ ->]]. unfold len, pos. lia. }
  split; auto. split; [|split; [|split]].
  - rewrite nrows_MH, OH by lia. cbn [ct_node]. unfold len at 2. rewrite <- BR. rewrite Nat2Z.id. reflexivity.
  - rewrite ncols_MH, OW by lia. cbn [ct_node]. unfold len at 2. rewrite <- BC. rewrite Nat2Z.id. reflexivity.
  - intros s x y [k [Hin Hk]] Hx. simpl in Hin.
    destruct (In_nth_error _ _ Hin) as [n Hn].
    destruct (Forall2_nth_error_r _ _ _ _ _ HB Hn) as [[i j] [Hp [H1 H2]]].
    apply nth_error_In in Hp. apply block_positions_In in Hp. destruct Hp as [Hi Hj].
    destruct (CH0 i j k Hi Hj Hin H1 H2) as [Ek [_ [_ [_ [G _]]]]].
    destruct (G s x y Hk Hx) as [Ib BV]. unfold in_block in Ib |- *. rewrite Ek in Ib, BV.
    apply andb_prop in Ib. destruct Ib as [I1 I2]. cbn [ct_node].
    change (cn_rows (child_node nd (i, j))) with (part (cn_rows nd) (cn_bm nd) i) in *.
    change (cn_cols (child_node nd (i, j))) with (part (cn_cols nd) (cn_bn nd) j) in *.
    rewrite (part_sub _ _ i x Hbm NR Hi I1), (part_sub _ _ j y Hbn NC Hj I2). split; auto.
    rewrite (EE i j x y Hi Hj I1 I2). exact BV.
  - intros x y Hx. unfold in_block in Hx. cbn [ct_node] in Hx. apply andb_prop in Hx. destruct Hx as [Hx Hy].
    destruct (part_find _ _ x Hbm NR Hx) as [i [Hi Ix]]. destruct (part_find _ _ y Hbn NC Hy) as [j [Hj Iy]].
    destruct (CH i j Hi Hj) as [c [Hc [Ec [_ [_ [_ [_ G]]]]]]].
    destruct (G x y) as [s [Hk Hs]].
    { unfold in_block. rewrite Ec. change (cn_rows (child_node nd (i, j))) with (part (cn_rows nd) (cn_bm nd) i).
      change (cn_cols (child_node nd (i, j))) with (part (cn_cols nd) (cn_bn nd) j). rewrite Ix, Iy. reflexivity. }
    exists s. split; auto. exists c. auto.
Qed.

(** * The whole construction *)
Lemma hierarchical_inv fuel rows cols bm bn nleaf M : hierarchical ini fuel rows cols bm bn nleaf = Ok M ->
  exists t, cluster_tree fuel rows cols bm bn nleaf = Ok t /\ hier ini t = Ok M.
Proof. unfold hierarchical. intros H. apply bind_Ok in H. exact H. Qed.

Lemma root_ok fuel rows cols bm bn nleaf t : cluster_tree fuel rows cols bm bn nleaf = Ok t ->
  ct_node t = root_node rows cols bm bn nleaf.
Proof. intros H. destruct (ct_build_inv _ _ _ _ H) as [_ [_ [E _]]]. exact E. Qed.

Lemma hierarchical_good (SH : shapely) fuel rows cols bm bn nleaf t M :
  (1 <= bm)%Z -> (1 <= bn)%Z -> cluster_tree fuel rows cols bm bn nleaf = Ok t -> regular t ->
  hierarchical ini fuel rows cols bm bn nleaf = Ok M ->
  wf M /\ nrows M = len rows /\ ncols M = len cols /\
  (forall x y, ir_mem x rows -> ir_mem y cols -> exists s, storage t s /\ in_block x y s = true) /\
  (forall x y s, storage t s -> in_block x y s = true ->
     ir_mem x rows /\ ir_mem y cols /\ block_value s x y (ent M (pos rows x) (pos cols y))).
Proof.
  intros Hm Hn Ht Hr H. destruct (hierarchical_inv _ _ _ _ _ _ _ H) as [t' [Ht' HM]].
  rewrite Ht in Ht'. inversion Ht'; subst t'. pose proof (root_ok _ _ _ _ _ _ _ Ht) as E.
  destruct (hier_good SH fuel _ true t M Ht eq_refl Hm Hn Hr HM) as [W [D1 [D2 [G1 G2]]]].
  rewrite E in *. cbn [root_node cn_rows cn_cols] in *.
  split; auto. split; auto. split; auto. unfold in_block in *. split.
  - intros x y Hx Hy. apply G2. rewrite E. cbn [root_node cn_rows cn_cols].
    apply ir_memb_spec in Hx, Hy. now rewrite Hx, Hy.
  - intros x y s Hs Hx. destruct (G1 s x y Hs Hx) as [I BV]. rewrite E in I. cbn [root_node cn_rows cn_cols] in I.
    apply andb_prop in I. destruct I as [I1 I2]. apply ir_memb_spec in I1, I2. auto.
Qed.

Lemma kept_is_end c s : kept c s -> in_adm ini (ct_node s) = Ok true \/ is_leaf (ct_node s) = true.
Proof. induction 1; auto. Qed.

Lemma kept_in_nodes c s : kept c s -> In s (ct_nodes c).
Proof.
  induction 1 as [c H|c k s H1 H2 H3 H4 IH].
  - apply in_block_nodes_self.
  - destruct c as [nd cs]. simpl in *. right. apply in_flat_map. eauto.
Qed.

Lemma storage_in_nodes t s : storage t s -> In s (ct_nodes t).
Proof.
  intros [k [H1 H2]]. destruct t as [nd cs]. simpl in *. right. apply in_flat_map. exists k. split; auto.
  apply kept_in_nodes; auto.
Qed.

(** Every node carries the leaf size it was asked for. *)
Lemma nodes_nleaf f : forall nd root t s, ct_build f nd root = Ok t -> In s (ct_nodes t) ->
  cn_nleaf (ct_node s) = cn_nleaf nd.
Proof.
  induction f as [|f IH]; intros nd root t s H Hs; [discriminate|].
  destruct (ct_build_inv _ _ _ _ H) as [f' [Ef [E HC]]]. inversion Ef; subst f'.
  destruct t as [nd' cs]. simpl in E. subst nd'. simpl in Hs. destruct Hs as [<-|Hs]; auto.
  apply in_flat_map in Hs. destruct Hs as [c [Hc Hs]]. simpl in HC.
  destruct HC as [[_ HF]|[_ HF]]; [|subst; destruct Hc].
  destruct (In_nth_error _ _ Hc) as [k Hk]. destruct (Forall2_nth_error_r _ _ _ _ _ HF Hk) as [ij [_ Hb]].
  rewrite (IH _ _ _ _ Hb Hs). reflexivity.
Qed.

Lemma leaf_small fuel rows cols bm bn nleaf t s : nleaf <> 0%Z -> cluster_tree fuel rows cols bm bn nleaf = Ok t ->
  storage t s -> in_adm ini (ct_node s) <> Ok true ->
  (ir_n (cn_rows (ct_node s)) <= nleaf)%Z /\ (ir_n (cn_cols (ct_node s)) <= nleaf)%Z.
Proof.
  intros Hn Ht Hs Ha. destruct Hs as [k [Hk1 Hk2]].
  assert (Hin : In s (ct_nodes t)) by (apply storage_in_nodes; exists k; auto).
  pose proof (nodes_nleaf _ _ _ _ _ Ht Hin) as E. simpl in E.
  destruct (kept_is_end _ _ Hk2) as [H|H]; [contradiction|].
  unfold is_leaf in H. rewrite E in H. apply orb_prop in H. destruct H as [H|H].
  - apply andb_prop in H. lia.
  - apply Z.eqb_eq in H. contradiction.
Qed.

(** Success. *)
Lemma go_total rec bm bn cs : forall b,
  (forall c, In c cs -> exists x, hblock ini rec c = Ok x) ->
  (forall c, In c cs -> (0 <= cn_irel (ct_node c) < bm)%Z /\ (0 <= cn_jrel (ct_node c) < bn)%Z) ->
  exists b', go rec bm bn cs b = Ok b'.
Proof.
  induction cs as [|c cs IH]; intros b H1 H2; simpl; eauto.
  destruct (H1 c) as [x ->]; [left; auto|]. cbn [bind].
  destruct (H2 c) as [A B]; [left; auto|].
  replace ((0 <=? cn_irel (ct_node c)) && (cn_irel (ct_node c) <? bm) && (0 <=? cn_jrel (ct_node c)) &&
    (cn_jrel (ct_node c) <? bn))%Z with true by (symmetry; rewrite !andb_true_iff; lia).
  apply IH; intros; [apply H1|apply H2]; right; auto.
Qed.

Lemma hier_total f : forall nd root t, ct_build f nd root = Ok t -> regular t ->
  (forall s, In s (ct_nodes t) -> exists a, in_adm ini (ct_node s) = Ok a) ->
  (forall s, In s (ct_nodes t) -> s <> t ->
     exists D, in_fill ini (cn_rows (ct_node s)) (cn_cols (ct_node s)) = Ok D /\ exists l, in_comp ini D = Ok l) ->
  exists M, hier ini t = Ok M.
Proof.
  induction f as [|f IH]; intros nd root t Hb Hreg HA HD; [discriminate|].
  destruct (ct_build_inv _ _ _ _ Hb) as [f' [Ef [End HC]]]. inversion Ef; subst f'; clear Ef.
  destruct t as [nd' cs]. simpl in End. subst nd'. simpl in HC. rewrite hier_go.
  destruct HC as [[_ HF]|[_ ->]]; [|simpl; eauto].
  assert (NS : forall c, In c cs -> forall s, In s (ct_nodes c) -> In s (ct_nodes (CT nd cs))).
  { intros c Hc s Hs. simpl. right. apply in_flat_map. eauto. }
  assert (SZ : forall c s, In c cs -> In s (ct_nodes c) -> s <> CT nd cs).
  { intros c s Hc Hs E. subst s.
    assert (L : forall f nd root t s, ct_build f nd root = Ok t -> In s (ct_nodes t) ->
        (cn_level nd <= cn_level (ct_node s))%Z).
    { clear. induction f as [|f IH]; intros nd root t s H Hs; [discriminate|].
      destruct (ct_build_inv _ _ _ _ H) as [f' [Ef [E HC]]]. inversion Ef; subst f'.
      destruct t as [nd' cs]. simpl in E. subst nd'. simpl in Hs. destruct Hs as [<-|Hs]; [simpl; lia|].
      apply in_flat_map in Hs. destruct Hs as [c [Hc Hs]]. simpl in HC.
      destruct HC as [[_ HF]|[_ HF]]; [|subst; destruct Hc].
      destruct (In_nth_error _ _ Hc) as [k Hk]. destruct (Forall2_nth_error_r _ _ _ _ _ HF Hk) as [ij [_ Hb]].
      specialize (IH _ _ _ _ Hb Hs). simpl in IH. lia. }
    destruct (In_nth_error _ _ Hc) as [k Hk]. destruct (Forall2_nth_error_r _ _ _ _ _ HF Hk) as [ij [_ Hb']].
    specialize (L _ _ _ _ _ Hb' Hs). simpl in L. lia. }
  destruct (go_total (hier ini) (cn_bm nd) (cn_bn nd) cs (fun _ _ => ME 0 0)) as [b ->]; [| |simpl; eauto].
  - intros c Hc. unfold hblock.
    assert (Hcn : In c (ct_nodes (CT nd cs))) by (apply (NS c Hc); apply in_block_nodes_self).
    destruct (HA c Hcn) as [a Ea]. rewrite Ea. cbn [bind].
    destruct (HD c Hcn (SZ c c Hc (in_block_nodes_self c))) as [D [ED [l El]]].
    assert (GD : get_dense ini (ct_node c) = Ok D).
    { unfold get_dense. destruct (Hreg c Hcn) as [N1 N2].
      replace ((0 <=? ir_n (cn_rows (ct_node c))) && (0 <=? ir_n (cn_cols (ct_node c))))%Z with true; auto.
      symmetry; rewrite andb_true_iff; lia. }
    destruct a.
    + unfold get_compressed. rewrite GD. cbn [bind]. rewrite El. cbn [bind]. eauto.
    + destruct (is_leaf (ct_node c)); [rewrite GD; cbn [bind]; eauto|].
      destruct (In_nth_error _ _ Hc) as [k Hk]. destruct (Forall2_nth_error_r _ _ _ _ _ HF Hk) as [ij [_ Hbc]].
      apply (IH _ _ _ Hbc).
      * eapply regular_child; eauto.
      * intros s Hs. apply HA. eauto.
      * intros s Hs _. apply HD; eauto.
  - intros c Hc. destruct (In_nth_error _ _ Hc) as [k Hk].
    destruct (Forall2_nth_error_r _ _ _ _ _ HF Hk) as [[i j] [Hp Hbc]]. apply nth_error_In in Hp.
    apply block_positions_In in Hp. destruct (ct_build_inv _ _ _ _ Hbc) as [_ [_ [E _]]]. rewrite E. simpl. lia.
Qed.
End ConstructProofs.

Section Theorems.
Context {R : cring}.

(** * From a kernel *)

(** The blocks of the initializer are windows of one matrix of entries F (kernels that
    depend on the position only). *)
Definition windows_of (ini : initializer R) (rows cols : irange) (F : Z -> Z -> R) : Prop :=
  forall r c D, in_fill ini r c = Ok D ->
  (forall x, ir_mem x r -> ir_mem x rows) -> (forall y, ir_mem y c -> ir_mem y cols) ->
  forall x y, ir_mem x r -> ir_mem y c -> d_e D (pos r x) (pos c y) = F x y.

Lemma block_in_range (ini : initializer R) (SH : shapely ini) fuel rows cols bm bn nleaf t M s :
  (1 <= bm)%Z -> (1 <= bn)%Z -> cluster_tree fuel rows cols bm bn nleaf = Ok t -> regular t ->
  hierarchical ini fuel rows cols bm bn nleaf = Ok M -> storage ini t s ->
  forall x y, in_block x y s = true -> 
  (forall x', ir_mem x' (cn_rows (ct_node s)) -> ir_mem x' rows) /\
  (forall y', ir_mem y' (cn_cols (ct_node s)) -> ir_mem y' cols).
Proof.
  intros Hm Hn Ht Hr HM Hs x y Hxy. unfold in_block in Hxy. apply andb_prop in Hxy. destruct Hxy as [Hx Hy].
  destruct (hierarchical_good ini SH fuel rows cols bm bn nleaf t M Hm Hn Ht Hr HM) as [_ [_ [_ [_ G]]]].
  split.
  - intros x' Hx'. destruct (G x' y s Hs) as [H _]; auto. unfold in_block. rewrite Hy.
    apply ir_memb_spec in Hx'. now rewrite Hx'.
  - intros y' Hy'. destruct (G x y' s Hs) as [_ [H _]]; auto. unfold in_block. rewrite Hx.
    apply ir_memb_spec in Hy'. now rewrite Hy'.
Qed.

Lemma kernel_entries (ini : initializer R) (SH : shapely ini) fuel rows cols bm bn nleaf t M F :
  (1 <= bm)%Z -> (1 <= bn)%Z -> cluster_tree fuel rows cols bm bn nleaf = Ok t -> regular t ->
  hierarchical ini fuel rows cols bm bn nleaf = Ok M -> windows_of ini rows cols F ->
  exists D, densify M = Ok D /\ d_r D = Z.to_nat (ir_n rows) /\ d_c D = Z.to_nat (ir_n cols) /\
  forall x y, ir_mem x rows -> ir_mem y cols ->
  exists s, storage ini t s /\ in_block x y s = true /\
    ((in_adm ini (ct_node s) = Ok false /\ is_leaf (ct_node s) = true /\ d_e D (pos rows x) (pos cols y) = F x y) \/
     (in_adm ini (ct_node s) = Ok true /\ exists B l,
        in_fill ini (cn_rows (ct_node s)) (cn_cols (ct_node s)) = Ok B /\ in_comp ini B = Ok l /\
        d_e D (pos rows x) (pos cols y) = lr_ent l (pos (cn_rows (ct_node s)) x) (pos (cn_cols (ct_node s)) y))).
Proof.
  intros Hm Hn Ht Hr HM HF.
  destruct (hierarchical_good ini SH fuel rows cols bm bn nleaf t M Hm Hn Ht Hr HM) as [W [D1 [D2 [G1 G2]]]].
  destruct (densify_spec M W) as [D [ED [E1 [E2 EE]]]]. exists D. split; auto.
  split; [unfold len in *; congruence|]. split; [unfold len in *; congruence|].
  intros x y Hx Hy. destruct (G1 x y Hx Hy) as [s [Hs Hin]]. exists s. split; auto. split; auto.
  destruct (G2 x y s Hs Hin) as [_ [_ [B [HB HV]]]].
  assert (P1 : pos rows x < nrows M) by (rewrite D1; unfold pos, len, ir_mem in *; lia).
  assert (P2 : pos cols y < ncols M) by (rewrite D2; unfold pos, len, ir_mem in *; lia).
  rewrite (EE _ _ P1 P2).
  destruct (block_in_range ini SH _ _ _ _ _ _ _ _ s Hm Hn Ht Hr HM Hs x y Hin) as [I1 I2].
  unfold in_block in Hin. apply andb_prop in Hin. destruct Hin as [J1 J2]. apply ir_memb_spec in J1, J2.
  destruct HV as [[Ha [l [Hl ->]]]|[Ha [Hl ->]]].
  - right. split; auto. exists B, l. auto.
  - left. split; [exact Ha|]. split; [exact Hl|]. now apply (HF _ _ B HB).
Qed.

(** With a compression that loses nothing. *)
Lemma kernel_exact (ini : initializer R) (SH : shapely ini) fuel rows cols bm bn nleaf t M F :
  (1 <= bm)%Z -> (1 <= bn)%Z -> cluster_tree fuel rows cols bm bn nleaf = Ok t -> regular t ->
  hierarchical ini fuel rows cols bm bn nleaf = Ok M -> windows_of ini rows cols F ->
  (forall B l, in_comp ini B = Ok l -> feq (d_r B) (d_c B) (lr_ent l) (d_e B)) ->
  exists D, densify M = Ok D /\ d_r D = Z.to_nat (ir_n rows) /\ d_c D = Z.to_nat (ir_n cols) /\
  forall x y, ir_mem x rows -> ir_mem y cols -> d_e D (pos rows x) (pos cols y) = F x y.
Proof.
  intros Hm Hn Ht Hr HM HF HC.
  destruct (kernel_entries ini SH _ _ _ _ _ _ _ _ F Hm Hn Ht Hr HM HF) as [D [ED [E1 [E2 G]]]].
  exists D. repeat (split; [solve [auto]|]). intros x y Hx Hy.
  destruct (G x y Hx Hy) as [s [Hs [Hin [[_ [_ E]]|[_ [B [l [HB [Hl E]]]]]]]]]; auto. rewrite E.
  destruct (block_in_range ini SH _ _ _ _ _ _ _ _ s Hm Hn Ht Hr HM Hs x y Hin) as [I1 I2].
  unfold in_block in Hin. apply andb_prop in Hin. destruct Hin as [J1 J2]. apply ir_memb_spec in J1, J2.
  destruct SH as [S1 _]. destruct (S1 _ _ _ HB) as [B1 B2].
  rewrite (HC B l Hl).
  - apply (HF _ _ B HB); auto.
  - rewrite B1. unfold pos, ir_mem in *. lia.
  - rewrite B2. unfold pos, ir_mem in *. lia.
Qed.

(** Size of the stored blocks; shape of the block tree. *)
Lemma kernel_shape (ini : initializer R) fuel rows cols bm bn nleaf M :
  hierarchical ini fuel rows cols bm bn nleaf = Ok M ->
  exists b, M = MH (Z.to_nat bm) (Z.to_nat bn) b.
Proof.
  intros H. destruct (hierarchical_inv _ _ _ _ _ _ _ _ H) as [t [Ht HM]].
  pose proof (root_ok _ _ _ _ _ _ _ Ht) as E. destruct t as [nd cs]. simpl in E. subst nd.
  rewrite hier_go in HM. apply bind_Ok in HM. destruct HM as [b [_ HM]]. inversion HM. eauto.
Qed.

(** * From a Dense *)
Lemma block_fill_ok (A : dense R) r c D : block_fill A r c = Ok D ->
  d_r D = Z.to_nat (ir_n r) /\ d_c D = Z.to_nat (ir_n c) /\
  (forall x y, ir_mem x r -> ir_mem y c ->
     (0 <= x < Z.of_nat (d_r A))%Z /\ (0 <= y < Z.of_nat (d_c A))%Z /\
     d_e D (pos r x) (pos c y) = d_e A (Z.to_nat x) (Z.to_nat y)).
Proof.
  unfold block_fill. intros H. apply assert_Ok in H. destruct H as [H1 H]. inversion H; subst; clear H. simpl.
  split; auto. split; auto. intros x y Hx Hy. unfold ir_mem in *.
  assert (P : (0 <= ir_start r)%Z /\ (ir_start r + ir_n r <= Z.of_nat (d_r A))%Z /\
              (0 <= ir_start c)%Z /\ (ir_start c + ir_n c <= Z.of_nat (d_c A))%Z).
  { apply orb_prop in H1. destruct H1 as [H1|H1].
    - apply orb_prop in H1. destruct H1 as [H1|H1]; apply Nat.eqb_eq in H1; lia.
    - rewrite !andb_true_iff in H1. lia. }
  split; [lia|]. split; [lia|]. unfold pos. f_equal; lia.
Qed.

Lemma of_dense_shapely (A : dense R) adm comp :
  (forall D l, comp D = Ok l -> lr_wf l /\ l_r l = d_r D /\ l_c l = d_c D) ->
  shapely (Init adm (block_fill A) comp).
Proof.
  intros H. split; [|exact H]. intros r c D HD. destruct (block_fill_ok A r c D HD) as [E1 [E2 _]]. auto.
Qed.

Lemma of_dense_entries (A : dense R) adm comp fuel bm bn nleaf t M :
  (forall D l, comp D = Ok l -> lr_wf l /\ l_r l = d_r D /\ l_c l = d_c D) ->
  (1 <= bm)%Z -> (1 <= bn)%Z ->
  cluster_tree fuel (IR 0 (Z.of_nat (d_r A))) (IR 0 (Z.of_nat (d_c A))) bm bn nleaf = Ok t -> regular t ->
  hierarchical_of_dense fuel A adm comp bm bn nleaf 0 0 = Ok M ->
  let ini := Init adm (block_fill A) comp in
  exists D, densify M = Ok D /\ d_r D = d_r A /\ d_c D = d_c A /\
  forall i j, i < d_r A -> j < d_c A ->
  exists s, storage ini t s /\ in_block (Z.of_nat i) (Z.of_nat j) s = true /\
    ((adm (ct_node s) = Ok false /\ d_e D i j = d_e A i j) \/
     (adm (ct_node s) = Ok true /\ exists B l,
        block_fill A (cn_rows (ct_node s)) (cn_cols (ct_node s)) = Ok B /\ comp B = Ok l /\
        d_e D i j = lr_ent l (pos (cn_rows (ct_node s)) (Z.of_nat i)) (pos (cn_cols (ct_node s)) (Z.of_nat j)))).
Proof.
  intros HC Hm Hn Ht Hr HM ini.
  destruct (kernel_entries ini (of_dense_shapely A adm comp HC) fuel _ _ bm bn nleaf t M
              (fun x y => d_e A (Z.to_nat x) (Z.to_nat y)) Hm Hn Ht Hr HM) as [D [ED [E1 [E2 G]]]].
  { intros r c D HD _ _ x y Hx Hy. apply (block_fill_ok A r c D HD); auto. }
  exists D. split; auto. simpl in E1, E2. rewrite Nat2Z.id in E1, E2. split; auto. split; auto.
  intros i j Hi Hj. destruct (G (Z.of_nat i) (Z.of_nat j)) as [s [Hs [Hin HV]]].
  { unfold ir_mem. simpl. lia. } { unfold ir_mem. simpl. lia. }
  exists s. split; auto. split; auto.
  unfold pos in HV. cbn [ir_start] in HV. rewrite !Z.sub_0_r, !Nat2Z.id in HV.
  destruct HV as [[H1 [_ H2]]|[H1 H2]]; auto.
Qed.

(** Any other start: the construction never gets through. *)
Lemma of_dense_offset (A : dense R) adm comp fuel bm bn nleaf rs cs t :
  (forall D l, comp D = Ok l -> lr_wf l /\ l_r l = d_r D /\ l_c l = d_c D) ->
  (1 <= bm)%Z -> (1 <= bn)%Z -> 0 < d_r A -> 0 < d_c A -> (rs <> 0 \/ cs <> 0)%Z ->
  cluster_tree fuel (IR rs (Z.of_nat (d_r A))) (IR cs (Z.of_nat (d_c A))) bm bn nleaf = Ok t -> regular t ->
  forall M, hierarchical_of_dense fuel A adm comp bm bn nleaf rs cs <> Ok M.
Proof.
  intros HC Hm Hn Hr Hc Hst Ht Hreg M HM.
  destruct (hierarchical_good _ (of_dense_shapely A adm comp HC) fuel _ _ bm bn nleaf t M Hm Hn Ht Hreg HM)
    as [_ [_ [_ [G1 G2]]]].
  assert (X : forall x y, (rs <= x < rs + Z.of_nat (d_r A))%Z -> (cs <= y < cs + Z.of_nat (d_c A))%Z ->
    (0 <= x < Z.of_nat (d_r A))%Z /\ (0 <= y < Z.of_nat (d_c A))%Z).
  { intros x y Hx Hy. destruct (G1 x y Hx Hy) as [s [Hs Hin]].
    destruct (G2 x y s Hs Hin) as [_ [_ [D [HD _]]]]. simpl in HD.
    unfold in_block in Hin. apply andb_prop in Hin. destruct Hin as [J1 J2]. apply ir_memb_spec in J1, J2.
    destruct (block_fill_ok A _ _ _ HD) as [_ [_ G]]. destruct (G x y J1 J2) as [A1 [A2 _]]. auto. }
  pose proof (X rs cs). pose proof (X (rs + Z.of_nat (d_r A) - 1) (cs + Z.of_nat (d_c A) - 1))%Z. lia.
Qed.
End Theorems.
