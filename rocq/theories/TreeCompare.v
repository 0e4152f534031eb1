(** Hierarchical matrices built from one cluster tree, compared by l2_error
    (src/util/l2_error.cpp:40-86): what one of them divides, the other one divides equally or
    stores whole. *)
From Coq Require Import List Arith ZArith QArith Lia Bool.
From Verif Require Import Prelude Ring MatFun Matrix MatOps MatSpec MatOpsProofs IndexRange IndexRangeSpec
  IndexRangeProofs ClusterTree ClusterTreeSpec ClusterTreeProofs Triangular TriProofs Construct ConstructProofs JsonTree L2Error.
Import ListNotations.
Local Open Scope nat_scope.

Lemma split_start s n k i : i < Z.to_nat k ->
  ir_n (part (IR s n) k i) = ir_n (ir_split_child (IR 0 n) k (Z.of_nat i)).
Proof. intros Hi. unfold part. rewrite ir_split_nth by auto. reflexivity. Qed.

Lemma parts_tile (r : irange) k : (0 <= ir_n r)%Z -> (1 <= k)%Z ->
  (forall i, i < Z.to_nat k -> (0 <= ir_n (part r k i))%Z) -> tiles (IR 0 (ir_n r)) (ir_split (IR 0 (ir_n r)) k).
Proof.
  intros Hr Hk H. apply ir_split_tiles_iff; auto. cbn [ir_n]. specialize (H (Z.to_nat (k - 1)) ltac:(lia)).
  destruct r as [s n]. cbn [ir_n] in *. rewrite split_start in H by lia. unfold ir_split_child in H. cbn [ir_n] in H.
  rewrite Z2Nat.id in H by lia. rewrite Z.eqb_refl in H. lia.
Qed.

Section Even.
Context {R : cring}.
Notation matrix := (matrix R).
Variable ini : initializer R.
Hypothesis SH : shapely ini.

Lemma stored_leaf nd (B : matrix) : stored ini nd B -> (forall m n b, B <> MH m n b) -> leaf B.
Proof using. destruct B as [d|l|m n b|r c]; simpl; auto. intros _ H. exact (H m n b eq_refl). Qed.

Lemma hier_even f : forall nd root t M, ct_build f nd root = Ok t -> root || negb (is_leaf nd) = true ->
  (1 <= cn_bm nd)%Z -> (1 <= cn_bn nd)%Z -> regular t -> hier ini t = Ok M -> even M /\ no_empty M.
Proof using SH.
  induction f as [|f IH]; intros nd root t M Hb Hr Hm Hn Hreg HM; [discriminate|].
  destruct (hier_good ini SH _ _ _ _ _ Hb Hr Hm Hn Hreg HM) as [_ [N1 [N2 _]]].
  assert (End : ct_node t = nd) by (destruct (ct_build_inv _ _ _ _ Hb) as [? [_ [? _]]]; auto). rewrite End in N1, N2.
  destruct (children_nonneg f nd root t Hb Hr Hm Hn Hreg) as [NR NC].
  destruct (Hreg t (in_block_nodes_self t)) as [Z1 Z2]. rewrite End in Z1, Z2.
  destruct (hier_children ini f nd root t M Hb Hr HM) as [b [-> HC]].
  assert (BK : forall i j, i < Z.to_nat (cn_bm nd) -> j < Z.to_nat (cn_bn nd) -> even (b i j) /\ no_empty (b i j) /\
    nrows (b i j) = len (part (cn_rows nd) (cn_bm nd) i) /\ ncols (b i j) = len (part (cn_cols nd) (cn_bn nd) j)).
  { intros i j Hi Hj. destruct (HC i j Hi Hj) as [c [Hin [Hbc [Ec Hc]]]].
    assert (Rc : regular c) by (destruct t as [nd' cs]; exact (regular_child nd' cs c Hreg Hin)).
    destruct (block_of ini SH f (child_node nd (i, j)) c (b i j) Hbc Ec Hm Hn Rc Hc) as [S0 [D1 [D2 K]]].
    destruct K as [[Ka [Kl Kh]]|K].
    - destruct (IH (child_node nd (i, j)) false c (b i j)) as [E1 E2]; auto. rewrite Kl. reflexivity.
    - pose proof (stored_leaf _ _ S0 K) as L. destruct (b i j) as [d|l|m n b'|r' c']; cbn [leaf] in L; try contradiction; simpl in *; auto. }
  split; [|cbn [no_empty]; intros i j Hi Hj; apply BK; auto].
  cbn [even]. rewrite N1, N2. unfold len. rewrite !Z2Nat.id by lia.
  split; [apply parts_tile; auto|]. split; [apply parts_tile; auto|]. split; [|split].
  - intros i Hi. unfold bheight. destruct (BK i 0 Hi ltac:(lia)) as [_ [_ [-> _]]]. unfold len. rewrite Z2Nat.id by auto.
    destruct (cn_rows nd) as [s n]. apply split_start; auto.
  - intros j Hj. unfold bwidth. destruct (BK 0 j ltac:(lia) Hj) as [_ [_ [_ ->]]]. unfold len. rewrite Z2Nat.id by auto.
    destruct (cn_cols nd) as [s n]. apply split_start; auto.
  - intros i j Hi Hj. apply BK; auto.
Qed.
End Even.

Section Compare.
Context {R : cring}.
Notation matrix := (matrix R).
Variables ia ib : initializer R.
Hypothesis SA : shapely ia.
Hypothesis SB : shapely ib.

Lemma hier_comparable f : forall nd root t A B, ct_build f nd root = Ok t -> root || negb (is_leaf nd) = true ->
  (1 <= cn_bm nd)%Z -> (1 <= cn_bn nd)%Z -> regular t -> hier ia t = Ok A -> hier ib t = Ok B -> comparable A B.
Proof using SA SB.
  induction f as [|f IH]; intros nd root t A B Hb Hr Hm Hn Hreg HA HB; [discriminate|].
  destruct (hier_children ia f nd root t A Hb Hr HA) as [a [-> CA]].
  destruct (hier_children ib f nd root t B Hb Hr HB) as [b [-> CB]].
  apply cmp_blocks. intros i j Hi Hj.
  destruct (CA i j Hi Hj) as [c [Hin [Hbc [Ec Hc]]]]. destruct (CB i j Hi Hj) as [c' [_ [Hbc' [_ Hc']]]].
  assert (c' = c) by congruence. subst c'. clear Hbc'.
  assert (Rc : regular c) by (destruct t as [nd' cs]; exact (regular_child nd' cs c Hreg Hin)).
  destruct (block_of ia SA f (child_node nd (i, j)) c (a i j) Hbc Ec Hm Hn Rc Hc) as [S1 [D1 [D2 KA]]].
  destruct (block_of ib SB f (child_node nd (i, j)) c (b i j) Hbc Ec Hm Hn Rc Hc') as [S2 [D3 [D4 KB]]].
  assert (SD : same_dims (a i j) (b i j)) by (split; congruence).
  destruct KA as [[_ [La Ha]]|KA].
  - assert (NL : false || negb (is_leaf (child_node nd (i, j))) = true) by (rewrite La; reflexivity).
    destruct KB as [[_ [_ Hb']]|KB]; [exact (IH _ _ _ _ _ Hbc NL Hm Hn Rc Ha Hb')|].
    apply cmp_leaf; auto; [|exact (stored_leaf ib _ _ S2 KB)].
    exact (proj1 (hier_even ia SA f _ false c (a i j) Hbc NL Hm Hn Rc Ha)).
  - apply cmp_leaf'; auto; [exact (stored_leaf ia _ _ S1 KA)|].
    destruct KB as [[_ [Lb Hb']]|KB].
    + assert (NL : false || negb (is_leaf (child_node nd (i, j))) = true) by (rewrite Lb; reflexivity).
      exact (proj1 (hier_even ib SB f _ false c (b i j) Hbc NL Hm Hn Rc Hb')).
    + pose proof (stored_leaf ib _ _ S2 KB) as L. destruct (b i j); cbn [leaf] in L; try contradiction; exact I.
Qed.

Lemma hierarchical_comparable fuel rows cols bm bn nleaf t A B : (1 <= bm)%Z -> (1 <= bn)%Z ->
  cluster_tree fuel rows cols bm bn nleaf = Ok t -> regular t ->
  hierarchical ia fuel rows cols bm bn nleaf = Ok A -> hierarchical ib fuel rows cols bm bn nleaf = Ok B ->
  comparable A B /\ (wf A /\ no_empty A /\ nrows A = len rows /\ ncols A = len cols) /\
  (wf B /\ no_empty B /\ nrows B = len rows /\ ncols B = len cols).
Proof using SA SB.
  intros Hm Hn Ht Hreg HA HB.
  destruct (hierarchical_inv _ _ _ _ _ _ _ _ HA) as [t1 [T1 HA']]. destruct (hierarchical_inv _ _ _ _ _ _ _ _ HB) as [t2 [T2 HB']].
  rewrite Ht in T1, T2. injection T1 as <-. injection T2 as <-.
  pose proof (root_ok fuel rows cols bm bn nleaf t Ht) as Er.
  split; [exact (hier_comparable fuel _ true t A B Ht eq_refl Hm Hn Hreg HA' HB')|].
  split.
  - destruct (hier_good ia SA fuel _ true t A Ht eq_refl Hm Hn Hreg HA') as [W [N1 [N2 _]]]. rewrite Er in N1, N2.
    split; auto. split; auto. exact (proj2 (hier_even ia SA fuel _ true t A Ht eq_refl Hm Hn Hreg HA')).
  - destruct (hier_good ib SB fuel _ true t B Ht eq_refl Hm Hn Hreg HB') as [W [N1 [N2 _]]]. rewrite Er in N1, N2.
    split; auto. split; auto. exact (proj2 (hier_even ib SB fuel _ true t B Ht eq_refl Hm Hn Hreg HB')).
Qed.
End Compare.
