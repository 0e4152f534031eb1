(** Weakly admissible matrices of any size: k parts per level, of sizes that differ. *)
From Coq Require Import List Arith ZArith QArith Lia Bool.
From Verif Require Import Prelude IndexRange IndexRangeSpec IndexRangeProofs Ring MatFun Matrix MatOps MatSpec MatOpsProofs
  Gemm Triangular ClusterTree ClusterTreeSpec ClusterTreeProofs ClusterTreeRegular ClusterTreeTermination Construct ConstructProofs
  Admissible CommonTree GemmSucc TreeFit FixedRank.
Import ListNotations.
Local Open Scope nat_scope.

(** The division of n by the constructor: in k parts, and on as long as a part is larger
    than nleaf (cluster_tree.cpp:14-45, 66-69). *)
Fixpoint cut (f n k nleaf : nat) : axis :=
  match f with
  | O => Leaf n
  | S f' => if n <=? nleaf then Leaf n else Node n k (fun i => cut f' (cpart n k i) k nleaf)
  end.
Definition cuts (f n k nleaf : nat) : axis := Node n k (fun i => cut f (cpart n k i) k nleaf).

(** Sizes above this bound are divided into k parts of at least q. *)
Definition room (k q : nat) : nat := (k - 1) * (k - 1) + k * (q - 1).

Lemma part_eq n k i : 1 <= k -> i < k ->
  Z.of_nat (cpart n k i) = Z.max 0 (if i =? k - 1 then Z.of_nat n - Z.of_nat (k - 1) * Z.of_nat ((n + k - 1) / k)
                            else Z.of_nat ((n + k - 1) / k)).
Proof.
  intros Hk Hi. unfold CommonTree.part, ir_split_child. cbn [ir_n ir_start]. rewrite Z.quot_div_nonneg by lia.
  replace (Z.of_nat n + Z.of_nat k - 1)%Z with (Z.of_nat (n + k - 1)) by lia. rewrite <- Nat2Z.inj_div.
  destruct (Nat.eqb_spec i (k - 1)) as [E|E].
  - replace (_ =? _)%Z with true by (symmetry; apply Z.eqb_eq; lia). subst i. rewrite ZifyInst.of_nat_to_nat_eq. f_equal. nia.
  - replace (_ =? _)%Z with false by (symmetry; apply Z.eqb_neq; lia). rewrite ZifyInst.of_nat_to_nat_eq. reflexivity.
Qed.

Lemma room_part n k q i : 2 <= k -> 1 <= q -> room k q < n -> i < k -> q <= cpart n k i.
Proof.
  intros Hk Hq Hn Hi. unfold room in Hn. apply Nat2Z.inj_le. rewrite part_eq by lia.
  pose proof (Nat.div_mod (n + k - 1) k ltac:(lia)) as D. pose proof (Nat.mod_upper_bound (n + k - 1) k ltac:(lia)) as B.
  set (c := (n + k - 1) / k) in *. set (m := (n + k - 1) mod k) in *.
  destruct k as [|p]; [lia|]. destruct q as [|q']; [lia|]. replace (S p - 1) with p in * by lia. replace (S q' - 1) with q' in * by lia.
  assert (U : S p * c <= n + p) by lia. assert (V : p * (S p * c) <= p * (n + p)) by (apply Nat.mul_le_mono_l; exact U).
  destruct (Nat.eqb_spec i p).
  - assert (q' + p * c < n); [|lia]. apply (Nat.mul_lt_mono_pos_l (S p)); lia.
  - assert (S q' <= c); [|lia]. assert (S p * q' < S p * c) by lia. apply (Nat.mul_lt_mono_pos_l (S p)) in H; lia.
Qed.

Lemma room_divides n k q : 2 <= k -> 1 <= q -> room k q < n -> divides n k.
Proof.
  intros Hk Hq Hn. apply divides_iff; [lia|]. unfold room in Hn.
  pose proof (Nat.div_mod (n + k - 1) k ltac:(lia)) as D. 
  set (c := (n + k - 1) / k) in *. set (m := (n + k - 1) mod k) in *.
  destruct k as [|p]; [lia|]. replace (S p - 1) with p in * by lia.
  assert (U : S p * c <= n + p) by lia. assert (V : p * (S p * c) <= p * (n + p)) by (apply Nat.mul_le_mono_l; exact U).
  pose proof (Nat.le_0_l (S p * (q - 1))) as Z0. assert (W0 : p * p < n) by (revert Hn Z0; generalize (S p * (q - 1)); intros; lia).
  assert (W : S p * (p * c) <= S p * n) by lia. apply (Nat.mul_le_mono_pos_l _ _ (S p)) in W; lia.
Qed.

Lemma asize_cut f n k nleaf : asize (cut f n k nleaf) = n.
Proof. destruct f; simpl; auto. destruct (_ <=? _); auto. Qed.

Section Room.
Variables (k nleaf q : nat).
Hypothesis Hk : 2 <= k.
Hypothesis Hq : 2 <= q.
Hypothesis Hl : room k q <= nleaf.

Lemma valid_cut f : forall n, valid (cut f n k nleaf).
Proof using Hk Hq Hl.
  induction f as [|f IH]; intros n; simpl; auto. destruct (Nat.leb_spec n nleaf); simpl; auto.
  split; auto. split; [apply (room_divides n k q); lia|]. intros i Hi. split; [apply asize_cut|apply IH].
Qed.
Lemma valid_cuts f n : room k q < n -> valid (cuts f n k nleaf).
Proof using Hk Hq Hl.
  intros Hn. simpl. split; auto. split; [apply (room_divides n k q); lia|].
  intros i Hi. split; [apply asize_cut|apply valid_cut].
Qed.

Context {R : cring}.
Notation matrix := (matrix R).
Variable ini : initializer R.
Variable QS : nat -> nat -> Prop.

(** The nodes on the diagonal. *)
Definition on_diag (nd : cnode) : Prop :=
  cn_bm nd = Z.of_nat k /\ cn_bn nd = Z.of_nat k /\ cn_nleaf nd = Z.of_nat nleaf /\ cn_iabs nd = cn_jabs nd /\
  (0 <= ir_n (cn_rows nd))%Z /\ ir_n (cn_cols nd) = ir_n (cn_rows nd).

Lemma child_len nd i j : on_diag nd -> room k q < len (cn_rows nd) -> i < k -> j < k ->
  len (cn_rows (child_node nd (i, j))) = cpart (len (cn_rows nd)) k i /\
  len (cn_cols (child_node nd (i, j))) = cpart (len (cn_rows nd)) k j /\
  (Z.of_nat q <= ir_n (cn_rows (child_node nd (i, j))))%Z /\ (Z.of_nat q <= ir_n (cn_cols (child_node nd (i, j))))%Z.
Proof using Hk Hq Hl.
  intros [E1 [E2 [E3 [E4 [E5 E6]]]]] Hn Hi Hj. cbn [child_node cn_rows cn_cols fst snd]. rewrite E1, E2.
  assert (L : len (cn_cols nd) = len (cn_rows nd)) by (unfold len; congruence).
  pose proof (part_range (cn_rows nd) (Z.of_nat k) i E5 ltac:(lia) ltac:(lia)) as P1.
  pose proof (part_range (cn_cols nd) (Z.of_nat k) j ltac:(lia) ltac:(lia) ltac:(lia)) as P2.
  rewrite Nat2Z.id, ?L in *.
  pose proof (room_part (len (cn_rows nd)) k q i Hk ltac:(lia) Hn Hi) as Q1.
  pose proof (room_part (len (cn_rows nd)) k q j Hk ltac:(lia) Hn Hj) as Q2.
  split; auto. split; auto. unfold len in *. lia.
Qed.

Lemma diag_child nd i : on_diag nd -> room k q < len (cn_rows nd) -> i < k -> on_diag (child_node nd (i, i)).
Proof using Hk Hq Hl.
  intros D Hn Hi. destruct (child_len nd i i D Hn Hi Hi) as [L1 [L2 [L3 L4]]].
  destruct D as [E1 [E2 [E3 [E4 [E5 E6]]]]]. unfold on_diag. cbn [child_node cn_bm cn_bn cn_nleaf cn_iabs cn_jabs].
  rewrite E1, E2, E4. repeat (split; auto; try lia). unfold len in *. 
  change (ir_n (cn_cols (child_node nd (i, i))) = ir_n (cn_rows (child_node nd (i, i)))). lia.
Qed.

Lemma off_child nd i j : on_diag nd -> i <> j -> cn_iabs (child_node nd (i, j)) <> cn_jabs (child_node nd (i, j)).
Proof using Hk Hq Hl.
  intros [E1 [E2 [E3 [E4 _]]]] N. cbn [child_node cn_iabs cn_jabs fst snd]. rewrite E1, E2, E4. lia.
Qed.

Lemma diag_leaf nd : on_diag nd -> is_leaf nd = (len (cn_rows nd) <=? nleaf).
Proof using Hk Hq Hl.
  intros [E1 [E2 [E3 [E4 [E5 E6]]]]]. unfold is_leaf. rewrite E3, E6, andb_diag.
  assert (0 < room k q) by (unfold room; nia).
  replace (Z.of_nat nleaf =? 0)%Z with false by (symmetry; apply Z.eqb_neq; lia). rewrite orb_false_r.
  unfold len. destruct (Nat.leb_spec (Z.to_nat (ir_n (cn_rows nd))) nleaf); [apply Z.leb_le|apply Z.leb_gt]; lia.
Qed.

Hypothesis HD : forall nd, cn_iabs nd = cn_jabs nd -> in_adm ini nd = Ok false.
Hypothesis HO : forall nd, cn_iabs nd <> cn_jabs nd -> (2 <= ir_n (cn_rows nd))%Z -> (2 <= ir_n (cn_cols nd))%Z -> in_adm ini nd = Ok true.

Lemma hier_cuts (SH : shapely ini) (HQ : mids ini QS) f : forall nd root t (M : matrix), ct_build (S f) nd root = Ok t ->
  root || negb (is_leaf nd) = true -> on_diag nd -> room k q < len (cn_rows nd) -> hier ini t = Ok M ->
  CommonTree.fit QS (cuts f (len (cn_rows nd)) k nleaf) (cuts f (len (cn_rows nd)) k nleaf) M /\ hodlr M.
Proof using Hk Hq Hl HD HO.
  induction f as [|f IH]; intros nd root t M Hb Hr D Hn H;
    destruct (hier_children _ _ _ _ _ _ Hb Hr H) as [f' [b [Ef [-> CH]]]]; inversion Ef; subst f'; clear Ef;
    (assert (E1 : cn_bm nd = Z.of_nat k) by apply D); (assert (E2 : cn_bn nd = Z.of_nat k) by apply D);
    rewrite E1, E2, Nat2Z.id in *.
  { destruct (CH 0 0) as [c [Hc _]]; try lia. discriminate. }
  assert (KEY : forall i j, i < k -> j < k ->
    CommonTree.fit QS (cut (S f) (cpart (len (cn_rows nd)) k i) k nleaf) (cut (S f) (cpart (len (cn_rows nd)) k j) k nleaf) (b i j) /\
    (i = j -> hodlr (b i j)) /\ (i <> j -> exists l, b i j = ML l)).
  { intros i j Hi Hj. destruct (CH i j Hi Hj) as [c [Hc [Ec HB]]].
    destruct (child_len nd i j D Hn Hi Hj) as [L1 [L2 [L3 L4]]].
    destruct SH as [S1 S2].
    destruct (hblock_inv _ _ _ HB) as [[A [d [l [Fd [Cl ->]]]]]|[[A [_ [d [Fd ->]]]]|[A [NL HM]]]]; rewrite Ec in *.
    - destruct (S1 _ _ _ Fd) as [D1 D2]. destruct (S2 _ _ Cl) as [W [D3 D4]].
      split; [|split; [|eauto]].
      + cbn [CommonTree.fit]. rewrite !asize_cut, D3, D4, D1, D2, <- L1, <- L2. split; auto. split; auto. split; auto. eapply HQ; eauto.
      + intros <-. rewrite HD in A; [discriminate|]. apply (diag_child nd i D Hn Hi).
    - destruct (S1 _ _ _ Fd) as [D1 D2]. split; [|split; [intros _; exact I|]].
      + cbn [CommonTree.fit]. rewrite !asize_cut, D1, D2, <- L1, <- L2. auto.
      + intros N. rewrite (HO _ (off_child nd i j D N)) in A; [discriminate| |]; lia.
    - destruct (Nat.eq_dec i j) as [<-|N].
      + pose proof (diag_child nd i D Hn Hi) as DC. pose proof NL as NL'. rewrite (diag_leaf _ DC) in NL'. apply Nat.leb_gt in NL'.
        destruct (IH (child_node nd (i, i)) false c (b i i) Hc ltac:(rewrite NL; reflexivity) DC ltac:(lia) HM) as [F Ho].
        rewrite L1 in F, NL'. split; [|split; [auto|congruence]].
        cbn [cut]. replace (_ <=? nleaf) with false by (symmetry; apply Nat.leb_gt; lia). exact F.
      + rewrite (HO _ (off_child nd i j D N)) in A; [discriminate| |]; lia. }
  split.
  - cbn [CommonTree.fit cuts deg sub]. split; auto. split; auto. intros i j Hi Hj. apply KEY; auto.
  - cbn [hodlr]. split; auto. split; [intros i Hi; apply KEY; auto|]. intros i j Hi Hj N. destruct (KEY i j Hi Hj) as [_ [_ X]]. auto.
Qed.

Lemma split_inside r w i : (0 <= ir_n r)%Z -> room k q < len r -> i < k -> inside r w ->
  inside (nth i (ir_split r (Z.of_nat k)) (IR 0 0)) w.
Proof using Hk Hq Hl.
  intros Hr Hn Hi [I1 I2]. pose proof (room_divides (len r) k q Hk ltac:(lia) Hn) as Dv. apply divides_iff in Dv; [|lia].
  unfold len in Dv. rewrite ir_split_nth by lia. unfold inside, ir_split_child. cbn [ir_n ir_start].
  rewrite Z.quot_div_nonneg by lia.
  replace (ir_n r + Z.of_nat k - 1)%Z with (Z.of_nat (Z.to_nat (ir_n r) + k - 1)) by lia. rewrite <- Nat2Z.inj_div.
  set (c := (Z.to_nat (ir_n r) + k - 1) / k) in *. destruct (_ =? _)%Z eqn:E; [apply Z.eqb_eq in E|apply Z.eqb_neq in E]; nia.
Qed.

Lemma hierarchical_uneven f rows cols : ir_n cols = ir_n rows -> (Z.of_nat (room k q) < ir_n rows)%Z ->
  (ir_n rows <= 2 ^ Z.of_nat f)%Z ->
  (forall nd, (Z.of_nat q <= ir_n (cn_rows nd))%Z -> (Z.of_nat q <= ir_n (cn_cols nd))%Z ->
     inside (cn_rows nd) rows -> inside (cn_cols nd) cols -> buildable ini nd) ->
  exists M, hierarchical ini (S (S f)) rows cols (Z.of_nat k) (Z.of_nat k) (Z.of_nat nleaf) = Ok M.
Proof using Hk Hq Hl HD HO.
  intros Ec Hn Hf HB. assert (R3 : 0 < room k q) by (unfold room; nia).
  destruct (cluster_tree_terminates rows cols (Z.of_nat k) (Z.of_nat k) (Z.of_nat nleaf) f) as [t Ht]; try lia.
  unfold hierarchical. rewrite Ht. cbn [bind].
  set (rt := root_node rows cols (Z.of_nat k) (Z.of_nat k) (Z.of_nat nleaf)).
  assert (DR : on_diag rt) by (unfold on_diag, rt; cbn [root_node cn_bm cn_bn cn_nleaf cn_iabs cn_jabs cn_rows cn_cols]; repeat (split; auto; try lia)).
  pose (P := fun nd => (Z.of_nat q <= ir_n (cn_rows nd))%Z /\ (Z.of_nat q <= ir_n (cn_cols nd))%Z /\
     inside (cn_rows nd) rows /\ inside (cn_cols nd) cols /\ (cn_iabs nd = cn_jabs nd -> on_diag nd)).
  assert (PC : forall nd i j, on_diag nd -> room k q < len (cn_rows nd) -> inside (cn_rows nd) rows -> inside (cn_cols nd) cols ->
    i < k -> j < k -> P (child_node nd (i, j))).
  { intros nd i j D Hs I1 I2 Hi Hj. destruct (child_len nd i j D Hs Hi Hj) as [L1 [L2 [L3 L4]]].
    split; auto. split; auto. pose proof D as [E1 [E2 [E3 [E4 [E5 E6]]]]]. split; [|split].
    - cbn [child_node cn_rows fst]. rewrite E1. apply split_inside; auto.
    - cbn [child_node cn_cols snd]. rewrite E2. apply split_inside; auto; try lia. unfold len in *. rewrite E6. auto.
    - intros E. destruct (Nat.eq_dec i j) as [<-|N]; [apply diag_child; auto|]. exfalso. exact (off_child nd i j D N E). }
  assert (B : forall nd, on_diag nd -> Z.to_nat (cn_bm nd) = k /\ Z.to_nat (cn_bn nd) = k).
  { intros nd [E1 [E2 _]]. rewrite E1, E2. lia. }
  apply (hier_total ini P) with (f := S (S f)) (nd := rt) (root := true); auto.
  - intros nd i j [Q1 [Q2 [I1 [I2 D]]]] Hi Hj NL A.
    assert (Dn : on_diag nd). { apply D. destruct (Z.eq_dec (cn_iabs nd) (cn_jabs nd)) as [E|E]; auto. rewrite HO in A; [discriminate|auto|lia|lia]. }
    destruct (B nd Dn) as [B1 B2]. rewrite B1 in Hi. rewrite B2 in Hj. apply PC; auto.
    rewrite (diag_leaf nd Dn) in NL. apply Nat.leb_gt in NL. lia.
  - intros nd [Q1 [Q2 [I1 [I2 _]]]]. apply HB; auto.
  - intros i j Hi Hj. destruct (B rt DR) as [B1 B2]. rewrite B1 in Hi. rewrite B2 in Hj. apply PC; auto.
    + unfold len, rt. cbn [root_node cn_rows]. lia.
    + unfold rt. cbn [root_node cn_rows]. split; lia.
    + unfold rt. cbn [root_node cn_cols]. split; lia.
Qed.

Lemma hierarchical_cuts (SH : shapely ini) (HQ : mids ini QS) f rows cols M : ir_n cols = ir_n rows ->
  (Z.of_nat (room k q) < ir_n rows)%Z ->
  hierarchical ini (S f) rows cols (Z.of_nat k) (Z.of_nat k) (Z.of_nat nleaf) = Ok M ->
  CommonTree.fit QS (cuts f (len rows) k nleaf) (cuts f (len rows) k nleaf) M /\ hodlr M.
Proof using Hk Hq Hl HD HO.
  intros Ec Hn H. destruct (hierarchical_inv _ _ _ _ _ _ _ _ H) as [t [Ht HM]].
  apply (hier_cuts SH HQ f (root_node rows cols (Z.of_nat k) (Z.of_nat k) (Z.of_nat nleaf)) true t M Ht eq_refl); auto.
  - unfold on_diag. cbn [root_node cn_bm cn_bn cn_nleaf cn_iabs cn_jabs cn_rows cn_cols]. repeat (split; auto; try lia).
  - unfold len. cbn [root_node cn_rows]. lia.
Qed.
End Room.
