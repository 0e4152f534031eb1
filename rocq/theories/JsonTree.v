(** The JSON document of a constructed matrix: write_JSON (src/util/print.cpp:118-125) after
    the constructor of Hierarchical, as in examples/Hmatrix_to_json.cpp. *)
From Coq Require Import String List Arith ZArith Lia Bool.
From Verif Require Import Prelude Ring MatFun Matrix MatOps MatSpec MatOpsProofs IndexRange IndexRangeSpec
  IndexRangeProofs ClusterTree ClusterTreeSpec ClusterTreeProofs Triangular TriProofs Construct ConstructProofs Json.
Import ListNotations.
Local Open Scope nat_scope.
Local Open Scope list_scope.

(** The node of the cluster tree reached from [nd] by the children at the given positions. *)
Definition node_at (nd : cnode) (p : list (nat * nat)) : cnode := fold_left child_node p nd.

(** (x,y) is in the rows and columns of the node. *)
Definition in_node (x y : Z) (nd : cnode) : Prop := ir_mem x (cn_rows nd) /\ ir_mem y (cn_cols nd).

Section JsonTree.
Context {R : cring}.
Notation matrix := (matrix R).
Variable ini : initializer R.
Hypothesis SH : shapely ini.

Lemma block_nil (M : matrix) : block_at M [] = Some M.
Proof using. destruct M; reflexivity. Qed.

Lemma hier_children f nd root t M : ct_build (S f) nd root = Ok t -> root || negb (is_leaf nd) = true ->
  hier ini t = Ok M -> exists b, M = MH (Z.to_nat (cn_bm nd)) (Z.to_nat (cn_bn nd)) b /\
  forall i j, i < Z.to_nat (cn_bm nd) -> j < Z.to_nat (cn_bn nd) -> exists c, In c (ct_children t) /\
    ct_build f (child_node nd (i, j)) false = Ok c /\ ct_node c = child_node nd (i, j) /\
    hblock ini (hier ini) c = Ok (b i j).
Proof using.
  intros Hb Hr H. destruct (ct_build_inv _ _ _ _ Hb) as [f' [Ef [End [[_ HF]|[E _]]]]]; [|congruence].
  inversion Ef; subst f'; clear Ef.
  destruct t as [nd' cs]. simpl in End. subst nd'. simpl in HF. rewrite hier_go in H.
  apply bind_Ok in H. destruct H as [b [Hg H]]. inversion H; subst M; clear H.
  assert (HP : Forall2 (fun ij c => cn_irel (ct_node c) = Z.of_nat (fst ij) /\ cn_jrel (ct_node c) = Z.of_nat (snd ij))
     (block_positions (cn_bm nd) (cn_bn nd)) cs).
  { eapply Forall2_imp; [|exact HF]. intros [i j] c Hc. cbv beta in Hc.
    destruct (ct_build_inv _ _ _ _ Hc) as [_ [_ [Ec _]]]. rewrite Ec. auto. }
  destruct (go_spec _ _ _ _ _ _ _ _ (positions_nodup _ _) HP Hg) as [_ HG].
  pose proof (Forall2_both _ _ _ _ HF HG) as HB.
  exists b. split; auto. intros i j Hi Hj.
  destruct (Forall2_nth_error _ _ _ _ _ HB (block_positions_nth _ _ i j Hi Hj)) as [c [Hc [H1 H2]]].
  exists c. split; [exact (nth_error_In _ _ Hc)|]. split; auto. split; auto.
  destruct (ct_build_inv _ _ _ _ H1) as [_ [_ [Ec _]]]. exact Ec.
Qed.

(** The parts a node is divided into, if the tree below it is regular. *)
Lemma children_nonneg f nd root t : ct_build (S f) nd root = Ok t -> root || negb (is_leaf nd) = true ->
  (1 <= cn_bm nd)%Z -> (1 <= cn_bn nd)%Z -> regular t ->
  (forall i, i < Z.to_nat (cn_bm nd) -> (0 <= ir_n (part (cn_rows nd) (cn_bm nd) i))%Z) /\
  (forall j, j < Z.to_nat (cn_bn nd) -> (0 <= ir_n (part (cn_cols nd) (cn_bn nd) j))%Z).
Proof using.
  intros Hb Hr Hm Hn Hreg. destruct (ct_build_inv _ _ _ _ Hb) as [f' [Ef [End [[_ HF]|[E _]]]]]; [|congruence].
  inversion Ef; subst f'; clear Ef.
  destruct t as [nd' cs]. simpl in End. subst nd'. simpl in HF.
  assert (C : forall i j, i < Z.to_nat (cn_bm nd) -> j < Z.to_nat (cn_bn nd) ->
    (0 <= ir_n (part (cn_rows nd) (cn_bm nd) i))%Z /\ (0 <= ir_n (part (cn_cols nd) (cn_bn nd) j))%Z).
  { intros i j Hi Hj. destruct (Forall2_nth_error _ _ _ _ _ HF (block_positions_nth _ _ i j Hi Hj)) as [c [Hc H1]].
    destruct (ct_build_inv _ _ _ _ H1) as [_ [_ [Ec _]]]. apply nth_error_In in Hc.
    destruct (Hreg c) as [N1 N2]; [simpl; right; apply in_flat_map; exists c; split; auto; apply in_block_nodes_self|].
    rewrite Ec in N1, N2. split; [exact N1|exact N2]. }
  split; [intros i Hi; apply (C i 0); lia|intros j Hj; apply (C 0 j); lia].
Qed.

(** What is stored for a node. *)
Definition stored (nd : cnode) (B : matrix) : Prop :=
  match B with
  | ML l => in_adm ini nd = Ok true /\ get_compressed ini nd = Ok l
  | MD d => in_adm ini nd = Ok false /\ is_leaf nd = true /\ get_dense ini nd = Ok d
  | MH m n _ => in_adm ini nd = Ok false /\ is_leaf nd = false /\ m = Z.to_nat (cn_bm nd) /\ n = Z.to_nat (cn_bn nd)
  | ME _ _ => False
  end.

(** The positions passed on the way are inside of the division. *)
Definition bounded (nd : cnode) (p : list (nat * nat)) : Prop :=
  Forall (fun ij => fst ij < Z.to_nat (cn_bm nd) /\ snd ij < Z.to_nat (cn_bn nd)) p.

Lemma block_of f nd c B : ct_build f nd false = Ok c -> ct_node c = nd -> (1 <= cn_bm nd)%Z -> (1 <= cn_bn nd)%Z ->
  regular c -> hblock ini (hier ini) c = Ok B ->
  stored nd B /\ nrows B = len (cn_rows nd) /\ ncols B = len (cn_cols nd) /\
  ((in_adm ini nd = Ok false /\ is_leaf nd = false /\ hier ini c = Ok B) \/ (forall m n b, B <> MH m n b)).
Proof using SH.
  intros Hb Ec Hm Hn Hreg H. unfold hblock in H. rewrite Ec in H. apply bind_Ok in H. destruct H as [a [Ha H]].
  assert (GD : forall d, get_dense ini nd = Ok d -> d_r d = len (cn_rows nd) /\ d_c d = len (cn_cols nd)).
  { intros d. unfold get_dense. destruct ((0 <=? _)%Z && (0 <=? _)%Z); [|discriminate].
    intros E. apply SH in E. exact E. }
  destruct a.
  - apply bind_Ok in H. destruct H as [l [Hl H]]. inversion H; subst B; clear H.
    split; [split; auto|]. pose proof Hl as Hl'. unfold get_compressed in Hl'. apply bind_Ok in Hl'. destruct Hl' as [d [Hd Hl']].
    destruct (GD d Hd) as [D1 D2]. destruct SH as [_ S2]. destruct (S2 _ _ Hl') as [_ [E1 E2]]. cbn [nrows ncols].
    split; [congruence|]. split; [congruence|]. right. discriminate.
  - destruct (is_leaf nd) eqn:El.
    + apply bind_Ok in H. destruct H as [d [Hd H]]. inversion H; subst B; clear H.
      split; [split; auto|]. destruct (GD d Hd) as [D1 D2]. cbn [nrows ncols]. split; auto. split; auto. right. discriminate.
    + assert (Hr : false || negb (is_leaf nd) = true) by (rewrite El; reflexivity).
      destruct (hier_good ini SH f nd false c B Hb Hr Hm Hn Hreg H) as [_ [D1 [D2 _]]]. rewrite Ec in D1, D2.
      destruct f as [|f]; [discriminate|].
      destruct (hier_children f nd false c B Hb Hr H) as [b [-> _]].
      split; [split; [exact Ha|split; [exact El|split; reflexivity]]|]. split; [exact D1|]. split; [exact D2|]. left; auto.
Qed.

Lemma node_bm p : forall nd, cn_bm (node_at nd p) = cn_bm nd /\ cn_bn (node_at nd p) = cn_bn nd /\ cn_nleaf (node_at nd p) = cn_nleaf nd.
Proof using.
  induction p as [|ij p IH]; intros nd; [auto|]. unfold node_at. cbn [fold_left]. fold (node_at (child_node nd ij) p).
  destruct (IH (child_node nd ij)) as [-> [-> ->]]. auto.
Qed.

(** Every block below a node. *)
Lemma blocks_below f : forall nd root t M, ct_build f nd root = Ok t -> root || negb (is_leaf nd) = true ->
  (1 <= cn_bm nd)%Z -> (1 <= cn_bn nd)%Z -> regular t -> hier ini t = Ok M ->
  forall p B, p <> [] -> block_at M p = Some B ->
  bounded nd p /\ stored (node_at nd p) B /\
  nrows B = len (cn_rows (node_at nd p)) /\ ncols B = len (cn_cols (node_at nd p)) /\
  forall x y, Z.of_nat x = cn_iabs nd -> Z.of_nat y = cn_jabs nd ->
    Z.of_nat (fst (refine M p (x, y))) = cn_iabs (node_at nd p) /\
    Z.of_nat (snd (refine M p (x, y))) = cn_jabs (node_at nd p).
Proof using SH.
  induction f as [|f IH]; intros nd root t M Hb Hr Hm Hn Hreg HM p B Hp HB; [discriminate|].
  destruct (hier_children f nd root t M Hb Hr HM) as [b [-> HC]].
  destruct p as [|[i j] p]; [congruence|]. cbn [block_at] in HB.
  destruct (Nat.ltb_spec i (Z.to_nat (cn_bm nd))) as [Hi|Hi]; [|discriminate].
  destruct (Nat.ltb_spec j (Z.to_nat (cn_bn nd))) as [Hj|Hj]; [|discriminate]. cbn [andb] in HB.
  destruct (HC i j Hi Hj) as [c [Hin [Hbc [Ec Hc]]]].
  assert (Rc : regular c) by (destruct t as [nd' cs]; exact (regular_child nd' cs c Hreg Hin)).
  destruct (block_of f (child_node nd (i, j)) c (b i j) Hbc Ec Hm Hn Rc Hc) as [S0 [D1 [D2 K]]].
  unfold node_at. cbn [fold_left]. fold (node_at (child_node nd (i, j)) p).
  assert (P : forall x y, Z.of_nat x = cn_iabs nd -> Z.of_nat y = cn_jabs nd ->
    Z.of_nat (x * Z.to_nat (cn_bm nd) + i) = cn_iabs (child_node nd (i, j)) /\
    Z.of_nat (y * Z.to_nat (cn_bn nd) + j) = cn_jabs (child_node nd (i, j))).
  { intros x y Hx Hy. cbn [child_node cn_iabs cn_jabs fst snd].
    rewrite !Nat2Z.inj_add, !Nat2Z.inj_mul, !Z2Nat.id by lia. rewrite Hx, Hy. auto. }
  destruct p as [|q p].
  - rewrite block_nil in HB. injection HB as HB. subst B. split; [constructor; auto; constructor|]. cbn [node_at fold_left].
    split; auto. split; auto. split; auto. intros x y Hx Hy. cbn [refine fst snd].
    replace (refine (b i j) [] (x * Z.to_nat (cn_bm nd) + i, y * Z.to_nat (cn_bn nd) + j))
      with (x * Z.to_nat (cn_bm nd) + i, y * Z.to_nat (cn_bn nd) + j) by (destruct (b i j); reflexivity).
    cbn [fst snd]. auto.
  - destruct K as [[Ka [Kl Kh]]|K].
    + assert (Hr' : false || negb (is_leaf (child_node nd (i, j))) = true) by (rewrite Kl; reflexivity).
      destruct (IH _ false c (b i j) Hbc Hr' Hm Hn Rc Kh (q :: p) B ltac:(discriminate) HB) as [G1 [G2 [G3 [G4 G5]]]].
      split; [constructor; [auto|exact G1]|]. split; auto. split; auto. split; auto.
      intros x y Hx Hy. cbn [refine fst snd]. destruct (P x y Hx Hy) as [P1 P2]. apply G5; auto.
    + exfalso. destruct q as [i' j']. cbn [block_at] in HB. destruct (b i j); try discriminate. eapply K; reflexivity.
Qed.

Lemma hier_uniform f : forall nd root t M, ct_build f nd root = Ok t -> root || negb (is_leaf nd) = true ->
  (1 <= cn_bm nd)%Z -> (1 <= cn_bn nd)%Z -> regular t -> hier ini t = Ok M ->
  uniform (repeat (Z.to_nat (cn_bm nd), Z.to_nat (cn_bn nd)) f) M.
Proof using SH.
  induction f as [|f IH]; intros nd root t M Hb Hr Hm Hn Hreg HM; [discriminate|].
  destruct (hier_children f nd root t M Hb Hr HM) as [b [-> HC]]. cbn [repeat uniform]. split; auto. split; auto.
  intros i j Hi Hj. destruct (HC i j Hi Hj) as [c [Hin [Hbc [Ec Hc]]]].
  assert (Rc : regular c) by (destruct t as [nd' cs]; exact (regular_child nd' cs c Hreg Hin)).
  destruct (block_of f (child_node nd (i, j)) c (b i j) Hbc Ec Hm Hn Rc Hc) as [S0 [D1 [D2 K]]].
  destruct K as [[Ka [Kl Kh]]|K].
  - apply (IH (child_node nd (i, j)) false c); auto. rewrite Kl. reflexivity.
  - destruct (b i j) as [d|l|m n b'|r' c']; [destruct f; exact Logic.I|destruct f; exact Logic.I| |destruct f; exact Logic.I].
    exfalso. eapply K; reflexivity.
Qed.

(** The blocks that are not divided cover every position exactly once. *)
Lemma leaf_exists f : forall nd root t M, ct_build f nd root = Ok t -> root || negb (is_leaf nd) = true ->
  (1 <= cn_bm nd)%Z -> (1 <= cn_bn nd)%Z -> regular t -> hier ini t = Ok M ->
  forall x y, in_node x y nd -> exists p B, p <> [] /\ block_at M p = Some B /\ (forall m n b, B <> MH m n b) /\
    in_node x y (node_at nd p).
Proof using SH.
  induction f as [|f IH]; intros nd root t M Hb Hr Hm Hn Hreg HM x y [Hx Hy]; [discriminate|].
  destruct (hier_children f nd root t M Hb Hr HM) as [b [-> HC]].
  destruct (children_nonneg f nd root t Hb Hr Hm Hn Hreg) as [NR NC].
  destruct (part_find _ _ x Hm NR (proj2 (ir_memb_spec _ _) Hx)) as [i [Hi Ix]].
  destruct (part_find _ _ y Hn NC (proj2 (ir_memb_spec _ _) Hy)) as [j [Hj Iy]].
  apply ir_memb_spec in Ix, Iy.
  destruct (HC i j Hi Hj) as [c [Hin [Hbc [Ec Hc]]]].
  assert (Rc : regular c) by (destruct t as [nd' cs]; exact (regular_child nd' cs c Hreg Hin)).
  destruct (block_of f (child_node nd (i, j)) c (b i j) Hbc Ec Hm Hn Rc Hc) as [S0 [D1 [D2 K]]].
  assert (IN : in_node x y (child_node nd (i, j))) by (split; [exact Ix|exact Iy]).
  assert (BA : forall q, block_at (MH (Z.to_nat (cn_bm nd)) (Z.to_nat (cn_bn nd)) b) ((i, j) :: q) = block_at (b i j) q).
  { intros q. cbn [block_at]. rewrite (proj2 (Nat.ltb_lt _ _) Hi), (proj2 (Nat.ltb_lt _ _) Hj). reflexivity. }
  destruct K as [[Ka [Kl Kh]]|K].
  - assert (Hr' : false || negb (is_leaf (child_node nd (i, j))) = true) by (rewrite Kl; reflexivity).
    destruct (IH _ false c (b i j) Hbc Hr' Hm Hn Rc Kh x y IN) as [p [B [_ [P1 [P2 P3]]]]].
    exists ((i, j) :: p), B. split; [discriminate|]. rewrite BA. auto.
  - exists [(i, j)], (b i j). split; [discriminate|]. rewrite BA, block_nil. auto.
Qed.

(** Ranges below a node are inside of it. *)
Lemma below_inside f : forall nd root t M, ct_build f nd root = Ok t -> root || negb (is_leaf nd) = true ->
  (1 <= cn_bm nd)%Z -> (1 <= cn_bn nd)%Z -> regular t -> hier ini t = Ok M ->
  forall p B x y, block_at M p = Some B -> in_node x y (node_at nd p) -> in_node x y nd.
Proof using SH.
  induction f as [|f IH]; intros nd root t M Hb Hr Hm Hn Hreg HM p B x y HB Hin0; [discriminate|].
  destruct (hier_children f nd root t M Hb Hr HM) as [b [-> HC]].
  destruct (children_nonneg f nd root t Hb Hr Hm Hn Hreg) as [NR NC].
  destruct p as [|[i j] p]; [exact Hin0|]. cbn [block_at] in HB.
  destruct (Nat.ltb_spec i (Z.to_nat (cn_bm nd))) as [Hi|Hi]; [|discriminate].
  destruct (Nat.ltb_spec j (Z.to_nat (cn_bn nd))) as [Hj|Hj]; [|discriminate]. cbn [andb] in HB.
  destruct (HC i j Hi Hj) as [c [Hin [Hbc [Ec Hc]]]].
  assert (Rc : regular c) by (destruct t as [nd' cs]; exact (regular_child nd' cs c Hreg Hin)).
  destruct (block_of f (child_node nd (i, j)) c (b i j) Hbc Ec Hm Hn Rc Hc) as [S0 [D1 [D2 K]]].
  assert (IN : in_node x y (child_node nd (i, j))).
  { destruct p as [|q p]; [exact Hin0|]. destruct K as [[Ka [Kl Kh]]|K].
    - apply (IH (child_node nd (i, j)) false c (b i j) Hbc) with (p := q :: p) (B := B); auto. rewrite Kl. reflexivity.
    - exfalso. destruct q as [i' j']. cbn [block_at] in HB. destruct (b i j); try discriminate. eapply K; reflexivity. }
  destruct IN as [Ix Iy]. split.
  - apply ir_memb_spec. apply (part_sub _ _ i x Hm NR Hi). apply ir_memb_spec. exact Ix.
  - apply ir_memb_spec. apply (part_sub _ _ j y Hn NC Hj). apply ir_memb_spec. exact Iy.
Qed.

Lemma part_unique r k i i' x : (1 <= k)%Z -> (forall i, i < Z.to_nat k -> (0 <= ir_n (part r k i))%Z) ->
  i < Z.to_nat k -> i' < Z.to_nat k -> ir_mem x (part r k i) -> ir_mem x (part r k i') -> i = i'.
Proof using.
  intros Hk Hn Hi Hi' Hx Hx'. destruct (part_offs r k Hn) as [A _].
  assert (W : forall a a', a < a' -> a < Z.to_nat k -> a' < Z.to_nat k -> ir_mem x (part r k a) -> ~ ir_mem x (part r k a')).
  { intros a a' L La La' X X'. unfold ir_mem in X, X'. pose proof (A a La). pose proof (A a' La').
    assert (O : offs (fun i => len (part r k i)) (S a) <= offs (fun i => len (part r k i)) a') by (apply offs_mono; lia).
    change (offs (fun i => len (part r k i)) (S a)) with (offs (fun i => len (part r k i)) a + len (part r k a)) in O.
    unfold len in O at 2. pose proof (Hn a La). lia. }
  destruct (Nat.lt_trichotomy i i') as [L|[L|L]]; auto; exfalso.
  - exact (W i i' L Hi Hi' Hx Hx').
  - exact (W i' i L Hi' Hi Hx' Hx).
Qed.

Lemma leaf_unique f : forall nd root t M, ct_build f nd root = Ok t -> root || negb (is_leaf nd) = true ->
  (1 <= cn_bm nd)%Z -> (1 <= cn_bn nd)%Z -> regular t -> hier ini t = Ok M ->
  forall p q B C x y, block_at M p = Some B -> block_at M q = Some C ->
  (forall m n b, B <> MH m n b) -> (forall m n b, C <> MH m n b) ->
  in_node x y (node_at nd p) -> in_node x y (node_at nd q) -> p = q.
Proof using SH.
  induction f as [|f IH]; intros nd root t M Hb Hr Hm Hn Hreg HM p q B C x y HB HC NB NC Ip Iq; [discriminate|].
  destruct (hier_children f nd root t M Hb Hr HM) as [b [EM HCh]].
  destruct (children_nonneg f nd root t Hb Hr Hm Hn Hreg) as [NR NCo].
  destruct p as [|[i j] p]. { rewrite block_nil in HB. injection HB as HB. subst B. subst M. exfalso. eapply NB; reflexivity. }
  destruct q as [|[i' j'] q]. { rewrite block_nil in HC. injection HC as HC. subst C. subst M. exfalso. eapply NC; reflexivity. }
  subst M. cbn [block_at] in HB, HC.
  destruct (Nat.ltb_spec i (Z.to_nat (cn_bm nd))) as [Hi|Hi]; [|discriminate].
  destruct (Nat.ltb_spec j (Z.to_nat (cn_bn nd))) as [Hj|Hj]; [|discriminate]. cbn [andb] in HB.
  destruct (Nat.ltb_spec i' (Z.to_nat (cn_bm nd))) as [Hi'|Hi']; [|discriminate].
  destruct (Nat.ltb_spec j' (Z.to_nat (cn_bn nd))) as [Hj'|Hj']; [|discriminate]. cbn [andb] in HC.
  assert (INS : forall i j p B, i < Z.to_nat (cn_bm nd) -> j < Z.to_nat (cn_bn nd) -> block_at (b i j) p = Some B ->
    in_node x y (node_at nd ((i, j) :: p)) -> in_node x y (child_node nd (i, j))).
  { clear - IH HCh Hreg Hm Hn SH. intros i j p B Hi Hj HB Ip. destruct (HCh i j Hi Hj) as [c [Hin [Hbc [Ec Hc]]]].
    assert (Rc : regular c) by (destruct t as [nd' cs]; exact (regular_child nd' cs c Hreg Hin)).
    destruct (block_of f (child_node nd (i, j)) c (b i j) Hbc Ec Hm Hn Rc Hc) as [S0 [D1 [D2 K]]].
    destruct p as [|q p]; [exact Ip|]. destruct K as [[Ka [Kl Kh]]|K].
    - apply (below_inside f (child_node nd (i, j)) false c (b i j) Hbc) with (p := q :: p) (B := B); auto. rewrite Kl. reflexivity.
    - exfalso. destruct q as [i' j']. cbn [block_at] in HB. destruct (b i j); try discriminate. eapply K; reflexivity. }
  destruct (INS i j p B Hi Hj HB Ip) as [X1 Y1]. destruct (INS i' j' q C Hi' Hj' HC Iq) as [X2 Y2].
  assert (i = i') by exact (part_unique _ _ i i' x Hm NR Hi Hi' X1 X2).
  assert (j = j') by exact (part_unique _ _ j j' y Hn NCo Hj Hj' Y1 Y2). subst i' j'. f_equal.
  destruct (HCh i j Hi Hj) as [c [Hin [Hbc [Ec Hc]]]].
  assert (Rc : regular c) by (destruct t as [nd' cs]; exact (regular_child nd' cs c Hreg Hin)).
  destruct (block_of f (child_node nd (i, j)) c (b i j) Hbc Ec Hm Hn Rc Hc) as [S0 [D1 [D2 K]]].
  destruct K as [[Ka [Kl Kh]]|K].
  - apply (IH (child_node nd (i, j)) false c (b i j) Hbc) with (B := B) (C := C) (x := x) (y := y); auto. rewrite Kl. reflexivity.
  - destruct p as [|[a a'] p]; [destruct q as [|[a a'] q]; auto|]; exfalso.
    + cbn [block_at] in HC. destruct (b i j); try discriminate. eapply K; reflexivity.
    + cbn [block_at] in HB. destruct (b i j); try discriminate. eapply K; reflexivity.
Qed.

(** Which paths lead to a block: those along divided nodes. *)
Lemma path_iff f : forall nd root t M, ct_build f nd root = Ok t -> root || negb (is_leaf nd) = true ->
  (1 <= cn_bm nd)%Z -> (1 <= cn_bn nd)%Z -> regular t -> hier ini t = Ok M ->
  forall p, (exists B, block_at M p = Some B) <->
  (bounded nd p /\ forall q ij r, p = q ++ ij :: r -> q <> [] -> in_adm ini (node_at nd q) = Ok false /\ is_leaf (node_at nd q) = false).
Proof using SH.
  induction f as [|f IH]; intros nd root t M Hb Hr Hm Hn Hreg HM p; [discriminate|].
  destruct (hier_children f nd root t M Hb Hr HM) as [b [-> HCh]].
  destruct p as [|[i j] p].
  { split; [|rewrite block_nil; eauto]. intros _. split; [constructor|]. intros q ij r E. destruct q; discriminate. }
  cbn [block_at]. destruct (Nat.ltb_spec i (Z.to_nat (cn_bm nd))) as [Hi|Hi].
  2:{ cbn [andb]. split; [intros [B HB]; discriminate|]. intros [Hbd _]. inversion Hbd as [|? ? [L _] ?]. simpl in L. lia. }
  destruct (Nat.ltb_spec j (Z.to_nat (cn_bn nd))) as [Hj|Hj]; cbn [andb].
  2:{ split; [intros [B HB]; discriminate|]. intros [Hbd _]. inversion Hbd as [|? ? [_ L] ?]. simpl in L. lia. }
  destruct (HCh i j Hi Hj) as [c [Hin [Hbc [Ec Hc]]]].
  assert (Rc : regular c) by (destruct t as [nd' cs]; exact (regular_child nd' cs c Hreg Hin)).
  destruct (block_of f (child_node nd (i, j)) c (b i j) Hbc Ec Hm Hn Rc Hc) as [S0 [D1 [D2 K]]].
  destruct K as [[Ka [Kl Kh]]|K].
  - assert (Hr' : false || negb (is_leaf (child_node nd (i, j))) = true) by (rewrite Kl; reflexivity).
    rewrite (IH _ false c (b i j) Hbc Hr' Hm Hn Rc Kh p). split.
    + intros [G1 G2]. split; [constructor; [auto|exact G1]|]. intros q ij r E Hq. destruct q as [|a q]; [congruence|].
      inversion E; subst a p. destruct q as [|a q]; [auto|]. apply (G2 (a :: q) ij r eq_refl). discriminate.
    + intros [G1 G2]. split; [inversion G1; auto|]. intros q ij r E Hq.
      apply (G2 ((i, j) :: q) ij r); [rewrite E; reflexivity|discriminate].
  - split.
    + intros [B HB]. destruct p as [|[a a'] p].
      * split; [constructor; [auto|constructor]|]. intros q ij r E Hq. destruct q as [|u q]; [congruence|]. inversion E. destruct q; discriminate.
      * exfalso. cbn [block_at] in HB. destruct (b i j); try discriminate. eapply K; reflexivity.
    + intros [G1 G2]. destruct p as [|a p]; [rewrite block_nil; eauto|].
      destruct (G2 [(i, j)] a p eq_refl ltac:(discriminate)) as [F1 F2]. cbn [node_at fold_left] in F1, F2. exfalso.
      destruct (b i j) as [d|l|m n b'|r' c']; cbn [stored] in S0; try tauto; try (destruct S0 as [S1 S2]; try destruct S2; congruence).
Qed.
End JsonTree.
