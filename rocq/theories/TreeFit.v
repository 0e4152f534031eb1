(** Constructed matrices are divided along common trees. *)
From Coq Require Import List Arith ZArith QArith Lia Bool.
From Verif Require Import Prelude IndexRange IndexRangeSpec IndexRangeProofs Ring MatFun Matrix MatOps MatSpec MatOpsProofs
  Gemm Triangular ClusterTree ClusterTreeSpec ClusterTreeProofs ClusterTreeRegular Construct ConstructProofs Admissible
  CommonTree GemmSucc.
Import ListNotations.
Local Open Scope nat_scope.
Notation cpart := CommonTree.part.
Notation len := ConstructProofs.len.

(** ** Axes *)

Lemma part_start n k i s : cpart n k i = Z.to_nat (ir_n (ir_split_child (IR s (Z.of_nat n)) (Z.of_nat k) (Z.of_nat i))).
Proof. unfold CommonTree.part, ir_split_child. simpl. reflexivity. Qed.

Lemma part_range r k i : (0 <= ir_n r)%Z -> (1 <= k)%Z -> i < Z.to_nat k ->
  len (nth i (ir_split r k) (IR 0 0)) = cpart (len r) (Z.to_nat k) i.
Proof.
  intros Hr Hk Hi. rewrite ir_split_nth by auto. unfold len. rewrite (part_start _ _ _ (ir_start r)).
  rewrite !Z2Nat.id by lia. destruct r. reflexivity.
Qed.

Lemma divides_iff n k : 1 <= k -> (divides n k <-> (k - 1) * ((n + k - 1) / k) <= n).
Proof.
  intros Hk. unfold divides. rewrite ir_split_tiles_iff by (simpl; lia). simpl.
  rewrite Z.quot_div_nonneg by lia.
  replace (Z.of_nat n + Z.of_nat k - 1)%Z with (Z.of_nat (n + k - 1)) by lia. rewrite <- Nat2Z.inj_div.
  rewrite Nat2Z.inj_le, Nat2Z.inj_mul. replace (Z.of_nat k - 1)%Z with (Z.of_nat (k - 1)) by lia. tauto.
Qed.

Lemma divides_nonneg r k i : (0 <= ir_n r)%Z -> (1 <= k)%Z -> divides (len r) (Z.to_nat k) -> i < Z.to_nat k ->
  (0 <= ir_n (nth i (ir_split r k) (IR 0 0)))%Z.
Proof.
  intros Hr Hk D Hi. rewrite ir_split_nth by auto. unfold divides in D.
  rewrite ir_split_tiles_iff in D by (simpl; lia). cbn [ir_n] in D.
  unfold len in D. rewrite !Z2Nat.id in D by lia. unfold ir_split_child. cbn [ir_n].
  destruct (ceil_bounds (ir_n r) k Hr ltac:(lia)) as [Hc Hc0]. destruct (_ =? _)%Z eqn:E; lia.
Qed.

Lemma divides_2 n : divides n 2.
Proof. apply divides_iff; auto. pose proof (Nat.div_mod (n + 2 - 1) 2 ltac:(lia)). pose proof (Nat.mod_upper_bound (n + 2 - 1) 2). lia. Qed.

Lemma divides_mul q k : 1 <= k -> divides (q * k) k.
Proof.
  intros Hk. apply divides_iff; auto. replace (q * k + k - 1) with (k - 1 + q * k) by lia.
  rewrite Nat.div_add by lia. rewrite Nat.div_small by lia. nia.
Qed.

Lemma part_mul q k i : 1 <= k -> i < k -> cpart (q * k) k i = q.
Proof.
  intros Hk Hi. unfold CommonTree.part. rewrite (split_child_div _ _ (Z.of_nat q)); [apply Nat2Z.id| | | |]; simpl; lia.
Qed.

Lemma asize_uniform n k d : asize (uniform n k d) = n.
Proof. destruct d; simpl; auto. destruct (k <=? 1); auto. Qed.

(** Two parts always divide; so do k parts of a multiple of a power of k. *)
Lemma valid_uniform_2 d : forall n, valid (uniform n 2 d).
Proof.
  induction d as [|d IH]; intros n; simpl; auto. split; auto. split; [apply divides_2|].
  intros i Hi. split; [apply asize_uniform|apply IH].
Qed.

Lemma valid_uniform_pow s k d : forall l, d <= l -> valid (uniform (s * k ^ l) k d).
Proof.
  induction d as [|d IH]; intros l Hl; simpl; auto. destruct (Nat.leb_spec k 1); simpl; auto.
  destruct l as [|l]; [lia|]. replace (s * k ^ S l) with (s * k ^ l * k) by (simpl; lia).
  split; [lia|]. split; [apply divides_mul; lia|]. intros i Hi. rewrite part_mul by lia.
  split; [apply asize_uniform|apply IH; lia].
Qed.

Lemma valid_uniform_S n k d i : 1 <= k -> i < k -> valid (uniform n k (S d)) ->
  divides n k /\ sub (uniform n k (S d)) i = uniform (cpart n k i) k d /\ deg (uniform n k (S d)) = k /\
  valid (uniform (cpart n k i) k d).
Proof.
  intros Hk Hi. cbn [uniform]. destruct (Nat.leb_spec k 1).
  - intros _. assert (k = 1) by lia. subst. assert (i = 0) by lia. subst.
    assert (P : cpart n 1 0 = n).
    { replace n with (n * 1) at 1 by lia. apply part_mul; auto. }
    rewrite P. split; [replace n with (n * 1) by lia; apply divides_mul; auto|].
    assert (U : uniform n 1 d = Leaf n) by (destruct d; auto). rewrite U. simpl. auto.
  - intros [_ [D V]]. split; auto. split; auto. split; auto. apply V; auto.
Qed.

Section Fit.
Context {R : cring}.
Notation dense := (dense R).
Notation lowrank := (lowrank R).
Notation matrix := (matrix R).
Variable ini : initializer R.

(** ** The children of a constructed node *)
Lemma hier_children f nd root t (M : matrix) : ct_build f nd root = Ok t -> root || negb (is_leaf nd) = true ->
  hier ini t = Ok M -> exists f' b, f = S f' /\ M = MH (Z.to_nat (cn_bm nd)) (Z.to_nat (cn_bn nd)) b /\
  forall i j, i < Z.to_nat (cn_bm nd) -> j < Z.to_nat (cn_bn nd) ->
    exists c, ct_build f' (child_node nd (i, j)) false = Ok c /\ ct_node c = child_node nd (i, j) /\
      hblock ini (hier ini) c = Ok (b i j).
Proof.
  intros Hb Hr H.
  destruct (ct_build_inv _ _ _ _ Hb) as [f' [Ef [End [[_ HF]|[E _]]]]]; [|congruence].
  destruct t as [nd' cs]. simpl in End. subst nd'. simpl in HF. rewrite hier_go in H.
  apply bind_Ok in H. destruct H as [b [Hg H]]. inversion H; subst M; clear H.
  exists f', b. split; auto. split; auto.
  assert (HP : Forall2 (fun ij c => cn_irel (ct_node c) = Z.of_nat (fst ij) /\ cn_jrel (ct_node c) = Z.of_nat (snd ij))
     (block_positions (cn_bm nd) (cn_bn nd)) cs).
  { eapply Forall2_imp; [|exact HF]. intros [i j] c Hc. cbv beta in Hc.
    destruct (ct_build_inv _ _ _ _ Hc) as [_ [_ [Ec _]]]. rewrite Ec. auto. }
  destruct (go_spec ini _ _ _ _ _ _ _ (positions_nodup _ _) HP Hg) as [_ HG].
  pose proof (Forall2_both _ _ _ _ HF HG) as HB. intros i j Hi Hj.
  destruct (Forall2_nth_error _ _ _ _ _ HB (block_positions_nth _ _ i j Hi Hj)) as [c [Hc [H1 H2]]].
  destruct (ct_build_inv _ _ _ _ H1) as [_ [_ [Ec _]]]. eauto.
Qed.

(** What a block can be. *)
Lemma hblock_inv c (M : matrix) : hblock ini (hier ini) c = Ok M ->
  (in_adm ini (ct_node c) = Ok true /\ exists d l, in_fill ini (cn_rows (ct_node c)) (cn_cols (ct_node c)) = Ok d /\
     in_comp ini d = Ok l /\ M = ML l) \/
  (in_adm ini (ct_node c) = Ok false /\ is_leaf (ct_node c) = true /\
     exists d, in_fill ini (cn_rows (ct_node c)) (cn_cols (ct_node c)) = Ok d /\ M = MD d) \/
  (in_adm ini (ct_node c) = Ok false /\ is_leaf (ct_node c) = false /\ hier ini c = Ok M).
Proof.
  intros H. unfold hblock in H. apply bind_Ok in H. destruct H as [a [Ha H]].
  assert (GD : forall d, get_dense ini (ct_node c) = Ok d ->
     in_fill ini (cn_rows (ct_node c)) (cn_cols (ct_node c)) = Ok d).
  { intros d. unfold get_dense. destruct ((0 <=? _)%Z && (0 <=? _)%Z); [auto|discriminate]. }
  destruct a.
  - left. split; auto. apply bind_Ok in H. destruct H as [l [Hl H]]. inversion H; subst.
    unfold get_compressed in Hl. apply bind_Ok in Hl. destruct Hl as [d [Hd Hl]]. eauto 6.
  - right. destruct (is_leaf (ct_node c)); [left|right]; auto. split; auto. split; auto.
    apply bind_Ok in H. destruct H as [d [Hd H]]. inversion H; subst. eauto.
Qed.

(** ** A constructed matrix fits its axes *)
Variable QS : nat -> nat -> Prop.
Notation fit := (fit QS).
Definition mids : Prop := forall d l, in_comp ini d = Ok l -> mid QS l.

Lemma hier_fit (SH : shapely ini) (HQ : mids) f : forall nd root t M, ct_build f nd root = Ok t -> root || negb (is_leaf nd) = true ->
  (1 <= cn_bm nd)%Z -> (1 <= cn_bn nd)%Z -> (0 <= ir_n (cn_rows nd))%Z -> (0 <= ir_n (cn_cols nd))%Z ->
  valid (uniform (len (cn_rows nd)) (Z.to_nat (cn_bm nd)) f) -> valid (uniform (len (cn_cols nd)) (Z.to_nat (cn_bn nd)) f) ->
  hier ini t = Ok M ->
  fit (uniform (len (cn_rows nd)) (Z.to_nat (cn_bm nd)) f) (uniform (len (cn_cols nd)) (Z.to_nat (cn_bn nd)) f) M.
Proof.
  induction f as [|f IH]; intros nd root t M Hb Hr Hbm Hbn Pr Pc Vr Vc H; [discriminate|].
  destruct (hier_children _ _ _ _ _ Hb Hr H) as [f' [b [Ef [-> CH]]]]. inversion Ef; subst f'.
  assert (Km : 1 <= Z.to_nat (cn_bm nd)) by lia. assert (Kn : 1 <= Z.to_nat (cn_bn nd)) by lia.
  destruct (valid_uniform_S _ _ _ 0 Km Km Vr) as [Dr [_ [Gr _]]].
  destruct (valid_uniform_S _ _ _ 0 Kn Kn Vc) as [Dc [_ [Gc _]]].
  cbn [CommonTree.fit]. split; auto. split; auto. intros i j Hi Hj.
  destruct (valid_uniform_S _ _ _ i Km Hi Vr) as [_ [-> [_ Vri]]].
  destruct (valid_uniform_S _ _ _ j Kn Hj Vc) as [_ [-> [_ Vcj]]].
  destruct (CH i j Hi Hj) as [c [Hc [Ec HB]]].
  assert (Lr : len (cn_rows (child_node nd (i, j))) = cpart (len (cn_rows nd)) (Z.to_nat (cn_bm nd)) i) by (apply part_range; auto).
  assert (Lc : len (cn_cols (child_node nd (i, j))) = cpart (len (cn_cols nd)) (Z.to_nat (cn_bn nd)) j) by (apply part_range; auto).
  destruct (hblock_inv _ _ HB) as [[_ [d [l [Fd [Cl ->]]]]]|[[_ [_ [d [Fd ->]]]]|[_ [NL HM]]]].
  - destruct SH as [S1 S2]. destruct (S1 _ _ _ Fd) as [E1 E2]. destruct (S2 _ _ Cl) as [W [E3 E4]]. rewrite Ec in E1, E2.
    cbn [CommonTree.fit]. rewrite !asize_uniform. split; auto. rewrite E3, E4, E1, E2, <- Lr, <- Lc. split; auto. split; auto. eapply HQ; eauto.
  - destruct SH as [S1 S2]. destruct (S1 _ _ _ Fd) as [E1 E2]. rewrite Ec in E1, E2.
    cbn [CommonTree.fit]. rewrite !asize_uniform, <- Lr, <- Lc. auto.
  - rewrite <- Lr, <- Lc in *.
    apply (IH (child_node nd (i, j)) false c); auto.
    + rewrite Ec in NL. rewrite NL. reflexivity.
    + apply divides_nonneg; auto.
    + apply divides_nonneg; auto.
Qed.

Lemma hierarchical_fit (SH : shapely ini) (HQ : mids) fuel rows cols bm bn nleaf M : (1 <= bm)%Z -> (1 <= bn)%Z ->
  (0 <= ir_n rows)%Z -> (0 <= ir_n cols)%Z ->
  valid (uniform (len rows) (Z.to_nat bm) fuel) -> valid (uniform (len cols) (Z.to_nat bn) fuel) ->
  hierarchical ini fuel rows cols bm bn nleaf = Ok M ->
  fit (uniform (len rows) (Z.to_nat bm) fuel) (uniform (len cols) (Z.to_nat bn) fuel) M.
Proof.
  intros Hm Hn Pr Pc Vr Vc H. destruct (hierarchical_inv _ _ _ _ _ _ _ _ H) as [t [Ht HM]].
  exact (hier_fit SH HQ fuel _ true t M Ht eq_refl Hm Hn Pr Pc Vr Vc HM).
Qed.

(** ** What holds of all compressed blocks *)
Variable PL EL : Matrix.lowrank R -> Prop.
Lemma hier_good f : forall nd root t M, ct_build f nd root = Ok t -> root || negb (is_leaf nd) = true ->
  (forall d l, in_comp ini d = Ok l -> PL l /\ EL l) -> ~ (Z.to_nat (cn_bm nd) = 1 /\ Z.to_nat (cn_bn nd) = 1) ->
  hier ini t = Ok M -> good PL EL M.
Proof.
  induction f as [|f IH]; intros nd root t M Hb Hr HC HN H; [discriminate|].
  destruct (hier_children _ _ _ _ _ Hb Hr H) as [f' [b [Ef [-> CH]]]]. inversion Ef; subst f'.
  split; auto. intros i j Hi Hj. destruct (CH i j Hi Hj) as [c [Hc [Ec HB]]].
  destruct (hblock_inv _ _ HB) as [[_ [d [l [Fd [Cl ->]]]]]|[[_ [_ [d [Fd ->]]]]|[_ [NL HM]]]].
  - simpl. eauto.
  - exact I.
  - apply (IH (child_node nd (i, j)) false c); auto. rewrite Ec in NL. rewrite NL. reflexivity.
Qed.

Lemma hierarchical_good fuel rows cols bm bn nleaf M :
  (forall d l, in_comp ini d = Ok l -> PL l /\ EL l) -> ~ (Z.to_nat bm = 1 /\ Z.to_nat bn = 1) ->
  hierarchical ini fuel rows cols bm bn nleaf = Ok M -> good PL EL M.
Proof.
  intros HC HN H. destruct (hierarchical_inv _ _ _ _ _ _ _ _ H) as [t [Ht HM]].
  exact (hier_good fuel _ true t M Ht eq_refl HC HN HM).
Qed.

Lemma hier_allp f : forall nd root t M, ct_build f nd root = Ok t -> root || negb (is_leaf nd) = true ->
  (forall d l, in_comp ini d = Ok l -> PL l) -> hier ini t = Ok M -> allp PL M.
Proof.
  induction f as [|f IH]; intros nd root t M Hb Hr HC H; [discriminate|].
  destruct (hier_children _ _ _ _ _ Hb Hr H) as [f' [b [Ef [-> CH]]]]. inversion Ef; subst f'.
  intros i j Hi Hj. destruct (CH i j Hi Hj) as [c [Hc [Ec HB]]].
  destruct (hblock_inv _ _ HB) as [[_ [d [l [Fd [Cl ->]]]]]|[[_ [_ [d [Fd ->]]]]|[_ [NL HM]]]].
  - simpl. eauto.
  - exact I.
  - apply (IH (child_node nd (i, j)) false c); auto. rewrite Ec in NL. rewrite NL. reflexivity.
Qed.

Lemma hierarchical_allp fuel rows cols bm bn nleaf M : (forall d l, in_comp ini d = Ok l -> PL l) ->
  hierarchical ini fuel rows cols bm bn nleaf = Ok M -> allp PL M.
Proof.
  intros HC H. destruct (hierarchical_inv _ _ _ _ _ _ _ _ H) as [t [Ht HM]].
  exact (hier_allp fuel _ true t M Ht eq_refl HC HM).
Qed.

(** ** Blocks of equal size on each level *)
Section Level.
Variables (k nleaf s : Z).
Hypothesis Hk : (2 <= k)%Z.
Hypothesis Hs : (2 <= s <= nleaf)%Z.

Definition level (e : nat) (nd : cnode) : Prop :=
  cn_bm nd = k /\ cn_bn nd = k /\ cn_nleaf nd = nleaf /\
  ir_n (cn_rows nd) = (s * k ^ Z.of_nat e)%Z /\ ir_n (cn_cols nd) = (s * k ^ Z.of_nat e)%Z.

Lemma level_child e nd i j : level (S e) nd -> i < Z.to_nat k -> j < Z.to_nat k -> level e (child_node nd (i, j)).
Proof.
  intros [E1 [E2 [E3 [E4 E5]]]] Hi Hj. unfold level. cbn [child_node cn_bm cn_bn cn_nleaf cn_rows cn_cols fst snd].
  rewrite E1, E2. split; auto. split; auto. split; auto.
  rewrite !ir_split_nth by auto. rewrite Nat2Z.inj_succ, Z.pow_succ_r in E4, E5 by lia.
  assert (0 < k ^ Z.of_nat e)%Z by (apply Z.pow_pos_nonneg; lia).
  split; apply split_child_div; try lia; nia.
Qed.

Lemma level_leaf e nd nd' : level e nd -> level e nd' -> is_leaf nd' = is_leaf nd.
Proof.
  intros [_ [_ [E3 [E4 E5]]]] [_ [_ [F3 [F4 F5]]]]. unfold is_leaf. now rewrite E3, E4, E5, F3, F4, F5.
Qed.

Lemma level_inner e nd : level e nd -> is_leaf nd = false -> exists e', e = S e'.
Proof.
  intros [_ [_ [E3 [E4 E5]]]] L. destruct e as [|e]; [|eauto]. exfalso. simpl in E4, E5. unfold is_leaf in L.
  replace (ir_n (cn_rows nd) <=? cn_nleaf nd)%Z with true in L by (symmetry; apply Z.leb_le; lia).
  replace (ir_n (cn_cols nd) <=? cn_nleaf nd)%Z with true in L by (symmetry; apply Z.leb_le; lia).
  discriminate.
Qed.

Lemma level_2 e nd : level e nd -> (2 <= ir_n (cn_rows nd))%Z /\ (2 <= ir_n (cn_cols nd))%Z.
Proof.
  intros [_ [_ [_ [-> ->]]]]. assert (0 < k ^ Z.of_nat e)%Z by (apply Z.pow_pos_nonneg; lia). nia.
Qed.

(** The matrix fits an axis of as many levels. *)
Lemma level_len e nd : level e nd ->
  len (cn_rows nd) = Z.to_nat s * Z.to_nat k ^ e /\ len (cn_cols nd) = Z.to_nat s * Z.to_nat k ^ e.
Proof.
  intros [_ [_ [_ [E4 E5]]]]. unfold len. rewrite E4, E5.
  assert (P : Z.to_nat (s * k ^ Z.of_nat e) = Z.to_nat s * Z.to_nat k ^ e).
  { clear E4 E5. rewrite Z2Nat.inj_mul by (try apply Z.pow_nonneg; lia). f_equal.
    induction e as [|e IH]; [reflexivity|].
    rewrite Nat2Z.inj_succ, Z.pow_succ_r by lia. rewrite Z2Nat.inj_mul by (try apply Z.pow_nonneg; lia).
    rewrite IH. reflexivity. }
  auto.
Qed.

Lemma hier_fit_level (SH : shapely ini) (HQ : mids) : forall e f nd root t M, ct_build f nd root = Ok t ->
  root || negb (is_leaf nd) = true -> level (S e) nd -> hier ini t = Ok M ->
  fit (uniform (Z.to_nat s * Z.to_nat k ^ S e) (Z.to_nat k) (S e)) (uniform (Z.to_nat s * Z.to_nat k ^ S e) (Z.to_nat k) (S e)) M.
Proof.
  induction e as [|e IH]; intros f nd root t M Hb Hr HL H;
    destruct (hier_children _ _ _ _ _ Hb Hr H) as [f' [b [Ef [-> CH]]]];
    (assert (E1 : cn_bm nd = k) by apply HL); (assert (E2 : cn_bn nd = k) by apply HL); rewrite E1, E2 in *;
    cbn [uniform]; (destruct (Nat.leb_spec (Z.to_nat k) 1); [lia|]);
    cbn [CommonTree.fit deg sub]; (split; [reflexivity|]); (split; [reflexivity|]); intros i j Hi Hj;
    (match goal with |- context[Z.to_nat s * Z.to_nat k ^ S ?x] =>
       replace (Z.to_nat s * Z.to_nat k ^ S x) with (Z.to_nat s * Z.to_nat k ^ x * Z.to_nat k) by (cbn [Nat.pow]; lia) end);
    rewrite !part_mul by lia;
    destruct (CH i j Hi Hj) as [c [Hc [Ec HB]]];
    destruct (level_len _ _ (level_child _ nd i j HL Hi Hj)) as [Lr Lc]; unfold len in Lr, Lc;
    (destruct (hblock_inv _ _ HB) as [[_ [d [l [Fd [Cl ->]]]]]|[[_ [_ [d [Fd ->]]]]|[_ [NL HM]]]];
     [destruct SH as [S1 S2]; destruct (S1 _ _ _ Fd) as [D1 D2]; destruct (S2 _ _ Cl) as [W [D3 D4]]; rewrite Ec in D1, D2;
      cbn [CommonTree.fit]; rewrite ?asize_uniform; split; auto; rewrite D3, D4, D1, D2; split; auto; split; auto; eapply HQ; eauto
     |destruct SH as [S1 S2]; destruct (S1 _ _ _ Fd) as [D1 D2]; rewrite Ec in D1, D2; cbn [CommonTree.fit]; rewrite ?asize_uniform, D1, D2; auto
     |rewrite Ec in NL]).
  - destruct (level_inner _ _ (level_child _ nd i j HL Hi Hj) NL) as [e' E]. discriminate.
  - assert (X : fit (uniform (Z.to_nat s * Z.to_nat k ^ S e) (Z.to_nat k) (S e)) (uniform (Z.to_nat s * Z.to_nat k ^ S e) (Z.to_nat k) (S e)) (b i j)).
    { apply (IH f' (child_node nd (i, j)) false c); auto using level_child. rewrite NL. reflexivity. }
    cbn [uniform] in X. destruct (Nat.leb_spec (Z.to_nat k) 1); [lia|exact X].
Qed.

(** Blocks on the diagonal are not compressed. *)
Hypothesis HD : forall nd, cn_iabs nd = cn_jabs nd -> in_adm ini nd = Ok false.

Lemma child_diag nd i e : level e nd -> cn_iabs nd = cn_jabs nd ->
  cn_iabs (child_node nd (i, i)) = cn_jabs (child_node nd (i, i)).
Proof. intros [E1 [E2 _]] H. cbn [child_node cn_iabs cn_jabs fst snd]. rewrite E1, E2, H. reflexivity. Qed.

Lemma child_off nd i j e : level e nd -> cn_iabs nd = cn_jabs nd -> i <> j ->
  cn_iabs (child_node nd (i, j)) <> cn_jabs (child_node nd (i, j)).
Proof. intros [E1 [E2 _]] H N. cbn [child_node cn_iabs cn_jabs fst snd]. rewrite E1, E2, H. lia. Qed.

(** Those off the diagonal are. *)
Lemma hier_hodlr (HO : forall nd, cn_iabs nd <> cn_jabs nd -> (2 <= ir_n (cn_rows nd))%Z -> (2 <= ir_n (cn_cols nd))%Z ->
    in_adm ini nd = Ok true) f :
  forall e nd root t M, ct_build f nd root = Ok t -> root || negb (is_leaf nd) = true -> level (S e) nd ->
  cn_iabs nd = cn_jabs nd -> hier ini t = Ok M -> hodlr M.
Proof.
  induction f as [|f IH]; intros e nd root t M Hb Hr HL Hd H; [discriminate|].
  destruct (hier_children _ _ _ _ _ Hb Hr H) as [f' [b [Ef [-> CH]]]]. inversion Ef; subst f'.
  assert (E1 : cn_bm nd = k) by apply HL. assert (E2 : cn_bn nd = k) by apply HL. rewrite E1, E2 in *.
  cbn [hodlr]. split; auto. split.
  - intros i Hi. destruct (CH i i Hi Hi) as [c [Hc [Ec HB]]].
    pose proof (child_diag _ i _ HL Hd) as Dc. pose proof (HD _ Dc) as A.
    destruct (hblock_inv _ _ HB) as [[A' _]|[[_ [_ [d [Fd ->]]]]|[_ [NL HM]]]]; [rewrite Ec in A'; congruence|exact I|rewrite Ec in NL].
    pose proof (level_child e nd i i HL Hi Hi) as LC. destruct (level_inner _ _ LC NL) as [e' ->].
    apply (IH e' (child_node nd (i, i)) false c); auto. rewrite NL. reflexivity.
  - intros i j Hi Hj N. destruct (CH i j Hi Hj) as [c [Hc [Ec HB]]].
    pose proof (child_off _ i j _ HL Hd N) as Dc.
    destruct (level_2 _ _ (level_child e nd i j HL Hi Hj)) as [T1 T2]. pose proof (HO _ Dc T1 T2) as A.
    destruct (hblock_inv _ _ HB) as [[_ [d [l [_ [_ ->]]]]]|[[A' _]|[A' _]]]; [eauto|rewrite Ec in A'; congruence..].
Qed.

(** Two blocks on one level, the first on the diagonal. *)
Lemma hblock_below f : forall e f2 nd1 nd2 c1 c2 (M1 M2 : matrix) sd,
  ct_build f nd1 false = Ok c1 -> ct_build f2 nd2 false = Ok c2 -> level e nd1 -> level e nd2 ->
  cn_iabs nd1 = cn_jabs nd1 -> hblock ini (hier ini) c1 = Ok M1 -> hblock ini (hier ini) c2 = Ok M2 -> below sd M1 M2.
Proof.
  induction f as [|f IH]; intros e f2 nd1 nd2 c1 c2 M1 M2 sd B1 B2 L1 L2 Hd H1 H2; [discriminate|].
  assert (Ec1 : ct_node c1 = nd1) by (destruct (ct_build_inv _ _ _ _ B1) as [_ [_ [X _]]]; exact X).
  assert (Ec2 : ct_node c2 = nd2) by (destruct (ct_build_inv _ _ _ _ B2) as [_ [_ [X _]]]; exact X).
  pose proof (HD _ Hd) as A1. pose proof (level_leaf e nd1 nd2 L1 L2) as LF.
  assert (G1 : cn_bm nd1 = k /\ cn_bn nd1 = k) by (split; apply L1).
  assert (G2 : cn_bm nd2 = k /\ cn_bn nd2 = k) by (split; apply L2).
  destruct G1 as [G1 G1'], G2 as [G2 G2'].
  destruct (hblock_inv _ _ H1) as [[A' _]|[[_ [IL [d [Fd ->]]]]|[_ [NL HM]]]]; [rewrite Ec1 in A'; congruence|rewrite Ec1 in IL|rewrite Ec1 in NL].
  - cbn [below]. destruct (hblock_inv _ _ H2) as [[_ [d2 [l2 [_ [_ ->]]]]]|[[_ [_ [d2 [_ ->]]]]|[_ [NL _]]]]; try discriminate.
    rewrite Ec2 in NL. congruence.
  - destruct (hier_children _ _ _ _ _ B1 ltac:(rewrite NL; reflexivity) HM) as [f' [b1 [Ef [-> CH1]]]]. inversion Ef; subst f'.
    cbn [below]. destruct (hblock_inv _ _ H2) as [[_ [d2 [l2 [_ [_ ->]]]]]|[[_ [_ [d2 [_ ->]]]]|[_ [NL2 HM2]]]]; auto.
    rewrite Ec2 in NL2.
    destruct (hier_children _ _ _ _ _ B2 ltac:(rewrite NL2; reflexivity) HM2) as [f2' [b2 [_ [-> CH2]]]].
    rewrite G1, G1' in CH1. rewrite G2, G2' in *. intros i j Hi Hj.
    assert (Ha : along sd i j < Z.to_nat k) by (destruct sd; auto).
    destruct (CH1 _ _ Ha Ha) as [x1 [X1 [_ Y1]]]. destruct (CH2 i j Hi Hj) as [x2 [X2 [_ Y2]]].
    destruct (level_inner _ _ L1 NL) as [e' ->].
    apply (IH e' f2' (child_node nd1 (along sd i j, along sd i j)) (child_node nd2 (i, j)) x1 x2); auto using level_child.
    eapply child_diag; eauto.
Qed.

Lemma hier_tower f :
  forall e nd root t M, ct_build f nd root = Ok t -> root || negb (is_leaf nd) = true -> level (S e) nd ->
  cn_iabs nd = cn_jabs nd -> hier ini t = Ok M -> tower M.
Proof.
  induction f as [|f IH]; intros e nd root t M Hb Hr HL Hd H; [discriminate|].
  destruct (hier_children _ _ _ _ _ Hb Hr H) as [f' [b [Ef [-> CH]]]]. inversion Ef; subst f'.
  assert (E1 : cn_bm nd = k) by apply HL. assert (E2 : cn_bn nd = k) by apply HL. rewrite E1, E2 in *.
  cbn [tower]. split; auto. split.
  - intros i Hi. destruct (CH i i Hi Hi) as [c [Hc [Ec HB]]].
    pose proof (child_diag _ i _ HL Hd) as Dc. pose proof (HD _ Dc) as A.
    destruct (hblock_inv _ _ HB) as [[A' _]|[[_ [_ [d [Fd ->]]]]|[_ [NL HM]]]]; [rewrite Ec in A'; congruence|exact I|rewrite Ec in NL].
    pose proof (level_child e nd i i HL Hi Hi) as LC. destruct (level_inner _ _ LC NL) as [e' ->].
    apply (IH e' (child_node nd (i, i)) false c); auto. rewrite NL. reflexivity.
  - intros i j Hij Hj. assert (Hi : i < Z.to_nat k) by lia.
    destruct (CH i i Hi Hi) as [c [Hc [Ec HB]]]. pose proof (child_diag _ i _ HL Hd) as Dc.
    destruct (CH i j Hi Hj) as [c2 [Hc2 [_ HB2]]]. destruct (CH j i Hj Hi) as [c3 [Hc3 [_ HB3]]].
    split.
    + apply (hblock_below f e f (child_node nd (i, i)) (child_node nd (i, j)) c c2); auto using level_child.
    + apply (hblock_below f e f (child_node nd (i, i)) (child_node nd (j, i)) c c3); auto using level_child.
Qed.
End Level.

Lemma root_level k nleaf s e r1 r2 : ir_n r1 = (s * k ^ Z.of_nat e)%Z -> ir_n r2 = (s * k ^ Z.of_nat e)%Z ->
  level k nleaf s e (root_node r1 r2 k k nleaf).
Proof. intros H1 H2. unfold level. simpl. auto. Qed.

Lemma hierarchical_fit_level (SH : shapely ini) (HQ : mids) k nleaf s e fuel rows cols M : (2 <= k)%Z -> (2 <= s <= nleaf)%Z ->
  ir_n rows = (s * k ^ Z.of_nat (S e))%Z -> ir_n cols = (s * k ^ Z.of_nat (S e))%Z ->
  hierarchical ini fuel rows cols k k nleaf = Ok M ->
  fit (uniform (Z.to_nat s * Z.to_nat k ^ S e) (Z.to_nat k) (S e)) (uniform (Z.to_nat s * Z.to_nat k ^ S e) (Z.to_nat k) (S e)) M.
Proof.
  intros Hk Hs Er Ec H. destruct (hierarchical_inv _ _ _ _ _ _ _ _ H) as [t [Ht HM]].
  exact (hier_fit_level k nleaf s Hk Hs SH HQ e fuel _ true t M Ht eq_refl (root_level k nleaf s (S e) rows cols Er Ec) HM).
Qed.

Lemma hierarchical_tower k nleaf s e fuel rows cols M : (2 <= k)%Z -> (2 <= s <= nleaf)%Z ->
  ir_n rows = (s * k ^ Z.of_nat (S e))%Z -> ir_n cols = (s * k ^ Z.of_nat (S e))%Z ->
  (forall nd, cn_iabs nd = cn_jabs nd -> in_adm ini nd = Ok false) ->
  hierarchical ini fuel rows cols k k nleaf = Ok M -> tower M.
Proof.
  intros Hk Hs Er Ec HD H. destruct (hierarchical_inv _ _ _ _ _ _ _ _ H) as [t [Ht HM]].
  exact (hier_tower k nleaf s Hk Hs HD fuel e _ true t M Ht eq_refl (root_level k nleaf s (S e) rows cols Er Ec) eq_refl HM).
Qed.

Lemma hierarchical_hodlr k nleaf s e fuel rows cols M : (2 <= k)%Z -> (2 <= s <= nleaf)%Z ->
  ir_n rows = (s * k ^ Z.of_nat (S e))%Z -> ir_n cols = (s * k ^ Z.of_nat (S e))%Z ->
  (forall nd, cn_iabs nd = cn_jabs nd -> in_adm ini nd = Ok false) ->
  (forall nd, cn_iabs nd <> cn_jabs nd -> (2 <= ir_n (cn_rows nd))%Z -> (2 <= ir_n (cn_cols nd))%Z -> in_adm ini nd = Ok true) ->
  hierarchical ini fuel rows cols k k nleaf = Ok M -> hodlr M.
Proof.
  intros Hk Hs Er Ec HD HO H. destruct (hierarchical_inv _ _ _ _ _ _ _ _ H) as [t [Ht HM]].
  exact (hier_hodlr k nleaf s Hk Hs HD HO fuel e _ true t M Ht eq_refl (root_level k nleaf s (S e) rows cols Er Ec) eq_refl HM).
Qed.
End Fit.

(** Admissibility by position: the diagonal is never admissible; with parameter 0
    everything else is, except rows and columns. *)
Lemma position_diag admis nd : (0 <= admis)%Q -> cn_iabs nd = cn_jabs nd -> is_admissible PositionBased [] admis nd = Ok false.
Proof.
  intros H E. unfold is_admissible. f_equal. apply andb_false_iff. right. unfold position_admissible, dist_to_diag.
  rewrite E, Z.sub_diag. simpl. rewrite Z.gtb_ltb. apply Z.ltb_ge. unfold Qtrunc.
  rewrite Z.quot_div_nonneg by (unfold Qle in H; simpl in H; lia). apply Z.div_pos; unfold Qle in H; simpl in H; lia.
Qed.

Lemma position_off admis nd : (0 <= admis < 1)%Q -> cn_iabs nd <> cn_jabs nd ->
  (2 <= ir_n (cn_rows nd))%Z -> (2 <= ir_n (cn_cols nd))%Z -> is_admissible PositionBased [] admis nd = Ok true.
Proof.
  intros [H H1] E Hr Hc. unfold is_admissible. f_equal. apply andb_true_iff. split.
  - rewrite !Z.gtb_ltb. apply andb_true_iff. split; apply Z.ltb_lt; lia.
  - unfold position_admissible, dist_to_diag. rewrite Z.gtb_ltb. apply Z.ltb_lt.
    assert (Qtrunc admis = 0%Z) as ->; [|lia]. unfold Qtrunc. apply Z.quot_small. unfold Qle, Qlt in *. simpl in *. lia.
Qed.
