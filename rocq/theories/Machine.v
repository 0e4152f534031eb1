(** Machine integers.  The other layers take [int64_t] as unbounded; here the index
    computations are done again with the widths the code uses, and an overflow of a signed
    type is undefined behaviour, as in C++17 (CMakeLists.txt:16).
    Covered: src/classes/initialization_helpers/index_range.cpp:15-28,
    src/classes/initialization_helpers/cluster_tree.cpp:14-45. *)
From Coq Require Import List Arith ZArith Lia Bool.
From Verif Require Import Prelude IndexRange IndexRangeProofs ClusterTree ClusterTreeProofs.
Import ListNotations.
Local Open Scope Z_scope.

(** ** Types *)

(** Largest values of [int64_t] and [int]. *)
Definition max64 : Z := 9223372036854775807.
Definition max32 : Z := 2147483647.

(** The result of a signed operation whose exact value is [z]. *)
Definition i64 (z : Z) : outcome Z := if (- max64 - 1 <=? z) && (z <=? max64) then Ok z else UB.
Definition i32 (z : Z) : outcome Z := if (- max32 - 1 <=? z) && (z <=? max32) then Ok z else UB.

(** Conversion to a signed type of the width; modulo a power of two with the compilers
    the project supports (implementation-defined before C++20). *)
Definition wrap64 (z : Z) : Z := (z + (max64 + 1)) mod (2 * (max64 + 1)) - (max64 + 1).
Definition wrap32 (z : Z) : Z := (z + (max32 + 1)) mod (2 * (max32 + 1)) - (max32 + 1).

(** Signed division. *)
Definition div64 (a b : Z) : outcome Z := if b =? 0 then UB else i64 (Z.quot a b).

Lemma i64_Ok z : - max64 - 1 <= z <= max64 -> i64 z = Ok z.
Proof. intros [H1 H2]. unfold i64. apply Z.leb_le in H1, H2. rewrite H1, H2. reflexivity. Qed.
Lemma i64_inv z y : i64 z = Ok y -> y = z /\ - max64 - 1 <= z <= max64.
Proof.
  unfold i64. destruct (_ <=? z) eqn:E1; simpl; [|discriminate]. destruct (z <=? _) eqn:E2; [|discriminate].
  intros E. injection E as <-. apply Z.leb_le in E1, E2. auto.
Qed.
Lemma i64_UB z : z < - max64 - 1 \/ max64 < z -> i64 z = UB.
Proof.
  intros H. unfold i64. destruct (_ <=? z) eqn:E1; auto. destruct (z <=? _) eqn:E2; auto.
  apply Z.leb_le in E1, E2. lia.
Qed.
Lemma i32_Ok z : - max32 - 1 <= z <= max32 -> i32 z = Ok z.
Proof. intros [H1 H2]. unfold i32. apply Z.leb_le in H1, H2. rewrite H1, H2. reflexivity. Qed.
Lemma i32_UB z : z < - max32 - 1 \/ max32 < z -> i32 z = UB.
Proof.
  intros H. unfold i32. destruct (_ <=? z) eqn:E1; auto. destruct (z <=? _) eqn:E2; auto.
  apply Z.leb_le in E1, E2. lia.
Qed.

(** ** IndexRange *)

(** One turn of the loop, index_range.cpp:17-22, from left to right. *)
Definition m_split_child (r : irange) (n_splits i : Z) : outcome irange :=
  let* s := i64 (ir_n r + n_splits) in
  let* s1 := i64 (s - 1) in
  let* child_n := div64 s1 n_splits in
  let* p := i64 (child_n * i) in
  let* child_start := i64 (ir_start r + p) in
  let* k1 := i64 (n_splits - 1) in
  if i =? k1
  then let* q := i64 (child_n * k1) in
       let* last_n := i64 (ir_n r - q) in
       Ok (IR child_start last_n)
  else Ok (IR child_start child_n).

(** index_range.cpp:15-24 *)
Definition m_split (r : irange) (n_splits : Z) : outcome (list irange) :=
  mapM (fun i => m_split_child r n_splits (Z.of_nat i)) (seq 0 (Z.to_nat n_splits)).

(** index_range.cpp:26-28 *)
Definition m_split_at (r : irange) (index : Z) : outcome (list irange) :=
  let* e := i64 (ir_start r + index) in
  let* m := i64 (ir_n r - index) in
  Ok [IR (ir_start r) index; IR e m].

(** index_range.cpp:34-40 *)
Fixpoint m_split_like_from (child_start : Z) (sizes : list Z) : outcome (list irange) :=
  match sizes with
  | [] => Ok []
  | child_n :: rest =>
      let* next := i64 (child_start + child_n) in
      let* r := m_split_like_from next rest in
      Ok (IR child_start child_n :: r)
  end.

Lemma m_split_child_sound r k i c : m_split_child r k i = Ok c -> c = ir_split_child r k i.
Proof.
  unfold m_split_child, div64, ir_split_child. intros H.
  apply bind_Ok in H. destruct H as [s [Hs H]]. apply i64_inv in Hs. destruct Hs as [-> _].
  apply bind_Ok in H. destruct H as [s [Hs H]]. apply i64_inv in Hs. destruct Hs as [-> _].
  apply bind_Ok in H. destruct H as [q [Hq H]].
  destruct (k =? 0); [discriminate|]. apply i64_inv in Hq. destruct Hq as [-> _].
  apply bind_Ok in H. destruct H as [s [Hs H]]. apply i64_inv in Hs. destruct Hs as [-> _].
  apply bind_Ok in H. destruct H as [s [Hs H]]. apply i64_inv in Hs. destruct Hs as [-> _].
  apply bind_Ok in H. destruct H as [s [Hs H]]. apply i64_inv in Hs. destruct Hs as [-> _].
  destruct (i =? k - 1).
  - apply bind_Ok in H. destruct H as [s [Hs H]]. apply i64_inv in Hs. destruct Hs as [-> _].
    apply bind_Ok in H. destruct H as [s [Hs H]]. apply i64_inv in Hs. destruct Hs as [-> _]. congruence.
  - congruence.
Qed.

Lemma mapM_map {A B} (f : A -> outcome B) (g : A -> B) l : (forall a, In a l -> f a = Ok (g a)) -> mapM f l = Ok (map g l).
Proof.
  induction l as [|a l IH]; intros H; simpl; auto.
  rewrite H by (left; auto). simpl. rewrite IH by (intros; apply H; right; auto). reflexivity.
Qed.
Lemma mapM_sound {A B} (f : A -> outcome B) (g : A -> B) l : forall r, mapM f l = Ok r ->
  (forall a b, f a = Ok b -> b = g a) -> r = map g l.
Proof.
  induction l as [|a l IH]; intros r H Hf; simpl in *; [congruence|].
  apply bind_Ok in H. destruct H as [b [Hb H]]. apply bind_Ok in H. destruct H as [bs [Hbs H]].
  injection H as <-. apply Hf in Hb. subst. f_equal. eauto.
Qed.

(** Whatever the arguments, the machine never returns anything but the exact ranges. *)
Lemma m_split_sound r k l : m_split r k = Ok l -> l = ir_split r k.
Proof.
  intros H. apply (mapM_sound _ (fun i => ir_split_child r k (Z.of_nat i))) in H; auto.
  intros a b. apply m_split_child_sound.
Qed.

(** Quotient of the first line for ranges that are not too negative. *)
Lemma child_n_bounds n k : 1 <= k -> - k < n ->
  let q := Z.quot (n + k - 1) k in 0 <= q /\ q * k <= n + k - 1 /\ n <= q * k.
Proof.
  intros Hk Hn q. unfold q. rewrite Z.quot_div_nonneg by lia.
  pose proof (Z.div_mod (n + k - 1) k ltac:(lia)) as D. pose proof (Z.mod_pos_bound (n + k - 1) k ltac:(lia)) as M.
  set (c := (n + k - 1) / k) in *. assert (0 <= c) by (apply Z.div_pos; lia). nia.
Qed.

Lemma m_split_child_exact r k i : 1 <= k <= max64 -> - k < ir_n r -> 0 <= ir_start r -> 0 <= i < k ->
  ir_n r + k <= max64 -> ir_start r + Z.quot (ir_n r + k - 1) k * (k - 1) <= max64 ->
  m_split_child r k i = Ok (ir_split_child r k i).
Proof.
  intros Hk Hn Hs Hi Hmax Hend. destruct (child_n_bounds (ir_n r) k ltac:(lia) Hn) as (Q0 & Q1 & Q2).
  unfold m_split_child, ir_split_child, div64. set (q := Z.quot (ir_n r + k - 1) k) in *.
  assert (q * i <= q * (k - 1)) by (apply Z.mul_le_mono_nonneg_l; lia).
  assert (0 <= q * i) by (apply Z.mul_nonneg_nonneg; lia).
  assert (q <= q * k) by nia.
  rewrite i64_Ok by (unfold max64 in *; lia). cbn [bind]. rewrite i64_Ok by (unfold max64 in *; lia). cbn [bind].
  destruct (Z.eqb_spec k 0); [lia|]. rewrite i64_Ok by (fold q; unfold max64 in *; lia). cbn [bind]. fold q.
  rewrite i64_Ok by (unfold max64 in *; lia). cbn [bind].
  rewrite i64_Ok by (unfold max64 in *; lia). cbn [bind].
  rewrite i64_Ok by (unfold max64 in *; lia). cbn [bind].
  destruct (i =? k - 1); auto.
  rewrite i64_Ok by (unfold max64 in *; lia). cbn [bind].
  rewrite i64_Ok by (unfold max64 in *; nia). reflexivity.
Qed.

(** Exactly when splitting is free of overflow. *)
Lemma m_split_exact r k : 1 <= k <= max64 -> - k < ir_n r -> 0 <= ir_start r ->
  (m_split r k = Ok (ir_split r k) <->
   ir_n r + k <= max64 /\ ir_start r + Z.quot (ir_n r + k - 1) k * (k - 1) <= max64).
Proof.
  intros Hk Hn Hs. split.
  - intros H. unfold m_split in H. apply mapM_Forall2 in H.
    destruct (Forall2_nth_error _ _ _ (Z.to_nat (k - 1)) (Z.to_nat (k - 1)) H) as [c [_ Hc]].
    { rewrite (nth_error_nth' _ O) by (rewrite seq_length; lia). rewrite seq_nth by lia. f_equal. }
    rewrite Z2Nat.id in Hc by lia. unfold m_split_child, div64 in Hc.
    apply bind_Ok in Hc. destruct Hc as [s [E Hc]]. apply i64_inv in E. destruct E as [-> E1].
    apply bind_Ok in Hc. destruct Hc as [s [E Hc]]. apply i64_inv in E. destruct E as [-> _].
    apply bind_Ok in Hc. destruct Hc as [s [E Hc]]. destruct (k =? 0); [discriminate|].
    apply i64_inv in E. destruct E as [-> _].
    apply bind_Ok in Hc. destruct Hc as [s [E Hc]]. apply i64_inv in E. destruct E as [-> _].
    apply bind_Ok in Hc. destruct Hc as [s [E Hc]]. apply i64_inv in E. destruct E as [-> E2]. lia.
  - intros [H1 H2]. apply mapM_map. intros i Hi. apply in_seq in Hi. apply m_split_child_exact; auto; lia.
Qed.

(** A condition that is easy to check: the end of the range and the number of parts. *)
Lemma m_split_fits r k : 1 <= k <= max64 -> - k < ir_n r -> 0 <= ir_start r ->
  ir_start r + ir_n r + k <= max64 -> m_split r k = Ok (ir_split r k).
Proof.
  intros Hk Hn Hs H. apply m_split_exact; auto.
  destruct (child_n_bounds (ir_n r) k ltac:(lia) Hn) as (Q0 & Q1 & Q2).
  set (q := Z.quot (ir_n r + k - 1) k) in *. nia.
Qed.

Lemma m_split_at_exact r index : 0 <= ir_start r -> 0 <= index <= ir_n r -> ir_start r + ir_n r <= max64 ->
  m_split_at r index = Ok (ir_split_at r index).
Proof.
  intros Hs Hi He. unfold m_split_at, ir_split_at. rewrite i64_Ok by (unfold max64 in *; lia). cbn [bind].
  rewrite i64_Ok by (unfold max64 in *; lia). reflexivity.
Qed.

Lemma m_split_like_exact sizes : forall st, 0 <= st -> Forall (fun n => 0 <= n) sizes ->
  st + fold_right Z.add 0 sizes <= max64 -> m_split_like_from st sizes = Ok (ir_split_like_from st sizes).
Proof.
  induction sizes as [|n l IH]; intros st Hs Hp Hm; simpl; auto. inversion Hp; subst. simpl in Hm.
  assert (0 <= fold_right Z.add 0 l) by (clear - H2; induction H2; simpl; lia).
  rewrite i64_Ok by (unfold max64 in *; lia). cbn [bind]. rewrite IH by (auto; lia). reflexivity.
Qed.

(** ** ClusterTree *)

(** The arguments of the constructions, cluster_tree.cpp:31-41; [rs], [cs] are the
    subranges computed before the loops (28-29). *)
Definition m_child (nd : cnode) (rs cs : list irange) (ij : nat * nat) : outcome cnode :=
  let i := fst ij in
  let j := snd ij in
  let* p := i64 (cn_iabs nd * cn_bm nd) in
  let* ia := i64 (p + Z.of_nat i) in
  let* q := i64 (cn_jabs nd * cn_bn nd) in
  let* ja := i64 (q + Z.of_nat j) in
  let* lv := i64 (cn_level nd + 1) in
  Ok (CN (nth i rs (IR 0 0)) (nth j cs (IR 0 0)) (cn_bm nd) (cn_bn nd) (cn_nleaf nd) lv
         (Z.of_nat i) (Z.of_nat j) ia ja).

(** cluster_tree.cpp:14-45; [reserve] (27) takes the number of blocks. *)
Fixpoint m_build (fuel : nat) (nd : cnode) (root : bool) : outcome ctree :=
  match fuel with
  | O => NoFuel
  | S f =>
    if root || negb (is_leaf nd) then
      let* _ := i64 (cn_bm nd * cn_bn nd) in
      let* rs := m_split (cn_rows nd) (cn_bm nd) in
      let* cs := m_split (cn_cols nd) (cn_bn nd) in
      let* ch := mapM (fun ij => let* c := m_child nd rs cs ij in m_build f c false)
                      (block_positions (cn_bm nd) (cn_bn nd)) in
      Ok (CT nd ch)
    else Ok (CT nd [])
  end.
Definition m_cluster_tree (fuel : nat) (rows cols : irange) (bm bn nleaf : Z) : outcome ctree :=
  m_build fuel (root_node rows cols bm bn nleaf) true.

Lemma m_child_sound nd ij c :
  m_child nd (ir_split (cn_rows nd) (cn_bm nd)) (ir_split (cn_cols nd) (cn_bn nd)) ij = Ok c -> c = child_node nd ij.
Proof.
  unfold m_child, child_node. intros H.
  apply bind_Ok in H. destruct H as [s [Hs H]]. apply i64_inv in Hs. destruct Hs as [-> _].
  apply bind_Ok in H. destruct H as [s [Hs H]]. apply i64_inv in Hs. destruct Hs as [-> _].
  apply bind_Ok in H. destruct H as [s [Hs H]]. apply i64_inv in Hs. destruct Hs as [-> _].
  apply bind_Ok in H. destruct H as [s [Hs H]]. apply i64_inv in Hs. destruct Hs as [-> _].
  apply bind_Ok in H. destruct H as [s [Hs H]]. apply i64_inv in Hs. destruct Hs as [-> _]. congruence.
Qed.

(** A tree the machine builds is the tree of exact arithmetic. *)
Lemma m_build_sound f : forall nd root t, m_build f nd root = Ok t -> ct_build f nd root = Ok t.
Proof.
  induction f as [|f IH]; intros nd root t H; [discriminate|]. cbn [m_build ct_build] in *.
  destruct (root || negb (is_leaf nd)); auto.
  apply bind_Ok in H. destruct H as [u [_ H]].
  apply bind_Ok in H. destruct H as [rs [Hr H]]. apply m_split_sound in Hr. subst rs.
  apply bind_Ok in H. destruct H as [cs [Hc H]]. apply m_split_sound in Hc. subst cs.
  apply bind_Ok in H. destruct H as [ch [Hm H]].
  assert (E : mapM (fun ij => ct_build f (child_node nd ij) false) (block_positions (cn_bm nd) (cn_bn nd)) = Ok ch).
  { apply mapM_Forall2. apply mapM_Forall2 in Hm. eapply Forall2_imp; [|exact Hm]. cbv beta. intros ij c Hij.
    apply bind_Ok in Hij. destruct Hij as [nd' [H1 H2]]. apply m_child_sound in H1. subst. auto. }
  rewrite E. cbn [bind]. congruence.
Qed.

(** Conversely, as long as an invariant keeps the numbers small. *)
Definition small_step (nd : cnode) : Prop :=
  i64 (cn_bm nd * cn_bn nd) = Ok (cn_bm nd * cn_bn nd) /\
  m_split (cn_rows nd) (cn_bm nd) = Ok (ir_split (cn_rows nd) (cn_bm nd)) /\
  m_split (cn_cols nd) (cn_bn nd) = Ok (ir_split (cn_cols nd) (cn_bn nd)) /\
  forall i j, (i < Z.to_nat (cn_bm nd))%nat -> (j < Z.to_nat (cn_bn nd))%nat ->
    m_child nd (ir_split (cn_rows nd) (cn_bm nd)) (ir_split (cn_cols nd) (cn_bn nd)) (i, j) = Ok (child_node nd (i, j)).

Lemma mapM_ext {A B} (f g : A -> outcome B) l : (forall a, In a l -> f a = g a) -> mapM f l = mapM g l.
Proof.
  induction l as [|a l IH]; intros H; simpl; auto. rewrite H by (left; auto).
  destruct (g a); simpl; auto. rewrite IH by (intros; apply H; right; auto). reflexivity.
Qed.

Lemma m_build_inv (Inv : cnode -> Prop) :
  (forall nd, Inv nd -> is_leaf nd = false -> small_step nd /\
     forall i j, (i < Z.to_nat (cn_bm nd))%nat -> (j < Z.to_nat (cn_bn nd))%nat -> Inv (child_node nd (i, j))) ->
  forall f nd, Inv nd -> m_build f nd false = ct_build f nd false.
Proof.
  intros Hstep. induction f as [|f IH]; intros nd HI; auto. cbn [m_build ct_build orb].
  destruct (is_leaf nd) eqn:El; cbn [negb]; auto.
  destruct (Hstep nd HI El) as ((S1 & S2 & S3 & S4) & Hch). rewrite S1, S2, S3. cbn [bind].
  rewrite (mapM_ext _ (fun ij => ct_build f (child_node nd ij) false)); auto.
  intros [i j] Hij. apply block_positions_In in Hij. rewrite S4 by tauto. cbn [bind]. apply IH. apply Hch; tauto.
Qed.

Lemma m_build_root (Inv : cnode -> Prop) nd :
  (forall nd, Inv nd -> is_leaf nd = false -> small_step nd /\
     forall i j, (i < Z.to_nat (cn_bm nd))%nat -> (j < Z.to_nat (cn_bn nd))%nat -> Inv (child_node nd (i, j))) ->
  small_step nd ->
  (forall i j, (i < Z.to_nat (cn_bm nd))%nat -> (j < Z.to_nat (cn_bn nd))%nat -> Inv (child_node nd (i, j))) ->
  forall f, m_build f nd true = ct_build f nd true.
Proof.
  intros Hstep (S1 & S2 & S3 & S4) Hch [|f]; auto. cbn [m_build ct_build orb].
  rewrite S1, S2, S3. cbn [bind].
  rewrite (mapM_ext _ (fun ij => ct_build f (child_node nd ij) false)); auto.
  intros [i j] Hij. apply block_positions_In in Hij. rewrite S4 by tauto. cbn [bind].
  apply (m_build_inv Inv Hstep). apply Hch; tauto.
Qed.

(** ** Numbers that occur in a tree *)

(** Level l of a tree over a range that ends at e, cut into k parts per level. *)
Definition in_range (k e : Z) (l : nat) (r : irange) : Prop :=
  0 <= ir_start r /\ - k < ir_n r /\ ir_start r + ir_n r <= e + Z.of_nat l * k.

Lemma in_range_child k e l r i : 1 <= k -> 0 <= i < k -> in_range k e l r ->
  in_range k e (S l) (ir_split_child r k i).
Proof.
  intros Hk Hi (H1 & H2 & H3). destruct (child_n_bounds (ir_n r) k Hk H2) as (Q0 & Q1 & Q2).
  unfold in_range, ir_split_child. cbn [ir_start ir_n]. set (q := Z.quot (ir_n r + k - 1) k) in *. clearbody q.
  assert (0 <= q * i) by (apply Z.mul_nonneg_nonneg; lia).
  replace (Z.of_nat (S l) * k) with (Z.of_nat l * k + k) by lia.
  destruct (Z.eqb_spec i (k - 1)) as [->|Hne]; split; try lia; split; try nia.
Qed.

Lemma split_child_size k r i : 1 <= k -> 0 <= i < k -> - k < ir_n r ->
  ir_n (ir_split_child r k i) <= 1 \/ (ir_n (ir_split_child r k i) - 1) * k <= ir_n r - 1.
Proof.
  intros Hk Hi H2. destruct (child_n_bounds (ir_n r) k Hk H2) as (Q0 & Q1 & Q2).
  unfold ir_split_child. cbn [ir_start ir_n]. set (q := Z.quot (ir_n r + k - 1) k) in *. clearbody q.
  destruct (Z.eqb_spec i (k - 1)) as [->|Hne]; right; nia.
Qed.

Definition numbered (bm bn er ec : Z) (l : nat) (nd : cnode) : Prop :=
  cn_bm nd = bm /\ cn_bn nd = bn /\ cn_level nd = Z.of_nat l /\
  0 <= cn_iabs nd < bm ^ Z.of_nat l /\ 0 <= cn_jabs nd < bn ^ Z.of_nat l /\
  in_range bm er l (cn_rows nd) /\ in_range bn ec l (cn_cols nd).

Lemma abs_child b l a i : 1 <= b -> 0 <= a < b ^ Z.of_nat l -> 0 <= i < b ->
  0 <= a * b /\ 0 <= a * b + i < b ^ Z.of_nat (S l).
Proof.
  intros Hb Ha Hi. rewrite Nat2Z.inj_succ, Z.pow_succ_r by lia. set (p := b ^ Z.of_nat l) in *. clearbody p. nia.
Qed.

Lemma numbered_child bm bn er ec l nd i j : 1 <= bm -> 1 <= bn -> numbered bm bn er ec l nd ->
  (i < Z.to_nat bm)%nat -> (j < Z.to_nat bn)%nat -> numbered bm bn er ec (S l) (child_node nd (i, j)).
Proof.
  intros Hm Hn (E1 & E2 & E3 & Hi & Hj & Hr & Hc) Hi' Hj'. unfold numbered, child_node.
  cbn [cn_bm cn_bn cn_level cn_iabs cn_jabs cn_rows cn_cols fst snd].
  rewrite E1, E2, E3. split; auto. split; auto. split; [lia|].
  split; [apply abs_child; auto; lia|]. split; [apply abs_child; auto; lia|].
  rewrite !ir_split_nth by auto. split; apply in_range_child; auto; lia.
Qed.

Lemma numbered_small bm bn er ec l nd : 1 <= bm <= max64 -> 1 <= bn <= max64 -> bm * bn <= max64 ->
  Z.of_nat l < max64 -> bm ^ Z.of_nat (S l) <= max64 -> bn ^ Z.of_nat (S l) <= max64 ->
  er + Z.of_nat (S l) * bm <= max64 -> ec + Z.of_nat (S l) * bn <= max64 ->
  numbered bm bn er ec l nd -> small_step nd.
Proof.
  intros Hm Hn Hmn Hl Pm Pn Em En (E1 & E2 & E3 & Hi & Hj & (R1 & R2 & R3) & (C1 & C2 & C3)).
  unfold small_step. rewrite E1, E2. split; [apply i64_Ok; nia|].
  split; [apply m_split_fits; auto; lia|]. split; [apply m_split_fits; auto; lia|].
  intros i j Hi' Hj'. unfold m_child, child_node. cbn [fst snd]. rewrite E1, E2, E3.
  destruct (abs_child bm l (cn_iabs nd) (Z.of_nat i)) as [A1 A2]; auto; try lia.
  destruct (abs_child bn l (cn_jabs nd) (Z.of_nat j)) as [B1 B2]; auto; try lia.
  rewrite i64_Ok by (unfold max64 in *; lia). cbn [bind]. rewrite i64_Ok by (unfold max64 in *; lia). cbn [bind].
  rewrite i64_Ok by (unfold max64 in *; lia). cbn [bind]. rewrite i64_Ok by (unfold max64 in *; lia). cbn [bind].
  rewrite i64_Ok by (unfold max64 in *; lia). reflexivity.
Qed.

Lemma pow_le_levels b l m : 1 <= b -> (l <= m)%nat -> b ^ Z.of_nat l <= b ^ Z.of_nat m.
Proof. intros Hb H. apply Z.pow_le_mono_r; lia. Qed.

(** Trees of at most f levels. *)
Lemma m_build_levels bm bn er ec : 1 <= bm <= max64 -> 1 <= bn <= max64 -> bm * bn <= max64 ->
  forall f l nd root, Z.of_nat (l + f) <= max64 -> bm ^ Z.of_nat (l + f) <= max64 -> bn ^ Z.of_nat (l + f) <= max64 ->
  er + Z.of_nat (l + f) * bm <= max64 -> ec + Z.of_nat (l + f) * bn <= max64 ->
  numbered bm bn er ec l nd -> m_build f nd root = ct_build f nd root.
Proof.
  intros Hm Hn Hmn. induction f as [|f IH]; intros l nd root Hl Pm Pn Em En Hnd; auto. cbn [m_build ct_build].
  destruct (root || negb (is_leaf nd)); auto.
  assert (A1 : bm ^ Z.of_nat (S l) <= max64) by (pose proof (pow_le_levels bm (S l) (l + S f)); lia).
  assert (A2 : bn ^ Z.of_nat (S l) <= max64) by (pose proof (pow_le_levels bn (S l) (l + S f)); lia).
  assert (A3 : er + Z.of_nat (S l) * bm <= max64) by nia.
  assert (A4 : ec + Z.of_nat (S l) * bn <= max64) by nia.
  destruct (numbered_small bm bn er ec l nd) as (S1 & S2 & S3 & S4); auto; try lia.
  rewrite S1, S2, S3. cbn [bind].
  rewrite (mapM_ext _ (fun ij => ct_build f (child_node nd ij) false)); auto.
  intros [i j] Hij. apply block_positions_In in Hij. rewrite S4 by tauto. cbn [bind].
  pose proof Hnd as (E1 & E2 & _). rewrite E1, E2 in Hij.
  replace (l + S f)%nat with (S l + f)%nat in * by lia.
  apply (IH (S l)); auto. apply numbered_child; try tauto; lia.
Qed.

Lemma numbered_root rows cols bm bn nleaf er ec : 1 <= bm -> 1 <= bn ->
  0 <= ir_start rows -> 0 <= ir_n rows -> ir_start rows + ir_n rows <= er ->
  0 <= ir_start cols -> 0 <= ir_n cols -> ir_start cols + ir_n cols <= ec ->
  numbered bm bn er ec 0 (root_node rows cols bm bn nleaf).
Proof. intros. unfold numbered, in_range, root_node. cbn [cn_bm cn_bn cn_level cn_iabs cn_jabs cn_rows cn_cols]. repeat split; auto; simpl; lia. Qed.

Lemma m_cluster_tree_levels f rows cols bm bn nleaf : (1 <= f)%nat -> 1 <= bm -> 1 <= bn -> bm * bn <= max64 ->
  0 <= ir_start rows -> 0 <= ir_n rows -> 0 <= ir_start cols -> 0 <= ir_n cols ->
  Z.of_nat f <= max64 -> bm ^ Z.of_nat f <= max64 -> bn ^ Z.of_nat f <= max64 ->
  ir_start rows + ir_n rows + Z.of_nat f * bm <= max64 -> ir_start cols + ir_n cols + Z.of_nat f * bn <= max64 ->
  m_cluster_tree f rows cols bm bn nleaf = cluster_tree f rows cols bm bn nleaf.
Proof.
  intros Hf Hm Hn Hmn R1 R2 C1 C2 Hl Pm Pn Er Ec. unfold m_cluster_tree, cluster_tree.
  apply (m_build_levels bm bn (ir_start rows + ir_n rows) (ir_start cols + ir_n cols)) with (l := 0%nat);
    auto; try nia. apply numbered_root; auto; lia.
Qed.

(** ** Trees that halve, or cut into b parts both ways, down to leaves of any size *)
Definition sized (b N : Z) (l : nat) (nd : cnode) : Prop :=
  (ir_n (cn_rows nd) <= 1 \/ (ir_n (cn_rows nd) - 1) * b ^ Z.of_nat l <= N - 1) /\
  (ir_n (cn_cols nd) <= 1 \/ (ir_n (cn_cols nd) - 1) * b ^ Z.of_nat l <= N - 1).

Lemma size_down b N l r i : 1 <= b -> 0 <= i < b -> - b < ir_n r ->
  ir_n r <= 1 \/ (ir_n r - 1) * b ^ Z.of_nat l <= N - 1 ->
  ir_n (ir_split_child r b i) <= 1 \/ (ir_n (ir_split_child r b i) - 1) * b ^ Z.of_nat (S l) <= N - 1.
Proof.
  intros Hb Hi Hn H. destruct (split_child_size b r i Hb Hi Hn) as [H1|H1]; [left; auto|].
  destruct (Z_le_gt_dec (ir_n (ir_split_child r b i)) 1) as [Hs|Hs]; [left; auto|right].
  rewrite Nat2Z.inj_succ, Z.pow_succ_r by lia. assert (0 < b ^ Z.of_nat l) by (apply Z.pow_pos_nonneg; lia).
  set (p := b ^ Z.of_nat l) in *. set (m := ir_n (ir_split_child r b i)) in *. clearbody p m.
  destruct H as [H|H]; nia.
Qed.

Lemma level_lt_63 b l : 2 <= b -> b ^ Z.of_nat l <= max64 -> (l < 63)%nat.
Proof.
  intros Hb H. destruct (le_lt_dec 63 l) as [Hl|]; auto. exfalso.
  assert (2 ^ 63 <= b ^ Z.of_nat l).
  { transitivity (2 ^ Z.of_nat l); [apply Z.pow_le_mono_r; lia|apply Z.pow_le_mono_l; lia]. }
  change (2 ^ 63) with (max64 + 1) in *. lia.
Qed.

Lemma m_cluster_tree_square f rows cols b nleaf N : 2 <= b -> b * b <= max64 -> 0 <= nleaf -> 1 <= N -> b * N <= max64 ->
  0 <= ir_start rows -> 0 <= ir_n rows <= N -> 0 <= ir_start cols -> 0 <= ir_n cols <= N ->
  ir_start rows + ir_n rows + 64 * b <= max64 -> ir_start cols + ir_n cols + 64 * b <= max64 ->
  m_cluster_tree f rows cols b b nleaf = cluster_tree f rows cols b b nleaf.
Proof.
  intros Hb Hbb Hnl HN HbN R1 R2 C1 C2 Er Ec. unfold m_cluster_tree, cluster_tree.
  set (er := ir_start rows + ir_n rows) in *. set (ec := ir_start cols + ir_n cols) in *.
  assert (Hb2 : b <= max64) by nia.
  assert (H0 : numbered b b er ec 0 (root_node rows cols b b nleaf)) by (apply numbered_root; unfold er, ec; lia).
  assert (Z0 : sized b N 0 (root_node rows cols b b nleaf)).
  { split; right; cbn; lia. }
  assert (Hchild : forall l nd i j, numbered b b er ec l nd -> sized b N l nd -> (i < Z.to_nat b)%nat -> (j < Z.to_nat b)%nat ->
            sized b N (S l) (child_node nd (i, j))).
  { intros l nd i j (E1 & E2 & _ & _ & _ & (_ & Hr & _) & (_ & Hc & _)) [Z1 Z2] Hi Hj.
    unfold sized, child_node. cbn [cn_rows cn_cols fst snd]. rewrite E1, E2, !ir_split_nth by auto.
    split; apply size_down; auto; lia. }
  apply (m_build_root (fun nd => exists l, numbered b b er ec l nd /\ sized b N l nd /\ b ^ Z.of_nat l <= max64 /\ cn_nleaf nd = nleaf)).
  - intros nd (l & Hnum & Hsz & Hp & Hnlf) Hleaf.
    assert (Hl : (l < 63)%nat) by (apply (level_lt_63 b); auto).
    assert (HP : b ^ Z.of_nat (S l) <= max64).
    { rewrite Nat2Z.inj_succ, Z.pow_succ_r by lia. transitivity (b * N); auto. apply Z.mul_le_mono_nonneg_l; [lia|].
      assert (0 < b ^ Z.of_nat l) by (apply Z.pow_pos_nonneg; lia). unfold is_leaf in Hleaf. rewrite Hnlf in Hleaf.
      apply orb_false_iff in Hleaf. destruct Hleaf as [Hleaf Hz]. apply Z.eqb_neq in Hz.
      apply andb_false_iff in Hleaf. destruct Hsz as [[Z1|Z1] [Z2|Z2]], Hleaf as [Hleaf|Hleaf]; apply Z.leb_gt in Hleaf; try lia; nia. }
    split.
    + assert (Hlb : Z.of_nat (S l) * b <= 64 * b) by (apply Z.mul_le_mono_nonneg_r; lia).
      apply (numbered_small b b er ec l); auto; try lia.
    + pose proof Hnum as (E1 & E2 & _). intros i j Hi Hj. rewrite E1 in Hi. rewrite E2 in Hj.
      exists (S l). split; [apply numbered_child; auto; lia|]. split; [apply Hchild; auto|]. auto.
  - apply (numbered_small b b er ec 0); auto; try lia; change (Z.of_nat 1) with 1; rewrite ?Z.pow_1_r; try lia.

  - intros i j Hi Hj. exists 1%nat. split; [apply numbered_child; auto; lia|]. split; [apply Hchild; auto|]. split; [|reflexivity].
    change (Z.of_nat 1) with 1. rewrite Z.pow_1_r. lia.
Qed.
