From Coq Require Import List Arith ZArith Lia Bool.
From Verif Require Import IndexRange IndexRangeSpec.
Import ListNotations.
Local Open Scope Z_scope.

Lemma ir_memb_spec x r : ir_memb x r = true <-> ir_mem x r.
Proof.
  unfold ir_memb, ir_mem. rewrite andb_true_iff, Z.leb_le, Z.ltb_lt. tauto.
Qed.

Lemma ir_memb_false x r : ir_memb x r = false <-> ~ ir_mem x r.
Proof. rewrite <- ir_memb_spec. destruct (ir_memb x r); split; congruence. Qed.

Lemma adjacent_total l : forall s e, adjacent_from s l e -> s + total l = e.
Proof.
  induction l as [|r l IH]; simpl; intros s e H.
  - lia.
  - destruct H as [H1 H2]. apply IH in H2. lia.
Qed.

Lemma adjacent_nonneg_le l : forall s e,
  adjacent_from s l e -> all_nonneg l -> s <= e.
Proof.
  induction l as [|r l IH]; simpl; intros s e H Hn.
  - lia.
  - destruct H as [H1 H2]. inversion Hn; subst. specialize (IH _ _ H2 H4). lia.
Qed.

Lemma adjacent_tiles l : forall s e,
  adjacent_from s l e -> all_nonneg l -> tiles (IR s (e - s)) l.
Proof.
  unfold tiles.
  induction l as [|r l IH]; intros s e H Hn x.
  - simpl in *. subst. unfold ir_memb; simpl.
    destruct (Z.leb_spec e x); simpl; auto.
    destruct (Z.ltb_spec x (e + (e - e))); auto; lia.
  - simpl in H. destruct H as [H1 H2]. inversion Hn; subst.
    pose proof (adjacent_nonneg_le _ _ _ H2 H4) as Hle.
    specialize (IH _ _ H2 H4 x). simpl.
    destruct (ir_memb x r) eqn:Er.
    + simpl. rewrite IH. apply ir_memb_spec in Er. unfold ir_mem in Er.
      replace (ir_memb x (IR (ir_start r + ir_n r) (e - (ir_start r + ir_n r)))) with false.
      * replace (ir_memb x (IR (ir_start r) (e - ir_start r))) with true; auto.
        symmetry. apply ir_memb_spec. unfold ir_mem; simpl. lia.
      * symmetry. apply ir_memb_false. unfold ir_mem; simpl. lia.
    + rewrite IH. apply ir_memb_false in Er. unfold ir_mem in Er.
      destruct (ir_memb x (IR (ir_start r + ir_n r) (e - (ir_start r + ir_n r)))) eqn:E1.
      * apply ir_memb_spec in E1. unfold ir_mem in E1; simpl in E1.
        replace (ir_memb x (IR (ir_start r) (e - ir_start r))) with true; auto.
        symmetry. apply ir_memb_spec. unfold ir_mem; simpl. lia.
      * apply ir_memb_false in E1. unfold ir_mem in E1; simpl in E1.
        replace (ir_memb x (IR (ir_start r) (e - ir_start r))) with false; auto.
        symmetry. apply ir_memb_false. unfold ir_mem; simpl. lia.
Qed.

Lemma ir_split_length r k : length (ir_split r k) = Z.to_nat k.
Proof. unfold ir_split. now rewrite map_length, seq_length. Qed.

Lemma ir_split_nth r k i d :
  (i < Z.to_nat k)%nat -> nth i (ir_split r k) d = ir_split_child r k (Z.of_nat i).
Proof.
  intros Hi. unfold ir_split.
  rewrite nth_indep with (d' := ir_split_child r k (Z.of_nat 0)).
  2:{ rewrite map_length, seq_length; lia. }
  rewrite (map_nth (fun i => ir_split_child r k (Z.of_nat i))).
  rewrite seq_nth; auto.
Qed.

Lemma adjacent_map_seq (f : nat -> irange) : forall m a s e,
  (forall i, (a <= i < a + m)%nat ->
     ir_start (f (S i)) = ir_start (f i) + ir_n (f i) \/ (S i = a + m)%nat) ->
  ((0 < m)%nat -> ir_start (f a) = s) ->
  ((0 < m)%nat -> ir_start (f (a + m - 1)%nat) + ir_n (f (a + m - 1)%nat) = e) ->
  (m = 0%nat -> s = e) ->
  adjacent_from s (map f (seq a m)) e.
Proof.
  induction m as [|m IH]; intros a s e Hstep Hs He H0; simpl.
  - auto.
  - split; [apply Hs; lia|].
    assert (Hs' : ir_start (f a) = s) by (apply Hs; lia).
    assert (He' : ir_start (f (a + S m - 1)%nat) + ir_n (f (a + S m - 1)%nat) = e) by (apply He; lia).
    apply IH.
    + intros i Hi. destruct (Hstep i) as [H|H]; [lia|left; exact H|right; lia].
    + intros Hm. destruct (Hstep a) as [H|H]; [lia| |]; lia.
    + intros Hm. replace (S a + m - 1)%nat with (a + S m - 1)%nat by lia. exact He'.
    + intros ->. replace (a + 1 - 1)%nat with a in He' by lia. lia.
Qed.

Lemma ir_split_adjacent r k :
  1 <= k -> adjacent_from (ir_start r) (ir_split r k) (ir_start r + ir_n r).
Proof.
  intros Hk. unfold ir_split. apply adjacent_map_seq.
  - intros i Hi. destruct (Nat.eq_dec (S i) (0 + Z.to_nat k)) as [E|E]; [right; exact E|left].
    unfold ir_split_child; simpl.
    replace (Z.of_nat i =? k - 1) with false by (symmetry; apply Z.eqb_neq; lia).
    rewrite Zpos_P_of_succ_nat. lia.
  - intros _. unfold ir_split_child; cbn [ir_start ir_n Z.of_nat]. lia.
  - intros _. unfold ir_split_child; simpl.
    replace (Z.of_nat (Z.to_nat k - 1) =? k - 1) with true by (symmetry; apply Z.eqb_eq; lia).
    replace (Z.of_nat (Z.to_nat k - 1)) with (k - 1) by lia. lia.
  - lia.
Qed.

Lemma ir_split_total r k : 1 <= k -> total (ir_split r k) = ir_n r.
Proof. intros Hk. pose proof (adjacent_total _ _ _ (ir_split_adjacent r k Hk)). lia. Qed.

Lemma ceil_bounds n k : 0 <= n -> 1 <= k ->
  n <= k * Z.quot (n + k - 1) k < n + k /\ 0 <= Z.quot (n + k - 1) k.
Proof.
  intros Hn Hk.
  rewrite Z.quot_div_nonneg by lia.
  pose proof (Z.div_mod (n + k - 1) k). pose proof (Z.mod_pos_bound (n + k - 1) k).
  assert (0 <= (n + k - 1) / k) by (apply Z.div_pos; lia). lia.
Qed.

Lemma ir_split_nonneg_iff r k :
  0 <= ir_n r -> 1 <= k ->
  (all_nonneg (ir_split r k) <-> (k - 1) * Z.quot (ir_n r + k - 1) k <= ir_n r).
Proof.
  intros Hn Hk. destruct (ceil_bounds (ir_n r) k Hn Hk) as [Hc Hc0].
  unfold all_nonneg. rewrite Forall_forall. split.
  - intros H.
    assert (Hin : In (ir_split_child r k (k - 1)) (ir_split r k)).
    { unfold ir_split. apply in_map_iff. exists (Z.to_nat (k - 1)). split.
      - rewrite Z2Nat.id by lia. reflexivity.
      - apply in_seq. lia. }
    apply H in Hin. unfold ir_split_child in Hin; simpl in Hin.
    rewrite Z.eqb_refl in Hin. lia.
  - intros H x Hx. unfold ir_split in Hx. apply in_map_iff in Hx.
    destruct Hx as [i [<- Hi]]. apply in_seq in Hi.
    unfold ir_split_child; simpl.
    destruct (Z.of_nat i =? k - 1) eqn:E; lia.
Qed.

Lemma ir_split_nonneg_suff r k :
  1 <= k -> (k - 1) * (k - 1) <= ir_n r -> all_nonneg (ir_split r k).
Proof.
  intros Hk H. assert (0 <= ir_n r) by nia.
  apply ir_split_nonneg_iff; auto.
  destruct (ceil_bounds (ir_n r) k) as [Hc Hc0]; auto. nia.
Qed.

Lemma ir_split_nonneg_div r k q :
  1 <= k -> 0 <= q -> ir_n r = q * k -> all_nonneg (ir_split r k).
Proof.
  intros Hk Hq E. assert (0 <= ir_n r) by nia.
  apply ir_split_nonneg_iff; auto. rewrite E.
  replace (q * k + k - 1) with (k - 1 + q * k) by lia.
  rewrite Z.quot_div_nonneg by nia. rewrite Z.div_add by lia.
  rewrite Z.div_small by lia. nia.
Qed.

Lemma ir_split_tiles r k :
  1 <= k -> all_nonneg (ir_split r k) -> tiles r (ir_split r k).
Proof.
  intros Hk Hn. pose proof (adjacent_tiles _ _ _ (ir_split_adjacent r k Hk) Hn) as H.
  replace (ir_start r + ir_n r - ir_start r) with (ir_n r) in H by lia.
  destruct r; exact H.
Qed.

(** Exact sizes: all but the last have the rounded-up size. *)
Lemma ir_split_sizes r k i d :
  (i < Z.to_nat k)%nat ->
  ir_n (nth i (ir_split r k) d) =
    if Nat.eqb i (Z.to_nat k - 1)
    then ir_n r - Z.quot (ir_n r + k - 1) k * (k - 1)
    else Z.quot (ir_n r + k - 1) k.
Proof.
  intros Hi. rewrite ir_split_nth by auto. unfold ir_split_child; simpl.
  destruct (Nat.eqb_spec i (Z.to_nat k - 1)) as [E|E];
  destruct (Z.eqb_spec (Z.of_nat i) (k - 1)) as [E'|E']; auto; lia.
Qed.

Lemma ir_split_at_adjacent r index :
  adjacent_from (ir_start r) (ir_split_at r index) (ir_start r + ir_n r).
Proof. simpl. repeat split; lia. Qed.

Lemma ir_split_at_tiles r index :
  0 <= index <= ir_n r -> tiles r (ir_split_at r index).
Proof.
  intros H. pose proof (ir_split_at_adjacent r index) as Ha.
  apply adjacent_tiles in Ha.
  - replace (ir_start r + ir_n r - ir_start r) with (ir_n r) in Ha by lia.
    destruct r; exact Ha.
  - repeat constructor; simpl; lia.
Qed.

Definition zsum (l : list Z) : Z := fold_right Z.add 0 l.

Lemma ir_split_like_from_adjacent sizes : forall s,
  adjacent_from s (ir_split_like_from s sizes) (s + zsum sizes).
Proof.
  induction sizes as [|a l IH]; intros s; simpl.
  - lia.
  - split; auto. replace (s + (a + zsum l)) with (s + a + zsum l) by lia. apply IH.
Qed.

Lemma ir_split_like_from_sizes sizes : forall s,
  map ir_n (ir_split_like_from s sizes) = sizes.
Proof. induction sizes as [|a l IH]; intros s; simpl; [auto|now rewrite IH]. Qed.

Lemma ir_split_like_from_nonneg sizes : forall s,
  Forall (fun z => 0 <= z) sizes -> all_nonneg (ir_split_like_from s sizes).
Proof.
  induction sizes as [|a l IH]; intros s H; simpl; constructor; inversion H; subst; auto.
  apply IH; auto.
Qed.

Lemma ir_split_like_tiles n sizes :
  Forall (fun z => 0 <= z) sizes -> zsum sizes = n ->
  tiles (IR 0 n) (ir_split_like (IR 0 n) sizes).
Proof.
  intros Hf Hs. pose proof (ir_split_like_from_adjacent sizes 0) as Ha.
  apply adjacent_tiles in Ha; [|apply ir_split_like_from_nonneg; auto].
  rewrite Hs in Ha. replace (0 + n - 0) with n in Ha by lia. exact Ha.
Qed.

Lemma ir_split_like_refuted_start :
  exists r sizes, Forall (fun z => 0 <= z) sizes /\ zsum sizes = ir_n r /\
    ~ tiles r (ir_split_like r sizes).
Proof.
  exists (IR 4 4), [2; 2]. repeat split; [repeat constructor; lia|].
  intros H. specialize (H 0). vm_compute in H. discriminate.
Qed.

(** The unconditional reading of the documentation of IndexRange::split. *)
Lemma ir_split_nonneg_refuted :
  exists r k, 0 <= ir_n r /\ 1 <= k /\ ~ tiles r (ir_split r k).
Proof.
  exists (IR 0 5), 4. simpl. repeat split; try lia.
  intros H. specialize (H 5). vm_compute in H. discriminate.
Qed.

(** Without the arithmetic condition the result is never a tiling. *)
Lemma ir_split_not_tiles r k :
  0 <= ir_n r -> 1 <= k ->
  ir_n r < (k - 1) * Z.quot (ir_n r + k - 1) k -> ~ tiles r (ir_split r k).
Proof.
  intros Hn Hk Hlt Ht. destruct (ceil_bounds (ir_n r) k Hn Hk) as [Hc Hc0].
  set (c := Z.quot (ir_n r + k - 1) k) in *.
  assert (Hcpos : 1 <= c) by nia.
  specialize (Ht (ir_start r + ir_n r)).
  assert (Hout : ir_memb (ir_start r + ir_n r) r = false).
  { apply ir_memb_false. unfold ir_mem. lia. }
  rewrite Hout in Ht.
  assert (Hq : 0 <= ir_n r / c /\ c * (ir_n r / c) <= ir_n r < c * (ir_n r / c) + c).
  { pose proof (Z.div_mod (ir_n r) c). pose proof (Z.mod_pos_bound (ir_n r) c).
    split; [apply Z.div_pos; lia|lia]. }
  assert (Hin : In (ir_split_child r k (ir_n r / c)) (ir_split r k)).
  { unfold ir_split. apply in_map_iff. exists (Z.to_nat (ir_n r / c)). split.
    - rewrite Z2Nat.id by lia. reflexivity.
    - apply in_seq. nia. }
  assert (Hm : ir_memb (ir_start r + ir_n r) (ir_split_child r k (ir_n r / c)) = true).
  { apply ir_memb_spec. unfold ir_mem, ir_split_child; simpl. fold c.
    replace (ir_n r / c =? k - 1) with false by (symmetry; apply Z.eqb_neq; nia). lia. }
  assert (Hf : In (ir_split_child r k (ir_n r / c))
                  (filter (ir_memb (ir_start r + ir_n r)) (ir_split r k))).
  { apply filter_In. split; auto. }
  destruct (filter (ir_memb (ir_start r + ir_n r)) (ir_split r k)); simpl in *; [tauto|discriminate].
Qed.

Lemma ir_split_tiles_iff r k :
  0 <= ir_n r -> 1 <= k ->
  (tiles r (ir_split r k) <-> (k - 1) * Z.quot (ir_n r + k - 1) k <= ir_n r).
Proof.
  intros Hn Hk. split.
  - intros Ht. destruct (Z_le_gt_dec ((k - 1) * Z.quot (ir_n r + k - 1) k) (ir_n r)); auto.
    exfalso. apply (ir_split_not_tiles r k); auto; lia.
  - intros H. apply ir_split_tiles; auto. apply ir_split_nonneg_iff; auto.
Qed.
