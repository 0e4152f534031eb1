(** Block low-rank arithmetic with a fixed rank, as in examples/h_lu.cpp: sampled
    compression (low_rank.cpp:40-48, rsvd.cpp:19-31) and the truncating additions
    (addition.cpp:93-203) succeed and keep the rank, so products, solves and block LU of
    weakly admissible matrices do. *)
From Coq Require Import List Arith ZArith QArith Lia Bool String.
From Verif Require Import Prelude IndexRange ClusterTree ClusterTreeProofs ClusterTreeTermination IndexRangeSpec IndexRangeProofs ClusterTreeRegular Admissible Ring MatFun Matrix MatOps
  MatSpec MatOpsProofs Lapack Gemm GemmSpec GemmTheorems Triangular TriSpec ReflectSuccess GemmTerm TriTerm Construct ConstructProofs
  CommonTree GemmSucc LuSucc TreeSucc TreeFit LowRankAdd LowRankAddProofs L2Error Sampled SampledTheorems.
Import ListNotations.
Local Open Scope nat_scope.

Section FixedRank.
Context {R : cring}.
Notation dense := (dense R).
Notation lowrank := (lowrank R).
Notation matrix := (matrix R).

Variable L : lapack R.
Hypothesis HL : lapack_ok L.
Hypothesis HH : lapack_orth L.

(** Compression to a rank by some random samples. *)
Definition sampling (cp : dense -> nat -> outcome lowrank) : Prop :=
  forall d r, exists rn, cp d r = lr_of_dense L rn d r.

Variable cp : dense -> nat -> outcome lowrank.
Hypothesis HC : sampling cp.
(** Compression to an accuracy; not called when ranks are fixed. *)
Variable ce : dense -> Q -> outcome lowrank.
Hypothesis HE : forall d e, halts (ce d e).
Hypothesis SE : forall d e c, ce d e = Ok c -> lr_wf c /\ l_r c = d_r d /\ l_c c = d_c d.
(** The setting FRANK_LRA. *)
Variable setting : string.
Hypothesis HN : String.eqb setting "naive" = false.

Definition ranked : oracles R := {| crank := cp; ceps := ce; lr_add := lr_addition L cp setting |}.

(** ** Shapes *)
Lemma d_resize_inv (A : dense) r c x : d_resize A r c = Ok x -> d_r x = r /\ d_c x = c /\ r <= d_r A /\ c <= d_c A.
Proof.
  intros H. pose proof H as H0. unfold d_resize in H. apply assert_Ok in H. destruct H as [B1 H]. apply assert_Ok in H. destruct H as [B2 _].
  apply Nat.leb_le in B1, B2. destruct (d_resize_spec A r c B1 B2) as [y [E [E1 [E2 _]]]]. rewrite H0 in E. inversion E; subst. auto.
Qed.

Lemma truncate_shape (a c : lowrank) r Qu U Sm V Qv : d_r Qu = l_r a -> d_c Qv = l_c a ->
  truncate a r Qu U Sm V Qv = Ok c -> lr_wf c /\ l_r c = l_r a /\ l_c c = l_c a.
Proof.
  intros H1 H2 H. unfold truncate in H.
  apply bind_Ok in H. destruct H as [S' [HS H]]. apply bind_Ok in H. destruct H as [U1 [HU1 H]].
  apply bind_Ok in H. destruct H as [U' [HU H]]. apply bind_Ok in H. destruct H as [V1 [HV1 H]].
  apply bind_Ok in H. destruct H as [V' [HV H]]. inversion H; subst c; clear H.
  apply d_resize_inv in HS, HU1, HV1. apply dd_mul_inv in HU, HV. cbv iota in HU, HV.
  destruct HS as [S1 [S2 _]]. destruct HU1 as [U2 [U3 _]]. destruct HV1 as [V2 [V3 _]].
  destruct HU as [_ [U4 [U5 _]]]. destruct HV as [_ [V4 [V5 _]]].
  unfold lr_wf. cbn [l_r l_c l_U l_S l_V]. repeat split; congruence.
Qed.

Lemma rounded_shape (a b c : lowrank) : lr_wf a -> lr_wf b -> l_r a = l_r b -> l_c a = l_c b ->
  rounded_addition L a b = Ok c -> lr_wf c /\ l_r c = l_r a /\ l_c c = l_c a.
Proof.
  intros [WA1 [WA2 [WA3 WA4]]] [WB1 [WB2 [WB3 WB4]]] Er Ec H. unfold rounded_addition in H.
  apply bind_Ok in H. destruct H as [x [Hx H]]. apply bind_Ok in H. destruct H as [y [Hy H]].
  apply bind_Ok in H. destruct H as [[Qu Ru] [HQ H]]. apply bind_Ok in H. destruct H as [va [Hva H]].
  apply bind_Ok in H. destruct H as [vb [Hvb H]]. apply bind_Ok in H. destruct H as [[Rv Qv] [HR H]].
  apply bind_Ok in H. destruct H as [M [HM H]]. apply bind_Ok in H. destruct H as [[[U Sm] V] [HS H]].
  destruct (lo_qr _ HL (hcat x y)) as [Q' [R' [E [I1 _]]]]. rewrite HQ in E. inversion E; subst Q' R'; clear E.
  destruct (lo_rq _ HL (vcat va vb)) as [R' [Q' [E [_ [_ [_ [I2 _]]]]]]]. rewrite HR in E. inversion E; subst Q' R'; clear E.
  apply dd_gemm_inv in Hx. destruct Hx as [_ [_ [_ [X1 _]]]].
  apply truncate_shape in H; auto.
  - rewrite I1. cbn [hcat d_r]. rewrite X1. simpl. auto.
  - rewrite I2. cbn [vcat d_c].
    assert (EV : d_c va = d_c (l_V a)); [|congruence]. 
    unfold d_copy_to in Hva. apply assert_Ok in Hva. destruct Hva as [_ Hva]. apply assert_Ok in Hva. destruct Hva as [_ Hva]. inversion Hva. reflexivity.
Qed.

Lemma fast_shape (a b c : lowrank) : lr_wf a -> lr_wf b -> l_r a = l_r b -> l_c a = l_c b ->
  fast_rounded_addition L a b = Ok c -> lr_wf c /\ l_r c = l_r a /\ l_c c = l_c a.
Proof.
  intros WA WB Er Ec H. unfold fast_rounded_addition in H. destruct (use_eps a); [apply (rounded_shape a b c); auto|].
  destruct WA as [WA1 [WA2 [WA3 WA4]]].
  do 3 (apply bind_Ok in H; destruct H as [? [_ H]]). destruct x1 as [Qu Ru].
  do 3 (apply bind_Ok in H; destruct H as [? [_ H]]). destruct x3 as [Rv Qv].
  do 7 (apply bind_Ok in H; destruct H as [? [_ H]]).
  apply bind_Ok in H. destruct H as [[[U Sm] V] [_ H]].
  apply truncate_shape in H; auto.
Qed.

Lemma ranked_shape : oracles_shape ranked.
Proof.
  split.
  - intros a b c WA WB Er Ec H. cbn [ranked lr_add] in H. unfold lr_addition in H. rewrite HN in H.
    destruct (String.eqb setting "rounded_addition"); [apply (rounded_shape a b c)|apply (fast_shape a b c)]; auto.
  - intros d r c H. cbn [ranked crank] in H. destruct (HC d r) as [rn E]. rewrite E in H.
    destruct (lr_of_dense_ok L (lapack_ok_sound L HL HH) rn d r c H) as [W [E1 [E2 _]]]. auto.
  - exact SE.
Qed.

(** ** The calls return *)
Ltac hb := apply halts_bind; [|let E := fresh "E" in intros ? E].
Ltac ha := apply halts_assert; intros ?.
Lemma d_copy_halts (A B : dense) i j : halts (d_copy_to A B i j).
Proof. unfold d_copy_to. repeat ha. apply halts_Ok. Qed.
Lemma d_resize_halts (A : dense) r c : halts (d_resize A r c).
Proof. unfold d_resize. ha. ha. apply d_copy_halts. Qed.
Lemma qr_halts A : halts (lp_qr L A).
Proof. destruct (lo_qr _ HL A) as [? [? [-> _]]]. apply halts_Ok. Qed.
Lemma rq_halts A : halts (lp_rq L A).
Proof. destruct (lo_rq _ HL A) as [? [? [-> _]]]. apply halts_Ok. Qed.
Lemma svd_halts A : halts (lp_svd L A).
Proof. destruct (lo_svd _ HL A) as [? [? [? [-> _]]]]. apply halts_Ok. Qed.
Local Hint Resolve d_copy_halts d_resize_halts qr_halts rq_halts svd_halts dd_mul_halts dd_gemm_halts halts_Ok halts_abort : fixed.
Ltac hh := repeat first [solve [auto with fixed] | discriminate | hb | match goal with x : _ * _ |- _ => destruct x end].

Lemma truncate_halts (a : lowrank) r Qu U Sm V Qv : halts (truncate a r Qu U Sm V Qv).
Proof. unfold truncate. hh. Qed.
Lemma rounded_halts (a b : lowrank) : halts (rounded_addition L a b).
Proof. unfold rounded_addition. hh; apply truncate_halts. Qed.
Lemma fast_halts (a b : lowrank) : halts (fast_rounded_addition L a b).
Proof. unfold fast_rounded_addition. destruct (use_eps a); [apply rounded_halts|]. hh; apply truncate_halts. Qed.
Lemma lr_of_dense_halts rn (d : dense) r : halts (lr_of_dense L rn d r).
Proof.
  unfold lr_of_dense, rsvd, thin_qr, svd. hh.
  - destruct (_ <? _); [discriminate|apply qr_halts].
  - destruct (_ =? 0); [discriminate|apply svd_halts].
Qed.

Lemma ranked_halt : oracles_halt ranked.
Proof.
  split.
  - intros a b. cbn [ranked lr_add]. unfold lr_addition. rewrite HN.
    destruct (String.eqb setting "rounded_addition"); [apply rounded_halts|apply fast_halts].
  - intros d r. cbn [ranked crank]. destruct (HC d r) as [rn ->]. apply lr_of_dense_halts.
  - exact HE.
Qed.

(** ** Ranks *)
Variable rho : nat.
Hypothesis rho_pos : 0 < rho.

(** Middle factors are not larger than rho. *)
Definition within (p q : nat) : Prop := p <= rho /\ q <= rho.
(** Truncated to rank rho, which the dimensions allow. *)
Definition of_rank (l : lowrank) : Prop :=
  use_eps l = false /\ l_rank l = rho /\ d_r (l_S l) = rho /\ d_c (l_S l) = rho /\ rho <= l_r l /\ rho <= l_c l.

Lemma rounds_rank (a b c : lowrank) k U Sm V : of_rank a -> rounds a b c (l_rank a) k U Sm V -> of_rank c /\ mid within c.
Proof.
  intros [A1 [A2 [A3 [A4 [A5 A6]]]]] [_ [C1 [C2 [C3 [C4 [C5 [C6 _]]]]]]]. split.
  - unfold of_rank, use_eps in *. rewrite C1, C2, C3, C4, C5, C6. auto 6.
  - unfold mid, within. rewrite C5, C6. lia.
Qed.

Lemma ranked_policy : policy within of_rank (fun _ => False) ranked.
Proof.
  split.
  - intros a b E1 E2 E3 E4 E5 E6. unfold of_rank, use_eps. rewrite E1, E2, E3, E4, E5, E6. auto.
  - unfold within. tauto.
  - intros a b Pa _ [Mb1 Mb2] WA WB Er Ec. pose proof Pa as [A1 [A2 [A3 [A4 [A5 A6]]]]].
    cbn [ranked lr_add]. unfold lr_addition. rewrite HN.
    destruct (String.eqb setting "rounded_addition").
    + destruct (rounded_full L HL a b WA WB Er Ec) as [c [r [U [Sm [V [E [HR [Hr _]]]]]]]].
      { rewrite A1. lia. }
      rewrite A1 in Hr. subst r. destruct (rounds_rank a b c _ _ _ _ Pa HR) as [Pc Mc]. exists c.
      auto.
    + destruct (fast_full L HL a b WA WB Er Ec A1 ltac:(lia) ltac:(lia) ltac:(lia)) as [c [M [Um [Sm [Vm [Uc [Vc [E [HR _]]]]]]]]].
      destruct (rounds_rank a b c _ _ _ _ Pa HR) as [Pc Mc]. exists c.
      auto.
  - intros l d _ [].
Qed.

Lemma compressed_rank rn (d : dense) l : lr_of_dense L rn d rho = Ok l -> lr_wf l /\ l_r l = d_r d /\ l_c l = d_c d /\ of_rank l /\ mid within l.
Proof.
  intros H.
  destruct (lr_of_dense_ok L (lapack_ok_sound L HL HH) rn d rho l H) as [W [E1 [E2 [E3 [E4 [_ [S1 [S2 _]]]]]]]].
  assert (U0 : use_eps l = false).
  { unfold lr_of_dense in H. apply bind_Ok in H. destruct H as [[[U D] V] [_ H]].
    do 3 (apply bind_Ok in H; destruct H as [? [_ H]]). inversion H. reflexivity. }
  split; auto. split; auto. split; auto. split.
  - unfold of_rank. rewrite E1, E2, S1, S2. repeat (split; [auto; lia|]). lia.
  - unfold mid, within. rewrite S1, S2. auto.
Qed.

End FixedRank.

(** ** When the Hierarchical constructor succeeds *)
Section Build.
Context {R : cring}.
Notation matrix := (matrix R).
Variable ini : initializer R.

(** Every node that can occur has a verdict, sizes that are not negative, and a filled and, if
    admissible, compressed block. *)
Definition buildable (nd : cnode) : Prop :=
  exists a d, in_adm ini nd = Ok a /\ (0 <= ir_n (cn_rows nd))%Z /\ (0 <= ir_n (cn_cols nd))%Z /\
    in_fill ini (cn_rows nd) (cn_cols nd) = Ok d /\ (a = true -> exists l, in_comp ini d = Ok l).

Lemma go_total rec bm bn : forall ps cs b,
  Forall2 (fun ij c => cn_irel (ct_node c) = Z.of_nat (fst ij) /\ cn_jrel (ct_node c) = Z.of_nat (snd ij)) ps cs ->
  (forall ij, In ij ps -> (Z.of_nat (fst ij) < bm)%Z /\ (Z.of_nat (snd ij) < bn)%Z) ->
  (forall c, In c cs -> exists x, hblock ini rec c = Ok x) -> exists b', go ini rec bm bn cs b = Ok b'.
Proof.
  induction ps as [|[i j] ps IH]; intros cs b HF HP HX; inversion HF; subst; clear HF; simpl; [eauto|].
  destruct H1 as [E1 E2]. cbn [fst snd] in E1, E2. destruct (HX y (or_introl eq_refl)) as [x Hx]. rewrite Hx. cbn [bind].
  destruct (HP (i, j) (or_introl eq_refl)) as [B1 B2]. cbn [fst snd] in B1, B2. rewrite E1, E2.
  replace (_ && _)%bool with true; [apply IH; auto; intros; [apply HP; right; auto|apply HX; right; auto]|].
  symmetry. rewrite !andb_true_iff. repeat split; try apply Z.leb_le; try apply Z.ltb_lt; lia.
Qed.

Lemma hier_total (P : cnode -> Prop) :
  (forall nd i j, P nd -> i < Z.to_nat (cn_bm nd) -> j < Z.to_nat (cn_bn nd) -> is_leaf nd = false ->
     in_adm ini nd = Ok false -> P (child_node nd (i, j))) ->
  (forall nd, P nd -> buildable nd) ->
  forall f nd root t, ct_build f nd root = Ok t -> root || negb (is_leaf nd) = true ->
  (forall i j, i < Z.to_nat (cn_bm nd) -> j < Z.to_nat (cn_bn nd) -> P (child_node nd (i, j))) ->
  exists M, hier ini t = Ok M.
Proof.
  intros HP HB. induction f as [|f IH]; intros nd root t Ht Hr HPn; [discriminate|].
  destruct (ct_build_inv _ _ _ _ Ht) as [f' [Ef [End [[_ HF]|[E _]]]]]; [|congruence]. inversion Ef; subst f'.
  destruct t as [nd' cs]. cbn [ct_node ct_children] in End, HF. subst nd'. rewrite hier_go.
  destruct (go_total (hier ini) (cn_bm nd) (cn_bn nd) (block_positions (cn_bm nd) (cn_bn nd)) cs (fun _ _ => ME 0 0)) as [b' Hb'].
  - clear -HF. induction HF; constructor; auto. destruct (ct_build_inv _ _ _ _ H) as [? [_ [E _]]]. rewrite E.
    split; reflexivity.
  - intros [i j] Hi. apply in_flat_map in Hi. destruct Hi as [i' [I1 I2]]. apply in_map_iff in I2. destruct I2 as [j' [E I2]].
    inversion E; subst i' j'. apply in_seq in I1, I2. cbn [fst snd]. lia.
  - intros c Hc.
    assert (Hn : exists ij, In ij (block_positions (cn_bm nd) (cn_bn nd)) /\ ct_build f (child_node nd ij) false = Ok c).
    { clear -HF Hc. induction HF; [destruct Hc|]. destruct Hc as [->|Hc]; [exists x; split; auto; left; auto|].
      destruct (IHHF Hc) as [ij [I1 I2]]. exists ij. split; auto. right; auto. }
    destruct Hn as [[i j] [I1 I2]]. apply in_flat_map in I1. destruct I1 as [i' [J1 J2]]. apply in_map_iff in J2. destruct J2 as [j' [E J2]].
    inversion E; subst i' j'. apply in_seq in J1, J2.
    assert (PN : P (child_node nd (i, j))) by (apply HPn; lia).
    destruct (ct_build_inv _ _ _ _ I2) as [? [_ [EN _]]]. unfold hblock. rewrite EN.
    destruct (HB _ PN) as [a [d [A1 [A2 [A3 [A4 A5]]]]]]. rewrite A1. cbn [bind].
    assert (G : get_dense ini (child_node nd (i, j)) = Ok d).
    { unfold get_dense. apply Z.leb_le in A2, A3. rewrite A2, A3. exact A4. }
    destruct a.
    + unfold get_compressed. rewrite G. cbn [bind]. destruct (A5 eq_refl) as [l ->]. cbn [bind]. eauto.
    + destruct (is_leaf (child_node nd (i, j))) eqn:EL; [rewrite G; cbn [bind]; eauto|].
      apply (IH (child_node nd (i, j)) false c I2); [rewrite EL; reflexivity|].
      intros i' j' Hi' Hj'. apply HP; auto.
  - rewrite Hb'. cbn [bind]. eauto.
Qed.

(** One range lies in another. *)
Definition inside (r w : irange) : Prop := (ir_start w <= ir_start r)%Z /\ (ir_start r + ir_n r <= ir_start w + ir_n w)%Z.

Lemma part_inside r w k q i : (1 <= k)%Z -> (0 <= q)%Z -> ir_n r = (q * k)%Z -> i < Z.to_nat k -> inside r w ->
  inside (nth i (ir_split r k) (IR 0 0)) w.
Proof.
  intros Hk Hq E Hi [I1 I2]. rewrite ir_split_nth by auto. unfold inside.
  rewrite (split_child_div r k q) by (auto; lia). unfold ir_split_child. cbn [ir_start]. rewrite E.
  replace (q * k + k - 1)%Z with (k - 1 + q * k)%Z by lia.
  rewrite Z.quot_div_nonneg by nia. rewrite Z.div_add by lia. rewrite Z.div_small by lia. nia.
Qed.

(** Sizes s*k^e divided into k parts per level. *)
Lemma hierarchical_total k nleaf s e f rows cols : (2 <= k)%Z -> (2 <= s <= nleaf)%Z ->
  ir_n rows = (s * k ^ Z.of_nat (S e))%Z -> ir_n cols = (s * k ^ Z.of_nat (S e))%Z ->
  (ir_n rows <= 2 ^ Z.of_nat f)%Z ->
  (forall nd, (s <= ir_n (cn_rows nd))%Z -> (s <= ir_n (cn_cols nd))%Z ->
     inside (cn_rows nd) rows -> inside (cn_cols nd) cols -> buildable nd) ->
  exists M, hierarchical ini (S (S f)) rows cols k k nleaf = Ok M.
Proof.
  intros Hk Hs Er Ec Hf HB.
  assert (0 < k ^ Z.of_nat (S e))%Z by (apply Z.pow_pos_nonneg; lia).
  destruct (cluster_tree_terminates rows cols k k nleaf f) as [t Ht]; try lia; try nia.
  unfold hierarchical. rewrite Ht. cbn [bind].
  pose (Q := fun e' nd => level k nleaf s e' nd /\ inside (cn_rows nd) rows /\ inside (cn_cols nd) cols).
  assert (QC : forall e' nd i j, Q (S e') nd -> i < Z.to_nat k -> j < Z.to_nat k -> Q e' (child_node nd (i, j))).
  { intros e' nd i j [LV [I1 I2]] Hi Hj. split; [apply (level_child k nleaf s Hk Hs); auto|].
    destruct LV as [E1 [E2 [_ [E4 E5]]]]. cbn [child_node cn_rows cn_cols fst snd]. rewrite E1, E2.
    rewrite Nat2Z.inj_succ, Z.pow_succ_r in E4, E5 by lia.
    assert (0 < k ^ Z.of_nat e')%Z by (apply Z.pow_pos_nonneg; lia).
    split; apply (part_inside _ _ k (s * k ^ Z.of_nat e')); auto; try lia; nia. }
  assert (QR : Q (S e) (root_node rows cols k k nleaf)).
  { split; [unfold level; cbn [root_node cn_bm cn_bn cn_nleaf cn_rows cn_cols]; auto|].
    cbn [root_node cn_rows cn_cols]. split; split; lia. }
  apply (hier_total (fun nd => exists e', Q e' nd)) with (f := S (S f)) (nd := root_node rows cols k k nleaf) (root := true); auto.
  - intros nd i j [e' HQ] Hi Hj NL _. pose proof HQ as [HLv _]. destruct (level_inner k nleaf s Hs e' nd HLv NL) as [e'' ->]. exists e''.
    destruct HLv as [E1 [E2 E3]]. rewrite E1 in Hi. rewrite E2 in Hj. apply QC; auto.
  - intros nd [e' [[E1 [E2 [E3 [E4 E5]]]] [I1 I2]]]. apply HB; auto; rewrite ?E4, ?E5;
      assert (0 < k ^ Z.of_nat e')%Z by (apply Z.pow_pos_nonneg; lia); nia.
  - intros i j Hi Hj. exists e. apply QC; auto.
Qed.

(** More levels of recursion change nothing. *)
Lemma hierarchical_mono f f' rows cols bm bn nleaf M : f <= f' -> hierarchical ini f rows cols bm bn nleaf = Ok M ->
  hierarchical ini f' rows cols bm bn nleaf = Ok M.
Proof.
  intros Hf H. destruct (hierarchical_inv _ _ _ _ _ _ _ _ H) as [t [Ht HM]]. unfold hierarchical.
  rewrite (ct_build_mono_le _ _ _ _ _ Hf Ht : cluster_tree f' rows cols bm bn nleaf = Ok t). exact HM.
Qed.

(** If a rank larger than the smallest blocks is asked for, it fails. *)
Lemma hier_refused k nleaf s f : (2 <= k)%Z -> (2 <= s <= nleaf)%Z -> (nleaf < s * k)%Z ->
  (forall nd, cn_iabs nd = cn_jabs nd -> in_adm ini nd = Ok false) ->
  (forall nd, cn_iabs nd <> cn_jabs nd -> (2 <= ir_n (cn_rows nd))%Z -> (2 <= ir_n (cn_cols nd))%Z -> in_adm ini nd = Ok true) ->
  (forall r c d l, ir_n r = s -> ir_n c = s -> in_fill ini r c = Ok d -> in_comp ini d <> Ok l) ->
  forall e nd root t M, ct_build f nd root = Ok t -> root || negb (is_leaf nd) = true -> level k nleaf s (S e) nd ->
  cn_iabs nd = cn_jabs nd -> hier ini t <> Ok M.
Proof.
  intros Hk Hs Hn HD HO HX. induction f as [|f IH]; intros e nd root t M Hb Hr HL Hd H; [discriminate|].
  destruct (hier_children _ _ _ _ _ _ Hb Hr H) as [f' [b [Ef [-> CH]]]]. inversion Ef; subst f'.
  assert (E1 : cn_bm nd = k) by apply HL. assert (E2 : cn_bn nd = k) by apply HL. rewrite E1, E2 in *.
  destruct e as [|e].
  - destruct (CH 0 1) as [c [Hc [Ec HB]]]; try lia. pose proof (level_child k nleaf s Hk Hs 0 nd 0 1 HL ltac:(lia) ltac:(lia)) as LC.
    pose proof (child_off k nleaf s nd 0 1 _ HL Hd ltac:(lia)) as Dc.
    destruct (level_2 k nleaf s Hk Hs _ _ LC) as [T1 T2]. pose proof (HO _ Dc T1 T2) as A.
    destruct (hblock_inv _ _ _ HB) as [[_ [d [l [F [C _]]]]]|[[A' _]|[A' _]]]; [|rewrite Ec in A'; congruence..].
    rewrite Ec in F. destruct LC as [_ [_ [_ [S1 S2]]]]. rewrite Z.pow_0_r, Z.mul_1_r in S1, S2.
    exact (HX _ _ d l S1 S2 F C).
  - destruct (CH 0 0) as [c [Hc [Ec HB]]]; try lia. pose proof (level_child k nleaf s Hk Hs (S e) nd 0 0 HL ltac:(lia) ltac:(lia)) as LC.
    pose proof (child_diag k nleaf s nd 0 _ HL Hd) as Dc. pose proof (HD _ Dc) as A.
    assert (NL : is_leaf (child_node nd (0, 0)) = false).
    { destruct LC as [_ [_ [S0 [S1 S2]]]]. unfold is_leaf. rewrite S0, S1.
      rewrite Nat2Z.inj_succ, Z.pow_succ_r by lia. assert (0 < k ^ Z.of_nat e)%Z by (apply Z.pow_pos_nonneg; lia).
      replace (_ <=? nleaf)%Z with false by (symmetry; apply Z.leb_gt; nia). simpl. apply Z.eqb_neq. lia. }
    destruct (hblock_inv _ _ _ HB) as [[A' _]|[[_ [L' _]]|[_ [_ HM]]]]; [rewrite Ec in A'; congruence|rewrite Ec in L'; congruence|].
    apply (IH e (child_node nd (0, 0)) false c (b 0 0) Hc); auto. rewrite NL. reflexivity.
Qed.

(** Divided along common axes means divided evenly (for l2_error, l2_error.cpp:40-66). *)
Variable QS : nat -> nat -> Prop.
Lemma fit_even (A : matrix) : forall r c, valid r -> valid c -> fit QS r c A -> even A.
Proof.
  induction A as [d|l|m n b IH|er ec]; intros r c Vr Vc; try (intros; exact I).
  intros F. destruct (fit_dims QS r c _ Vr Vc F) as [N1 N2]. cbn [CommonTree.fit] in F. destruct F as [-> [-> F]].
  destruct (valid_div r Vr) as [D1 [D2 D3]]. destruct (valid_div c Vc) as [E1 [E2 E3]].
  cbn [even]. rewrite N1, N2. unfold divides in D2, E2. split; auto. split; auto.
  assert (PN : forall n k i, 0 < k -> i < k -> divides n k -> Z.of_nat (part n k i) = ir_n (ir_split_child (IR 0 (Z.of_nat n)) (Z.of_nat k) (Z.of_nat i))).
  { intros n k i Hk Hi HD. unfold CommonTree.part. rewrite Z2Nat.id; auto.
    pose proof (divides_nonneg (IR 0 (Z.of_nat n)) (Z.of_nat k) i) as X. cbn [ir_n] in X. unfold len in X. cbn [ir_n] in X.
    rewrite !Nat2Z.id in X. rewrite ir_split_nth in X by lia. apply X; auto; lia. }
  split; [|split].
  - intros i Hi. destruct (fit_dims QS (sub r i) (sub c 0) (b i 0)) as [H1 _]; auto using valid_sub.
    unfold bheight. rewrite H1, D3 by auto. apply PN; auto.
  - intros j Hj. destruct (fit_dims QS (sub r 0) (sub c j) (b 0 j)) as [_ H1]; auto using valid_sub.
    unfold bwidth. rewrite H1, E3 by auto. apply PN; auto.
  - intros i j Hi Hj. apply (IH i j (sub r i) (sub c j)); auto using valid_sub.
Qed.

End Build.
