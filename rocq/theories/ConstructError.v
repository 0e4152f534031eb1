(** How far a constructed Hierarchical matrix is from the matrix it is built from. *)
From Coq Require Import List Arith ZArith Lia Bool QArith Reals Qreals Lra Psatz.
From Verif Require Import Prelude Ring MatFun MatSetoid Matrix MatOps MatSpec MatOpsProofs IndexRange IndexRangeSpec
  IndexRangeProofs ClusterTree ClusterTreeSpec ClusterTreeProofs Triangular TriProofs Construct ConstructProofs
  L2Error L2Real SvdRank Householder HouseQr HouseReal Rrqr RrqrRank RrqrLr.
Import ListNotations.
Local Open Scope nat_scope.

Section Children.
Context {R : cring}.
Variable ini : initializer R.

(** The blocks of a constructed matrix and their nodes. *)
Lemma hier_children f nd root t M : ct_build f nd root = Ok t -> root || negb (is_leaf nd) = true ->
  hier ini t = Ok M ->
  exists f' b, f = S f' /\ M = MH (Z.to_nat (cn_bm nd)) (Z.to_nat (cn_bn nd)) b /\
  forall i j, i < Z.to_nat (cn_bm nd) -> j < Z.to_nat (cn_bn nd) ->
  exists c, In c (ct_children t) /\ ct_build f' (child_node nd (i, j)) false = Ok c /\
    hblock ini (hier ini) c = Ok (b i j).
Proof.
  intros Hb Hr H. destruct (ct_build_inv _ _ _ _ Hb) as [f' [Ef [End [[_ HF]|[E _]]]]]; [|congruence].
  destruct t as [nd' cs]. simpl in End. subst nd'. simpl in HF. rewrite hier_go in H.
  apply bind_Ok in H. destruct H as [b [Hg H]]. inversion H; subst M; clear H.
  exists f', b. split; auto. split; auto.
  assert (HP : Forall2 (fun ij c => cn_irel (ct_node c) = Z.of_nat (fst ij) /\ cn_jrel (ct_node c) = Z.of_nat (snd ij))
     (block_positions (cn_bm nd) (cn_bn nd)) cs).
  { eapply Forall2_imp; [|exact HF]. intros [i j] c Hc. cbv beta in Hc.
    destruct (ct_build_inv _ _ _ _ Hc) as [_ [_ [Ec _]]]. rewrite Ec. auto. }
  destruct (go_spec _ _ _ _ _ _ _ _ (positions_nodup _ _) HP Hg) as [_ HG].
  pose proof (Forall2_both _ _ _ _ HF HG) as HB.
  intros i j Hi Hj.
  destruct (Forall2_nth_error _ _ _ _ _ HB (block_positions_nth _ _ i j Hi Hj)) as [c [Hc [H1 H2]]].
  exists c. split; [eapply nth_error_In; eauto|]. auto.
Qed.
End Children.

Local Open Scope R_scope.

(** The part of F in a block of rows and columns. *)
Definition win (F : Z -> Z -> R) (rows cols : irange) : mat Rring :=
  fun i j => F (ir_start rows + Z.of_nat i)%Z (ir_start cols + Z.of_nat j)%Z.

Definition area (rows cols : irange) : R := INR (len rows) * INR (len cols).

Lemma rsumsq_blocks h w m n (f : mat Rring) :
  sumsq (R := Rring) (offs h m) (offs w n) f =
  rsum m (fun bi => rsum n (fun bj => sumsq (R := Rring) (h bi) (w bj) (mwin (offs h bi) (offs w bj) f))).
Proof. apply (sumsq_offs (R := Rring)). Qed.

Lemma offs_INR h m : INR (offs h m) = rsum m (fun i => INR (h i)).
Proof. induction m as [|m IH]; [reflexivity|]. cbn [offs sum]. rewrite plus_INR, IH. reflexivity. Qed.

Lemma rsum_scal n (f : nat -> R) a : rsum n (fun i => a * f i) = a * rsum n f.
Proof. induction n as [|n IH]; cbn [sum]; [cbn; lra|]. rewrite IH. cbn. lra. Qed.

Lemma rsum_plus n (f g : nat -> R) : rsum n (fun i => f i + g i) = rsum n f + rsum n g.
Proof. induction n as [|n IH]; cbn [sum]; [cbn; lra|]. rewrite IH. cbn. lra. Qed.

Lemma rsum_collect m n (c d : R) (q : nat -> nat -> R) (h w : nat -> R) :
  rsum m (fun i => rsum n (fun j => c * q i j + d * (h i * w j))) =
  c * rsum m (fun i => rsum n (fun j => q i j)) + d * (rsum m h * rsum n w).
Proof.
  rewrite <- (rsum_scal m (fun i => rsum n (fun j => q i j))).
  assert (E : d * (rsum m h * rsum n w) = rsum m (fun i => (d * rsum n w) * h i)).
  { rewrite rsum_scal. lra. }
  rewrite E, <- rsum_plus. apply (sum_ext (R := Rring)). intros i Hi.
  rewrite rsum_plus, rsum_scal. f_equal.
  assert (E2 : d * rsum n w * h i = rsum n (fun j => (d * h i) * w j)).
  { rewrite rsum_scal. lra. }
  rewrite E2. apply (sum_ext (R := Rring)). intros j Hj. symmetry. apply Rmult_assoc.
Qed.

Section Error.
Variable ini : initializer Rring.
Variables F G : Z -> Z -> R.
Variables c d : R.
Hypothesis SH : shapely ini.

(** What is asked of an admissible block: an error of at most c times the part of G there
    and d per entry (squared).  G is the matrix itself for a relative error. *)
Definition comp_close (s : ctree) : Prop := forall B l,
  in_adm ini (ct_node s) = Ok true -> in_fill ini (cn_rows (ct_node s)) (cn_cols (ct_node s)) = Ok B ->
  in_comp ini B = Ok l ->
  sumsq (R := Rring) (d_r B) (d_c B) (fun i j => d_e B i j - lr_ent l i j) <=
  c * sumsq (R := Rring) (d_r B) (d_c B) (win G (cn_rows (ct_node s)) (cn_cols (ct_node s))) +
  d * (INR (d_r B) * INR (d_c B)).

(** The entries of a node's block are those of F. *)
Definition fills (s : ctree) : Prop := forall B,
  in_fill ini (cn_rows (ct_node s)) (cn_cols (ct_node s)) = Ok B ->
  feq (R := Rring) (d_r B) (d_c B) (d_e B) (win F (cn_rows (ct_node s)) (cn_cols (ct_node s))).

Definition near (rows cols : irange) (M : matrix Rring) : Prop :=
  sumsq (R := Rring) (len rows) (len cols) (fun i j => win F rows cols i j - ent M i j) <=
  c * sumsq (R := Rring) (len rows) (len cols) (win G rows cols) + d * area rows cols.

Hypothesis Hc : 0 <= c.
Hypothesis Hd : 0 <= d.

Lemma hier_near f : forall nd root t M, ct_build f nd root = Ok t -> root || negb (is_leaf nd) = true ->
  (1 <= cn_bm nd)%Z -> (1 <= cn_bn nd)%Z -> regular t -> hier ini t = Ok M ->
  (forall s, storage ini t s -> fills s) -> (forall s, storage ini t s -> comp_close s) ->
  near (cn_rows nd) (cn_cols nd) M.
Proof.
  induction f as [|f IH]; intros nd root t M Hb Hr Hbm Hbn Hreg H HF HC; [discriminate|].
  destruct (hier_good ini SH _ _ _ _ _ Hb Hr Hbm Hbn Hreg H) as [W [N1 [N2 _]]].
  assert (End : ct_node t = nd) by (destruct (ct_build_inv _ _ _ _ Hb) as [? [_ [? _]]]; auto).
  destruct (hier_children _ _ _ _ _ _ Hb Hr H) as [f' [b [Ef [EM CH]]]]. inversion Ef; subst f'; clear Ef.
  set (bm := Z.to_nat (cn_bm nd)) in *. set (bn := Z.to_nat (cn_bn nd)) in *.
  assert (P1 : (0 < bm)%nat) by (subst bm; lia). assert (P2 : (0 < bn)%nat) by (subst bn; lia).
  set (rp := fun i => part (cn_rows nd) (cn_bm nd) i). set (cp := fun j => part (cn_cols nd) (cn_bn nd) j).
  assert (NN : forall i j, (i < bm)%nat -> (j < bn)%nat -> (0 <= ir_n (rp i))%Z /\ (0 <= ir_n (cp j))%Z).
  { intros i j Hi Hj. destruct (CH i j Hi Hj) as [k [Hk [Hbk _]]].
    destruct (ct_build_inv _ _ _ _ Hbk) as [_ [_ [Ec _]]].
    assert (Rk : regular k) by (destruct t as [nd0 cs]; eapply regular_child; eauto).
    assert (Nk : (0 <= ir_n (cn_rows (ct_node k)))%Z /\ (0 <= ir_n (cn_cols (ct_node k)))%Z) by (apply Rk; apply in_block_nodes_self).
    rewrite Ec in Nk. exact Nk. }
  destruct (part_offs (cn_rows nd) (cn_bm nd)) as [AR BR]. { intros i Hi. apply (NN i 0%nat); auto. }
  destruct (part_offs (cn_cols nd) (cn_bn nd)) as [AC BC]. { intros j Hj. apply (NN 0%nat j); auto. }
  specialize (BR Hbm). specialize (BC Hbn).
  (* one block *)
  assert (BK : forall i j, (i < bm)%nat -> (j < bn)%nat ->
     nrows (b i j) = len (rp i) /\ ncols (b i j) = len (cp j) /\ near (rp i) (cp j) (b i j)).
  { intros i j Hi Hj. destruct (CH i j Hi Hj) as [k [Hk [Hbk Hh]]].
    destruct (ct_build_inv _ _ _ _ Hbk) as [_ [_ [Ec _]]].
    assert (Rk : regular k) by (destruct t as [nd0 cs]; eapply regular_child; eauto).
    assert (GD : forall D, get_dense ini (ct_node k) = Ok D ->
       in_fill ini (cn_rows (ct_node k)) (cn_cols (ct_node k)) = Ok D).
    { intros D. unfold get_dense. destruct ((0 <=? _)%Z && (0 <=? _)%Z); [auto|discriminate]. }
    assert (Er : cn_rows (ct_node k) = rp i) by (rewrite Ec; reflexivity).
    assert (Ecl : cn_cols (ct_node k) = cp j) by (rewrite Ec; reflexivity).
    unfold hblock in Hh. apply bind_Ok in Hh. destruct Hh as [a [Ha Hh]].
    destruct a.
    - apply bind_Ok in Hh. destruct Hh as [l [Hl Hh]]. inversion Hh as [Eb]. clear Hh.
      unfold get_compressed in Hl. apply bind_Ok in Hl. destruct Hl as [D [HD Hl]]. apply GD in HD.
      assert (ST : storage ini t k) by (exists k; split; auto; apply kept_here; auto).
      pose proof (HC k ST D l Ha HD Hl) as HE. pose proof (HF k ST D HD) as HW.
      destruct SH as [S1 S2]. destruct (S1 _ _ _ HD) as [E1 E2]. destruct (S2 _ _ Hl) as [_ [E3 E4]].
      rewrite Er, Ecl in *. cbn [nrows ncols]. fold (len (rp i)) in E1. fold (len (cp j)) in E2.
      split; [congruence|]. split; [congruence|]. unfold near, area. cbn [ent].
      rewrite E1, E2 in *.
      rewrite <- (sumsq_ext (R := Rring) (len (rp i)) (len (cp j)) (fun x y => d_e D x y - lr_ent l x y)); [exact HE|].
      intros x y Hx Hy. rewrite (HW x y Hx Hy). reflexivity.
    - destruct (is_leaf (ct_node k)) eqn:El.
      + apply bind_Ok in Hh. destruct Hh as [D [HD Hh]]. inversion Hh as [Eb]. clear Hh. apply GD in HD.
        assert (ST : storage ini t k) by (exists k; split; auto; apply kept_here; auto).
        pose proof (HF k ST D HD) as HW.
        destruct SH as [S1 S2]. destruct (S1 _ _ _ HD) as [E1 E2].
        rewrite Er, Ecl in *. cbn [nrows ncols]. fold (len (rp i)) in E1. fold (len (cp j)) in E2.
        split; [congruence|]. split; [congruence|]. unfold near. cbn [ent].
        assert (Z0 : sumsq (R := Rring) (len (rp i)) (len (cp j)) (fun x y => win F (rp i) (cp j) x y - d_e D x y) = 0).
        { apply sumsq_zero. intros x y Hx Hy. rewrite (HW x y) by congruence. unfold mzero. cbn. lra. }
        rewrite Z0. pose proof (sumsq_nonneg (len (rp i)) (len (cp j)) (win G (rp i) (cp j))) as P.
        unfold area. pose proof (pos_INR (len (rp i))). pose proof (pos_INR (len (cp j))).
        assert (0 <= c * sumsq (R := Rring) (len (rp i)) (len (cp j)) (win G (rp i) (cp j))) by (apply Rmult_le_pos; auto).
        assert (0 <= INR (len (rp i)) * INR (len (cp j))) by (apply Rmult_le_pos; auto).
        assert (0 <= d * (INR (len (rp i)) * INR (len (cp j)))) by (apply Rmult_le_pos; auto). lra.
      + assert (El' : is_leaf (child_node nd (i, j)) = false) by (rewrite <- Ec; exact El).
        assert (Lk : (false || negb (is_leaf (child_node nd (i, j))))%bool = true) by (rewrite El'; reflexivity).
        assert (SK : forall s, storage ini k s -> storage ini t s).
        { intros s [k' [Hk' Hs]]. exists k. split; auto. eapply kept_below; eauto. }
        pose proof (IH (child_node nd (i, j)) false k (b i j) Hbk Lk Hbm Hbn Rk Hh
                      (fun s Hs => HF s (SK s Hs)) (fun s Hs => HC s (SK s Hs))) as GN.
        destruct (hier_good ini SH _ _ _ _ _ Hbk Lk Hbm Hbn Rk Hh) as [_ [G1 [G2 _]]].
        rewrite Er in G1. rewrite Ecl in G2. split; auto. }
  subst M. rewrite End in N1, N2.
  assert (OH : forall i, (i <= bm)%nat -> offs (bheight b) i = offs (fun i => len (rp i)) i).
  { intros i Hi. apply offs_ext. intros k Hk. unfold bheight. apply (BK k 0%nat); lia. }
  assert (OW : forall j, (j <= bn)%nat -> offs (bwidth b) j = offs (fun j => len (cp j)) j).
  { intros j Hj. apply offs_ext. intros k Hk. unfold bwidth. apply (BK 0%nat k); lia. }
  assert (LR : len (cn_rows nd) = offs (fun i => len (rp i)) bm).
  { rewrite <- N1, nrows_MH, OH by lia. reflexivity. }
  assert (LC : len (cn_cols nd) = offs (fun j => len (cp j)) bn).
  { rewrite <- N2, ncols_MH, OW by lia. reflexivity. }
  assert (WI : forall (K : Z -> Z -> R) i j x y, (i < bm)%nat -> (j < bn)%nat ->
     win K (cn_rows nd) (cn_cols nd) (offs (fun i => len (rp i)) i + x)%nat (offs (fun j => len (cp j)) j + y)%nat =
     win K (rp i) (cp j) x y).
  { intros K i j x y Hi Hj. unfold win. pose proof (AR i Hi) as E1. pose proof (AC j Hj) as E2.
    fold (rp i) in E1. fold (cp j) in E2.
    replace (ir_start (cn_rows nd) + Z.of_nat (offs (fun i => len (rp i)) i + x))%Z with (ir_start (rp i) + Z.of_nat x)%Z
      by (unfold rp in *; lia).
    replace (ir_start (cn_cols nd) + Z.of_nat (offs (fun j => len (cp j)) j + y))%Z with (ir_start (cp j) + Z.of_nat y)%Z
      by (unfold cp in *; lia).
    reflexivity. }
  unfold near, area. rewrite LR, LC, !rsumsq_blocks, !offs_INR.
  set (e := fun bi bj => sumsq (R := Rring) (len (rp bi)) (len (cp bj)) (fun i j => win F (rp bi) (cp bj) i j - ent (b bi bj) i j)).
  set (q := fun bi bj => sumsq (R := Rring) (len (rp bi)) (len (cp bj)) (win G (rp bi) (cp bj))).
  rewrite (sum_ext (R := Rring) bm _ (fun bi => rsum bn (fun bj => e bi bj))).
  2:{ intros i Hi. apply (sum_ext (R := Rring)). intros j Hj. apply (sumsq_ext (R := Rring)).
      intros x y Hx Hy. unfold mwin. rewrite WI by auto. f_equal.
      rewrite <- OH, <- OW by lia. apply ent_block; auto.
      - unfold bheight. destruct (BK i 0%nat Hi P2) as [-> _]. auto.
      - unfold bwidth. destruct (BK 0%nat j P1 Hj) as [_ [-> _]]. auto. }
  rewrite (sum_ext (R := Rring) bm (fun bi => rsum bn (fun bj => sumsq (R := Rring) (len (rp bi)) (len (cp bj))
     (mwin (offs (fun i => len (rp i)) bi) (offs (fun j => len (cp j)) bj) (win G (cn_rows nd) (cn_cols nd)))))
     (fun bi => rsum bn (fun bj => q bi bj))).
  2:{ intros i Hi. apply (sum_ext (R := Rring)). intros j Hj. apply (sumsq_ext (R := Rring)).
      intros x y Hx Hy. unfold mwin. rewrite WI by auto. reflexivity. }
  apply Rle_trans with (rsum bm (fun bi => rsum bn (fun bj => c * q bi bj + d * (INR (len (rp bi)) * INR (len (cp bj)))))).
  - apply sum_le. intros i Hi. apply sum_le. intros j Hj. apply (BK i j Hi Hj).
  - apply Req_le.
    exact (rsum_collect bm bn c d q (fun i => INR (len (rp i))) (fun j => INR (len (cp j)))).
Qed.
End Error.

(** The whole construction. *)
Lemma fills_of (ini : initializer Rring) (SH : shapely ini) F fuel rows cols bm bn nleaf t M :
  (1 <= bm)%Z -> (1 <= bn)%Z -> cluster_tree fuel rows cols bm bn nleaf = Ok t -> regular t ->
  hierarchical ini fuel rows cols bm bn nleaf = Ok M -> windows_of ini rows cols F ->
  forall s, storage ini t s -> fills ini F s.
Proof.
  intros Hm Hn Ht Hr HM HF s Hs B HB i j Hi Hj.
  destruct SH as [S1 S2]. destruct (S1 _ _ _ HB) as [E1 E2].
  set (rs := cn_rows (ct_node s)) in *. set (cs := cn_cols (ct_node s)) in *.
  assert (I1 : ir_mem (ir_start rs + Z.of_nat i) rs) by (unfold ir_mem; lia).
  assert (I2 : ir_mem (ir_start cs + Z.of_nat j) cs) by (unfold ir_mem; lia).
  assert (IN : in_block (ir_start rs + Z.of_nat i) (ir_start cs + Z.of_nat j) s = true).
  { unfold in_block. apply andb_true_intro. split; apply ir_memb_spec; assumption. }
  destruct (block_in_range ini (conj S1 S2) fuel rows cols bm bn nleaf t M s Hm Hn Ht Hr HM Hs _ _ IN) as [K1 K2].
  pose proof (HF rs cs B HB K1 K2 _ _ I1 I2) as E.
  replace (pos rs (ir_start rs + Z.of_nat i)) with i in E by (unfold pos; lia).
  replace (pos cs (ir_start cs + Z.of_nat j)) with j in E by (unfold pos; lia).
  exact E.
Qed.

Lemma construct_near (ini : initializer Rring) (SH : shapely ini) F G c d fuel rows cols bm bn nleaf t M :
  (1 <= bm)%Z -> (1 <= bn)%Z -> 0 <= c -> 0 <= d ->
  cluster_tree fuel rows cols bm bn nleaf = Ok t -> regular t ->
  hierarchical ini fuel rows cols bm bn nleaf = Ok M -> windows_of ini rows cols F ->
  (forall s, storage ini t s -> comp_close ini G c d s) ->
  nrows M = len rows /\ ncols M = len cols /\ wf M /\ near F G c d rows cols M.
Proof.
  intros Hm Hn Hc Hd Ht Hr HM HF HC.
  destruct (hierarchical_good ini SH fuel rows cols bm bn nleaf t M Hm Hn Ht Hr HM) as [W [D1 [D2 _]]].
  do 3 (split; [assumption|]).
  destruct (hierarchical_inv _ _ _ _ _ _ _ _ HM) as [t' [Ht' Hh]]. rewrite Ht in Ht'. inversion Ht'; subst t'.
  apply (hier_near ini F G c d SH Hc Hd fuel (root_node rows cols bm bn nleaf) true t M); auto.
  exact (fills_of ini SH F fuel rows cols bm bn nleaf t M Hm Hn Ht Hr HM HF).
Qed.

(** LowRank(Dense, eps), with columns above the tolerance or without. *)
Lemma colsq_sum m n (A : rmat) : sumsq (R := Rring) m n A = rsum n (fun j => rsum m (fun i => A i j * A i j)).
Proof. unfold sumsq. apply (sum_swap (R := Rring)). Qed.

Lemma lowrank_eps_any tol eps (A : rdense) l : lowrank_eps tol eps A = Ok l ->
  lr_wf l /\ l_r l = d_r A /\ l_c l = d_c A /\
  sumsq (R := Rring) (d_r A) (d_c A) (fun i j => d_e A i j - lr_ent l i j) <=
    INR (d_c A) * (Q2R eps * Q2R eps) * sumsq (R := Rring) (d_r A) (d_c A) (d_e A) +
    tol * tol * (INR (d_r A) * INR (d_c A)).
Proof.
  intros H.
  assert (P0 : 0 <= tol * tol * (INR (d_r A) * INR (d_c A))).
  { apply Rmult_le_pos; [nra|]. apply Rmult_le_pos; apply pos_INR. }
  assert (P1 : 0 <= Q2R eps * Q2R eps) by nra.
  assert (P2 : 0 <= sumsq (R := Rring) (d_r A) (d_c A) (d_e A)) by apply sumsq_nonneg.
  destruct (classic_norm tol A) as [HB|HB].
  - destruct (lowrank_eps_ok tol eps A l H HB) as [W [E1 [E2 [_ [_ [_ [_ [_ [_ [_ [_ [HF _]]]]]]]]]]]].
    do 3 (split; [assumption|]).
    eapply Rle_trans; [exact HF|].
    set (q := sumsq (R := Rring) (d_r A) (d_c A) (d_e A)) in *.
    assert (EQ : Q2R eps * sqrt q * (Q2R eps * sqrt q) = Q2R eps * Q2R eps * q).
    { replace (Q2R eps * sqrt q * (Q2R eps * sqrt q)) with (Q2R eps * Q2R eps * (sqrt q * sqrt q)) by ring.
      rewrite sqrt_sqrt by exact P2. reflexivity. }
    assert (L : INR (d_c A - l_rank l) <= INR (d_c A)) by (apply le_INR; lia).
    assert (P3 : 0 <= Q2R eps * Q2R eps * q) by (apply Rmult_le_pos; auto).
    apply Rle_trans with (INR (d_c A) * (Q2R eps * Q2R eps * q)).
    + change (INR (d_c A - l_rank l) * (Q2R eps * sqrt q * (Q2R eps * sqrt q)) <= INR (d_c A) * (Q2R eps * Q2R eps * q)).
      rewrite EQ. apply Rmult_le_compat_r; auto.
    + rewrite <- Rmult_assoc. lra.
  - unfold lowrank_eps in H. apply bind_Ok in H. destruct H as [[U P] [HG H]].
    assert (PN : (0 < d_r A /\ 0 < d_c A)%nat).
    { unfold truncated_geqp3 in HG. cbv zeta in HG. apply bind_Ok in HG. destruct HG as [mx [HM HG]].
      apply max_from_Ok in HM. destruct HM as [N [k [Hk [E _]]]].
      destruct (Rle_dec mx tol) as [_|N2]; [|exfalso; apply N2; rewrite E; apply HB; lia].
      destruct (Nat.eqb_spec (d_r A) 0); [discriminate|]. lia. }
    destruct PN as [Hm Hn].
    destruct (truncated_geqp3_tiny tol (Q2R eps) A Hm Hn HB) as [Q' [P' [E [F1 [F2 [F3 [F4 [F5 F6]]]]]]]].
    rewrite HG in E. inversion E; subst Q' P'; clear E.
    apply bind_Ok in H. destruct H as [[[X S1] V] [HR H]]. inversion H; subst l; clear H.
    rewrite F2 in *.
    destruct (rq_dense_ok (R := Rring) dlarfg dlarfg_ok P (Dn 1 1 rzero) (Dn 1 (d_c A) rzero)) as [X' [S' [V' [ER [E1 [E2 [E3 [E4 [E5 _]]]]]]]]].
    { unfold rq_shapes. cbn [d_r d_c d_e]. rewrite F3, F4. do 3 (split; auto). split; [lia|]. split; [lia|]. reflexivity. }
    rewrite HR in ER. inversion ER; subst X' S' V'; clear ER. cbn [d_r d_c d_e] in *. rewrite F3, F4 in *.
    split. { unfold lr_wf. cbn [l_U l_S l_V l_r l_c]. rewrite E1, E2, E3. repeat (split; auto). }
    cbn [l_r l_c]. do 2 (split; [reflexivity|]).
    assert (EZ : sumsq (R := Rring) (d_r A) (d_c A) (fun i j => d_e A i j - lr_ent (Lr (d_r A) (d_c A) 1 eps U S1 V) i j) =
                 sumsq (R := Rring) (d_r A) (d_c A) (d_e A)).
    { apply (sumsq_ext (R := Rring)). intros i j Hi Hj.
      assert (Z0 : lr_ent (Lr (d_r A) (d_c A) 1 eps U S1 V) i j = 0).
      { unfold lr_ent. cbn [l_U l_S l_V]. rewrite E2, F2. rewrite <- (F6 i j Hi Hj) at 1.
        apply (mmul_ext (R := Rring)); [reflexivity|]. intros k Hk. apply E5; auto. }
      rewrite Z0. cbn. lra. }
    rewrite EZ.
    assert (T : sumsq (R := Rring) (d_r A) (d_c A) (d_e A) <= tol * tol * (INR (d_r A) * INR (d_c A))).
    { rewrite colsq_sum. apply Rle_trans with (rsum (d_c A) (fun _ => tol * tol)).
      - apply sum_le. intros j Hj. specialize (HB j Hj). unfold colnorm in HB.
        assert (C : rsum (d_r A) (fun i => d_e A i j * d_e A i j) = colsq (d_e A) (d_r A) 0 j).
        { unfold colsq. rewrite Nat.sub_0_r. apply (sum_ext (R := Rring)). intros i Hi. reflexivity. }
        rewrite C. pose proof (sqrt_pos (colsq (d_e A) (d_r A) 0 j)) as SP.
        rewrite <- (sqrt_sqrt (colsq (d_e A) (d_r A) 0 j)).
        + apply Rmult_le_compat; auto.
        + rewrite <- C. apply sum_nonneg. intros i Hi. nra.
      - assert (EC : rsum (d_c A) (fun _ => tol * tol) = tol * tol * INR (d_c A)).
        { clear. induction (d_c A) as [|n IH]; [cbn; lra|]. cbn [sum]. rewrite IH, S_INR. cbn. lra. }
        rewrite EC. apply Rmult_le_compat_l; [nra|].
        assert (1 <= INR (d_r A)) by (apply (le_INR 1); lia). pose proof (pos_INR (d_c A)). nra. }
    assert (0 <= INR (d_c A) * (Q2R eps * Q2R eps) * sumsq (R := Rring) (d_r A) (d_c A) (d_e A)).
    { apply Rmult_le_pos; auto. apply Rmult_le_pos; auto. apply pos_INR. }
    lra.
Qed.
