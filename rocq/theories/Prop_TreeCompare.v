(** Property C87: the comparison of Hierarchical matrices built alike, and the compression
    accuracy printed by examples/blocked_mgs_h_qr.cpp. *)
From Coq Require Import List Arith ZArith QArith Lia Bool Reals Qreals Lra.
From Verif Require Import Prelude Ring MatFun Matrix MatOps MatSpec MatOpsProofs GemmTheorems IndexRange IndexRangeSpec
  IndexRangeProofs ClusterTree ClusterTreeSpec ClusterTreeProofs ClusterTreeRegular ClusterTreeTermination Admissible
  SvdRank Kernels Construct ConstructProofs ConstructKernel Triangular HouseReal Rrqr RrqrLr ConstructError L2Error L2Real DenseTree
  TreeCompare Prop_Construct Prop_ConstructError Prop_DenseTree.
Import ListNotations.
Local Open Scope nat_scope.
Local Open Scope R_scope.

(** Sum of the squares of the entries of an r x c matrix. *)
Definition total (r c : nat) (f : nat -> nat -> R) : R := rsum r (fun i => rsum c (fun j => f i j * f i j)).

Lemma total_sumsq r c f : total r c f = sumsq (R := Rring) r c f.
Proof. reflexivity. Qed.

Lemma l2_square fuel (A B : matrix Rring) e : wf A -> wf B -> l2_error fuel A B = Ok e -> 0 <= e /\
  e * e * (total (nrows A) (ncols A) (ent A) + dbl_eps) = total (nrows A) (ncols A) (fun i j => ent A i j - ent B i j).
Proof.
  intros WA WB H. rewrite (l2_value fuel A B e WA WB H).
  change (total (nrows A) (ncols A) (ent A)) with (sumsq (R := Rring) (nrows A) (ncols A) (ent A)).
  change (total (nrows A) (ncols A) (fun i j => ent A i j - ent B i j)) with (sumsq (R := Rring) (nrows A) (ncols A) (fun i j => (ent A i j - ent B i j)%R)).
  set (N := sumsq (R := Rring) (nrows A) (ncols A) (ent A)).
  set (D := sumsq (R := Rring) (nrows A) (ncols A) (fun i j => (ent A i j - ent B i j)%R)).
  assert (HD : 0 <= D) by apply sumsq_nonneg. assert (HN : 0 <= N) by apply sumsq_nonneg. pose proof dbl_eps_pos as HE.
  assert (HQ : 0 <= D / (N + dbl_eps)) by (apply Rmult_le_pos; [auto|left; apply Rinv_0_lt_compat; lra]).
  split; [apply sqrt_pos|]. rewrite sqrt_sqrt by auto. field. lra.
Qed.

(** Two matrices over the same rows, columns, division and leaf size can be compared whatever
    the admissibility, the compression and the values: l2_error returns, and the result is the relative
    error of the entries. *)
Theorem C87_same_tree : forall (ia ib : initializer Rring), shapely ia -> shapely ib ->
  forall f rows cols bm bn nleaf t A B, (1 <= bm)%Z -> (1 <= bn)%Z ->
  cluster_tree f rows cols bm bn nleaf = Ok t -> regular t ->
  hierarchical ia f rows cols bm bn nleaf = Ok A -> hierarchical ib f rows cols bm bn nleaf = Ok B ->
  let r := Z.to_nat (ir_n rows) in let c := Z.to_nat (ir_n cols) in
  exists G, forall g, (G <= g)%nat -> exists e, l2_error g A B = Ok e /\ 0 <= e /\
    e * e * (total r c (ent A) + dbl_eps) = total r c (fun i j => ent A i j - ent B i j).
Proof.
  intros ia ib SA SB f rows cols bm bn nleaf t A B Hm Hn Ht Hr HA HB r c.
  destruct (hierarchical_comparable ia ib SA SB f rows cols bm bn nleaf t A B Hm Hn Ht Hr HA HB) as [HC [[WA [NA [A1 A2]]] [WB [NB [B1 B2]]]]].
  destruct (l2_ok A B HC WA WB NA NB) as [G HG]; [congruence|congruence|].
  exists G. intros g Hg. destruct (HG g Hg) as [e E]. exists e. split; auto.
  destruct (l2_square g A B e WA WB E) as [P Q]. split; auto. rewrite A1, A2 in Q. exact Q.
Qed.
Print Assumptions C87_same_tree.

(** ** examples/blocked_mgs_h_qr.cpp:51-57 *)

(** Fuel f for the matrices and g for the comparison; [comp] is the compression to rank nleaf. *)
Definition printed_accuracy (K : kernel) (tol : R) comp (pts : list (list R)) (N nleaf nblocks : Z) (eps admis : Q) (f g : nat) : outcome R :=
  let* D := hierarchical (kernel_init K pts (is_admissible PositionBased [] (inject_Z (N / nleaf))) comp) f
    (IR 0 N) (IR 0 N) nblocks nblocks nleaf in                                          (* 51 *)
  let* A := hierarchical (kernel_init K pts (is_admissible PositionBased [] admis) (lowrank_eps tol eps)) f
    (IR 0 N) (IR 0 N) nblocks nblocks nleaf in                                          (* 54 *)
  l2_error g D A.                                                                       (* 57 *)

Lemma lowrank_eps_shape tol eps : forall D l, lowrank_eps tol eps D = Ok l -> lr_wf l /\ l_r l = d_r D /\ l_c l = d_c D.
Proof. intros D l H. destruct (lowrank_eps_any tol eps D l H) as [W [E1 [E2 _]]]. auto. Qed.

Section Program.
Variables (K : kernel) (tol : R) (comp : dense Rring -> outcome (lowrank Rring)) (pts : list (list R)) (nleaf k : Z) (e : nat) (eps admis : Q).
Hypothesis HK : positional K = true.
Hypothesis Hk : (2 <= k)%Z.
Hypothesis Hl : (1 <= nleaf)%Z.
Hypothesis He : (1 <= e)%nat.
Hypothesis HC : forall D l, comp D = Ok l -> lr_wf l /\ l_r l = d_r D /\ l_c l = d_c D.
Notation N := (side nleaf k e).
Notation n := (Z.to_nat N).
Notation idense := (kernel_init K pts (is_admissible PositionBased [] (inject_Z (N / nleaf))) comp).
Notation icomp := (kernel_init K pts (is_admissible PositionBased [] admis) (lowrank_eps tol eps)).

Lemma full_constant : (k ^ Z.of_nat e - 1 <= Qtrunc (inject_Z (N / nleaf)))%Z.
Proof using Hl He. rewrite trunc_Z. unfold side. rewrite Z.mul_comm, Z.div_mul by lia. lia. Qed.

Lemma side_pos : (0 <= N)%Z.
Proof using Hl Hk He. unfold side. pose proof (Z.pow_nonneg k (Z.of_nat e) ltac:(lia)). nia. Qed.

Lemma side_regular f t : cluster_tree f (IR 0 N) (IR 0 N) k k nleaf = Ok t -> regular t.
Proof using Hk Hl He. intros Ht. destruct e as [|e']; [lia|]. apply (regular_pow f (IR 0 (side nleaf k (S e'))) (IR 0 (side nleaf k (S e'))) k k nleaf nleaf nleaf e' t); auto; lia. Qed.

(** The Dense tree over a given cluster tree. *)
Lemma dense_tree f t FD : cluster_tree f (IR 0 N) (IR 0 N) k k nleaf = Ok t -> kernel_fill K pts n n 0 0 = Ok FD ->
  enough pts n -> (K = KCauchy2d -> (2 <= List.length pts)%nat) ->
  exists D, hierarchical idense f (IR 0 N) (IR 0 N) k k nleaf = Ok D /\ forall i j, (i < n)%nat -> (j < n)%nat -> ent D i j = d_e FD i j.
Proof using HK Hk Hl He HC.
  intros Ht HF HE NC. pose proof (side_regular f t Ht) as Hr.
  assert (HP : by_position idense (inject_Z (N / nleaf))) by (intros nd; reflexivity).
  assert (HM : exists D, hierarchical idense f (IR 0 N) (IR 0 N) k k nleaf = Ok D).
  { destruct (hier_total_dense idense f (root_node (IR 0 N) (IR 0 N) k k nleaf) true t Ht Hr) as [M HM].
    - intros c x Hc Hx.
      destruct (square_tree 0 0 nleaf k nleaf e ltac:(lia) ltac:(lia) f t He Ht x) as [E|[l [_ Q]]].
      + destruct t as [nd cs]. simpl in *. right. apply in_flat_map. eauto.
      + exfalso. exact (below_not_root _ _ true t c x Ht Hc Hx E).
      + split; [rewrite HP; exact (position_near _ 0 0 nleaf k nleaf e l _ _ ltac:(lia) Q full_constant)|].
        destruct Q as [L [_ [_ [_ [B1 [B2 [Er Ec]]]]]]]. rewrite Er, Ec. set (w := (nleaf * k ^ Z.of_nat (e - l))%Z) in *.
        assert (W : N = (k ^ Z.of_nat l * w)%Z).
        { unfold side, w. replace e with (l + (e - l))%nat at 1 by lia. rewrite Nat2Z.inj_add, Z.pow_add_r by lia. ring. }
        assert (P : (0 <= w)%Z) by (unfold w; pose proof (Z.pow_nonneg k (Z.of_nat (e - l)) ltac:(lia)); nia).
        cbn [kernel_init in_fill]. unfold kernel_block. cbn [ir_start ir_n].
        replace (_ && _)%bool with true by (symmetry; apply andb_true_iff; split; apply Z.leb_le; nia).
        apply (fill_succeeds K pts _ _ _ _ n); auto; unfold len; cbn [ir_n]; rewrite W; rewrite <- Z2Nat.inj_add by nia; apply Z2Nat.inj_le; nia.
    - exists M. unfold hierarchical. rewrite Ht. exact HM. }
  destruct HM as [D HM]. exists D. split; auto.
  pose proof side_pos as SP. pose proof (kernel_init_shapely K pts (is_admissible PositionBased [] (inject_Z (N / nleaf))) comp HC) as SH.
  pose proof (kernel_init_windows K pts (is_admissible PositionBased [] (inject_Z (N / nleaf))) comp
    (IR 0 N) (IR 0 N) FD HK ltac:(cbn; lia) ltac:(cbn; lia) HF) as HW.
  destruct (C86_full_rank Rring idense nleaf k e ltac:(lia) Hl He HP SH 0 0 f D _ HM HW) as [E [E0 [E1 [E2 EE]]]].
  destruct (hierarchical_comparable idense idense SH SH f (IR 0 N) (IR 0 N) k k nleaf t D D ltac:(lia) ltac:(lia) Ht Hr HM HM)
    as [_ [[WD [_ [D1 D2]]] _]].
  destruct (densify_spec D WD) as [E' [Ed [X1 [X2 X3]]]]. rewrite E0 in Ed. injection Ed as <-.
  intros i j Hi Hj. specialize (EE (Z.of_nat i) (Z.of_nat j)). unfold pos, ir_mem in EE. cbn [ir_start ir_n] in EE.
  rewrite !Z.sub_0_r, !Nat2Z.id in EE. rewrite <- EE by lia. symmetry. apply X3; rewrite ?D1, ?D2; auto.
Qed.

(** A block that is compressed has at most N / k columns. *)
Lemma narrow f t s B l : cluster_tree f (IR 0 N) (IR 0 N) k k nleaf = Ok t -> compressed icomp t s B l -> (d_c B <= Z.to_nat (N / k))%nat.
Proof using Hk Hl He.
  intros Ht [[c [Hc Hs]] [_ [HF _]]]. pose proof (kept_in_nodes icomp c s Hs) as Hin.
  destruct (square_tree 0 0 nleaf k nleaf e ltac:(lia) ltac:(lia) f t He Ht s) as [E|[m [Hm Q]]].
  - destruct t as [nd cs]. simpl in *. right. apply in_flat_map. eauto.
  - exfalso. exact (below_not_root _ _ true t c s Ht Hc Hin E).
  - destruct (kernel_init_shapely K pts (is_admissible PositionBased [] admis) _ (lowrank_eps_shape tol eps)) as [S1 _].
    destruct (S1 _ _ _ HF) as [_ ->]. destruct Q as [L [_ [_ [_ [_ [_ [_ Ec]]]]]]]. rewrite Ec. cbn [ir_n].
    assert (D : (N / k)%Z = (nleaf * k ^ Z.of_nat (e - 1))%Z).
    { unfold side. replace (nleaf * k ^ Z.of_nat e)%Z with (nleaf * k ^ Z.of_nat (e - 1) * k)%Z; [apply Z.div_mul; lia|].
      replace e with (S (e - 1)) at 2 by lia. rewrite Nat2Z.inj_succ, Z.pow_succ_r by lia. ring. }
    rewrite D. apply Z2Nat.inj_le; [pose proof (Z.pow_nonneg k (Z.of_nat (e - m)) ltac:(lia)); nia|pose proof (Z.pow_nonneg k (Z.of_nat (e - 1)) ltac:(lia)); nia|].
    apply Z.mul_le_mono_nonneg_l; [lia|]. apply Z.pow_le_mono_r; lia.
Qed.

Lemma program_value f A FD : enough pts n -> (K = KCauchy2d -> (2 <= List.length pts)%nat) -> kernel_fill K pts n n 0 0 = Ok FD ->
  hierarchical icomp f (IR 0 N) (IR 0 N) k k nleaf = Ok A ->
  exists G, forall g, (G <= g)%nat -> exists err, printed_accuracy K tol comp pts N nleaf k eps admis f g = Ok err /\ 0 <= err /\
    err * err * (total n n (d_e FD) + dbl_eps) = total n n (fun i j => d_e FD i j - ent A i j).
Proof using HK Hk Hl He HC.
  intros HE NC HF HA. destruct (hierarchical_inv _ _ _ _ _ _ _ _ HA) as [t [Ht _]].
  destruct (dense_tree f t FD Ht HF HE NC) as [D [HD ED]].
  destruct (C87_same_tree idense icomp) with (5 := Ht) (7 := HD) (8 := HA) as [G HG]; try lia.
  { apply kernel_init_shapely. exact HC. } { apply kernel_init_shapely. apply lowrank_eps_shape. } { exact (side_regular f t Ht). }
  exists G. intros g Hg. destruct (HG g Hg) as [err [E1 [E2 E3]]]. exists err.
  split; [unfold printed_accuracy; rewrite HD; cbn [bind]; rewrite HA; exact E1|]. split; auto. cbn [ir_n] in E3.
  replace (total n n (d_e FD)) with (total n n (ent D)) by (apply (sumsq_ext (R := Rring)); intros i j Hi Hj; apply ED; auto).
  rewrite E3. apply (sumsq_ext (R := Rring)). intros i j Hi Hj. rewrite ED; auto.
Qed.
End Program.

(** N = nleaf * k^e rows and columns in k x k blocks per level, any admissibility constant: when the
    compressed matrix A is built, so is the matrix it is compared to, which is the kernel matrix F; the number printed
    is |F - A| / sqrt(|F|^2 + 2^-52), and it is bounded by the accuracy asked for. *)
Theorem C87_program : forall K tol comp pts nleaf k e eps admis f A FD, positional K = true -> (2 <= k)%Z -> (1 <= nleaf)%Z -> (1 <= e)%nat ->
  (forall D l, comp D = Ok l -> lr_wf l /\ l_r l = d_r D /\ l_c l = d_c D) ->
  let N := side nleaf k e in let n := Z.to_nat N in
  enough pts n -> (K = KCauchy2d -> (2 <= List.length pts)%nat) -> kernel_fill K pts n n 0 0 = Ok FD ->
  hierarchical (kernel_init K pts (is_admissible PositionBased [] admis) (lowrank_eps tol eps)) f (IR 0 N) (IR 0 N) k k nleaf = Ok A ->
  exists G, forall g, (G <= g)%nat -> exists err, printed_accuracy K tol comp pts N nleaf k eps admis f g = Ok err /\ 0 <= err /\
    err * err * (total n n (d_e FD) + dbl_eps) = total n n (fun i j => d_e FD i j - ent A i j) /\
    total n n (fun i j => d_e FD i j - ent A i j) <=
      INR (Z.to_nat (N / k)) * (Q2R eps * Q2R eps) * total n n (d_e FD) + tol * tol * (INR n * INR n).
Proof.
  intros K tol comp pts nleaf k e eps admis f A FD HK Hk Hl He HC N n HE NC HF HA.
  destruct (program_value K tol comp pts nleaf k e eps admis HK Hk Hl He HC f A FD HE NC HF HA) as [G HG].
  exists G. intros g Hg. destruct (HG g Hg) as [err [E1 [E2 E3]]]. exists err. split; auto. split; auto. split; auto.
  destruct (hierarchical_inv _ _ _ _ _ _ _ _ HA) as [t [Ht _]].
  pose proof (side_pos nleaf k e Hk Hl He) as SP.
  pose proof (kernel_init_windows K pts (is_admissible PositionBased [] admis) (lowrank_eps tol eps)
    (IR 0 N) (IR 0 N) FD HK ltac:(cbn; lia) ltac:(cbn; lia) HF) as HW.
  pose proof (C73_eps_error tol eps (is_admissible PositionBased [] admis) (kernel_block K pts)) as X. cbv zeta in X.
  specialize (X (proj1 (kernel_init_shapely K pts (is_admissible PositionBased [] admis) _ (lowrank_eps_shape tol eps)))).
  specialize (X f (IR 0 N) (IR 0 N) k k nleaf t A _ (Z.to_nat (N / k)) ltac:(lia) ltac:(lia) Ht (side_regular nleaf k e Hk Hl He f t Ht) HA HW).
  specialize (X (fun s B l Hc => narrow K tol pts nleaf k e eps admis Hk Hl He f t s B l Ht Hc)).
  rewrite off_by_win, frob2_win in X. cbn [ir_n] in X. fold n in X.
  assert (W : forall i j, win (fun a b => d_e FD (pos (IR 0 N) a) (pos (IR 0 N) b)) (IR 0 N) (IR 0 N) i j = d_e FD i j).
  { intros i j. unfold win, pos. cbn [ir_start]. f_equal; lia. }
  replace (total n n (d_e FD)) with (sumsq (R := Rring) n n (win (fun a b => d_e FD (pos (IR 0 N) a) (pos (IR 0 N) b)) (IR 0 N) (IR 0 N)))
    by (apply (sumsq_ext (R := Rring)); intros i j _ _; apply W).
  eapply Rle_trans; [|exact X]. right. apply (sumsq_ext (R := Rring)). intros i j _ _. rewrite W. reflexivity.
Qed.
Print Assumptions C87_program.

(** With the full-rank setting for both matrices (modes 0 and 1) 0 is printed. *)
Theorem C87_full_rank : forall K tol comp pts nleaf k e eps, positional K = true -> (2 <= k)%Z -> (1 <= nleaf)%Z -> (1 <= e)%nat ->
  (forall D l, comp D = Ok l -> lr_wf l /\ l_r l = d_r D /\ l_c l = d_c D) ->
  let N := side nleaf k e in
  enough pts (Z.to_nat N) -> (K = KCauchy2d -> (2 <= List.length pts)%nat) ->
  exists f G, forall g, (G <= g)%nat -> printed_accuracy K tol comp pts N nleaf k eps (inject_Z (N / nleaf)) f g = Ok 0.
Proof.
  intros K tol comp pts nleaf k e eps HK Hk Hl He HC N HE NC. set (n := Z.to_nat N).
  destruct (fill_succeeds K pts n n 0 0 n HE ltac:(lia) ltac:(lia) NC) as [FD HF].
  destruct (cluster_tree_terminates (IR 0 N) (IR 0 N) k k nleaf (S n)) as [t Ht]; try lia.
  { cbn [ir_n]. rewrite Nat2Z.inj_succ, Z.pow_succ_r by lia. pose proof (Nat.pow_gt_lin_r 2 n ltac:(lia)) as H. apply inj_lt in H.
    rewrite Nat2Z.inj_pow in H. change (Z.of_nat 2) with 2%Z in H. unfold n in *. lia. }
  destruct (dense_tree K (lowrank_eps tol eps) pts nleaf k e HK Hk Hl He (lowrank_eps_shape tol eps) _ t FD Ht HF HE NC) as [A [HA EA]].
  destruct (program_value K tol comp pts nleaf k e eps (inject_Z (N / nleaf)) HK Hk Hl He HC _ A FD HE NC HF HA) as [G HG].
  exists (S (S (S n))), G. intros g Hg. destruct (HG g Hg) as [err [E1 [E2 E3]]]. fold N in E1, E3. fold n in E3.
  assert (Z0 : total n n (fun i j => d_e FD i j - ent A i j) = 0).
  { apply (proj2 (sumsq_zero n n (fun i j => d_e FD i j - ent A i j))). intros i j Hi Hj. rewrite EA by auto. cbn. unfold mzero. cbn. lra. }
  rewrite Z0 in E3. assert (0 <= total n n (d_e FD)) by apply sumsq_nonneg. pose proof dbl_eps_pos.
  assert (err = 0).
  { apply Rmult_integral in E3. destruct E3 as [E3|E3]; [|lra]. apply Rmult_integral in E3. destruct E3; auto. }
  subst err. exact E1.
Qed.
Print Assumptions C87_full_rank.

(** Two blocks per level (modes 1, 4 and 5) and any N and leaf size: when both matrices are built,
    the comparison returns, with the error relative to the matrix D, which need not be the kernel matrix
    (C86_full_rank_refuted). *)
Theorem C87_any_size : forall K tol comp pts N nleaf eps admis f D A, (0 <= N)%Z ->
  (forall X l, comp X = Ok l -> lr_wf l /\ l_r l = d_r X /\ l_c l = d_c X) ->
  hierarchical (kernel_init K pts (is_admissible PositionBased [] (inject_Z (N / nleaf))) comp) f (IR 0 N) (IR 0 N) 2 2 nleaf = Ok D ->
  hierarchical (kernel_init K pts (is_admissible PositionBased [] admis) (lowrank_eps tol eps)) f (IR 0 N) (IR 0 N) 2 2 nleaf = Ok A ->
  let n := Z.to_nat N in
  exists G, forall g, (G <= g)%nat -> exists err, printed_accuracy K tol comp pts N nleaf 2 eps admis f g = Ok err /\ 0 <= err /\
    err * err * (total n n (ent D) + dbl_eps) = total n n (fun i j => ent D i j - ent A i j).
Proof.
  intros K tol comp pts N nleaf eps admis f D A HN HC HD HA n. destruct (hierarchical_inv _ _ _ _ _ _ _ _ HA) as [t [Ht _]].
  destruct (C87_same_tree (kernel_init K pts (is_admissible PositionBased [] (inject_Z (N / nleaf))) comp)
    (kernel_init K pts (is_admissible PositionBased [] admis) (lowrank_eps tol eps))) with (5 := Ht) (7 := HD) (8 := HA) as [G HG]; try lia.
  { apply kernel_init_shapely. exact HC. } { apply kernel_init_shapely. apply lowrank_eps_shape. }
  { apply (regular_two f (IR 0 N) (IR 0 N) 2 2 nleaf t); auto; cbn [ir_n]; lia. }
  exists G. intros g Hg. destruct (HG g Hg) as [err [E1 E2]]. exists err. split; auto.
  unfold printed_accuracy. rewrite HD. cbn [bind]. rewrite HA. exact E1.
Qed.
Print Assumptions C87_any_size.

(** 8 rows and columns with leaf size 2: the Dense tree of the values x * y against the matrix with
    constant 2, whose two corner blocks are stored as zeros.  The sums of squares are those of the lost
    entries, 2 * (1 + 4) * (49 + 64), and of all entries, 204^2. *)
Example C87_ex :
  let ini a := Init (is_admissible PositionBased [] (inject_Z a)) zfill zcorner in
  (let* D := hierarchical (ini (8 / 2)%Z) 9 (IR 1 8) (IR 1 8) 2 2 2 in
   let* A := hierarchical (ini 2%Z) 9 (IR 1 8) (IR 1 8) 2 2 2 in l2_parts 9 D A) = Ok (1130, 41616)%Z.
Proof. vm_compute. reflexivity. Qed.
