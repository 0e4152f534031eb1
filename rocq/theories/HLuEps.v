(** The H-LU program with blocks compressed to an accuracy: what the constructor makes, and
    how errors of construction, factorization and solves add up. *)
From Coq Require Import List Arith ZArith QArith Qreals Lia Bool Reals Lra String Ring_theory Ring.
From Verif Require Import Prelude Ring MatFun MatSetoid Matrix MatOps MatSpec MatOpsProofs Lapack LowRankAdd Gemm GemmSpec
  GemmProofs GemmTheorems Triangular TriSpec SvdRank HouseReal Rrqr RrqrLr RealLapack Prop_RealAdd IndexRange IndexRangeProofs ClusterTree ClusterTreeSpec
  ClusterTreeProofs ClusterTreeRegular Admissible Construct ConstructProofs Kernels ConstructKernel ConstructError Prop_ConstructError CommonTree TreeFit
  DominantTheorems Prop_FixedRank FroNorm QrErrTile QrErrReal L2Real BlrBuild BlrCompare LuErr LuErrBlocks LuErrThm.
From Verif Require Import LowRankAdd GemmTerm RealAdd FixedRank.
From Verif Require GemmSucc UnevenTree Prop_QrError Prop_LuError.
Import ListNotations.
Local Open Scope nat_scope.

(** Parts of between 1 and N indices. *)
Fixpoint bounded (N : nat) (a : axis) : Prop :=
  match a with
  | Leaf n => 0 < n /\ n <= N
  | Node n k c => 0 < n /\ n <= N /\ forall i, i < k -> bounded N (c i)
  end.
Lemma bounded_size N a : bounded N a -> 0 < asize a /\ asize a <= N.
Proof. destruct a; cbn; tauto. Qed.
Lemma bounded_sub N a i : bounded N a -> i < deg a -> bounded N (sub a i).
Proof. destruct a; cbn; auto. intros [_ [_ H]]. apply H. Qed.

Lemma bounded_uniform N s k d : 1 <= s -> 2 <= k -> s * k ^ d <= N -> bounded N (uniform (s * k ^ d) k d).
Proof.
  intros Hs Hk. assert (PK : forall d, 1 <= k ^ d) by (intros x; apply (Nat.pow_le_mono_r k 0 x); lia).
  induction d as [|d IH]; intros H.
  - cbn [uniform bounded]. specialize (PK 0). nia.
  - cbn [uniform]. replace (k <=? 1) with false by (symmetry; apply Nat.leb_gt; lia). specialize (PK d). cbn [Nat.pow] in H.
    cbn [bounded]. split; [cbn [Nat.pow]; nia|]. split; [cbn [Nat.pow]; lia|]. intros i Hi.
    replace (s * k ^ S d) with (s * k ^ d * k) by (cbn [Nat.pow]; ring). rewrite part_mul by lia. apply IH. nia.
Qed.

Lemma fit_sizes N QS (P : lowrank -> Prop) (A : matrix) : forall r c, bounded N r -> bounded N c -> CommonTree.fit QS r c A -> allp P A ->
  allp (fun l : lowrank => P l /\ (0 < l_r l)%nat /\ (0 < l_c l)%nat /\ (l_c l <= N)%nat) A.
Proof.
  induction A as [d|l|m n a IH|er ec]; intros r c Br Bc F HP; cbn [allp] in *; auto.
  - destruct F as [_ [-> [-> _]]]. apply bounded_size in Br, Bc. tauto.
  - destruct F as [-> [-> F]]. intros i j Hi Hj. apply (IH i j (sub r i) (sub c j)); auto using bounded_sub.
Qed.

Lemma lu_tri_shape (A : matrix) : lu_shape (R := Rring) A -> tri_shape A.
Proof.
  induction A as [d|l|m n a IH|er ec]; cbn; auto. intros [-> [H1 [H2 _]]]. auto.
Qed.

Lemma hodlr_weak (A : matrix) : hodlr A -> weak A.
Proof.
  induction A as [d|l|m n a IH|er ec]; cbn; auto. intros [-> [H1 H2]]. auto.
Qed.

Lemma hodlr_gtree e (A : matrix) : hodlr A -> allp (fun l => good e (ML l)) A -> gtree e A.
Proof.
  induction A as [d|l|m n a IH|er ec]; cbn [hodlr allp gtree]; auto. intros [-> [H1 H2]] H i j Hi Hj.
  destruct (Nat.eq_dec i j) as [->|N]; [apply IH; auto|]. specialize (H i j Hi Hj). destruct (H2 i j Hi Hj N) as [l E]. rewrite E in *. exact H.
Qed.

(** No node has more columns than the root. *)
Lemma node_cols f : forall nd root t, ct_build f nd root = Ok t -> regular t -> (1 <= cn_bn nd)%Z ->
  forall s, In s (ct_nodes t) -> (ir_n (cn_cols (ct_node s)) <= ir_n (cn_cols nd))%Z.
Proof.
  induction f as [|f IH]; intros nd root t H Hr Hk s Hs; [discriminate|].
  pose proof (ct_build_inv _ _ _ _ H) as [f' [E [Hnd Hc]]]. inversion E; subst f'.
  destruct t as [nd1 cs]; cbn [ct_node ct_children] in Hnd, Hc; subst nd1.
  simpl in Hs. destruct Hs as [<-|Hs]; [apply Z.le_refl|].
  assert (N0 : (0 <= ir_n (cn_cols nd))%Z) by (apply (Hr (CT nd cs)); left; reflexivity).
  apply in_flat_map in Hs. destruct Hs as [c [Hc1 Hs]].
  destruct Hc as [[Hb Hc]|[_ Hc]]; [|subst; destruct Hc1].
  pose proof (regular_child nd cs c Hr Hc1) as Rc.
  apply In_nth_error in Hc1. destruct Hc1 as [x Hn].
  destruct (Forall2_nth_error_r _ _ _ _ _ Hc Hn) as [[i j] [Hij Hbuild]].
  apply nth_error_In in Hij. apply block_positions_In in Hij. destruct Hij as [Hi Hj].
  eapply Z.le_trans; [apply (IH (child_node nd (i, j)) false c Hbuild Rc Hk s Hs)|].
  cbn [child_node cn_cols snd]. rewrite ir_split_nth by auto. unfold ir_split_child. cbn [ir_n]. set (z := ir_n (cn_cols nd)) in *. set (k := cn_bn nd) in *.
  rewrite Z.quot_div_nonneg by lia. pose proof (Z.div_pos (z + k - 1) k ltac:(lia) ltac:(lia)) as Q0.
  assert (Q1 : ((z + k - 1) / k <= z)%Z).
  { destruct (Z.eq_dec z 0) as [->|]; [rewrite Z.div_small; lia|]. apply Z.div_le_upper_bound; [lia|]. nia. }
  destruct (_ =? _)%Z; [|exact Q1]. nia.
Qed.

(** The factors of block LU of a constructed matrix, and what is left out by compression. *)
Local Open Scope R_scope.
Definition cut_off (n : nat) (e tol x : R) : R := sqrt (INR n) * e * x + tol * INR n.

Section Built.
Variables (setting : string) (rn : nat -> nat -> rmat) (tol : R) (eps : Q) (K : kernel) (pts : list (list R)) (n : nat) (admis : Q).
Hypothesis NS : setting <> "naive"%string.
Hypothesis He : Qeq_bool eps 0 = false.
Hypothesis E0 : 0 <= Q2R eps.
Hypothesis Es : Q2R eps * Q2R eps * INR n < 1.
Hypothesis Ht : 0 <= tol.
Hypothesis HK : positional K = true.
Hypothesis Ha : (0 <= admis < 1)%Q.
Let ini := kernel_init K pts (is_admissible PositionBased [] admis) (lowrank_eps tol eps).
Let Or := real_arith setting rn tol.

Lemma eps_comp D l : lowrank_eps tol eps D = Ok l -> lr_wf l /\ l_r l = d_r D /\ l_c l = d_c D.
Proof. intros Hl. destruct (lowrank_eps_any tol eps D l Hl) as [W [E1 [E2 _]]]. auto. Qed.

Lemma eps_shapely : shapely ini.
Proof. exact (kernel_init_shapely K pts _ _ eps_comp). Qed.

(** Compressed blocks of a matrix divided along bounded axes are good. *)
Lemma built_gtree QS ax fuel k nleaf M : bounded n ax -> CommonTree.fit QS ax ax M -> hodlr M ->
  hierarchical ini fuel (IR 0 (Z.of_nat n)) (IR 0 (Z.of_nat n)) k k nleaf = Ok M -> gtree eps M.
Proof using E0 Es Ht.
  intros B F Hd HM. apply hodlr_gtree; auto.
  assert (G : allp (fun l : lowrank => (0 < l_r l)%nat -> (0 < l_c l)%nat -> Q2R eps * Q2R eps * INR (l_c l) < 1 -> good eps (ML l)) M).
  { apply (hierarchical_allp ini _ fuel (IR 0 (Z.of_nat n)) (IR 0 (Z.of_nat n)) k k nleaf M); auto. intros d l E. destruct (eps_comp d l E) as [_ [-> ->]].
    intros H1 H2 H3. exact (lowrank_eps_good tol eps d l H1 H2 Ht E0 H3 E). }
  pose proof (fit_sizes n QS _ M ax ax B B F G) as G'. clear - G' E0 Es Ht. revert G'.
  induction M as [d|l|m n' a IH|er ec]; cbn [allp]; auto. intros [H [H1 [H2 H3]]]. apply H; auto.
  eapply Rle_lt_trans; [|exact Es]. apply Rmult_le_compat_l; [apply Rmult_le_pos; auto|]. apply le_INR. exact H3.
Qed.


(** What compression leaves out. *)
Lemma built_error fuel k nleaf t M FD : (1 <= k)%Z ->
  cluster_tree fuel (IR 0 (Z.of_nat n)) (IR 0 (Z.of_nat n)) k k nleaf = Ok t -> regular t ->
  hierarchical ini fuel (IR 0 (Z.of_nat n)) (IR 0 (Z.of_nat n)) k k nleaf = Ok M ->
  kernel_fill K pts n n 0 0 = Ok FD ->
  fro n n (msub (d_e FD) (ent M)) <= cut_off n (Q2R eps) tol (fro n n (d_e FD)).
Proof using E0 Ht HK.
  intros Hk HT Hr HM HF. destruct (kernel_fill_inv _ _ _ _ _ _ _ HF) as [F1 [F2 _]].
  destruct (kernel_eps_error K pts tol eps (is_admissible PositionBased [] admis) fuel (IR 0 (Z.of_nat n)) (IR 0 (Z.of_nat n)) k k nleaf t M FD n HK) as [_ [_ B]];
    auto; try (cbn [ir_start]; lia).
  { cbn [ir_start ir_n]. rewrite Nat2Z.id. exact HF. }
  { intros s B l [S1 [_ [S3 _]]]. destruct (proj1 eps_shapely _ _ _ S3) as [_ ->].
    apply storage_in_nodes in S1. pose proof (node_cols _ _ _ _ HT Hr Hk s S1) as G. cbn [root_node cn_cols ir_n] in G. lia. }
  rewrite F1, F2 in B. set (x := fro n n (d_e FD)). rewrite <- (fro_sq n n (d_e FD)) in B. fold x in B.
  assert (X0 : 0 <= x) by apply fro_nonneg. pose proof (pos_INR n) as N0.
  change (sumsq (R := Rring) n n (fun i j => d_e FD i j - ent M i j)) with (sumsq (R := Rring) n n (msub (d_e FD) (ent M))) in B.
  unfold fro. eapply Rle_trans; [apply sqrt_le_1_alt; exact B|]. eapply Rle_trans; [apply sqrt_plus_le|].
  - apply Rmult_le_pos; [apply Rmult_le_pos; auto; apply Rmult_le_pos; auto|apply Rle_0_sqr].
  - apply Rmult_le_pos; apply Rle_0_sqr.
  - unfold cut_off. apply Rplus_le_compat; right.
    + replace (INR n * (Q2R eps * Q2R eps) * (x * x)) with (INR n * ((Q2R eps * x) * (Q2R eps * x))) by ring.
      rewrite sqrt_mult by (auto; apply Rle_0_sqr). rewrite sqrt_square by (apply Rmult_le_pos; auto). ring.
    + replace (tol * tol * (INR n * INR n)) with ((tol * INR n) * (tol * INR n)) by ring. apply sqrt_square. apply Rmult_le_pos; auto.
Qed.
End Built.

(** A perturbed system: distance of the solutions, given a left inverse. *)
Lemma forward_error n (A E B x z : mat) K : 0 <= K -> fro n n E <= K -> feq n 1 (mmul n (madd A E) z) (mmul n A x) ->
  feq n n (mmul n B A) (MatFun.mid (R := Rring)) -> fro n n B * K < 1 ->
  fro n 1 (msub x z) <= fro n n B * K / (1 - fro n n B * K) * fro n 1 x.
Proof.
  intros HK HE H HB HS. set (c := fro n n B * K) in *. assert (B0 : 0 <= fro n n B) by apply fro_nonneg.
  assert (C0 : 0 <= c) by (apply Rmult_le_pos; auto).
  assert (F : feq n 1 (msub x z) (mmul n B (mmul n E z))).
  { assert (G : feq n 1 (mmul n B (mmul n (madd A E) z)) (mmul n B (mmul n A x))) by (apply (feq_mmul (R := Rring)); [apply (feq_refl (R := Rring))|exact H]).
    assert (I1 : forall y : mat, feq n 1 (mmul n B (mmul n A y)) y).
    { intros y i j Hi Hj. rewrite <- (mmul_assoc (R := Rring)).
      rewrite (feq_mmul (R := Rring) n n 1 _ _ y y HB (feq_refl (R := Rring) _ _ _) i j Hi Hj).
      apply (mmul_id_l (R := Rring)); auto. }
    intros i j Hi Hj. specialize (G i j Hi Hj). rewrite (I1 x i j Hi Hj) in G.
    assert (S : mmul n B (mmul n (madd A E) z) i j = Rplus (z i j) (mmul n B (mmul n E z) i j)).
    { rewrite <- (I1 z i j Hi Hj). rewrite <- (mmul_add_r (R := Rring)). apply (mmul_ext (R := Rring)); [reflexivity|]. intros k Hk.
      unfold MatFun.madd at 2. apply (mmul_add_l (R := Rring)). }
    rewrite S in G. unfold MatFun.msub. revert G. generalize (x i j) (z i j) (mmul n B (mmul n E z) i j). intros p q r G. cbn in *. lra. }
  assert (L1 : fro n 1 (msub x z) <= c * fro n 1 z).
  { rewrite (fro_ext _ _ _ _ F). eapply Rle_trans; [apply fro_mul|]. unfold c. rewrite Rmult_assoc. apply Rmult_le_compat_l; auto.
    eapply Rle_trans; [apply fro_mul|]. apply Rmult_le_compat_r; [apply fro_nonneg|exact HE]. }
  assert (L2 : fro n 1 z <= fro n 1 x + fro n 1 (msub x z)) by (rewrite fro_swap; apply fro_dist).
  set (d := fro n 1 (msub x z)) in *. set (X := fro n 1 x) in *. set (Z := fro n 1 z) in *.
  assert (L3 : d * (1 - c) <= c * X) by nra.
  apply (Rmult_le_reg_r (1 - c)); [lra|]. replace (c / (1 - c) * X * (1 - c)) with (c * X) by (field; lra). exact L3.
Qed.

(** ** Truncated additions do not fail *)
Definition eps_block (l : lowrank) : Prop := use_eps l = true /\ (0 < l_r l)%nat /\ (0 < l_c l)%nat /\ (0 < d_c (l_S l))%nat.

Lemma eps_policy setting rn tol : setting <> "naive"%string ->
  policy (fun _ _ => True) eps_block (fun _ => False) (real_arith setting rn tol).
Proof.
  intros NS. split; auto.
  - intros a b E1 E2 E3 E4 E5 E6. split; auto. unfold eps_block, use_eps. rewrite E1, E2, E4, E6. auto.
  - intros a b [A1 [A2 [A3 A4]]] _ _ WA WB Er Ec.
    destruct (rounded_real real_lapack real_lapack_ok real_lapack_orth real_lapack_sorted a b WA WB Er Ec) as
      [c [E [W [R1 [R2 [R3 [_ [R4 [R5 [_ [[[R6 R7] _] [_ R8]]]]]]]]]]]].
    { rewrite A1. unfold rounded_width. lia. }
    rewrite A1 in R4. exists c. split; [|split; [|split; [exact I|intros []]]].
    + cbn [real_arith lr_add]. unfold lr_addition. destruct (String.eqb_spec setting "naive"); [contradiction|].
      destruct (String.eqb setting "rounded_addition"); auto. unfold fast_rounded_addition. rewrite A1. exact E.
    + unfold eps_block, use_eps in *. rewrite R3. split; [exact A1|]. lia.
  - intros l d _ [].
Qed.

Lemma real_halt setting rn tol : setting <> "naive"%string -> oracles_halt (real_arith setting rn tol).
Proof.
  intros NS. apply (fixed_ranked real_lapack _ real_lapack_ok real_lapack_orth (real_fixed setting rn tol NS)).
Qed.

Lemma hodlr_eps_blocks e (A : matrix) : Qeq_bool e 0 = false -> hodlr A -> gtree e A -> allp eps_block A.
Proof.
  intros He. induction A as [d|l|m n a IH|er ec]; cbn [hodlr gtree allp]; auto; try tauto.
  intros [-> [H1 H2]] G i j Hi Hj. destruct (Nat.eq_dec i j) as [->|N]; [apply IH; auto|].
  specialize (G i j Hi Hj). destruct (H2 i j Hi Hj N) as [l E]. rewrite E in *. cbn [gtree] in G. destruct G as [G1 [G2 [G3 [G4 _]]]].
  cbn [allp]. split; [unfold use_eps; rewrite G1, He; reflexivity|auto].
Qed.

(** ** Sizes that do not divide evenly *)
Lemma part_le n k i : (1 <= k)%nat -> (i < k)%nat -> (cpart n k i <= n)%nat.
Proof.
  intros Hk Hi. apply Nat2Z.inj_le. rewrite UnevenTree.part_eq by auto.
  assert ((n + k - 1) / k <= n)%nat by (destruct n; [rewrite Nat.div_small; lia|apply Nat.div_le_upper_bound; nia]).
  destruct (_ =? _)%nat; [|lia]. set (c := ((n + k - 1) / k)%nat) in *. nia.
Qed.
Lemma bounded_cut N k nleaf q f : (2 <= k)%nat -> (2 <= q)%nat -> (UnevenTree.room k q <= nleaf)%nat ->
  forall n, (0 < n)%nat -> (n <= N)%nat -> bounded N (UnevenTree.cut f n k nleaf).
Proof.
  intros Hk Hq Hl. induction f as [|f IH]; intros n H1 H2; cbn [UnevenTree.cut bounded]; auto.
  destruct (Nat.leb_spec n nleaf); cbn [bounded]; auto. split; auto. split; auto. intros i Hi.
  pose proof (UnevenTree.room_part n k q i Hk ltac:(lia) ltac:(lia) Hi). pose proof (part_le n k i ltac:(lia) Hi). apply IH; lia.
Qed.
Lemma bounded_cuts N k nleaf q f n : (2 <= k)%nat -> (2 <= q)%nat -> (UnevenTree.room k q <= nleaf)%nat ->
  (UnevenTree.room k q < n)%nat -> (n <= N)%nat -> bounded N (UnevenTree.cuts f n k nleaf).
Proof.
  intros Hk Hq Hl H1 H2. unfold UnevenTree.cuts. cbn [bounded]. split; [lia|]. split; auto. intros i Hi.
  pose proof (UnevenTree.room_part n k q i Hk ltac:(lia) H1 Hi). pose proof (part_le n k i ltac:(lia) Hi). apply (bounded_cut N k nleaf q); auto; lia.
Qed.

(** ** What the constructor makes *)
Section Made.
Variables (tol : R) (eps : Q) (K : kernel) (pts : list (list R)) (n : nat) (admis : Q).
Hypothesis Ha : (0 <= admis < 1)%Q.
Let ini := kernel_init K pts (is_admissible PositionBased [] admis) (lowrank_eps tol eps).

Let HD : forall nd, cn_iabs nd = cn_jabs nd -> in_adm ini nd = Ok false.
Proof. intros nd. apply position_diag, Ha. Qed.
Let HO : forall nd, cn_iabs nd <> cn_jabs nd -> (2 <= ir_n (cn_rows nd))%Z -> (2 <= ir_n (cn_cols nd))%Z -> in_adm ini nd = Ok true.
Proof. intros nd. apply position_off. exact Ha. Qed.

Lemma built_any f nleaf A : (3 <= nleaf)%nat -> (3 < n)%nat ->
  hierarchical ini (S f) (IR 0 (Z.of_nat n)) (IR 0 (Z.of_nat n)) 2 2 (Z.of_nat nleaf) = Ok A ->
  let ax := UnevenTree.cuts f n 2 nleaf in
  CommonTree.fit (fun _ _ => True) ax ax A /\ hodlr A /\ valid ax /\ bounded n ax /\ asize ax = n.
Proof using Ha.
  intros Hl Hn HA ax. assert (Rm : UnevenTree.room 2 2 = 3%nat) by reflexivity.
  assert (Ln : ConstructProofs.len (IR 0 (Z.of_nat n)) = n) by (unfold len; cbn [ir_n]; lia).
  destruct (UnevenTree.hierarchical_cuts 2 nleaf 2 ltac:(lia) ltac:(lia) ltac:(lia) ini (fun _ _ => True) HD HO (eps_shapely tol eps K pts admis)
    (fun _ _ _ => Logic.I) f (IR 0 (Z.of_nat n)) (IR 0 (Z.of_nat n)) A eq_refl ltac:(cbn [ir_n]; lia) HA) as [FA Hd].
  rewrite Ln in FA. split; auto. split; auto. split; [apply (UnevenTree.valid_cuts 2 nleaf 2); lia|].
  split; [apply (bounded_cuts n 2 nleaf 2); lia|reflexivity].
Qed.
End Made.

Lemma built_pow tol eps K pts admis (Ha : (0 <= admis < 1)%Q) s k nleaf e fuel A : (2 <= k)%Z -> (2 <= s <= nleaf)%Z ->
  let n := (Z.to_nat s * Z.to_nat k ^ S e)%nat in
  hierarchical (kernel_init K pts (is_admissible PositionBased [] admis) (lowrank_eps tol eps)) fuel (IR 0 (Z.of_nat n)) (IR 0 (Z.of_nat n)) k k nleaf = Ok A ->
  let ax := uniform n (Z.to_nat k) (S e) in
  CommonTree.fit (fun _ _ => True) ax ax A /\ hodlr A /\ valid ax /\ bounded n ax /\ asize ax = n.
Proof.
  intros Hk Hs n HA ax.
  assert (En : ir_n (IR 0 (Z.of_nat n)) = (s * k ^ Z.of_nat (S e))%Z).
  { cbn [ir_n]. unfold n. rewrite Nat2Z.inj_mul, Nat2Z.inj_pow, !Z2Nat.id by lia. reflexivity. }
  set (ini := kernel_init K pts (is_admissible PositionBased [] admis) (lowrank_eps tol eps)) in *.
  pose proof (eps_shapely tol eps K pts admis) as SH. fold ini in SH.
  assert (HD : forall nd, cn_iabs nd = cn_jabs nd -> in_adm ini nd = Ok false) by (intros nd; apply position_diag, Ha).
  assert (HO : forall nd, cn_iabs nd <> cn_jabs nd -> (2 <= ir_n (cn_rows nd))%Z -> (2 <= ir_n (cn_cols nd))%Z -> in_adm ini nd = Ok true)
    by (intros nd; apply position_off; exact Ha).
  pose proof (hierarchical_fit_level ini (fun _ _ => True) SH (fun _ _ _ => Logic.I) k nleaf s e fuel _ _ A Hk Hs En En HA) as FA.
  pose proof (hierarchical_hodlr ini k nleaf s e fuel _ _ A Hk Hs En En HD HO HA) as Hd.
  split; auto. split; auto. split; [apply valid_uniform_pow; lia|]. split; [apply bounded_uniform; lia|apply asize_uniform].
Qed.
