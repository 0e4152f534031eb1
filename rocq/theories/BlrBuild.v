(** Block low-rank (BLR) matrices: the constructors of hierarchical.cpp:46-109 with p x q
    blocks of the leaf size, which divide the matrix once. *)
From Coq Require Import List Arith ZArith QArith Lia Bool Reals Qreals Lra Psatz String.
From Verif Require Import Prelude Ring MatFun MatSetoid Matrix MatOps MatSpec MatOpsProofs IndexRange IndexRangeSpec
  IndexRangeProofs ClusterTree ClusterTreeSpec ClusterTreeProofs ClusterTreeRegular Admissible Triangular TriProofs Construct ConstructProofs
  L2Error L2Real SvdRank Householder HouseQr HouseReal Rrqr RrqrRank RrqrLr Kernels ConstructKernel ConstructError Gemm GemmSpec TreeFit FixedRank
  Reflect ReflectSpec QrTiled QrApply FroNorm QrErrTile QrErrStep QrErrSucc QrSuccess TrmmErr.
Import ListNotations.
Local Open Scope nat_scope.

Definition rng (n : nat) : irange := IR 0 (Z.of_nat n).
Definition part_of (b i : nat) : irange := IR (Z.of_nat (i * b)) (Z.of_nat b).

Lemma part_nth p b i : i < p -> nth i (ir_split (rng (p * b)) (Z.of_nat p)) (IR 0 0) = part_of b i.
Proof.
  intros Hi. rewrite ir_split_nth by lia. unfold part_of, rng.
  pose proof (split_child_div (IR 0 (Z.of_nat (p * b))) (Z.of_nat p) (Z.of_nat b) (Z.of_nat i) ltac:(lia) ltac:(lia) ltac:(cbn [ir_n]; lia) ltac:(lia)) as E.
  unfold ir_split_child in *. cbn [ir_n ir_start] in *. rewrite E. f_equal.
  replace (Z.of_nat (p * b) + Z.of_nat p - 1)%Z with (Z.of_nat p - 1 + Z.of_nat b * Z.of_nat p)%Z by lia.
  rewrite Z.quot_div_nonneg by nia. rewrite Z.div_add by lia. rewrite Z.div_small by lia. lia.
Qed.

Section OneLevel.
Context {R : cring}.
Variable ini : initializer R.
Variables p q b : nat.
Hypothesis Hb : 0 < b.

Definition blr_root : cnode := root_node (rng (p * b)) (rng (q * b)) (Z.of_nat p) (Z.of_nat q) (Z.of_nat b).
Definition blr_node (i j : nat) : cnode := child_node blr_root (i, j).

Lemma blr_node_rows i j : i < p -> cn_rows (blr_node i j) = part_of b i.
Proof. intros Hi. exact (part_nth p b i Hi). Qed.
Lemma blr_node_cols i j : j < q -> cn_cols (blr_node i j) = part_of b j.
Proof. intros Hj. exact (part_nth q b j Hj). Qed.
Lemma blr_node_pos i j : cn_iabs (blr_node i j) = Z.of_nat i /\ cn_jabs (blr_node i j) = Z.of_nat j.
Proof. split; reflexivity. Qed.
Lemma blr_node_leaf i j : i < p -> j < q -> is_leaf (blr_node i j) = true.
Proof.
  intros Hi Hj. unfold is_leaf. rewrite blr_node_rows, blr_node_cols by auto. cbn [part_of ir_n].
  change (cn_nleaf (blr_node i j)) with (Z.of_nat b). rewrite Z.leb_refl. reflexivity.
Qed.

(** What a block is. *)
Definition blr_block (i j : nat) : outcome (matrix R) :=
  let* a := in_adm ini (blr_node i j) in
  let* d := in_fill ini (part_of b i) (part_of b j) in
  if (a : bool) then let* l := in_comp ini d in Ok (ML l) else Ok (MD d).

Lemma blr_hblock rec c i j : i < p -> j < q -> ct_node c = blr_node i j -> hblock ini rec c = blr_block i j.
Proof.
  intros Hi Hj E. unfold hblock, blr_block, get_compressed, get_dense. rewrite E, blr_node_leaf by auto.
  rewrite blr_node_rows, blr_node_cols by auto. cbn [part_of ir_n].
  replace ((0 <=? Z.of_nat b) && (0 <=? Z.of_nat b))%Z with true by (symmetry; apply andb_true_iff; split; apply Z.leb_le; lia).
  destruct (in_adm ini (blr_node i j)) as [a| | | |]; try reflexivity. cbn [bind]. destruct a; [|reflexivity].
  fold (part_of b i). fold (part_of b j). destruct (in_fill ini (part_of b i) (part_of b j)); reflexivity.
Qed.

Lemma blr_inv fuel M : hierarchical ini fuel (rng (p * b)) (rng (q * b)) (Z.of_nat p) (Z.of_nat q) (Z.of_nat b) = Ok M ->
  exists g, M = MH p q g /\ forall i j, i < p -> j < q -> blr_block i j = Ok (g i j).
Proof.
  intros H. destruct (hierarchical_inv _ _ _ _ _ _ _ _ H) as [t [Ht Hh]].
  destruct (hier_children ini _ _ _ _ _ Ht eq_refl Hh) as [f' [g [_ [EM CH]]]].
  cbn [root_node cn_bm cn_bn] in EM, CH. rewrite !Nat2Z.id in EM, CH. exists g. split; auto.
  intros i j Hi Hj. destruct (CH i j Hi Hj) as [c [_ [Hc HB]]].
  assert (E : ct_node c = blr_node i j) by exact Hc.
  rewrite <- HB. symmetry. apply blr_hblock; auto.
Qed.

Lemma blr_total fuel : (forall i j, i < p -> j < q -> exists x, blr_block i j = Ok x) ->
  exists g, hierarchical ini (S (S fuel)) (rng (p * b)) (rng (q * b)) (Z.of_nat p) (Z.of_nat q) (Z.of_nat b) = Ok (MH p q g) /\
    forall i j, i < p -> j < q -> blr_block i j = Ok (g i j).
Proof.
  intros HX.
  assert (HP : forall ij, In ij (block_positions (Z.of_nat p) (Z.of_nat q)) -> fst ij < p /\ snd ij < q).
  { intros [i j] Hi. apply in_flat_map in Hi. destruct Hi as [i' [I1 I2]]. apply in_map_iff in I2. destruct I2 as [j' [E I2]].
    inversion E; subst i' j'. apply in_seq in I1, I2. cbn [fst snd]. lia. }
  assert (EM : exists M, hierarchical ini (S (S fuel)) (rng (p * b)) (rng (q * b)) (Z.of_nat p) (Z.of_nat q) (Z.of_nat b) = Ok M).
  { set (t := CT blr_root (map (fun ij => CT (child_node blr_root ij) []) (block_positions (Z.of_nat p) (Z.of_nat q)))).
    assert (Ht : cluster_tree (S (S fuel)) (rng (p * b)) (rng (q * b)) (Z.of_nat p) (Z.of_nat q) (Z.of_nat b) = Ok t).
    { unfold cluster_tree. fold blr_root.
      change (ct_build (S (S fuel)) blr_root true) with
        (let* cs := mapM (fun ij => ct_build (S fuel) (child_node blr_root ij) false) (block_positions (Z.of_nat p) (Z.of_nat q)) in Ok (CT blr_root cs)).
      assert (MM : forall l, (forall ij, In ij l -> fst ij < p /\ snd ij < q) ->
        mapM (fun ij => ct_build (S fuel) (child_node blr_root ij) false) l = Ok (map (fun ij => CT (child_node blr_root ij) []) l)).
      { induction l as [|[i j] l IH]; intros Hl; [reflexivity|]. cbn [mapM map]. destruct (Hl (i, j) (or_introl eq_refl)) as [Hi Hj]. cbn [fst snd] in *.
        rewrite IH by (intros ij Hij; apply Hl; right; auto).
        cbn [ct_build]. change (child_node blr_root (i, j)) with (blr_node i j). rewrite blr_node_leaf by auto. reflexivity. }
      rewrite MM by exact HP. reflexivity. }
    unfold hierarchical. rewrite Ht. cbn [bind]. unfold t. rewrite hier_go.
    destruct (go_total ini (hier ini) (cn_bm blr_root) (cn_bn blr_root) (block_positions (Z.of_nat p) (Z.of_nat q))
      (map (fun ij => CT (child_node blr_root ij) []) (block_positions (Z.of_nat p) (Z.of_nat q))) (fun _ _ => ME 0 0)) as [g' Hg'].
    - clear. induction (block_positions (Z.of_nat p) (Z.of_nat q)); constructor; auto.
    - intros ij Hij. destruct (HP ij Hij). cbn [blr_root root_node cn_bm cn_bn]. lia.
    - intros c Hc. apply in_map_iff in Hc. destruct Hc as [[i j] [E Hij]]. destruct (HP (i, j) Hij) as [Hi Hj]. cbn [fst snd] in *. subst c.
      destruct (HX i j Hi Hj) as [x Hx]. exists x. rewrite (blr_hblock _ _ i j); auto.
    - rewrite Hg'. cbn [bind]. eauto. }
  destruct EM as [M HM]. destruct (blr_inv _ _ HM) as [g [-> Hg]]. exists g. auto.
Qed.
End OneLevel.

Lemma offs_const b k : offs (fun _ => b) k = k * b.
Proof. induction k as [|k IH]; [reflexivity|]. cbn [offs]. rewrite IH. lia. Qed.

(** Blocks of a kernel matrix. *)
Section Kernel.
Variables (K : kernel) (pts : list (list R)) (p q b : nat) (F : dense Rring).
Hypothesis Hb : 0 < b.
Hypothesis HK : positional K = true.
Hypothesis HF : kernel_fill K pts (p * b) (q * b) 0 0 = Ok F.

Definition tile (i j : nat) : mat Rring := mwin (R := Rring) (i * b) (j * b) (d_e F).

Lemma kernel_tile i j : i < p -> j < q -> exists B, kernel_block K pts (part_of b i) (part_of b j) = Ok B /\
  d_r B = b /\ d_c B = b /\ feq (R := Rring) b b (d_e B) (tile i j).
Proof.
  intros Hi Hj. unfold kernel_block, part_of, len. cbn [ir_start ir_n]. rewrite !Nat2Z.id.
  replace (_ && _)%bool with true by (symmetry; apply andb_true_iff; split; apply Z.leb_le; lia).
  destruct (fill_window K pts (p * b) (q * b) 0 0 F b b (i * b) (j * b) HK HF) as [B [E [E1 [E2 E3]]]]; [nia|nia|].
  exists B. split; [exact E|]. split; [auto|]. split; [auto|]. exact E3.
Qed.

Lemma kernel_whole (C : grid Rring) i j : shaped (R := Rring) p q (fun _ => b) (fun _ => b) C -> i < p -> j < q ->
  feq (R := Rring) b b (mwin (R := Rring) (offs (fun _ => b) i) (offs (fun _ => b) j) (ent (MH p q C))) (ent (C i j)).
Proof. intros HC Hi Hj. exact (whole_win p q (fun _ => b) (fun _ => b) C i j HC Hi Hj). Qed.

(** All blocks Dense: the whole matrix. *)
Lemma blr_dense comp (admis : Q) fuel : (forall i j, i < p -> j < q -> is_admissible PositionBased [] admis (blr_node p q b i j) = Ok false) ->
  exists D, hierarchical (kernel_init K pts (is_admissible PositionBased [] admis) comp) (S (S fuel)) (rng (p * b)) (rng (q * b)) (Z.of_nat p) (Z.of_nat q) (Z.of_nat b) = Ok (MH p q D) /\
   forall i j, i < p -> j < q -> exists d, D i j = MD d /\ d_r d = b /\ d_c d = b /\ feq (R := Rring) b b (d_e d) (tile i j).
Proof.
  intros HA.
  assert (T : forall i j, i < p -> j < q -> exists d, blr_block (kernel_init K pts (is_admissible PositionBased [] admis) comp) p q b i j = Ok (MD d) /\
    d_r d = b /\ d_c d = b /\ feq (R := Rring) b b (d_e d) (tile i j)).
  { intros i j Hi Hj. destruct (kernel_tile i j Hi Hj) as [B [E HB]]. exists B. split; auto. unfold blr_block. cbn [kernel_init in_adm in_fill in_comp].
    rewrite (HA i j Hi Hj). cbn [bind]. rewrite E. reflexivity. }
  destruct (blr_total (kernel_init K pts (is_admissible PositionBased [] admis) comp) p q b Hb fuel) as [D [E HD]].
  { intros i j Hi Hj. destruct (T i j Hi Hj) as [d [Ed _]]. eauto. }
  exists D. split; auto. intros i j Hi Hj. destruct (T i j Hi Hj) as [d [Ed P]]. rewrite (HD i j Hi Hj) in Ed. injection Ed as ->. eauto.
Qed.

(** Weak admissibility: the blocks off the diagonal are compressed. *)
Lemma weak_block comp (admis : Q) i j x : 2 <= b -> (0 <= admis < 1)%Q -> i < p -> j < q ->
  blr_block (kernel_init K pts (is_admissible PositionBased [] admis) comp) p q b i j = Ok x ->
  exists B, kernel_block K pts (part_of b i) (part_of b j) = Ok B /\ d_r B = b /\ d_c B = b /\ feq (R := Rring) b b (d_e B) (tile i j) /\
    (i = j -> x = MD B) /\ (i <> j -> exists l, comp B = Ok l /\ x = ML l).
Proof.
  intros H2 Ha Hi Hj H. destruct (kernel_tile i j Hi Hj) as [B [E HB]]. exists B. split; auto. destruct HB as [B1 [B2 B3]].
  split; auto. split; auto. split; auto. unfold blr_block in H. cbn [kernel_init in_adm in_fill in_comp] in H.
  destruct (blr_node_pos p q b i j) as [P1 P2]. split.
  - intros ->. rewrite position_diag in H; [|apply Ha|congruence]. cbn [bind] in H. rewrite E in H. cbn [bind] in H. congruence.
  - intros Nij. rewrite position_off in H; [|exact Ha|rewrite P1, P2; lia| |].
    + cbn [bind] in H. rewrite E in H. cbn [bind] in H. apply bind_Ok in H. destruct H as [l [El H]]. injection H as <-. eauto.
    + rewrite blr_node_rows by auto. cbn [part_of ir_n]. lia.
    + rewrite blr_node_cols by auto. cbn [part_of ir_n]. lia.
Qed.

Lemma weak_block_ok comp (admis : Q) i j : 2 <= b -> (0 <= admis < 1)%Q -> i < p -> j < q ->
  (i <> j -> forall B, kernel_block K pts (part_of b i) (part_of b j) = Ok B -> exists l, comp B = Ok l) ->
  exists x, blr_block (kernel_init K pts (is_admissible PositionBased [] admis) comp) p q b i j = Ok x.
Proof.
  intros H2 Ha Hi Hj HC. destruct (kernel_tile i j Hi Hj) as [B [E _]]. unfold blr_block. cbn [kernel_init in_adm in_fill in_comp].
  destruct (blr_node_pos p q b i j) as [P1 P2]. destruct (Nat.eq_dec i j) as [->|Nij].
  - rewrite position_diag; [|apply Ha|congruence]. cbn [bind]. rewrite E. cbn [bind]. eauto.
  - rewrite position_off; [|exact Ha|rewrite P1, P2; lia| |].
    + cbn [bind]. rewrite E. cbn [bind]. destruct (HC Nij B E) as [l ->]. cbn [bind]. eauto.
    + rewrite blr_node_rows by auto. cbn [part_of ir_n]. lia.
    + rewrite blr_node_cols by auto. cbn [part_of ir_n]. lia.
Qed.
End Kernel.

Local Open Scope R_scope.

(** A compressed block is a good tile: its factors have at least one column and the left
    basis is orthonormal. *)
Lemma lowrank_eps_good tol e (B : rdense) l : (0 < d_r B)%nat -> (0 < d_c B)%nat -> 0 <= tol -> 0 <= Q2R e -> Q2R e * Q2R e * INR (d_c B) < 1 ->
  lowrank_eps tol e B = Ok l -> good e (ML l).
Proof.
  intros P1 P2 Ht He Hs H.
  assert (EE : l_eps l = e).
  { unfold lowrank_eps in H. apply bind_Ok in H. destruct H as [[U P] [_ H]]. apply bind_Ok in H. destruct H as [[[X S1] V] [_ H]]. injection H as <-. reflexivity. }
  destruct (classic_norm tol B) as [HB|HB].
  - destruct (lowrank_eps_ok tol e B l H HB) as [W [E1 [E2 [E3 [E4 [_ [_ [OU [_ [_ [HC _]]]]]]]]]]].
    unfold good. split; auto. rewrite E1, E2, E4. split; auto. split; auto.
    assert (PR : (0 < l_rank l)%nat).
    { destruct (Nat.eq_dec (l_rank l) 0) as [Z|]; [exfalso|lia].
      set (x := sumsq (R := Rring) (d_r B) (d_c B) (d_e B)) in *.
      assert (X0 : 0 <= x) by apply sumsq_nonneg.
      assert (L1 : x <= INR (d_c B) * (Q2R e * Q2R e * x)).
      { unfold x at 1. rewrite colsq_sum.
        apply Rle_trans with (rsum (d_c B) (fun _ => Q2R e * Q2R e * x)).
        - apply sum_le. intros j Hj. specialize (HC j Hj).
          assert (Z0 : forall i, lr_ent l i j = 0).
          { intros i. unfold lr_ent. destruct W as [_ [W2 _]]. rewrite W2, E3, Z. reflexivity. }
          assert (EQ : Q2R e * sqrt x * (Q2R e * sqrt x) = Q2R e * Q2R e * x).
          { replace (Q2R e * sqrt x * (Q2R e * sqrt x)) with (Q2R e * Q2R e * (sqrt x * sqrt x)) by ring. rewrite sqrt_sqrt by auto. reflexivity. }
          rewrite EQ in HC. eapply Rle_trans; [right|exact HC]. apply (sum_ext (R := Rring)). intros i Hi. unfold msub. rewrite Z0. rr.
        - right. rewrite rsum_const. reflexivity. }
      assert (XP : 0 < x).
      { destruct HB as [j [Hj CJ]]. destruct (Rle_lt_or_eq_dec 0 x X0) as [|Zx]; auto. exfalso.
        assert (FZ : feq (R := Rring) (d_r B) (d_c B) (d_e B) mzero) by (apply L2Real.sumsq_zero; auto).
        assert (CZ : colnorm (d_e B) (d_r B) 0 j = 0).
        { unfold colnorm. rewrite <- sqrt_0. f_equal. unfold colsq.
          rewrite (sum_ext (R := Rring) _ _ (fun _ => 0)); [apply (sum_zero (R := Rring))|]. intros i Hi. cbn [Nat.add]. assert (Hi' : (i < d_r B)%nat) by lia.
          rewrite (FZ i j Hi' Hj). unfold mzero. cbn. lra. }
        lra. }
      nra. }
    split; auto. split; [congruence|]. destruct W as [_ [W2 _]]. rewrite E1, W2, E3. exact OU.
  - unfold lowrank_eps in H. apply bind_Ok in H. destruct H as [[U P] [HG H]].
    destruct (truncated_geqp3_tiny tol (Q2R e) B P1 P2 HB) as [Q' [P' [E [F1 [F2 [F3 [F4 [F5 F6]]]]]]]].
    rewrite HG in E. inversion E; subst Q' P'; clear E.
    apply bind_Ok in H. destruct H as [[[X S1] V] [HR H]]. inversion H; subst l; clear H.
    rewrite F2 in *.
    destruct (rq_dense_ok (R := Rring) dlarfg dlarfg_ok P (Dn 1 1 rzero) (Dn 1 (d_c B) rzero)) as [X' [S' [V' [ER [E1 [E2 _]]]]]].
    { unfold rq_shapes. cbn [d_r d_c d_e]. rewrite F3, F4. do 3 (split; auto). split; [lia|]. split; [lia|]. reflexivity. }
    rewrite HR in ER. inversion ER; subst X' S' V'; clear ER. cbn [d_r d_c d_e] in *.
    unfold good. cbn [l_eps l_r l_c l_S l_U orthU]. split; auto. split; auto. split; auto. rewrite F2.
    split; [lia|]. split; [congruence|]. exact F5.
Qed.

(** The zero matrix is compressed to zero. *)
Lemma lowrank_eps_zero tol e (B : rdense) : (0 < d_r B)%nat -> (0 < d_c B)%nat -> 0 <= tol -> feq (R := Rring) (d_r B) (d_c B) (d_e B) mzero ->
  exists l, lowrank_eps tol e B = Ok l /\ feq (R := Rring) (d_r B) (d_c B) (lr_ent l) mzero.
Proof.
  intros P1 P2 Ht Z.
  assert (HB : forall j, (j < d_c B)%nat -> colnorm (d_e B) (d_r B) 0 j <= tol).
  { intros j Hj. replace (colnorm (d_e B) (d_r B) 0 j) with 0; auto. symmetry. unfold colnorm. rewrite <- sqrt_0. f_equal. unfold colsq.
    rewrite (sum_ext (R := Rring) _ _ (fun _ => 0)); [apply (sum_zero (R := Rring))|]. intros i Hi. cbn [Nat.add].
    assert (Hi' : (i < d_r B)%nat) by lia. rewrite (Z i j Hi' Hj). unfold mzero. cbn. lra. }
  destruct (truncated_geqp3_tiny tol (Q2R e) B P1 P2 HB) as [U [P [E [F1 [F2 [F3 [F4 [F5 F6]]]]]]]].
  unfold lowrank_eps. rewrite E. cbn [bind]. rewrite F2 in *.
  destruct (rq_dense_ok (R := Rring) dlarfg dlarfg_ok P (Dn 1 1 rzero) (Dn 1 (d_c B) rzero)) as [X' [S' [V' [ER [E1 [E2 [E3 [E4 [E5 _]]]]]]]]].
  { unfold rq_shapes. cbn [d_r d_c d_e]. rewrite F3, F4. do 3 (split; auto). split; [lia|]. split; [lia|]. reflexivity. }
  rewrite ER. cbn [bind]. cbn [d_r d_c d_e] in *. rewrite F3, F4 in *. eexists. split; [reflexivity|]. intros i j Hi Hj.
  unfold lr_ent. cbn [l_U l_S l_V]. rewrite E2, F2. rewrite <- (F6 i j Hi Hj).
  apply (mmul_ext (R := Rring)); [reflexivity|]. intros k Hk. apply E5; auto.
Qed.

Lemma sqrt_plus_le x y : 0 <= x -> 0 <= y -> sqrt (x + y) <= sqrt x + sqrt y.
Proof.
  intros Hx Hy. pose proof (sqrt_pos x). pose proof (sqrt_pos y). rewrite <- (sqrt_square (sqrt x + sqrt y)) by lra.
  apply sqrt_le_1_alt. pose proof (sqrt_sqrt x Hx). pose proof (sqrt_sqrt y Hy). assert (0 <= sqrt x * sqrt y) by (apply Rmult_le_pos; auto). nra.
Qed.

Ltac rpos := repeat match goal with |- 0 <= _ * _ => apply Rmult_le_pos end; auto.

Section Weak.
Variables (K : kernel) (pts : list (list R)) (p q b : nat) (F : dense Rring) (tol : R) (e admis : Q).
Hypothesis Hb : (2 <= b)%nat.
Hypothesis HK : positional K = true.
Hypothesis HF : kernel_fill K pts (p * b) (q * b) 0 0 = Ok F.
Hypothesis Ht : 0 <= tol.
Hypothesis He : 0 <= Q2R e.
Hypothesis Hs : Q2R e * Q2R e * INR b < 1.
Hypothesis Ha : (0 <= admis < 1)%Q.
Let ini := kernel_init K pts (is_admissible PositionBased [] admis) (lowrank_eps tol e).
Let w : nat -> nat := fun _ => b.

Lemma weak_tile i j x : (i < p)%nat -> (j < q)%nat -> blr_block ini p q b i j = Ok x ->
  wf x /\ nrows x = b /\ ncols x = b /\ good e x /\ (i = j -> exists d, x = MD d) /\ (i <> j -> is_lr x) /\
  sumsq (R := Rring) b b (msub (R := Rring) (tile b F i j) (ent x)) <=
    INR b * (Q2R e * Q2R e) * sumsq (R := Rring) b b (tile b F i j) + tol * tol * (INR b * INR b).
Proof.
  intros Hi Hj H. destruct (weak_block K pts p q b F ltac:(lia) HK HF (lowrank_eps tol e) admis i j x Hb Ha Hi Hj H) as [B [_ [B1 [B2 [B3 [D1 D2]]]]]].
  assert (P0 : 0 <= INR b) by apply pos_INR.
  assert (PS : 0 <= sumsq (R := Rring) b b (tile b F i j)) by apply sumsq_nonneg.
  destruct (Nat.eq_dec i j) as [Eij|Nij].
  - rewrite (D1 Eij). split; [exact I|]. split; auto. split; auto. split; [exact I|]. split; [intros _; eauto|]. split; [intros; contradiction|].
    replace (sumsq (R := Rring) b b (msub (R := Rring) (tile b F i j) (ent (MD B)))) with 0.
    + assert (0 <= INR b * (Q2R e * Q2R e) * sumsq (R := Rring) b b (tile b F i j)) by rpos.
      assert (0 <= tol * tol * (INR b * INR b)) by rpos. lra.
    + symmetry. apply L2Real.sumsq_zero. intros r s Hr Hs'. unfold msub. cbn [ent]. rewrite (B3 r s Hr Hs'). unfold mzero. cbn. lra.
  - destruct (D2 Nij) as [l [El ->]].
    assert (G : good e (ML l)) by (apply (lowrank_eps_good tol e B l); auto; rewrite ?B1, ?B2; auto; lia).
    destruct (lowrank_eps_any tol e B l El) as [W [L1 [L2 L3]]]. rewrite B1, B2 in *.
    split; [exact W|]. split; [exact L1|]. split; [exact L2|]. split; [exact G|]. split; [intros; contradiction|]. split; [intros _; eexists; reflexivity|].
    rewrite <- (sumsq_ext (R := Rring) b b _ _ B3). eapply Rle_trans; [right|exact L3]. apply (sumsq_ext (R := Rring)).
    intros r s Hr Hs'. unfold msub. cbn [ent]. rewrite (B3 r s Hr Hs'). reflexivity.
Qed.

Theorem weak_built fuel M : hierarchical ini fuel (rng (p * b)) (rng (q * b)) (Z.of_nat p) (Z.of_nat q) (Z.of_nat b) = Ok M ->
  exists A, M = MH p q A /\ gtiles e p q w w A /\ dense_diag (R := Rring) p q A /\
    (forall i j, (i < p)%nat -> (j < q)%nat -> i <> j -> is_lr (A i j)) /\
    fro (p * b) (q * b) (msub (R := Rring) (d_e F) (ent M)) <=
      sqrt (INR b) * Q2R e * fro (p * b) (q * b) (d_e F) + tol * sqrt (INR (p * b) * INR (q * b)).
Proof.
  intros H. destruct (blr_inv ini p q b ltac:(lia) fuel M H) as [A [-> HA]].
  assert (T : forall i j, (i < p)%nat -> (j < q)%nat -> _) by exact (fun i j Hi Hj => weak_tile i j (A i j) Hi Hj (HA i j Hi Hj)).
  assert (GA : gtiles e p q w w A) by (intros i j Hi Hj; destruct (T i j Hi Hj) as [? [? [? [? _]]]]; auto).
  exists A. split; auto. split; auto. split. { intros k Hk Hp. apply (T k k Hp Hk); auto. }
  split. { intros i j Hi Hj Nij. apply (T i j Hi Hj); auto. }
  assert (SA : shaped (R := Rring) p q w w A) by (intros i j Hi Hj; destruct (GA i j Hi Hj) as [_ [? [? _]]]; auto).
  set (x := sumsq (R := Rring) (p * b) (q * b) (d_e F)).
  assert (X0 : 0 <= x) by apply sumsq_nonneg.
  set (y := INR (p * b) * INR (q * b)). assert (Y0 : 0 <= y) by (apply Rmult_le_pos; apply pos_INR).
  assert (B0 : 0 <= INR b) by apply pos_INR.
  assert (S : sumsq (R := Rring) (p * b) (q * b) (msub (R := Rring) (d_e F) (ent (MH p q A))) <= INR b * (Q2R e * Q2R e) * x + tol * tol * y).
  { unfold x, y. rewrite <- !(offs_const b). fold w. rewrite !rsumsq_blocks.
    apply Rle_trans with (rsum p (fun i => rsum q (fun j => INR b * (Q2R e * Q2R e) * sumsq (R := Rring) b b (tile b F i j) + tol * tol * (INR b * INR b)))).
    - apply sum_le. intros i Hi. apply sum_le. intros j Hj. destruct (T i j Hi Hj) as [_ [_ [_ [_ [_ [_ BD]]]]]].
      eapply Rle_trans; [right|exact BD]. unfold w at 1 2. apply (sumsq_ext (R := Rring)). intros r s Hr Hs'.
      unfold mwin, msub, tile, mwin. unfold w. rewrite !offs_const.
      f_equal. pose proof (whole_win p q w w A i j SA Hi Hj r s Hr Hs') as E. unfold mwin, w in E. rewrite !offs_const in E. exact E.
    - right. unfold w. rewrite !offs_const, !mult_INR. 
      rewrite (sum_ext (R := Rring) p _ (fun i => INR b * (Q2R e * Q2R e) * rsum q (fun j => sumsq (R := Rring) b b (tile b F i j)) + INR q * (tol * tol * (INR b * INR b)))).
      + rewrite (sum_add (R := Rring)). rewrite rsum_mul_l, rsum_const.
        assert (EX : rsum p (fun i => rsum q (fun j => sumsq (R := Rring) b b (tile b F i j))) = rsum p (fun i => rsum q (fun j => sumsq (R := Rring) b b (mwin (R := Rring) (offs (fun _ => b) i) (offs (fun _ => b) j) (d_e F))))).
        { apply (sum_ext (R := Rring)). intros i Hi. apply (sum_ext (R := Rring)). intros j Hj. rewrite !offs_const. reflexivity. }
        rewrite EX. cbn. ring.
      + intros i Hi. rewrite (sum_add (R := Rring)), rsum_mul_l, rsum_const. reflexivity. }
  unfold fro. fold x. eapply Rle_trans; [apply sqrt_le_1_alt; exact S|].
  eapply Rle_trans; [apply sqrt_plus_le|].
  - rpos.
  - rpos.
  - right. rewrite (sqrt_mult (INR b * (Q2R e * Q2R e)) x), (sqrt_mult (INR b) (Q2R e * Q2R e)), (sqrt_mult (tol * tol) y) by rpos.
    rewrite !sqrt_square by auto. reflexivity.
Qed.
End Weak.

(** The identity of tiles. *)
Theorem weak_identity pts p q b tol e admis fuel : (2 <= b)%nat -> 0 <= tol -> 0 <= Q2R e -> Q2R e * Q2R e * INR b < 1 -> (0 <= admis < 1)%Q ->
  exists E, hierarchical (kernel_init KIdentity pts (is_admissible PositionBased [] admis) (lowrank_eps tol e)) (S (S fuel))
      (rng (p * b)) (rng (q * b)) (Z.of_nat p) (Z.of_nat q) (Z.of_nat b) = Ok (MH p q E) /\
    gtiles e p q (fun _ => b) (fun _ => b) E /\
    (forall i j, (i < p)%nat -> (j < q)%nat -> feq (R := Rring) b b (ent (E i j)) (if (i =? j)%nat then mid (R := Rring) else mzero (R := Rring))).
Proof.
  intros Hb Ht He Hs Ha.
  destruct (kernel_fill_intro KIdentity pts (p * b) (q * b) 0 0) as [F HF]. { intros i j Hi Hj. cbn. eauto. }
  assert (EF : forall i j, (i < p)%nat -> (j < q)%nat -> feq (R := Rring) b b (tile b F i j) (if (i =? j)%nat then mid (R := Rring) else mzero (R := Rring))).
  { intros i j Hi Hj r s Hr Hs'. unfold tile, mwin. destruct (kernel_fill_inv _ _ _ _ _ _ _ HF) as [_ [_ E]].
    specialize (E (i * b + r)%nat (j * b + s)%nat ltac:(nia) ltac:(nia)). cbn in E. inversion E as [E']. 
    destruct (Nat.eqb_spec i j) as [->|Nij].
    - unfold mid. destruct (Nat.eqb_spec (j * b + r) (j * b + s)); destruct (Nat.eqb_spec r s); try lia; reflexivity.
    - destruct (Nat.eqb_spec (i * b + r) (j * b + s)) as [C|]; [exfalso|reflexivity].
      apply Nij. assert ((i * b + r) / b = (j * b + s) / b)%nat by congruence. rewrite !Nat.div_add_l, !Nat.div_small in H by lia. lia. }
  set (ini := kernel_init KIdentity pts (is_admissible PositionBased [] admis) (lowrank_eps tol e)).
  assert (TK : forall i j, (i < p)%nat -> (j < q)%nat -> i <> j -> forall B, kernel_block KIdentity pts (part_of b i) (part_of b j) = Ok B ->
    exists l, lowrank_eps tol e B = Ok l /\ feq (R := Rring) b b (lr_ent l) mzero).
  { intros i j Hi Hj Nij B HB. destruct (kernel_tile KIdentity pts p q b F ltac:(lia) eq_refl HF i j Hi Hj) as [B' [EB [B1 [B2 B3]]]].
    rewrite HB in EB. inversion EB; subst B'. pose proof (EF i j Hi Hj) as Z. destruct (Nat.eqb_spec i j); [contradiction|].
    destruct (lowrank_eps_zero tol e B) as [l [El Zl]]; try lia; auto. { rewrite B1, B2. eapply (feq_trans (R := Rring)); eauto. }
    rewrite B1, B2 in Zl. eauto. }
  destruct (blr_total ini p q b ltac:(lia) fuel) as [E [HE BE]].
  { intros i j Hi Hj. apply (weak_block_ok KIdentity pts p q b F ltac:(lia) eq_refl HF); auto. intros Nij B HB. destruct (TK i j Hi Hj Nij B HB) as [l [El _]]. eauto. }
  destruct (weak_built KIdentity pts p q b F tol e admis Hb eq_refl HF Ht He Hs Ha _ _ HE) as [E' [EQ [G _]]]. inversion EQ; subst E'.
  exists E. split; auto. split; auto. intros i j Hi Hj.
  destruct (weak_block KIdentity pts p q b F ltac:(lia) eq_refl HF (lowrank_eps tol e) admis i j (E i j) Hb Ha Hi Hj (BE i j Hi Hj)) as [B [HB [B1 [B2 [B3 [D1 D2]]]]]].
  destruct (Nat.eqb_spec i j) as [Eij|Nij].
  - rewrite (D1 Eij). cbn [ent]. pose proof (EF i j Hi Hj) as Z. rewrite (proj2 (Nat.eqb_eq i j) Eij) in Z. eapply (feq_trans (R := Rring)); eauto.
  - destruct (D2 Nij) as [l [El ->]]. destruct (TK i j Hi Hj Nij B HB) as [l' [El' Zl]]. rewrite El in El'. inversion El'; subst l'. exact Zl.
Qed.
