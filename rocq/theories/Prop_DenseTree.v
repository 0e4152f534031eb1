(** Property C86: when nothing is compressed.  The examples ask for a Hierarchical without
    LowRank blocks by the admissibility constant N / nleaf ("Full rank"). *)
From Coq Require Import List Arith ZArith QArith Lia Bool Reals.
From Verif Require Import Prelude Ring MatFun Matrix MatOps MatSpec MatOpsProofs GemmTheorems IndexRange IndexRangeSpec
  IndexRangeProofs ClusterTree ClusterTreeSpec ClusterTreeProofs ClusterTreeRegular ClusterTreeTermination Admissible
  SvdRank Kernels Construct ConstructProofs ConstructKernel DenseTree Prop_Construct.
Import ListNotations.
Local Open Scope nat_scope.

Definition by_position {R : cring} (ini : initializer R) (admis : Q) : Prop :=
  forall nd, in_adm ini nd = is_admissible PositionBased [] admis nd.

(** The side of the square matrix. *)
Definition side (s k : Z) (e : nat) : Z := (s * k ^ Z.of_nat e)%Z.

Lemma trunc_Z z : Qtrunc (inject_Z z) = z.
Proof. unfold Qtrunc. cbn [Qnum Qden inject_Z]. apply Z.quot_1_r. Qed.

(** s * k^e rows and columns in k x k blocks per level, leaves of at least s: with an
    admissibility constant of at least k^e - 1 all stored blocks are Dense leaves. *)
Theorem C86_all_dense : forall (R : cring) (ini : initializer R) admis, by_position ini admis ->
  forall r0 c0 s k nleaf e, (1 <= k)%Z -> (1 <= s <= nleaf)%Z -> 1 <= e -> (k ^ Z.of_nat e - 1 <= Qtrunc admis)%Z ->
  forall f t, cluster_tree f (IR r0 (side s k e)) (IR c0 (side s k e)) k k nleaf = Ok t ->
  forall x, storage ini t x -> in_adm ini (ct_node x) = Ok false /\ is_leaf (ct_node x) = true.
Proof.
  intros R ini admis HP r0 c0 s k nleaf e Hk Hs He Ha f t Ht x Hx.
  assert (E : in_adm ini (ct_node x) = Ok false).
  { destruct Hx as [c [Hc Hx]]. pose proof (kept_in_nodes ini c x Hx) as Hin.
    destruct (square_tree r0 c0 s k nleaf e Hk Hs f t He Ht x) as [E|[l [_ Q]]].
    - destruct t as [nd cs]. simpl in *. right. apply in_flat_map. eauto.
    - exfalso. exact (below_not_root f _ true t c x Ht Hc Hin E).
    - rewrite HP. exact (position_near admis r0 c0 s k nleaf e l _ _ Hk Q Ha). }
  split; auto. destruct Hx as [c [_ Hx]]. destruct (kept_is_end ini c x Hx) as [H|H]; [congruence|exact H].
Qed.
Print Assumptions C86_all_dense.

(** Then the matrix is the kernel matrix itself, ... *)
Theorem C86_exact : forall (R : cring) (ini : initializer R) admis, by_position ini admis -> shapely ini ->
  forall r0 c0 s k nleaf e, (1 <= k)%Z -> (1 <= s <= nleaf)%Z -> 1 <= e -> (k ^ Z.of_nat e - 1 <= Qtrunc admis)%Z ->
  forall f M F, let rows := IR r0 (side s k e) in let cols := IR c0 (side s k e) in
  hierarchical ini f rows cols k k nleaf = Ok M -> windows_of ini rows cols F ->
  exists D, densify M = Ok D /\ d_r D = Z.to_nat (side s k e) /\ d_c D = Z.to_nat (side s k e) /\
  forall x y, ir_mem x rows -> ir_mem y cols -> d_e D (pos rows x) (pos cols y) = F x y.
Proof.
  intros R ini admis HP SH r0 c0 s k nleaf e Hk Hs He Ha f M F rows cols HM HW.
  destruct (hierarchical_inv _ _ _ _ _ _ _ _ HM) as [t [Ht _]].
  assert (Hr : regular t).
  { destruct e as [|e]; [lia|]. apply (regular_pow f rows cols k k nleaf s s e t); auto; lia. }
  destruct (C08_entries R ini SH f rows cols k k nleaf t M F Hk Hk Ht Hr HM HW) as [D [E0 [E1 [E2 EE]]]].
  exists D. split; auto. split; auto. split; auto. intros x y Hx Hy. destruct (EE x y Hx Hy) as [b [Hb [_ [[_ [_ V]]|[A _]]]]]; auto.
  destruct (C86_all_dense R ini admis HP r0 c0 s k nleaf e Hk Hs He Ha f t Ht b Hb) as [A' _]. congruence.
Qed.
Print Assumptions C86_exact.

(** ... and it is built whatever the compression, which is never called. *)
Theorem C86_builds : forall (R : cring) (ini : initializer R) admis, by_position ini admis ->
  forall r0 c0 s k nleaf e, (2 <= k)%Z -> (1 <= s <= nleaf)%Z -> 1 <= e -> (k ^ Z.of_nat e - 1 <= Qtrunc admis)%Z ->
  (forall r c, (r0 <= ir_start r)%Z -> (ir_start r + ir_n r <= r0 + side s k e)%Z ->
     (c0 <= ir_start c)%Z -> (ir_start c + ir_n c <= c0 + side s k e)%Z -> exists D, in_fill ini r c = Ok D) ->
  exists f M, hierarchical ini f (IR r0 (side s k e)) (IR c0 (side s k e)) k k nleaf = Ok M.
Proof.
  intros R ini admis HP r0 c0 s k nleaf e Hk Hs He Ha HF. set (rows := IR r0 (side s k e)). set (cols := IR c0 (side s k e)).
  set (m := Z.to_nat (side s k e)).
  destruct (cluster_tree_terminates rows cols k k nleaf (S m)) as [t Ht]; try lia.
  { cbn [rows cols ir_n]. rewrite Nat2Z.inj_succ, Z.pow_succ_r by lia. pose proof (Nat.pow_gt_lin_r 2 m ltac:(lia)) as H. apply inj_lt in H.
    rewrite Nat2Z.inj_pow in H. change (Z.of_nat 2) with 2%Z in H. unfold m in *. lia. }
  assert (Hr : regular t).
  { destruct e as [|e]; [lia|]. apply (regular_pow (S (S (S m))) rows cols k k nleaf s s e t); auto; lia. }
  destruct (hier_total_dense ini (S (S (S m))) (root_node rows cols k k nleaf) true t Ht Hr) as [M HM].
  - intros c x Hc Hx.
    destruct (square_tree r0 c0 s k nleaf e ltac:(lia) Hs (S (S (S m))) t He Ht x) as [E|[l [_ Q]]].
    + destruct t as [nd cs]. simpl in *. right. apply in_flat_map. eauto.
    + exfalso. exact (below_not_root _ _ true t c x Ht Hc Hx E).
    + split; [rewrite HP; exact (position_near admis r0 c0 s k nleaf e l _ _ ltac:(lia) Q Ha)|].
      destruct Q as [L [_ [_ [_ [B1 [B2 [Er Ec]]]]]]]. rewrite Er, Ec. set (w := (s * k ^ Z.of_nat (e - l))%Z).
      assert (W : side s k e = (k ^ Z.of_nat l * w)%Z).
      { unfold side, w. replace e with (l + (e - l)) at 1 by lia. rewrite Nat2Z.inj_add, Z.pow_add_r by lia. ring. }
      assert (P : (0 <= w)%Z) by (unfold w; pose proof (Z.pow_nonneg k (Z.of_nat (e - l)) ltac:(lia)); nia).
      apply HF; cbn [ir_start ir_n]; rewrite ?W; nia.
  - exists (S (S (S m))), M. unfold hierarchical. rewrite Ht. exact HM.
Qed.
Print Assumptions C86_builds.

(** The constant is sharp: with leaves of at least 2 x 2 that are divided as far as the
    leaf size requires, a smaller constant compresses a block. *)
Theorem C86_iff : forall (R : cring) (ini : initializer R) admis, by_position ini admis -> shapely ini ->
  forall r0 c0 s k nleaf e, (2 <= k)%Z -> (2 <= s <= nleaf)%Z -> (nleaf < s * k)%Z -> 1 <= e ->
  forall f t M, let rows := IR r0 (side s k e) in let cols := IR c0 (side s k e) in
  cluster_tree f rows cols k k nleaf = Ok t -> hierarchical ini f rows cols k k nleaf = Ok M ->
  ((forall x, storage ini t x -> in_adm ini (ct_node x) = Ok false) <-> (k ^ Z.of_nat e - 1 <= Qtrunc admis)%Z).
Proof.
  intros R ini admis HP SH r0 c0 s k nleaf e Hk Hs Hn He f t M rows cols Ht HM. split.
  2:{ intros Ha x Hx. apply (C86_all_dense R ini admis HP r0 c0 s k nleaf e) with (f := f) (t := t); auto; lia. }
  intros HA. destruct (Z.le_gt_cases (k ^ Z.of_nat e - 1) (Qtrunc admis)) as [L|L]; auto. exfalso.
  assert (Hr : regular t).
  { destruct e as [|e]; [lia|]. apply (regular_pow f rows cols k k nleaf s s e t); auto; lia. }
  destruct (C08_blocks R ini SH f rows cols k k nleaf t M ltac:(lia) ltac:(lia) Ht Hr HM) as [_ [_ [_ [CV _]]]].
  assert (PS : (1 <= k ^ Z.of_nat e)%Z) by (pose proof (Z.pow_pos_nonneg k (Z.of_nat e) ltac:(lia) ltac:(lia)); lia).
  assert (PN : (1 <= side s k e)%Z) by (unfold side; nia).
  destruct (CV r0 (c0 + side s k e - 1)%Z) as [x [Hx Ix]].
  { unfold ir_mem, rows. cbn [ir_start ir_n]. lia. } { unfold ir_mem, cols. cbn [ir_start ir_n]. lia. }
  pose proof (HA x Hx) as Fx. pose proof Hx as Hx'. destruct Hx' as [c [Hc Hk']]. pose proof (kept_in_nodes ini c x Hk') as Hin.
  destruct (square_tree r0 c0 s k nleaf e ltac:(lia) ltac:(lia) f t He Ht x) as [E|[l [_ Q]]].
  { destruct t as [nd cs]. simpl in *. right. apply in_flat_map. eauto. }
  { exact (below_not_root f _ true t c x Ht Hc Hin E). }
  assert (Lf : is_leaf (ct_node x) = true) by (destruct (kept_is_end ini c x Hk') as [H|H]; [congruence|exact H]).
  destruct Q as [Ll [E1 [E2 [E3 [B1 [B2 [Er Ec]]]]]]].
  set (w := (s * k ^ Z.of_nat (e - l))%Z) in *.
  assert (El : l = e).
  { destruct (Nat.eq_dec l e) as [|N]; auto. exfalso.
    assert (W2 : (s * k <= w)%Z).
    { unfold w. replace (e - l) with (S (e - l - 1)) by lia. rewrite Nat2Z.inj_succ, Z.pow_succ_r by lia.
      pose proof (Z.pow_pos_nonneg k (Z.of_nat (e - l - 1)) ltac:(lia) ltac:(lia)). nia. }
    unfold is_leaf in Lf. rewrite Er, Ec, E3 in Lf. cbn [ir_n] in Lf. apply orb_prop in Lf. destruct Lf as [Lf|Lf].
    - apply andb_prop in Lf. destruct Lf as [Lf _]. apply Z.leb_le in Lf. lia.
    - apply Z.eqb_eq in Lf. lia. }
  subst l. assert (Ew : w = s) by (unfold w; rewrite Nat.sub_diag; change (k ^ Z.of_nat 0)%Z with 1%Z; lia).
  unfold in_block in Ix. apply andb_prop in Ix. destruct Ix as [I1 I2]. apply ir_memb_spec in I1, I2.
  unfold ir_mem in I1, I2. rewrite Er in I1. rewrite Ec in I2. cbn [ir_start ir_n] in I1, I2. rewrite Ew in *.
  assert (Ei : cn_iabs (ct_node x) = 0%Z) by nia.
  assert (Ej : cn_jabs (ct_node x) = (k ^ Z.of_nat e - 1)%Z) by (unfold side in I2; nia).
  rewrite HP in Fx. unfold is_admissible, position_admissible, dist_to_diag in Fx. rewrite Er, Ec, Ei, Ej in Fx. cbn [ir_n] in Fx.
  injection Fx as Fx. rewrite !Z.gtb_ltb in Fx. apply andb_false_iff in Fx. destruct Fx as [Fx|Fx].
  - apply andb_false_iff in Fx. destruct Fx as [Fx|Fx]; apply Z.ltb_ge in Fx; lia.
  - apply Z.ltb_ge in Fx. lia.
Qed.
Print Assumptions C86_iff.

(** N / nleaf: large enough if N is the leaf size times a power of the number of blocks. *)
Theorem C86_full_rank : forall (R : cring) (ini : initializer R) nleaf k e, (1 <= k)%Z -> (1 <= nleaf)%Z -> 1 <= e ->
  by_position ini (inject_Z (side nleaf k e / nleaf)) -> shapely ini ->
  forall r0 c0 f M F, let rows := IR r0 (side nleaf k e) in let cols := IR c0 (side nleaf k e) in
  hierarchical ini f rows cols k k nleaf = Ok M -> windows_of ini rows cols F ->
  exists D, densify M = Ok D /\ d_r D = Z.to_nat (side nleaf k e) /\ d_c D = Z.to_nat (side nleaf k e) /\
  forall x y, ir_mem x rows -> ir_mem y cols -> d_e D (pos rows x) (pos cols y) = F x y.
Proof.
  intros R ini nleaf k e Hk Hn He HP SH r0 c0 f M F rows cols HM HW.
  apply (C86_exact R ini _ HP SH r0 c0 nleaf k nleaf e Hk ltac:(lia) He) with (f := f); auto.
  rewrite trunc_Z. unfold side. rewrite Z.mul_comm, Z.div_mul by lia. lia.
Qed.
Print Assumptions C86_full_rank.

(** Not in general: 8 rows and columns, two blocks per level, leaf size 3. *)
Definition zcorner (d : dense Zring) : outcome (lowrank Zring) :=
  Ok (lr_make (@Dn Zring (d_r d) 1 (fun _ _ => 0%Z)) (@Dn Zring 1 1 (fun _ _ => 1%Z)) (@Dn Zring 1 (d_c d) (fun _ j => d_e d 0 j))).
Theorem C86_full_rank_refuted : exists (N nleaf : Z) (ini : initializer Zring) (v : Zring),
  by_position ini (inject_Z (N / nleaf)) /\ shapely ini /\ windows_of ini (IR 0 N) (IR 0 N) (fun _ _ => 1%Z) /\
  (let* M := hierarchical ini 9 (IR 0 N) (IR 0 N) 2 2 nleaf in let* D := densify M in Ok (d_e D 0 7)) = Ok v /\ v <> 1%Z.
Proof.
  set (ini := Init (is_admissible PositionBased [] (inject_Z (8 / 3)))
    (fun r c => Ok (@Dn Zring (len r) (len c) (fun _ _ => 1%Z))) zcorner).
  exists 8%Z, 3%Z, ini, 0%Z. split; [intros nd; reflexivity|]. split.
  { split; [intros r c D H; injection H as <-; auto|]. intros D l H. injection H as <-. unfold lr_wf. cbn. auto 10. }
  split. { intros r c D. intros. cbn in *. match goal with H : Ok _ = Ok _ |- _ => injection H as <- end. reflexivity. }
  split; [vm_compute; reflexivity|]. discriminate.
Qed.
Print Assumptions C86_full_rank_refuted.

(** ** The "Dense tree" of examples/blocked_mgs_h_qr.cpp *)

(** Line 51 with N = nleaf * k^e: it is built, whatever the rank asked for, and its
    conversion to Dense is the kernel matrix. *)
Theorem C86_program : forall K pts nleaf k e comp, positional K = true -> (2 <= k)%Z -> (1 <= nleaf)%Z -> 1 <= e ->
  let n := Z.to_nat (side nleaf k e) in
  (forall D l, comp D = Ok l -> lr_wf l /\ l_r l = d_r D /\ l_c l = d_c D) -> enough pts n -> (K = KCauchy2d -> 2 <= List.length pts) ->
  exists f M D FD,
  hierarchical (kernel_init K pts (is_admissible PositionBased [] (inject_Z (side nleaf k e / nleaf))) comp) f
    (IR 0 (side nleaf k e)) (IR 0 (side nleaf k e)) k k nleaf = Ok M /\
  densify M = Ok D /\ kernel_fill K pts n n 0 0 = Ok FD /\ d_r D = n /\ d_c D = n /\
  forall i j, i < n -> j < n -> d_e D i j = d_e FD i j.
Proof.
  intros K pts nleaf k e comp HK Hk Hl He n HC HE NC.
  assert (PN : (0 <= side nleaf k e)%Z) by (unfold side; pose proof (Z.pow_nonneg k (Z.of_nat e) ltac:(lia)); nia).
  set (ini := kernel_init K pts (is_admissible PositionBased [] (inject_Z (side nleaf k e / nleaf))) comp).
  destruct (fill_succeeds K pts n n 0 0 n HE ltac:(lia) ltac:(lia) NC) as [FD HFD].
  assert (HP : by_position ini (inject_Z (side nleaf k e / nleaf))) by (intros nd; reflexivity).
  destruct (C86_builds Rring ini _ HP 0 0 nleaf k nleaf e Hk ltac:(lia) He) as [f [M HM]].
  { rewrite trunc_Z. unfold side. rewrite Z.mul_comm, Z.div_mul by lia. lia. }
  { intros r c R1 R2 C1 C2. cbn [ini kernel_init in_fill]. unfold kernel_block.
    replace (_ && _)%bool with true by (symmetry; apply andb_true_iff; split; apply Z.leb_le; lia).
    destruct (Z.le_gt_cases 0 (ir_n r)) as [Nr|Nr].
    - destruct (Z.le_gt_cases 0 (ir_n c)) as [Nc|Nc].
      + apply (fill_succeeds K pts _ _ _ _ n); auto; unfold len, n; lia.
      + apply kernel_fill_intro. unfold len. intros i j Hi Hj. lia.
    - apply kernel_fill_intro. unfold len. intros i j Hi Hj. lia. }
  pose proof (kernel_init_windows K pts (is_admissible PositionBased [] (inject_Z (side nleaf k e / nleaf))) comp
    (IR 0 (side nleaf k e)) (IR 0 (side nleaf k e)) FD HK ltac:(cbn; lia) ltac:(cbn; lia) HFD) as HW.
  destruct (C86_full_rank Rring ini nleaf k e ltac:(lia) Hl He HP (kernel_init_shapely _ _ _ _ HC) 0 0 f M _ HM HW)
    as [D [E0 [E1 [E2 EE]]]].
  exists f, M, D, FD. split; auto. split; auto. split; auto. split; auto. split; auto.
  intros i j Hi Hj. specialize (EE (Z.of_nat i) (Z.of_nat j)). unfold pos, ir_mem in EE. cbn [ir_start ir_n] in EE.
  rewrite !Z.sub_0_r, !Nat2Z.id in EE. apply EE; unfold n in *; lia.
Qed.
Print Assumptions C86_program.

(** Leaf size 2 on 8 rows and columns: 8 / 2 = 4 keeps everything, 2 does not. *)
Example C86_ex :
  let ini a := Init (is_admissible PositionBased [] (inject_Z a)) zfill zcorner in
  (let* M := hierarchical (ini (8 / 2)%Z) 9 (IR 1 8) (IR 1 8) 2 2 2 in show M) =
    Ok (map (fun x => map (fun y => (x * y)%Z) [1; 2; 3; 4; 5; 6; 7; 8]%Z) [1; 2; 3; 4; 5; 6; 7; 8]%Z) /\
  (let* M := hierarchical (ini 2%Z) 9 (IR 1 8) (IR 1 8) 2 2 2 in show M) =
    Ok (map (fun x => map (fun y => if ((x <=? 2) && (7 <=? y) || (7 <=? x) && (y <=? 2))%Z then 0%Z else (x * y)%Z)
      [1; 2; 3; 4; 5; 6; 7; 8]%Z) [1; 2; 3; 4; 5; 6; 7; 8]%Z).
Proof. vm_compute. auto. Qed.
