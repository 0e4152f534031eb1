(** Hierarchical matrices built from the kernels of src/functions.cpp
    (matrix_initializer_kernel.cpp:24-29, hierarchical.cpp:67-109). *)
From Coq Require Import List Arith ZArith Lia Bool Reals.
From Verif Require Import Prelude Ring MatFun Matrix MatOps MatSpec MatOpsProofs IndexRange IndexRangeSpec
  IndexRangeProofs ClusterTree ClusterTreeSpec ClusterTreeProofs Construct ConstructProofs SvdRank Kernels.
Import ListNotations.
Local Open Scope nat_scope.

(** fill_dense_representation of MatrixInitializerKernel; negative offsets are not modelled. *)
Definition kernel_block (k : kernel) (x : list (list R)) (rows cols : irange) : outcome (dense Rring) :=
  if ((0 <=? ir_start rows) && (0 <=? ir_start cols))%Z
  then kernel_fill k x (len rows) (len cols) (Z.to_nat (ir_start rows)) (Z.to_nat (ir_start cols))
  else UB.

Definition kernel_init (k : kernel) (x : list (list R)) (adm : cnode -> outcome bool)
  (comp : dense Rring -> outcome (lowrank Rring)) : initializer Rring :=
  Init adm (kernel_block k x) comp.

Lemma kernel_init_shapely k x adm comp :
  (forall D l, comp D = Ok l -> lr_wf l /\ l_r l = d_r D /\ l_c l = d_c D) -> shapely (kernel_init k x adm comp).
Proof.
  intros H. split; [|exact H]. intros r c D HD. simpl in HD. unfold kernel_block in HD.
  destruct (_ && _); [|discriminate]. destruct (kernel_fill_inv _ _ _ _ _ _ _ HD) as [E1 [E2 _]]. auto.
Qed.

(** The blocks are windows of the dense kernel matrix. *)
Lemma kernel_init_windows k x adm comp rows cols FD : positional k = true ->
  (0 <= ir_start rows)%Z -> (0 <= ir_start cols)%Z ->
  kernel_fill k x (len rows) (len cols) (Z.to_nat (ir_start rows)) (Z.to_nat (ir_start cols)) = Ok FD ->
  windows_of (kernel_init k x adm comp) rows cols (fun a b => d_e FD (pos rows a) (pos cols b)).
Proof.
  intros Hk Hr Hc HF r c D HD I1 I2 a b Ha Hb. simpl in HD. unfold kernel_block in HD.
  destruct ((0 <=? ir_start r) && (0 <=? ir_start c))%Z eqn:E; [|discriminate].
  assert (S1 : ir_mem (ir_start r) r) by (unfold ir_mem in *; lia).
  assert (S2 : ir_mem (ir_start c) c) by (unfold ir_mem in *; lia).
  assert (L1 : ir_mem (ir_start r + ir_n r - 1)%Z r) by (unfold ir_mem in *; lia).
  assert (L2 : ir_mem (ir_start c + ir_n c - 1)%Z c) by (unfold ir_mem in *; lia).
  apply I1 in S1, L1. apply I2 in S2, L2. unfold ir_mem in S1, S2, L1, L2, Ha, Hb.
  destruct (fill_window k x _ _ _ _ FD (len r) (len c) (Z.to_nat (ir_start r - ir_start rows))
              (Z.to_nat (ir_start c - ir_start cols)) Hk HF) as [B [HB [_ [_ EB]]]].
  { unfold len. lia. } { unfold len. lia. }
  replace (Z.to_nat (ir_start rows) + Z.to_nat (ir_start r - ir_start rows)) with (Z.to_nat (ir_start r)) in HB by lia.
  replace (Z.to_nat (ir_start cols) + Z.to_nat (ir_start c - ir_start cols)) with (Z.to_nat (ir_start c)) in HB by lia.
  rewrite HB in HD. inversion HD; subst D. rewrite EB by (unfold pos, len; lia).
  f_equal; unfold pos; lia.
Qed.

(** The conversion to Dense against the Dense built from the same kernel. *)
Lemma kernel_dense k x adm comp fuel rows cols bm bn nleaf t M FD :
  (forall D l, comp D = Ok l -> lr_wf l /\ l_r l = d_r D /\ l_c l = d_c D) ->
  positional k = true -> (0 <= ir_start rows)%Z -> (0 <= ir_start cols)%Z -> (1 <= bm)%Z -> (1 <= bn)%Z ->
  cluster_tree fuel rows cols bm bn nleaf = Ok t -> regular t ->
  hierarchical (kernel_init k x adm comp) fuel rows cols bm bn nleaf = Ok M ->
  kernel_fill k x (Z.to_nat (ir_n rows)) (Z.to_nat (ir_n cols)) (Z.to_nat (ir_start rows)) (Z.to_nat (ir_start cols)) = Ok FD ->
  exists D, densify M = Ok D /\ d_r D = d_r FD /\ d_c D = d_c FD /\
  forall i j, i < d_r FD -> j < d_c FD ->
  exists s, storage (kernel_init k x adm comp) t s /\
    in_block (ir_start rows + Z.of_nat i) (ir_start cols + Z.of_nat j) s = true /\
    ((adm (ct_node s) = Ok false /\ is_leaf (ct_node s) = true /\ d_e D i j = d_e FD i j) \/
     (adm (ct_node s) = Ok true /\ exists B l,
        kernel_block k x (cn_rows (ct_node s)) (cn_cols (ct_node s)) = Ok B /\ comp B = Ok l /\
        d_e D i j = lr_ent l (pos (cn_rows (ct_node s)) (ir_start rows + Z.of_nat i))
                             (pos (cn_cols (ct_node s)) (ir_start cols + Z.of_nat j)))).
Proof.
  intros HC Hk Hr Hc Hm Hn Ht Hreg HM HF.
  destruct (kernel_entries _ (kernel_init_shapely k x adm comp HC) fuel rows cols bm bn nleaf t M _ Hm Hn Ht Hreg HM
              (kernel_init_windows k x adm comp rows cols FD Hk Hr Hc HF)) as [D [ED [E1 [E2 G]]]].
  destruct (kernel_fill_inv _ _ _ _ _ _ _ HF) as [F1 [F2 _]].
  exists D. split; auto. split; [congruence|]. split; [congruence|]. intros i j Hi Hj. rewrite F1 in Hi. rewrite F2 in Hj.
  destruct (G (ir_start rows + Z.of_nat i)%Z (ir_start cols + Z.of_nat j)%Z) as [s [Hs [Hin HV]]].
  { unfold ir_mem; lia. } { unfold ir_mem; lia. }
  exists s. split; auto. split; auto.
  assert (P1 : pos rows (ir_start rows + Z.of_nat i) = i) by (unfold pos; lia).
  assert (P2 : pos cols (ir_start cols + Z.of_nat j) = j) by (unfold pos; lia).
  rewrite P1, P2 in HV. exact HV.
Qed.
