(** Properties C08 and C09: construction of Hierarchical matrices. *)
From Coq Require Import List Arith ZArith QArith Lia Bool Reals.
From Verif Require Import Prelude Ring MatFun Matrix MatOps MatSpec MatOpsProofs GemmTheorems IndexRange IndexRangeSpec
  ClusterTree ClusterTreeSpec Admissible SvdRank Kernels Construct ConstructProofs ConstructKernel.
Import ListNotations.
Local Open Scope nat_scope.

(** ** C08 *)

(** The conversion to Dense of what the constructor builds, entry by entry: every
    position is in a storage block, and has the value of the kernel matrix there if that
    block is not admissible, and the value of the block's compression if it is. *)
Theorem C08_entries : forall (R : cring) (ini : initializer R), shapely ini ->
  forall fuel rows cols bm bn nleaf t M F,
  (1 <= bm)%Z -> (1 <= bn)%Z -> cluster_tree fuel rows cols bm bn nleaf = Ok t -> regular t ->
  hierarchical ini fuel rows cols bm bn nleaf = Ok M -> windows_of ini rows cols F ->
  exists D, densify M = Ok D /\ d_r D = Z.to_nat (ir_n rows) /\ d_c D = Z.to_nat (ir_n cols) /\
  forall x y, ir_mem x rows -> ir_mem y cols ->
  exists s, storage ini t s /\ in_block x y s = true /\
    ((in_adm ini (ct_node s) = Ok false /\ is_leaf (ct_node s) = true /\ d_e D (pos rows x) (pos cols y) = F x y) \/
     (in_adm ini (ct_node s) = Ok true /\ exists B l,
        in_fill ini (cn_rows (ct_node s)) (cn_cols (ct_node s)) = Ok B /\ in_comp ini B = Ok l /\
        d_e D (pos rows x) (pos cols y) = lr_ent l (pos (cn_rows (ct_node s)) x) (pos (cn_cols (ct_node s)) y))).
Proof. exact (fun R => @kernel_entries R). Qed.
Print Assumptions C08_entries.

(** The value does not depend on which storage block is looked at, and the blocks lie
    inside of the matrix. *)
Theorem C08_blocks : forall (R : cring) (ini : initializer R), shapely ini ->
  forall fuel rows cols bm bn nleaf t M,
  (1 <= bm)%Z -> (1 <= bn)%Z -> cluster_tree fuel rows cols bm bn nleaf = Ok t -> regular t ->
  hierarchical ini fuel rows cols bm bn nleaf = Ok M ->
  wf M /\ nrows M = len rows /\ ncols M = len cols /\
  (forall x y, ir_mem x rows -> ir_mem y cols -> exists s, storage ini t s /\ in_block x y s = true) /\
  (forall x y s, storage ini t s -> in_block x y s = true ->
     ir_mem x rows /\ ir_mem y cols /\ block_value ini s x y (ent M (pos rows x) (pos cols y))).
Proof. exact (fun R => @hierarchical_good R). Qed.
Print Assumptions C08_blocks.

(** Lossless compression gives the kernel matrix back. *)
Theorem C08_exact : forall (R : cring) (ini : initializer R), shapely ini ->
  forall fuel rows cols bm bn nleaf t M F,
  (1 <= bm)%Z -> (1 <= bn)%Z -> cluster_tree fuel rows cols bm bn nleaf = Ok t -> regular t ->
  hierarchical ini fuel rows cols bm bn nleaf = Ok M -> windows_of ini rows cols F ->
  (forall B l, in_comp ini B = Ok l -> feq (d_r B) (d_c B) (lr_ent l) (d_e B)) ->
  exists D, densify M = Ok D /\ d_r D = Z.to_nat (ir_n rows) /\ d_c D = Z.to_nat (ir_n cols) /\
  forall x y, ir_mem x rows -> ir_mem y cols -> d_e D (pos rows x) (pos cols y) = F x y.
Proof. exact (fun R => @kernel_exact R). Qed.
Print Assumptions C08_exact.

(** Dense leaves are within the leaf size. *)
Theorem C08_leaf_size : forall (R : cring) (ini : initializer R) fuel rows cols bm bn nleaf t s,
  nleaf <> 0%Z -> cluster_tree fuel rows cols bm bn nleaf = Ok t ->
  storage ini t s -> in_adm ini (ct_node s) <> Ok true ->
  (ir_n (cn_rows (ct_node s)) <= nleaf)%Z /\ (ir_n (cn_cols (ct_node s)) <= nleaf)%Z.
Proof. exact (fun R => @leaf_small R). Qed.
Print Assumptions C08_leaf_size.

Theorem C08_layout : forall (R : cring) (ini : initializer R) fuel rows cols bm bn nleaf M,
  hierarchical ini fuel rows cols bm bn nleaf = Ok M ->
  exists b, M = MH (Z.to_nat bm) (Z.to_nat bn) b.
Proof. exact (fun R => @kernel_shape R). Qed.
Print Assumptions C08_layout.

(** The construction succeeds if the kernel, the admissibility test and the compression do. *)
Theorem C08_succeeds : forall (R : cring) (ini : initializer R) f nd root t,
  ct_build f nd root = Ok t -> regular t ->
  (forall s, In s (ct_nodes t) -> exists a, in_adm ini (ct_node s) = Ok a) ->
  (forall s, In s (ct_nodes t) -> s <> t ->
     exists D, in_fill ini (cn_rows (ct_node s)) (cn_cols (ct_node s)) = Ok D /\ exists l, in_comp ini D = Ok l) ->
  exists M, hier ini t = Ok M.
Proof. exact (fun R => @hier_total R). Qed.
Print Assumptions C08_succeeds.

(** The kernels of functions.cpp that depend on the position only: against the Dense
    matrix built from the same kernel. *)
Theorem C08_kernels : forall k x adm comp fuel rows cols bm bn nleaf t M FD,
  (forall D l, comp D = Ok l -> lr_wf l /\ l_r l = d_r D /\ l_c l = d_c D) ->
  positional k = true -> (0 <= ir_start rows)%Z -> (0 <= ir_start cols)%Z -> (1 <= bm)%Z -> (1 <= bn)%Z ->
  cluster_tree fuel rows cols bm bn nleaf = Ok t -> regular t ->
  hierarchical (kernel_init k x adm comp) fuel rows cols bm bn nleaf = Ok M ->
  kernel_fill k x (Z.to_nat (ir_n rows)) (Z.to_nat (ir_n cols)) (Z.to_nat (ir_start rows)) (Z.to_nat (ir_start cols)) = Ok FD ->
  exists D, densify M = Ok D /\ d_r D = d_r FD /\ d_c D = d_c FD /\
  forall i j, i < d_r FD -> j < d_c FD ->
  exists s, storage (kernel_init k x adm comp) t s /\
    in_block (ir_start rows + Z.of_nat i) (ir_start cols + Z.of_nat j) s = true /\
    ((adm (ct_node s) = Ok false /\ is_leaf (ct_node s) = true /\ d_e D i j = d_e FD i j) \/
     (adm (ct_node s) = Ok true /\ exists B l,
        kernel_block k x (cn_rows (ct_node s)) (cn_cols (ct_node s)) = Ok B /\ comp B = Ok l /\
        d_e D i j = lr_ent l (pos (cn_rows (ct_node s)) (ir_start rows + Z.of_nat i))
                             (pos (cn_cols (ct_node s)) (ir_start cols + Z.of_nat j)))).
Proof. exact kernel_dense. Qed.
Print Assumptions C08_kernels.

(** A 7 x 6 matrix in 2 x 2 blocks with leaf size 2; admissible blocks compressed to
    their first row and column (rank 1). *)
Definition zfill (rows cols : irange) : outcome (dense Zring) :=
  Ok (@Dn Zring (len rows) (len cols) (fun i j => ((ir_start rows + Z.of_nat i) * (ir_start cols + Z.of_nat j))%Z)).
Definition zcomp (d : dense Zring) : outcome (lowrank Zring) :=
  Ok (lr_make (@Dn Zring (d_r d) 1 (fun i _ => d_e d i 0)) (@Dn Zring 1 1 (fun _ _ => 1%Z))
              (@Dn Zring 1 (d_c d) (fun _ j => d_e d 0 j))).
Definition zini : initializer Zring := Init (is_admissible PositionBased [] (inject_Z 1)) zfill zcomp.

Example C08_ex :
  (let* M := hierarchical zini 9 (IR 1 7) (IR 1 6) 2 2 2 in show M) =
    Ok [[1; 2; 3; 16; 20; 6]; [2; 4; 6; 32; 40; 12]; [3; 6; 9; 12; 15; 18]; [4; 8; 12; 16; 20; 24];
        [25; 50; 15; 20; 25; 30]; [30; 60; 18; 24; 30; 36]; [7; 14; 21; 28; 35; 42]]%Z /\
  (let* M := hierarchical (Init (is_admissible PositionBased [] (inject_Z 1)) zfill (fun d => Ok (lr_of d)))
     9 (IR 1 7) (IR 1 6) 2 2 2 in show M) =
    Ok (map (fun x => map (fun y => (x * y)%Z) [1; 2; 3; 4; 5; 6]%Z) [1; 2; 3; 4; 5; 6; 7]%Z).
Proof. vm_compute. auto. Qed.

(** ** C09 *)

(** Starts 0: the given matrix, up to the compression of admissible blocks. *)
Theorem C09_of_dense : forall (R : cring) (A : dense R) adm comp fuel bm bn nleaf t M,
  (forall D l, comp D = Ok l -> lr_wf l /\ l_r l = d_r D /\ l_c l = d_c D) ->
  (1 <= bm)%Z -> (1 <= bn)%Z ->
  cluster_tree fuel (IR 0 (Z.of_nat (d_r A))) (IR 0 (Z.of_nat (d_c A))) bm bn nleaf = Ok t -> regular t ->
  hierarchical_of_dense fuel A adm comp bm bn nleaf 0 0 = Ok M ->
  let ini := Init adm (block_fill A) comp in
  exists D, densify M = Ok D /\ d_r D = d_r A /\ d_c D = d_c A /\
  forall i j, i < d_r A -> j < d_c A ->
  exists s, storage ini t s /\ in_block (Z.of_nat i) (Z.of_nat j) s = true /\
    ((adm (ct_node s) = Ok false /\ d_e D i j = d_e A i j) \/
     (adm (ct_node s) = Ok true /\ exists B l,
        block_fill A (cn_rows (ct_node s)) (cn_cols (ct_node s)) = Ok B /\ comp B = Ok l /\
        d_e D i j = lr_ent l (pos (cn_rows (ct_node s)) (Z.of_nat i)) (pos (cn_cols (ct_node s)) (Z.of_nat j)))).
Proof. exact (fun R => @of_dense_entries R). Qed.
Print Assumptions C09_of_dense.

(** Any other start: an entry outside of the given matrix is accessed, whatever the
    matrix, layout, admissibility and compression. *)
Theorem C09_offset_refuted : forall (R : cring) (A : dense R) adm comp fuel bm bn nleaf rs cs t,
  (forall D l, comp D = Ok l -> lr_wf l /\ l_r l = d_r D /\ l_c l = d_c D) ->
  (1 <= bm)%Z -> (1 <= bn)%Z -> 0 < d_r A -> 0 < d_c A -> (rs <> 0 \/ cs <> 0)%Z ->
  cluster_tree fuel (IR rs (Z.of_nat (d_r A))) (IR cs (Z.of_nat (d_c A))) bm bn nleaf = Ok t -> regular t ->
  forall M, hierarchical_of_dense fuel A adm comp bm bn nleaf rs cs <> Ok M.
Proof. exact (fun R => @of_dense_offset R). Qed.
Print Assumptions C09_offset_refuted.

Example C09_ex :
  let A := zd [[1; 2; 3; 4]; [5; 6; 7; 8]; [9; 10; 11; 12]; [13; 14; 15; 16]]%Z in
  (let* M := hierarchical_of_dense 5 A (fun _ => Ok false) zcomp 2 2 2 0 0 in show M) =
    Ok [[1; 2; 3; 4]; [5; 6; 7; 8]; [9; 10; 11; 12]; [13; 14; 15; 16]]%Z /\
  (let* M := hierarchical_of_dense 5 A (is_admissible PositionBased [] (inject_Z 0)) zcomp 2 2 2 0 0 in show M) =
    Ok [[1; 2; 9; 12]; [5; 6; 21; 28]; [81; 90; 11; 12]; [117; 130; 15; 16]]%Z /\
  hierarchical_of_dense 5 A (fun _ => Ok false) zcomp 2 2 2 4 0 = AssertFail.
Proof. vm_compute. auto. Qed.
