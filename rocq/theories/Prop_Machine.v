(** C75, C76: integer widths.  [i64], [i32] (Machine.v) are the results of signed
    operations, undefined when the value does not fit; [m_...] are the functions of the code
    computed with them, the names without m_ the same functions over unbounded integers,
    about which the other properties are stated. *)
From Coq Require Import List Arith ZArith NArith QArith Lia Bool.
From Verif Require Import Prelude Ring IndexRange ClusterTree Heap HeapProofs HeapHistory Morton MortonSort
  Machine MachineMorton MachineMem.
Import ListNotations.
Local Open Scope Z_scope.

(** ** C75 *)

(** Splitting never yields wrong numbers: it is exact or undefined. *)
Theorem C75_split_sound : forall r k l, m_split r k = Ok l -> l = ir_split r k.
Proof. exact m_split_sound. Qed.
Print Assumptions C75_split_sound.

(** It is defined exactly when n + k and the start of the last part fit. *)
Theorem C75_split_exact : forall r k, 1 <= k <= max64 -> 0 <= ir_n r -> 0 <= ir_start r ->
  (m_split r k = Ok (ir_split r k) <->
   ir_n r + k <= max64 /\ ir_start r + Z.quot (ir_n r + k - 1) k * (k - 1) <= max64).
Proof. intros r k Hk Hn Hs. apply m_split_exact; auto; lia. Qed.
Print Assumptions C75_split_exact.

Theorem C75_split_fits : forall r k, 1 <= k -> 0 <= ir_n r -> 0 <= ir_start r ->
  ir_start r + ir_n r + k <= max64 -> m_split r k = Ok (ir_split r k).
Proof. intros r k Hk Hn Hs H. apply m_split_fits; auto; lia. Qed.
Print Assumptions C75_split_fits.

Example C75_split_ex : m_split (IR 3 10) 4 = Ok [IR 3 3; IR 6 3; IR 9 3; IR 12 1] /\
  m_split (IR 0 max64) 2 = UB.
Proof. split; vm_compute; reflexivity. Qed.

Theorem C75_split_at : forall r index, 0 <= ir_start r -> 0 <= index <= ir_n r -> ir_start r + ir_n r <= max64 ->
  m_split_at r index = Ok (ir_split_at r index).
Proof. exact m_split_at_exact. Qed.
Print Assumptions C75_split_at.

Theorem C75_split_like : forall sizes, Forall (fun n => 0 <= n) sizes -> fold_right Z.add 0 sizes <= max64 ->
  m_split_like_from 0 sizes = Ok (ir_split_like_from 0 sizes).
Proof. intros sizes H1 H2. apply m_split_like_exact; auto; lia. Qed.
Print Assumptions C75_split_like.

(** A cluster tree that is built is the one of exact arithmetic. *)
Theorem C75_tree_sound : forall f rows cols bm bn nleaf t,
  m_cluster_tree f rows cols bm bn nleaf = Ok t -> cluster_tree f rows cols bm bn nleaf = Ok t.
Proof. intros f rows cols bm bn nleaf t. apply m_build_sound. Qed.
Print Assumptions C75_tree_sound.

(** Cutting both ways into b parts, b N up to 2^63, for every leaf size and depth. *)
Theorem C75_tree : forall f rows cols b nleaf N, 2 <= b -> b * b <= max64 -> 0 <= nleaf -> 1 <= N -> b * N <= max64 ->
  0 <= ir_start rows -> 0 <= ir_n rows <= N -> 0 <= ir_start cols -> 0 <= ir_n cols <= N ->
  ir_start rows + ir_n rows + 64 * b <= max64 -> ir_start cols + ir_n cols + 64 * b <= max64 ->
  m_cluster_tree f rows cols b b nleaf = cluster_tree f rows cols b b nleaf.
Proof. exact m_cluster_tree_square. Qed.
Print Assumptions C75_tree.

(** So nothing overflows for matrices of dimensions LAPACK can take. *)
Theorem C75_tree_lapack : forall f rows cols b nleaf, 2 <= b <= max32 -> 0 <= nleaf ->
  0 <= ir_start rows -> 0 <= ir_n rows -> ir_start rows + ir_n rows <= max32 ->
  0 <= ir_start cols -> 0 <= ir_n cols -> ir_start cols + ir_n cols <= max32 ->
  m_cluster_tree f rows cols b b nleaf = cluster_tree f rows cols b b nleaf.
Proof.
  intros f rows cols b nleaf Hb Hl R1 R2 R3 C1 C2 C3.
  assert (B1 : b * b <= max32 * max32) by (apply Z.mul_le_mono_nonneg; lia).
  assert (B2 : b * max32 <= max32 * max32) by (apply Z.mul_le_mono_nonneg; unfold max32 in *; lia).
  change (max32 * max32) with 4611686014132420609 in *.
  apply (m_cluster_tree_square f rows cols b nleaf max32); unfold max32, max64 in *; lia.
Qed.
Print Assumptions C75_tree_lapack.

(** Different numbers of parts for rows and columns; f bounds the number of levels. *)
Theorem C75_tree_levels : forall f rows cols bm bn nleaf, (1 <= f)%nat -> 1 <= bm -> 1 <= bn -> bm * bn <= max64 ->
  0 <= ir_start rows -> 0 <= ir_n rows -> 0 <= ir_start cols -> 0 <= ir_n cols ->
  Z.of_nat f <= max64 -> bm ^ Z.of_nat f <= max64 -> bn ^ Z.of_nat f <= max64 ->
  ir_start rows + ir_n rows + Z.of_nat f * bm <= max64 -> ir_start cols + ir_n cols + Z.of_nat f * bn <= max64 ->
  m_cluster_tree f rows cols bm bn nleaf = cluster_tree f rows cols bm bn nleaf.
Proof. exact m_cluster_tree_levels. Qed.
Print Assumptions C75_tree_levels.

Example C75_tree_ex : exists t, m_cluster_tree 4 (IR 0 (2 ^ 40)) (IR 5 (2 ^ 39)) 2 2 (2 ^ 38) = Ok t /\
  length (ct_children t) = 4%nat.
Proof. eexists. split; [vm_compute; reflexivity|reflexivity]. Qed.

(** A matrix that ends at the largest int64_t has no cluster tree. *)
Theorem C75_tree_refuted : exists f rows cols, 0 <= ir_start rows /\ 0 <= ir_n rows /\ ir_start rows + ir_n rows <= max64 /\
  (exists t, cluster_tree f rows cols 2 2 0 = Ok t) /\ m_cluster_tree f rows cols 2 2 0 = UB.
Proof.
  exists 3%nat, (IR 0 max64), (IR 0 max64). repeat split; try (vm_compute; congruence).
  eexists. vm_compute. reflexivity.
Qed.
Print Assumptions C75_tree_refuted.

(** Element access in all objects of a legal history whose arrays have less than 2^63
    elements: the index is exact and inside of the array. *)
Theorem C75_access : forall (R : cring) (cs : list (cmd R)), legal init cs ->
  exists s, run cs init = Ok s /\ (arrays_fit s -> forall k d, live s k d -> forall i j, (i < h_r d)%nat -> (j < h_c d)%nat ->
    m_index d i j = Ok (Z.of_nat (i * h_stride d + j)) /\
    (h_off d + (i * h_stride d + j) < size (s_heap s) (h_buf d))%nat).
Proof.
  intros R cs H. destruct (run_ok cs init init_inv H) as [s [E I]]. exists s. split; auto.
  intros HF k d HL i j Hi Hj. apply (index_fits s k d i j I HL HF Hi Hj).
Qed.
Print Assumptions C75_access.

Theorem C75_vector_access : forall (R : cring) (cs : list (cmd R)), legal init cs ->
  exists s, run cs init = Ok s /\ (arrays_fit s -> forall k d, live s k d -> forall i,
    (h_r d = 1 /\ i < h_c d)%nat \/ (h_r d <> 1 /\ h_c d = 1 /\ i < h_r d)%nat ->
    exists z, m_index1 d i = Ok z /\ addr1 d i = Ok (h_off d + Z.to_nat z)%nat /\
      (h_off d + Z.to_nat z < size (s_heap s) (h_buf d))%nat).
Proof.
  intros R cs H. destruct (run_ok cs init init_inv H) as [s [E I]]. exists s. split; auto.
  intros HF k d HL i Hi. apply (index1_fits s k d i I HL HF Hi).
Qed.
Print Assumptions C75_vector_access.

(** The fields of a window that is split off. *)
Theorem C75_window : forall (R : cring) (cs : list (cmd R)), legal init cs ->
  exists s, run cs init = Ok s /\ (arrays_fit s -> forall k d, live s k d -> forall row_start n_rows col_start n_cols,
    (row_start + n_rows <= h_r d)%nat -> (col_start + n_cols <= h_c d)%nat -> (0 < n_rows)%nat -> (0 < n_cols)%nat ->
    Z.of_nat (h_stride d) <= max64 ->
    m_window d row_start col_start =
    Ok (Z.of_nat (h_r0 d + row_start), Z.of_nat (h_c0 d + col_start), Z.of_nat ((h_r0 d + row_start) * h_stride d))).
Proof.
  intros R cs H. destruct (run_ok cs init init_inv H) as [s [E I]]. exists s. split; auto.
  intros HF k d HL rs nr cs' nc H1 H2 H3 H4 H5. apply (window_fits s k d rs nr cs' nc I HL HF H1 H2 H3 H4 H5).
Qed.
Print Assumptions C75_window.

(** The number of elements of a new Dense is not checked. *)
Theorem C75_new_refuted : m_elements (2 ^ 32) (2 ^ 32) = UB /\ wrap64 (2 ^ 32 * 2 ^ 32) = 0.
Proof. split; vm_compute; reflexivity. Qed.
Print Assumptions C75_new_refuted.

(** The offsets of truncated_geqp3 are int: fine up to 2^31 elements, not beyond. *)
Theorem C75_geqp3 : forall m n r, 0 <= n <= max32 -> 0 <= r < m -> m <= max32 -> (m - 1) * n <= max32 ->
  geqp3_offsets m n r = Ok tt.
Proof. exact geqp3_fits. Qed.
Print Assumptions C75_geqp3.

Theorem C75_geqp3_refuted : forall m n, 0 <= n -> 1 <= m -> max32 < (m - 1) * n -> geqp3_offsets m n (m - 1) = UB.
Proof. exact geqp3_overflow. Qed.
Print Assumptions C75_geqp3_refuted.

Example C75_geqp3_ex : geqp3_offsets 46341 46341 46340 = Ok tt /\ geqp3_offsets 46342 46342 46341 = UB.
Proof. split; vm_compute; reflexivity. Qed.

(** The identity kernel compares unsigned sums. *)
Theorem C75_identity : forall row_start col_start i j, 0 <= row_start <= max64 -> 0 <= col_start <= max64 ->
  0 <= i <= max64 -> 0 <= j <= max64 -> m_on_diagonal row_start col_start i j = (row_start + i =? col_start + j).
Proof. exact on_diagonal_exact. Qed.
Print Assumptions C75_identity.

(** get_non_negative_vector counts with an int. *)
Theorem C75_non_negative_vector : forall N, 0 <= N <= max32 -> forall f, N < Z.of_nat f ->
  exists l, m_non_negative_vector f N = Ok l /\ Z.of_nat (length l) = N /\
    forall k, (k < length l)%nat -> nth k l 0 = Z.of_nat k.
Proof.
  intros N HN f Hf. destruct (count_loop_exact N ltac:(lia) f 0) as (l & E & L & HK); [lia|lia|].
  exists l. split; auto. split; [lia|]. intros k Hk. rewrite HK by auto. lia.
Qed.
Print Assumptions C75_non_negative_vector.

Theorem C75_non_negative_vector_refuted : forall N, max32 < N -> forall f, max32 < Z.of_nat f ->
  m_non_negative_vector f N = UB.
Proof. intros N HN f Hf. apply count_loop_overflow; auto; unfold max32 in *; lia. Qed.
Print Assumptions C75_non_negative_vector_refuted.

(** ** C76 *)

(** Encoding is exact for up to 63 bits, and undefined for more than 64. *)
Theorem C76_encode : forall (iX : list N) level, (length iX * level <= 63)%nat ->
  m_morton (map Z.of_N iX) level = Ok (Z.of_N (morton iX level)).
Proof. exact m_morton_exact. Qed.
Print Assumptions C76_encode.

Theorem C76_encode_overflow : forall (iX : list Z) level, iX <> [] -> (64 < length iX * level)%nat -> m_morton iX level = UB.
Proof. exact m_morton_UB. Qed.
Print Assumptions C76_encode_overflow.

(** With 64 bits an index can be negative. *)
Theorem C76_encode_64_refuted : exists iX, length iX = 2%nat /\ Forall (fun x => 0 <= x < 2 ^ 32) iX /\
  m_morton iX 32 = Ok (- max64 - 1).
Proof.
  exists [0; 2 ^ 31]. split; auto. split; [repeat constructor; vm_compute; congruence|]. vm_compute. reflexivity.
Qed.
Print Assumptions C76_encode_64_refuted.

(** Decoding is exact while all components are below 2^31: [1 << level] is an int. *)
Theorem C76_decode : forall (dim fuel : nat) (m : N), (0 < dim)%nat -> (m < 2 ^ N.of_nat (31 * dim))%N -> (N.size_nat m < fuel)%nat ->
  m_cartesian fuel dim (Z.of_N m) = Ok (map Z.of_N (cartesian dim m)).
Proof. exact m_cartesian_exact. Qed.
Print Assumptions C76_decode.

(** Beyond, it is wrong although the index and the components fit int64_t. *)
Theorem C76_decode_refuted :
  m_cartesian 65 1 (2 ^ 31) = Ok [- 2 ^ 31] /\ m_cartesian 65 1 (2 ^ 32) = UB /\
  m_cartesian 65 2 (2 ^ 62) = Ok [- 2 ^ 31; 0].
Proof. repeat split; vm_compute; reflexivity. Qed.
Print Assumptions C76_decode_refuted.

(** Both ways for boxes of at most 63 bits and levels up to 31. *)
Theorem C76_round_trip : forall dim level (iX : list N) fuel, (0 < dim)%nat -> box dim level iX -> (level <= 31)%nat ->
  (dim * level <= 63)%nat -> (63 < fuel)%nat ->
  exists m, m_morton (map Z.of_N iX) level = Ok m /\ m_cartesian fuel dim m = Ok (map Z.of_N iX).
Proof.
  intros dim level iX fuel Hd HB Hl H63 Hf. exists (Z.of_N (morton iX level)). pose proof HB as [HL _].
  split; [apply m_morton_exact; rewrite HL; auto|].
  assert (Hm : (morton iX level < 2 ^ N.of_nat (dim * level))%N) by (rewrite <- HL; apply morton_range).
  rewrite m_cartesian_exact; auto.
  - rewrite decode_encode; auto.
  - eapply N.lt_le_trans; [exact Hm|]. apply N.pow_le_mono_r; nia.
  - pose proof (size_nat_le _ _ Hm). lia.
Qed.
Print Assumptions C76_round_trip.

Example C76_ex : m_morton [5; 2; 7] 3 = Ok 373 /\ m_cartesian 10 3 373 = Ok [5; 2; 7] /\
  m_morton [2 ^ 20 + 1; 1; 2 ^ 20] 21 = Ok (2 ^ 62 + 2 ^ 60 + 3).
Proof. repeat split; vm_compute; reflexivity. Qed.

(** The box numbers sortByMortonIndex sorts by, for levels up to 30. *)
Theorem C76_boxes : forall n (x : list (list Q)) level, x <> [] -> (forall c, In c x -> length c = n) -> (0 < n)%nat ->
  (level <= 30)%nat -> (length x * level <= 63)%nat ->
  exists bs, box_numbers x level = Ok bs /\ m_box_numbers x level = Ok (map Z.of_N bs).
Proof. intros n x level H1 H2 H3 H4 H5. apply (m_box_numbers_exact n); auto. split; auto. Qed.
Print Assumptions C76_boxes.

Example C76_boxes_ex : m_box_numbers [[0; 1; 3]; [2; 5; 2]]%Q 30 = Ok [54043195528445952; 846676729945653248; 414331165718085632].
Proof. vm_compute. reflexivity. Qed.

(** On level 31 the side of the box is negative and the order along an axis is reversed;
    on level 32 the shift is undefined. *)
Theorem C76_boxes_31_refuted : exists a b, m_box_number [1 # 4] 31 = Ok a /\ m_box_number [1 # 2] 31 = Ok b /\ b < a /\
  exists a' b', box_number [1 # 4] 31 = Ok a' /\ box_number [1 # 2] 31 = Ok b' /\ (a' < b')%N.
Proof.
  eexists. eexists. split; [vm_compute; reflexivity|]. split; [vm_compute; reflexivity|]. split; [reflexivity|].
  eexists. eexists. split; [vm_compute; reflexivity|]. split; [vm_compute; reflexivity|]. reflexivity.
Qed.
Print Assumptions C76_boxes_31_refuted.

Theorem C76_boxes_32_refuted : forall p level, (32 <= level)%nat -> m_box_number p level = UB.
Proof.
  intros p level H. unfold m_box_number, shl32. destruct (Z.ltb_spec (Z.of_nat level) 0); [lia|].
  destruct (Z.leb_spec 32 (Z.of_nat level)); [|lia]. reflexivity.
Qed.
Print Assumptions C76_boxes_32_refuted.
