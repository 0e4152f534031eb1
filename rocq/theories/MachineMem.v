(** Offsets into storage with the integer widths of the code: src/classes/dense.cpp:160-192
    and 108-113, 233-243; src/operations/LAPACK/geqp3.cpp:75-77, 113, 130, 148;
    src/functions.cpp:29-38. *)
From Coq Require Import List Arith ZArith Lia Bool.
From Verif Require Import Prelude Ring MatFun Matrix MatOps Heap HeapProofs HeapHistory Machine.
Import ListNotations.
Local Open Scope Z_scope.

(** Number of elements of the array of a new Dense, dense.cpp:110 (and 39, 48, 59). *)
Definition m_elements (n_rows n_cols : Z) : outcome Z := i64 (n_rows * n_cols).

Section Mem.
Context {R : cring}.
Notation hdense := (@hdense).
Implicit Types (s : @state R).

(** The index of operator(), dense.cpp:182-192. *)
Definition m_index (d : hdense) (i j : nat) : outcome Z :=
  let* p := i64 (Z.of_nat i * Z.of_nat (h_stride d)) in i64 (p + Z.of_nat j).

(** The index of operator[], dense.cpp:160-180. *)
Definition m_index1 (d : hdense) (i : nat) : outcome Z :=
  if (h_r d =? 1)%nat then Ok (Z.of_nat i) else i64 (Z.of_nat i * Z.of_nat (h_stride d)).

(** rel_start and the offset of data_ptr of a block of a split, dense.cpp:237-241. *)
Definition m_window (d : hdense) (row_start col_start : nat) : outcome (Z * Z * Z) :=
  let* r := i64 (Z.of_nat (h_r0 d) + Z.of_nat row_start) in
  let* c := i64 (Z.of_nat (h_c0 d) + Z.of_nat col_start) in
  let* p := i64 (r * Z.of_nat (h_stride d)) in
  Ok (r, c, p).

(** Every array has a number of elements that int64_t can hold. *)
Definition arrays_fit s : Prop := forall b, Z.of_nat (size (s_heap s) b) <= max64.

Lemma index_fits s k d i j : inv s -> live s k d -> arrays_fit s -> (i < h_r d)%nat -> (j < h_c d)%nat ->
  m_index d i j = Ok (Z.of_nat (i * h_stride d + j)) /\ (h_off d + (i * h_stride d + j) < size (s_heap s) (h_buf d))%nat.
Proof.
  intros HI HL HF Hi Hj. pose proof (good_addr _ _ i j (HI k d HL) Hi Hj) as HA. unfold addr in HA.
  specialize (HF (h_buf d)). unfold m_index. rewrite <- Nat2Z.inj_mul.
  rewrite i64_Ok by (unfold max64 in *; lia). cbn [bind]. rewrite <- Nat2Z.inj_add.
  rewrite i64_Ok by (unfold max64 in *; lia). split; [reflexivity|lia].
Qed.

Lemma index1_fits s k d i : inv s -> live s k d -> arrays_fit s ->
  (h_r d = 1 /\ i < h_c d)%nat \/ (h_r d <> 1 /\ h_c d = 1 /\ i < h_r d)%nat ->
  exists z, m_index1 d i = Ok z /\ addr1 d i = Ok (h_off d + Z.to_nat z)%nat /\
    (h_off d + Z.to_nat z < size (s_heap s) (h_buf d))%nat.
Proof.
  intros HI HL HF H. specialize (HF (h_buf d)). unfold m_index1, addr1. destruct H as [[H1 H2]|(H1 & H2 & H3)].
  - rewrite H1. cbn [Nat.eqb orb]. pose proof (good_addr _ _ 0 i (HI k d HL) ltac:(lia) H2) as HA. unfold addr in HA.
    exists (Z.of_nat i). split; auto. destruct (Nat.ltb_spec i (h_c d)); [|lia]. rewrite Nat2Z.id. split; auto. lia.
  - destruct (Nat.eqb_spec (h_r d) 1); [lia|]. pose proof (good_addr _ _ i 0 (HI k d HL) H3 ltac:(lia)) as HA. unfold addr in HA.
    rewrite H2. cbn [Nat.eqb orb]. destruct (Nat.ltb_spec i (h_r d)); [|lia].
    rewrite <- Nat2Z.inj_mul. exists (Z.of_nat (i * h_stride d)). split; [apply i64_Ok; unfold max64 in *; lia|].
    rewrite Nat2Z.id. split; auto. lia.
Qed.

(** The window of a block with at least one element. *)
Lemma window_fits s k d row_start n_rows col_start n_cols : inv s -> live s k d -> arrays_fit s ->
  (row_start + n_rows <= h_r d)%nat -> (col_start + n_cols <= h_c d)%nat -> (0 < n_rows)%nat -> (0 < n_cols)%nat ->
  Z.of_nat (h_stride d) <= max64 ->
  m_window d row_start col_start =
  Ok (Z.of_nat (h_r0 d + row_start), Z.of_nat (h_c0 d + col_start), Z.of_nat ((h_r0 d + row_start) * h_stride d)).
Proof.
  intros HI HL HF Hr Hc Hr0 Hc0 Hs. pose proof (HI k d HL) as HG. pose proof HG as (_ & Hoff & Hst & _).
  pose proof (good_addr _ _ row_start col_start HG ltac:(lia) ltac:(lia)) as HA. unfold addr in HA.
  specialize (HF (h_buf d)). unfold m_window.
  assert (E : ((h_r0 d + row_start) * h_stride d = h_r0 d * h_stride d + row_start * h_stride d)%nat) by lia.
  assert (B : ((h_r0 d + row_start) * h_stride d <= size (s_heap s) (h_buf d))%nat) by lia.
  assert (1 <= h_stride d)%nat by lia.
  assert (h_r0 d + row_start <= (h_r0 d + row_start) * h_stride d)%nat by nia.
  rewrite <- !Nat2Z.inj_add. rewrite i64_Ok by (unfold max64 in *; lia). cbn [bind].
  rewrite i64_Ok by (unfold max64 in *; lia). cbn [bind]. rewrite <- Nat2Z.inj_mul.
  rewrite i64_Ok by (unfold max64 in *; lia). reflexivity.
Qed.
End Mem.

(** ** truncated_geqp3 *)

(** The int offsets of step r: r*lda (113, 130), and (r+1)*lda (148) unless r is the last row. *)
Definition geqp3_offsets (m lda r : Z) : outcome unit :=
  let* _ := i32 (r * lda) in
  if r <? m - 1 then let* r1 := i32 (r + 1) in let* _ := i32 (r1 * lda) in Ok tt else Ok tt.

Lemma geqp3_fits m n r : 0 <= n <= max32 -> 0 <= r < m -> m <= max32 -> (m - 1) * n <= max32 -> geqp3_offsets m n r = Ok tt.
Proof.
  intros Hn Hr Hm H. unfold geqp3_offsets. assert (0 <= r * n <= (m - 1) * n) by nia.
  rewrite i32_Ok by lia. cbn [bind]. destruct (Z.ltb_spec r (m - 1)); auto.
  rewrite i32_Ok by (unfold max32 in *; lia). cbn [bind].
  assert (0 <= (r + 1) * n <= (m - 1) * n) by nia. rewrite i32_Ok by lia. reflexivity.
Qed.

Lemma geqp3_overflow m n : 0 <= n -> 1 <= m -> max32 < (m - 1) * n -> geqp3_offsets m n (m - 1) = UB.
Proof. intros Hn Hm H. unfold geqp3_offsets. rewrite i32_UB by lia. reflexivity. Qed.

(** ** uint64_t in the kernels *)

(** row_start + i == col_start + j of functions.cpp:35, where the sums are uint64_t. *)
Definition u64 (z : Z) : Z := z mod (2 * (max64 + 1)).
Definition m_on_diagonal (row_start col_start i j : Z) : bool := u64 (row_start + i) =? u64 (col_start + j).

Lemma on_diagonal_exact row_start col_start i j : 0 <= row_start <= max64 -> 0 <= col_start <= max64 ->
  0 <= i <= max64 -> 0 <= j <= max64 -> m_on_diagonal row_start col_start i j = (row_start + i =? col_start + j).
Proof. intros. unfold m_on_diagonal, u64. rewrite !Z.mod_small by lia. reflexivity. Qed.

(** ** get_non_negative_vector, src/util/experiment_setup.cpp:25-31: an int counts up to an int64_t. *)
Fixpoint count_loop (fuel : nat) (i N : Z) : outcome (list Z) :=
  match fuel with
  | O => NoFuel
  | S f => if i <? N then let* i1 := i32 (i + 1) in let* r := count_loop f i1 N in Ok (i :: r) else Ok []
  end.
Definition m_non_negative_vector (fuel : nat) (N : Z) : outcome (list Z) := count_loop fuel 0 N.

Lemma count_loop_exact N : N <= max32 -> forall f i, 0 <= i -> Z.max 0 (N - i) < Z.of_nat f ->
  exists l, count_loop f i N = Ok l /\ Z.of_nat (length l) = Z.max 0 (N - i) /\
    forall k, (k < length l)%nat -> nth k l 0 = i + Z.of_nat k.
Proof.
  intros HN. induction f as [|f IH]; intros i Hi Hf; [lia|]. cbn [count_loop].
  destruct (Z.ltb_spec i N) as [H|H].
  - rewrite i32_Ok by lia. cbn [bind]. destruct (IH (i + 1)) as (l & E & L & HK); [lia|lia|].
    rewrite E. cbn [bind]. exists (i :: l). split; auto. cbn [length]. split; [lia|].
    intros [|k] Hk; cbn [nth]; [lia|]. rewrite HK by lia. lia.
  - exists []. split; auto. cbn [length]. split; [lia|]. intros k Hk. lia.
Qed.

Lemma count_loop_overflow N : max32 < N -> forall f i, 0 <= i <= max32 -> max32 - i < Z.of_nat f -> count_loop f i N = UB.
Proof.
  intros HN. induction f as [|f IH]; intros i Hi Hf; [lia|]. cbn [count_loop].
  destruct (Z.ltb_spec i N); [|lia].
  destruct (Z.eq_dec i max32) as [->|Hne].
  - rewrite i32_UB by lia. reflexivity.
  - rewrite i32_Ok by lia. cbn [bind]. rewrite IH by lia. reflexivity.
Qed.
