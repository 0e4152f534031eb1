(** Properties C01 and C02: index ranges. *)
From Coq Require Import List Arith ZArith Lia Bool.
From Verif Require Import IndexRange IndexRangeSpec IndexRangeProofs.
Import ListNotations.
Local Open Scope Z_scope.

(** C01: k children, a chain of adjacent ranges from start to start+n. *)
Theorem C01_split_chain : forall r k, 1 <= k ->
  length (ir_split r k) = Z.to_nat k /\
  adjacent_from (ir_start r) (ir_split r k) (ir_start r + ir_n r) /\
  total (ir_split r k) = ir_n r.
Proof.
  exact (fun r k H => conj (ir_split_length r k) (conj (ir_split_adjacent r k H) (ir_split_total r k H))).
Qed.
Print Assumptions C01_split_chain.

Example C01_split_chain_ex :
  ir_split (IR 3 10) 4 = [IR 3 3; IR 6 3; IR 9 3; IR 12 1].
Proof. reflexivity. Qed.

(** C01: the exact condition under which the children tile the parent. *)
Theorem C01_split_tiles_iff : forall r k, 0 <= ir_n r -> 1 <= k ->
  (tiles r (ir_split r k) <-> (k - 1) * Z.quot (ir_n r + k - 1) k <= ir_n r).
Proof. exact ir_split_tiles_iff. Qed.
Print Assumptions C01_split_tiles_iff.

Example C01_split_tiles_ex : (4 - 1) * Z.quot (10 + 4 - 1) 4 <= 10.
Proof. vm_compute; discriminate. Qed.

(** C01: easily checked sufficient conditions. *)
Theorem C01_split_tiles_large : forall r k, 1 <= k -> (k - 1) * (k - 1) <= ir_n r ->
  tiles r (ir_split r k).
Proof. exact (fun r k H H' => ir_split_tiles r k H (ir_split_nonneg_suff r k H H')). Qed.
Print Assumptions C01_split_tiles_large.

Example C01_split_tiles_large_ex : (4 - 1) * (4 - 1) <= 9. Proof. lia. Qed.

Theorem C01_split_tiles_divisible : forall r k q, 1 <= k -> 0 <= q -> ir_n r = q * k ->
  tiles r (ir_split r k).
Proof. exact (fun r k q H H' E => ir_split_tiles r k H (ir_split_nonneg_div r k q H H' E)). Qed.
Print Assumptions C01_split_tiles_divisible.

Example C01_split_tiles_divisible_ex : ir_split (IR 2 6) 3 = [IR 2 2; IR 4 2; IR 6 2].
Proof. reflexivity. Qed.

(** C01: the unconditional claim is false. *)
Theorem C01_split_tiles_refuted : exists r k, 0 <= ir_n r /\ 1 <= k /\ ~ tiles r (ir_split r k).
Proof. exact ir_split_nonneg_refuted. Qed.
Print Assumptions C01_split_tiles_refuted.

(** C02: split_at. *)
Theorem C02_split_at_chain : forall r index,
  adjacent_from (ir_start r) (ir_split_at r index) (ir_start r + ir_n r).
Proof. exact ir_split_at_adjacent. Qed.
Print Assumptions C02_split_at_chain.

Theorem C02_split_at_tiles : forall r index, 0 <= index <= ir_n r -> tiles r (ir_split_at r index).
Proof. exact ir_split_at_tiles. Qed.
Print Assumptions C02_split_at_tiles.

Example C02_split_at_ex : ir_split_at (IR 2 6) 4 = [IR 2 4; IR 6 2].
Proof. reflexivity. Qed.

(** C02: split_like, sizes are those asked for, and it tiles a range starting at 0. *)
Theorem C02_split_like_sizes : forall r sizes, map ir_n (ir_split_like r sizes) = sizes.
Proof. exact (fun r sizes => ir_split_like_from_sizes sizes 0). Qed.
Print Assumptions C02_split_like_sizes.

Theorem C02_split_like_tiles : forall n sizes,
  Forall (fun z => 0 <= z) sizes -> zsum sizes = n ->
  tiles (IR 0 n) (ir_split_like (IR 0 n) sizes).
Proof. exact ir_split_like_tiles. Qed.
Print Assumptions C02_split_like_tiles.

Example C02_split_like_ex : ir_split_like (IR 0 7) [3; 0; 4] = [IR 0 3; IR 3 0; IR 3 4] /\ zsum [3; 0; 4] = 7.
Proof. split; reflexivity. Qed.

(** C02: for a range that does not start at 0 the result is elsewhere. *)
Theorem C02_split_like_start_refuted : exists r sizes,
  Forall (fun z => 0 <= z) sizes /\ zsum sizes = ir_n r /\ ~ tiles r (ir_split_like r sizes).
Proof. exact ir_split_like_refuted_start. Qed.
Print Assumptions C02_split_like_start_refuted.
