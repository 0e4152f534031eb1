(** Properties C26-C28: LowRank += LowRank. *)
From Coq Require Import List Arith ZArith QArith Lia Bool String.
From Verif Require Import Prelude Ring MatFun Matrix MatOps MatSpec Lapack Gemm GemmTheorems LowRankAdd LowRankAddProofs.
Import ListNotations.
Local Open Scope nat_scope.

(** ** C26 *)

(** Ranks adding up to less than both dimensions: the exact sum, of the summed rank. *)
Theorem C26_naive_exact_below_full_rank : forall (R : cring) compress (a b : lowrank R),
  lr_wf a -> lr_wf b -> l_r a = l_r b -> l_c a = l_c b ->
  square_rank a -> square_rank b -> l_rank a + l_rank b < l_r a -> l_rank a + l_rank b < l_c a ->
  exists c, naive_addition compress a b = Ok c /\ lr_wf c /\ l_r c = l_r a /\ l_c c = l_c a /\
    l_rank c = l_rank a + l_rank b /\ square_rank c /\ l_eps c = l_eps a /\
    feq (l_r a) (l_c a) (lr_ent c) (madd (lr_ent a) (lr_ent b)).
Proof. exact (fun R => @naive_below R). Qed.
Print Assumptions C26_naive_exact_below_full_rank.

(** Otherwise the dense sum is compressed to the rank of the first operand. *)
Theorem C26_naive_full_rank : forall (R : cring) compress (a b : lowrank R),
  lr_wf a -> lr_wf b -> l_r a = l_r b -> l_c a = l_c b ->
  (l_r a <= l_rank a + l_rank b \/ l_c a <= l_rank a + l_rank b) ->
  exists s, d_r s = l_r a /\ d_c s = l_c a /\ feq (l_r a) (l_c a) (d_e s) (madd (lr_ent a) (lr_ent b)) /\
    naive_addition compress a b = compress s (l_rank a).
Proof. exact (fun R => @naive_full R). Qed.
Print Assumptions C26_naive_full_rank.

Theorem C26_naive_rank : forall (R : cring) compress (a b c : lowrank R),
  lr_wf a -> lr_wf b -> l_r a = l_r b -> l_c a = l_c b -> square_rank a -> square_rank b ->
  (forall d r x, compress d r = Ok x -> l_rank x = r) ->
  naive_addition compress a b = Ok c ->
  l_rank c = if l_rank a + l_rank b <? Nat.min (l_r a) (l_c a) then l_rank a + l_rank b else l_rank a.
Proof. exact (fun R => @naive_rank R). Qed.
Print Assumptions C26_naive_rank.

Definition l1 : lowrank Zring := lr_make (zd [[1]; [2]; [3]]%Z) (zd [[2]]%Z) (zd [[1; 0; 1; 1]]%Z).
Definition l2 : lowrank Zring := lr_make (zd [[0]; [1]; [1]]%Z) (zd [[5]]%Z) (zd [[1; 1; 0; 2]]%Z).
Definition lr_rows (c : lowrank Zring) : outcome (nat * list (list Z)) :=
  let* r := show (ML c) in Ok (l_rank c, r).

Example naive_example : (let* c := naive_addition (fun d r => Ok (lr_of d)) l1 l2 in lr_rows c) =
  Ok (2, [[2; 0; 2; 2]; [9; 5; 4; 14]; [11; 5; 6; 16]]%Z).
Proof. vm_compute. reflexivity. Qed.

(** With a middle factor that is not square, as the product of LowRank matrices of
    different ranks has, the block matrix of the S factors does not fit together. *)
Definition l3 : lowrank Zring := lr_make (zd [[0]; [1]; [1]; [0]]%Z) (zd [[5; 1]]%Z) (zd [[1; 1; 0; 2]; [0; 1; 0; 0]]%Z).
Definition l4 : lowrank Zring := lr_make (zd [[0]; [1]; [1]; [0]]%Z) (zd [[5]]%Z) (zd [[1; 1; 0; 2]]%Z).
Theorem C26_rectangular_middle_refuted : exists a b : lowrank Zring,
  lr_wf a /\ lr_wf b /\ l_r a = l_r b /\ l_c a = l_c b /\ l_rank a = d_r (l_S a) /\ l_rank b = d_r (l_S b) /\
  l_rank a + l_rank b < l_r a /\ l_rank a + l_rank b < l_c a /\
  forall compress c, naive_addition compress a b <> Ok c.
Proof.
  exists l4, l3. repeat (split; [vm_compute; auto|]).
  intros compress c. vm_compute. discriminate.
Qed.
Print Assumptions C26_rectangular_middle_refuted.

(** ** C27 *)

(** [rounds a b c r k U S V]: U S V, with S diagonal of order k, is the exact sum, and the
    factors of c are the first r columns/values/rows, so that c plus the dropped part
    is the sum. *)
Theorem C27_rounded_addition : forall (R : cring) (L : lapack R), lapack_ok L ->
  forall a b : lowrank R, lr_wf a -> lr_wf b -> l_r a = l_r b -> l_c a = l_c b ->
  let kmax := Nat.min (Nat.min (l_r a) (d_c (l_S a) + d_c (l_S b))) (Nat.min (d_c (l_S a) + d_c (l_S b)) (l_c a)) in
  (if use_eps a then 0 < kmax else l_rank a <= kmax) ->
  exists c r U Sm V, rounded_addition L a b = Ok c /\ rounds a b c r kmax U Sm V /\
    (if use_eps a then 0 < r else r = l_rank a) /\
    (lapack_orth L -> orth_cols (l_r a) kmax U /\ orth_rows kmax (l_c a) V).
Proof. exact (fun R => @rounded_ok R). Qed.
Print Assumptions C27_rounded_addition.

(** With orthonormal factors the squared error is the sum of the squares of the dropped values. *)
Theorem C27_rounded_error : forall (R : cring) (L : lapack R), lapack_ok L ->
  forall a b : lowrank R, lr_wf a -> lr_wf b -> l_r a = l_r b -> l_c a = l_c b ->
  let kmax := Nat.min (Nat.min (l_r a) (d_c (l_S a) + d_c (l_S b))) (Nat.min (d_c (l_S a) + d_c (l_S b)) (l_c a)) in
  (if use_eps a then 0 < kmax else l_rank a <= kmax) -> lapack_orth L ->
  exists c Sm, rounded_addition L a b = Ok c /\ diagonal kmax Sm /\
    feq (l_rank c) (l_rank c) (d_e (l_S c)) Sm /\
    sumsq (l_r a) (l_c a) (msub (madd (lr_ent a) (lr_ent b)) (lr_ent c)) =
    sum (kmax - l_rank c) (fun i => (Sm (l_rank c + i)%nat (l_rank c + i)%nat * Sm (l_rank c + i)%nat (l_rank c + i)%nat)%r).
Proof. exact (fun R => @rounded_error R). Qed.
Print Assumptions C27_rounded_error.

Theorem C27_fast_rounded_addition : forall (R : cring) (L : lapack R), lapack_ok L ->
  forall a b : lowrank R, lr_wf a -> lr_wf b -> l_r a = l_r b -> l_c a = l_c b ->
  use_eps a = false -> d_r (l_S b) <= l_r a -> d_c (l_S b) <= l_c a ->
  let kmax := Nat.min (d_r (l_S a) + d_r (l_S b)) (d_c (l_S a) + d_c (l_S b)) in
  l_rank a <= kmax ->
  exists c U Sm V, fast_rounded_addition L a b = Ok c /\ rounds a b c (l_rank a) kmax U Sm V.
Proof. exact (fun R => @fast_ok R). Qed.
Print Assumptions C27_fast_rounded_addition.

(** The contract is satisfiable (over any ring, without orthonormality). *)
Theorem C27_contract_satisfiable : forall R : cring, lapack_ok (trivial_lapack (R:=R)).
Proof. exact (fun R => @trivial_lapack_ok R). Qed.
Print Assumptions C27_contract_satisfiable.

Definition T : lapack Zring := trivial_lapack.
(** Rank 1 of two operands is kept: the part of the second singular direction is lost. *)
Example rounded_example : (let* c := rounded_addition T l1 l2 in lr_rows c) =
  Ok (1, [[2; 0; 2; 2]; [4; 0; 4; 4]; [6; 0; 6; 6]]%Z).
Proof. vm_compute. reflexivity. Qed.
(** With rank 2 recorded nothing is lost. *)
Example rounded_exact_example : (let* c := rounded_addition T (lr_make (zd [[1; 0]; [0; 1]]%Z) (zd [[1; 0]; [0; 1]]%Z) (zd [[2; 3]; [4; 5]]%Z))
     (lr_make (zd [[1]; [2]]%Z) (zd [[1]]%Z) (zd [[1; 1]]%Z)) in lr_rows c) = Ok (2, [[3; 4]; [6; 7]]%Z).
Proof. vm_compute. reflexivity. Qed.
Example fast_example : (let* c := fast_rounded_addition T (lr_make (zd [[1]; [0]]%Z) (zd [[1]]%Z) (zd [[1; 0]]%Z))
     (lr_make (zd [[2]; [0]]%Z) (zd [[1]]%Z) (zd [[3; 0]]%Z)) in lr_rows c) = Ok (1, [[7; 0]; [0; 0]]%Z).
Proof. vm_compute. reflexivity. Qed.

(** ** C28 *)

Theorem C28_selection : forall (R : cring) (L : lapack R) compress (a b : lowrank R) setting,
  lr_addition L compress setting a b =
  match setting with
  | "naive"%string => naive_addition compress a b
  | "rounded_addition"%string => rounded_addition L a b
  | _ => fast_rounded_addition L a b
  end.
Proof.
  intros R L compress a b setting. unfold lr_addition.
  destruct (String.eqb_spec setting "naive") as [->|N1]; [reflexivity|].
  destruct (String.eqb_spec setting "rounded_addition") as [->|N2]; [reflexivity|].
  repeat match goal with
  | |- context[match ?x with _ => _ end] => is_var x; destruct x
  end; try reflexivity; congruence.
Qed.
Print Assumptions C28_selection.

(** Whatever the setting, the result plus what is lost is the sum; [loses] says what can
    be lost: nothing, the values dropped by the truncation, or the error of the compression. *)
Theorem C28_every_setting_adds : forall (R : cring) (L : lapack R), lapack_ok L -> forall compress setting (a b : lowrank R),
  fits a -> fits b -> l_r a = l_r b -> l_c a = l_c b ->
  (forall d r, r <= d_r d -> r <= d_c d -> exists c, compress d r = Ok c /\ lr_wf c /\ l_r c = d_r d /\ l_c c = d_c d) ->
  exists c e, lr_addition L compress setting a b = Ok c /\ lr_wf c /\ l_r c = l_r a /\ l_c c = l_c a /\
    loses compress a b c e /\ feq (l_r a) (l_c a) (madd (lr_ent c) e) (madd (lr_ent a) (lr_ent b)) /\
    (feq (l_r a) (l_c a) e mzero -> feq (l_r a) (l_c a) (lr_ent c) (madd (lr_ent a) (lr_ent b))).
Proof. exact (fun R => @lr_addition_sum R). Qed.
Print Assumptions C28_every_setting_adds.

Example setting_example : map (fun s => let* c := lr_addition T (fun d r => Ok (lr_of d)) s l1 l2 in Ok (l_rank c))
  ["naive"; "rounded_addition"; "fast_rounded_addition"; "anything"]%string = [Ok 2; Ok 1; Ok 1; Ok 1].
Proof. vm_compute. reflexivity. Qed.
