(** Dense modified Gram-Schmidt with the real square root. *)
From Coq Require Import List Arith Lia Bool Reals Lra.
From Verif Require Import Prelude Ring MatFun Matrix MatOps Heap HeapProofs SvdRank MgsHeap MgsHeapProofs.
Local Open Scope nat_scope.

Lemma sqrt_root : forall (f : nat -> Rring) n, let s := sum (R := Rring) n (fun i => f i * f i)%R in (sqrt s * sqrt s = s)%R.
Proof. intros f n s. apply sqrt_sqrt. unfold s. apply sum_nonneg. intros. apply Rle_0_sqr. Qed.

(** No division by zero: the diagonal of R comes out positive. *)
Theorem mgs_real (A Q Rm : hdense) (h h' : heap Rring) Q' : packed A -> apart A Rm -> good h A -> good h Rm ->
  h_r Rm = h_c A -> h_c Rm = h_c A ->
  feq (h_c A) (h_c A) (hent h Rm) mzero ->
  mgs_dense (R := Rring) sqrt Rinv h A Q Rm = Ok (h', Q') ->
  (forall l, l < h_c A -> hent h' Rm l l <> 0%R) ->
  feq (h_r A) (h_c A) (mmul (h_c A) (hent h' Q') (hent h' Rm)) (hent h A) /\
  feq (h_c A) (h_c A) (mmul (h_r A) (mtr (hent h' Q')) (hent h' Q')) mid /\
  (forall i j, i < h_c A -> j < i -> hent h' Rm i j = 0%R) /\
  (forall b k, ~ cell A b k -> ~ cell Rm b k -> val h' b k = val h b k).
Proof.
  intros HP HA GA GR HR HC HZ E HU.
  destruct (mgs_dense_factors (R := Rring) sqrt Rinv A HP Rm HR HC HA h Q h' Q' GA GR HZ E) as [-> [F [H1 [H2 H3]]]].
  { intros l Hl. simpl. apply Rinv_l. apply HU. auto. }
  split; auto. split; [apply H3; apply sqrt_root|]. split; auto. apply F.
Qed.

(** On a narrower view the columns are not normalised. *)
Theorem mgs_real_view (A Q Rm : hdense) (h h' : heap Rring) Q' : apart A Rm -> good h A -> good h Rm ->
  h_r Q = h_r A -> h_c Q = h_c A -> h_r Rm = h_c A -> h_c Rm = h_c A ->
  2 <= h_r A -> 1 <= h_c A -> h_c A < h_stride A ->
  (1 < Rabs (hent h A (h_r A - 1)%nat (h_c A - 1)%nat))%R ->
  mgs_dense (R := Rring) sqrt Rinv h A Q Rm = Ok (h', Q') ->
  ~ feq (h_c A) (h_c A) (mmul (h_r A) (mtr (hent h' Q')) (hent h' Q')) mid.
Proof.
  intros HA GA GR Q1 Q2 HR HC H1 H2 H3 HB E HO.
  pose proof (mgs_dense_view (R := Rring) sqrt Rinv A Rm h Q h' Q' GA GR HA Q1 Q2 HR HC H1 H2 H3 E) as HV.
  specialize (HO (h_c A - 1) (h_c A - 1) ltac:(lia) ltac:(lia)). unfold mmul, mtr, mid in HO. rewrite Nat.eqb_refl in HO.
  replace (h_r A) with (S (h_r A - 1)) in HO at 1 by lia.
  change (sum (R := Rring) (h_r A - 1)%nat (fun j => hent h' Q' j (h_c A - 1)%nat * hent h' Q' j (h_c A - 1)%nat)%R +
          hent h' Q' (h_r A - 1)%nat (h_c A - 1)%nat * hent h' Q' (h_r A - 1)%nat (h_c A - 1)%nat = 1)%R in HO.
  rewrite HV in HO. set (x := hent h A (h_r A - 1)%nat (h_c A - 1)%nat) in *.
  assert (0 <= sum (R := Rring) (h_r A - 1)%nat (fun j => hent h' Q' j (h_c A - 1)%nat * hent h' Q' j (h_c A - 1)%nat)%R)%R.
  { apply sum_nonneg. intros. apply Rle_0_sqr. }
  assert (1 < x * x)%R.
  { replace (x * x)%R with (Rabs x * Rabs x)%R by (rewrite <- Rabs_mult; apply Rabs_pos_eq; apply Rle_0_sqr). nra. }
  lra.
Qed.
