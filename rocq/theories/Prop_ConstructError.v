(** Property C73: accuracy of constructed Hierarchical matrices. *)
From Coq Require Import List Arith ZArith QArith Lia Bool Reals Qreals Lra Psatz.
From Verif Require Import Prelude Ring MatFun Matrix MatOps MatSpec MatOpsProofs IndexRange IndexRangeSpec
  ClusterTree ClusterTreeSpec ClusterTreeProofs SvdRank Kernels Construct ConstructProofs ConstructKernel L2Error L2Real
  Triangular HouseReal Rrqr RrqrLr ConstructError Prop_Rrqr.
Import ListNotations.
Local Open Scope nat_scope.
Local Open Scope R_scope.

(** Sum of the squares of the entries of F at the given rows and columns. *)
Definition frob2 (rows cols : irange) (F : Z -> Z -> R) : R :=
  rsum (Z.to_nat (ir_n rows)) (fun i => rsum (Z.to_nat (ir_n cols)) (fun j =>
    F (ir_start rows + Z.of_nat i)%Z (ir_start cols + Z.of_nat j)%Z *
    F (ir_start rows + Z.of_nat i)%Z (ir_start cols + Z.of_nat j)%Z)).

(** What a Hierarchical over these rows and columns is off by. *)
Definition off_by (rows cols : irange) (F : Z -> Z -> R) (M : matrix Rring) : R :=
  frob2 rows cols (fun x y => F x y - ent M (pos rows x) (pos cols y)).

Lemma frob2_win rows cols F : frob2 rows cols F = sumsq (R := Rring) (len rows) (len cols) (win F rows cols).
Proof. reflexivity. Qed.

Lemma off_by_win rows cols F M : off_by rows cols F M =
  sumsq (R := Rring) (len rows) (len cols) (fun i j => win F rows cols i j - ent M i j).
Proof.
  unfold off_by. rewrite frob2_win. apply (sumsq_ext (R := Rring)). intros i j Hi Hj. unfold win.
  replace (pos rows (ir_start rows + Z.of_nat i)) with i by (unfold pos; lia).
  replace (pos cols (ir_start cols + Z.of_nat j)) with j by (unfold pos; lia).
  reflexivity.
Qed.

(** An admissible storage block and its compression. *)
Definition compressed (ini : initializer Rring) (t s : ctree) (B : rdense) (l : lowrank Rring) : Prop :=
  storage ini t s /\ in_adm ini (ct_node s) = Ok true /\
  in_fill ini (cn_rows (ct_node s)) (cn_cols (ct_node s)) = Ok B /\ in_comp ini B = Ok l.

(** Relative errors of the blocks carry over to the matrix, whatever the layout, depth and
    admissibility: with |B - l|^2 <= c |B|^2 for every compressed block, |F - M|^2 <= c |F|^2. *)
Lemma relative_error : forall (ini : initializer Rring), shapely ini ->
  forall fuel rows cols bm bn nleaf t M F c,
  (1 <= bm)%Z -> (1 <= bn)%Z -> cluster_tree fuel rows cols bm bn nleaf = Ok t -> regular t ->
  hierarchical ini fuel rows cols bm bn nleaf = Ok M -> windows_of ini rows cols F -> 0 <= c ->
  (forall s B l, compressed ini t s B l ->
     sumsq (R := Rring) (d_r B) (d_c B) (fun i j => d_e B i j - lr_ent l i j) <=
     c * sumsq (R := Rring) (d_r B) (d_c B) (d_e B)) ->
  off_by rows cols F M <= c * frob2 rows cols F.
Proof.
  intros ini SH fuel rows cols bm bn nleaf t M F c Hm Hn Ht Hr HM HF Hc HC.
  pose proof (fills_of ini SH F fuel rows cols bm bn nleaf t M Hm Hn Ht Hr HM HF) as FO.
  destruct (construct_near ini SH F F c 0 fuel rows cols bm bn nleaf t M) as [_ [_ [_ G]]]; auto; [lra| |].
  - intros s Hs B l Ha Hf Hl. rewrite Rmult_0_l, Rplus_0_r.
    rewrite <- (sumsq_ext (R := Rring) _ _ _ _ (FO s Hs B Hf)). apply (HC s). repeat split; auto.
  - unfold near in G. rewrite Rmult_0_l, Rplus_0_r in G. rewrite off_by_win, frob2_win. exact G.
Qed.

Theorem C73_relative_error : forall (ini : initializer Rring), shapely ini ->
  forall fuel rows cols bm bn nleaf t M F c,
  (1 <= bm)%Z -> (1 <= bn)%Z -> cluster_tree fuel rows cols bm bn nleaf = Ok t -> regular t ->
  hierarchical ini fuel rows cols bm bn nleaf = Ok M -> windows_of ini rows cols F -> 0 <= c ->
  (forall s B l, compressed ini t s B l ->
     sumsq (R := Rring) (d_r B) (d_c B) (fun i j => d_e B i j - lr_ent l i j) <=
     c * sumsq (R := Rring) (d_r B) (d_c B) (d_e B)) ->
  off_by rows cols F M <= c * frob2 rows cols F.
Proof. exact relative_error. Qed.
Print Assumptions C73_relative_error.

(** Compressions at least as good as the blocks of some X make the matrix at least as good
    as X: best approximations of the blocks make a best approximation of the matrix among
    all that have such blocks there (X is free elsewhere). *)
Lemma best_blocks : forall (ini : initializer Rring), shapely ini ->
  forall fuel rows cols bm bn nleaf t M F (X : Z -> Z -> R),
  (1 <= bm)%Z -> (1 <= bn)%Z -> cluster_tree fuel rows cols bm bn nleaf = Ok t -> regular t ->
  hierarchical ini fuel rows cols bm bn nleaf = Ok M -> windows_of ini rows cols F ->
  (forall s B l, compressed ini t s B l ->
     sumsq (R := Rring) (d_r B) (d_c B) (fun i j => d_e B i j - lr_ent l i j) <=
     frob2 (cn_rows (ct_node s)) (cn_cols (ct_node s)) (fun x y => F x y - X x y)) ->
  off_by rows cols F M <= frob2 rows cols (fun x y => F x y - X x y).
Proof.
  intros ini SH fuel rows cols bm bn nleaf t M F X Hm Hn Ht Hr HM HF HC.
  destruct (construct_near ini SH F (fun x y => F x y - X x y) 1 0 fuel rows cols bm bn nleaf t M) as [_ [_ [_ G]]]; auto; [lra|lra| |].
  - intros s Hs B l Ha Hf Hl. rewrite Rmult_0_l, Rplus_0_r, Rmult_1_l.
    destruct SH as [S1 _]. destruct (S1 _ _ _ Hf) as [E1 E2].
    eapply Rle_trans; [apply (HC s B l); repeat split; auto|]. rewrite frob2_win. unfold len. rewrite E1, E2. apply Rle_refl.
  - unfold near in G. rewrite Rmult_0_l, Rplus_0_r, Rmult_1_l in G. rewrite off_by_win, frob2_win. exact G.
Qed.

Theorem C73_best_blocks : forall (ini : initializer Rring), shapely ini ->
  forall fuel rows cols bm bn nleaf t M F (X : Z -> Z -> R),
  (1 <= bm)%Z -> (1 <= bn)%Z -> cluster_tree fuel rows cols bm bn nleaf = Ok t -> regular t ->
  hierarchical ini fuel rows cols bm bn nleaf = Ok M -> windows_of ini rows cols F ->
  (forall s B l, compressed ini t s B l ->
     sumsq (R := Rring) (d_r B) (d_c B) (fun i j => d_e B i j - lr_ent l i j) <=
     frob2 (cn_rows (ct_node s)) (cn_cols (ct_node s)) (fun x y => F x y - X x y)) ->
  off_by rows cols F M <= frob2 rows cols (fun x y => F x y - X x y).
Proof. exact best_blocks. Qed.
Print Assumptions C73_best_blocks.

(** With LowRank(Dense, eps), the constructor used for an accuracy: if no compressed block has
    more than N columns then |F - M|^2 <= N eps^2 |F|^2 + tol^2 rows cols.  The second term
    is for blocks without a column of norm above tol = LAPACKE_dlamch('e'). *)
Lemma eps_error : forall tol eps adm fill,
  (forall r c D, fill r c = Ok D -> d_r D = Z.to_nat (ir_n r) /\ d_c D = Z.to_nat (ir_n c)) ->
  let ini := Init adm fill (lowrank_eps tol eps) in
  forall fuel rows cols bm bn nleaf t M F N,
  (1 <= bm)%Z -> (1 <= bn)%Z -> cluster_tree fuel rows cols bm bn nleaf = Ok t -> regular t ->
  hierarchical ini fuel rows cols bm bn nleaf = Ok M -> windows_of ini rows cols F ->
  (forall s B l, compressed ini t s B l -> (d_c B <= N)%nat) ->
  off_by rows cols F M <=
    INR N * (Q2R eps * Q2R eps) * frob2 rows cols F +
    tol * tol * (INR (Z.to_nat (ir_n rows)) * INR (Z.to_nat (ir_n cols))).
Proof.
  intros tol eps adm fill HS ini fuel rows cols bm bn nleaf t M F N Hm Hn Ht Hr HM HF HN.
  assert (SH : shapely ini).
  { split; [exact HS|]. intros D l Hl. destruct (lowrank_eps_any tol eps D l Hl) as [W [E1 [E2 _]]]. auto. }
  pose proof (fills_of ini SH F fuel rows cols bm bn nleaf t M Hm Hn Ht Hr HM HF) as FO.
  assert (P1 : 0 <= Q2R eps * Q2R eps) by nra.
  destruct (construct_near ini SH F F (INR N * (Q2R eps * Q2R eps)) (tol * tol) fuel rows cols bm bn nleaf t M) as [_ [_ [_ G]]]; auto.
  - apply Rmult_le_pos; auto. apply pos_INR.
  - nra.
  - intros s Hs B l Ha Hf Hl. destruct (lowrank_eps_any tol eps B l Hl) as [_ [_ [_ HE]]].
    rewrite <- (sumsq_ext (R := Rring) _ _ _ _ (FO s Hs B Hf)).
    eapply Rle_trans; [exact HE|]. apply Rplus_le_compat_r. apply Rmult_le_compat_r; [apply sumsq_nonneg|].
    apply Rmult_le_compat_r; auto. apply le_INR. apply (HN s B l). repeat split; auto.
  - rewrite off_by_win, frob2_win. exact G.
Qed.

Theorem C73_eps_error : forall tol eps adm fill,
  (forall r c D, fill r c = Ok D -> d_r D = Z.to_nat (ir_n r) /\ d_c D = Z.to_nat (ir_n c)) ->
  let ini := Init adm fill (lowrank_eps tol eps) in
  forall fuel rows cols bm bn nleaf t M F N,
  (1 <= bm)%Z -> (1 <= bn)%Z -> cluster_tree fuel rows cols bm bn nleaf = Ok t -> regular t ->
  hierarchical ini fuel rows cols bm bn nleaf = Ok M -> windows_of ini rows cols F ->
  (forall s B l, compressed ini t s B l -> (d_c B <= N)%nat) ->
  off_by rows cols F M <=
    INR N * (Q2R eps * Q2R eps) * frob2 rows cols F +
    tol * tol * (INR (Z.to_nat (ir_n rows)) * INR (Z.to_nat (ir_n cols))).
Proof. exact eps_error. Qed.
Print Assumptions C73_eps_error.

(** Hierarchical(Dense, ..., eps) against the given matrix. *)
Lemma dense_eps_error : forall tol eps adm (A : rdense) fuel bm bn nleaf t M N,
  let ini := Init adm (block_fill A) (lowrank_eps tol eps) in
  (1 <= bm)%Z -> (1 <= bn)%Z ->
  cluster_tree fuel (IR 0 (Z.of_nat (d_r A))) (IR 0 (Z.of_nat (d_c A))) bm bn nleaf = Ok t -> regular t ->
  hierarchical_of_dense fuel A adm (lowrank_eps tol eps) bm bn nleaf 0 0 = Ok M ->
  (forall s B l, compressed ini t s B l -> (d_c B <= N)%nat) ->
  nrows M = d_r A /\ ncols M = d_c A /\ wf M /\
  sumsq (R := Rring) (d_r A) (d_c A) (fun i j => d_e A i j - ent M i j) <=
    INR N * (Q2R eps * Q2R eps) * sumsq (R := Rring) (d_r A) (d_c A) (d_e A) +
    tol * tol * (INR (d_r A) * INR (d_c A)).
Proof.
  intros tol eps adm A fuel bm bn nleaf t M N ini Hm Hn Ht Hr HM HN.
  assert (HC : forall D l, lowrank_eps tol eps D = Ok l -> lr_wf l /\ l_r l = d_r D /\ l_c l = d_c D).
  { intros D l Hl. destruct (lowrank_eps_any tol eps D l Hl) as [W [E1 [E2 _]]]. auto. }
  destruct (hierarchical_good ini (of_dense_shapely A adm _ HC) fuel _ _ bm bn nleaf t M Hm Hn Ht Hr HM) as [W [D1 [D2 _]]].
  unfold len in D1, D2. cbn [ir_n] in D1, D2. rewrite Nat2Z.id in D1, D2. do 3 (split; [assumption|]).
  pose proof (eps_error tol eps adm (block_fill A)
    (fun r c D HD => proj1 (of_dense_shapely A adm _ HC) r c D HD) fuel _ _ bm bn nleaf t M
    (fun x y => d_e A (Z.to_nat x) (Z.to_nat y)) N Hm Hn Ht Hr HM) as G.
  lapply G; clear G; [intros G|].
  - specialize (G HN). rewrite off_by_win, frob2_win in G. unfold win, len in G. cbn [ir_start ir_n] in G. rewrite !Nat2Z.id in G.
    rewrite (sumsq_ext (R := Rring) _ _ _ (fun i j => d_e A i j - ent M i j)) in G.
    2:{ intros i j Hi Hj. rewrite !Z.add_0_l, !Nat2Z.id. reflexivity. }
    rewrite (sumsq_ext (R := Rring) _ _ (fun i j => d_e A (Z.to_nat (0 + Z.of_nat i)) (Z.to_nat (0 + Z.of_nat j))) (d_e A)) in G.
    2:{ intros i j Hi Hj. rewrite !Z.add_0_l, !Nat2Z.id. reflexivity. }
    exact G.
  - intros r c D HD _ _ x y Hx Hy. apply (block_fill_ok A r c D HD); auto.
Qed.

Theorem C73_of_dense : forall tol eps adm (A : rdense) fuel bm bn nleaf t M N,
  let ini := Init adm (block_fill A) (lowrank_eps tol eps) in
  (1 <= bm)%Z -> (1 <= bn)%Z ->
  cluster_tree fuel (IR 0 (Z.of_nat (d_r A))) (IR 0 (Z.of_nat (d_c A))) bm bn nleaf = Ok t -> regular t ->
  hierarchical_of_dense fuel A adm (lowrank_eps tol eps) bm bn nleaf 0 0 = Ok M ->
  (forall s B l, compressed ini t s B l -> (d_c B <= N)%nat) ->
  nrows M = d_r A /\ ncols M = d_c A /\ wf M /\
  sumsq (R := Rring) (d_r A) (d_c A) (fun i j => d_e A i j - ent M i j) <=
    INR N * (Q2R eps * Q2R eps) * sumsq (R := Rring) (d_r A) (d_c A) (d_e A) +
    tol * tol * (INR (d_r A) * INR (d_c A)).
Proof. exact dense_eps_error. Qed.
Print Assumptions C73_of_dense.

(** What l2_error reports for it. *)
Lemma dense_l2_error : forall tol eps adm (A : rdense) fuel fuel' bm bn nleaf t M N e,
  let ini := Init adm (block_fill A) (lowrank_eps tol eps) in
  (1 <= bm)%Z -> (1 <= bn)%Z ->
  cluster_tree fuel (IR 0 (Z.of_nat (d_r A))) (IR 0 (Z.of_nat (d_c A))) bm bn nleaf = Ok t -> regular t ->
  hierarchical_of_dense fuel A adm (lowrank_eps tol eps) bm bn nleaf 0 0 = Ok M ->
  (forall s B l, compressed ini t s B l -> (d_c B <= N)%nat) ->
  l2_error fuel' (MD A) M = Ok e ->
  e * e <= INR N * (Q2R eps * Q2R eps) + tol * tol * (INR (d_r A) * INR (d_c A)) * 2 ^ 52.
Proof.
  intros tol eps adm A fuel fuel' bm bn nleaf t M N e ini Hm Hn Ht Hr HM HN He.
  destruct (dense_eps_error tol eps adm A fuel bm bn nleaf t M N Hm Hn Ht Hr HM HN) as [_ [_ [W G]]].
  assert (WA : wf (MD A)) by exact I.
  rewrite (l2_value fuel' (MD A) M e WA W He). cbn [nrows ncols ent]. unfold dbl_eps.
  set (D := sumsq (R := Rring) (d_r A) (d_c A) (fun i j => d_e A i j - ent M i j)) in *.
  set (q := sumsq (R := Rring) (d_r A) (d_c A) (d_e A)) in *.
  assert (PD : 0 <= D) by apply sumsq_nonneg. assert (Pq : 0 <= q) by apply sumsq_nonneg.
  set (c := INR N * (Q2R eps * Q2R eps)) in *. set (d := tol * tol * (INR (d_r A) * INR (d_c A))) in *.
  assert (Pc : 0 <= c) by (apply Rmult_le_pos; [apply pos_INR|nra]).
  assert (Pd : 0 <= d) by (apply Rmult_le_pos; [nra|]; apply Rmult_le_pos; apply pos_INR).
  assert (P52 : 0 < 2 ^ 52) by (apply pow_lt; lra).
  assert (Pi : 0 < / 2 ^ 52) by (apply Rinv_0_lt_compat; exact P52).
  clearbody D q c d.
  assert (E1 : / 2 ^ 52 * 2 ^ 52 = 1) by (apply Rinv_l; lra).
  set (p := 2 ^ 52) in *. set (u := / p) in *. clearbody p u.
  rewrite sqrt_sqrt.
  - apply Rmult_le_reg_r with (q + u); [lra|]. unfold Rdiv. rewrite Rmult_assoc, Rinv_l, Rmult_1_r by lra.
    assert (0 <= c * u) by (apply Rmult_le_pos; lra).
    assert (0 <= d * p) by (apply Rmult_le_pos; lra).
    assert (0 <= d * p * q) by (apply Rmult_le_pos; auto).
    assert (d * p * u = d) by (rewrite Rmult_assoc, (Rmult_comm p u), E1; lra).
    lra.
  - apply Rmult_le_pos; auto. apply Rlt_le. apply Rinv_0_lt_compat. lra.
Qed.

Theorem C73_l2_error : forall tol eps adm (A : rdense) fuel fuel' bm bn nleaf t M N e,
  let ini := Init adm (block_fill A) (lowrank_eps tol eps) in
  (1 <= bm)%Z -> (1 <= bn)%Z ->
  cluster_tree fuel (IR 0 (Z.of_nat (d_r A))) (IR 0 (Z.of_nat (d_c A))) bm bn nleaf = Ok t -> regular t ->
  hierarchical_of_dense fuel A adm (lowrank_eps tol eps) bm bn nleaf 0 0 = Ok M ->
  (forall s B l, compressed ini t s B l -> (d_c B <= N)%nat) ->
  l2_error fuel' (MD A) M = Ok e ->
  e * e <= INR N * (Q2R eps * Q2R eps) + tol * tol * (INR (d_r A) * INR (d_c A)) * 2 ^ 52.
Proof. exact dense_l2_error. Qed.
Print Assumptions C73_l2_error.

(** Hierarchical(kernel, ..., eps) for the kernels of functions.cpp that depend on the position
    only, against the Dense built from the same kernel. *)
Lemma kernel_eps_error : forall k x tol eps adm fuel rows cols bm bn nleaf t M FD N,
  let ini := kernel_init k x adm (lowrank_eps tol eps) in
  positional k = true -> (0 <= ir_start rows)%Z -> (0 <= ir_start cols)%Z -> (1 <= bm)%Z -> (1 <= bn)%Z ->
  cluster_tree fuel rows cols bm bn nleaf = Ok t -> regular t ->
  hierarchical ini fuel rows cols bm bn nleaf = Ok M ->
  kernel_fill k x (Z.to_nat (ir_n rows)) (Z.to_nat (ir_n cols)) (Z.to_nat (ir_start rows)) (Z.to_nat (ir_start cols)) = Ok FD ->
  (forall s B l, compressed ini t s B l -> (d_c B <= N)%nat) ->
  nrows M = d_r FD /\ ncols M = d_c FD /\
  sumsq (R := Rring) (d_r FD) (d_c FD) (fun i j => d_e FD i j - ent M i j) <=
    INR N * (Q2R eps * Q2R eps) * sumsq (R := Rring) (d_r FD) (d_c FD) (d_e FD) +
    tol * tol * (INR (d_r FD) * INR (d_c FD)).
Proof.
  intros k x tol eps adm fuel rows cols bm bn nleaf t M FD N ini Hk Hr0 Hc0 Hm Hn Ht Hr HM HFD HN.
  assert (HC : forall D l, lowrank_eps tol eps D = Ok l -> lr_wf l /\ l_r l = d_r D /\ l_c l = d_c D).
  { intros D l Hl. destruct (lowrank_eps_any tol eps D l Hl) as [W [E1 [E2 _]]]. auto. }
  pose proof (kernel_init_shapely k x adm _ HC) as SH.
  destruct (hierarchical_good ini SH fuel rows cols bm bn nleaf t M Hm Hn Ht Hr HM) as [_ [D1 [D2 _]]].
  destruct (kernel_fill_inv _ _ _ _ _ _ _ HFD) as [F1 [F2 _]].
  split; [unfold len in D1; congruence|]. split; [unfold len in D2; congruence|].
  pose proof (eps_error tol eps adm (kernel_block k x) (fun r c D HD => proj1 SH r c D HD) fuel rows cols bm bn nleaf t M _ N
    Hm Hn Ht Hr HM (kernel_init_windows k x adm _ rows cols FD Hk Hr0 Hc0 HFD) HN) as G.
  rewrite off_by_win, frob2_win in G. unfold len in G. rewrite <- F1, <- F2 in G.
  rewrite (sumsq_ext (R := Rring) _ _ _ (fun i j => d_e FD i j - ent M i j)) in G.
  2:{ intros i j Hi Hj. unfold win. replace (pos rows (ir_start rows + Z.of_nat i)) with i by (unfold pos; lia).
      replace (pos cols (ir_start cols + Z.of_nat j)) with j by (unfold pos; lia). reflexivity. }
  rewrite (sumsq_ext (R := Rring) _ _ (win (fun a b => d_e FD (pos rows a) (pos cols b)) rows cols) (d_e FD)) in G; [exact G|].
  intros i j Hi Hj. unfold win. replace (pos rows (ir_start rows + Z.of_nat i)) with i by (unfold pos; lia).
  replace (pos cols (ir_start cols + Z.of_nat j)) with j by (unfold pos; lia). reflexivity.
Qed.

Theorem C73_kernels : forall k x tol eps adm fuel rows cols bm bn nleaf t M FD N,
  let ini := kernel_init k x adm (lowrank_eps tol eps) in
  positional k = true -> (0 <= ir_start rows)%Z -> (0 <= ir_start cols)%Z -> (1 <= bm)%Z -> (1 <= bn)%Z ->
  cluster_tree fuel rows cols bm bn nleaf = Ok t -> regular t ->
  hierarchical ini fuel rows cols bm bn nleaf = Ok M ->
  kernel_fill k x (Z.to_nat (ir_n rows)) (Z.to_nat (ir_n cols)) (Z.to_nat (ir_start rows)) (Z.to_nat (ir_start cols)) = Ok FD ->
  (forall s B l, compressed ini t s B l -> (d_c B <= N)%nat) ->
  nrows M = d_r FD /\ ncols M = d_c FD /\
  sumsq (R := Rring) (d_r FD) (d_c FD) (fun i j => d_e FD i j - ent M i j) <=
    INR N * (Q2R eps * Q2R eps) * sumsq (R := Rring) (d_r FD) (d_c FD) (d_e FD) +
    tol * tol * (INR (d_r FD) * INR (d_c FD)).
Proof. exact kernel_eps_error. Qed.
Print Assumptions C73_kernels.

(** The factor N cannot be dropped: for every accuracy 1/k there is a matrix, the identity of
    order k^2, which the construction replaces by zero if it is admissible. *)
Lemma all_lost : forall tol k, 0 <= tol < 1 -> (1 <= k)%nat ->
  let n := (k * k)%nat in
  exists M, hierarchical_of_dense 2 (reye n) (fun _ => Ok true) (lowrank_eps tol (1 # Pos.of_nat k)) 1 1 (Z.of_nat n) 0 0 = Ok M /\
    nrows M = n /\ ncols M = n /\ (forall i j, (i < n)%nat -> (j < n)%nat -> ent M i j = 0).
Proof.
  intros tol k HT Hk n. assert (Pn : (0 < n)%nat) by (subst n; nia).
  assert (Q1 : Q2R (1 # Pos.of_nat k) = / INR k).
  { unfold Q2R. cbn [Qnum Qden]. rewrite INR_IZR_INZ. replace (Z.pos (Pos.of_nat k)) with (Z.of_nat k); [lra|].
    rewrite <- (Nat2Pos.id k) at 1 by lia. apply positive_nat_Z. }
  assert (Pk : 0 < INR k) by (apply lt_0_INR; lia).
  destruct (truncated_geqp3_eye tol (Q2R (1 # Pos.of_nat k)) n Pn (proj2 HT)) as [Q [P [E [E1 E2]]]].
  { rewrite Q1. unfold n. rewrite mult_INR, sqrt_square by lra. rewrite Rinv_l by lra. apply Rle_refl. }
  destruct (lowrank_eps_total tol (1 # Pos.of_nat k) (reye n) (Q, P) E Pn Pn) as [l Hl].
  assert (Hl0 : l_rank l = 0%nat /\ d_c (l_U l) = 0%nat /\ l_r l = n /\ l_c l = n).
  { unfold lowrank_eps in Hl. rewrite E in Hl. cbn [bind] in Hl. apply bind_Ok in Hl.
    destruct Hl as [[[X S1] V] [_ Hl]]. inversion Hl; subst l. cbn. auto. }
  destruct Hl0 as [_ [U0 [L1 L2]]].
  assert (SP : ir_split (IR 0 (Z.of_nat n)) 1 = [IR 0 (Z.of_nat n)]).
  { unfold ir_split. change (Z.to_nat 1) with 1%nat. cbn [seq map]. f_equal.
    unfold ir_split_child. cbn [ir_start ir_n Z.of_nat]. change (0 =? 1 - 1)%Z with true. cbv iota zeta. f_equal; lia. }
  unfold hierarchical_of_dense, hierarchical, cluster_tree. cbn [d_r d_c reye].
  set (nd := root_node _ _ _ _ _).
  assert (EC : child_node nd (0%nat, 0%nat) = CN (IR 0 (Z.of_nat n)) (IR 0 (Z.of_nat n)) 1 1 (Z.of_nat n) 1 0 0 0 0).
  { unfold child_node, nd, root_node. cbn [fst snd cn_rows cn_cols cn_bm cn_bn]. rewrite SP. reflexivity. }
  set (ch := CN (IR 0 (Z.of_nat n)) (IR 0 (Z.of_nat n)) 1 1 (Z.of_nat n) 1 0 0 0 0) in *.
  assert (LC : is_leaf ch = true).
  { unfold is_leaf, ch. cbn [cn_rows cn_cols cn_nleaf ir_n]. rewrite Z.leb_refl. reflexivity. }
  assert (EB : ct_build 2 nd true = Ok (CT nd [CT ch []])).
  { cbn [ct_build orb]. change (block_positions (cn_bm nd) (cn_bn nd)) with [(0%nat, 0%nat)].
    cbn [mapM]. rewrite EC, LC. reflexivity. }
  rewrite EB. cbn [bind].
  assert (EF : block_fill (reye n) (IR 0 (Z.of_nat n)) (IR 0 (Z.of_nat n)) = Ok (reye n)).
  { unfold block_fill. cbn [ir_n ir_start reye d_r d_c d_e]. rewrite Nat2Z.id.
    replace ((0 <=? 0) && (0 + Z.of_nat n <=? Z.of_nat n) && (0 <=? 0) && (0 + Z.of_nat n <=? Z.of_nat n))%Z with true.
    - rewrite orb_true_r. reflexivity.
    - symmetry. rewrite Z.add_0_l, !Z.leb_refl. reflexivity. }
  exists (MH 1 1 (bupd (fun _ _ => ME 0 0) 0 0 (ML l))).
  split.
  - cbn [hier]. unfold hblock, get_compressed, get_dense. cbn [in_adm in_fill in_comp ct_node bind].
    replace ((0 <=? ir_n (cn_rows ch)) && (0 <=? ir_n (cn_cols ch)))%Z with true
      by (symmetry; unfold ch; cbn [cn_rows cn_cols ir_n]; apply andb_true_intro; split; apply Z.leb_le; lia).
    change (cn_rows ch) with (IR 0 (Z.of_nat n)). change (cn_cols ch) with (IR 0 (Z.of_nat n)).
    rewrite EF. cbn [bind]. rewrite Hl. reflexivity.
  - rewrite nrows_MH, ncols_MH. cbn [offs]. unfold bheight, bwidth, bupd. cbn [Nat.eqb andb nrows ncols Nat.add].
    split; [exact L1|]. split; [exact L2|]. intros i j Hi Hj.
    change i with (offs (bheight (bupd (fun _ _ => ME 0 0) 0 0 (ML l))) 0 + i)%nat at 1.
    change j with (offs (bwidth (bupd (fun _ _ => ME 0 0) 0 0 (ML l))) 0 + j)%nat at 1.
    rewrite ent_block; try (unfold bheight, bwidth, bupd; cbn [Nat.eqb andb nrows ncols]; lia).
    unfold bupd. cbn [Nat.eqb andb ent]. unfold lr_ent. rewrite U0. reflexivity.
Qed.

Theorem C73_eps_alone_refuted : forall tol k, 0 <= tol < 1 -> (1 <= k)%nat ->
  let n := (k * k)%nat in
  exists M, hierarchical_of_dense 2 (reye n) (fun _ => Ok true) (lowrank_eps tol (1 # Pos.of_nat k)) 1 1 (Z.of_nat n) 0 0 = Ok M /\
    nrows M = n /\ ncols M = n /\ (forall i j, (i < n)%nat -> (j < n)%nat -> ent M i j = 0).
Proof. exact all_lost. Qed.
Print Assumptions C73_eps_alone_refuted.

(** Any 4 x 6 matrix in 2 x 2 blocks, off-diagonal ones compressed with accuracy 1/2. *)
Example C73_ex : forall (a : mat Rring),
  let A : rdense := Dn 4 6 a in
  let adm := fun nd => Ok (negb (cn_irel nd =? cn_jrel nd)%Z) in
  exists M, hierarchical_of_dense 3 A adm (lowrank_eps (/ 1000) (1 # 2)) 2 2 3 0 0 = Ok M /\
    sumsq (R := Rring) 4 6 (fun i j => a i j - ent M i j) <=
    3 / 4 * sumsq (R := Rring) 4 6 a + 24 / 1000000.
Proof.
  intros a A adm.
  destruct (cluster_tree 3 (IR 0 4) (IR 0 6) 2 2 3) as [t| | | |] eqn:Ht; try (vm_compute in Ht; discriminate).
  pose proof Ht as Ht'. vm_compute in Ht'. inversion Ht' as [Et]. clear Ht'.
  assert (Hreg : regular t).
  { rewrite <- Et. intros s Hs. cbn in Hs. repeat (destruct Hs as [<-|Hs]; [cbn; lia|]). destruct Hs. }
  set (ini := Init adm (block_fill A) (lowrank_eps (/ 1000) (1 # 2))).
  assert (CS : forall s, In s (ct_nodes t) -> s <> t -> ir_n (cn_rows (ct_node s)) = 2%Z /\ ir_n (cn_cols (ct_node s)) = 3%Z).
  { intros s Hs Hn. rewrite <- Et in Hs, Hn. cbn in Hs. destruct Hs as [<-|Hs]; [contradiction Hn; reflexivity|].
    repeat (destruct Hs as [<-|Hs]; [cbn; auto|]). destruct Hs. }
  destruct (hier_total ini 3 (root_node (IR 0 4) (IR 0 6) 2 2 3) true t Ht Hreg) as [M HM].
  { intros s _. eexists. reflexivity. }
  { intros s Hs Hn. destruct (CS s Hs Hn) as [E1 E2].
    destruct (block_fill A (cn_rows (ct_node s)) (cn_cols (ct_node s))) as [D| | | |] eqn:HD.
    - exists D. split; auto. destruct (block_fill_ok A _ _ D HD) as [D1 [D2 _]].
      destruct (lowrank_returns (/ 1000) (1 # 2) D) as [_ G]; [rewrite D1, E1; cbn; lia|rewrite D2, E2; cbn; lia|].
      apply G. rewrite D1, D2, E1, E2. cbn. lia.
    - exfalso. revert HD. rewrite <- Et in Hs, Hn. cbn in Hs. destruct Hs as [<-|Hs]; [contradiction Hn; reflexivity|].
      repeat (destruct Hs as [<-|Hs]; [vm_compute; discriminate|]). destruct Hs.
    - exfalso. revert HD. rewrite <- Et in Hs, Hn. cbn in Hs. destruct Hs as [<-|Hs]; [contradiction Hn; reflexivity|].
      repeat (destruct Hs as [<-|Hs]; [vm_compute; discriminate|]). destruct Hs.
    - exfalso. revert HD. rewrite <- Et in Hs, Hn. cbn in Hs. destruct Hs as [<-|Hs]; [contradiction Hn; reflexivity|].
      repeat (destruct Hs as [<-|Hs]; [vm_compute; discriminate|]). destruct Hs.
    - exfalso. revert HD. rewrite <- Et in Hs, Hn. cbn in Hs. destruct Hs as [<-|Hs]; [contradiction Hn; reflexivity|].
      repeat (destruct Hs as [<-|Hs]; [vm_compute; discriminate|]). destruct Hs. }
  exists M.
  assert (HO : hierarchical_of_dense 3 A adm (lowrank_eps (/ 1000) (1 # 2)) 2 2 3 0 0 = Ok M).
  { unfold hierarchical_of_dense, hierarchical. change (Z.of_nat (d_r A)) with 4%Z. change (Z.of_nat (d_c A)) with 6%Z.
    rewrite Ht. exact HM. }
  split; [exact HO|].
  destruct (dense_eps_error (/ 1000) (1 # 2) adm A 3 2 2 3 t M 3) as [_ [_ [_ G]]]; auto; try lia.
  - intros s B l [Hs [_ [Hf _]]]. cbn [in_fill] in Hf. destruct (block_fill_ok A _ _ B Hf) as [_ [D2 _]].
    assert (Hk : In s (ct_nodes t) /\ s <> t).
    { destruct Hs as [k [Hk Hs]]. rewrite <- Et in Hk |- *. cbn in Hk.
      repeat (destruct Hk as [<-|Hk]; [inversion Hs; subst; [cbn; split; [tauto|discriminate]|cbn in *; contradiction]|]).
      destruct Hk. }
    rewrite D2. destruct (CS s (proj1 Hk) (proj2 Hk)) as [_ ->]. cbn. lia.
  - cbn [d_r d_c d_e A] in G. eapply Rle_trans; [exact G|]. rewrite Q2R_half.
    replace (INR 3) with 3 by (cbn; lra). replace (INR 4) with 4 by (cbn; lra). replace (INR 6) with 6 by (cbn; lra). lra.
Qed.
