(** C83: block modified Gram-Schmidt QR of a BLR matrix with truncating low-rank arithmetic: a
    bound on the residual, and how far the block columns of Q are from orthonormal. *)
From Coq Require Import List Arith ZArith QArith Qreals Lia Bool Reals Lra String Ring_theory Ring.
From Verif Require Import Prelude Ring MatFun MatSetoid Matrix MatOps MatSpec MatOpsProofs Lapack LowRankAdd Gemm GemmSpec
  GemmProofs GemmTheorems Triangular TriSpec Reflect ReflectSpec SvdRank HouseReal Rrqr RrqrLr RealLapack Prop_RealAdd Prop_FixedRank
  FroNorm ReflectProofs QrErrTile QrErrReal Sampled SampledTheorems Mgs MgsProofs MgsNested MgsTheorems LuErr MgsErr.
From Verif Require Prop_QrError.
Import ListNotations.
Local Open Scope R_scope.

(** [mgs_pre p q a b r]: the block structures of A, Q and R match and R is zero below its
    diagonal blocks (as in C37).  Here all blocks are tiles: those of A and Q are Dense, or
    LowRank with accuracy e, at least one column in their factors and orthonormal left bases
    ([good]); R has Dense diagonal tiles.  nb bounds the sides of the tiles. *)
Definition mgs_flat (e : Q) (nb p q : nat) (a b r : nat -> nat -> matrix) : Prop :=
  (forall i k, (i < p)%nat -> (k < q)%nat -> good e (a i k) /\ good e (b i k) /\ (nrows (a i k) <= nb)%nat /\ (ncols (a i k) <= nb)%nat) /\
  (forall i k, (i <= k)%nat -> (k < q)%nat -> flat (r i k)) /\
  (forall j, (j < q)%nat -> exists d, r j j = MD d).

(** The relative error of an operation with relative accuracy u, and what tau adds. *)
Definition mgs_rate (u : R) : R := (2 * u + u * u) / (1 - (2 * u + u * u)).
Definition mgs_extra (u tau : R) : R := (1 + u) * tau / (1 - (2 * u + u * u)).

(** |A - Q R| *)
Definition mgs_bound (u tau : R) (p q : nat) (fQ fR : R) : R :=
  ((1 + mgs_rate u) ^ q - 1) * (fQ * fR) + sqrt (INR p * INR q) * (mgs_extra u tau * (1 + mgs_rate u) ^ q * (fR + INR q)).

Lemma mgs_flat_err e u tau nb (Or : oracles Rring) : Qeq_bool e 0 = false -> 0 <= u -> 2 * u + u * u < 1 -> 0 <= tau -> accurate e u tau nb Or ->
  forall L : lapack Rring, lapack_sound L ->
  forall gfuel fuel p q (a b r : nat -> nat -> matrix) A' Q' R', mgs_pre p q a b r -> mgs_flat e nb p q a b r ->
  mgs_qr L Or gfuel fuel (MH p q a) (MH p q b) (MH q q r) = Ok (A', Q', R') ->
  let N := nrows (MH p q a) in let n := ncols (MH p q a) in
  wf Q' /\ nrows Q' = N /\ ncols Q' = n /\ wf R' /\ nrows R' = n /\ ncols R' = n /\
  (forall j, (j < q)%nat -> exists X : mat, orth_cols (R := Rring) N (ncols (a 0%nat j)) X /\
    let B := block_col a j (ent Q') in
    fro N (ncols (a 0%nat j)) (msub B X) <= mgs_rate u * fro N (ncols (a 0%nat j)) B + sqrt (INR p) * mgs_extra u tau) /\
  fro N n (msub (ent (MH p q a)) (mmul n (ent Q') (ent R'))) <= mgs_bound u tau p q (fro N n (ent Q')) (fro n n (ent R')).
Proof.
  intros He Hu Hu2 Ht HA L HL gfuel fuel p q a b r A' Q' R' HP [F1 [F2 F3]] H N n.
  destruct (mgs_pre_tiles _ _ _ _ _ HP) as [Hp [Hq [TA TB]]]. destruct HP as [_ [_ [_ [_ [RS [EW _]]]]]].
  assert (U2 : 0 <= u * u) by (apply Rmult_le_pos; lra).
  pose proof (mgs_grid_err e u tau nb He ltac:(lra) Ht Or HA (mgs_rate u) (mgs_extra u tau) Hu2
    ltac:(unfold mgs_rate; right; field; lra) ltac:(unfold mgs_extra; right; field; lra) L HL gfuel p q (bheight a) (bwidth a) Hp) as G.
  specialize (G ltac:(intros i Hi; destruct (TA i 0%nat Hi Hq) as [_ [<- _]]; apply F1; auto)).
  specialize (G ltac:(intros k Hk; destruct (TA 0%nat k Hp Hk) as [_ [_ <-]]; apply F1; auto) Hq).
  specialize (G fuel a b r A' Q' R' TA TB ltac:(intros i k Hi Hk; apply F1; auto) ltac:(intros i k Hi Hk; apply F1; auto) RS EW F2 F3 H).
  exact G.
Qed.

Theorem C83_residual : forall e u tau nb (Or : oracles Rring), Qeq_bool e 0 = false -> 0 <= u -> 2 * u + u * u < 1 -> 0 <= tau -> accurate e u tau nb Or ->
  forall L : lapack Rring, lapack_sound L ->
  forall gfuel fuel p q (a b r : nat -> nat -> matrix) A' Q' R', mgs_pre p q a b r -> mgs_flat e nb p q a b r ->
  mgs_qr L Or gfuel fuel (MH p q a) (MH p q b) (MH q q r) = Ok (A', Q', R') ->
  let N := nrows (MH p q a) in let n := ncols (MH p q a) in
  wf Q' /\ nrows Q' = N /\ ncols Q' = n /\ wf R' /\ nrows R' = n /\ ncols R' = n /\
  fro N n (msub (ent (MH p q a)) (mmul n (ent Q') (ent R'))) <= mgs_bound u tau p q (fro N n (ent Q')) (fro n n (ent R')).
Proof.
  intros e u tau nb Or He Hu Hu2 Ht HA L HL gfuel fuel p q a b r A' Q' R' HP HF H N n.
  destruct (mgs_flat_err e u tau nb Or He Hu Hu2 Ht HA L HL gfuel fuel p q a b r A' Q' R' HP HF H) as [H1 [H2 [H3 [H4 [H5 [H6 [_ H8]]]]]]].
  auto 10.
Qed.
Print Assumptions C83_residual.

(** Each block column of Q is close to a matrix with orthonormal columns. *)
Theorem C83_block_columns : forall e u tau nb (Or : oracles Rring), Qeq_bool e 0 = false -> 0 <= u -> 2 * u + u * u < 1 -> 0 <= tau -> accurate e u tau nb Or ->
  forall L : lapack Rring, lapack_sound L ->
  forall gfuel fuel p q (a b r : nat -> nat -> matrix) A' Q' R', mgs_pre p q a b r -> mgs_flat e nb p q a b r ->
  mgs_qr L Or gfuel fuel (MH p q a) (MH p q b) (MH q q r) = Ok (A', Q', R') ->
  let N := nrows (MH p q a) in
  forall j, (j < q)%nat -> let c := ncols (a 0%nat j) in let B := block_col a j (ent Q') in
  exists X : mat, orth_cols (R := Rring) N c X /\ fro N c (msub B X) <= mgs_rate u * fro N c B + sqrt (INR p) * mgs_extra u tau.
Proof.
  intros e u tau nb Or He Hu Hu2 Ht HA L HL gfuel fuel p q a b r A' Q' R' HP HF H N.
  apply (mgs_flat_err e u tau nb Or He Hu Hu2 Ht HA L HL gfuel fuel p q a b r A' Q' R' HP HF H).
Qed.
Print Assumptions C83_block_columns.

Lemma mgs_rate_pos u : 0 <= u -> 2 * u + u * u < 1 -> 0 <= mgs_rate u.
Proof.
  intros H1 H2. assert (0 <= u * u) by (apply Rmult_le_pos; auto). apply Rmult_le_pos; [lra|]. left. apply Rinv_0_lt_compat. lra.
Qed.
Lemma mgs_extra_pos u tau : 0 <= u -> 2 * u + u * u < 1 -> 0 <= tau -> 0 <= mgs_extra u tau.
Proof.
  intros H1 H2 H3. apply Rmult_le_pos; [apply Rmult_le_pos; lra|]. left. apply Rinv_0_lt_compat. lra.
Qed.

(** With q * v at most 1 the bound grows linearly with the number of block columns. *)
Lemma mgs_bound_small u tau p q fQ fR : 0 <= u -> 2 * u + u * u < 1 -> 0 <= tau -> 0 <= fQ -> 0 <= fR -> INR q * mgs_rate u <= 1 ->
  mgs_bound u tau p q fQ fR <= 2 * (INR q * mgs_rate u) * (fQ * fR) + sqrt (INR p * INR q) * (3 * mgs_extra u tau * (fR + INR q)).
Proof.
  intros Hu H2 Ht HQ HR H. pose proof (mgs_rate_pos u Hu H2) as V. pose proof (mgs_extra_pos u tau Hu H2 Ht) as X.
  pose proof (Prop_QrError.pow_small (mgs_rate u) q V H) as P. pose proof (Rmult_le_pos _ _ (pos_INR q) V) as Y.
  assert (S : INR q * mgs_rate u * (INR q * mgs_rate u) <= INR q * mgs_rate u * 1) by (apply Rmult_le_compat_l; auto).
  unfold mgs_bound. apply Rplus_le_compat.
  - apply Rmult_le_compat_r; [apply Rmult_le_pos; auto|lra].
  - apply Rmult_le_compat_l; [apply sqrt_pos|]. apply Rmult_le_compat_r; [pose proof (pos_INR q); lra|].
    rewrite (Rmult_comm 3). apply Rmult_le_compat_l; [auto|lra].
Qed.

(** The arithmetic of the program over the reals (addition.cpp:93-201, geqp3.cpp): u = sqrt nb * e
    and tau = tol * nb, where tol stands for the machine epsilon. *)
Theorem C83_real : forall setting rn tol e nb, setting <> "naive"%string -> Qeq_bool e 0 = false -> 0 <= Q2R e -> 0 <= tol -> (0 < nb)%nat ->
  let Or := real_arith setting rn tol in
  let u := sqrt (INR nb) * Q2R e in let tau := tol * INR nb in
  2 * u + u * u < 1 ->
  forall gfuel fuel p q (a b r : nat -> nat -> matrix) A' Q' R', mgs_pre p q a b r -> mgs_flat e nb p q a b r ->
  mgs_qr real_lapack Or gfuel fuel (MH p q a) (MH p q b) (MH q q r) = Ok (A', Q', R') ->
  let N := nrows (MH p q a) in let n := ncols (MH p q a) in
  let err := fro N n (msub (ent (MH p q a)) (mmul n (ent Q') (ent R'))) in
  let fQ := fro N n (ent Q') in let fR := fro n n (ent R') in
  err <= mgs_bound u tau p q fQ fR /\
  (INR q * mgs_rate u <= 1 -> err <= 2 * (INR q * mgs_rate u) * (fQ * fR) + sqrt (INR p * INR q) * (3 * mgs_extra u tau * (fR + INR q))) /\
  (forall j, (j < q)%nat -> let c := ncols (a 0%nat j) in let B := block_col a j (ent Q') in
    exists X : mat, orth_cols (R := Rring) N c X /\ fro N c (msub B X) <= mgs_rate u * fro N c B + sqrt (INR p) * mgs_extra u tau).
Proof.
  intros setting rn tol e nb NS He E0 T0 Hn Or u tau Hu2 gfuel fuel p q a b r A' Q' R' HP HF H N n err fQ fR.
  assert (U0 : 0 <= u) by (apply Rmult_le_pos; auto; apply sqrt_pos).
  assert (T1 : 0 <= tau) by (apply Rmult_le_pos; auto; apply pos_INR).
  destruct (mgs_flat_err e u tau nb Or He U0 Hu2 T1 (real_accurate setting rn tol e nb NS He E0 T0 Hn) real_lapack
    (lapack_ok_sound _ real_lapack_ok real_lapack_orth) gfuel fuel p q a b r A' Q' R' HP HF H) as [_ [_ [_ [_ [_ [_ [H7 H8]]]]]]].
  split; [exact H8|]. split; [|exact H7]. intros Hs. eapply Rle_trans; [exact H8|]. apply mgs_bound_small; auto; apply fro_nonneg.
Qed.
Print Assumptions C83_real.

(** Tiles of 1 x 2 with an addition that keeps nine tenths of the sum, and identities for the Q
    of square matrices.  The first block row of A and of Q is LowRank. *)
Definition row (x y : R) : dense := @Dn Rring 1 2 (fun _ j => match j with O => x | _ => y end).
Definition lrow (x y : R) : lowrank := @Lr Rring 1 2 1 (1 # 10) (@Dn Rring 1 1 (fun _ _ => 1)) (@Dn Rring 1 1 (fun _ _ => 1)) (row x y).
Definition lossy : oracles Rring := {|
  lr_add := fun a b =>
    if (l_r a =? 1)%nat && (l_c a =? 2)%nat
    then let s := fun j => 9 / 10 * (lr_ent (R := Rring) a 0%nat j + lr_ent (R := Rring) b 0%nat j) in Ok (lrow (s 0%nat) (s 1%nat)) else Abort;
  crank := fun _ _ => Abort;
  ceps := fun (d : dense) _ => if (d_r d =? 1)%nat && (d_c d =? 2)%nat then Ok (lrow (d_e (R := Rring) d 0%nat 0%nat) (d_e (R := Rring) d 0%nat 1%nat)) else Abort |}.
Definition square_qr : lapack Rring := Lapack (R := Rring)
  (fun A => if (d_r A =? d_c A)%nat then Ok (eye (d_r A), A) else Abort) (fun _ => Abort) (fun _ => Abort) (fun _ _ => 0%nat).
Definition a83 : nat -> nat -> matrix := fun i j => match i, j with
  | O, O => ML (lrow 10 0) | O, _ => ML (lrow 0 100) | _, O => MD (row 0 2) | _, _ => MD (row 3 4) end.
Definition r83 : nat -> nat -> matrix := fun _ _ => MD (d_zeros 2 2).
Definition run83 := mgs_qr square_qr lossy 2 2 (MH 2 2 a83) (MH 2 2 a83) (MH 2 2 r83).
Definition the3 (o : outcome (matrix * matrix * matrix)) := match o with Ok x => x | _ => (ME 0 0, ME 0 0, ME 0 0) end.
Lemma the3_ok o : (match o with Ok _ => true | _ => false end) = true -> o = Ok (fst (fst (the3 o)), snd (fst (the3 o)), snd (the3 o)).
Proof. destruct o as [[[A Q] Rm]| | | |]; try discriminate. reflexivity. Qed.

Lemma lrow_good x y : good (1 # 10) (ML (lrow x y)).
Proof.
  unfold good. split; [reflexivity|]. cbn [lrow l_r l_c l_S d_c]. repeat (split; [lia|]). unfold ReflectSpec.orthU. split; [reflexivity|].
  intros i j Hi Hj. cbn in Hi, Hj. replace i with 0%nat by lia. replace j with 0%nat by lia. cbn. lra.
Qed.
Lemma lrow_ent x y j : (j < 2)%nat -> lr_ent (R := Rring) (lrow x y) 0%nat j = match j with O => x | _ => y end.
Proof. intros Hj. destruct j as [|[|j]]; [| |lia]; cbn; lra. Qed.

Lemma lossy_ok : accurate (1 # 10) (1 / 10) 0 2 lossy.
Proof.
  assert (K : forall a b c, lr_add lossy a b = Ok c -> l_r a = 1%nat /\ l_c a = 2%nat /\
     let s := fun j => 9 / 10 * (lr_ent (R := Rring) a 0%nat j + lr_ent (R := Rring) b 0%nat j) in c = lrow (s 0%nat) (s 1%nat)).
  { intros a b c H. cbn [lossy lr_add] in H. destruct (l_r a =? 1)%nat eqn:E1; [|discriminate]. destruct (l_c a =? 2)%nat eqn:E2; [|discriminate].
    inversion H. apply Nat.eqb_eq in E1, E2. auto. }
  assert (KE : forall d e c, ceps lossy d e = Ok c -> d_r d = 1%nat /\ d_c d = 2%nat /\ c = lrow (d_e (R := Rring) d 0%nat 0%nat) (d_e (R := Rring) d 0%nat 1%nat)).
  { intros d e c H. cbn [lossy ceps] in H. destruct (d_r d =? 1)%nat eqn:E1; [|discriminate]. destruct (d_c d =? 2)%nat eqn:E2; [|discriminate].
    inversion H. apply Nat.eqb_eq in E1, E2. auto. }
  split.
  - split; [|discriminate|].
    + intros a b c _ _ _ _ H. destruct (K a b c H) as [-> [-> ->]]. split; [repeat split|]; auto.
    + intros d e c H. destruct (KE d e c H) as [-> [-> ->]]. split; [repeat split|]; auto.
  - intros a b c _ _ _ _ _ H. destruct (K a b c H) as [-> [-> ->]]. split; [apply lrow_good|].
    rewrite <- (TrmmErr.fro_scal 1 2 (1 / 10)) by lra. right.
    rewrite <- fro_opp. apply fro_ext. intros i j Hi Hj. replace i with 0%nat by lia.
    unfold MatFun.msub, MatFun.madd, mzero. rewrite lrow_ent by auto.
    destruct j as [|[|j]]; [| |lia]; [set (x := lr_ent a 0%nat 0%nat); set (y := lr_ent b 0%nat 0%nat)|set (x := lr_ent a 0%nat 1%nat); set (y := lr_ent b 0%nat 1%nat)]; cbn; lra.
  - intros d c D1 D2 H. destruct (KE d _ c H) as [E1 [E2 ->]]. rewrite E1, E2. rewrite fro_sub0.
    + apply Rplus_le_le_0_compat; [|lra]. apply Rmult_le_pos; [lra|apply fro_nonneg].
    + intros i j Hi Hj. replace i with 0%nat by lia. rewrite lrow_ent by auto. destruct j as [|[|j]]; [reflexivity|reflexivity|lia].
Qed.

Lemma square_qr_sound : lapack_sound square_qr.
Proof.
  split; [|discriminate]. intros A Q Rf H. cbn [square_qr lp_qr] in H. destruct (d_r A =? d_c A)%nat eqn:E; [|discriminate].
  inversion H; subst Q Rf. apply Nat.eqb_eq in E. unfold is_qr. rewrite <- E, Nat.min_id. cbn [eye d_r d_c d_e]. split.
  - do 4 (split; auto). intros i j Hi Hj. apply (mmul_id_l (R := Rring)); auto.
  - intros i j Hi Hj. rewrite (mmul_id_r (R := Rring)) by auto. unfold mtr, mid. rewrite Nat.eqb_sym. reflexivity.
Qed.

Lemma a83_pre : mgs_pre (R := Rring) 2 2 a83 a83 r83 /\ mgs_flat (1 # 10) 2 2 2 a83 a83 r83.
Proof.
  assert (W : wf (MH 2 2 a83)).
  { simpl. split; [lia|]. split; [lia|]. intros i j Hi Hj. destruct i as [|[|i]], j as [|[|j]]; try lia; repeat split. }
  split.
  - split; auto. split; auto. split; auto. split; auto. split; [|split].
    + split; auto. split; [lia|]. split; [|reflexivity]. intros i j Hi Hj. split; [exact Logic.I|]. split; auto. split; auto.
      intros _ x y _ _. reflexivity.
    + intros j Hj. destruct j as [|[|j]]; [reflexivity|reflexivity|lia].
    + intros j Hj. split; [reflexivity|exact Logic.I].
  - split; [|split].
    + intros i k Hi Hk. assert (G : good (1 # 10) (a83 i k)) by (destruct i as [|[|i]], k as [|[|k]]; try lia; first [exact Logic.I|apply lrow_good]).
      split; auto. split; auto. destruct i as [|[|i]], k as [|[|k]]; try lia; cbn; lia.
    + intros i k _ _. exact Logic.I.
    + intros j _. eexists. reflexivity.
Qed.

(** The run returns; (QR)(0,0) is 9 instead of 10, (QR)(0,3) is 96.39 instead of 100. *)
Example C83_ex : exists A' Q' R', mgs_qr square_qr lossy 2 2 (MH 2 2 a83) (MH 2 2 a83) (MH 2 2 r83) = Ok (A', Q', R') /\
  mmul 4 (ent Q') (ent R') 0%nat 0%nat = 9 /\ mmul 4 (ent Q') (ent R') 0%nat 3%nat = 9639 / 100 /\
  fro 2 4 (msub (ent (MH 2 2 a83)) (mmul 4 (ent Q') (ent R'))) <= ((100 / 79) ^ 2 - 1) * (fro 2 4 (ent Q') * fro 4 4 (ent R')).
Proof.
  assert (K : forall A' Q' R', mgs_qr square_qr lossy 2 2 (MH 2 2 a83) (MH 2 2 a83) (MH 2 2 r83) = Ok (A', Q', R') ->
    mmul 4 (ent Q') (ent R') 0%nat 0%nat = 9 -> mmul 4 (ent Q') (ent R') 0%nat 3%nat = 9639 / 100 ->
    exists A' Q' R', mgs_qr square_qr lossy 2 2 (MH 2 2 a83) (MH 2 2 a83) (MH 2 2 r83) = Ok (A', Q', R') /\
    mmul 4 (ent Q') (ent R') 0%nat 0%nat = 9 /\ mmul 4 (ent Q') (ent R') 0%nat 3%nat = 9639 / 100 /\
    fro 2 4 (msub (ent (MH 2 2 a83)) (mmul 4 (ent Q') (ent R'))) <= ((100 / 79) ^ 2 - 1) * (fro 2 4 (ent Q') * fro 4 4 (ent R'))).
  { intros A' Q' R' H E1 E2. exists A', Q', R'. split; auto. split; auto. split; auto. destruct a83_pre as [HP HF].
    destruct (C83_residual (1 # 10) (1 / 10) 0 2 lossy eq_refl ltac:(lra) ltac:(lra) ltac:(lra) lossy_ok square_qr square_qr_sound
      2 2 2 2 a83 a83 r83 A' Q' R' HP HF H) as [_ [_ [_ [_ [_ [_ B]]]]]].
    change (nrows (MH 2 2 a83)) with 2%nat in B. change (ncols (MH 2 2 a83)) with 4%nat in B.
    eapply Rle_trans; [exact B|]. unfold mgs_bound.
    replace (mgs_rate (1 / 10)) with (21 / 79) by (unfold mgs_rate; field).
    replace (mgs_extra (1 / 10) 0) with 0 by (unfold mgs_extra; field).
    right. replace (1 + 21 / 79) with (100 / 79) by field. ring. }
  apply (K (fst (fst (the3 run83))) (snd (fst (the3 run83))) (snd (the3 run83))).
  - apply the3_ok. vm_compute. reflexivity.
  - vm_compute. change R1 with 1. change R0 with 0. field.
  - vm_compute. change R1 with 1. change R0 with 0. field.
Qed.
