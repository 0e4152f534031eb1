(** The errors of the tiled factorization with truncating low-rank arithmetic, of whole
    matrices. *)
From Coq Require Import List Arith ZArith QArith Lia Bool Reals Lra Ring_theory Ring.
From Verif Require Import Prelude Ring MatFun MatSetoid Matrix MatOps MatSpec MatOpsProofs Lapack Gemm GemmSpec GemmProofs
  GemmCorrect GemmTheorems Triangular TriAlgebra TriSpec TriProofs TriTheorems Reflect ReflectSpec ReflectProofs ReflectTile ReflectSuccess
  QrBig QrTiled QrStep QrApply QrTheorems QrSuccess RealQr SvdRank Householder HouseQr HouseReal Rrqr RrqrRank EckartYoung
  FroNorm QrErrTile QrErrStep QrErrApply QrErrSucc.
Import ListNotations.
Local Open Scope R_scope.

Lemma sumsq_cols N cw q (f : xmat) :
  sumsq (R := Rring) N (offs cw q) f = rsum q (fun j => sumsq (R := Rring) N (cw j) (fun r c => f r (offs cw j + c)%nat)).
Proof.
  rewrite (sumsq_tr (R := Rring)). unfold sumsq at 1. rewrite (sum_offs (R := Rring)). apply (sum_ext (R := Rring)). intros j _.
  rewrite (sumsq_tr (R := Rring)). reflexivity.
Qed.

Lemma fro_cols_err N cw q (f g : xmat) al be : 0 <= al -> 0 <= be ->
  (forall j, (j < q)%nat -> fro N (cw j) (fun r c => f r (offs cw j + c)%nat) <= al * fro N (cw j) (fun r c => g r (offs cw j + c)%nat) + be) ->
  fro N (offs cw q) f <= al * fro N (offs cw q) g + sqrt (INR q) * be.
Proof.
  intros Ha Hb H. set (x := fun j => fro N (cw j) (fun r c => g r (offs cw j + c)%nat)).
  assert (P : forall j, 0 <= x j) by (intros; apply fro_nonneg).
  eapply Rle_trans; [|eapply Rle_trans; [apply (mink_vec q (fun j => al * x j) (fun _ => be)); intros; auto; apply Rmult_le_pos; auto|]].
  - unfold fro at 1. rewrite sumsq_cols. apply sqrt_le_1_alt. apply sum_le. intros j Hj. rewrite <- fro_sq.
    apply Rmult_le_compat; try apply fro_nonneg; apply H; auto.
  - apply Rplus_le_compat.
    + right. unfold fro at 1. rewrite sumsq_cols. set (y := rsum q (fun j => sumsq (R := Rring) N (cw j) (fun r c => g r (offs cw j + c)%nat))).
      assert (Y : 0 <= y) by (apply sum_nonneg; intros j _; rewrite <- fro_sq; apply Rmult_le_pos; apply fro_nonneg).
      transitivity (sqrt (Rsqr al * y)); [|rewrite sqrt_mult, sqrt_Rsqr; auto; apply Rle_0_sqr].
      f_equal. unfold y. rewrite <- (rsum_mul_l q (Rsqr al)). apply (sum_ext (R := Rring)). intros j _. unfold x. rewrite <- fro_sq. unfold Rsqr. rr.
    + right. replace (rsum q (fun _ => be * be)) with (INR q * Rsqr be).
      * rewrite sqrt_mult; [|apply pos_INR|apply Rle_0_sqr]. rewrite sqrt_Rsqr; auto.
      * clear. unfold Rsqr. induction q as [|q IH]; [cbn; ring|]. rewrite S_INR. cbn [sum]. rewrite <- IH. cbn. ring.
Qed.

Section Whole.
Notation matrix := (matrix Rring).
Notation lowrank := (lowrank Rring).
Notation grid := (grid Rring).
Variables (e : Q) (u tau : R) (nb : nat).
Hypothesis He : Qeq_bool e 0 = false.
Hypothesis Hu : 0 <= u <= 1.
Hypothesis Htau : 0 <= tau.
Variable Or : oracles Rring.
Hypothesis HA : accurate e u tau nb Or.
Variable K : qrt Rring.
Hypothesis HK : qrt_ok K.
Hypothesis HS : small_vectors K.
Variables p q : nat.
Variables h w : nat -> nat.
Hypothesis Hh : forall i, (i < p)%nat -> (h i <= nb)%nat.
Hypothesis Hw : forall j, (j < q)%nat -> (w j <= nb)%nat.
Hypothesis Hq : (0 < q)%nat.
Let N := offs h p.
Notation column := (column (R := Rring) p h).
Notation gtiles := (gtiles e p q h).
Notation nu := (nu nb).
Notation eta := (eta u nb).
Notation theta := (theta tau).
Notation pairs := (pairs p).
Notation whole C := (ent (MH p q C)).

(** The two parts of the bound after m reflectors of pairs. *)
Definition grow (m : nat) : R := (1 + eta) ^ m - 1.
Definition drift (m : nat) : R := INR m * (1 + eta) ^ m * theta.

Lemma grow_nonneg m : 0 <= grow m.
Proof. unfold grow. pose proof (pow_ge1 eta (eta_nonneg u nb Hu) m). lra. Qed.
Lemma drift_nonneg m : 0 <= drift m.
Proof.
  unfold drift. pose proof (pow_ge1 eta (eta_nonneg u nb Hu) m). pose proof (theta_nonneg tau Htau). pose proof (pos_INR m).
  apply Rmult_le_pos; [apply Rmult_le_pos|]; lra.
Qed.
Lemma acc_parts m x : acc eta theta m x = grow m * x + drift m.
Proof. reflexivity. Qed.

Lemma by_columns_err cw (Q : xmat) (C D F : grid) al be : (0 < p)%nat -> 0 <= al -> 0 <= be ->
  shaped (R := Rring) p q h cw C -> shaped (R := Rring) p q h cw D -> shaped (R := Rring) p q h cw F ->
  (forall j, (j < q)%nat -> fro N (cw j) (xsub (column C j) (xmul N Q (column D j))) <= al * fro N (cw j) (column F j) + be) ->
  fro N (offs cw q) (xsub (whole C) (xmul N Q (whole D))) <= al * fro N (offs cw q) (whole F) + sqrt (INR q) * be.
Proof.
  intros Hp Ha Hb HC HD HF H. apply fro_cols_err; auto. intros j Hj.
  assert (E1 : forall G, shaped (R := Rring) p q h cw G -> xfeq N (cw j) (fun r c => whole G r (offs cw j + c)%nat) (column G j)).
  { intros G HG r c Hr Hc. apply (column_ent (R := Rring) p q h cw G j r c Hp Hq HG Hj Hr Hc). }
  rewrite (fro_ext _ _ _ _ (E1 F HF)). eapply Rle_trans; [right|apply H; auto]. apply fro_ext. intros r c Hr Hc.
  unfold MatFun.msub. f_equal; [apply (E1 C HC); auto|]. unfold mmul. apply (sum_ext (R := Rring)). intros x Hx.
  f_equal. apply (E1 D HD); auto.
Qed.

Lemma gtiles_shaped cw C : gtiles cw C -> shaped (R := Rring) p q h cw C.
Proof. intros H i j Hi Hj. destruct (H i j Hi Hj) as [_ [H1 [H2 _]]]. auto. Qed.

Theorem tiled_err_whole (A T : grid) pt qt (A' T' : grid) : (forall k, (k < q)%nat -> (k < p)%nat -> (w k <= h k)%nat) ->
  gtiles w A -> factors (R := Rring) p q w T -> tiled_qr Or K p q A pt qt T = Ok (A', T') ->
  let m := pairs q in
  (q <= p)%nat /\ gtiles w A' /\ stored nb p q h w A' T' /\
  exists Q : xmat, orthogonal (R := Rring) N Q /\
    fro N (offs w q) (xsub (whole A) (xmul N Q (whole (Rgrid (R := Rring) h w A')))) <=
      grow m * fro N (offs w q) (whole A) + sqrt (INR q) * drift m /\
    (forall cw C C', (forall j, (j < q)%nat -> (cw j <= nb)%nat) -> gtiles cw C -> block_upper (R := Rring) p q C ->
       tiled_apply Or p q A' T' C false = Ok C' ->
       fro N (offs cw q) (xsub (whole C') (xmul N Q (whole C))) <= grow m * fro N (offs cw q) (whole C) + sqrt (INR q) * drift m) /\
    (forall C', tiled_apply Or p q A' T' A true = Ok C' ->
       fro N (offs w q) (xsub (whole C') (whole (Rgrid (R := Rring) h w A'))) <=
         2 * (grow m * fro N (offs w q) (whole A) + sqrt (INR q) * drift m)).
Proof.
  intros LK GA FT H m. apply (tiled_qr_err e u tau nb He Hu Htau Or HA p q h w Hh Hw K HK HS) in H; auto.
  destruct H as [I1 I2 I3 I4 IS I5 _]. cbn [fst snd] in *. assert (Hp : (0 < p)%nat) by lia.
  assert (LK' : forall k, (k < q)%nat -> (w k <= h k)%nat) by (intros k Hk; apply LK; lia).
  assert (ST : stored nb p q h w A' T').
  { split; auto. intros i j Hi Hj. destruct (I1 i j Hi Hj) as [W [D1 [D2 _]]]. auto. }
  split; auto. split; auto. split; auto.
  exists (Qfac (R := Rring) p h w A' T' q).
  assert (OQ : forall n, (n <= q)%nat -> orthogonal (R := Rring) N (Qfac (R := Rring) p h w A' T' n)).
  { intros n Hn. apply (Qfac_orth (R := Rring)); [lia| |]; intros k Hk; [apply LK'; lia|apply I4; lia]. }
  assert (AM : forall n x, (n <= q)%nat -> 0 <= x -> acc eta theta (pairs n) x <= grow m * x + drift m).
  { intros n x Hn Hx. rewrite <- acc_parts. apply acc_le; auto; [apply eta_nonneg; auto|apply theta_nonneg; auto|]. unfold m. clear - Hn. induction Hn as [|k Hk IH]; [lia|]. cbn [QrErrStep.pairs]. lia. }
  pose proof (grow_nonneg m) as Gm. pose proof (drift_nonneg m) as Dm.
  split; [apply OQ; auto|]. split; [|split].
  - apply by_columns_err; auto using gtiles_shaped; [apply (Rgrid_shaped (R := Rring))|].
    intros j Hj. eapply Rle_trans; [apply (I5 j Hj)|]. apply AM; [lia|apply fro_nonneg].
  - intros cw C C' Hcw GC BU Ha. apply (apply_false_err e u tau nb He Hu Htau Or HA p q h w cw Hh Hw Hcw A' T' ST) in Ha; auto.
    destruct Ha as [_ [GC' Ha]]. apply by_columns_err; auto using gtiles_shaped.
    intros j Hj. erewrite fro_feq_sub; [|apply (feq_refl (R := Rring))|].
    + eapply Rle_trans; [apply (Ha j Hj)|]. apply AM; [lia|apply fro_nonneg].
    + apply (Qfac_more (R := Rring)); auto. intros i Hi Hi'. destruct (GC i j Hi' Hj) as [_ [E1 [E2 _]]].
      rewrite <- E1, <- E2. apply BU; auto; lia.
  - intros C' Ha. apply (apply_true_err e u tau nb He Hu Htau Or HA p q h w w Hh Hw Hw A' T' ST) in Ha; auto.
    destruct Ha as [_ [GC' Ha]].
    assert (B : fro N (offs w q) (xsub (whole C') (xmul N (mid (R := Rring)) (whole (Rgrid (R := Rring) h w A')))) <=
      (2 * grow m) * fro N (offs w q) (whole A) + sqrt (INR q) * (2 * drift m)).
    { apply by_columns_err; auto using gtiles_shaped; try lra; [apply (Rgrid_shaped (R := Rring))|].
      intros j Hj. pose proof (Ha j Hj) as P1. pose proof (I5 j Hj) as P2.
      fold N in P1, P2. set (x := fro N (w j) (column A j)) in *.
      assert (X0 : 0 <= x) by apply fro_nonneg.
      assert (E : xfeq N (w j) (xmul N (Qfac (R := Rring) p h w A' T' q) (column (Rgrid (R := Rring) h w A') j))
                               (xmul N (Qfac (R := Rring) p h w A' T' (S j)) (column (Rgrid (R := Rring) h w A') j))).
      { apply (Qfac_more (R := Rring)); auto. intros i Hi Hi'. cbn [Rgrid ent d_e]. unfold Rtile.
        destruct (Nat.ltb_spec i j); [lia|]. destruct (Nat.eqb_spec i j); [lia|]. apply (feq_refl (R := Rring)). }
      assert (P3 : fro N (w j) (xsub (column A j) (xmul N (Qfac (R := Rring) p h w A' T' (S j)) (column (Rgrid (R := Rring) h w A') j))) <= acc eta theta (pairs j) x).
      { eapply Rle_trans; [right|exact P2]. symmetry. apply fro_feq_sub; [apply (feq_refl (R := Rring))|]. exact E. }
      set (Qj := Qfac (R := Rring) p h w A' T' (S j)) in *. assert (OJ : orthogonal (R := Rring) N Qj) by (apply OQ; lia).
      set (Rj := column (Rgrid (R := Rring) h w A') j) in *.
      pose proof (fro_orth_sub N (w j) Qj (column A j) (xmul N Qj Rj) true OJ) as E3. cbn [mop] in E3.
      assert (E4 : xfeq N (w j) (xmul N (mtr Qj) (xmul N Qj Rj)) (xmul N (mid (R := Rring)) Rj)).
      { eapply feq_trans; [exact (orthogonal_cancel (R := Rring) N (w j) Qj Rj true OJ)|]. apply (feq_sym (R := Rring)). apply (feq_id_l (R := Rring)). }
      pose proof (fro_via N (w j) (column C' j) (xmul N (mtr Qj) (column A j)) (xmul N (mid (R := Rring)) Rj)) as V.
      rewrite <- (fro_feq_sub _ _ _ _ _ _ (feq_refl (R := Rring) N (w j) (xmul N (mtr Qj) (column A j))) E4) in V.
      rewrite E3 in V. pose proof (AM (S j) x ltac:(lia) X0). pose proof (AM j x ltac:(lia) X0). lra. }
    assert (EI : xfeq N (offs w q) (xmul N (mid (R := Rring)) (whole (Rgrid (R := Rring) h w A'))) (whole (Rgrid (R := Rring) h w A'))) by apply (feq_id_l (R := Rring)).
    rewrite (fro_feq_sub _ _ _ _ _ _ (feq_refl (R := Rring) _ _ _) EI) in B. lra.
Qed.

(** Multiplying by Q and then by its transpose. *)
Theorem round_trip_err (Y T : grid) : stored nb p q h w Y T -> (q <= p)%nat ->
  forall cw (C C1 C2 : grid), (forall j, (j < q)%nat -> (cw j <= nb)%nat) -> gtiles cw C -> block_upper (R := Rring) p q C ->
  tiled_apply Or p q Y T C false = Ok C1 -> tiled_apply Or p q Y T C1 true = Ok C2 ->
  let g := grow (pairs q) in let d := drift (pairs q) in
  gtiles cw C1 /\ gtiles cw C2 /\
  fro N (offs cw q) (xsub (whole C2) (whole C)) <= (2 * g + g * g) * fro N (offs cw q) (whole C) + sqrt (INR q) * ((2 + g) * d).
Proof.
  intros ST Hqp cw C C1 C2 Hcw GC BU H1 H2 g d. assert (Hp : (0 < p)%nat) by lia.
  apply (apply_false_err e u tau nb He Hu Htau Or HA p q h w cw Hh Hw Hcw Y T ST) in H1; auto. destruct H1 as [_ [G1 H1]].
  apply (apply_true_err e u tau nb He Hu Htau Or HA p q h w cw Hh Hw Hcw Y T ST) in H2; auto. destruct H2 as [_ [G2 H2]].
  split; auto. split; auto. fold N in H1, H2.
  pose proof (grow_nonneg (pairs q)) as Gm. pose proof (drift_nonneg (pairs q)) as Dm. fold g in Gm. fold d in Dm.
  assert (AM : forall n x, (n <= q)%nat -> 0 <= x -> acc eta theta (pairs n) x <= g * x + d).
  { intros n x Hn Hx. unfold g, d. rewrite <- acc_parts. apply acc_le; auto; [apply eta_nonneg; auto|apply theta_nonneg; auto|].
    clear - Hn. induction Hn as [|k Hk IH]; [lia|]. cbn [QrErrStep.pairs]. lia. }
  assert (EI : xfeq N (offs cw q) (xmul N (mid (R := Rring)) (whole C)) (whole C)) by apply (feq_id_l (R := Rring)).
  rewrite <- (fro_feq_sub _ _ _ _ _ _ (feq_refl (R := Rring) _ _ _) EI).
  apply by_columns_err; auto using gtiles_shaped; [nra|apply Rmult_le_pos; lra|].
  intros j Hj. specialize (H1 j Hj). specialize (H2 j Hj).
  set (x := fro N (cw j) (column C j)) in *. set (y := fro N (cw j) (column C1 j)) in *.
  assert (X0 : 0 <= x) by apply fro_nonneg. assert (Y0 : 0 <= y) by apply fro_nonneg.
  set (Qj := Qfac (R := Rring) p h w Y T (S j)) in *.
  assert (OJ : orthogonal (R := Rring) N Qj) by (apply (Qfac_orth (R := Rring)); [lia| |]; intros k Hk; [apply (st_w _ _ _ _ _ _ _ ST); lia|apply (st_orth _ _ _ _ _ _ _ ST); lia]).
  pose proof (AM (S j) x ltac:(lia) X0) as A1. pose proof (AM (S j) y ltac:(lia) Y0) as A2.
  assert (D1 : y <= x + (g * x + d)).
  { eapply Rle_trans; [apply (fro_dist N (cw j) (column C1 j) (xmul N Qj (column C j)))|].
    pose proof (fro_orth N (cw j) Qj (column C j) false OJ) as E0. cbn [mop] in E0. rewrite E0. fold x. lra. }
  pose proof (fro_via N (cw j) (column C2 j) (xmul N (mtr Qj) (column C1 j)) (xmul N (mid (R := Rring)) (column C j))) as V.
  pose proof (fro_orth_sub N (cw j) Qj (column C1 j) (xmul N Qj (column C j)) true OJ) as E3. cbn [mop] in E3.
  assert (E4 : xfeq N (cw j) (xmul N (mtr Qj) (xmul N Qj (column C j))) (xmul N (mid (R := Rring)) (column C j))).
  { eapply feq_trans; [exact (orthogonal_cancel (R := Rring) N (cw j) Qj (column C j) true OJ)|]. apply (feq_sym (R := Rring)). apply (feq_id_l (R := Rring)). }
  rewrite <- (fro_feq_sub _ _ _ _ _ _ (feq_refl (R := Rring) N (cw j) (xmul N (mtr Qj) (column C1 j))) E4) in V.
  rewrite E3 in V. cbn [mop] in *. nra.
Qed.
End Whole.
