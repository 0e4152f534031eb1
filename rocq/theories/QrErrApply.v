(** Multiplication by the stored reflectors with low-rank arithmetic that truncates, and the
    errors of whole matrices. *)
From Coq Require Import List Arith ZArith QArith Lia Bool Reals Lra Ring_theory Ring.
From Verif Require Import Prelude Ring MatFun MatSetoid Matrix MatOps MatSpec MatOpsProofs Lapack Gemm GemmSpec GemmProofs
  GemmCorrect GemmTheorems Triangular TriAlgebra TriSpec TriProofs TriTheorems Reflect ReflectSpec ReflectProofs ReflectTile ReflectSuccess
  QrBig QrTiled QrStep QrApply QrTheorems RealQr SvdRank Householder HouseQr HouseReal Rrqr RrqrRank EckartYoung FroNorm QrErrTile QrErrStep.
Import ListNotations.
Local Open Scope R_scope.

Section Apply.
Notation matrix := (matrix Rring).
Notation grid := (grid Rring).
Variables (e : Q) (u tau : R) (nb : nat).
Hypothesis He : Qeq_bool e 0 = false.
Hypothesis Hu : 0 <= u <= 1.
Hypothesis Htau : 0 <= tau.
Variable Or : oracles Rring.
Hypothesis HA : accurate e u tau nb Or.
Variables p q : nat.
Variables h w cw : nat -> nat.
Hypothesis Hh : forall i, (i < p)%nat -> (h i <= nb)%nat.
Hypothesis Hw : forall j, (j < q)%nat -> (w j <= nb)%nat.
Hypothesis Hcw : forall j, (j < q)%nat -> (cw j <= nb)%nat.
Let N := offs h p.
Notation column := (column (R := Rring) p h).
Notation Qcol := (Qcol (R := Rring) p h w).
Notation Qfac := (Qfac (R := Rring) p h w).
Notation gtiles := (gtiles e p q h).
Notation nu := (nu nb).
Notation eta := (eta u nb).
Notation theta := (theta tau).
Notation acc := (acc eta theta).
Notation pairs := (pairs p).

(** The reflectors of a factorization. *)
Record stored (Y T : grid) : Prop := {
  st_tiles : forall i j, (i < p)%nat -> (j < q)%nat -> wf (Y i j) /\ nrows (Y i j) = h i /\ ncols (Y i j) = w j;
  st_factors : factors (R := Rring) p q w T;
  st_orth : forall k, (k < q)%nat -> orthogonal_tiles (R := Rring) h w Y T k (p - S k);
  st_small : forall i k, (k < q)%nat -> (k < i)%nat -> (i < p)%nat -> fro (h i) (w k) (ent (Y i k)) <= nu;
  st_w : forall k, (k < q)%nat -> (k < p)%nat -> (w k <= h k)%nat
}.
Variables Y T : grid.
Hypothesis HY : stored Y T.

Lemma larfb_cols_err k tr (C C' : grid) : (k < q)%nat -> (k < p)%nat -> gtiles cw C -> tiled_larfb q k tr k Y T C = Ok C' ->
  gtiles cw C' /\ (forall i j, (j < k \/ q <= j)%nat -> C' i j = C i j) /\
  (forall j, (k <= j)%nat -> (j < q)%nat ->
     xfeq N (cw j) (column C' j) (xmul N (mop tr (Qcol Y T k 0)) (column C j))).
Proof.
  intros Hq Hp HC H. destruct (st_orth _ _ HY k Hq) as [O1 _].
  assert (FT : ncols (T k k) = w k) by apply (st_factors _ _ HY k k Hp Hq (le_n k)).
  split; [apply (tiled_larfb_good e p q h w cw k tr k Y T C C'); auto|].
  apply (tiled_larfb_ok (R := Rring) True p q h w cw) in H; auto; [|apply (gtiles_tiles e p q h); auto].
  destruct H as [_ [H2 H3]]. split; [|exact H3]. intros i j Hj. apply H2. lia.
Qed.

Lemma tpmqrt_cols_err k n tr (C C' : grid) : (k < q)%nat -> (S k + n < p)%nat -> gtiles cw C ->
  tiled_tpmqrt Or q k (S k + n) tr k Y T C = Ok C' ->
  let G := GP (R := Rring) p h k (S k + n) (w k) (ent (Y (S k + n)%nat k)) (ent (T (S k + n)%nat k)) in
  gtiles cw C' /\ (forall i j, (j < k \/ q <= j)%nat -> C' i j = C i j) /\ orthogonal (R := Rring) N G /\
  (forall j, (k <= j)%nat -> (j < q)%nat ->
     fro N (cw j) (xsub (column C' j) (xmul N (mop tr G) (column C j))) <= eta * fro N (cw j) (column C j) + theta).
Proof.
  intros Hq Hp HC H G. destruct (st_tiles _ _ HY (S k + n)%nat k Hp Hq) as [W [D1 D2]].
  destruct (st_factors _ _ HY (S k + n)%nat k Hp Hq ltac:(lia)) as [F1 F2]. destruct (st_orth _ _ HY k Hq) as [_ O2].
  assert (LK : (w k <= h k)%nat) by (apply (st_w _ _ HY); lia).
  assert (OP := O2 (S k + n)%nat ltac:(lia) ltac:(lia)).
  apply (tiled_tpmqrt_err e u tau nb He Hu Htau Or HA p q h w Hh Hw cw) in H; auto; try lia;
    [|apply (st_small _ _ HY); lia].
  destruct H as [H1 [H2 H3]]. split; [exact H1|]. split; [intros i j Hj; apply H2; lia|]. split; [|exact H3].
  unfold G. apply (GP_orth (R := Rring)); auto; lia.
Qed.

Notation acc_step := (acc_S eta theta (eta_nonneg u nb Hu) (theta_nonneg tau Htau)).

(** One more reflector on the left of an approximation of norm x. *)
Lemma left_err c (G a b f : xmat) tr x t : orthogonal (R := Rring) N G -> 0 <= x -> fro N c f = x ->
  fro N c (xsub a f) <= acc t x ->
  fro N c (xsub b (xmul N (mop tr G) a)) <= eta * fro N c a + theta ->
  fro N c (xsub b (xmul N (mop tr G) f)) <= acc (S t) x.
Proof.
  intros OG Hx Ef Ha Hb. pose proof (fro_via N c b (xmul N (mop tr G) a) (xmul N (mop tr G) f)) as V.
  rewrite (fro_orth_sub N c G a f tr OG) in V. pose proof (fro_dist N c a f) as D. rewrite Ef in D.
  pose proof (acc_step t x Hx) as S.
  assert (eta * fro N c a <= eta * (x + acc t x)) by (apply Rmult_le_compat_l; [apply eta_nonneg; auto|lra]). lra.
Qed.

Lemma meq_fro c (f g g' : xmat) : meq (R := Rring) g g' -> fro N c (xsub f g) = fro N c (xsub f g').
Proof. intros E. apply fro_feq_sub; [apply (feq_refl (R := Rring))|]. intros i j _ _. apply E. Qed.

Lemma Qcol_orth' k n : (k < q)%nat -> (k < p)%nat -> (k + n < p)%nat -> orthogonal (R := Rring) N (Qcol Y T k n).
Proof.
  intros Hq Hp Hn. apply (Qcol_orth (R := Rring)); auto; [apply (st_w _ _ HY); auto|].
  destruct (st_orth _ _ HY k Hq) as [O1 O2]. split; auto. intros i Hi Hi'. apply O2; lia.
Qed.
Lemma Qfac_orth' n : (n <= q)%nat -> (n <= p)%nat -> orthogonal (R := Rring) N (Qfac Y T n).
Proof.
  intros Hq Hp. apply (Qfac_orth (R := Rring)); auto; intros k Hk; [apply (st_w _ _ HY); lia|apply (st_orth _ _ HY); lia].
Qed.

Lemma apply_true_err (C C' : grid) : gtiles cw C -> tiled_apply Or p q Y T C true = Ok C' ->
  (q <= p)%nat /\ gtiles cw C' /\
  forall j, (j < q)%nat -> fro N (cw j) (xsub (column C' j) (xmul N (mtr (Qfac Y T (S j))) (column C j)))
    <= acc (pairs (S j)) (fro N (cw j) (column C j)).
Proof.
  intros HC H. unfold tiled_apply in H. apply assert_Ok in H. destruct H as [B H]. apply Nat.leb_le in B. split; auto.
  apply (for_loop_inv_out _ _ _ _ (fun n D => gtiles cw D /\
    forall j, (j < q)%nat -> fro N (cw j) (xsub (column D j) (xmul N (mtr (Qfac Y T (Nat.min (S j) n))) (column C j)))
      <= acc (pairs (Nat.min (S j) n)) (fro N (cw j) (column C j)))) in H.
  - destruct H as [H1 H2]. split; auto. intros j Hj. rewrite <- (Nat.min_l (S j) q) by lia. apply H2; auto.
  - split; auto. intros j Hj. simpl. rewrite fro_sub0; [rewrite acc_0; lra|]. apply (feq_sym (R := Rring)). eapply feq_trans; [|apply (feq_id_l (R := Rring))].
    apply (feq_mmul (R := Rring)); [|apply (feq_refl (R := Rring))]. intros r s Hr Hs. unfold mtr, mid. rewrite Nat.eqb_sym. reflexivity.
  - clear H. intros k D D' Hk [D1 D2] Hb. apply bind_Ok in Hb. destruct Hb as [D0 [HL Hb]].
    apply larfb_cols_err in HL; auto; [|lia]. destruct HL as [L1 [L2 L3]].
    assert (OF := Qfac_orth' k ltac:(lia) ltac:(lia)).
    apply (for_loop_inv_out _ _ _ _ (fun t E => gtiles cw E /\ (forall i j, (j < k \/ q <= j)%nat -> E i j = D i j) /\
      forall j, (k <= j)%nat -> (j < q)%nat ->
        fro N (cw j) (xsub (column E j) (xmul N (mtr (Qcol Y T k t)) (xmul N (mtr (Qfac Y T k)) (column C j))))
          <= acc (pairs k + t) (fro N (cw j) (column C j)))) in Hb.
    + destruct Hb as [E1 [E2 E3]]. split; auto. intros j Hj. destruct (Nat.lt_ge_cases j k) as [Lj|Lj].
      * rewrite Nat.min_l by lia. pose proof (D2 j Hj) as P. rewrite Nat.min_l in P by lia.
        erewrite fro_feq_sub; [exact P| |apply (feq_refl (R := Rring))].
        apply (feq_stack_refl (R := Rring)). intros b Hb. rewrite E2 by auto. reflexivity.
      * rewrite Nat.min_r by lia. cbn [QrErrStep.pairs]. pose proof (E3 j Lj Hj) as P. rewrite (meq_fro _ _ _ (xmul N (mtr (Qcol Y T k (p - S k))) (xmul N (mtr (Qfac Y T k)) (column C j)))); [exact P|].
        cbn [QrTiled.Qfac]. fold N. rewrite (meq_tr (R := Rring)), (meq_assoc (R := Rring)). reflexivity.
    + split; auto. split; auto. intros j Lj Hj. rewrite Nat.add_0_r. pose proof (D2 j Hj) as P. rewrite Nat.min_r in P by lia.
      rewrite (fro_feq_sub _ _ _ _ _ _ (L3 j Lj Hj) (feq_refl (R := Rring) _ _ _)).
      rewrite (fro_orth_sub N (cw j) (Qcol Y T k 0) _ _ true); [exact P|]. apply Qcol_orth'; lia.
    + clear Hb. intros t E E' Ht [E1 [E2 E3]] Hs. apply tpmqrt_cols_err in Hs; auto; [|lia]. cbv zeta in Hs.
      set (G := GP (R := Rring) p h k (S k + t) (w k) (ent (Y (S k + t)%nat k)) (ent (T (S k + t)%nat k))) in *.
      destruct Hs as [F1 [F2 [OG F3]]]. split; auto. split.
      * intros i j Hj. rewrite F2 by auto. apply E2; auto.
      * intros j Lj Hj. set (f := xmul N (mtr (Qcol Y T k t)) (xmul N (mtr (Qfac Y T k)) (column C j))).
        assert (X : meq (R := Rring) (xmul N (mtr (Qcol Y T k (S t))) (xmul N (mtr (Qfac Y T k)) (column C j))) (xmul N (mop true G) f)).
        { cbn [QrTiled.Qcol]. fold N. fold G. unfold f. rewrite (meq_tr (R := Rring)), (meq_assoc (R := Rring)). reflexivity. }
        rewrite (meq_fro _ _ _ _ X). replace (pairs k + S t)%nat with (S (pairs k + t)) by lia.
        apply (left_err (cw j) G (column E j) (column E' j) f true); [exact OG|apply fro_nonneg| |exact (E3 j Lj Hj)|exact (F3 j Lj Hj)].
        unfold f. pose proof (fro_orth N (cw j) (Qcol Y T k t) (xmul N (mtr (Qfac Y T k)) (column C j)) true (Qcol_orth' k t ltac:(lia) ltac:(lia) ltac:(lia))) as P1.
        pose proof (fro_orth N (cw j) (Qfac Y T k) (column C j) true OF) as P2. cbn [mop] in P1, P2. rewrite P1, P2. reflexivity.
Qed.

Lemma pairs_le n m : (n <= m)%nat -> (pairs n <= pairs m)%nat.
Proof. induction 1; simpl; lia. Qed.

Lemma apply_false_err (C C' : grid) : gtiles cw C -> tiled_apply Or p q Y T C false = Ok C' ->
  (q <= p)%nat /\ gtiles cw C' /\
  forall j, (j < q)%nat -> fro N (cw j) (xsub (column C' j) (xmul N (Qfac Y T (S j)) (column C j)))
    <= acc (pairs (S j)) (fro N (cw j) (column C j)).
Proof.
  intros HC H. unfold tiled_apply in H. apply assert_Ok in H. destruct H as [B H]. apply Nat.leb_le in B. split; auto.
  set (x := fun j => fro N (cw j) (column C j)). set (Z := fun j => xmul N (Qfac Y T (S j)) (column C j)).
  assert (ZN : forall j, (j < q)%nat -> fro N (cw j) (Z j) = x j).
  { intros j Hj. apply (fro_orth N (cw j) (Qfac Y T (S j)) (column C j) false). apply Qfac_orth'; lia. }
  (* an approximation D of P^T Z, and one more reflector *)
  assert (NX : forall j (P G a b : xmat) t, (j < q)%nat -> orthogonal (R := Rring) N P -> orthogonal (R := Rring) N G ->
    fro N (cw j) (xsub (xmul N P (xmul N G a)) (Z j)) <= acc t (x j) ->
    fro N (cw j) (xsub b (xmul N G a)) <= eta * fro N (cw j) a + theta ->
    fro N (cw j) (xsub (xmul N P b) (Z j)) <= acc (S t) (x j)).
  { intros j P G a b t Hj OP OG H1 H2. pose proof (fro_via N (cw j) (xmul N P b) (xmul N P (xmul N G a)) (Z j)) as V.
    pose proof (fro_orth_sub N (cw j) P b (xmul N G a) false OP) as E1. cbn [mop] in E1. rewrite E1 in V.
    pose proof (fro_dist N (cw j) (xmul N P (xmul N G a)) (Z j)) as Dd. rewrite (ZN j Hj) in Dd.
    pose proof (fro_orth N (cw j) P (xmul N G a) false OP) as E2. pose proof (fro_orth N (cw j) G a false OG) as E3. cbn [mop] in E2, E3.
    rewrite E2, E3 in Dd. pose proof (acc_step t (x j) (fro_nonneg _ _ _)) as S.
    assert (eta * fro N (cw j) a <= eta * (x j + acc t (x j))) by (apply Rmult_le_compat_l; [apply eta_nonneg; auto|lra]). lra. }
  apply (for_loop_inv_out _ _ _ _ (fun n D => gtiles cw D /\
    forall j, (j < q)%nat -> fro N (cw j) (xsub (xmul N (Qfac Y T (Nat.min (S j) (q - n))) (column D j)) (Z j))
      <= acc (pairs (S j) - pairs (Nat.min (S j) (q - n))) (x j))) in H.
  - destruct H as [H1 H2]. split; auto. intros j Hj. pose proof (H2 j Hj) as P. rewrite Nat.sub_diag, Nat.min_0_r in P. cbn [QrErrStep.pairs] in P.
    rewrite Nat.sub_0_r in P. fold (Z j) (x j). erewrite fro_feq_sub; [exact P| |apply (feq_refl (R := Rring))]. simpl. apply (feq_sym (R := Rring)). apply (feq_id_l (R := Rring)).
  - split; auto. intros j Hj. rewrite Nat.sub_0_r, Nat.min_l by lia. rewrite Nat.sub_diag, acc_0. rewrite fro_sub0; [lra|apply (feq_refl (R := Rring))].
  - clear H. intros n D D' Hn [D1 D2] Hb. set (k := (q - 1 - n)%nat) in *. assert (Hk : (k < q)%nat) by lia.
    assert (OF := Qfac_orth' k ltac:(lia) ltac:(lia)).
    apply bind_Ok in Hb. destruct Hb as [D0 [Hl Hb]].
    apply (for_loop_inv_out _ _ _ _ (fun t E => gtiles cw E /\ (forall i j, (j < k \/ q <= j)%nat -> E i j = D i j) /\
      forall j, (k <= j)%nat -> (j < q)%nat ->
        fro N (cw j) (xsub (xmul N (xmul N (Qfac Y T k) (Qcol Y T k (p - S k - t))) (column E j)) (Z j))
          <= acc (pairs (S j) - pairs (S k) + t) (x j))) in Hl.
    + destruct Hl as [E1 [E2 E3]]. apply larfb_cols_err in Hb; auto; [|lia]. destruct Hb as [L1 [L2 L3]].
      split; auto. intros j Hj. destruct (Nat.lt_ge_cases j k) as [Lj|Lj].
      * pose proof (D2 j Hj) as P. rewrite !Nat.min_l in P by lia. rewrite !Nat.min_l by lia.
        erewrite fro_feq_sub; [exact P| |apply (feq_refl (R := Rring))]. apply (feq_mmul (R := Rring)); [apply (feq_refl (R := Rring))|].
        apply (feq_stack_refl (R := Rring)). intros b Hb. rewrite L2, E2 by auto. reflexivity.
      * rewrite !Nat.min_r by lia. replace (q - S n)%nat with k by lia.
        pose proof (E3 j Lj Hj) as P. rewrite Nat.sub_diag in P.
        assert (CN : (pairs (S j) - pairs (S k) + (p - S k) = pairs (S j) - pairs k)%nat).
        { pose proof (pairs_le (S k) (S j) ltac:(lia)) as L. cbn [QrErrStep.pairs] in *. lia. }
        rewrite CN in P. erewrite fro_feq_sub; [exact P| |apply (feq_refl (R := Rring))].
        eapply feq_trans; [apply (feq_mmul (R := Rring)); [apply (feq_refl (R := Rring))|apply (L3 j Lj Hj)]|].
        apply (feq_meq (R := Rring)). cbn [mop]. intros r c. symmetry. apply (meq_assoc (R := Rring)).
    + split; auto. split; auto. intros j Lj Hj. rewrite Nat.sub_0_r, Nat.add_0_r. pose proof (D2 j Hj) as P.
      rewrite Nat.min_r in P by lia. replace (q - n)%nat with (S k) in P by lia. exact P.
    + clear Hl. intros t E E' Ht [E1 [E2 E3]] Hs.
      replace (p - 1 - t)%nat with (S k + (p - S k - S t))%nat in Hs by lia.
      apply tpmqrt_cols_err in Hs; auto; [|lia]. cbv zeta in Hs.
      set (G := GP (R := Rring) p h k (S k + (p - S k - S t)) (w k) (ent (Y (S k + (p - S k - S t))%nat k)) (ent (T (S k + (p - S k - S t))%nat k))) in *.
      destruct Hs as [F1 [F2 [OG F3]]]. split; auto. split.
      * intros i j Hj. rewrite F2 by auto. apply E2; auto.
      * intros j Lj Hj. replace (pairs (S j) - pairs (S k) + S t)%nat with (S (pairs (S j) - pairs (S k) + t)) by lia.
        apply (NX j (xmul N (Qfac Y T k) (Qcol Y T k (p - S k - S t))) G (column E j)); auto.
        -- apply (orthogonal_mul (R := Rring)); auto. apply Qcol_orth'; lia.
        -- pose proof (E3 j Lj Hj) as P. erewrite fro_feq_sub; [exact P| |apply (feq_refl (R := Rring))].
           apply (feq_meq (R := Rring)). replace (p - S k - t)%nat with (S (p - S k - S t)) by lia. cbn [QrTiled.Qcol]. fold N. fold G.
           rewrite !(meq_assoc (R := Rring)). reflexivity.

Qed.
End Apply.
