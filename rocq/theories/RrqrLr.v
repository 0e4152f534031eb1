(** LowRank(const Dense&, double eps), src/classes/low_rank.cpp:60-69, and runs of
    truncated_geqp3 on particular matrices. *)
From Coq Require Import List Arith ZArith Lia Bool QArith Reals Qreals Lra Ring_theory Ring Psatz.
From Verif Require Import Prelude Ring MatFun MatSetoid Matrix MatOps Lapack Reflect ReflectSpec SvdRank Householder HouseQr HouseReal Rrqr RrqrRank.
Import ListNotations.
Local Open Scope nat_scope.

Definition rzero : rmat := fun _ _ => 0%R.

Definition lowrank_eps (tol : R) (eps : Q) (A : rdense) : outcome (lowrank Rring) :=
  let* (U, P) := truncated_geqp3 tol (Q2R eps) A in
  let rank := d_c U in
  let* (_, S1, V) := rq_dense (R := Rring) dlarfg P (Dn rank rank rzero) (Dn rank (d_c A) rzero) in
  Ok (Lr (d_r A) (d_c A) rank eps U S1 V).

Lemma lowrank_eps_ok tol eps (A : rdense) l : lowrank_eps tol eps A = Ok l ->
  (exists j, j < d_c A /\ (tol < colnorm (d_e A) (d_r A) 0 j)%R) ->
  let m := d_r A in
  let n := d_c A in
  let r := l_rank l in
  let thr := (Q2R eps * sqrt (sumsq (R := Rring) m n (d_e A)))%R in
  lr_wf l /\ l_r l = m /\ l_c l = n /\ d_r (l_S l) = r /\ d_c (l_S l) = r /\ r <= m /\ r < n /\
  orth_cols (R := Rring) m r (d_e (l_U l)) /\ orth_rows (R := Rring) r n (d_e (l_V l)) /\
  (forall i j, i < r -> j < i -> d_e (l_S l) i j = 0%R) /\
  (forall j, j < n -> (rsum m (fun i => msub (R := Rring) (d_e A) (lr_ent l) i j * msub (R := Rring) (d_e A) (lr_ent l) i j) <= thr * thr)%R) /\
  (sumsq (R := Rring) m n (msub (d_e A) (lr_ent l)) <= INR (n - r) * (thr * thr))%R /\
  ((0 <= Q2R eps)%R -> forall k (X Y : rmat), feq m n (d_e A) (mmul k X Y) -> r <= k).
Proof.
  intros H HB m n r thr. unfold lowrank_eps in H.
  apply bind_Ok in H. destruct H as [[U P] [HG H]].
  pose proof (truncated_geqp3_ok _ _ _ _ _ HG HB) as [D1 [D2 [D3 [D4 [D5 [HO [HQ [HE HF]]]]]]]].
  fold m n in D1, D3, D4, D5, HO, HQ, HE, HF, H. fold thr in HE, HF.
  apply bind_Ok in H. destruct H as [[[X S1] V] [HR H]]. inversion H; subst l; clear H.
  unfold r. cbn [l_rank l_U l_S l_V l_r l_c].
  set (k := d_c U) in *.
  destruct (rq_dense_ok (R := Rring) dlarfg dlarfg_ok P (Dn k k rzero) (Dn k n rzero)) as [X' [S' [V' [ER [E1 [E2 [E3 [E4 [E5 [E6 E7]]]]]]]]]].
  { unfold rq_shapes. cbn [d_r d_c d_e]. rewrite D2, D3. do 3 (split; auto). split; [lia|]. split; [lia|]. reflexivity. }
  rewrite HR in ER. inversion ER; subst X' S' V'; clear ER. cbn [d_r d_c d_e] in *. rewrite D2, D3 in *.
  assert (EN : feq m n (lr_ent (Lr m n k eps U S1 V)) (mmul k (d_e U) (d_e P))).
  { intros i j Hi Hj. unfold lr_ent. cbn [l_U l_S l_V]. rewrite E2. change (d_c U) with k.
    apply (mmul_ext (R := Rring)); auto. }
  split. { unfold lr_wf. cbn [l_U l_S l_V l_r l_c]. rewrite E1, E2, E3. repeat (split; auto). }
  do 2 (split; auto). do 2 (split; [congruence|]). do 2 (split; auto). split; auto. split; [exact E6|].
  split; [|split; [|split]].
  - intros i j Hi Hj. apply E7; try rewrite E1; try rewrite E2; lia.
  - intros j Hj. eapply Rle_trans; [|exact (HE j Hj)]. apply Req_le. unfold col_err.
    apply (sum_ext (R := Rring)). intros i Hi. unfold msub. rewrite EN by auto. reflexivity.
  - eapply Rle_trans; [|exact HF]. apply Req_le. unfold sumsq. apply (sum_ext (R := Rring)). intros i Hi.
    apply (sum_ext (R := Rring)). intros j Hj. unfold msub. rewrite EN by auto. reflexivity.
  - intros He q Y Z HA. eapply (truncated_geqp3_rank tol (Q2R eps) A U P); eauto.
Qed.

Lemma classic_norm tol (A : rdense) :
  (exists j, j < d_c A /\ (tol < colnorm (d_e A) (d_r A) 0 j)%R) \/
  forall j, j < d_c A -> (colnorm (d_e A) (d_r A) 0 j <= tol)%R.
Proof.
  induction (d_c A) as [|n [[j [H1 H2]]|H]]; [right; intros; lia|left; exists j; split; auto; lia|].
  destruct (Rlt_dec tol (colnorm (d_e A) (d_r A) 0 n)) as [L|L]; [left; exists n; split; auto; lia|].
  right. intros j Hj. destruct (Nat.eq_dec j n) as [->|]; [lra|]. apply H. lia.
Qed.

(** It succeeds whenever truncated_geqp3 does. *)
Lemma lowrank_eps_total tol eps (A : rdense) x : truncated_geqp3 tol (Q2R eps) A = Ok x ->
  0 < d_r A -> 0 < d_c A -> exists l, lowrank_eps tol eps A = Ok l.
Proof.
  intros H Hm Hn. unfold lowrank_eps. rewrite H. destruct x as [U P]. cbn [bind].
  assert (D : d_r P = d_c U /\ d_c P = d_c A /\ d_c U <= d_c A).
  { destruct (classic_norm tol A) as [HB|HB].
    - destruct (truncated_geqp3_ok _ _ _ _ _ H HB) as [D1 [D2 [D3 [D4 [D5 _]]]]]. repeat split; auto. lia.
    - destruct (truncated_geqp3_tiny tol (Q2R eps) A Hm Hn HB) as [Q' [P' [E [F1 [F2 [F3 [F4 _]]]]]]].
      rewrite H in E. inversion E; subst. repeat split; try congruence. lia. }
  destruct D as [D1 [D2 D3]].
  destruct (rq_dense_ok (R := Rring) dlarfg dlarfg_ok P (Dn (d_c U) (d_c U) rzero) (Dn (d_c U) (d_c A) rzero)) as [X' [S' [V' [ER _]]]].
  { unfold rq_shapes. cbn [d_r d_c d_e]. rewrite D1, D2. do 3 (split; auto). split; [lia|]. split; [lia|]. reflexivity. }
  rewrite ER. cbn [bind]. eauto.
Qed.

(** ** The bound is not the one on the whole matrix *)

Definition reye (n : nat) : rdense := Dn n n (mid (R := Rring)).

Lemma eye_colsq n j : j < n -> colsq (mid (R := Rring)) n 0 j = 1%R.
Proof.
  intros H. unfold colsq. rewrite Nat.sub_0_r. rewrite (sum_single (R := Rring) n j _ H).
  - simpl. unfold mid. rewrite Nat.eqb_refl. rring.
  - intros i Hi Hn. simpl. unfold mid. destruct (Nat.eqb_spec i j); [contradiction|]. rring.
Qed.

Lemma eye_sumsq n : sumsq (R := Rring) n n (mid (R := Rring)) = INR n.
Proof.
  rewrite sumsq_cols. rewrite (sum_ext (R := Rring) n _ (fun _ => 1%R)).
  - rewrite rsum_const. rring.
  - intros j Hj. transitivity (colsq (mid (R := Rring)) n 0 j); [unfold colsq; rewrite Nat.sub_0_r; reflexivity|apply eye_colsq; auto].
Qed.

Lemma truncated_geqp3_eye tol eps n : 0 < n -> (tol < 1)%R -> (1 <= eps * sqrt (INR n))%R ->
  exists Q P, truncated_geqp3 tol eps (reye n) = Ok (Q, P) /\ d_c Q = 0 /\ d_r P = 0.
Proof.
  intros Hn HT HE. unfold truncated_geqp3, max_from. cbn [d_r d_c d_e reye].
  destruct (Nat.ltb_spec 0 n); [|lia]. cbn [bind]. rewrite eye_sumsq.
  destruct (amax_spec (fun j => colnorm (mid (R := Rring)) n 0 j) 0 (n - 1 - 0)) as [K _].
  set (k := amax _ _ _) in *.
  assert (N : colnorm (mid (R := Rring)) n 0 k = 1%R).
  { symmetry. apply colnorm_unique; [lra|]. rewrite eye_colsq by lia. rring. }
  rewrite N. destruct (Rle_dec 1 tol); [lra|]. rewrite Nat.min_id. destruct n as [|n]; [lia|]. cbn [piv_loop].
  destruct (Rlt_dec _ 1); [lra|]. cbn [bind]. do 2 eexists. split; [reflexivity|]. auto.
Qed.

Lemma geqp3_frobenius : forall tol n, 2 <= n -> (0 <= tol < 1)%R -> exists (A Q P : rdense) (eps : R),
  d_r A = n /\ d_c A = n /\ (0 < eps < 1)%R /\ truncated_geqp3 tol eps A = Ok (Q, P) /\
  d_c Q = 0 /\
  (eps * sqrt (sumsq (R := Rring) n n (d_e A)) < sqrt (sumsq (R := Rring) n n (msub (d_e A) (mmul (d_c Q) (d_e Q) (d_e P)))))%R.
Proof.
  intros tol n Hn HT.
  assert (N2 : (2 <= INR n)%R) by (change 2%R with (INR 2); apply le_INR; auto).
  assert (S1 : (1 < sqrt (INR n))%R) by (rewrite <- sqrt_1; apply sqrt_lt_1; lra).
  destruct (truncated_geqp3_eye tol (/ sqrt (INR n)) n ltac:(lia) ltac:(lra)) as [Q [P [E [E1 E2]]]].
  { rewrite Rinv_l; lra. }
  exists (reye n), Q, P, (/ sqrt (INR n))%R. do 2 (split; [reflexivity|]).
  split. { split; [apply Rinv_0_lt_compat; lra|]. rewrite <- Rinv_1. apply Rinv_lt_contravar; lra. }
  do 2 (split; auto). cbn [d_e reye]. rewrite E1.
  rewrite eye_sumsq. rewrite Rinv_l by lra.
  replace (sumsq (R := Rring) n n (msub mid (mmul 0 (d_e Q) (d_e P)))) with (INR n); auto.
  rewrite <- eye_sumsq. unfold sumsq. apply (sum_ext (R := Rring)). intros i Hi. apply (sum_ext (R := Rring)). intros j Hj.
  unfold msub, mmul. rring.
Qed.

(** ** A run *)

Definition e34 : rmat := fun i j => if j =? 0 then if i =? 0 then 3%R else 4%R else 0%R.
Definition a34 : rdense := Dn 2 3 e34.

Lemma dlarfg_34 : exists y, dlarfg 2 (fun i => if i =? 0 then 3%R else 4%R) = (y, (8 / 5)%R) /\ y 0 = (-5)%R /\ y 1 = (1 / 2)%R.
Proof.
  assert (S25 : sqrt 25 = 5%R). { replace 25%R with (5 * 5)%R by lra. apply sqrt_square. lra. }
  unfold dlarfg. cbn [Nat.leb Nat.eqb]. unfold tailsq. simpl.
  destruct (Req_EM_T _ _) as [E|_]; [lra|]. destruct (Rle_dec 0 3) as [_|L]; [|lra].
  replace (3 * 3 + (0 + 4 * 4))%R with 25%R by lra. rewrite S25.
  eexists. split; [f_equal; [reflexivity|field]|]. split; simpl; [reflexivity|field].
Qed.

Lemma a34_run : exists Q P, truncated_geqp3 (/ 1000) (1 / 2) a34 = Ok (Q, P) /\
  d_r Q = 2 /\ d_c Q = 1 /\ d_e Q 0 0 = (- (3 / 5))%R /\ d_e Q 1 0 = (- (4 / 5))%R /\
  d_r P = 1 /\ d_c P = 3 /\ d_e P 0 0 = (-5)%R /\ d_e P 0 1 = 0%R /\ d_e P 0 2 = 0%R.
Proof.
  assert (S25 : sqrt 25 = 5%R). { replace 25%R with (5 * 5)%R by lra. apply sqrt_square. lra. }
  assert (C0 : colnorm e34 2 0 0 = 5%R).
  { rewrite <- S25. unfold colnorm, e34. f_equal. simpl. lra. }
  assert (C1 : forall j, 1 <= j -> colnorm e34 2 0 j = 0%R).
  { intros j Hj. rewrite <- sqrt_0. unfold colnorm, e34. f_equal. simpl. destruct (Nat.eqb_spec j 0); [lia|]. rring. }
  assert (SS : sumsq (R := Rring) 2 3 e34 = 25%R) by (unfold sumsq, e34; simpl; lra).
  set (c := fun j => colnorm e34 2 0 j) in *.
  assert (c0 : c 0 = 5%R) by exact C0. assert (c1 : c 1 = 0%R) by (apply C1; lia). assert (c2 : c 2 = 0%R) by (apply C1; lia).
  assert (K0 : amax c 0 2 = 0).
  { cbn [amax]. destruct (Rlt_dec (c 0) (c (0 + 1))) as [L|_]; [simpl in L; lra|].
    destruct (Rlt_dec (c 0) (c (0 + 2))) as [L|_]; [simpl in L; lra|]. reflexivity. }
  unfold truncated_geqp3. cbn [d_r d_c d_e a34].
  change (fun j : nat => colnorm e34 2 0 j) with c.
  unfold max_from at 1. change (0 <? 3) with true. cbn [bind]. change (3 - 1 - 0) with 2. rewrite K0, c0.
  destruct (Rle_dec 5 (/ 1000)) as [L|_]; [lra|].
  rewrite SS, S25.
  change (Nat.min 2 3) with 2. cbn [piv_loop].
  destruct (Rlt_dec _ 5) as [_|L]; [|lra].
  unfold piv_step. cbn [p_A p_tau p_cn p_pn p_piv]. change (3 - 1 - 0) with 2. rewrite K0.
  change (0 <? 2 - 1) with true. change (0 <? Nat.min 2 3 - 1) with true. change (2 - 0) with 2. cbn iota.
  change (fun i : nat => e34 (0 + i) (transp 0 0 0)) with (fun i => if i =? 0 then 3%R else 4%R).
  destruct dlarfg_34 as [y [EY [y0 y1]]]. rewrite EY.
  cbn [p_A p_tau p_cn p_pn p_piv].
  set (A3 := apply_refl (R := Rring) 2 3 0 (8 / 5)%R _).
  match goal with |- context [max_from ?g _ _] => set (f := g) end.
  unfold max_from. change (0 + 1 <? 3) with true. cbn [bind].
  assert (F : forall j, 1 <= j -> j < 3 -> f j = 0%R).
  { intros j H1 H2. unfold f. destruct (Nat.ltb_spec 0 j); [|lia]. destruct (Nat.ltb_spec j 3); [|lia]. simpl.
    unfold norm_update. assert (E : c (transp 0 0 j) = 0%R).
    { unfold transp. destruct (Nat.eqb_spec j 0); [lia|]. apply C1. lia. }
    destruct (Req_EM_T _ 0) as [_|N]; [exact E|contradiction]. }
  destruct (amax_spec f (0 + 1) (3 - 1 - (0 + 1))) as [K _]. rewrite F by lia.
  destruct (Rlt_dec _ 0) as [L|_]; [lra|]. cbn [bind p_A p_tau p_piv].
  do 2 eexists. split; [reflexivity|]. cbn [d_r d_c d_e].
  assert (P : forall j, j < 3 -> inv_piv (fun j => transp 0 0 j) 3 j = j).
  { intros j Hj. destruct j as [|[|[|j]]]; [reflexivity|reflexivity|reflexivity|lia]. }
  rewrite !P by lia.
  split; [reflexivity|]. split; [reflexivity|].
  unfold A3, dorgqr, apply_refl, store_col, elem, rv, hv, upd, hprod, mmul, mid. simpl. unfold elem, rv, hv, mid. simpl.
  rewrite ?y0, ?y1. unfold e34, transp. simpl. repeat split; lra.
Qed.
