(** truncated_geqp3 (src/operations/LAPACK/geqp3.cpp:69-191): the rank it returns. *)
From Coq Require Import List Arith Lia Bool Reals Lra Ring_theory Ring.
From Verif Require Import Prelude Ring MatFun MatSetoid Matrix MatOps Lapack Reflect ReflectSpec SvdRank Householder HouseQr HouseReal Rrqr.
Import ListNotations.
Local Open Scope nat_scope.

Lemma refl_step_diag m n r (A A' : rmat) tau tau' : r < m -> r < n -> refl_step (R := Rring) dlarfg m n r A A' tau tau' ->
  (A' r r * A' r r)%R = colsq A m r r.
Proof.
  intros Hm Hn HS. unfold refl_step in HS.
  pose proof (lg_bal (R := Rring) dlarfg dlarfg_ok (m - r) (fun i => A (r + i) r)) as G1.
  pose proof (lg_ann (R := Rring) dlarfg dlarfg_ok (m - r) (fun i => A (r + i) r)) as G2.
  destruct (dlarfg (m - r) (fun i => A (r + i) r)) as [y t]. simpl in G1, G2.
  destruct HS as [_ [F2 _]]. rewrite F2 by lia. rewrite Nat.sub_diag.
  unfold colsq.
  rewrite <- (dot_mmul_orth (m - r) (elem (R := Rring) (hv (R := Rring) y) t) (fun l c => A (r + l) c) r) by (apply elem_orthogonal; exact G1).
  rewrite (sum_single (R := Rring) (m - r) 0 _ ltac:(lia)).
  - rewrite !(elem_mul (R := Rring)) by lia. simpl. rewrite (G2 0 ltac:(lia)). reflexivity.
  - intros i Hi Hne. rewrite !(elem_mul (R := Rring)) by lia. simpl. rewrite (G2 i ltac:(lia)).
    destruct (Nat.eqb_spec i 0); [lia|]. rring.
Qed.

Lemma piv_step_low tol m n r s i : r < Nat.min m n -> i < r -> p_A (piv_step tol m n r s) i i = p_A s i i.
Proof.
  intros Hr Hi. pose proof (piv_step_refl tol m n r s Hr) as HS. cbv zeta in HS. unfold refl_step in HS.
  destruct (dlarfg _ _) as [y t]. destruct HS as [F1 _]. rewrite F1 by lia.
  destruct (amax_spec (p_cn s) r (n - 1 - r)) as [K _]. rewrite transp_low by lia. reflexivity.
Qed.

Lemma piv_loop_diag tol thr m n B : (0 <= thr)%R -> forall fuel r mx s r' s',
  piv_loop fuel tol thr m n r mx s = Ok (r', s') -> fuel = Nat.min m n - r -> r < n ->
  mx = p_cn s (amax (p_cn s) r (n - 1 - r)) ->
  piv_inv m n r B s -> (forall i, i < r -> p_A s i i <> 0%R) ->
  forall i, i < r' -> p_A s' i i <> 0%R.
Proof.
  intros HT. induction fuel as [|fuel IH]; intros r mx s r' s' H HF HN HM HI HD; simpl in H.
  - inversion H; subst. auto.
  - destruct (Rlt_dec thr mx) as [L|L]; [|inversion H; subst; auto].
    apply bind_Ok in H. destruct H as [mx' [Hx H]].
    unfold max_from in Hx. destruct (Nat.ltb_spec (r + 1) n) as [N'|]; [|discriminate]. inversion Hx as [Ex]. clear Hx.
    eapply IH; [exact H|lia|lia|auto|apply piv_step_inv; auto; lia|].
    intros i Hi. destruct (Nat.eq_dec i r) as [->|Hne]; [|rewrite piv_step_low by lia; apply HD; lia].
    intros E. pose proof (refl_step_diag m n r _ _ _ _ ltac:(lia) ltac:(lia) (piv_step_refl tol m n r s ltac:(lia))) as G.
    rewrite E in G. destruct (amax_spec (p_cn s) r (n - 1 - r)) as [K _].
    rewrite (pi_cn _ _ _ _ _ HI) in HM by lia.
    assert (G' : colsq (p_A s) m r (amax (p_cn s) r (n - 1 - r)) = 0%R).
    { transitivity (colsq (fun i j => p_A s i (transp r (amax (p_cn s) r (n - 1 - r)) j)) m r r).
      - unfold colsq, transp. rewrite Nat.eqb_refl. reflexivity.
      - rewrite <- G. rring. }
    rewrite <- colnorm_sq in G'. rewrite <- HM in G'. apply Rmult_integral in G'. lra.
Qed.

(** The rows of the second factor are independent: with the columns in pivot order it
    starts with an invertible triangle. *)
Lemma truncated_geqp3_triangle tol eps (A Q P : rdense) : truncated_geqp3 tol eps A = Ok (Q, P) -> (0 <= eps)%R ->
  (exists j, j < d_c A /\ (tol < colnorm (d_e A) (d_r A) 0 j)%R) ->
  exists p, perm_on (d_c A) p /\ forall i, i < d_c Q -> d_e P i (p i) <> 0%R /\ forall j, j < i -> d_e P i (p j) = 0%R.
Proof.
  intros H He [j0 [Hj0 HT]]. unfold truncated_geqp3 in H. cbv zeta in H.
  set (m := d_r A) in *. set (n := d_c A) in *.
  set (thr := (eps * sqrt (sumsq (R := Rring) m n (d_e A)))%R) in *.
  apply bind_Ok in H. destruct H as [mx [Hx H]].
  destruct (max_from_Ok _ _ _ _ Hx) as [N [k0 [Hk [Ek HM]]]].
  destruct (Rle_dec mx tol) as [L|L]. { specialize (HM j0 ltac:(lia)). lra. }
  apply bind_Ok in H. destruct H as [[r s] [HL H]].
  assert (I0 : piv_inv m n 0 (d_e A) (PState (d_e A) (fun _ => 0%R) (fun j => j) (fun j => colnorm (d_e A) m 0 j) (fun j => colnorm (d_e A) m 0 j))).
  { split; cbn [p_piv p_A p_tau p_cn]; auto.
    - split; auto.
    - apply (qr_inv_0 (R := Rring)). }
  destruct (piv_loop_ok _ _ _ _ (d_e A) _ _ _ _ _ _ HL ltac:(lia) ltac:(lia) N HM I0) as [[HP HQ HC] [_ [R1 [R2 HE]]]].
  assert (HD : forall i, i < r -> p_A s i i <> 0%R).
  { eapply piv_loop_diag; [|exact HL|lia|exact N| |exact I0|intros; lia].
    - apply Rmult_le_pos; auto using sqrt_pos.
    - unfold max_from in Hx. destruct (0 <? n); [|discriminate]. inversion Hx. reflexivity. }
  inversion H; subst Q P; clear H. cbn [d_c d_e].
  exists (p_piv s). split; auto. intros i Hi.
  assert (QP : forall j, j < n -> inv_piv (p_piv s) n (p_piv s j) = j).
  { intros j Hj. pose proof HP as [P1 P2]. destruct (inv_piv_spec n _ HP (p_piv s j) (P1 j Hj)) as [Q1 Q2]. apply P2; auto. }
  split.
  - rewrite QP by lia. destruct (Nat.ltb_spec i r); [|lia]. rewrite Nat.leb_refl. destruct (Nat.ltb_spec i n); [|lia]. simpl. auto.
  - intros j Hj. rewrite QP by lia. destruct (Nat.leb_spec i j); [lia|]. rewrite andb_false_r. reflexivity.
Qed.

(** The rank does not exceed the rank of the matrix. *)
Lemma triangle_kernel r (T : rmat) (z : vec) : (forall i, i < r -> T i i <> 0%R) -> (forall i j, i < r -> j < i -> T i j = 0%R) ->
  (forall i, i < r -> rsum r (fun j => (T i j * z j)%R) = 0%R) -> forall j, j < r -> z j = 0%R.
Proof.
  intros HD HZ. induction r as [|r IH]; intros HK j Hj; [lia|].
  assert (Zr : z r = 0%R).
  { specialize (HK r ltac:(lia)). cbn [sum] in HK.
    rewrite (sum_zero' (R := Rring)) in HK by (intros x Hx; rewrite HZ by lia; rring). simpl in HK.
    rewrite Rplus_0_l in HK. apply Rmult_integral in HK. destruct HK as [HK|HK]; auto. exfalso. apply (HD r); auto. }
  destruct (Nat.eq_dec j r) as [->|]; auto. apply IH; auto; try lia.
  intros i Hi. specialize (HK i ltac:(lia)). cbn [sum] in HK. rewrite Zr in HK. simpl in HK. rewrite Rmult_0_r, Rplus_0_r in HK. exact HK.
Qed.

Lemma truncated_geqp3_rank tol eps (A Q P : rdense) k (X Y : rmat) : truncated_geqp3 tol eps A = Ok (Q, P) -> (0 <= eps)%R ->
  (exists j, j < d_c A /\ (tol < colnorm (d_e A) (d_r A) 0 j)%R) ->
  feq (d_r A) (d_c A) (d_e A) (mmul k X Y) -> d_c Q <= k.
Proof.
  intros H He HB HA.
  destruct (truncated_geqp3_triangle _ _ _ _ _ H He HB) as [p [[P1 P2] HT]].
  destruct (truncated_geqp3_ok _ _ _ _ _ H HB) as [D1 [D2 [D3 [D4 [D5 [HO [HQ _]]]]]]].
  set (r := d_c Q) in *. destruct (le_lt_dec r k) as [|L]; auto. exfalso.
  destruct (kernel_exists k r (fun i j => Y i (p j)) L) as [z [[j [J1 J2]] J3]].
  apply J2. apply (triangle_kernel r (fun i j => d_e P i (p j)) z); auto.
  - intros i Hi. apply HT; auto.
  - intros i x Hi Hx. apply HT; auto.
  - intros i Hi.
    transitivity (rsum r (fun x => (rsum k (fun l => mmul (R := Rring) (d_r A) (mtr (d_e Q)) X i l * Y l (p x)) * z x)%R)).
    + apply (sum_ext (R := Rring)). intros x Hx. f_equal. rewrite HQ by (auto; apply P1; lia).
      transitivity (mmul (R := Rring) (d_r A) (mtr (d_e Q)) (mmul k X Y) i (p x)).
      * apply (mmul_ext (R := Rring)); auto. intros l Hl. apply HA; auto. apply P1. lia.
      * rewrite <- (mmul_assoc (R := Rring)). reflexivity.
    + rewrite (sum_ext (R := Rring) r _ (fun x => rsum k (fun l => (mmul (R := Rring) (d_r A) (mtr (d_e Q)) X i l * Y l (p x) * z x)%r))).
      2:{ intros x Hx. rewrite (sum_mul_r (R := Rring)). reflexivity. }
      rewrite (sum_swap (R := Rring)). apply (sum_zero' (R := Rring)). intros l Hl.
      rewrite (sum_ext (R := Rring) r _ (fun x => (mmul (R := Rring) (d_r A) (mtr (d_e Q)) X i l * (Y l (p x) * z x)%R)%R)).
      2:{ intros x Hx. rring. }
      rewrite rsum_mul_l. rewrite J3 by auto. rring.
Qed.

(** ** Full column rank *)

Lemma cauchy_schwarz n (a b : vec) :
  (rsum n (fun i => a i * b i) * rsum n (fun i => a i * b i) <= rsum n (fun i => a i * a i) * rsum n (fun i => b i * b i))%R.
Proof.
  induction n as [|n IH]; [simpl; lra|]. cbn [sum]. simpl.
  set (x := rsum n (fun i => (a i * b i)%R)) in *. set (y := rsum n (fun i => (a i * a i)%R)) in *.
  set (w := rsum n (fun i => (b i * b i)%R)) in *.
  change (x * x <= y * w)%R in IH.
  assert (Y : (0 <= y)%R) by (apply sum_nonneg; intros; apply Rle_0_sqr).
  assert (W : (0 <= w)%R) by (apply sum_nonneg; intros; apply Rle_0_sqr).
  (* 2 x a b <= y b^2 + w a^2 *)
  assert (K : (2 * x * (a n * b n) <= y * (b n * b n) + w * (a n * a n))%R).
  { set (u := (sqrt y * Rabs (b n))%R). set (v := (sqrt w * Rabs (a n))%R).
    assert (U : (u * u = y * (b n * b n))%R).
    { unfold u. transitivity ((sqrt y * sqrt y) * (Rabs (b n) * Rabs (b n)))%R; [ring|].
      rewrite sqrt_sqrt by auto. rewrite <- Rabs_mult. rewrite (Rabs_pos_eq (b n * b n)) by apply Rle_0_sqr. reflexivity. }
    assert (V : (v * v = w * (a n * a n))%R).
    { unfold v. transitivity ((sqrt w * sqrt w) * (Rabs (a n) * Rabs (a n)))%R; [ring|].
      rewrite sqrt_sqrt by auto. rewrite <- Rabs_mult. rewrite (Rabs_pos_eq (a n * a n)) by apply Rle_0_sqr. reflexivity. }
    assert (X : (x * (a n * b n) <= u * v)%R).
    { eapply Rle_trans; [apply Rle_abs|]. rewrite !Rabs_mult. unfold u, v.
      replace (sqrt y * Rabs (b n) * (sqrt w * Rabs (a n)))%R with ((sqrt y * sqrt w) * (Rabs (a n) * Rabs (b n)))%R by ring.
      apply Rmult_le_compat_r.
      - apply Rmult_le_pos; apply Rabs_pos.
      - rewrite <- sqrt_mult by auto. rewrite <- sqrt_Rsqr_abs. apply sqrt_le_1_alt. exact IH. }
    pose proof (Rle_0_sqr (u - v)) as S. unfold Rsqr in S.
    replace ((u - v) * (u - v))%R with (u * u + v * v - 2 * (u * v))%R in S by ring. rewrite U, V in S. lra. }
  replace ((x + a n * b n) * (x + a n * b n))%R with (x * x + 2 * x * (a n * b n) + (a n * b n) * (a n * b n))%R by ring.
  replace ((y + a n * a n) * (w + b n * b n))%R with (y * w + (y * (b n * b n) + w * (a n * a n)) + (a n * b n) * (a n * b n))%R by ring.
  lra.
Qed.

(** Squares of the norms of A z and z. *)
Definition apply_sq (m n : nat) (A : rmat) (z : vec) : R :=
  rsum m (fun i => (rsum n (fun j => A i j * z j) * rsum n (fun j => A i j * z j))%R).
Definition vec_sq (n : nat) (z : vec) : R := rsum n (fun j => (z j * z j)%R).

Lemma apply_sq_bound m n A z : (apply_sq m n A z <= sumsq (R := Rring) m n A * vec_sq n z)%R.
Proof.
  unfold apply_sq, sumsq. rewrite <- (sum_mul_r (R := Rring)).
  apply sum_le. intros i Hi. apply cauchy_schwarz.
Qed.

Lemma truncated_geqp3_full_rank tol eps (A : rdense) (c : R) : 0 < d_r A -> 0 < d_c A ->
  (exists j, j < d_c A /\ (tol < colnorm (d_e A) (d_r A) 0 j)%R) ->
  (forall z, (c * vec_sq (d_c A) z <= apply_sq (d_r A) (d_c A) (d_e A) z)%R) ->
  (INR (d_c A) * (eps * eps * sumsq (R := Rring) (d_r A) (d_c A) (d_e A)) < c)%R ->
  truncated_geqp3 tol eps A = UB.
Proof.
  intros Hm Hn HB HC HE. destruct (truncated_geqp3_total tol eps A Hm Hn) as [[[Q P] H]|[H _]]; auto. exfalso.
  destruct (truncated_geqp3_ok _ _ _ _ _ H HB) as [D1 [D2 [D3 [D4 [D5 [HO [HQ [_ HF]]]]]]]].
  set (m := d_r A) in *. set (n := d_c A) in *. set (r := d_c Q) in *.
  destruct (kernel_exists r n (d_e P) D5) as [z [[j [J1 J2]] J3]].
  set (E := msub (R := Rring) (d_e A) (mmul r (d_e Q) (d_e P))) in *.
  assert (AZ : apply_sq m n (d_e A) z = apply_sq m n E z).
  { unfold apply_sq. apply (sum_ext (R := Rring)). intros i Hi.
    assert (G : rsum n (fun j => (d_e A i j * z j)%R) = rsum n (fun j => (E i j * z j)%R)).
    { change (rsum n (fun j => (d_e A i j * z j)%R) = rsum n (fun j => ((d_e A i j - mmul (R := Rring) r (d_e Q) (d_e P) i j)%R * z j)%R)).
      rewrite (sum_ext (R := Rring) n (fun j => ((d_e A i j - mmul (R := Rring) r (d_e Q) (d_e P) i j)%R * z j)%R) (fun j => rsub (c := Rring) (d_e A i j * z j)%R (mmul (R := Rring) r (d_e Q) (d_e P) i j * z j)%R)) by (intros; rring).
      rewrite (sum_sub (R := Rring)).
      assert (Z : rsum n (fun j => (mmul (R := Rring) r (d_e Q) (d_e P) i j * z j)%R) = 0%R).
      { rewrite (sum_ext (R := Rring) n _ (fun x => rsum r (fun l => (d_e Q i l * d_e P l x * z x)%r))).
        2:{ intros x Hx. rewrite (sum_mul_r (R := Rring)). reflexivity. }
        rewrite (sum_swap (R := Rring)). apply (sum_zero' (R := Rring)). intros l Hl.
        rewrite (sum_ext (R := Rring) n _ (fun x => (d_e Q i l * (d_e P l x * z x)%R)%R)) by (intros; rring).
        rewrite rsum_mul_l. rewrite J3 by auto. rring. }
      rewrite Z. rring. }
    rewrite G. reflexivity. }
  assert (VZ : (0 < vec_sq n z)%R).
  { destruct (Rle_lt_or_eq_dec 0 (vec_sq n z)) as [|Z]; auto.
    - apply sum_nonneg. intros; apply Rle_0_sqr.
    - exfalso. apply J2. apply (sqsum_zero n z); auto. }
  specialize (HC z). rewrite AZ in HC. pose proof (apply_sq_bound m n E z) as B1.
  set (thr := (eps * sqrt (sumsq (R := Rring) m n (d_e A)))%R) in *.
  assert (T : (thr * thr = eps * eps * sumsq (R := Rring) m n (d_e A))%R).
  { unfold thr. transitivity (eps * eps * (sqrt (sumsq (R := Rring) m n (d_e A)) * sqrt (sumsq (R := Rring) m n (d_e A))))%R; [ring|].
    rewrite sqrt_sqrt; auto. apply sum_nonneg. intros i _. apply sum_nonneg. intros; apply Rle_0_sqr. }
  rewrite T in HF.
  assert (T0 : (0 <= eps * eps * sumsq (R := Rring) m n (d_e A))%R) by (rewrite <- T; apply Rle_0_sqr).
  assert (N : (INR (n - r) <= INR n)%R) by (apply le_INR; lia).
  assert (B2 : (sumsq (R := Rring) m n E <= INR n * (eps * eps * sumsq (R := Rring) m n (d_e A)))%R).
  { eapply Rle_trans; [exact HF|]. apply Rmult_le_compat_r; auto. }
  assert (B3 : (sumsq (R := Rring) m n E * vec_sq n z < c * vec_sq n z)%R) by (apply Rmult_lt_compat_r; lra).
  lra.
Qed.
