(** C82: the H-LU program with blocks compressed to an accuracy: the numbers it prints are
    bounded by the accuracy, the number of levels and the norms of the factors. *)
From Coq Require Import List Arith ZArith QArith Qreals Lia Bool Reals Lra String Ring_theory Ring.
From Verif Require Import Prelude Ring MatFun MatSetoid Matrix MatOps MatSpec MatOpsProofs Lapack LowRankAdd Gemm GemmSpec
  GemmProofs GemmTheorems Triangular TriSpec SvdRank HouseReal Rrqr RrqrLr RealLapack Prop_RealAdd IndexRange IndexRangeProofs ClusterTree ClusterTreeSpec
  ClusterTreeProofs ClusterTreeRegular Admissible Construct ConstructProofs Kernels ConstructKernel ConstructError Prop_ConstructError CommonTree TreeFit
  DominantTheorems Prop_FixedRank FroNorm QrErrTile QrErrReal L2Real BlrBuild BlrCompare LuErr LuErrBlocks LuErrThm HLuEps Prop_LuError.
From Verif Require Import BlockDominant PartialPivot.
From Verif Require GemmSucc UnevenTree Prop_Success Prop_Dominant.
Import ListNotations.
Local Open Scope R_scope.

(** Updates of a matrix divided d times into k parts. *)
Lemma nmax_le n f b : (forall i, (i < n)%nat -> (f i <= b)%nat) -> (nmax n f <= b)%nat.
Proof. induction n as [|n IH]; intros H; cbn [nmax]; [lia|]. apply Nat.max_lub; [apply IH; auto|apply H; lia]. Qed.
Lemma updates_uniform QS s k (Hk : (2 <= k)%nat) (A : matrix) : forall d, CommonTree.fit QS (uniform (s * k ^ d) k d) (uniform (s * k ^ d) k d) A ->
  (updates A <= (k - 1) * d)%nat.
Proof.
  induction A as [d0|l|m n a IH|er ec]; intros d F; cbn [updates]; try apply Nat.le_0_l.
  destruct d as [|d].
  - cbn [uniform] in F. destruct F as [-> [-> F]]. cbn [deg] in *.
    assert (nmax 1 (fun i => updates (a i i)) <= 0)%nat; [|lia]. apply nmax_le. intros i Hi.
    specialize (IH i i 0%nat). rewrite Nat.mul_0_r in IH. apply IH. apply F; auto.
  - cbn [uniform] in F. replace (k <=? 1)%nat with false in F by (symmetry; apply Nat.leb_gt; lia). destruct F as [-> [-> F]]. cbn [deg sub] in *.
    assert (nmax k (fun i => updates (a i i)) <= (k - 1) * d)%nat; [|rewrite Nat.mul_succ_r; lia]. apply nmax_le. intros i Hi.
    specialize (F i i Hi Hi). replace (s * k ^ S d)%nat with (s * k ^ d * k)%nat in F by (cbn [Nat.pow]; ring). rewrite part_mul in F by lia.
    exact (IH i i d F).
Qed.

Lemma lu_bound_mono u p q : 0 <= u < 1 -> (p <= q)%nat -> lu_bound u p <= lu_bound u q.
Proof.
  intros Hu H. unfold lu_bound. pose proof (rel_err_pos u Hu). apply Rplus_le_compat_r. apply Rle_pow; [lra|exact H].
Qed.
Lemma lu_bound_pos u p : 0 <= u < 1 -> 0 <= lu_bound u p.
Proof. intros Hu. pose proof (lu_bound_mono u 0 p Hu ltac:(lia)) as H. unfold lu_bound in *. simpl in H. lra. Qed.

Lemma h_lu_inv Or comp dg fuel K pts n nleaf k admis x e1 e2 z :
  h_lu Or comp dg fuel K pts n nleaf k admis x = Ok (e1, e2, z) ->
  exists D A b L U y, kernel_fill K pts n n 0 0 = Ok D /\
    hierarchical (kernel_init K pts (is_admissible PositionBased [] admis) comp) fuel (IR 0 (Z.of_nat n)) (IR 0 (Z.of_nat n)) k k nleaf = Ok A /\
    gemm (R := Rring) Or fuel A (MD x) (MD (d_zeros n 1)) (1 : Rring) (1 : Rring) false false = Ok b /\
    l2_error fuel (MD D) A = Ok e1 /\ getrf (R := Rring) inv_of Or fuel dg fuel A = Ok (L, U) /\
    trsm (R := Rring) inv_of Or fuel L b Lower SLeft = Ok y /\ trsm (R := Rring) inv_of Or fuel U y Upper SLeft = Ok z /\
    l2_error fuel (MD x) z = Ok e2.
Proof.
  intros H. unfold h_lu in H. apply bind_Ok in H. destruct H as [D [H1 H]]. apply bind_Ok in H. destruct H as [A [H2 H]].
  apply bind_Ok in H. destruct H as [b [H3 H]]. apply bind_Ok in H. destruct H as [c [H4 H]]. apply bind_Ok in H. destruct H as [[L U] [H5 H]].
  apply bind_Ok in H. destruct H as [y [H6 H]]. apply bind_Ok in H. destruct H as [z' [H7 H]]. apply bind_Ok in H. destruct H as [s [H8 H]].
  inversion H; subst. exists D, A, b, L, U, y. auto 10.
Qed.

(** What a run says about the system that was solved: A the compressed matrix, L and U its
    factors, F the kernel matrix, x the solution of A x = b and z what was computed. *)
Definition solved (n : nat) (eps : R) (tol : R) (updates : nat) (F A L U x z : mat) (e1 e2 : R) : Prop :=
  let left_out := sqrt (INR n) * eps * fro n n F + tol * INR n in
  let lu_error := lu_bound eps updates * (fro n n L * fro n n U) in
  (* the printed compression error *)
  0 <= e1 /\ e1 * fro n n F <= left_out /\
  (* A is close to F, L U to A *)
  fro n n (msub F A) <= left_out /\ fro n n (msub A (mmul n L U)) <= lu_error /\
  (* z solves a system close to A z = A x and nearly the one with F *)
  (exists E, fro n n E <= lu_error /\ feq n 1 (mmul n (madd A E) z) (mmul n A x)) /\
  fro n 1 (msub (mmul n F z) (mmul n A x)) <= (left_out + lu_error) * fro n 1 z /\
  (* the printed error of the solution *)
  0 <= e2 /\ (forall B, feq n n (mmul n B A) (MatFun.mid (R := Rring)) -> fro n n B * lu_error < 1 ->
    e2 * fro n 1 x <= fro n n B * lu_error / (1 - fro n n B * lu_error) * fro n 1 x).

Lemma h_lu_solved setting rn tol eps K pts n admis (NS : setting <> "naive"%string) (He : Qeq_bool eps 0 = false) (E0 : 0 <= Q2R eps)
  (Es : Q2R eps * Q2R eps * INR n < 1) (Ht : 0 <= tol) (HK : positional K = true) :
  let Or := real_arith setting rn tol in
  forall dgetrf, lu_contract (R := Rring) dgetrf ->
  forall QS ax fuel k nleaf t A x e1 e2 z up, (1 <= k)%Z -> (0 < n)%nat -> d_r x = n -> d_c x = 1%nat ->
  cluster_tree fuel (IR 0 (Z.of_nat n)) (IR 0 (Z.of_nat n)) k k nleaf = Ok t -> regular t ->
  hierarchical (kernel_init K pts (is_admissible PositionBased [] admis) (lowrank_eps tol eps)) fuel (IR 0 (Z.of_nat n)) (IR 0 (Z.of_nat n)) k k nleaf = Ok A ->
  valid ax -> bounded n ax -> asize ax = n -> CommonTree.fit QS ax ax A -> hodlr A -> (updates A <= up)%nat ->
  h_lu Or (lowrank_eps tol eps) (no_exchange (R := Rring) dgetrf) fuel K pts n nleaf k admis x = Ok (e1, e2, z) ->
  exists F L U, kernel_fill K pts n n 0 0 = Ok F /\ getrf (R := Rring) inv_of Or fuel (no_exchange (R := Rring) dgetrf) fuel A = Ok (L, U) /\
    (udiag (R := Rring) inv_of U -> solved n (Q2R eps) tol up (d_e F) (ent A) (ent L) (ent U) (d_e x) (ent z) e1 e2).
Proof.
  intros Or dgetrf HX QS ax fuel k nleaf t A x e1 e2 z up Hk Hn X1 X2 HT Hr HA Vx Bx Ax FA Hd Hup H.
  destruct (h_lu_inv _ _ _ _ _ _ _ _ _ _ _ _ _ _ H) as [F [A' [b [L [U [y [H1 [H2 [H3 [H4 [H5 [H6 [H7 H8]]]]]]]]]]]]].
  rewrite HA in H2. inversion H2; subst A'. clear H2 H. exists F, L, U. split; auto. split; auto. intros HU.
  destruct (GemmSucc.fit_dims QS ax ax A Vx Vx FA) as [N1 N2]. rewrite Ax in N1, N2.
  destruct (GemmSucc.fit_wf QS ax ax A Vx Vx FA) as [WA _].
  assert (U1 : 0 <= Q2R eps < 1).
  { split; auto. assert (1 <= INR n) by (apply (le_INR 1); lia). destruct (Rlt_le_dec (Q2R eps) 1); auto. exfalso. nra. }
  destruct (kernel_fill_inv _ _ _ _ _ _ _ H1) as [F1 [F2 _]].
  pose proof (real_shape setting rn tol NS) as OS. fold Or in OS.
  assert (TS : tri_shape A) by (apply lu_tri_shape; apply (fit_lu_shape QS A ax Vx FA)).
  pose proof (hodlr_weak A Hd) as WK.
  pose proof (built_gtree tol eps K pts n admis E0 Es Ht QS ax fuel k nleaf A Bx FA Hd HA) as G.
  pose proof (built_error tol eps K pts n admis E0 Ht HK fuel k nleaf t A F Hk HT Hr HA H1) as BE.
  destruct (gemm_no_lr (R := Rring) Or OS fuel A (MD x) (MD (d_zeros n 1)) _ _ false false b WA I I I (trans_ok_notrans A (MD x) (MD (d_zeros n 1))) H3) as [Wb [Lb Vb]].
  destruct b as [b|?|? ? ?|? ?]; try (exfalso; exact Lb). destruct Lb as [B1 B2]. cbn [d_zeros d_r d_c] in B1, B2.
  assert (EB : feq n 1 (d_e b) (mmul n (ent A) (d_e x))).
  { intros i j Hi Hj. cbn [nrows ncols d_zeros d_r d_c ent] in Vb. rewrite (Vb i j Hi Hj). unfold gemm_value, MatFun.madd, mscale, mop. cbn [opc ent d_zeros d_e].
    rewrite N2. generalize (mmul n (ent A) (d_e x) i j). intros p. unfold mzero. rr. }
  pose proof (C81_weak eps (Q2R eps) 0 Or U1 OS (real_accurate_add setting rn tol eps 0 NS He E0) inv_of fuel dgetrf HX fuel A L U WA TS WK G HU H5) as LE.
  cbv zeta in LE. rewrite N1 in LE.
  assert (LE' : fro n n (msub (ent A) (mmul n (ent L) (ent U))) <= lu_bound (Q2R eps) up * (fro n n (ent L) * fro n n (ent U))).
  { eapply Rle_trans; [exact LE|]. apply Rmult_le_compat_r; [apply Rmult_le_pos; apply fro_nonneg|]. apply lu_bound_mono; auto. }
  clear LE. unfold solved. set (lo := sqrt (INR n) * Q2R eps * fro n n (d_e F) + tol * INR n).
  set (le := lu_bound (Q2R eps) up * (fro n n (ent L) * fro n n (ent U))) in *.
  assert (P0 : 0 <= le) by (apply Rmult_le_pos; [apply lu_bound_pos; auto|apply Rmult_le_pos; apply fro_nonneg]).
  destruct (solve_perturbed Or OS inv_of fuel dgetrf HX fuel A L U (MD b) y z le WA (weak_lu_shape A WK TS) I) as [SL [E [E1 E2]]]; auto.
  { destruct A; exact I. } { cbn [nrows]. congruence. } { rewrite N1. exact LE'. }
  rewrite N1 in E1, E2. cbn [ncols ent] in E2. rewrite B2 in E2.
  destruct z as [z|?|? ? ?|? ?]; try (exfalso; exact SL). destruct SL as [Z1 Z2]. cbn [ent] in *.
  assert (E3 : feq n 1 (mmul n (madd (ent A) E) (d_e z)) (mmul n (ent A) (d_e x))) by (eapply (feq_trans (R := Rring)); [exact E2|exact EB]).
  destruct (l2_bound fuel (MD F) A e1 I WA H4) as [L1 L2]. cbn [nrows ncols ent] in L2. rewrite F1, F2 in L2.
  destruct (l2_bound fuel (MD x) (MD z) e2 I I H8) as [L3 L4]. cbn [nrows ncols ent] in L4. rewrite X1, X2 in L4.
  split; auto. split; [eapply Rle_trans; [exact L2|exact BE]|]. split; [exact BE|]. split; [exact LE'|].
  split; [exists E; auto|]. split.
  - assert (FE : feq n 1 (msub (mmul n (d_e F) (d_e z)) (mmul n (ent A) (d_e x))) (mmul n (msub (msub (d_e F) (ent A)) E) (d_e z))).
    { intros i j Hi Hj. unfold MatFun.msub at 1. rewrite <- (E3 i j Hi Hj). unfold MatFun.mmul, MatFun.madd, MatFun.msub.
      rewrite <- (sum_sub (R := Rring)). apply (sum_ext (R := Rring)). intros q _. generalize (d_e F i q) (ent A i q) (E i q) (d_e z q j). intros p1 p2 p3 p4. rr. }
    rewrite (fro_ext _ _ _ _ FE). eapply Rle_trans; [apply fro_mul|]. apply Rmult_le_compat_r; [apply fro_nonneg|].
    eapply Rle_trans; [apply fro_sub|]. apply Rplus_le_compat; auto.
  - split; auto. intros B HB HS. eapply Rle_trans; [exact L4|].
    apply (forward_error n (ent A) E B (d_e x) (d_e z) le); auto.
Qed.

(** N = s*k^(e+1) rows, k parts per level, leaves of at least 2 and at most nleaf, weak
    admissibility, kernels of the position; accuracy eps with eps^2 N < 1; tol is
    LAPACKE_dlamch('e').  [no_exchange]: the run in which LAPACK exchanges no rows of the
    diagonal blocks (the program ignores exchanges, C32). *)
Theorem C82_program : forall setting rn tol eps K pts admis dgetrf,
  setting <> "naive"%string -> Qeq_bool eps 0 = false -> 0 <= Q2R eps -> 0 <= tol -> positional K = true -> (0 <= admis < 1)%Q ->
  lu_contract (R := Rring) dgetrf ->
  forall s k nleaf e, (2 <= k)%Z -> (2 <= s <= nleaf)%Z ->
  let n := (Z.to_nat s * Z.to_nat k ^ S e)%nat in Q2R eps * Q2R eps * INR n < 1 ->
  let Or := real_arith setting rn tol in
  forall fuel x e1 e2 z, d_r x = n -> d_c x = 1%nat ->
  h_lu Or (lowrank_eps tol eps) (no_exchange (R := Rring) dgetrf) fuel K pts n nleaf k admis x = Ok (e1, e2, z) ->
  exists F A L U, kernel_fill K pts n n 0 0 = Ok F /\
    hierarchical (kernel_init K pts (is_admissible PositionBased [] admis) (lowrank_eps tol eps)) fuel
      (IR 0 (Z.of_nat n)) (IR 0 (Z.of_nat n)) k k nleaf = Ok A /\
    getrf (R := Rring) inv_of Or fuel (no_exchange (R := Rring) dgetrf) fuel A = Ok (L, U) /\
    (udiag (R := Rring) inv_of U ->
     solved n (Q2R eps) tol ((Z.to_nat k - 1) * S e) (d_e F) (ent A) (ent L) (ent U) (d_e x) (ent z) e1 e2).
Proof.
  intros setting rn tol eps K pts admis dgetrf NS He E0 Ht HK Ha HX s k nleaf e Hk Hs n Es Or fuel x e1 e2 z X1 X2 H.
  destruct (h_lu_inv _ _ _ _ _ _ _ _ _ _ _ _ _ _ H) as [_ [A [_ [_ [_ [_ [_ [HA _]]]]]]]].
  assert (En : ir_n (IR 0 (Z.of_nat n)) = (s * k ^ Z.of_nat (S e))%Z).
  { cbn [ir_n]. unfold n. rewrite Nat2Z.inj_mul, Nat2Z.inj_pow, !Z2Nat.id by lia. reflexivity. }
  destruct (hierarchical_inv _ _ _ _ _ _ _ _ HA) as [t [HT _]].
  destruct (built_pow tol eps K pts admis Ha s k nleaf e fuel A Hk Hs HA) as [FA [Hd [Vx [Bx Ax]]]]. fold n in FA, Vx, Bx, Ax.
  assert (Rt : regular t) by (apply (regular_pow fuel (IR 0 (Z.of_nat n)) (IR 0 (Z.of_nat n)) k k nleaf s s e t); auto; lia).
  assert (Kn : (2 <= Z.to_nat k)%nat) by lia. assert (Sn : (1 <= Z.to_nat s)%nat) by lia.
  assert (Hn : (0 < n)%nat).
  { unfold n. assert (1 <= Z.to_nat k ^ S e)%nat by (apply (Nat.pow_le_mono_r (Z.to_nat k) 0 (S e)); lia). nia. }
  destruct (h_lu_solved setting rn tol eps K pts n admis NS He E0 Es Ht HK dgetrf HX (fun _ _ => True) (uniform n (Z.to_nat k) (S e)) fuel k nleaf t A x e1 e2 z
    ((Z.to_nat k - 1) * S e)) as [F [L [U [R1 [R2 R3]]]]]; auto; try lia.
  - exact (updates_uniform _ _ _ Kn A (S e) FA).
  - exists F, A, L, U. auto.
Qed.
Print Assumptions C82_program.

(** With 2 parts per level, leaves of at least 3 and any N above 3. *)
Theorem C82_program_any_size : forall setting rn tol eps K pts admis dgetrf,
  setting <> "naive"%string -> Qeq_bool eps 0 = false -> 0 <= Q2R eps -> 0 <= tol -> positional K = true -> (0 <= admis < 1)%Q ->
  lu_contract (R := Rring) dgetrf ->
  forall n nleaf, (3 <= nleaf)%nat -> (3 < n)%nat -> Q2R eps * Q2R eps * INR n < 1 ->
  let Or := real_arith setting rn tol in
  forall fuel x e1 e2 z, d_r x = n -> d_c x = 1%nat ->
  h_lu Or (lowrank_eps tol eps) (no_exchange (R := Rring) dgetrf) fuel K pts n (Z.of_nat nleaf) 2 admis x = Ok (e1, e2, z) ->
  exists F A L U, kernel_fill K pts n n 0 0 = Ok F /\
    hierarchical (kernel_init K pts (is_admissible PositionBased [] admis) (lowrank_eps tol eps)) fuel
      (IR 0 (Z.of_nat n)) (IR 0 (Z.of_nat n)) 2 2 (Z.of_nat nleaf) = Ok A /\
    getrf (R := Rring) inv_of Or fuel (no_exchange (R := Rring) dgetrf) fuel A = Ok (L, U) /\
    (udiag (R := Rring) inv_of U ->
     solved n (Q2R eps) tol (updates A) (d_e F) (ent A) (ent L) (ent U) (d_e x) (ent z) e1 e2).
Proof.
  intros setting rn tol eps K pts admis dgetrf NS He E0 Ht HK Ha HX n nleaf Hl Hn Es Or fuel x e1 e2 z X1 X2 H.
  destruct (h_lu_inv _ _ _ _ _ _ _ _ _ _ _ _ _ _ H) as [_ [A [_ [_ [_ [_ [_ [HA _]]]]]]]].
  destruct (hierarchical_inv _ _ _ _ _ _ _ _ HA) as [t [HT _]].
  destruct fuel as [|f]; [discriminate|].
  destruct (built_any tol eps K pts n admis Ha f nleaf A Hl Hn HA) as [FA [Hd [Vx [Bx Ax]]]].
  assert (Rt : regular t) by (apply (regular_two (S f) (IR 0 (Z.of_nat n)) (IR 0 (Z.of_nat n)) 2 2 (Z.of_nat nleaf) t); auto; cbn [ir_n]; lia).
  destruct (h_lu_solved setting rn tol eps K pts n admis NS He E0 Es Ht HK dgetrf HX (fun _ _ => True) (UnevenTree.cuts f n 2 nleaf) (S f) 2 (Z.of_nat nleaf) t A x e1 e2 z
    (updates A)) as [F [L [U [R1 [R2 R3]]]]]; auto; try lia.
  exists F, A, L, U. auto.
Qed.
Print Assumptions C82_program_any_size.

(** The run returns whenever the constructor does: the compression of a block can fail
    (C38), additions with an accuracy and block LU cannot.  [returns dgetrf]: LAPACK does,
    with or without exchanges. *)
Theorem C82_returns : forall setting rn tol eps K pts admis dgetrf,
  setting <> "naive"%string -> Qeq_bool eps 0 = false -> 0 <= Q2R eps -> 0 <= tol -> (0 <= admis < 1)%Q -> Prop_Success.returns dgetrf ->
  forall s k nleaf e x, (2 <= k)%Z -> (2 <= s <= nleaf)%Z ->
  let n := (Z.to_nat s * Z.to_nat k ^ S e)%nat in Q2R eps * Q2R eps * INR n < 1 ->
  enough pts n -> (K = KCauchy2d -> (2 <= List.length pts)%nat) -> d_r x = n -> d_c x = 1%nat ->
  forall f0 A, hierarchical (kernel_init K pts (is_admissible PositionBased [] admis) (lowrank_eps tol eps)) f0
      (IR 0 (Z.of_nat n)) (IR 0 (Z.of_nat n)) k k nleaf = Ok A ->
  exists F, forall fuel, (F <= fuel)%nat -> exists e1 e2 z,
    h_lu (real_arith setting rn tol) (lowrank_eps tol eps) dgetrf fuel K pts n nleaf k admis x = Ok (e1, e2, MD z) /\ d_r z = n /\ d_c z = 1%nat.
Proof.
  intros setting rn tol eps K pts admis dgetrf NS He E0 Ht Ha HG s k nleaf e x Hk Hs n Es HP HK X1 X2 f0 A HA.
  destruct (built_pow tol eps K pts admis Ha s k nleaf e f0 A Hk Hs HA) as [FA [Hd [Vx [Bx Ax]]]]. fold n in FA, Vx, Bx, Ax.
  pose proof (built_gtree tol eps K pts n admis E0 Es Ht (fun _ _ => True) _ f0 k nleaf A Bx FA Hd HA) as G.
  apply (h_lu_returns (real_arith setting rn tol) (fun _ _ => True) eps_block (fun _ => False) (real_shape setting rn tol NS) (real_halt setting rn tol NS)
    (eps_policy setting rn tol NS) dgetrf HG (lowrank_eps tol eps) K pts n k nleaf admis x (uniform n (Z.to_nat k) (S e)) A f0); auto.
  apply (hodlr_eps_blocks eps); auto.
Qed.
Print Assumptions C82_returns.

Theorem C82_returns_any_size : forall setting rn tol eps K pts admis dgetrf,
  setting <> "naive"%string -> Qeq_bool eps 0 = false -> 0 <= Q2R eps -> 0 <= tol -> (0 <= admis < 1)%Q -> Prop_Success.returns dgetrf ->
  forall n nleaf x, (3 <= nleaf)%nat -> (3 < n)%nat -> Q2R eps * Q2R eps * INR n < 1 ->
  enough pts n -> (K = KCauchy2d -> (2 <= List.length pts)%nat) -> d_r x = n -> d_c x = 1%nat ->
  forall f0 A, hierarchical (kernel_init K pts (is_admissible PositionBased [] admis) (lowrank_eps tol eps)) f0
      (IR 0 (Z.of_nat n)) (IR 0 (Z.of_nat n)) 2 2 (Z.of_nat nleaf) = Ok A ->
  exists F, forall fuel, (F <= fuel)%nat -> exists e1 e2 z,
    h_lu (real_arith setting rn tol) (lowrank_eps tol eps) dgetrf fuel K pts n (Z.of_nat nleaf) 2 admis x = Ok (e1, e2, MD z) /\ d_r z = n /\ d_c z = 1%nat.
Proof.
  intros setting rn tol eps K pts admis dgetrf NS He E0 Ht Ha HG n nleaf x Hl Hn Es HP HK X1 X2 [|f0] A HA; [discriminate|].
  destruct (built_any tol eps K pts n admis Ha f0 nleaf A Hl Hn HA) as [FA [Hd [Vx [Bx Ax]]]].
  pose proof (built_gtree tol eps K pts n admis E0 Es Ht (fun _ _ => True) _ (S f0) 2 (Z.of_nat nleaf) A Bx FA Hd HA) as G.
  apply (h_lu_returns (real_arith setting rn tol) (fun _ _ => True) eps_block (fun _ => False) (real_shape setting rn tol NS) (real_halt setting rn tol NS)
    (eps_policy setting rn tol NS) dgetrf HG (lowrank_eps tol eps) K pts n 2 (Z.of_nat nleaf) admis x (UnevenTree.cuts f0 n 2 nleaf) A (S f0)); auto.
  apply (hodlr_eps_blocks eps); auto.
Qed.
Print Assumptions C82_returns_any_size.

(** ** Example *)

(** Two levels: block LU of a 2 by 2 matrix with Dense blocks on the diagonal calls no
    low-rank arithmetic. *)
Lemma product_dense Or Or' gf (a b : lowrank) c al : acc_gemm (R := Rring) Or gf al (ML a) (ML b) (MD c) = acc_gemm (R := Rring) Or' gf al (ML a) (ML b) (MD c) /\
  forall y, acc_gemm (R := Rring) Or gf al (ML a) (ML b) (MD c) = Ok y -> exists d, y = MD d.
Proof.
  unfold acc_gemm. destruct gf as [|gf]; [split; [reflexivity|discriminate]|]. unfold gemm. cbn [gemm_pair fst]. unfold gemm_step.
  split; [reflexivity|]. intros y H. repeat (apply assert_Ok in H; destruct H as [_ H]). repeat (apply bind_Ok in H; destruct H as [? [_ H]]). inversion H. eauto.
Qed.
Lemma flat_lu Or Or' gf dg fuel (E : nat -> nat -> matrix) a b c d :
  E 0%nat 0%nat = MD a -> E 0%nat 1%nat = ML b -> E 1%nat 0%nat = ML c -> E 1%nat 1%nat = MD d ->
  getrf (R := Rring) inv_of Or gf dg fuel (MH 2 2 E) = getrf (R := Rring) inv_of Or' gf dg fuel (MH 2 2 E).
Proof.
  intros Ea Eb Ec Ed. destruct fuel as [|fuel]; [reflexivity|]. cbn [getrf Nat.leb for_loop].
  assert (RD : forall x, getrf (R := Rring) inv_of Or gf dg fuel (MD x) = getrf (R := Rring) inv_of Or' gf dg fuel (MD x)) by (intros x; destruct fuel; reflexivity).
  cbn [bind]. unfold lu_step. cbn [fst snd Nat.sub for_loop bind Nat.add]. rewrite Ea, RD.
  destruct (getrf (R := Rring) inv_of Or' gf dg fuel (MD a)) as [[Li Ui]| | | |] eqn:EG; [|cbn [bind]; reflexivity..]. cbn [bind fst snd].
  destruct fuel as [|fuel]; [discriminate|]. cbn [getrf] in EG. apply bind_Ok in EG. destruct EG as [[l u] [EG EG']]. inversion EG'; subst Li Ui. clear EG EG'.
  unfold bupd. cbn [Nat.eqb andb]. rewrite Ec. cbn [trsm].
  destruct (d_trsm (R := Rring) inv_of u (side_factor SRight c) Upper SRight) as [y| | | |]; [|cbn [bind]; reflexivity..]. cbn [bind fst snd Nat.eqb andb trsm nrows ncols]. rewrite Eb. cbn [trsm].
  destruct (d_trsm (R := Rring) inv_of l (side_factor SLeft b) Lower SLeft) as [z| | | |]; [|cbn [bind]; reflexivity..]. cbn [bind fst snd Nat.eqb andb trsm nrows ncols].
  rewrite Ed. destruct (product_dense Or Or' gf (set_factor SRight c y) (set_factor SLeft b z) d rm1) as [P1 P2]. rewrite P1 in *.
  revert P2. generalize (acc_gemm (R := Rring) Or' gf rm1 (ML (set_factor SRight c y)) (ML (set_factor SLeft b z)) (MD d)). intros [w| | | |] P2; [|cbn [bind]; reflexivity..].
  destruct (P2 w eq_refl) as [w' ->]. cbn [bind fst snd Nat.eqb andb]. rewrite (RD w'). reflexivity.
Qed.

(** The identity of order 2 s in four blocks, for every s: the program returns and its
    results are as described. *)
Example C82_ex setting rn tol eps pts admis s x :
  setting <> "naive"%string -> Qeq_bool eps 0 = false -> 0 <= Q2R eps -> 0 <= tol -> (0 <= admis < 1)%Q -> (2 <= s)%nat ->
  Q2R eps * Q2R eps * INR (s * 2 ^ 1) < 1 -> enough pts (s * 2 ^ 1) -> d_r x = (s * 2 ^ 1)%nat -> d_c x = 1%nat ->
  let Or := real_arith setting rn tol in
  exists fuel e1 e2 z F A L U,
    h_lu Or (lowrank_eps tol eps) (no_exchange (R := Rring) dgetf2) fuel KIdentity pts (s * 2 ^ 1) (Z.of_nat s) 2 admis x = Ok (e1, e2, z) /\
    feq (s * 2 ^ 1) (s * 2 ^ 1) (d_e F) (MatFun.mid (R := Rring)) /\
    solved (s * 2 ^ 1) (Q2R eps) tol 1 (d_e F) (ent A) (ent L) (ent U) (d_e x) (ent z) e1 e2.
Proof.
  intros NS He E0 Ht Ha Hs Es HP X1 X2 Or.
  assert (Es' : Q2R eps * Q2R eps * INR s < 1).
  { eapply Rle_lt_trans; [|exact Es]. apply Rmult_le_compat_l; [apply Rmult_le_pos; auto|]. apply le_INR. cbn. lia. }
  assert (EN : (2 * s = s * 2 ^ 1)%nat) by (cbn; lia).
  assert (EK : (Z.to_nat 2 ^ 1 = 2 ^ 1)%nat) by reflexivity.
  destruct (weak_identity pts 2 2 s tol eps admis 0 Hs Ht E0 Es' Ha) as [E0' [HA0 _]]. rewrite EN in HA0. unfold rng in HA0. change (Z.of_nat 2) with 2%Z in HA0.
  destruct (C82_returns setting rn tol eps KIdentity pts admis dgetf2 NS He E0 Ht Ha dgetf2_returns (Z.of_nat s) 2 (Z.of_nat s) 0 x) with (f0 := 2%nat) (A := MH 2 2 E0') as [F HF];
    try rewrite Nat2Z.id; auto; try lia; try discriminate.
  rewrite Nat2Z.id in HF. change (Z.to_nat 2 ^ 1)%nat with (2 ^ 1)%nat in HF.
  destruct (HF (S (S F)) ltac:(lia)) as [e1 [e2 [z [H [Z1 Z2]]]]]. clear HF HA0 E0'.
  destruct (weak_identity pts 2 2 s tol eps admis F Hs Ht E0 Es' Ha) as [E [HA [GT EE]]]. rewrite EN in HA. unfold rng in HA. change (Z.of_nat 2) with 2%Z in HA.
  destruct (h_lu_inv _ _ _ _ _ _ _ _ _ _ _ _ _ _ H) as [D [A' [b [L [U [y [H1 [H2 [H3 [H4 [H5 [H6 [H7 H8]]]]]]]]]]]]].
  rewrite HA in H2. inversion H2; subst A'. clear H2 H.
  set (fu := S (S F)) in *.
  destruct (built_pow tol eps KIdentity pts admis Ha (Z.of_nat s) 2 (Z.of_nat s) 0 fu (MH 2 2 E)) as [FA [Hd [Vx [Bx Ax]]]]; [lia|lia| |].
  { rewrite Nat2Z.id. exact HA. }
  rewrite Nat2Z.id in FA, Vx, Bx, Ax. change (Z.to_nat 2 ^ 1)%nat with (2 ^ 1)%nat in FA, Vx, Bx, Ax. change (Z.to_nat 2) with 2%nat in FA, Vx, Bx, Ax.
  destruct (GemmSucc.fit_dims _ _ _ _ Vx Vx FA) as [N1 N2]. destruct (GemmSucc.fit_wf _ _ _ _ Vx Vx FA) as [WA _]. rewrite Ax in N1, N2.
  assert (FL : exists a b c d, E 0%nat 0%nat = MD a /\ E 0%nat 1%nat = ML b /\ E 1%nat 0%nat = ML c /\ E 1%nat 1%nat = MD d).
  { destruct Hd as [_ [D1 D2]].
    destruct (GT 0%nat 0%nat ltac:(lia) ltac:(lia)) as [_ [_ [_ G0]]]. destruct (GT 1%nat 1%nat ltac:(lia) ltac:(lia)) as [_ [_ [_ G1]]].
    pose proof (D1 0%nat ltac:(lia)) as D10. pose proof (D1 1%nat ltac:(lia)) as D11.
    destruct (D2 0%nat 1%nat) as [b' Eb]; [lia|lia|lia|]. destruct (D2 1%nat 0%nat) as [c' Ec]; [lia|lia|lia|].
    destruct (E 0%nat 0%nat) as [a'|?|? ? ?|? ?] eqn:Ea; try (exfalso; exact D10); try (exfalso; exact G0).
    destruct (E 1%nat 1%nat) as [d'|?|? ? ?|? ?] eqn:Ed; try (exfalso; exact D11); try (exfalso; exact G1).
    exists a', b', c', d'. auto. }
  destruct FL as [a' [b' [c' [d' [Ea [Eb [Ec Ed]]]]]]].
  fold Or in H3, H5, H6, H7.
  rewrite (flat_lu Or (exact_oracles (R := Rring)) fu dgetf2 fu E a' b' c' d') in H5 by auto.
  assert (EI : feq (s * 2 ^ 1) (s * 2 ^ 1) (MatFun.mid (R := Rring)) (ent (MH 2 2 E))).
  { apply (feq_sym (R := Rring)). rewrite <- N1 at 1. rewrite <- N2. apply ent_blocks. intros bi bj i j Hbi Hbj Hi Hj.
    assert (Oh : forall k, (k < 2)%nat -> offs (bheight E) k = (k * s)%nat /\ bheight E k = s).
    { intros k Hk. unfold bheight. destruct (GT k 0%nat Hk ltac:(lia)) as [_ [Hh _]]. split; [|exact Hh].
      destruct k as [|[|k]]; [reflexivity| |lia]. cbn [offs]. destruct (GT 0%nat 0%nat ltac:(lia) ltac:(lia)) as [_ [Hh0 _]]. rewrite Hh0. lia. }
    assert (Ow : forall k, (k < 2)%nat -> offs (bwidth E) k = (k * s)%nat /\ bwidth E k = s).
    { intros k Hk. unfold bwidth. destruct (GT 0%nat k ltac:(lia) Hk) as [_ [_ [Hw _]]]. split; [|exact Hw].
      destruct k as [|[|k]]; [reflexivity| |lia]. cbn [offs]. destruct (GT 0%nat 0%nat ltac:(lia) ltac:(lia)) as [_ [_ [Hw0 _]]]. rewrite Hw0. lia. }
    destruct (Oh bi Hbi) as [O1 O2]. destruct (Ow bj Hbj) as [O3 O4]. rewrite O1, O3. rewrite O2 in Hi. rewrite O4 in Hj.
    rewrite (EE bi bj Hbi Hbj i j Hi Hj). unfold MatFun.mid, mzero.
    destruct (Nat.eqb_spec bi bj) as [->|Nb].
    - destruct (Nat.eqb_spec i j); destruct (Nat.eqb_spec (bj * s + i) (bj * s + j)); try lia; reflexivity.
    - destruct (Nat.eqb_spec (bi * s + i) (bj * s + j)) as [Q|]; [exfalso|reflexivity].
      destruct bi as [|[|bi]]; destruct bj as [|[|bj]]; lia. }
  destruct (dominant_run exact (exact_oracles (R := Rring)) exact_oracles_near fu fu (MH 2 2 E) L U WA (fit_lu_shape _ _ _ Vx FA)) as [G1 G2]; auto.
  { left. auto. }
  { rewrite N1. apply (Dominant.cdom_ext _ (MatFun.mid (R := Rring))); [exact EI|]. intros j Hj. unfold MatFun.mid at 2. rewrite Nat.eqb_refl.
    change (Dominant.off (s * 2 ^ 1) j (fun i => Rabs (MatFun.mid (R := Rring) i j)) < Rabs 1). rewrite Rabs_R1. unfold Dominant.off.
    rewrite (sum_zero' (R := Rring)); [apply Rlt_0_1|]. intros i Hi. destruct (Nat.eqb_spec i j) as [|Nij]; [reflexivity|].
    unfold MatFun.mid. destruct (Nat.eqb_spec i j); [contradiction|]. apply Rabs_R0. }
  rewrite <- (flat_lu Or (exact_oracles (R := Rring)) fu (no_exchange (R := Rring) dgetf2) fu E a' b' c' d') in G1 by auto.
  assert (RN : h_lu Or (lowrank_eps tol eps) (no_exchange (R := Rring) dgetf2) fu KIdentity pts (s * 2 ^ 1) (Z.of_nat s) 2 admis x = Ok (e1, e2, MD z)).
  { unfold h_lu. rewrite H1. cbn [bind]. rewrite HA. cbn [bind]. rewrite H3. cbn [bind]. rewrite H4. cbn [bind]. rewrite G1. cbn [bind].
    rewrite H6. cbn [bind]. rewrite H7. cbn [bind]. rewrite H8. reflexivity. }
  destruct (C82_program setting rn tol eps KIdentity pts admis dgetf2 NS He E0 Ht eq_refl Ha dgetf2_contract (Z.of_nat s) 2 (Z.of_nat s) 0 ltac:(lia) ltac:(lia)) with
    (fuel := fu) (x := x) (e1 := e1) (e2 := e2) (z := MD z) as [F' [A' [L' [U' [K1 [K2 [K3 K4]]]]]]]; try rewrite Nat2Z.id; auto.
  rewrite Nat2Z.id in *. change (Z.to_nat 2 ^ 1)%nat with (2 ^ 1)%nat in *. change ((Z.to_nat 2 - 1) * 1)%nat with 1%nat in *.
  rewrite HA in K2. inversion K2; subst A'. fold Or in K3. rewrite G1 in K3. inversion K3; subst L' U'.
  exists fu, e1, e2, (MD z), F', (MH 2 2 E), L, U. split; [exact RN|]. split; [|exact (K4 G2)].
  destruct (kernel_fill_inv _ _ _ _ _ _ _ K1) as [_ [_ KE]]. intros i j Hi Hj. specialize (KE i j Hi Hj). cbn in KE. inversion KE as [KE'].
  unfold MatFun.mid. destruct (Nat.eqb_spec i j); reflexivity.
Qed.
