(** C80: the parallel programs examples/taskbased_tiled_householder_blr_qr.cpp and
    examples/forkjoin_tiled_householder_blr_qr.cpp print what the sequential one prints,
    whatever the schedule. *)
From Coq Require Import List Arith ZArith QArith Qreals Lia Bool Reals Lra String FunctionalExtensionality Permutation.
From Verif Require Import Prelude Ring MatFun MatSetoid Matrix MatOps MatSpec IndexRange
  ClusterTree Admissible Construct Lapack LowRankAdd Gemm Triangular Kernels ConstructKernel FixedRank L2Error L2Real
  Reflect ReflectSpec QrTiled RealQr SvdRank HouseReal TileKernels Rrqr RrqrLr RrqrDeficient RealLapack Prop_RealAdd Prop_FixedRank
  FroNorm QrErrTile QrErrWhole Prop_QrError TrmmErr BlrBuild BlrCompare QrProgram
  Tasks TaskQr TaskRun Prop_Tasks ForkJoin FjTiled Prop_ForkJoin Prop_QrProgram.
Import ListNotations.
Local Open Scope R_scope.

Notation rgrid := (grid Rring).

(** The common part of the three programs: lines 12-77 of the sequential one, lines 21-161
    of the one with tasks, lines 21-123 of the one with parallel loops.  They differ in how A
    is factored, how Q is formed and how Q^T Q is. *)
Definition qr_main (factor : nat -> nat -> rgrid -> rgrid -> outcome (rgrid * rgrid))
  (form check : nat -> nat -> rgrid -> rgrid -> rgrid -> outcome rgrid)
  (rn : nat -> nat -> rmat) (tol : R) (nd : bool) (fuel : nat) (K : kernel) (pts : list (list R))
  (m n b : nat) (eps admis : Q) : outcome (R * R * R) :=
  let Or := real_arith "rounded_addition" rn tol in
  assert! (n <=? m)%nat in
  if (b =? 0)%nat then UB else
  assert! (m mod b =? 0)%nat in
  assert! (n mod b =? 0)%nat in
  let p := (m / b)%nat in
  let q := (n / b)%nat in
  let build := fun k adm comp =>
    hierarchical (kernel_init k pts (is_admissible PositionBased [] adm) comp) fuel (rng m) (rng n)
      (Z.of_nat p) (Z.of_nat q) (Z.of_nat b) in
  let* D := build K (inject_Z (Z.of_nat p)) (fun d => crank Or d b) in
  let* A := build K admis (lowrank_eps tol eps) in
  let* compression := l2_error fuel D A in
  let* a := grid_of A in
  let T := fun i j => let k := if (i <? j)%nat then 0%nat else b in MD (d_zeros k k) in
  let* (a', T') := factor p q a T in
  let* Q := build KIdentity admis (lowrank_eps tol eps) in
  let* c := grid_of Q in
  let* c' := form p q a' T' c in
  let R := MH q q (fun i j => if (i <=? j)%nat then a' i j else ME 0 0) in
  let* QR := trmm Or fuel nd fuel R (MH p q c') SRight Upper false false (1%r : car Rring) in
  let* residual := l2_error fuel D QR in
  let* c2 := check p q a' T' c' in
  let* one := kernel_fill KIdentity [] n n 0 0 in
  let* orthogonality := l2_error fuel (MD one) (MH q q c2) in
  Ok (compression, residual, orthogonality).

(** The sequential program is of this form. *)
Lemma sequential_main rn tol nd fuel K pts m n b eps admis :
  blr_qr rn tol nd fuel K pts m n b eps admis =
  let Or := real_arith "rounded_addition" rn tol in
  qr_main (fun p q a T => tiled_qr Or (wy_qrt (R := Rring) dlarfg) p q a p q T)
    (fun p q a T c => tiled_apply Or p q a T c false) (fun p q a T c => tiled_apply Or p q a T c true)
    rn tol nd fuel K pts m n b eps admis.
Proof. reflexivity. Qed.

(** What is found in the memory when the tasks are done; Abort if one of them failed. *)
Definition collect (p q : nat) (get : nat -> nat -> option (matrix Rring)) : outcome rgrid :=
  if forallb (fun i => forallb (fun j => match get i j with Some _ => true | None => false end) (seq 0 q)) (seq 0 p)
  then Ok (fun i j => match get i j with Some x => x | None => ME 0 0 end) else Abort.

Lemma collect_all p q get G : (forall i j, get i j = Some (G i j)) -> collect p q get = Ok G.
Proof.
  intros H. unfold collect. rewrite (proj2 (forallb_forall _ _)).
  - f_equal. apply functional_extensionality; intros i. apply functional_extensionality; intros j. rewrite H. reflexivity.
  - intros i _. apply forallb_forall. intros j _. rewrite H. reflexivity.
Qed.

Section Parallel.
Variables (rn : nat -> nat -> rmat) (tol : R).
Let Or := real_arith "rounded_addition" rn tol.
Let W := wy_qrt (R := Rring) dlarfg.
Let none : rgrid := fun _ _ => ME 0 0.
Let nov : nat -> matrix Rring := fun _ => ME 0 0.

(** Tasks: lines 55-86, 91-112 and 130-151.  s1, s2 and s3 are the orders in which the tasks of
    the three regions are executed. *)
Definition task_qr (s1 s2 s3 : list task) : bool -> nat -> Kernels.kernel -> list (list R) -> nat -> nat -> nat -> Q -> Q -> outcome (R * R * R) :=
  qr_main
    (fun p q a T => let s := exec (factor_run Or W) s1 (enc a T none) in
       let* a' := collect p q (tget s) in let* T' := collect p q (fun i j => s (LT i j)) in Ok (a', T'))
    (fun p q a T c => collect p q (fun i j => exec (q_run Or false) s2 (enc a T c) (LQ i j)))
    (fun p q a T c => collect p q (fun i j => exec (q_run Or true) s3 (enc a T c) (LQ i j)))
    rn tol.

(** Parallel loops: lines 55-68, 74-85 and 103-114.  The orders are those in which the
    iterations of the parallel loops are executed, one loop after the other. *)
Definition fork_qr s1 s2 s3 : bool -> nat -> Kernels.kernel -> list (list R) -> nat -> nat -> nat -> Q -> Q -> outcome (R * R * R) :=
  qr_main
    (fun p q a T => let s := exec (fj_run Or W) s1 (held a T none none nov) in
       let* a' := collect p q (fun i j => s (BA i j)) in let* T' := collect p q (fun i j => s (BT i j)) in Ok (a', T'))
    (fun p q a T c => collect p q (fun i j => exec (fjq_run Or false) s2 (held a T c none nov) (BQ i j)))
    (fun p q a T c => collect p q (fun i j => exec (fjq_run Or true) s3 (held a T c none nov) (BQ i j)))
    rn tol.

(** If each of the three parts returns what the sequential one does, so does the program. *)
Lemma main_sim p q b (f f' : nat -> nat -> rgrid -> rgrid -> outcome (rgrid * rgrid)) (g g' h h' : nat -> nat -> rgrid -> rgrid -> rgrid -> outcome rgrid) :
  (0 < b)%nat ->
  (forall a T r, f p q a T = Ok r -> f' p q a T = Ok r) ->
  (forall a T c r, g p q a T c = Ok r -> g' p q a T c = Ok r) ->
  (forall a T c r, h p q a T c = Ok r -> h' p q a T c = Ok r) ->
  forall nd fuel K pts eps admis r,
  qr_main f g h rn tol nd fuel K pts (p * b) (q * b) b eps admis = Ok r ->
  qr_main f' g' h' rn tol nd fuel K pts (p * b) (q * b) b eps admis = Ok r.
Proof.
  intros Hb Hf Hg Hh nd fuel K pts eps admis r. unfold qr_main.
  destruct (q * b <=? p * b)%nat; [|discriminate].
  destruct (Nat.eqb_spec b 0); [lia|]. rewrite !Nat.mod_mul, !Nat.div_mul by lia. rewrite !Nat.eqb_refl.
  intros H.
  apply bind_Ok in H. destruct H as [D [E1 H]]. rewrite E1. cbn [bind].
  apply bind_Ok in H. destruct H as [A [E2 H]]. rewrite E2. cbn [bind].
  apply bind_Ok in H. destruct H as [e1 [E3 H]]. rewrite E3. cbn [bind].
  apply bind_Ok in H. destruct H as [a [E4 H]]. rewrite E4. cbn [bind].
  apply bind_Ok in H. destruct H as [[a' T'] [E5 H]]. rewrite (Hf _ _ _ E5). cbn [bind].
  apply bind_Ok in H. destruct H as [Q [E6 H]]. rewrite E6. cbn [bind].
  apply bind_Ok in H. destruct H as [c [E7 H]]. rewrite E7. cbn [bind].
  apply bind_Ok in H. destruct H as [c' [E8 H]]. rewrite (Hg _ _ _ _ E8). cbn [bind].
  apply bind_Ok in H. destruct H as [QR [E9 H]]. rewrite E9. cbn [bind].
  apply bind_Ok in H. destruct H as [e2 [E10 H]]. rewrite E10. cbn [bind].
  apply bind_Ok in H. destruct H as [c2 [E11 H]]. rewrite (Hh _ _ _ _ E11). cbn [bind]. exact H.
Qed.

(** dtpqrt2 writes the upper triangle only. *)
Lemma wy_writes_upper : writes_upper W.
Proof.
  intros a b a' v t H. cbn [W tpqrt2 wy_qrt] in H. unfold dtpqrt2 in H.
  assert (G : forall m n k st, let '(A, _, _) := tp_loop (R := Rring) dlarfg m n k st in forall i j, (j < i)%nat -> A i j = fst (fst st) i j).
  { intros m n. induction k as [|k IH]; intros st; cbn [tp_loop]; [destruct st as [[A B] t0]; reflexivity|].
    specialize (IH st). destruct (tp_loop (R := Rring) dlarfg m n k st) as [[A B] t0]. unfold tp_step. destruct (dlarfg _ _) as [y t1].
    intros i j L. rewrite <- (IH i j L). destruct (Nat.eqb_spec i k) as [->|]; [|reflexivity].
    destruct (Nat.eqb_spec j k); [lia|]. destruct (Nat.ltb_spec k j); [lia|]. reflexivity. }
  specialize (G (d_r b) (d_c b) (d_c b) (d_e a, d_e b, fun _ => 0%r)).
  destruct (tp_loop _ _ _ _) as [[A B] t0]. inversion H; subst. cbn [d_r d_c d_e]. auto.
Qed.
End Parallel.

(** Whatever the order of the tasks, as long as it respects the dependences that the program
    declares: same numbers as the sequential program. *)
Theorem C80_tasks : forall rn tol nd fuel K pts p q b eps admis s1 s2 s3 r, (0 < b)%nat ->
  allowed (factor_tasks p q) (waits (factor_tasks p q) factor_in factor_out) s1 ->
  allowed (form_tasks p q) (waits (form_tasks p q) form_inout form_inout) s2 ->
  allowed (check_tasks p q) (waits (check_tasks p q) check_in check_out) s3 ->
  blr_qr rn tol nd fuel K pts (p * b) (q * b) b eps admis = Ok r ->
  task_qr rn tol s1 s2 s3 nd fuel K pts (p * b) (q * b) b eps admis = Ok r.
Proof.
  intros rn tol nd fuel K pts p q b eps admis s1 s2 s3 r Hb A1 A2 A3 H. rewrite sequential_main in H. cbv zeta in H.
  revert H. unfold task_qr. apply main_sim; auto.
  - intros a T [a' T'] E. cbv zeta.
    pose proof (C52_factorization _ _ _ p q (fun _ _ => ME 0 0) a T a' T' s1 (wy_writes_upper) E A1) as X. cbv zeta in X.
    rewrite (collect_all p q _ a') by (intros i j; apply (X i j)). cbn [bind].
    rewrite (collect_all p q _ T') by (intros i j; apply (X i j)). reflexivity.
  - intros a T c c' E. apply collect_all. intros i j. apply (C52_forming_Q _ _ p q a T c c' s2 E A2 i j).
  - intros a T c c' E. apply collect_all. intros i j. apply (C52_checking_Q _ _ p q a T c c' s3 E A3 i j).
Qed.
Print Assumptions C80_tasks.

(** Whatever the order of the iterations of the parallel loops. *)
Theorem C80_forks : forall rn tol nd fuel K pts p q b eps admis s1 s2 s3 r, (0 < b)%nat ->
  orders (factor_phases p q) s1 -> orders (form_phases p q) s2 -> orders (check_phases p q) s3 ->
  blr_qr rn tol nd fuel K pts (p * b) (q * b) b eps admis = Ok r ->
  fork_qr rn tol s1 s2 s3 nd fuel K pts (p * b) (q * b) b eps admis = Ok r.
Proof.
  intros rn tol nd fuel K pts p q b eps admis s1 s2 s3 r Hb A1 A2 A3 H. rewrite sequential_main in H. cbv zeta in H.
  revert H. unfold fork_qr. set (Or := real_arith "rounded_addition" rn tol).
  pose proof (C53_tiled Rring Or (wy_qrt (R := Rring) dlarfg) (fun _ _ => ME 0 0) (fun _ => ME 0 0) p q) as [X1 [X2 X3]].
  apply main_sim; auto.
  - intros a T [a' T'] E. cbv zeta. pose proof (X1 (fun _ _ => ME 0 0) a T a' T' s1 E A1) as X.
    rewrite (collect_all p q _ a') by (intros i j; apply (X (BA i j))). cbn [bind].
    rewrite (collect_all p q _ T') by (intros i j; apply (X (BT i j))). reflexivity.
  - intros a T c c' E. apply collect_all. intros i j. apply (X2 a T c c' s2 E A2 (BQ i j)).
  - intros a T c c' E. apply collect_all. intros i j. apply (X3 a T c c' s3 E A3 (BQ i j)).
Qed.
Print Assumptions C80_forks.

(** So the bounds of C78 hold for the parallel programs, with numbers that do not depend on
    the schedule. *)
Theorem C80_bounds : forall rn tol nd K pts p q b eps admis F f0 M,
  (2 <= b)%nat -> (0 < q)%nat -> (q <= p)%nat -> positional K = true -> kernel_fill K pts (p * b) (q * b) 0 0 = Ok F ->
  0 <= tol -> Qeq_bool eps 0 = false -> 0 <= Q2R eps -> Q2R eps * Q2R eps * INR b < 1 -> (0 <= admis < 1)%Q ->
  hierarchical (kernel_init K pts (is_admissible PositionBased [] admis) (lowrank_eps tol eps)) f0
    (rng (p * b)) (rng (q * b)) (Z.of_nat p) (Z.of_nat q) (Z.of_nat b) = Ok M ->
  let x := fro (p * b) (q * b) (d_e F) in
  let g := qr_growth b (Q2R eps) p q in
  let h := mul_growth (Q2R eps) q in
  let d := left_out b (Q2R eps) tol (p * b) (q * b) x in
  exists f1, forall fuel, (f1 <= fuel)%nat -> exists compression residual orthogonality,
    (forall s1 s2 s3,
       allowed (factor_tasks p q) (waits (factor_tasks p q) factor_in factor_out) s1 ->
       allowed (form_tasks p q) (waits (form_tasks p q) form_inout form_inout) s2 ->
       allowed (check_tasks p q) (waits (check_tasks p q) check_in check_out) s3 ->
       task_qr rn tol s1 s2 s3 nd fuel K pts (p * b) (q * b) b eps admis = Ok (compression, residual, orthogonality)) /\
    (forall s1 s2 s3, orders (factor_phases p q) s1 -> orders (form_phases p q) s2 -> orders (check_phases p q) s3 ->
       fork_qr rn tol s1 s2 s3 nd fuel K pts (p * b) (q * b) b eps admis = Ok (compression, residual, orthogonality)) /\
    0 <= compression /\ compression * x <= d /\
    0 <= residual /\ residual * x <= d + (g + (g + h * (1 + g)) * sqrt (INR (q * b)) * (1 + g)) * (x + d) /\
    0 <= orthogonality <= 2 * g + g * g.
Proof.
  intros rn tol nd K pts p q b eps admis F f0 M Hb Hq Hqp HK HF Ht He E0 Es Ha HM x g h d.
  destruct (C78_program rn tol nd K pts p q b eps admis F f0 M Hb Hq Hqp HK HF Ht He E0 Es Ha HM) as [f1 H].
  exists f1. intros fuel Hf. destruct (H fuel Hf) as [e1 [e2 [e3 [E B]]]]. exists e1, e2, e3.
  split; [|split; [|exact B]].
  - intros s1 s2 s3 A1 A2 A3. apply C80_tasks; auto. lia.
  - intros s1 s2 s3 A1 A2 A3. apply C80_forks; auto. lia.
Qed.
Print Assumptions C80_bounds.

(** 4 points in two places, 2 x 2 tiles: the tasks in the order of C52's example, in which the
    first coupling is done before the update of the first row, and the parallel loops. *)
Lemma in_order {T} (l : list T) (ord : T -> T -> Prop) : (forall a b, ord a b -> before l a b) -> allowed l ord l.
Proof. intros H. split; [apply Permutation_refl|exact H]. Qed.
Lemma orders_self {T} (prog : list (list T)) : orders prog (List.concat prog).
Proof. exists prog. split; [reflexivity|]. induction prog; constructor; auto. Qed.

Example C80_ex : forall rn, exists f1, forall fuel, (f1 <= fuel)%nat -> exists r,
  blr_qr rn 0 false fuel KLaplace [[0; 0; 1; 1]] 4 4 2 (1 # 1000000) 0 = Ok r /\
  late <> factor_tasks 2 2 /\
  task_qr rn 0 late (form_tasks 2 2) (check_tasks 2 2) false fuel KLaplace [[0; 0; 1; 1]] 4 4 2 (1 # 1000000) 0 = Ok r /\
  fork_qr rn 0 (List.concat (factor_phases 2 2)) (List.concat (form_phases 2 2)) (List.concat (check_phases 2 2))
    false fuel KLaplace [[0; 0; 1; 1]] 4 4 2 (1 # 1000000) 0 = Ok r.
Proof.
  intros rn.
  destruct (kernel_fill_intro KLaplace [[0; 0; 1; 1]] (2 * 2) (2 * 2) 0 0) as [F HF].
  { intros i j Hi Hj. do 4 (destruct i as [|i]; [do 4 (destruct j as [|j]; [cbn; eauto|]); lia|]). lia. }
  assert (QE : Q2R (1 # 1000000) = / 1000000) by (unfold Q2R; cbn; lra).
  destruct (C78_deficient 0 KLaplace [[0; 0; 1; 1]] 2 2 2 (1 # 1000000) 0 F ltac:(lia) eq_refl HF) with (f := 0%nat) as [M HM].
  - rewrite QE. lra.
  - split; [apply Qle_refl|reflexivity].
  - intros i j Hi Hj Nij. destruct (kernel_fill_inv _ _ _ _ _ _ _ HF) as [_ [_ EF]].
    exists 1%nat, (fun _ _ => mwin (R := Rring) (i * 2) (j * 2) (d_e F) 0%nat 0%nat), (fun _ _ => 1). split; [lia|]. intros r s Hr Hs.
    pose proof (EF (i * 2 + r)%nat (j * 2 + s)%nat ltac:(lia) ltac:(lia)) as E.
    pose proof (EF (i * 2 + 0)%nat (j * 2 + 0)%nat ltac:(lia) ltac:(lia)) as E'. unfold mwin, mmul. cbn [sum].
    assert (EE : d_e F (i * 2 + r)%nat (j * 2 + s)%nat = d_e F (i * 2 + 0)%nat (j * 2 + 0)%nat).
    { assert ((i = 0%nat /\ j = 1%nat) \/ (i = 1%nat /\ j = 0%nat)) as [[-> ->]|[-> ->]] by lia;
        do 2 (destruct r as [|r]; [do 2 (destruct s as [|s]; [cbn in E, E' |- *; congruence|]); lia|]); lia. }
    rewrite EE. cbn -[Nat.mul Nat.add]. lra.
  - destruct (C78_program rn 0 false KLaplace [[0; 0; 1; 1]] 2 2 2 (1 # 1000000) 0 F 2 M) as [f1 H]; auto; try lia; try reflexivity.
    + lra.
    + rewrite QE. lra.
    + rewrite QE. cbn [INR]. lra.
    + split; [apply Qle_refl|reflexivity].
    + exists f1. intros fuel Hf. destruct (H fuel Hf) as [e1 [e2 [e3 [E _]]]]. exists (e1, e2, e3). split; [exact E|]. split; [discriminate|]. split.
      * apply (C80_tasks rn 0 false fuel KLaplace [[0; 0; 1; 1]] 2 2 2); [lia|exact late_allowed|apply in_order; intros a c [B _]; exact B|apply in_order; intros a c [B _]; exact B|exact E].
      * apply (C80_forks rn 0 false fuel KLaplace [[0; 0; 1; 1]] 2 2 2); [lia|apply orders_self|apply orders_self|apply orders_self|exact E].
Qed.
