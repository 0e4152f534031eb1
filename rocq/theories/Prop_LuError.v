(** C81: block LU with truncating low-rank arithmetic is backward stable with an explicit bound,
    relative to the product of the norms of the factors. *)
From Coq Require Import List Arith ZArith QArith Qreals Lia Bool Reals Lra String Ring_theory Ring.
From Verif Require Import Prelude Ring MatFun MatSetoid Matrix MatOps MatSpec MatOpsProofs Lapack LowRankAdd Gemm GemmSpec
  GemmProofs GemmTheorems Triangular TriSpec SvdRank HouseReal Rrqr RrqrLr RealLapack Prop_RealAdd Prop_FixedRank FroNorm QrErrTile QrErrReal LuErr LuErrBlocks LuErrThm.
From Verif Require Prop_QrError.
Import ListNotations.
Local Open Scope R_scope.

(** [fro r c f]: the Frobenius norm.  [tri_shape A]: square diagonal blocks at every level.
    [weak A]: Dense leaves on the diagonal, LowRank blocks elsewhere, at any number of levels.
    [gtree e A]: LowRank blocks have accuracy e, at least one column in their factors and
    orthonormal left bases.  [udiag rinv U]: the diagonal of U can be divided by.
    [updates A]: with m blocks per row, m - 1 at each level. *)

(** The number of updates of a BLR matrix and of a matrix of halves. *)
Example C81_updates_blr : forall m (a : nat -> nat -> matrix), (forall i, (i < m)%nat -> exists d, a i i = MD d) ->
  updates (MH m m a) = (m - 1)%nat.
Proof.
  intros m a H. cbn [updates]. replace (nmax m (fun i => updates (a i i))) with 0%nat; [lia|].
  induction m as [|m IH]; cbn [nmax]; auto. rewrite <- IH by (intros; apply H; lia). destruct (H m ltac:(lia)) as [d ->]. reflexivity.
Qed.

(** v is the relative error of an addition against its result: u / (1 - u). *)
Definition rel_err (u : R) : R := u / (1 - u).
Lemma rel_err_ok u : 0 <= u < 1 -> u <= rel_err u * (1 - u).
Proof. intros H. unfold rel_err. right. field. lra. Qed.
Lemma rel_err_pos u : 0 <= u < 1 -> 0 <= rel_err u.
Proof. intros H. apply Rmult_le_pos; [lra|]. left. apply Rinv_0_lt_compat. lra. Qed.

Definition lu_bound (u : R) (k : nat) : R := (1 + rel_err u) ^ k - 1.

Lemma lu_bound_small u k : 0 <= u < 1 -> INR k * rel_err u <= 1 -> lu_bound u k <= 2 * (INR k * rel_err u).
Proof.
  intros Hu H. pose proof (rel_err_pos u Hu) as V. pose proof (Prop_QrError.pow_small (rel_err u) k V H) as P.
  pose proof (Rmult_le_pos _ _ (pos_INR k) V) as Q. unfold lu_bound.
  assert (INR k * rel_err u * (INR k * rel_err u) <= INR k * rel_err u * 1) by (apply Rmult_le_compat_l; auto). lra.
Qed.

(** Any low-rank addition with relative error u: the product of the factors. *)
Theorem C81_weak : forall e u nb (Or : oracles Rring), 0 <= u < 1 -> oracles_shape Or -> accurate e u 0 nb (no_compression Or) ->
  forall rinv gfuel dgetrf, lu_contract (R := Rring) dgetrf ->
  forall fuel (A L U : matrix), wf A -> tri_shape A -> weak A -> gtree e A -> udiag (R := Rring) rinv U ->
  getrf (R := Rring) rinv Or gfuel (no_exchange (R := Rring) dgetrf) fuel A = Ok (L, U) ->
  let n := nrows A in
  fro n n (msub (ent A) (mmul n (ent L) (ent U))) <= lu_bound u (updates A) * (fro n n (ent L) * fro n n (ent U)).
Proof.
  intros e u nb Or Hu HS HA rinv gfuel dgetrf HX fuel A L U W TS WK G HU H.
  exact (getrf_weak_err e u (rel_err u) nb Hu (rel_err_ok u Hu) Or HS HA rinv gfuel dgetrf HX fuel A L U W TS WK G HU H).
Qed.
Print Assumptions C81_weak.

(** The additions of the program over the reals: recompression with accuracy e (addition.cpp:93-189). *)
Theorem C81_real : forall setting rn tol e, setting <> "naive"%string -> Qeq_bool e 0 = false -> 0 <= Q2R e < 1 ->
  let Or := real_arith setting rn tol in
  forall rinv gfuel dgetrf, lu_contract (R := Rring) dgetrf ->
  forall fuel (A L U : matrix), wf A -> tri_shape A -> weak A -> gtree e A -> udiag (R := Rring) rinv U ->
  getrf (R := Rring) rinv Or gfuel (no_exchange (R := Rring) dgetrf) fuel A = Ok (L, U) ->
  let n := nrows A in
  let k := updates A in
  let err := fro n n (msub (ent A) (mmul n (ent L) (ent U))) in
  err <= lu_bound (Q2R e) k * (fro n n (ent L) * fro n n (ent U)) /\
  (INR k * rel_err (Q2R e) <= 1 -> err <= 2 * (INR k * rel_err (Q2R e)) * (fro n n (ent L) * fro n n (ent U))).
Proof.
  intros setting rn tol e NS He Hu Or rinv gfuel dgetrf HX fuel A L U W TS WK G HU H n k err.
  pose proof (C81_weak e (Q2R e) 0 Or Hu (real_shape setting rn tol NS) (real_accurate_add setting rn tol e 0 NS He (proj1 Hu))
    rinv gfuel dgetrf HX fuel A L U W TS WK G HU H) as B. cbv zeta in B. fold n k err in B.
  split; [exact B|]. intros Hk. eapply Rle_trans; [exact B|]. apply Rmult_le_compat_r; [apply Rmult_le_pos; apply fro_nonneg|].
  apply lu_bound_small; auto.
Qed.
Print Assumptions C81_real.

(** Solving with the factors solves a nearby system, and leaves a small residual. *)
Theorem C81_solve : forall setting rn tol e, setting <> "naive"%string -> Qeq_bool e 0 = false -> 0 <= Q2R e < 1 ->
  let Or := real_arith setting rn tol in
  forall rinv gfuel dgetrf, lu_contract (R := Rring) dgetrf ->
  forall fuel (A L U b y x : matrix), wf A -> tri_shape A -> weak A -> gtree e A -> udiag (R := Rring) rinv U ->
  getrf (R := Rring) rinv Or gfuel (no_exchange (R := Rring) dgetrf) fuel A = Ok (L, U) ->
  wf b -> conf SLeft A b -> nrows b = nrows A -> no_lr b ->
  trsm (R := Rring) rinv Or gfuel L b Lower SLeft = Ok y -> trsm (R := Rring) rinv Or gfuel U y Upper SLeft = Ok x ->
  let n := nrows A in
  let bound := lu_bound (Q2R e) (updates A) * (fro n n (ent L) * fro n n (ent U)) in
  same_layout b x /\
  (exists E, fro n n E <= bound /\ feq n (ncols b) (mmul n (madd (ent A) E) (ent x)) (ent b)) /\
  fro n (ncols b) (msub (ent b) (mmul n (ent A) (ent x))) <= bound * fro n (ncols b) (ent x).
Proof.
  intros setting rn tol e NS He Hu Or rinv gfuel dgetrf HX fuel A L U b y x W TS WK G HU H Wb Cb Eb Nb Hy Hx n bound.
  pose proof (C81_weak e (Q2R e) 0 Or Hu (real_shape setting rn tol NS) (real_accurate_add setting rn tol e 0 NS He (proj1 Hu))
    rinv gfuel dgetrf HX fuel A L U W TS WK G HU H) as B. cbv zeta in B. fold n bound in B.
  destruct (solve_perturbed Or (real_shape setting rn tol NS) rinv gfuel dgetrf HX fuel A L U b y x bound W
    (weak_lu_shape A WK TS) Wb Cb Eb Nb HU H Hy Hx B) as [S1 [E [E1 E2]]]. fold n in E1, E2.
  split; auto. split; [exists E; auto|].
  assert (F : feq n (ncols b) (msub (ent b) (mmul n (ent A) (ent x))) (mmul n E (ent x))).
  { intros i j Hi Hj. unfold MatFun.msub. rewrite <- (E2 i j Hi Hj). unfold MatFun.mmul, MatFun.madd.
    rewrite <- (sum_sub (R := Rring)). apply (sum_ext (R := Rring)). intros k _. generalize (ent A i k) (E i k) (ent x k j). intros p q r. rr. }
  rewrite (fro_ext _ _ _ _ F). eapply Rle_trans; [apply (fro_mul n n (ncols b) E (ent x))|].
  apply Rmult_le_compat_r; [apply fro_nonneg|exact E1].
Qed.
Print Assumptions C81_solve.

(** Flat block matrices with Dense and LowRank blocks anywhere off the diagonal: products of
    Dense blocks are compressed as well, with an error u * norm + tau. *)
Theorem C81_blr : forall e u tau nb (Or : oracles Rring), Qeq_bool e 0 = false -> 0 <= u < 1 -> 0 <= tau -> accurate e u tau nb Or ->
  forall rinv gfuel dgetrf, lu_contract (R := Rring) dgetrf ->
  forall fuel m (a : nat -> nat -> matrix) (L U : matrix), wf (MH m m a) -> tri_shape (MH m m a) -> flat_blocks e nb m a ->
  udiag (R := Rring) rinv U -> getrf (R := Rring) rinv Or gfuel (no_exchange (R := Rring) dgetrf) fuel (MH m m a) = Ok (L, U) ->
  let n := nrows (MH m m a) in
  let v := (1 + u) * rel_err u in
  let w := (1 + u) / (1 - u) * tau in
  fro n n (msub (ent (MH m m a)) (mmul n (ent L) (ent U))) <=
  ((1 + v) ^ (m - 1) - 1) * (fro n n (ent L) * fro n n (ent U)) + INR m * (w * rsum (m - 1) (fun k => (1 + v) ^ k)).
Proof.
  intros e u tau nb Or He Hu Ht HA rinv gfuel dgetrf HX fuel m a L U W TS FB HU H.
  apply (getrf_flat_err e u tau ((1 + u) * rel_err u) ((1 + u) / (1 - u) * tau) nb He Hu Ht) with (3 := HA) (4 := HX) (5 := W) (9 := H); auto.
  - unfold rel_err. right. field. lra.
  - right. field. lra.
Qed.
Print Assumptions C81_blr.

(** The same with the truncation of the program: u = sqrt nb * e and tau = tol * nb. *)
Theorem C81_blr_real : forall setting rn tol e nb, setting <> "naive"%string -> Qeq_bool e 0 = false -> 0 <= Q2R e -> 0 <= tol -> (0 < nb)%nat ->
  let Or := real_arith setting rn tol in
  let u := sqrt (INR nb) * Q2R e in
  u < 1 ->
  forall rinv gfuel dgetrf, lu_contract (R := Rring) dgetrf ->
  forall fuel m (a : nat -> nat -> matrix) (L U : matrix), wf (MH m m a) -> tri_shape (MH m m a) -> flat_blocks e nb m a ->
  udiag (R := Rring) rinv U -> getrf (R := Rring) rinv Or gfuel (no_exchange (R := Rring) dgetrf) fuel (MH m m a) = Ok (L, U) ->
  let n := nrows (MH m m a) in
  let v := (1 + u) * rel_err u in
  let w := (1 + u) / (1 - u) * (tol * INR nb) in
  fro n n (msub (ent (MH m m a)) (mmul n (ent L) (ent U))) <=
  ((1 + v) ^ (m - 1) - 1) * (fro n n (ent L) * fro n n (ent U)) + INR m * (w * rsum (m - 1) (fun k => (1 + v) ^ k)).
Proof.
  intros setting rn tol e nb NS He E0 T0 Hn Or u Hu rinv gfuel dgetrf HX fuel m a L U W TS FB HU H.
  refine (C81_blr e u (tol * INR nb) nb Or He _ _ (real_accurate setting rn tol e nb NS He E0 T0 Hn) rinv gfuel dgetrf HX fuel m a L U W TS FB HU H).
  - split; auto. apply Rmult_le_pos; auto. apply sqrt_pos.
  - apply Rmult_le_pos; auto. apply pos_INR.
Qed.
Print Assumptions C81_blr_real.

(** Three by three blocks of order 1 with an addition that loses a tenth: the factors of
    (1 1 1; 1 2 3; 1 3 10) multiply to a matrix with 2.8 instead of 3 in two places. *)
Definition one (x : R) : dense := @Dn Rring 1 1 (fun _ _ => x).
Definition lr (x : R) : lowrank := @Lr Rring 1 1 1 (1 # 10) (one 1) (one x) (one 1).
Definition coarse : oracles Rring := {|
  lr_add := fun a b =>
    if (l_r a =? 1)%nat && (l_c a =? 1)%nat && (Qeq_bool (l_eps a) (1 # 10))
    then Ok (lr (9 / 10 * (lr_ent (R := Rring) a 0%nat 0%nat + lr_ent (R := Rring) b 0%nat 0%nat))) else Abort;
  crank := fun _ _ => Abort; ceps := fun _ _ => Abort |}.
Definition one_lu : dense -> outcome (dense * (nat -> nat)) := fun A =>
  if (d_r A =? 1)%nat && (d_c A =? 1)%nat then Ok (A, fun i => i) else Abort.
Definition b81 : nat -> nat -> matrix := fun i j => match i, j with
  | O, O => MD (one 1) | 1%nat, 1%nat => MD (one 2) | 2%nat, 2%nat => MD (one 10)
  | 1%nat, 2%nat => ML (lr 3) | 2%nat, 1%nat => ML (lr 3) | _, _ => ML (lr 1) end.
Definition A81 : matrix := MH 3 3 b81.

(** What a run returns. *)
Definition the (o : outcome (matrix * matrix)) : matrix * matrix := match o with Ok p => p | _ => (A81, A81) end.
Lemma the_ok o : (match o with Ok _ => true | _ => false end) = true -> o = Ok (fst (the o), snd (the o)).
Proof. destruct o as [[L U]| | | |]; try discriminate. reflexivity. Qed.
Definition run81 := getrf (R := Rring) Rinv coarse 2 (no_exchange (R := Rring) one_lu) 2 A81.

(** Diagonal blocks of order 1. *)
Definition small_diag (A : matrix) : bool := match A with
  | MH m _ a => forallb (fun i => match a i i with MD d => (d_r d =? 1)%nat | _ => false end) (seq 0 m) | _ => false end.
Definition diag_ents (A : matrix) : list R := match A with MH m _ a => map (fun i => ent (a i i) 0%nat 0%nat) (seq 0 m) | _ => [] end.
Lemma udiag_1 A : small_diag A = true -> Forall (fun x => x * Rinv x = 1) (diag_ents A) -> udiag (R := Rring) Rinv A.
Proof.
  destruct A as [d|l|m n a|m n]; try discriminate. cbn [small_diag diag_ents udiag]. intros H1 H2 i Hi.
  rewrite forallb_forall in H1. specialize (H1 i (proj2 (in_seq m 0 i) ltac:(lia))).
  rewrite Forall_forall in H2. specialize (H2 _ (in_map (fun i => ent (a i i) 0%nat 0%nat) _ i (proj2 (in_seq m 0 i) ltac:(lia)))). cbv beta in H2.
  destruct (a i i) as [d| | |]; try discriminate. apply Nat.eqb_eq in H1. intros k Hk. cbn [nrows] in Hk. replace k with 0%nat by lia. exact H2.
Qed.

Lemma lr_good x : good (1 # 10) (ML (lr x)).
Proof.
  unfold good. split; [reflexivity|]. cbn [lr l_r l_c l_S d_c one]. repeat (split; [lia|]). unfold ReflectSpec.orthU. split; [reflexivity|].
  intros i j Hi Hj. cbn in Hi, Hj. replace i with 0%nat by lia. replace j with 0%nat by lia. cbn. lra.
Qed.

Lemma coarse_ok : oracles_shape coarse /\ accurate (1 # 10) (1 / 10) 0 1 (no_compression coarse).
Proof.
  assert (K : forall a b c, lr_add coarse a b = Ok c -> l_r a = 1%nat /\ l_c a = 1%nat /\
     c = lr (9 / 10 * (lr_ent (R := Rring) a 0%nat 0%nat + lr_ent (R := Rring) b 0%nat 0%nat))).
  { intros a b c H. cbn [coarse lr_add] in H. destruct (l_r a =? 1)%nat eqn:E1; [|discriminate]. destruct (l_c a =? 1)%nat eqn:E2; [|discriminate].
    destruct (Qeq_bool (l_eps a) (1 # 10)); [|discriminate]. inversion H. apply Nat.eqb_eq in E1, E2. auto. }
  assert (KS : forall a b c, lr_wf a -> lr_wf b -> l_r a = l_r b -> l_c a = l_c b -> lr_add coarse a b = Ok c -> lr_wf c /\ l_r c = l_r a /\ l_c c = l_c a).
  { intros a b c _ _ _ _ H. destruct (K a b c H) as [-> [-> ->]]. split; [repeat split|]; auto. }
  split; [split; auto; discriminate|]. split; [split; auto; discriminate| |discriminate].
  intros a b c _ _ _ _ _ H. destruct (K a b c H) as [-> [-> ->]]. split; [apply lr_good|].
  rewrite <- (TrmmErr.fro_scal 1 1 (1 / 10)) by lra. right.
  rewrite <- fro_opp. apply fro_ext. intros i j Hi Hj. replace i with 0%nat by lia. replace j with 0%nat by lia.
  unfold MatFun.msub, MatFun.madd, mzero. set (x := lr_ent a 0%nat 0%nat). set (y := lr_ent b 0%nat 0%nat). cbn. lra.
Qed.

Example C81_ex : wf A81 /\ tri_shape A81 /\ weak A81 /\ gtree (1 # 10) A81 /\ updates A81 = 2%nat /\
  lu_contract (R := Rring) one_lu /\
  exists L U, getrf (R := Rring) Rinv coarse 2 (no_exchange (R := Rring) one_lu) 2 A81 = Ok (L, U) /\ udiag (R := Rring) Rinv U /\
    ent A81 1%nat 2%nat - mmul 3 (ent L) (ent U) 1%nat 2%nat = 2 / 10 /\
    fro 3 3 (msub (ent A81) (mmul 3 (ent L) (ent U))) <= ((10 / 9) ^ 2 - 1) * (fro 3 3 (ent L) * fro 3 3 (ent U)).
Proof.
  assert (W : wf A81).
  { simpl. split; [lia|]. split; [lia|]. intros i j Hi Hj.
    destruct i as [|[|[|i]]]; [| | |lia]; (destruct j as [|[|[|j]]]; [| | |lia]); repeat split. }
  assert (TS : tri_shape A81).
  { simpl. split; auto. split; intros i Hi; (destruct i as [|[|[|i]]]; [| | |lia]); reflexivity. }
  assert (WK : weak A81).
  { simpl. split.
    - intros i j Hi Hj Hij. destruct i as [|[|[|i]]]; [| | |lia]; (destruct j as [|[|[|j]]]; [| | |lia]); try lia; eexists; reflexivity.
    - intros i Hi. destruct i as [|[|[|i]]]; [| | |lia]; exact I. }
  assert (G : gtree (1 # 10) A81).
  { intros i j Hi Hj. destruct i as [|[|[|i]]]; [| | |lia]; (destruct j as [|[|[|j]]]; [| | |lia]); first [exact I | apply lr_good]. }
  assert (HX : lu_contract (R := Rring) one_lu).
  { intros A X p H _. unfold one_lu in H. destruct (d_r A =? 1)%nat eqn:E1; [|discriminate]. destruct (d_c A =? 1)%nat eqn:E2; [|discriminate].
    inversion H; subst X p. apply Nat.eqb_eq in E1, E2. rewrite E1, E2. split; auto.
    intros i j Hi Hj. replace i with 0%nat by lia. replace j with 0%nat by lia. unfold MatFun.mmul. cbn [sum]. unfold tri. cbn [Nat.eqb].
    generalize (d_e A 0%nat 0%nat). intros x. rr. }
  split; auto. split; auto. split; auto. split; auto. split; [reflexivity|]. split; auto.
  assert (K : forall L U, getrf (R := Rring) Rinv coarse 2 (no_exchange (R := Rring) one_lu) 2 A81 = Ok (L, U) -> udiag (R := Rring) Rinv U ->
    ent A81 1%nat 2%nat - mmul 3 (ent L) (ent U) 1%nat 2%nat = 2 / 10 -> exists L U, getrf (R := Rring) Rinv coarse 2 (no_exchange (R := Rring) one_lu) 2 A81 = Ok (L, U) /\ udiag (R := Rring) Rinv U /\
    ent A81 1%nat 2%nat - mmul 3 (ent L) (ent U) 1%nat 2%nat = 2 / 10 /\
    fro 3 3 (msub (ent A81) (mmul 3 (ent L) (ent U))) <= ((10 / 9) ^ 2 - 1) * (fro 3 3 (ent L) * fro 3 3 (ent U))).
  { intros L U H HU E. exists L, U. split; auto. split; auto. split; auto.
    destruct coarse_ok as [OS HA]. 
    pose proof (C81_weak (1 # 10) (1 / 10) 1 coarse ltac:(lra) OS HA Rinv 2 one_lu HX 2 A81 L U W TS WK G HU H) as B.
    cbv zeta in B. replace (lu_bound (1 / 10) (updates A81)) with ((10 / 9) ^ 2 - 1) in B by (change (updates A81) with 2%nat; unfold lu_bound, rel_err; field).
    exact B. }
  apply (K (fst (the run81)) (snd (the run81))).
  - apply the_ok. vm_compute. reflexivity.
  - apply udiag_1; [vm_compute; reflexivity|].
    match goal with |- Forall ?f ?l => let y := eval vm_compute in l in
      assert (E : l = y) by (vm_compute; reflexivity); rewrite E; clear E end.
    change R1 with 1. change R0 with 0. repeat constructor; field.
  - vm_compute. change R1 with 1. change R0 with 0. field.
Qed.
