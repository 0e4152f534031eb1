(** C77: the tiled Householder QR factorization of a BLR matrix with truncating low-rank
    arithmetic is backward stable with an explicit bound. *)
From Coq Require Import List Arith ZArith QArith Qreals Lia Bool Reals Lra String Ring_theory Ring.
From Verif Require Import Prelude Ring MatFun MatSetoid Matrix MatOps MatSpec MatOpsProofs Lapack LowRankAdd Gemm GemmSpec
  GemmTheorems Triangular TriSpec Reflect ReflectSpec ReflectSuccess QrBig QrTiled QrStep QrApply QrTheorems QrSuccess RealQr
  SvdRank HouseReal TileKernels Rrqr RrqrLr RealLapack Prop_RealAdd Prop_FixedRank
  FroNorm QrErrTile QrErrStep QrErrApply QrErrReal QrErrSucc QrErrWhole.
Import ListNotations.
Local Open Scope R_scope.

(** [fro r c f]: the Frobenius norm.  [gtiles e p q h w A]: p x q tiles of h i by w j,
    each Dense or LowRank with accuracy e, at least one column in its factors, and a left
    basis with orthonormal columns.  [pairs p q]: how many pairs of tiles are eliminated,
    the sum of p - 1 - k over the q columns. *)
Lemma pairs_closed p q : (q <= p)%nat -> (2 * pairs p q + q * (q + 1) = 2 * p * q)%nat.
Proof. induction q as [|q IH]; intros H; [simpl; lia|]. cbn [pairs]. specialize (IH ltac:(lia)). nia. Qed.

(** What one multiplication by the reflector of a pair adds, relatively: nb bounds the sizes
    of tiles, u is the relative error of one low-rank operation. *)
Definition rate (nb : nat) (u : R) : R := (8 + 6 * sqrt (INR nb)) * u.
Definition qr_bound (nb : nat) (u tau : R) (p q : nat) (x : R) : R :=
  let m := pairs p q in
  ((1 + rate nb u) ^ m - 1) * x + sqrt (INR q) * (INR m * (1 + rate nb u) ^ m * (2 * tau)).

Lemma pow_small x m : 0 <= x -> INR m * x <= 1 -> (1 + x) ^ m <= 1 + INR m * x + (INR m * x) * (INR m * x).
Proof.
  intros Hx. induction m as [|m IH]; intros H; [simpl; lra|]. rewrite S_INR in *. pose proof (pos_INR m) as Pm.
  assert (H1 : INR m * x <= 1) by nra. specialize (IH H1). cbn [pow].
  assert ((1 + x) * (1 + x) ^ m <= (1 + x) * (1 + INR m * x + INR m * x * (INR m * x))) by (apply Rmult_le_compat_l; lra).
  assert (INR m * x * (INR m * x) * x <= (INR m * x) * x * 1).
  { replace (INR m * x * (INR m * x) * x) with ((INR m * x * x) * (INR m * x)) by ring.
    apply Rmult_le_compat_l; auto. apply Rmult_le_pos; [apply Rmult_le_pos|]; auto. }
  nra.
Qed.

(** To first order. *)
Lemma bound_first_order nb u p q x : 0 <= u -> 0 <= x -> INR (pairs p q) * rate nb u <= 1 ->
  qr_bound nb u 0 p q x <= 2 * (INR (pairs p q) * rate nb u) * x.
Proof.
  intros Hu Hx H. unfold qr_bound. set (m := pairs p q) in *. set (r := rate nb u) in *.
  assert (Hr : 0 <= r) by (unfold r, rate; apply Rmult_le_pos; auto; pose proof (sqrt_pos (INR nb)); lra).
  assert (P : 0 <= INR m * r) by (apply Rmult_le_pos; auto; apply pos_INR).
  pose proof (pow_small r m Hr H) as B. rewrite Rmult_0_r, !Rmult_0_r, Rplus_0_r.
  apply Rmult_le_compat_r; auto. assert (INR m * r * (INR m * r) <= 1 * (INR m * r)) by (apply Rmult_le_compat_r; auto). lra.
Qed.

(** Dense and LowRank tiles anywhere.  The low-rank arithmetic is the code's with singular
    values truncated at the accuracy e > 0 of the tiles (any FRANK_LRA but naive), and
    compression of Dense products by truncated pivoted QR ([tol]: the machine epsilon in
    it); the kernels of tiles are LAPACK's.  If the factorization returns, then with an
    exactly orthogonal Q, A is Q R up to [qr_bound], R is the upper part of the result, and
    multiplying with the stored reflectors gives Q C for block upper triangular C, and R
    from A, up to the same bound and twice the bound. *)
Theorem C77_tiled_qr : forall setting rn tol e nb, setting <> "naive"%string -> 0 <= tol ->
  Qeq_bool e 0 = false -> 0 <= Q2R e -> (0 < nb)%nat -> sqrt (INR nb) * Q2R e <= 1 ->
  let Or := real_arith setting rn tol in
  let K := wy_qrt (R := Rring) dlarfg in
  forall p q h w (A T A' T' : grid Rring), (forall i, (i < p)%nat -> (h i <= nb)%nat) -> (forall j, (j < q)%nat -> (w j <= nb)%nat) ->
  (0 < q)%nat -> (forall k, (k < q)%nat -> (w k <= h k)%nat /\ ((S k < q)%nat -> h k = w k)) ->
  gtiles e p q h w A -> factors (R := Rring) p q w T ->
  tiled_qr Or K p q A p q T = Ok (A', T') ->
  let N := offs h p in
  let R := ent (MH p q (Rgrid (R := Rring) h w A')) in
  let bound := qr_bound nb (sqrt (INR nb) * Q2R e) (tol * INR nb) p q in
  exists Q : mat Rring, orthogonal (R := Rring) N Q /\
    (forall r s, (r < N)%nat -> (s < offs w q)%nat -> (s < r)%nat -> R r s = 0) /\
    fro N (offs w q) (msub (R := Rring) (ent (MH p q A)) (mmul (R := Rring) N Q R)) <= bound (fro N (offs w q) (ent (MH p q A))) /\
    (forall cw C C', (forall j, (j < q)%nat -> (cw j <= nb)%nat) -> gtiles e p q h cw C -> block_upper (R := Rring) p q C ->
       tiled_apply Or p q A' T' C false = Ok C' ->
       fro N (offs cw q) (msub (R := Rring) (ent (MH p q C')) (mmul (R := Rring) N Q (ent (MH p q C)))) <=
         bound (fro N (offs cw q) (ent (MH p q C)))) /\
    (forall C', tiled_apply Or p q A' T' A true = Ok C' ->
       fro N (offs w q) (msub (R := Rring) (ent (MH p q C')) R) <= 2 * bound (fro N (offs w q) (ent (MH p q A)))).
Proof.
  intros setting rn tol e nb NS T0 He E0 Hn Hu Or K p q h w A T A' T' Hh Hw Hq SD GA FT H N R bound.
  assert (HU : 0 <= sqrt (INR nb) * Q2R e <= 1) by (split; [apply Rmult_le_pos; auto; apply sqrt_pos|exact Hu]).
  assert (HT : 0 <= tol * INR nb) by (apply Rmult_le_pos; auto; apply pos_INR).
  destruct (tiled_err_whole e _ _ nb He HU HT Or (real_accurate setting rn tol e nb NS He E0 T0 Hn) K
    (wy_qrt_ok (R := Rring) dlarfg dlarfg_ok) dlarfg_small p q h w Hh Hw Hq A T p q A' T') as [Hqp [_ [_ [Q [Q1 [Q2 [Q3 Q4]]]]]]]; auto.
  { intros k Hk _. apply SD; auto. }
  exists Q. split; [exact Q1|]. split; [|split; [exact Q2|split; [exact Q3|exact Q4]]].
  apply (Rgrid_upper (R := Rring)); auto; try lia. intros k Hk _. destruct (SD k Hk) as [L EQ].
  destruct (Nat.eq_dec (S k) q); [right; split; [lia|auto]|left; apply EQ; lia].
Qed.
Print Assumptions C77_tiled_qr.

(** Multiplying by Q and then by its transpose gives C back, up to twice the growth and its
    square. *)
Theorem C77_round_trip : forall setting rn tol e nb, setting <> "naive"%string -> 0 <= tol ->
  Qeq_bool e 0 = false -> 0 <= Q2R e -> (0 < nb)%nat -> sqrt (INR nb) * Q2R e <= 1 ->
  let Or := real_arith setting rn tol in
  let K := wy_qrt (R := Rring) dlarfg in
  forall p q h w (A T A' T' : grid Rring), (forall i, (i < p)%nat -> (h i <= nb)%nat) -> (forall j, (j < q)%nat -> (w j <= nb)%nat) ->
  (0 < q)%nat -> (forall k, (k < q)%nat -> (w k <= h k)%nat /\ ((S k < q)%nat -> h k = w k)) ->
  gtiles e p q h w A -> factors (R := Rring) p q w T ->
  tiled_qr Or K p q A p q T = Ok (A', T') ->
  forall cw C C1 C2, (forall j, (j < q)%nat -> (cw j <= nb)%nat) -> gtiles e p q h cw C -> block_upper (R := Rring) p q C ->
  tiled_apply Or p q A' T' C false = Ok C1 -> tiled_apply Or p q A' T' C1 true = Ok C2 ->
  let N := offs h p in
  let m := pairs p q in
  let g := (1 + rate nb (sqrt (INR nb) * Q2R e)) ^ m - 1 in
  fro N (offs cw q) (msub (R := Rring) (ent (MH p q C2)) (ent (MH p q C))) <=
    (2 * g + g * g) * fro N (offs cw q) (ent (MH p q C)) + sqrt (INR q) * ((2 + g) * (INR m * (1 + g) * (2 * (tol * INR nb)))).
Proof.
  intros setting rn tol e nb NS T0 He E0 Hn Hu Or K p q h w A T A' T' Hh Hw Hq SD GA FT H cw C C1 C2 Hcw GC BU H1 H2 N m g.
  assert (HU : 0 <= sqrt (INR nb) * Q2R e <= 1) by (split; [apply Rmult_le_pos; auto; apply sqrt_pos|exact Hu]).
  assert (HT : 0 <= tol * INR nb) by (apply Rmult_le_pos; auto; apply pos_INR).
  destruct (tiled_err_whole e _ _ nb He HU HT Or (real_accurate setting rn tol e nb NS He E0 T0 Hn) K
    (wy_qrt_ok (R := Rring) dlarfg dlarfg_ok) dlarfg_small p q h w Hh Hw Hq A T p q A' T') as [Hqp [_ [ST _]]]; auto.
  { intros k Hk _. apply SD; auto. }
  destruct (round_trip_err e _ _ nb He HU HT Or (real_accurate setting rn tol e nb NS He E0 T0 Hn) p q h w Hh Hw Hq A' T' ST Hqp cw C C1 C2 Hcw GC BU H1 H2) as [_ [_ RT]].
  eapply Rle_trans; [exact RT|]. right. unfold grow, drift, QrErrStep.eta, theta. fold m. unfold g, rate.
  f_equal. replace (1 + ((1 + (8 + 6 * sqrt (INR nb)) * (sqrt (INR nb) * Q2R e)) ^ m - 1)) with ((1 + (8 + 6 * sqrt (INR nb)) * (sqrt (INR nb) * Q2R e)) ^ m) by ring.
  reflexivity.
Qed.
Print Assumptions C77_round_trip.

(** Dense tiles on the diagonal and LowRank tiles below it, as weak admissibility gives:
    nothing but additions of LowRank tiles is inexact, the factorization always returns, and
    so do the multiplications if the diagonal tiles are square.  The bound is a multiple of
    the norm of A, to first order 2 m (8 + 6 sqrt nb) e with m pairs of tiles. *)
Theorem C77_weak_admissibility : forall setting rn tol e nb, setting <> "naive"%string ->
  Qeq_bool e 0 = false -> 0 <= Q2R e <= 1 ->
  let Or := real_arith setting rn tol in
  let K := wy_qrt (R := Rring) dlarfg in
  forall p q h w (A T : grid Rring), (forall i, (i < p)%nat -> (h i <= nb)%nat) -> (forall j, (j < q)%nat -> (w j <= nb)%nat) ->
  (0 < q)%nat -> (q <= p)%nat -> (forall k, (k < q)%nat -> (w k <= h k)%nat /\ ((S k < q)%nat -> h k = w k)) ->
  gtiles e p q h w A -> dense_diag (R := Rring) p q A ->
  (forall i j, (i < p)%nat -> (j < q)%nat -> (j < i)%nat -> exists l, A i j = ML l) -> dense_factors (R := Rring) p q w T ->
  let N := offs h p in
  let bound := qr_bound nb (Q2R e) 0 p q in
  exists A' T' (Q : mat Rring), tiled_qr Or K p q A p q T = Ok (A', T') /\ orthogonal (R := Rring) N Q /\
    let R := ent (MH p q (Rgrid (R := Rring) h w A')) in
    (forall r s, (r < N)%nat -> (s < offs w q)%nat -> (s < r)%nat -> R r s = 0) /\
    fro N (offs w q) (msub (R := Rring) (ent (MH p q A)) (mmul (R := Rring) N Q R)) <= bound (fro N (offs w q) (ent (MH p q A))) /\
    (INR (pairs p q) * rate nb (Q2R e) <= 1 ->
       fro N (offs w q) (msub (R := Rring) (ent (MH p q A)) (mmul (R := Rring) N Q R)) <=
         2 * (INR (pairs p q) * rate nb (Q2R e)) * fro N (offs w q) (ent (MH p q A))) /\
    ((forall k, (k < q)%nat -> h k = w k) ->
      (forall cw C, (forall j, (j < q)%nat -> (cw j <= nb)%nat) -> gtiles e p q h cw C -> block_upper (R := Rring) p q C ->
         exists C', tiled_apply Or p q A' T' C false = Ok C' /\
         fro N (offs cw q) (msub (R := Rring) (ent (MH p q C')) (mmul (R := Rring) N Q (ent (MH p q C)))) <=
           bound (fro N (offs cw q) (ent (MH p q C)))) /\
      (exists C', tiled_apply Or p q A' T' A true = Ok C' /\
         fro N (offs w q) (msub (R := Rring) (ent (MH p q C')) R) <= 2 * bound (fro N (offs w q) (ent (MH p q A))))).
Proof.
  intros setting rn tol e nb NS He E0 Or K p q h w A T Hh Hw Hq Hqp SD GA DA LA DT N bound.
  set (Or0 := no_compression Or).
  assert (AC := real_accurate_add setting rn tol e nb NS He (proj1 E0)).
  assert (AT : forall a b : lowrank Rring, lr_wf a -> lr_wf b -> l_r a = l_r b -> l_c a = l_c b -> good e (ML a) -> exists c, lr_add Or0 a b = Ok c).
  { intros a b WA WB Er Ec G. destruct (real_add_good setting rn tol e NS He (proj1 E0) a b WA WB Er Ec G) as [c [E _]]. exists c. exact E. }
  assert (KO := wy_qrt_ok (R := Rring) dlarfg dlarfg_ok). assert (KT := wy_qrt_total (R := Rring) dlarfg).
  destruct (weak_qr_succ e (Q2R e) 0 nb He E0 (Rle_refl 0) Or0 AC AT K KO KT dlarfg_small p q h w Hh Hw A T Hqp SD GA DA LA DT)
    as [A' [T' [E [GA' [L' DT']]]]].
  destruct (tiled_err_whole e (Q2R e) 0 nb He E0 (Rle_refl 0) Or0 AC K KO dlarfg_small p q h w Hh Hw Hq A T p q A' T') as [_ [_ [ST [Q [Q1 [Q2 [Q3 Q4]]]]]]]; auto.
  { intros k Hk _. apply SD; auto. }
  { apply (dense_factors_factors (R := Rring) p q w); auto. }
  exists A', T', Q. split; [exact (tiled_qr_le Or K p q A p q T _ E)|]. split; [exact Q1|]. cbv zeta.
  assert (E2 : fro N (offs w q) (msub (R := Rring) (ent (MH p q A)) (mmul (R := Rring) N Q (ent (MH p q (Rgrid (R := Rring) h w A'))))) <= bound (fro N (offs w q) (ent (MH p q A)))) by exact Q2.
  split; [|split; [exact E2|split]].
  - apply (Rgrid_upper (R := Rring)); auto; try lia. intros k Hk _. destruct (SD k Hk) as [L EQ].
    destruct (Nat.eq_dec (S k) q); [right; split; [lia|auto]|left; apply EQ; lia].
  - intros B. eapply Rle_trans; [exact E2|]. apply bound_first_order; auto; [lra|apply fro_nonneg].
  - intros SQ.
    assert (AP : forall cw C tr, (forall j, (j < q)%nat -> (cw j <= nb)%nat) -> gtiles e p q h cw C -> exists C', tiled_apply Or0 p q A' T' C tr = Ok C').
    { intros cw C tr Hcw GC.
      destruct (weak_apply_succ e (Q2R e) 0 nb He E0 (Rle_refl 0) Or0 AC AT p q h w Hh Hw cw A' T' C tr) as [C' [EC _]]; auto.
      - exact (layouts_diag (R := Rring) p q _ _ L' DA).
      - exact (layouts_lower p q _ _ L' LA).
      - exact (st_orth _ _ _ _ _ _ _ ST).
      - exact (st_small _ _ _ _ _ _ _ ST).
      - exists C'. exact EC. }
    split.
    + intros cw C Hcw GC BU. destruct (AP cw C false Hcw GC) as [C' EC]. exists C'. split; [exact (tiled_apply_le Or p q A' T' C false _ EC)|].
      exact (Q3 cw C C' Hcw GC BU EC).
    + destruct (AP w A true Hw GA) as [C' EC]. exists C'. split; [exact (tiled_apply_le Or p q A' T' A true _ EC)|]. exact (Q4 C' EC).
Qed.
Print Assumptions C77_weak_admissibility.

(** Two by two tiles of order 1, LowRank off the diagonal, accuracy 1/100: A = (2 3; 4 5)
    is Q R up to 14 percent. *)
Definition num1 (x : R) : dense Rring := @Dn Rring 1 1 (fun _ _ => x).
Definition lr1 (x : R) : lowrank Rring := @Lr Rring 1 1 1 (1 # 100) (num1 1) (num1 x) (num1 1).
Definition A77 : grid Rring := fun i j => match i, j with
  | O, O => MD (num1 2) | O, _ => ML (lr1 3) | S O, O => ML (lr1 4) | _, _ => MD (num1 5) end.
Lemma A77_tiles : gtiles (1 # 100) 2 2 (fun _ => 1%nat) (fun _ => 1%nat) A77.
Proof.
  assert (G : forall x, good (1 # 100) (ML (lr1 x))).
  { intros x. unfold good. split; [reflexivity|]. cbn [lr1 l_r l_c l_S d_c num1]. repeat (split; [lia|]). cbn [orthU].
    split; [reflexivity|]. intros i j Hi Hj. cbn in Hi, Hj. replace i with 0%nat by lia. replace j with 0%nat by lia. cbn. lra. }
  intros i j Hi Hj. destruct i as [|[|i]]; [| |lia]; (destruct j as [|[|j]]; [| |lia]); (split; [repeat (split; [reflexivity|]); reflexivity|]);
    (split; [reflexivity|]); (split; [reflexivity|]); first [exact I | exact (G 3) | exact (G 4)].
Qed.

Example C77_ex : forall rn T, dense_factors (R := Rring) 2 2 (fun _ => 1%nat) T ->
  exists A' T' (Q : mat Rring), tiled_qr (real_arith "" rn (/ 2 ^ 52)) (wy_qrt (R := Rring) dlarfg) 2 2 A77 2 2 T = Ok (A', T') /\
    orthogonal (R := Rring) 2 Q /\
    fro 2 2 (msub (R := Rring) (ent (MH 2 2 A77)) (mmul (R := Rring) 2 Q (ent (MH 2 2 (Rgrid (R := Rring) (fun _ => 1%nat) (fun _ => 1%nat) A')))))
      <= 14 / 100 * fro 2 2 (ent (MH 2 2 A77)).
Proof.
  intros rn T HT. assert (EQ : Q2R (1 # 100) = / 100) by (unfold Q2R; simpl; lra).
  assert (RT : rate 1 (Q2R (1 # 100)) = 14 / 100) by (unfold rate; rewrite EQ; simpl; rewrite sqrt_1; lra).
  destruct (C77_weak_admissibility "" rn (/ 2 ^ 52) (1 # 100) 1 ltac:(discriminate) eq_refl ltac:(rewrite EQ; lra) 2 2
    (fun _ => 1%nat) (fun _ => 1%nat) A77 T) as [A' [T' [Q [E [OQ [_ [B _]]]]]]]; auto; try (intros; lia).
  - exact A77_tiles.
  - intros k Hk _. destruct k as [|[|k]]; [| |lia]; eexists; reflexivity.
  - intros i j Hi Hj Hij. destruct i as [|[|i]]; [lia| |lia]. destruct j as [|j]; [|lia]. eexists. reflexivity.
  - exists A', T', Q. split; [exact E|]. split; [exact OQ|]. eapply Rle_trans; [exact B|].
    unfold qr_bound. rewrite RT. cbn [pairs Nat.sub Nat.add pow]. rewrite !Rmult_0_r, Rplus_0_r.
    apply Rmult_le_compat_r; [apply fro_nonneg|]. lra.
Qed.
