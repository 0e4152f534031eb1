(** Properties C67-C69: the tile kernels, and tiled and blocked Householder QR of real
    matrices from start to end. *)
From Coq Require Import List Arith ZArith Lia Bool QArith Reals Lra.
From Verif Require Import Prelude Ring MatFun Matrix MatOps MatSpec Lapack Gemm GemmSpec Triangular TriAlgebra TriSpec Reflect ReflectSpec ReflectProofs
  ReflectSuccess QrBig QrTiled QrApply QrSuccess Blocked SvdRank Householder HouseQr HouseReal Rrqr RrqrLr TileKernels DenseQr RealQr.
Import ListNotations.
Local Open Scope nat_scope.

(** ** C67: the kernels *)

(** dgeqrt3 returns for every matrix with at least as many rows as columns: A = Q R with
    Q = I - Y T Y^T orthogonal, Y the unit lower trapezoid and R the upper triangle of the
    result. *)
Lemma real_geqrt : forall a : rdense, d_c a <= d_r a ->
  exists x t, dgeqrt3 (R := Rring) dlarfg a = Ok (x, t) /\
    let m := d_r a in
    let n := d_c a in
    let Y := tri (R := Rring) Lower true (d_e x) in
    let Q := refl (R := Rring) n Y (tri Upper false (d_e t)) in
    d_r x = m /\ d_c x = n /\ d_r t = n /\ d_c t = n /\
    orthogonal m Q /\ feq m n (d_e a) (mmul m Q (tri Upper false (d_e x))) /\
    (forall i j, i < n -> j < i -> d_e t i j = 0%R).
Proof.
  intros a L. destruct (wy_qrt_total (R := Rring) dlarfg) as [H _]. destruct (H a) as [[x t] E].
  exists x, t. split; [exact E|]. destruct (dgeqrt3_ok (R := Rring) dlarfg dlarfg_ok a x t E L) as [H1 [H2 [H3 [H4 [H5 H6]]]]].
  cbv zeta. repeat (split; [assumption|]). intros i j _ Hj. unfold wy_qrt, dgeqrt3 in E. simpl in E.
  injection E as _ <-. cbn [d_e]. apply (dlarft_upper (R := Rring)). exact Hj.
Qed.

Theorem C67_geqrt3 : forall a : rdense, d_c a <= d_r a ->
  exists x t, dgeqrt3 (R := Rring) dlarfg a = Ok (x, t) /\
    let m := d_r a in
    let n := d_c a in
    let Y := tri (R := Rring) Lower true (d_e x) in
    let Q := refl (R := Rring) n Y (tri Upper false (d_e t)) in
    d_r x = m /\ d_c x = n /\ d_r t = n /\ d_c t = n /\
    orthogonal m Q /\ feq m n (d_e a) (mmul m Q (tri Upper false (d_e x))) /\
    (forall i j, i < n -> j < i -> d_e t i j = 0%R).
Proof. exact real_geqrt. Qed.
Print Assumptions C67_geqrt3.

(** dtpqrt2: (R; B) = Q (R'; 0) with R and R' the upper triangles of order n of a and a',
    Q = I - (I; V) T (I; V)^T orthogonal.  The rest of a is not touched. *)
Lemma real_tpqrt : forall a b : rdense, d_c b <= d_r a -> d_c b <= d_c a ->
  exists a' v t, dtpqrt2 (R := Rring) dlarfg a b = Ok (a', v, t) /\
    let m := d_r b in
    let n := d_c b in
    let Q := refl (R := Rring) n (vst n mid (d_e v)) (tri Upper false (d_e t)) in
    d_r a' = d_r a /\ d_c a' = d_c a /\ d_r v = m /\ d_c v = n /\
    (forall i j, i < d_r a -> j < d_c a -> ~ (i <= j /\ j < n) -> d_e a' i j = d_e a i j) /\
    orthogonal (n + m) Q /\
    feq (n + m) n (vst n (tri Upper false (d_e a)) (d_e b)) (mmul (n + m) Q (vst n (tri Upper false (d_e a')) mzero)).
Proof.
  intros a b L1 L2. destruct (wy_qrt_total (R := Rring) dlarfg) as [_ H]. destruct (H a b) as [[[a' v] t] E].
  exists a', v, t. split; [exact E|]. exact (dtpqrt2_ok (R := Rring) dlarfg dlarfg_ok a b a' v t E).
Qed.

Theorem C67_tpqrt2 : forall a b : rdense, d_c b <= d_r a -> d_c b <= d_c a ->
  exists a' v t, dtpqrt2 (R := Rring) dlarfg a b = Ok (a', v, t) /\
    let m := d_r b in
    let n := d_c b in
    let Q := refl (R := Rring) n (vst n mid (d_e v)) (tri Upper false (d_e t)) in
    d_r a' = d_r a /\ d_c a' = d_c a /\ d_r v = m /\ d_c v = n /\
    (forall i j, i < d_r a -> j < d_c a -> ~ (i <= j /\ j < n) -> d_e a' i j = d_e a i j) /\
    orthogonal (n + m) Q /\
    feq (n + m) n (vst n (tri Upper false (d_e a)) (d_e b)) (mmul (n + m) Q (vst n (tri Upper false (d_e a')) mzero)).
Proof. exact real_tpqrt. Qed.
Print Assumptions C67_tpqrt2.

(** The product of elementary reflectors is I - Y T Y^T with the T of dlarft, whatever the
    vectors and factors are. *)
Theorem C67_compact_form : forall (R : cring) m (Y : mat R) (tau : nat -> R) k,
  feq m m (wprod m Y tau k) (msub mid (mmul k Y (mmul k (dlarft m Y tau k) (mtr Y)))).
Proof. exact (fun R => @wy_product R). Qed.
Print Assumptions C67_compact_form.

(** 3 over 4: in one tile, and as a triangle on top of a tile. *)
Definition one_by (x : R) : rdense := Dn 1 1 ((fun _ _ => x) : rmat).
Definition tile34 : rdense := Dn 2 1 ((fun i _ => if i =? 0 then 3%R else 4%R) : rmat).

Ltac run34 EL := repeat match type of EL with _ = ?v => match goal with |- context [dlarfg 2 ?f] =>
  let E := fresh in assert (E : dlarfg 2 f = v) by exact EL; rewrite E; clear E end end.

Example C67_ex : exists x t a v u,
  dgeqrt3 (R := Rring) dlarfg tile34 = Ok (x, t) /\ d_e x 0 0 = (-5)%R /\ d_e x 1 0 = (1 / 2)%R /\ d_e t 0 0 = (8 / 5)%R /\
  dtpqrt2 (R := Rring) dlarfg (one_by 3) (one_by 4) = Ok (a, v, u) /\
  d_e a 0 0 = (-5)%R /\ d_e v 0 0 = (1 / 2)%R /\ d_e u 0 0 = (8 / 5)%R.
Proof.
  destruct dlarfg_34 as [y [EL [Y0 Y1]]].
  unfold dgeqrt3, dtpqrt2. cbn [d_r d_c d_e tile34 one_by dgeqrf tp_loop].
  unfold qr_step, tp_step. cbn [fst snd].
  change (2 - 0) with 2. run34 EL. do 5 eexists. split; [reflexivity|].
  cbn [d_e fst snd]. unfold store_col, apply_refl, upd, hv, rv. simpl.
  rewrite ?Y0, ?Y1. repeat (split; [first [reflexivity | exact Y1]|]). reflexivity.
Qed.

(** ** C68: tiled Householder QR *)

(** For kernels that meet their contracts and always return, and low-rank arithmetic that is
    exact, always returns and keeps left bases orthonormal: the factorization of p x q tiles,
    q <= p, Dense on the diagonal, the diagonal tiles square but for the last one, which may
    be higher, always returns; A = Q R with Q orthogonal and R upper triangular.  With square
    diagonal tiles, multiplying a block upper triangular C by Q, and A by Q^T, return and give
    Q C and R. *)
Theorem C68_tiled_qr : forall (R : cring) (Or : oracles R), good_oracles Or -> forall K : qrt R, qrt_ok K -> qrt_total K ->
  forall p q h w (A T : grid R), 0 < q -> q <= p ->
  (forall k, k < q -> w k <= h k /\ (S k < q -> h k = w k)) -> qr_tiles p q h w A -> dense_factors p q w T ->
  exists A' T' (Q : mat R), tiled_qr Or K p q A p q T = Ok (A', T') /\
    orthogonal (offs h p) Q /\
    feq (offs h p) (offs w q) (ent (MH p q A)) (mmul (offs h p) Q (ent (MH p q (Rgrid h w A')))) /\
    (forall r s, r < offs h p -> s < offs w q -> s < r -> ent (MH p q (Rgrid h w A')) r s = 0%r) /\
    ((forall k, k < q -> h k = w k) ->
     (forall cw C, any_tiles p q h cw C -> block_upper p q C -> exists C', tiled_apply Or p q A' T' C false = Ok C' /\
        feq (offs h p) (offs cw q) (ent (MH p q C')) (mmul (offs h p) Q (ent (MH p q C)))) /\
     (exists C', tiled_apply Or p q A' T' A true = Ok C' /\
        feq (offs h p) (offs w q) (ent (MH p q C')) (ent (MH p q (Rgrid h w A'))))).
Proof. exact (fun R => @tiled_complete R). Qed.
Print Assumptions C68_tiled_qr.

(** Real Dense tiles, with the kernels of C67: nothing is assumed of the low-rank
    arithmetic, which is not used. *)
Lemma tiled_real : forall (Or : oracles Rring) p q h w (A T : grid Rring), 0 < q -> q <= p ->
  (forall k, k < q -> w k <= h k /\ (S k < q -> h k = w k)) -> dense_tiles p q h w A -> dense_factors p q w T ->
  exists A' T' (Q : mat Rring), tiled_qr Or (wy_qrt (R := Rring) dlarfg) p q A p q T = Ok (A', T') /\
    orthogonal (offs h p) Q /\
    feq (offs h p) (offs w q) (ent (MH p q A)) (mmul (offs h p) Q (ent (MH p q (Rgrid h w A')))) /\
    (forall r s, r < offs h p -> s < offs w q -> s < r -> ent (MH p q (Rgrid h w A')) r s = 0%R) /\
    ((forall k, k < q -> h k = w k) ->
     (forall cw C, dense_tiles p q h cw C -> block_upper p q C -> exists C', tiled_apply Or p q A' T' C false = Ok C' /\
        feq (offs h p) (offs cw q) (ent (MH p q C')) (mmul (offs h p) Q (ent (MH p q C)))) /\
     (exists C', tiled_apply Or p q A' T' A true = Ok C' /\
        feq (offs h p) (offs w q) (ent (MH p q C')) (ent (MH p q (Rgrid h w A'))))).
Proof.
  exact (fun Or p q h w => tiled_complete_dense (R := Rring) Or (wy_qrt (R := Rring) dlarfg)
    (wy_qrt_ok (R := Rring) dlarfg dlarfg_ok) (wy_qrt_total (R := Rring) dlarfg) p q h w).
Qed.

Theorem C68_real_tiles : forall (Or : oracles Rring) p q h w (A T : grid Rring), 0 < q -> q <= p ->
  (forall k, k < q -> w k <= h k /\ (S k < q -> h k = w k)) -> dense_tiles p q h w A -> dense_factors p q w T ->
  exists A' T' (Q : mat Rring), tiled_qr Or (wy_qrt (R := Rring) dlarfg) p q A p q T = Ok (A', T') /\
    orthogonal (offs h p) Q /\
    feq (offs h p) (offs w q) (ent (MH p q A)) (mmul (offs h p) Q (ent (MH p q (Rgrid h w A')))) /\
    (forall r s, r < offs h p -> s < offs w q -> s < r -> ent (MH p q (Rgrid h w A')) r s = 0%R) /\
    ((forall k, k < q -> h k = w k) ->
     (forall cw C, dense_tiles p q h cw C -> block_upper p q C -> exists C', tiled_apply Or p q A' T' C false = Ok C' /\
        feq (offs h p) (offs cw q) (ent (MH p q C')) (mmul (offs h p) Q (ent (MH p q C)))) /\
     (exists C', tiled_apply Or p q A' T' A true = Ok C' /\
        feq (offs h p) (offs w q) (ent (MH p q C')) (ent (MH p q (Rgrid h w A'))))).
Proof. exact tiled_real. Qed.
Print Assumptions C68_real_tiles.

(** 3 over 4 in two tiles. *)
Definition tA : grid Rring := fun i _ => MD (one_by (if i =? 0 then 3%R else 4%R)).
Definition tT : grid Rring := fun _ _ => MD (one_by 0%R).

Lemma tA_dense : dense_tiles (R := Rring) 2 1 (fun _ => 1) (fun _ => 1) tA.
Proof. intros i j _ _. eexists. split; [reflexivity|]. split; reflexivity. Qed.

Example C68_ex : good_oracles (@left_oracles Rring) /\ dense_tiles (R := Rring) 2 1 (fun _ => 1) (fun _ => 1) tA /\
  dense_factors (R := Rring) 2 1 (fun _ => 1) tT /\
  forall Or, exists A' T', tiled_qr Or (wy_qrt (R := Rring) dlarfg) 2 1 tA 2 1 tT = Ok (A', T') /\
    ent (A' 0 0) 0 0 = (-5)%R /\ ent (A' 1 0) 0 0 = (1 / 2)%R /\ ent (T' 1 0) 0 0 = (8 / 5)%R.
Proof.
  split; [apply left_oracles_good|]. split; [exact tA_dense|]. split.
  { intros i j _ _. eexists. split; [reflexivity|]. split; reflexivity. }
  intros Or. destruct dlarfg_34 as [y [EL [Y0 Y1]]].
  unfold tiled_qr, tiled_step, tiled_larfb, tiled_tpmqrt. cbn [Nat.eqb Nat.sub for_loop bind fst snd Nat.ltb Nat.leb Nat.add].
  unfold tA, tT, one_by. cbn [geqrt d_r d_c Nat.eqb Nat.ltb Nat.leb wy_qrt geqrt3]. unfold dgeqrt3. cbn [bind d_r d_c d_e dgeqrf].
  unfold qr_step. cbn [fst snd]. change (dlarfg (1 - 0)) with (fun x : vec => (x, 0%R)). cbn beta iota.
  unfold bupd. cbn [Nat.eqb andb tpqrt bind].
  unfold d_tpqrt. cbn [d_r d_c Nat.leb andb wy_qrt tpqrt2]. unfold dtpqrt2. cbn [d_r d_c d_e tp_loop]. unfold tp_step.
  cbn [fst snd]. run34 EL. cbn [bind]. do 2 eexists. split; [reflexivity|].
  cbn. rewrite Y0, Y1. repeat (split; [reflexivity|]). reflexivity.
Qed.

(** ** C69: blocked Householder QR *)

(** As C68, for square diagonal blocks. *)
Theorem C69_blocked_qr : forall (R : cring) (Or : oracles R), good_oracles Or -> forall K : qrt R, qrt_ok K -> qrt_total K ->
  forall p q h w (A T : grid R), 0 < q -> q <= p -> (forall k, k < q -> h k = w k) -> qr_tiles p q h w A ->
  exists A' T' (Q : mat R), blocked_qr Or K p q A q 1 T = Ok (A', T') /\
    orthogonal (offs h p) Q /\
    feq (offs h p) (offs w q) (ent (MH p q A)) (mmul (offs h p) Q (ent (MH p q (Rgrid h w A')))) /\
    (forall r s, r < offs h p -> s < offs w q -> s < r -> ent (MH p q (Rgrid h w A')) r s = 0%r) /\
    (forall cw C, any_tiles p q h cw C -> block_upper p q C -> exists C', blocked_apply Or p q A' T' p C false = Ok C' /\
       feq (offs h p) (offs cw q) (ent (MH p q C')) (mmul (offs h p) Q (ent (MH p q C)))) /\
    (exists C', blocked_apply Or p q A' T' p A true = Ok C' /\
       feq (offs h p) (offs w q) (ent (MH p q C')) (ent (MH p q (Rgrid h w A')))).
Proof. exact (fun R => @blocked_complete R). Qed.
Print Assumptions C69_blocked_qr.

Lemma blocked_real : forall (Or : oracles Rring) p q h w (A T : grid Rring), 0 < q -> q <= p -> (forall k, k < q -> h k = w k) -> dense_tiles p q h w A ->
  exists A' T' (Q : mat Rring), blocked_qr Or (wy_qrt (R := Rring) dlarfg) p q A q 1 T = Ok (A', T') /\
    orthogonal (offs h p) Q /\
    feq (offs h p) (offs w q) (ent (MH p q A)) (mmul (offs h p) Q (ent (MH p q (Rgrid h w A')))) /\
    (forall r s, r < offs h p -> s < offs w q -> s < r -> ent (MH p q (Rgrid h w A')) r s = 0%R) /\
    (forall cw C, dense_tiles p q h cw C -> block_upper p q C -> exists C', blocked_apply Or p q A' T' p C false = Ok C' /\
       feq (offs h p) (offs cw q) (ent (MH p q C')) (mmul (offs h p) Q (ent (MH p q C)))) /\
    (exists C', blocked_apply Or p q A' T' p A true = Ok C' /\
       feq (offs h p) (offs w q) (ent (MH p q C')) (ent (MH p q (Rgrid h w A')))).
Proof.
  exact (fun Or p q h w => blocked_complete_dense (R := Rring) Or (wy_qrt (R := Rring) dlarfg)
    (wy_qrt_ok (R := Rring) dlarfg dlarfg_ok) (wy_qrt_total (R := Rring) dlarfg) p q h w).
Qed.

Theorem C69_real_blocks : forall (Or : oracles Rring) p q h w (A T : grid Rring), 0 < q -> q <= p -> (forall k, k < q -> h k = w k) -> dense_tiles p q h w A ->
  exists A' T' (Q : mat Rring), blocked_qr Or (wy_qrt (R := Rring) dlarfg) p q A q 1 T = Ok (A', T') /\
    orthogonal (offs h p) Q /\
    feq (offs h p) (offs w q) (ent (MH p q A)) (mmul (offs h p) Q (ent (MH p q (Rgrid h w A')))) /\
    (forall r s, r < offs h p -> s < offs w q -> s < r -> ent (MH p q (Rgrid h w A')) r s = 0%R) /\
    (forall cw C, dense_tiles p q h cw C -> block_upper p q C -> exists C', blocked_apply Or p q A' T' p C false = Ok C' /\
       feq (offs h p) (offs cw q) (ent (MH p q C')) (mmul (offs h p) Q (ent (MH p q C)))) /\
    (exists C', blocked_apply Or p q A' T' p A true = Ok C' /\
       feq (offs h p) (offs w q) (ent (MH p q C')) (ent (MH p q (Rgrid h w A')))).
Proof. exact blocked_real. Qed.
Print Assumptions C69_real_blocks.

(** For Dense tiles every low-rank arithmetic gives the same result, and the same outcome. *)
Theorem C69_dense_any_arithmetic : forall (R : cring) (Or Or' : oracles R) (K : qrt R) p q (A T : grid R),
  all_dense p q A ->
  (forall pt qt, blocked_qr Or K p q A pt qt T = blocked_qr Or' K p q A pt qt T) /\
  ((forall i j, i < p -> j < q -> j <= i -> is_dense (T i j)) -> forall pt qt, tiled_qr Or K p q A pt qt T = tiled_qr Or' K p q A pt qt T).
Proof.
  exact (fun R Or Or' K p q A T HA => conj (fun pt qt => proj1 (blocked_qr_dense Or Or' K p q A pt qt T HA))
    (fun HT pt qt => proj1 (tiled_qr_dense Or Or' K p q A T pt qt HA HT))).
Qed.
Print Assumptions C69_dense_any_arithmetic.

Lemma dlarfg_34' (f : vec) : f 0 = 3%R -> f 1 = 4%R -> exists y, dlarfg 2 f = (y, (8 / 5)%R) /\ y 0 = (-5)%R /\ y 1 = (1 / 2)%R.
Proof.
  intros F0 F1. assert (S25 : sqrt 25 = 5%R). { replace 25%R with (5 * 5)%R by lra. apply sqrt_square. lra. }
  unfold dlarfg. cbn [Nat.leb Nat.eqb]. unfold tailsq. simpl. rewrite F0, F1.
  destruct (Req_EM_T _ _) as [E|_]; [lra|]. destruct (Rle_dec 0 3) as [_|L]; [|lra].
  replace (3 * 3 + (0 + 4 * 4))%R with 25%R by lra. rewrite S25.
  eexists. split; [f_equal; [reflexivity|field]|]. split; simpl; [reflexivity|rewrite F1; field].
Qed.

Example C69_ex : dense_tiles (R := Rring) 2 1 (fun _ => 1) (fun _ => 1) tA /\
  forall Or, exists A' T', blocked_qr Or (wy_qrt (R := Rring) dlarfg) 2 1 tA 1 1 tT = Ok (A', T') /\
    ent (A' 0 0) 0 0 = (-5)%R /\ ent (A' 1 0) 0 0 = (1 / 2)%R /\ ent (T' 0 0) 0 0 = (8 / 5)%R.
Proof.
  split; [exact tA_dense|]. intros Or.
  unfold blocked_qr, block_tri, tri_col, tA, tT. generalize (eq_refl 3%R) (eq_refl 4%R). generalize 3%R at 1 3. intros x E3.
  generalize 4%R at 1 3. intros z E4. cbn -[dlarfg densify].
  match goal with |- context [densify ?M] => assert (HD : exists D, densify M = Ok D /\ d_r D = 2 /\ d_c D = 1 /\ d_e D 0 0 = x /\ d_e D 1 0 = z) end.
  { eexists. split; [reflexivity|]. repeat split. }
  destruct HD as [[r c e] [HD [H1 [H2 [H3 H4]]]]]. rewrite HD. cbn [d_r d_c d_e] in H1, H2, H3, H4. subst r c.
  cbn -[dlarfg d_copy_to].
  match goal with |- context [dlarfg 2 ?f] => destruct (dlarfg_34' f) as [y [EL [Y0 Y1]]]; [cbn; congruence|cbn; congruence|] end.
  rewrite EL. do 2 eexists. split; [reflexivity|]. split; [exact Y0|]. split; [exact Y1|]. reflexivity.
Qed.
