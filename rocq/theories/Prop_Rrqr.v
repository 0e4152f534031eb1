(** Properties C60-C62: the dense QR and RQ factorizations, the truncated QR with column
    pivoting and the compression of a Dense matrix to a given accuracy. *)
From Coq Require Import List Arith ZArith Lia Bool QArith Reals Qreals Lra.
From Verif Require Import Prelude Ring MatFun Matrix MatOps Lapack SvdRank Householder HouseQr HouseReal Rrqr RrqrRank RrqrLr RrqrDeficient.
Import ListNotations.
Local Open Scope nat_scope.

(** Entries of the theorems: squared norm of a column, of a matrix, and of the difference to
    a product with inner dimension k. *)
Definition col_norm2 (m : nat) (A : rmat) (j : nat) : R := rsum m (fun i => (A i j * A i j)%R).
Definition norm2 (m n : nat) (A : rmat) : R := rsum n (fun j => col_norm2 m A j).
Definition minus (A B : rmat) : rmat := fun i j => (A i j - B i j)%R.

Lemma norm2_sumsq m n A : norm2 m n A = sumsq (R := Rring) m n A.
Proof. unfold norm2, col_norm2. symmetry. apply sumsq_cols. Qed.

Lemma colnorm_norm2 m A j : colnorm A m 0 j = sqrt (col_norm2 m A j).
Proof. unfold colnorm, col_norm2. rewrite Nat.sub_0_r. reflexivity. Qed.

(** ** C60: truncated_geqp3 *)

(** Whenever truncated_geqp3 returns for a matrix with a column of norm above the tolerance
    tol (LAPACKE_dlamch('e')), Q has orthonormal columns, P is Q^T A, fewer
    columns than A has are kept, and every column of Q P is within eps |A|_F of that of A. *)
Lemma geqp3_accurate : forall tol eps (A Q P : rdense), truncated_geqp3 tol eps A = Ok (Q, P) ->
  (exists j, j < d_c A /\ (tol < sqrt (col_norm2 (d_r A) (d_e A) j))%R) ->
  let m := d_r A in
  let n := d_c A in
  let r := d_c Q in
  let thr := (eps * sqrt (norm2 m n (d_e A)))%R in
  let err := minus (d_e A) (mmul (R := Rring) r (d_e Q) (d_e P)) in
  d_r Q = m /\ d_r P = r /\ d_c P = n /\ r <= m /\ r < n /\
  feq (R := Rring) r r (mmul m (mtr (d_e Q)) (d_e Q)) mid /\
  feq (R := Rring) r n (d_e P) (mmul m (mtr (d_e Q)) (d_e A)) /\
  (forall j, j < n -> (col_norm2 m err j <= thr * thr)%R) /\
  (norm2 m n err <= INR (n - r) * (thr * thr))%R.
Proof.
  intros tol eps A Q P H [j [Hj HT]] m n r thr err.
  assert (T : thr = (eps * sqrt (sumsq (R := Rring) m n (d_e A)))%R) by (unfold thr; rewrite norm2_sumsq; reflexivity).
  rewrite norm2_sumsq, T. unfold col_norm2, err.
  apply (truncated_geqp3_ok tol eps A Q P H). exists j. rewrite colnorm_norm2. auto.
Qed.

Theorem C60_accuracy : forall tol eps (A Q P : rdense), truncated_geqp3 tol eps A = Ok (Q, P) ->
  (exists j, j < d_c A /\ (tol < sqrt (col_norm2 (d_r A) (d_e A) j))%R) ->
  let m := d_r A in
  let n := d_c A in
  let r := d_c Q in
  let thr := (eps * sqrt (norm2 m n (d_e A)))%R in
  let err := minus (d_e A) (mmul (R := Rring) r (d_e Q) (d_e P)) in
  d_r Q = m /\ d_r P = r /\ d_c P = n /\ r <= m /\ r < n /\
  feq (R := Rring) r r (mmul m (mtr (d_e Q)) (d_e Q)) mid /\
  feq (R := Rring) r n (d_e P) (mmul m (mtr (d_e Q)) (d_e A)) /\
  (forall j, j < n -> (col_norm2 m err j <= thr * thr)%R) /\
  (norm2 m n err <= INR (n - r) * (thr * thr))%R.
Proof. exact geqp3_accurate. Qed.
Print Assumptions C60_accuracy.

(** The returned rank is not above the rank of A: A = X Y with inner dimension k gives r <= k. *)
Lemma geqp3_rank : forall tol eps (A Q P : rdense) k (X Y : rmat), truncated_geqp3 tol eps A = Ok (Q, P) -> (0 <= eps)%R ->
  (exists j, j < d_c A /\ (tol < sqrt (col_norm2 (d_r A) (d_e A) j))%R) ->
  feq (R := Rring) (d_r A) (d_c A) (d_e A) (mmul k X Y) -> d_c Q <= k.
Proof.
  intros tol eps A Q P k X Y H He [j [Hj HT]] HA. eapply truncated_geqp3_rank; eauto.
  exists j. rewrite colnorm_norm2. auto.
Qed.

Theorem C60_rank : forall tol eps (A Q P : rdense) k (X Y : rmat), truncated_geqp3 tol eps A = Ok (Q, P) -> (0 <= eps)%R ->
  (exists j, j < d_c A /\ (tol < sqrt (col_norm2 (d_r A) (d_e A) j))%R) ->
  feq (R := Rring) (d_r A) (d_c A) (d_e A) (mmul k X Y) -> d_c Q <= k.
Proof. exact geqp3_rank. Qed.
Print Assumptions C60_rank.

(** A matrix without such a column is replaced by zero. *)
Lemma geqp3_tiny : forall tol eps (A : rdense), 0 < d_r A -> 0 < d_c A ->
  (forall j, j < d_c A -> (sqrt (col_norm2 (d_r A) (d_e A) j) <= tol)%R) ->
  exists Q P, truncated_geqp3 tol eps A = Ok (Q, P) /\ d_r Q = d_r A /\ d_c Q = 1 /\ d_r P = 1 /\ d_c P = d_c A /\
    feq (R := Rring) 1 1 (mmul (d_r A) (mtr (d_e Q)) (d_e Q)) mid /\
    feq (R := Rring) (d_r A) (d_c A) (mmul 1 (d_e Q) (d_e P)) mzero.
Proof.
  intros tol eps A Hm Hn H. apply truncated_geqp3_tiny; auto. intros j Hj. rewrite colnorm_norm2. auto.
Qed.

Theorem C60_tiny : forall tol eps (A : rdense), 0 < d_r A -> 0 < d_c A ->
  (forall j, j < d_c A -> (sqrt (col_norm2 (d_r A) (d_e A) j) <= tol)%R) ->
  exists Q P, truncated_geqp3 tol eps A = Ok (Q, P) /\ d_r Q = d_r A /\ d_c Q = 1 /\ d_r P = 1 /\ d_c P = d_c A /\
    feq (R := Rring) 1 1 (mmul (d_r A) (mtr (d_e Q)) (d_e Q)) mid /\
    feq (R := Rring) (d_r A) (d_c A) (mmul 1 (d_e Q) (d_e P)) mzero.
Proof. exact geqp3_tiny. Qed.
Print Assumptions C60_tiny.

(** With more columns than rows it always returns.  Otherwise it returns or has undefined behaviour. *)
Theorem C60_total : forall tol eps (A : rdense), 0 < d_r A -> 0 < d_c A ->
  (exists x, truncated_geqp3 tol eps A = Ok x) \/ (truncated_geqp3 tol eps A = UB /\ d_c A <= d_r A).
Proof. exact truncated_geqp3_total. Qed.
Print Assumptions C60_total.

(** Nor is it undefined for a matrix whose rank is below its number of columns. *)
Theorem C60_deficient : forall tol eps (A : rdense) k (X Y : rmat), 0 < d_r A -> (0 <= eps)%R -> k < d_c A ->
  feq (R := Rring) (d_r A) (d_c A) (d_e A) (mmul (R := Rring) k X Y) ->
  exists x, truncated_geqp3 tol eps A = Ok x.
Proof. exact truncated_geqp3_deficient. Qed.
Print Assumptions C60_deficient.

(** The latter happens whenever eps is small against the smallest singular value of A, whose
    square is the greatest such c: *std::max_element of an empty range is read after all
    columns have been factorized. *)
Lemma geqp3_full : forall tol eps (A : rdense) (c : R), 0 < d_r A -> 0 < d_c A ->
  (exists j, j < d_c A /\ (tol < sqrt (col_norm2 (d_r A) (d_e A) j))%R) ->
  (forall z : nat -> R, (c * rsum (d_c A) (fun j => (z j * z j)%R) <=
     rsum (d_r A) (fun i => (rsum (d_c A) (fun j => (d_e A i j * z j)%R) * rsum (d_c A) (fun j => (d_e A i j * z j)%R))%R))%R) ->
  (INR (d_c A) * (eps * eps * norm2 (d_r A) (d_c A) (d_e A)) < c)%R ->
  truncated_geqp3 tol eps A = UB.
Proof.
  intros tol eps A c Hm Hn [j [Hj HT]] HC HE. rewrite norm2_sumsq in HE. eapply truncated_geqp3_full_rank; eauto.
  exists j. rewrite colnorm_norm2. auto.
Qed.

Theorem C60_full_rank_undefined : forall tol eps (A : rdense) (c : R), 0 < d_r A -> 0 < d_c A ->
  (exists j, j < d_c A /\ (tol < sqrt (col_norm2 (d_r A) (d_e A) j))%R) ->
  (forall z : nat -> R, (c * rsum (d_c A) (fun j => (z j * z j)%R) <=
     rsum (d_r A) (fun i => (rsum (d_c A) (fun j => (d_e A i j * z j)%R) * rsum (d_c A) (fun j => (d_e A i j * z j)%R))%R))%R) ->
  (INR (d_c A) * (eps * eps * norm2 (d_r A) (d_c A) (d_e A)) < c)%R ->
  truncated_geqp3 tol eps A = UB.
Proof. exact geqp3_full. Qed.
Print Assumptions C60_full_rank_undefined.

(** The error of the whole matrix is not bounded by eps |A|_F, for any size. *)
Lemma geqp3_whole : forall tol n, 2 <= n -> (0 <= tol < 1)%R -> exists (A Q P : rdense) (eps : R),
  d_r A = n /\ d_c A = n /\ (0 < eps < 1)%R /\ truncated_geqp3 tol eps A = Ok (Q, P) /\ d_c Q = 0 /\
  (eps * sqrt (norm2 n n (d_e A)) < sqrt (norm2 n n (minus (d_e A) (mmul (R := Rring) (d_c Q) (d_e Q) (d_e P)))))%R.
Proof.
  intros tol n Hn HT. destruct (geqp3_frobenius tol n Hn HT) as [A [Q [P [e [E1 [E2 [E3 [E4 [E5 E6]]]]]]]]].
  exists A, Q, P, e. rewrite !norm2_sumsq. repeat (split; auto).
Qed.

Theorem C60_frobenius_refuted : forall tol n, 2 <= n -> (0 <= tol < 1)%R -> exists (A Q P : rdense) (eps : R),
  d_r A = n /\ d_c A = n /\ (0 < eps < 1)%R /\ truncated_geqp3 tol eps A = Ok (Q, P) /\ d_c Q = 0 /\
  (eps * sqrt (norm2 n n (d_e A)) < sqrt (norm2 n n (minus (d_e A) (mmul (R := Rring) (d_c Q) (d_e Q) (d_e P)))))%R.
Proof. exact geqp3_whole. Qed.
Print Assumptions C60_frobenius_refuted.

Example C60_example : exists Q P, truncated_geqp3 (/ 1000) (1 / 2) a34 = Ok (Q, P) /\
  d_r Q = 2 /\ d_c Q = 1 /\ d_e Q 0 0 = (- (3 / 5))%R /\ d_e Q 1 0 = (- (4 / 5))%R /\
  d_r P = 1 /\ d_c P = 3 /\ d_e P 0 0 = (-5)%R /\ d_e P 0 1 = 0%R /\ d_e P 0 2 = 0%R.
Proof. exact a34_run. Qed.

(** ** C61: LowRank(Dense, eps) *)

Lemma lowrank_accurate : forall tol eps (A : rdense) l, lowrank_eps tol eps A = Ok l ->
  (exists j, j < d_c A /\ (tol < sqrt (col_norm2 (d_r A) (d_e A) j))%R) ->
  let m := d_r A in
  let n := d_c A in
  let r := l_rank l in
  let thr := (Q2R eps * sqrt (norm2 m n (d_e A)))%R in
  let err := minus (d_e A) (mmul (R := Rring) r (d_e (l_U l)) (mmul r (d_e (l_S l)) (d_e (l_V l)))) in
  l_r l = m /\ l_c l = n /\ d_r (l_U l) = m /\ d_c (l_U l) = r /\ d_r (l_S l) = r /\ d_c (l_S l) = r /\
  d_r (l_V l) = r /\ d_c (l_V l) = n /\ r <= m /\ r < n /\
  feq (R := Rring) r r (mmul m (mtr (d_e (l_U l))) (d_e (l_U l))) mid /\
  feq (R := Rring) r r (mmul n (d_e (l_V l)) (mtr (d_e (l_V l)))) mid /\
  (forall i j, i < r -> j < i -> d_e (l_S l) i j = 0%R) /\
  (forall j, j < n -> (col_norm2 m err j <= thr * thr)%R) /\
  (norm2 m n err <= INR (n - r) * (thr * thr))%R /\
  ((0 <= Q2R eps)%R -> forall k (X Y : rmat), feq (R := Rring) m n (d_e A) (mmul k X Y) -> r <= k).
Proof.
  intros tol eps A l H [j [Hj HT]] m n r thr err.
  assert (T : thr = (Q2R eps * sqrt (sumsq (R := Rring) m n (d_e A)))%R) by (unfold thr; rewrite norm2_sumsq; reflexivity).
  destruct (lowrank_eps_ok tol eps A l H) as [W [E1 [E2 [E3 [E4 [E5 [E6 [HU [HV [HS [HC [HF HK]]]]]]]]]]]].
  { exists j. rewrite colnorm_norm2. auto. }
  assert (HC' : forall j, j < n -> (rsum m (fun i => msub (R := Rring) (d_e A) (lr_ent l) i j * msub (R := Rring) (d_e A) (lr_ent l) i j) <= thr * thr)%R)
    by (rewrite T; exact HC).
  assert (HF' : (sumsq (R := Rring) m n (msub (d_e A) (lr_ent l)) <= INR (n - r) * (thr * thr))%R) by (rewrite T; exact HF).
  destruct W as [W1 [W2 [W3 W4]]].
  assert (EE : err = msub (R := Rring) (d_e A) (lr_ent l)).
  { unfold err, lr_ent. rewrite W2, E3, E4. reflexivity. }
  rewrite norm2_sumsq, EE. unfold col_norm2. clear HC HF T EE err. clearbody thr.
  subst m n r.
  repeat match goal with |- _ /\ _ => split end; auto; try congruence.
Qed.

Theorem C61_accuracy : forall tol eps (A : rdense) l, lowrank_eps tol eps A = Ok l ->
  (exists j, j < d_c A /\ (tol < sqrt (col_norm2 (d_r A) (d_e A) j))%R) ->
  let m := d_r A in
  let n := d_c A in
  let r := l_rank l in
  let thr := (Q2R eps * sqrt (norm2 m n (d_e A)))%R in
  let err := minus (d_e A) (mmul (R := Rring) r (d_e (l_U l)) (mmul r (d_e (l_S l)) (d_e (l_V l)))) in
  l_r l = m /\ l_c l = n /\ d_r (l_U l) = m /\ d_c (l_U l) = r /\ d_r (l_S l) = r /\ d_c (l_S l) = r /\
  d_r (l_V l) = r /\ d_c (l_V l) = n /\ r <= m /\ r < n /\
  feq (R := Rring) r r (mmul m (mtr (d_e (l_U l))) (d_e (l_U l))) mid /\
  feq (R := Rring) r r (mmul n (d_e (l_V l)) (mtr (d_e (l_V l)))) mid /\
  (forall i j, i < r -> j < i -> d_e (l_S l) i j = 0%R) /\
  (forall j, j < n -> (col_norm2 m err j <= thr * thr)%R) /\
  (norm2 m n err <= INR (n - r) * (thr * thr))%R /\
  ((0 <= Q2R eps)%R -> forall k (X Y : rmat), feq (R := Rring) m n (d_e A) (mmul k X Y) -> r <= k).
Proof. exact lowrank_accurate. Qed.
Print Assumptions C61_accuracy.

(** It returns whenever truncated_geqp3 does, in particular with more columns than rows. *)
Lemma lowrank_returns : forall tol eps (A : rdense), 0 < d_r A -> 0 < d_c A ->
  ((exists x, truncated_geqp3 tol (Q2R eps) A = Ok x) -> exists l, lowrank_eps tol eps A = Ok l) /\
  (d_r A < d_c A -> exists l, lowrank_eps tol eps A = Ok l).
Proof.
  intros tol eps A Hm Hn.
  assert (G : (exists x, truncated_geqp3 tol (Q2R eps) A = Ok x) -> exists l, lowrank_eps tol eps A = Ok l).
  { intros [x H]. eapply lowrank_eps_total; eauto. }
  split; auto. intros Hw. apply G. destruct (truncated_geqp3_total tol (Q2R eps) A Hm Hn) as [|[_ ?]]; auto. lia.
Qed.

Theorem C61_total : forall tol eps (A : rdense), 0 < d_r A -> 0 < d_c A ->
  ((exists x, truncated_geqp3 tol (Q2R eps) A = Ok x) -> exists l, lowrank_eps tol eps A = Ok l) /\
  (d_r A < d_c A -> exists l, lowrank_eps tol eps A = Ok l).
Proof. exact lowrank_returns. Qed.
Print Assumptions C61_total.

Lemma Q2R_half : Q2R (1 # 2) = (1 / 2)%R.
Proof. unfold Q2R. simpl. lra. Qed.

Example C61_example : exists l, lowrank_eps (/ 1000) (1 # 2) a34 = Ok l /\ l_rank l = 1 /\ l_r l = 2 /\ l_c l = 3 /\
  d_e (l_U l) 0 0 = (- (3 / 5))%R /\ d_e (l_U l) 1 0 = (- (4 / 5))%R.
Proof.
  destruct a34_run as [Q [P [E [E1 [E2 [E3 [E4 [E5 [E6 _]]]]]]]]]. unfold lowrank_eps. rewrite Q2R_half, E. cbn [bind]. rewrite E2.
  destruct (rq_dense_ok (R := Rring) dlarfg dlarfg_ok P (Dn 1 1 rzero) (Dn 1 (d_c a34) rzero)) as [X' [S' [V' [ER _]]]].
  { unfold rq_shapes. cbn [d_r d_c d_e a34]. rewrite E5, E6. repeat (split; [cbn; lia|]). reflexivity. }
  rewrite ER. cbn [bind]. eexists. split; [reflexivity|]. cbn. auto.
Qed.

(** ** C62: qr and rq of Dense matrices *)

(** For every way to compute a reflector that makes it orthogonal and annihilates all but the
    first entry of its argument, qr and rq return the thin factorizations, if the caller passes
    matrices of matching sizes and a zero R. *)
Theorem C62_qr : forall (R : cring) (h : larfg), larfg_ok (R := R) h -> forall A Q Rf : dense R,
  d_r Q = d_r A -> d_c Q = d_r Rf -> d_c Rf = d_c A -> Nat.min (d_r A) (d_c A) <= d_c Q <= d_r A ->
  (forall i j, i < d_r Rf -> j < d_c Rf -> j < i -> d_e Rf i j = 0%r) ->
  exists X Q' R', qr_dense h A Q Rf = Ok (X, Q', R') /\
    d_r Q' = d_r A /\ d_c Q' = d_c Q /\ d_r R' = d_c Q /\ d_c R' = d_c A /\
    feq (d_r A) (d_c A) (mmul (d_c Q) (d_e Q') (d_e R')) (d_e A) /\
    feq (d_c Q) (d_c Q) (mmul (d_r A) (mtr (d_e Q')) (d_e Q')) mid /\
    (forall i j, i < d_r R' -> j < d_c R' -> j < i -> d_e R' i j = 0%r).
Proof. exact (fun R h Hh A Q Rf E1 E2 E3 E4 E5 => qr_dense_ok h Hh A Q Rf (conj E1 (conj E2 (conj E3 (conj (proj1 E4) (conj (proj2 E4) E5)))))). Qed.
Print Assumptions C62_qr.

Theorem C62_rq : forall (R : cring) (h : larfg), larfg_ok (R := R) h -> forall A Rf Q : dense R,
  d_r Rf = d_r A -> d_c Rf = d_r Q -> d_c Q = d_c A -> Nat.min (d_r A) (d_c A) <= d_r Q <= d_c A ->
  (forall i j, i < d_r Rf -> j < d_c Rf -> j + d_r Rf < i + d_c Rf -> d_e Rf i j = 0%r) ->
  exists X R' Q', rq_dense h A Rf Q = Ok (X, R', Q') /\
    d_r R' = d_r A /\ d_c R' = d_r Q /\ d_r Q' = d_r Q /\ d_c Q' = d_c A /\
    feq (d_r A) (d_c A) (mmul (d_r Q) (d_e R') (d_e Q')) (d_e A) /\
    feq (d_r Q) (d_r Q) (mmul (d_c A) (d_e Q') (mtr (d_e Q'))) mid /\
    (forall i j, i < d_r R' -> j < d_c R' -> j + d_r R' < i + d_c R' -> d_e R' i j = 0%r).
Proof. exact (fun R h Hh A Rf Q E1 E2 E3 E4 E5 => rq_dense_ok h Hh A Rf Q (conj E1 (conj E2 (conj E3 (conj (proj1 E4) (conj (proj2 E4) E5)))))). Qed.
Print Assumptions C62_rq.

(** LAPACK's dlarfg is such a way over the reals. *)
Theorem C62_dlarfg : larfg_ok (R := Rring) dlarfg.
Proof. exact dlarfg_ok. Qed.
Print Assumptions C62_dlarfg.

(** Entries of R below the diagonal keep the values the caller passed. *)
Theorem C62_qr_keeps : forall (R : cring) (h : larfg (R := R)) (A Q Rf X Q' R' : dense R),
  qr_dense h A Q Rf = Ok (X, Q', R') -> forall i j, j < i -> d_e R' i j = d_e Rf i j.
Proof. exact (fun R h => qr_dense_keeps h). Qed.
Print Assumptions C62_qr_keeps.

(** With more columns than rows in Q, the entries on and above its diagonal keep the values
    the caller passed, so nothing makes Q orthogonal. *)
Theorem C62_qr_wide : forall (R : cring) (h : larfg (R := R)) (A Q Rf X Q' R' : dense R),
  qr_dense h A Q Rf = Ok (X, Q', R') -> d_r A < d_c Q -> forall i j, i <= j -> d_e Q' i j = d_e Q i j.
Proof. exact (fun R h => qr_dense_wide h). Qed.
Print Assumptions C62_qr_wide.

Definition a3 : rdense := Dn 2 1 e34.
Example C62_example : exists X Q R, qr_dense (R := Rring) dlarfg a3 (Dn 2 1 rzero) (Dn 1 1 rzero) = Ok (X, Q, R) /\
  d_e Q 0 0 = (- (3 / 5))%R /\ d_e Q 1 0 = (- (4 / 5))%R /\ d_e R 0 0 = (-5)%R.
Proof.
  unfold qr_dense. cbn [d_r d_c d_e a3 Nat.eqb Nat.min dgeqrf]. unfold qr_step. cbn [fst snd].
  change (fun i : nat => e34 (0 + i) 0) with (fun i => if i =? 0 then 3%R else 4%R). change (2 - 0) with 2.
  destruct dlarfg_34 as [y [EY [y0 y1]]]. rewrite EY.
  cbn [Nat.leb Nat.sub Nat.min]. do 3 eexists. split; [reflexivity|]. cbn [d_r d_c d_e].
  unfold dorgqr, apply_refl, store_col, elem, rv, hv, upd, hprod, mmul, mid. simpl. unfold elem, rv, hv, mid. simpl.
  rewrite ?y0, ?y1. repeat split; lra.
Qed.
