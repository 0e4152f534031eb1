(** qr (src/operations/LAPACK/qr.cpp:65-90) and rq (src/operations/LAPACK/rq.cpp:43-70) of
    Dense matrices, down to the Householder reflectors of LAPACK. *)
From Coq Require Import List Arith ZArith Lia Bool Ring_theory Ring Setoid Morphisms.
From Verif Require Import Prelude Ring MatFun MatSetoid Matrix MatOps Lapack Reflect ReflectSpec Householder.
Import ListNotations.
Local Open Scope nat_scope.

Section HouseQr.
Context {R : cring}.
Add Ring Rr : (cr_th R).
Notation mat := (mat R).
Notation dense := (dense R).
Notation vec := (nat -> R).
Variable h : larfg (R := R).

(** qr.cpp:65-90.  Returns the overwritten A, Q and R.  The third assert stands for the
    accesses Q(i, j), j < min(i, A.dim[1]) (81-85). *)
Definition qr_dense (A Q Rf : dense) : outcome (dense * dense * dense) :=
  assert! d_r Q =? d_r A in
  assert! d_c Q =? d_r Rf in
  assert! d_c Rf =? d_c A in
  let m := d_r A in
  let n := d_c A in
  let k := Nat.min m n in
  let '(X, tau) := dgeqrf h m n k (d_e A, fun _ => 0%r) in
  let R1 := fun i j => if (i <? Nat.min m (d_r Rf)) && (i <=? j) && (j <? d_c Rf) then X i j else d_e Rf i j in
  assert! Nat.min (m - 1) n <=? d_c Q in
  let Q1 := fun i j => if j <? Nat.min i n then X i j else d_e Q i j in
  Ok (Dn m n X, Dn (d_r Q) (d_c Q) (dorgqr (d_r Q) (d_c Q) k Q1 tau), Dn (d_r Rf) (d_c Rf) R1).

(** The RQ factorization of A is the QR factorization of its transpose with all rows and
    columns in reverse order; this is how LAPACK's dgerqf and dorgrq are modelled. *)
Definition mirror (m n : nat) (A : mat) : mat := fun i j => A (m - 1 - j) (n - 1 - i).
Definition dgerqf (m n k : nat) (A : mat) : mat * vec :=
  let '(X, tau) := dgeqrf h n m k (mirror m n A, fun _ => 0%r) in (mirror n m X, tau).
Definition dorgrq (m n k : nat) (B : mat) (tau : vec) : mat :=
  if (k <=? m) && (m <=? n) then mirror n m (dorgqr n m k (mirror m n B) tau) else B.

(** rq.cpp:43-70.  The asserts after the factorization stand for the accesses R(i, j+R.dim[1]-A.dim[1])
    (51-55) and Q(i+Q.dim[0]-A.dim[0], j) (57-61), whose indices may not be negative. *)
Definition rq_dense (A Rf Q : dense) : outcome (dense * dense * dense) :=
  assert! d_r Rf =? d_r A in
  assert! d_c Rf =? d_r Q in
  assert! d_c Q =? d_c A in
  let m := d_r A in
  let n := d_c A in
  let k := Nat.min m n in
  let '(X, tau) := dgerqf m n k (d_e A) in
  assert! n <=? d_c Rf + (n - m) in
  let R1 := fun i j => if (i <? d_r Rf) && (d_c Rf <=? j + n) && (j + n - d_c Rf <? n) && (i + n <=? j + n - d_c Rf + m)
                       then X i (j + n - d_c Rf) else d_e Rf i j in
  assert! m <=? d_r Q + (m - n) in
  let Q1 := fun i j => if (d_r Q <=? i + m) && (m - n <=? i + m - d_r Q) && (i + m - d_r Q <? m) && (j + m <? i + m - d_r Q + n)
                       then X (i + m - d_r Q) j else d_e Q i j in
  Ok (Dn m n X, Dn (d_r Rf) (d_c Rf) R1, Dn (d_r Q) (d_c Q) (dorgrq (d_r Q) (d_c Q) k Q1 tau)).

Hypothesis Hh : larfg_ok h.

(** Enough and not too many columns in Q, zeros below the diagonal of R. *)
Definition qr_shapes (A Q Rf : dense) : Prop :=
  d_r Q = d_r A /\ d_c Q = d_r Rf /\ d_c Rf = d_c A /\
  Nat.min (d_r A) (d_c A) <= d_c Q /\ d_c Q <= d_r A /\
  forall i j, i < d_r Rf -> j < d_c Rf -> j < i -> d_e Rf i j = 0%r.

Lemma qr_closed m n q (B Q0 R0 : mat) (tau0 : vec) : Nat.min m n <= q -> q <= m ->
  (forall i j, i < q -> j < n -> j < i -> R0 i j = 0%r) ->
  let k := Nat.min m n in
  let X := fst (dgeqrf h m n k (B, tau0)) in
  let tau := snd (dgeqrf h m n k (B, tau0)) in
  forall Q1 R1 : mat,
  (forall i j, i < m -> j < q -> j < Nat.min i n -> Q1 i j = X i j) ->
  (forall i j, i < q -> j < n -> R1 i j = if i <=? j then X i j else R0 i j) ->
  feq m n (mmul q (dorgqr m q k Q1 tau) R1) B /\
  orth_cols m q (dorgqr m q k Q1 tau) /\
  (forall i j, i < q -> j < n -> j < i -> R1 i j = 0%r).
Proof.
  intros H1 H2 HZ k X tau Q1 R1 EQ ER.
  destruct (dgeqrf_inv h Hh m n B tau0 k ltac:(lia) ltac:(lia)) as [HB HE].
  fold X in HB, HE. fold tau in HB, HE.
  unfold dorgqr. destruct (Nat.leb_spec k q); [|unfold k in *; lia]. destruct (Nat.leb_spec q m); [|lia]. simpl.
  assert (HP : feq m m (hprod m Q1 tau k) (hprod m X tau k)).
  { apply hprod_ext; auto. intros s l Hs Hl Hm. apply EQ; unfold k in *; lia. }
  assert (HO : orthogonal m (hprod m Q1 tau k)).
  { apply hprod_orthogonal. apply (balanced_ext m X Q1 tau tau k); auto.
    intros s l Hs Hl Hm. symmetry. apply EQ; unfold k in *; lia. }
  split; [|split].
  - apply feq_sym. eapply feq_trans; [exact HE|].
    intros i j Hi Hj. unfold mmul at 1. replace m with (q + (m - q)) at 1 by lia. rewrite sum_split.
    rewrite (sum_zero' (R := R) (m - q)).
    2:{ intros l Hl. unfold work. destruct (Nat.ltb_spec j k); [|unfold k in *; lia].
        destruct (Nat.ltb_spec j (q + l)); [|unfold k in *; lia]. simpl. ring. }
    transitivity (sum q (fun l => hprod m X tau k i l * work k X l j))%r; [ring|].
    apply sum_ext. intros l Hl. rewrite HP by lia. f_equal. rewrite ER by auto. unfold work.
    destruct (Nat.leb_spec l j).
    + destruct (Nat.ltb_spec j l); [lia|]. rewrite andb_false_r. reflexivity.
    + destruct (Nat.ltb_spec j k); [|unfold k in *; lia]. destruct (Nat.ltb_spec j l); [|lia]. simpl. symmetry. apply HZ; auto.
  - destruct HO as [_ HO]. intros i j Hi Hj. apply HO; lia.
  - intros i j Hi Hj Hl. rewrite ER by auto. destruct (Nat.leb_spec i j); [lia|]. apply HZ; auto.
Qed.

Lemma qr_dense_ok (A Q Rf : dense) : qr_shapes A Q Rf ->
  exists X Q' R', qr_dense A Q Rf = Ok (X, Q', R') /\
    d_r Q' = d_r A /\ d_c Q' = d_c Q /\ d_r R' = d_c Q /\ d_c R' = d_c A /\
    feq (d_r A) (d_c A) (mmul (d_c Q) (d_e Q') (d_e R')) (d_e A) /\
    orth_cols (d_r A) (d_c Q) (d_e Q') /\
    (forall i j, i < d_r R' -> j < d_c R' -> j < i -> d_e R' i j = 0%r).
Proof.
  intros [E1 [E2 [E3 [L1 [L2 HZ]]]]]. unfold qr_dense.
  rewrite (proj2 (Nat.eqb_eq _ _) E1), (proj2 (Nat.eqb_eq _ _) E2), (proj2 (Nat.eqb_eq _ _) E3).
  destruct (dgeqrf h (d_r A) (d_c A) (Nat.min (d_r A) (d_c A)) (d_e A, fun _ => 0%r)) as [X tau] eqn:ED.
  destruct (Nat.leb_spec (Nat.min (d_r A - 1) (d_c A)) (d_c Q)); [|lia].
  do 3 eexists. split; [reflexivity|]. cbn [d_r d_c d_e]. do 4 (split; [congruence|]).
  pose proof (qr_closed (d_r A) (d_c A) (d_c Q) (d_e A) (d_e Q) (d_e Rf) (fun _ => 0%r) L1 L2) as G.
  cbv zeta in G. rewrite ED in G. cbn [fst snd] in G.
  rewrite E1. edestruct G as [G1 [G2 G3]]; [| | |split; [exact G1|split; [exact G2|]]].
  - intros i j Hi Hj Hl. apply HZ; congruence.
  - intros i j Hi Hj Hl. cbv beta. destruct (Nat.ltb_spec j (Nat.min i (d_c A))); [reflexivity|lia].
  - intros i j Hi Hj. cbv beta. destruct (Nat.ltb_spec i (Nat.min (d_r A) (d_r Rf))); [|lia].
    destruct (Nat.ltb_spec j (d_c Rf)); [|lia]. rewrite andb_true_r. simpl. reflexivity.
  - intros i j Hi Hj Hl. apply G3; congruence.
Qed.

(** The part of R below the diagonal is not written. *)
Lemma qr_dense_keeps (A Q Rf X Q' R' : dense) : qr_dense A Q Rf = Ok (X, Q', R') ->
  forall i j, j < i -> d_e R' i j = d_e Rf i j.
Proof.
  unfold qr_dense. intros H. repeat (match type of H with (if ?b then _ else _) = _ => destruct b; [|discriminate] end).
  destruct (dgeqrf _ _ _ _ _) as [Y tau]. destruct (_ <=? _); [|discriminate]. inversion H; subst; clear H.
  intros i j Hl. cbn [d_e]. destruct (Nat.leb_spec i j); [lia|]. rewrite andb_false_r. reflexivity.
Qed.

(** More columns than rows in Q: dorgqr does nothing and Q holds the reflectors. *)
Lemma qr_dense_wide (A Q Rf X Q' R' : dense) : qr_dense A Q Rf = Ok (X, Q', R') -> d_r A < d_c Q ->
  forall i j, i <= j -> d_e Q' i j = d_e Q i j.
Proof.
  unfold qr_dense. intros H HW. destruct (Nat.eqb_spec (d_r Q) (d_r A)) as [E|]; [|discriminate].
  repeat (match type of H with (if ?b then _ else _) = _ => destruct b; [|discriminate] end).
  destruct (dgeqrf _ _ _ _ _) as [Y tau]. destruct (_ <=? _); [|discriminate]. inversion H; subst; clear H.
  intros i j Hl. cbn [d_e]. unfold dorgqr. destruct (Nat.leb_spec (d_c Q) (d_r Q)); [lia|]. rewrite andb_false_r.
  destruct (Nat.ltb_spec j (Nat.min i (d_c A))); [lia|reflexivity].
Qed.

(** ** RQ *)

Lemma sum_rev n (f : vec) : sum n (fun i => f (n - 1 - i)) = sum n f.
Proof.
  induction n as [|n IH]; [reflexivity|]. rewrite sum_first. rewrite sum_S.
  replace (S n - 1 - 0) with n by lia. rewrite <- IH.
  transitivity (f n + sum n (fun i => f (n - 1 - i)%nat))%r; [|ring]. f_equal.
  apply sum_ext. intros i Hi. f_equal. lia.
Qed.

Lemma mirror_mirror m n (A : mat) i j : i < m -> j < n -> mirror n m (mirror m n A) i j = A i j.
Proof. intros Hi Hj. unfold mirror. f_equal; lia. Qed.

Lemma mirror_mul m k n (A B : mat) i j :
  mirror m n (mmul k A B) i j = mmul k (mirror k n B) (mirror m k A) i j.
Proof.
  unfold mirror, mmul. rewrite <- (sum_rev k). apply sum_ext. intros l Hl. ring.
Qed.

(** Enough and not too many rows in Q, zeros in R left of the diagonal that ends in the
    lower right corner. *)
Definition rq_shapes (A Rf Q : dense) : Prop :=
  d_r Rf = d_r A /\ d_c Rf = d_r Q /\ d_c Q = d_c A /\
  Nat.min (d_r A) (d_c A) <= d_r Q /\ d_r Q <= d_c A /\
  forall i j, i < d_r Rf -> j < d_c Rf -> j + d_r Rf < i + d_c Rf -> d_e Rf i j = 0%r.

Lemma rq_dense_ok (A Rf Q : dense) : rq_shapes A Rf Q ->
  exists X R' Q', rq_dense A Rf Q = Ok (X, R', Q') /\
    d_r R' = d_r A /\ d_c R' = d_r Q /\ d_r Q' = d_r Q /\ d_c Q' = d_c A /\
    feq (d_r A) (d_c A) (mmul (d_r Q) (d_e R') (d_e Q')) (d_e A) /\
    orth_rows (d_r Q) (d_c A) (d_e Q') /\
    (forall i j, i < d_r R' -> j < d_c R' -> j + d_r R' < i + d_c R' -> d_e R' i j = 0%r).
Proof.
  intros [E1 [E2 [E3 [L1 [L2 HZ]]]]]. unfold rq_dense.
  rewrite (proj2 (Nat.eqb_eq _ _) E1), (proj2 (Nat.eqb_eq _ _) E2), (proj2 (Nat.eqb_eq _ _) E3).
  unfold dgerqf.
  destruct (dgeqrf h (d_c A) (d_r A) (Nat.min (d_r A) (d_c A)) (mirror (d_r A) (d_c A) (d_e A), fun _ => 0%r)) as [X tau] eqn:ED.
  destruct (Nat.leb_spec (d_c A) (d_c Rf + (d_c A - d_r A))); [|lia].
  destruct (Nat.leb_spec (d_r A) (d_r Q + (d_r A - d_c A))); [|lia].
  do 3 eexists. split; [reflexivity|]. cbn [d_r d_c d_e]. do 4 (split; [congruence|]).
  set (m := d_r A) in *. set (n := d_c A) in *. set (q := d_r Q) in *.
  set (R1 := fun i j : nat => if (i <? d_r Rf) && _ && _ && _ then _ else _).
  set (Q1 := fun i j : nat => if (q <=? i + m) && _ && _ && _ then _ else _).
  pose proof (qr_closed n m q (mirror m n (d_e A)) (mirror q n (d_e Q)) (mirror m q (d_e Rf)) (fun _ => 0%r)) as G.
  cbv zeta in G. rewrite (Nat.min_comm n m) in G. rewrite ED in G. cbn [fst snd] in G.
  specialize (G L1 L2). lapply G; clear G; [intros G|].
  2:{ intros i j Hi Hj Hl. unfold mirror. apply HZ; lia. }
  specialize (G (mirror q n Q1) (mirror m q R1)).
  lapply G; clear G; [intros G|].
  2:{ intros i j Hi Hj Hl. unfold mirror, Q1.
      destruct (Nat.leb_spec q (q - 1 - j + m)); [|lia]. destruct (Nat.leb_spec (m - n) (q - 1 - j + m - q)); [|lia].
      destruct (Nat.ltb_spec (q - 1 - j + m - q) m); [|lia].
      destruct (Nat.ltb_spec (n - 1 - i + m) (q - 1 - j + m - q + n)); [|lia]. simpl. unfold mirror. f_equal; lia. }
  lapply G; clear G; [intros [G1 [G2 G3]]|].
  2:{ intros i j Hi Hj. unfold mirror, R1.
      destruct (Nat.ltb_spec (m - 1 - j) (d_r Rf)); [|lia]. destruct (Nat.leb_spec (d_c Rf) (q - 1 - i + n)); [|lia].
      destruct (Nat.ltb_spec (q - 1 - i + n - d_c Rf) n); [|lia]. simpl.
      destruct (Nat.leb_spec (m - 1 - j + n) (q - 1 - i + n - d_c Rf + m)); destruct (Nat.leb_spec i j); try lia; auto.
      unfold mirror. f_equal; lia. }
  rewrite E3. fold n. unfold dorgrq. destruct (Nat.leb_spec (Nat.min m n) q); [|lia]. destruct (Nat.leb_spec q n); [|lia]. cbn [andb].
  set (QQ := dorgqr n q (Nat.min m n) (mirror q n Q1) tau) in *.
  split; [|split].
  - intros i j Hi Hj. rewrite <- (mirror_mirror m n (d_e A) i j) by auto.
    unfold mirror at 2. rewrite <- G1 by lia.
    rewrite <- (mirror_mirror m n (mmul q R1 (mirror n q QQ)) i j) by auto.
    unfold mirror at 1. rewrite mirror_mul. apply mmul_ext; auto.
    intros l Hl. apply mirror_mirror; lia.
  - intros i j Hi Hj. unfold orth_cols in G2.
    transitivity (mmul n (mtr QQ) QQ (q - 1 - i) (q - 1 - j)).
    + unfold mmul, mtr, mirror. rewrite <- (sum_rev n). apply sum_ext. intros l Hl. do 2 f_equal; lia.
    + rewrite G2 by lia. unfold mid. destruct (Nat.eqb_spec i j); destruct (Nat.eqb_spec (q - 1 - i) (q - 1 - j)); auto; lia.
  - intros i j Hi Hj Hl. change (R1 i j = 0%r).
    assert (Hi' : i < m) by congruence. assert (Hj' : j < q) by congruence. assert (Hl' : j + m < i + q) by congruence.
    rewrite <- (mirror_mirror m q R1 i j) by auto. unfold mirror at 1. apply G3; lia.
Qed.

End HouseQr.
