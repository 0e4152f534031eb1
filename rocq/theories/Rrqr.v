(** truncated_geqp3, src/operations/LAPACK/geqp3.cpp:69-191, over the real numbers. *)
From Coq Require Import List Arith Lia Bool Reals Lra Ring_theory Ring FinFun.
From Verif Require Import Prelude Ring MatFun MatSetoid Matrix MatOps Lapack Reflect ReflectSpec SvdRank Householder HouseQr HouseReal.
Import ListNotations.
Local Open Scope nat_scope.

Add Ring RRr : (RTheory : @ring_theory (car Rring) 0%R 1%R Rplus Rmult Rminus Ropp (@eq (car Rring))).
Ltac rring := simpl; first [ring | match goal with |- @eq _ ?a ?b => change (@eq (car Rring) a b) end; ring].

Notation rmat := (mat Rring).
Notation rdense := (dense Rring).

(** Index of the first maximum among f a .. f (a + c) (std::max_element). *)
Fixpoint amax (f : vec) (a c : nat) : nat :=
  match c with
  | O => a
  | S c' => let k := amax f a c' in if Rlt_dec (f k) (f (a + S c')) then a + S c' else k
  end.

(** *std::max_element(f.begin() + a, f.end()) for a vector of size n; dereferencing end() is
    undefined. *)
Definition max_from (f : vec) (a n : nat) : outcome R :=
  if a <? n then Ok (f (amax f a (n - 1 - a))) else UB.

Definition transp (a b j : nat) : nat := if j =? a then b else if j =? b then a else j.

(** cblas_dnrm2 of rows a .. m-1 of column j. *)
Definition colnorm (A : rmat) (m a j : nat) : R := sqrt (rsum (m - a) (fun i => (A (a + i)%nat j * A (a + i)%nat j)%R)).

Record pstate := PState {
  p_A : rmat;
  p_tau : vec;
  p_piv : nat -> nat;
  p_cn : vec;
  p_pn : vec
}.

(** The update of cnorm and partial_cnorm (137-159). *)
Definition norm_update (tol : R) (m r : nat) (A : rmat) (cn pn : vec) (j : nat) : R * R :=
  if Req_EM_T (cn j) 0 then (cn j, pn j) else
  let t0 := Rabs (A r j / cn j) in
  let t1 := Rmax 0 ((1 - t0) * (1 + t0)) in
  let t2 := (t1 * (cn j / pn j) * (cn j / pn j))%R in
  if Rlt_dec (sqrt tol) t2 then ((cn j * sqrt t1)%R, pn j)
  else if r <? m - 1 then (colnorm A m (r + 1) j, colnorm A m (r + 1) j) else (0%R, 0%R).

(** The body of the loop (104-159). *)
Definition piv_step (tol : R) (m n r : nat) (s : pstate) : pstate :=
  let k := amax (p_cn s) r (n - 1 - r) in
  let A1 : rmat := fun i j => p_A s i (transp r k j) in
  let cn1 : vec := fun j => p_cn s (transp r k j) in
  let pn1 : vec := fun j => p_pn s (transp r k j) in
  let piv1 := fun j => p_piv s (transp r k j) in
  let '(y, t) := if r <? m - 1 then dlarfg (m - r) (fun i => A1 (r + i) r) else dlarfg 1 (fun i => A1 (r + i) r) in
  let A2 : rmat := if r <? m - 1 then store_col (R := Rring) m r y A1 else fun i j => if (j =? r) && (i =? r) then y 0 else A1 i j in
  let A3 : rmat := if r <? Nat.min m n - 1 then apply_refl (R := Rring) m n r t A2 else A2 in
  let new := norm_update tol m r A3 cn1 pn1 in
  PState A3 (upd (R := Rring) (p_tau s) r t) piv1
    (fun j => if (r <? j) && (j <? n) then fst (new j) else cn1 j)
    (fun j => if (r <? j) && (j <? n) then snd (new j) else pn1 j).

(** The loop (103-162); [mx] is max_cnorm. *)
Fixpoint piv_loop (fuel : nat) (tol thr : R) (m n r : nat) (mx : R) (s : pstate) : outcome (nat * pstate) :=
  match fuel with
  | O => Ok (r, s)
  | S f =>
    if Rlt_dec thr mx then
      let s' := piv_step tol m n r s in
      let* mx' := max_from (p_cn s') (r + 1) n in
      piv_loop f tol thr m n (r + 1) mx' s'
    else Ok (r, s)
  end.

(** ipivT[ipiv[i]] = i (181-182), the last writer wins. *)
Fixpoint inv_piv (piv : nat -> nat) (n j : nat) : nat :=
  match n with
  | O => 0
  | S n' => if piv n' =? j then n' else inv_piv piv n' j
  end.

Definition truncated_geqp3 (tol eps : R) (A : rdense) : outcome (rdense * rdense) :=
  let m := d_r A in
  let n := d_c A in
  let cn : vec := fun j => colnorm (d_e A) m 0 j in
  let thr := (eps * sqrt (sumsq (R := Rring) m n (d_e A)))%R in
  let* mx := max_from cn 0 n in
  if Rle_dec mx tol then
    if m =? 0 then UB else
    let e1 : rmat := fun i j => if (i =? 0) && (j =? 0) then 1%R else 0%R in
    let zero : rmat := fun _ _ => 0%R in
    Ok (Dn m 1 e1, Dn 1 n zero)
  else
  let* (r, s) := piv_loop (Nat.min m n) tol thr m n 0 mx (PState (d_e A) (fun _ => 0%R) (fun j => j) cn cn) in
  let Q0 : rmat := fun i j => if j <? Nat.min i r then p_A s i j else 0%R in
  let Q := Dn m r (dorgqr (R := Rring) m r r Q0 (p_tau s)) in
  let R0 : rmat := fun i j => if (i <? r) && (i <=? j) && (j <? n) then p_A s i j else 0%R in
  Ok (Q, Dn r n (fun i j => R0 i (inv_piv (p_piv s) n j))).

(** ** Norms and maxima *)

Lemma amax_spec (f : vec) a c : a <= amax f a c <= a + c /\ forall j, a <= j <= a + c -> (f j <= f (amax f a c))%R.
Proof.
  induction c as [|c [IH1 IH2]].
  - simpl. split; [lia|]. intros j Hj. replace j with a by lia. lra.
  - cbn [amax]. destruct (Rlt_dec (f (amax f a c)) (f (a + S c))) as [H|H].
    + split; [lia|]. intros j Hj. destruct (Nat.eq_dec j (a + S c)) as [->|]; [lra|].
      specialize (IH2 j ltac:(lia)). lra.
    + split; [lia|]. intros j Hj. destruct (Nat.eq_dec j (a + S c)) as [->|]; [lra|]. apply IH2. lia.
Qed.

Lemma max_from_Ok f a n mx : max_from f a n = Ok mx -> a < n /\ exists k, a <= k < n /\ mx = f k /\ forall j, a <= j < n -> (f j <= mx)%R.
Proof.
  unfold max_from. destruct (Nat.ltb_spec a n); [|discriminate]. intros E. inversion E; subst. split; auto.
  destruct (amax_spec f a (n - 1 - a)) as [H1 H2]. exists (amax f a (n - 1 - a)). split; [lia|]. split; auto.
  intros j Hj. apply H2. lia.
Qed.

Definition colsq (A : rmat) (m a j : nat) : R := rsum (m - a) (fun i => (A (a + i)%nat j * A (a + i)%nat j)%R).

Lemma colsq_pos A m a j : (0 <= colsq A m a j)%R.
Proof. apply sum_nonneg. intros i _. apply Rle_0_sqr. Qed.

Lemma colsq_first A m a j : a < m -> colsq A m a j = (A a j * A a j + colsq A m (a + 1) j)%R.
Proof.
  intros H. unfold colsq. replace (m - a) with (S (m - (a + 1))) by lia. rewrite (sum_first (R := Rring)).
  rewrite Nat.add_0_r. simpl. f_equal. apply (sum_ext (R := Rring)). intros i _. replace (a + S i) with (a + 1 + i) by lia. reflexivity.
Qed.

Lemma colnorm_sq A m a j : (colnorm A m a j * colnorm A m a j)%R = colsq A m a j.
Proof. apply sqrt_sqrt. apply colsq_pos. Qed.

Lemma colnorm_pos A m a j : (0 <= colnorm A m a j)%R.
Proof. apply sqrt_pos. Qed.

Lemma colnorm_unique A m a j c : (0 <= c)%R -> (c * c)%R = colsq A m a j -> c = colnorm A m a j.
Proof.
  intros H1 H2. unfold colnorm. fold (colsq A m a j). rewrite <- H2. symmetry. apply sqrt_square. auto.
Qed.

(** The update yields the norms of the rows from r+1 on. *)
Lemma norm_update_exact tol m r A A' cn pn j : r < m ->
  cn j = colnorm A m r j -> colsq A m r j = colsq A' m r j ->
  fst (norm_update tol m r A' cn pn j) = colnorm A' m (r + 1) j.
Proof.
  intros Hr HC HE. unfold norm_update.
  assert (P1 := colnorm_pos A m r j). assert (P2 := colnorm_sq A m r j). rewrite <- HC in P1, P2.
  assert (P3 := colsq_first A' m r j Hr). assert (P4 := colsq_pos A' m (r + 1) j).
  destruct (Req_EM_T (cn j) 0) as [E|E].
  - simpl. apply colnorm_unique; auto. rewrite E in *.
    pose proof (Rle_0_sqr (A' r j)) as Q. unfold Rsqr in Q. lra.
  - destruct (Rlt_dec _ _) as [H|H].
    + simpl. set (c := cn j) in *. set (b := A' r j) in *.
      assert (C : (0 < c)%R) by lra.
      assert (T : ((1 - Rabs (b / c)) * (1 + Rabs (b / c)) = colsq A' m (r + 1) j / (c * c))%R).
      { transitivity (1 - Rabs (b / c) * Rabs (b / c))%R; [ring|].
        rewrite <- Rabs_mult. rewrite Rabs_pos_eq by apply Rle_0_sqr.
        replace (colsq A' m (r + 1) j) with (c * c - b * b)%R by lra. field. auto. }
      rewrite T. assert (CC : (0 < c * c)%R) by (apply Rmult_lt_0_compat; auto).
      assert (T2 : (0 <= colsq A' m (r + 1) j / (c * c))%R) by (apply Rle_mult_inv_pos; auto).
      rewrite Rmax_right by auto. apply colnorm_unique.
      * apply Rmult_le_pos; [lra|apply sqrt_pos].
      * transitivity (c * c * (sqrt (colsq A' m (r + 1) j / (c * c)) * sqrt (colsq A' m (r + 1) j / (c * c))))%R; [ring|].
        rewrite sqrt_sqrt by auto. field. auto.
    + destruct (Nat.ltb_spec r (m - 1)); simpl; [reflexivity|].
      unfold colnorm. replace (m - (r + 1)) with 0 by lia. simpl. rewrite sqrt_0. reflexivity.
Qed.

(** ** The loop *)

Lemma transp_range a b n j : a < n -> b < n -> j < n -> transp a b j < n.
Proof. intros. unfold transp. destruct (Nat.eqb_spec j a); [auto|]. destruct (Nat.eqb_spec j b); auto. Qed.
Lemma transp_ge a b r j : r <= a -> r <= b -> r <= j -> r <= transp a b j.
Proof. intros. unfold transp. destruct (Nat.eqb_spec j a); [auto|]. destruct (Nat.eqb_spec j b); auto. Qed.
Lemma transp_low a b j : j < a -> j < b -> transp a b j = j.
Proof. intros. unfold transp. destruct (Nat.eqb_spec j a); [lia|]. destruct (Nat.eqb_spec j b); lia. Qed.
Lemma transp_inj a b i j : transp a b i = transp a b j -> i = j.
Proof.
  unfold transp. intros H.
  destruct (Nat.eqb_spec i a); destruct (Nat.eqb_spec j a); destruct (Nat.eqb_spec i b); destruct (Nat.eqb_spec j b); lia.
Qed.

Lemma transp_transp a b j : transp a b (transp a b j) = j.
Proof.
  unfold transp. destruct (Nat.eqb_spec j a) as [->|].
  - rewrite Nat.eqb_refl. destruct (Nat.eqb_spec b a); auto.
  - destruct (Nat.eqb_spec j b) as [->|].
    + rewrite Nat.eqb_refl. reflexivity.
    + destruct (Nat.eqb_spec j a); [contradiction|]. destruct (Nat.eqb_spec j b); [contradiction|]. reflexivity.
Qed.

Definition perm_on (n : nat) (p : nat -> nat) : Prop :=
  (forall j, j < n -> p j < n) /\ (forall i j, i < n -> j < n -> p i = p j -> i = j).

Record piv_inv (m n r : nat) (B : rmat) (s : pstate) : Prop := {
  pi_perm : perm_on n (p_piv s);
  pi_qr : qr_inv (R := Rring) m n r (fun i j => B i (p_piv s j)) (p_A s) (p_tau s);
  pi_cn : forall j, r <= j -> j < n -> p_cn s j = colnorm (p_A s) m r j
}.

(** A reflector keeps the norm of the columns. *)
Lemma dot_mmul_orth m (P X : rmat) j : orthogonal (R := Rring) m P ->
  rsum m (fun i => (mmul m P X i j * mmul m P X i j)%R) = rsum m (fun i => (X i j * X i j)%R).
Proof.
  intros [_ HP].
  transitivity (mmul (R := Rring) m (mtr (mmul m P X)) (mmul m P X) j j); [reflexivity|].
  transitivity (mmul (R := Rring) m (mtr X) (mmul m (mmul m (mtr P) P) X) j j).
  - transitivity (mmul (R := Rring) m (mmul m (mtr X) (mtr P)) (mmul m P X) j j).
    + apply mmul_ext; auto. intros x Hx. apply (mmul_tr (R := Rring)).
    + rewrite (mmul_assoc (R := Rring)). apply mmul_ext; auto. intros x Hx. symmetry. apply (mmul_assoc (R := Rring)).
  - transitivity (mmul (R := Rring) m (mtr X) X j j); [|reflexivity]. apply mmul_ext; auto. intros x Hx.
    transitivity (mmul (R := Rring) m mid X x j); [|apply mmul_id_l; auto]. apply mmul_ext; auto.
Qed.

Lemma piv_step_refl tol m n r s : r < Nat.min m n ->
  let k := amax (p_cn s) r (n - 1 - r) in
  refl_step (R := Rring) dlarfg m n r (fun i j => p_A s i (transp r k j)) (p_A (piv_step tol m n r s))
    (p_tau s) (p_tau (piv_step tol m n r s)).
Proof.
  intros Hr k. unfold piv_step. fold k.
  set (A1 := fun i j : nat => p_A s i (transp r k j) : R).
  change (fun i : nat => p_A s (r + i) (transp r k r)) with (fun i : nat => A1 (r + i) r).
  destruct (Nat.ltb_spec r (m - 1)) as [Hm|Hm].
  - destruct (Nat.ltb_spec r (Nat.min m n - 1)) as [Hn|Hn].
    + pose proof (qr_step_refl (R := Rring) dlarfg m n r A1 (p_tau s) ltac:(lia)) as G.
      unfold qr_step in G. destruct (dlarfg (m - r) (fun i => A1 (r + i) r)) as [y t] eqn:E. exact G.
    + (* no columns behind *)
      assert (N : n = r + 1) by lia.
      unfold refl_step.
      destruct (dlarfg (m - r) (fun i => A1 (r + i) r)) as [y t] eqn:E. cbn [p_A p_tau].
      split; [|split; [|split; [|split]]].
      * intros i j Hi Hj H. unfold store_col. destruct (Nat.eqb_spec j r); destruct (Nat.leb_spec r i); simpl; auto; lia.
      * intros i H1 H2 _. unfold store_col. rewrite Nat.eqb_refl. destruct (Nat.leb_spec r i); [|lia].
        destruct (Nat.ltb_spec i m); [|lia]. reflexivity.
      * intros; lia.
      * unfold upd. rewrite Nat.eqb_refl. reflexivity.
      * intros x Hx. unfold upd. destruct (Nat.eqb_spec x r); [lia|]. reflexivity.
  - (* last row: the reflector is the identity *)
    assert (M : m - r = 1) by lia.
    destruct (Nat.ltb_spec r (Nat.min m n - 1)) as [Hn|Hn]; [lia|].
    unfold refl_step.
    rewrite M. destruct (dlarfg 1 (fun i => A1 (r + i) r)) as [y t] eqn:E.
    assert (T : t = 0%R /\ y 0 = A1 r r). { unfold dlarfg in E. simpl in E. inversion E; subst. rewrite Nat.add_0_r. auto. }
    destruct T as [T1 T2]. cbn [p_A p_tau].
    split; [|split; [|split; [|split]]].
    + intros i j Hi Hj H. destruct (Nat.eqb_spec j r); destruct (Nat.eqb_spec i r); simpl; auto; lia.
    + intros i H1 H2 _. replace i with r by lia. rewrite !Nat.eqb_refl. simpl. f_equal. lia.
    + intros i j H1 H2 H3 H4. destruct (Nat.eqb_spec j r); [lia|]. simpl. rewrite T1. unfold A1. rring.
    + unfold upd. rewrite Nat.eqb_refl. reflexivity.
    + intros x Hx. unfold upd. destruct (Nat.eqb_spec x r); [lia|]. reflexivity.
Qed.

Lemma qr_inv_permute m n r k B A tau : r <= k -> k < n -> r < n -> qr_inv (R := Rring) m n r B A tau ->
  qr_inv (R := Rring) m n r (fun i j => B i (transp r k j)) (fun i j => A i (transp r k j)) tau.
Proof.
  intros H1 H2 H3 [HB HE].
  assert (L : forall s l, s < r -> s < l -> l < m -> A l s = A l (transp r k s)).
  { intros s l Hs _ _. rewrite transp_low by lia. reflexivity. }
  split.
  - eapply (balanced_ext (R := Rring)); [exact L|reflexivity|exact HB].
  - intros i j Hi Hj. rewrite HE by auto using transp_range.
    unfold mmul. apply (sum_ext (R := Rring)). intros x Hx. f_equal.
    + apply (hprod_ext (R := Rring)); auto.
    + unfold work. destruct (lt_dec j r).
      * rewrite !transp_low by lia. reflexivity.
      * pose proof (transp_ge r k r j ltac:(lia) H1 ltac:(lia)).
        destruct (Nat.ltb_spec (transp r k j) r); [lia|]. destruct (Nat.ltb_spec j r); [lia|]. reflexivity.
Qed.

Lemma refl_step_colsq m n r A A' tau tau' j : r < m -> refl_step (R := Rring) dlarfg m n r A A' tau tau' -> r < j -> j < n ->
  colsq A m r j = colsq A' m r j.
Proof.
  intros Hm HS H1 H2. unfold refl_step in HS.
  pose proof (lg_bal (R := Rring) dlarfg dlarfg_ok (m - r) (fun i => A (r + i) r)) as G1.
  destruct (dlarfg (m - r) (fun i => A (r + i) r)) as [y t]. simpl in G1.
  destruct HS as [_ [_ [F3 _]]].
  unfold colsq.
  rewrite <- (dot_mmul_orth (m - r) (elem (R := Rring) (hv (R := Rring) y) t) (fun l c => A (r + l) c) j) by (apply elem_orthogonal; exact G1).
  apply (sum_ext (R := Rring)). intros i Hi. rewrite !(elem_mul (R := Rring)) by auto.
  rewrite (F3 (r + i) j) by lia. replace (r + i - r) with i by lia. reflexivity.
Qed.

Lemma piv_step_inv tol m n r B s : r < Nat.min m n -> piv_inv m n r B s -> piv_inv m n (r + 1) B (piv_step tol m n r s).
Proof.
  intros Hr [HP HQ HC].
  pose proof (piv_step_refl tol m n r s Hr) as HS. cbv zeta in HS.
  set (k := amax (p_cn s) r (n - 1 - r)) in *.
  assert (K : r <= k < n). { destruct (amax_spec (p_cn s) r (n - 1 - r)) as [K _]. fold k in K. lia. }
  assert (PV : p_piv (piv_step tol m n r s) = fun j => p_piv s (transp r k j)).
  { unfold piv_step. fold k. destruct (if r <? m - 1 then _ else _). reflexivity. }
  split.
  - rewrite PV. destruct HP as [P1 P2]. split.
    + intros j Hj. apply P1. apply transp_range; lia.
    + intros i j Hi Hj E. apply P2 in E; [|apply transp_range; lia|apply transp_range; lia]. eapply transp_inj; eauto.
  - rewrite PV. rewrite Nat.add_1_r. eapply (refl_step_inv (R := Rring)); [exact dlarfg_ok|lia|lia|exact HS|].
    apply (qr_inv_permute m n r k (fun i j => B i (p_piv s j))); auto; lia.
  - intros j H1 H2.
    assert (E : p_cn (piv_step tol m n r s) j = fst (norm_update tol m r (p_A (piv_step tol m n r s))
       (fun j => p_cn s (transp r k j)) (fun j => p_pn s (transp r k j)) j)).
    { unfold piv_step. fold k. destruct (if r <? m - 1 then _ else _) as [y t]. cbn [p_cn p_A].
      destruct (Nat.ltb_spec r j); [|lia]. destruct (Nat.ltb_spec j n); [|lia]. reflexivity. }
    rewrite E. apply norm_update_exact with (A := fun i j => p_A s i (transp r k j)).
    + lia.
    + pose proof (transp_ge r k r j ltac:(lia) ltac:(lia) ltac:(lia)).
      rewrite HC by (auto; apply transp_range; lia). reflexivity.
    + eapply refl_step_colsq; [| exact HS| |]; lia.
Qed.

Lemma piv_loop_ok tol thr m n B : forall fuel r mx s r' s',
  piv_loop fuel tol thr m n r mx s = Ok (r', s') -> fuel = Nat.min m n - r -> r <= Nat.min m n -> r < n ->
  (forall j, r <= j < n -> (p_cn s j <= mx)%R) ->
  piv_inv m n r B s ->
  piv_inv m n r' B s' /\ r <= r' /\ r' <= Nat.min m n /\ r' < n /\
  (r' = Nat.min m n \/ forall j, r' <= j < n -> (p_cn s' j <= thr)%R).
Proof.
  induction fuel as [|fuel IH]; intros r mx s r' s' H HF HR HN HM HI; simpl in H.
  - inversion H; subst. split; auto. split; [lia|]. split; [lia|]. split; [lia|]. left. lia.
  - destruct (Rlt_dec thr mx) as [L|L].
    + apply bind_Ok in H. destruct H as [mx' [Hx H]].
      destruct (max_from_Ok _ _ _ _ Hx) as [N' [k [Hk [Ek HM']]]].
      specialize (IH (r + 1) mx' (piv_step tol m n r s) r' s' H ltac:(lia) ltac:(lia) N' HM').
      destruct IH as [I1 [I2 I3]]; [apply piv_step_inv; auto; lia|]. split; auto. split; [lia|]. auto.
    + inversion H; subst. split; auto. split; [lia|]. split; [lia|]. split; [lia|]. right.
      intros j Hj. specialize (HM j Hj). lra.
Qed.

(** ** Inverse permutation *)

Lemma inv_piv_spec n p : perm_on n p -> forall j, j < n -> inv_piv p n j < n /\ p (inv_piv p n j) = j.
Proof.
  intros [P1 P2] j Hj.
  assert (HS : FinFun.bSurjective n p) by (apply FinFun.bInjective_bSurjective; auto).
  destruct (HS j Hj) as [x [Hx Ex]].
  assert (G : forall k, x < k -> inv_piv p k j < k /\ p (inv_piv p k j) = j).
  { induction k as [|k IH]; intros Hk; [lia|]. simpl. destruct (Nat.eqb_spec (p k) j) as [E|E]; [split; [lia|auto]|].
    destruct (Nat.eq_dec x k) as [->|]; [congruence|]. destruct IH; [lia|]. split; [lia|auto]. }
  apply G. auto.
Qed.

Lemma rsum_perm n p (f : vec) : perm_on n p -> rsum n (fun j => f (p j)) = rsum n f.
Proof.
  intros HP. pose proof HP as [P1 P2].
  transitivity (rsum n (fun x => rsum n (fun j => if p x =? j then f j else 0%R))).
  - apply (sum_ext (R := Rring)). intros x Hx. rewrite (sum_single (R := Rring) n (p x) _ (P1 x Hx)).
    + rewrite Nat.eqb_refl. reflexivity.
    + intros j _ Hn. destruct (Nat.eqb_spec (p x) j); [congruence|reflexivity].
  - rewrite (sum_swap (R := Rring)). apply (sum_ext (R := Rring)). intros j Hj.
    destruct (inv_piv_spec n p HP j Hj) as [E1 E2].
    rewrite (sum_single (R := Rring) n _ _ E1).
    + rewrite E2, Nat.eqb_refl. reflexivity.
    + intros x Hx Hn. destruct (Nat.eqb_spec (p x) j) as [E|]; [|reflexivity]. exfalso. apply Hn. apply P2; congruence.
Qed.

(** ** The result *)

(** Square of the norm of column j of A - Q P, inner dimension r. *)
Definition col_err (m r : nat) (A Q P : rmat) (j : nat) : R :=
  rsum m (fun i => (msub A (mmul r Q P) i j * msub A (mmul r Q P) i j)%R).

Definition rrqr_result (eps : R) (A Q P : rdense) : Prop :=
  let m := d_r A in
  let n := d_c A in
  let r := d_c Q in
  let thr := (eps * sqrt (sumsq (R := Rring) m n (d_e A)))%R in
  d_r Q = m /\ d_r P = r /\ d_c P = n /\ r <= m /\ r < n /\
  orth_cols (R := Rring) m r (d_e Q) /\
  feq r n (d_e P) (mmul m (mtr (d_e Q)) (d_e A)) /\
  (forall j, j < n -> (col_err m r (d_e A) (d_e Q) (d_e P) j <= thr * thr)%R) /\
  (sumsq (R := Rring) m n (msub (d_e A) (mmul r (d_e Q) (d_e P))) <= INR (n - r) * (thr * thr))%R.

Lemma sumsq_cols m n (f : rmat) : sumsq (R := Rring) m n f = rsum n (fun j => rsum m (fun i => (f i j * f i j)%R)).
Proof. unfold sumsq. apply (sum_swap (R := Rring)). Qed.

Lemma rsum_const n (a : R) : rsum n (fun _ => a) = (INR n * a)%R.
Proof. induction n as [|n IH]; [rring|]. rewrite S_INR. cbn [sum]. rewrite IH. rring. Qed.

Lemma truncated_geqp3_ok tol eps (A Q P : rdense) : truncated_geqp3 tol eps A = Ok (Q, P) ->
  (exists j, j < d_c A /\ (tol < colnorm (d_e A) (d_r A) 0 j)%R) -> rrqr_result eps A Q P.
Proof.
  intros H [j0 [Hj0 HT]]. unfold truncated_geqp3 in H. cbv zeta in H.
  set (m := d_r A) in *. set (n := d_c A) in *.
  set (thr := (eps * sqrt (sumsq (R := Rring) m n (d_e A)))%R) in *.
  apply bind_Ok in H. destruct H as [mx [Hx H]].
  destruct (max_from_Ok _ _ _ _ Hx) as [N [k0 [Hk [Ek HM]]]].
  destruct (Rle_dec mx tol) as [L|L]. { specialize (HM j0 ltac:(lia)). lra. }
  apply bind_Ok in H. destruct H as [[r s] [HL H]].
  assert (I0 : piv_inv m n 0 (d_e A) (PState (d_e A) (fun _ => 0%R) (fun j => j) (fun j => colnorm (d_e A) m 0 j) (fun j => colnorm (d_e A) m 0 j))).
  { split; cbn [p_piv p_A p_tau p_cn]; auto.
    - split; auto.
    - apply (qr_inv_0 (R := Rring)). }
  destruct (piv_loop_ok _ _ _ _ (d_e A) _ _ _ _ _ _ HL ltac:(lia) ltac:(lia) N HM I0) as [[HP HQ HC] [_ [R1 [R2 HE]]]].
  inversion H; subst Q P; clear H.
  set (X := p_A s) in *. set (tau := p_tau s) in *. set (p := p_piv s) in *.
  set (Q0 := fun i j : nat => if j <? Nat.min i r then X i j else 0%R).
  set (R0 := fun i j : nat => if (i <? r) && (i <=? j) && (j <? n) then X i j else 0%R).
  unfold rrqr_result. cbn [d_r d_c d_e]. fold m n thr.
  destruct HQ as [HB HF].
  unfold dorgqr. destruct (Nat.leb_spec r r); [|lia]. destruct (Nat.leb_spec r m); [|lia]. cbn [andb].
  set (H1 := hprod (R := Rring) m Q0 tau r).
  assert (EH : feq m m H1 (hprod (R := Rring) m X tau r)).
  { apply (hprod_ext (R := Rring)); auto. intros x l Hx' Hl Hm. unfold Q0. destruct (Nat.ltb_spec x (Nat.min l r)); [reflexivity|lia]. }
  assert (HO : orthogonal (R := Rring) m H1).
  { apply (hprod_orthogonal (R := Rring)). eapply (balanced_ext (R := Rring)); [|reflexivity|exact HB].
    intros x l Hx' Hl Hm. unfold Q0. destruct (Nat.ltb_spec x (Nat.min l r)); [reflexivity|lia]. }
  set (W := work (R := Rring) r X) in *.
  assert (HW : forall i j, i < m -> j < n -> d_e A i (p j) = mmul (R := Rring) m H1 W i j).
  { intros i j Hi Hj. rewrite HF by auto. apply (mmul_ext (R := Rring)); auto. intros x Hx'. symmetry. apply EH; auto. }
  assert (RW : forall i j, i < r -> j < n -> R0 i j = W i j).
  { intros i j Hi Hj. unfold R0, W, work. destruct (Nat.ltb_spec i r); [|lia]. destruct (Nat.ltb_spec j n); [|lia].
    destruct (Nat.leb_spec i j); destruct (Nat.ltb_spec j i); try lia; simpl.
    - rewrite andb_false_r. reflexivity.
    - destruct (Nat.ltb_spec j r); [reflexivity|lia]. }
  assert (INV := inv_piv_spec n p HP).
  set (q := inv_piv p n) in *.
  set (Z := fun i j : nat => if i <? r then 0%R else W i j).
  assert (ERR : forall i j, i < m -> j < n ->
    msub (R := Rring) (d_e A) (mmul r H1 (fun i j => R0 i (q j))) i j = mmul (R := Rring) m H1 Z i (q j)).
  { intros i j Hi Hj. destruct (INV j Hj) as [Q1 Q2]. unfold msub. rewrite <- Q2 at 1. rewrite HW by auto.
    unfold mmul. replace m with (r + (m - r)) at 1 2 by lia. rewrite !(sum_split (R := Rring)).
    rewrite (sum_ext (R := Rring) r (fun l => H1 i l * W l (q j))%r (fun l => (H1 i l * R0 l (q j))%r)) by (intros l Hl; rewrite RW; auto).
    rewrite (sum_zero' (R := Rring) r (fun l => H1 i l * Z l (q j))%r).
    2:{ intros l Hl. unfold Z. destruct (Nat.ltb_spec l r); [|lia]. rring. }
    rewrite (sum_ext (R := Rring) (m - r) (fun l => H1 i (r + l)%nat * W (r + l)%nat (q j))%r (fun l => (H1 i (r + l)%nat * Z (r + l)%nat (q j))%r)).
    2:{ intros l Hl. unfold Z. destruct (Nat.ltb_spec (r + l) r); [lia|]. reflexivity. }
    rring. }
  assert (CE : forall j, j < n -> col_err m r (d_e A) H1 (fun i j => R0 i (q j)) j = if q j <? r then 0%R else colsq X m r (q j)).
  { intros j Hj. unfold col_err.
    rewrite (sum_ext (R := Rring) m _ (fun i => (mmul (R := Rring) m H1 Z i (q j) * mmul (R := Rring) m H1 Z i (q j))%R)) by (intros i Hi; rewrite ERR by auto; reflexivity).
    rewrite dot_mmul_orth by auto. replace m with (r + (m - r)) at 1 by lia. rewrite (sum_split (R := Rring)).
    rewrite (sum_zero' (R := Rring) r).
    2:{ intros l Hl. unfold Z. destruct (Nat.ltb_spec l r); [|lia]. rring. }
    destruct (Nat.ltb_spec (q j) r) as [Lq|Lq].
    - rewrite (sum_zero' (R := Rring)); [rring|]. intros l Hl. unfold Z, W, work.
      destruct (Nat.ltb_spec (r + l) r); [lia|]. destruct (Nat.ltb_spec (q j) r); [|lia].
      destruct (Nat.ltb_spec (q j) (r + l)); [|lia]. rring.
    - simpl. rewrite Rplus_0_l. apply (sum_ext (R := Rring)). intros l Hl. unfold Z, W, work.
      destruct (Nat.ltb_spec (r + l) r); [lia|]. destruct (Nat.ltb_spec (q j) r); [lia|]. reflexivity. }
  assert (T0 : (0 <= thr * thr)%R) by apply Rle_0_sqr.
  assert (CB : forall x, r <= x -> x < n -> (colsq X m r x <= thr * thr)%R).
  { intros x X1 X2. destruct HE as [HE|HE].
    - assert (r = m) by lia. unfold colsq. replace (m - r) with 0 by lia. simpl. exact T0.
    - specialize (HE x ltac:(lia)). rewrite HC in HE by auto. rewrite <- colnorm_sq.
      pose proof (colnorm_pos X m r x). apply Rmult_le_compat; auto. }
  do 5 (split; [lia|]). split; [|split; [|split]].
  - destruct HO as [_ HO]. intros i j Hi Hj. apply HO; lia.
  - intros i j Hi Hj. destruct (INV j Hj) as [Q1 Q2].
    change (R0 i (q j) = mmul (R := Rring) m (mtr H1) (d_e A) i j). rewrite RW by auto.
    transitivity (mmul (R := Rring) m (mtr H1) (mmul m H1 W) i (q j)).
    + rewrite <- (mmul_assoc (R := Rring)). destruct HO as [_ HO].
      transitivity (mmul (R := Rring) m mid W i (q j)); [symmetry; apply mmul_id_l; lia|].
      apply (mmul_ext (R := Rring)); auto. intros x Hx'. symmetry. apply HO; lia.
    + unfold mmul at 1 3. apply (sum_ext (R := Rring)). intros x Hx'. rewrite <- HW by auto. rewrite Q2. reflexivity.
  - intros j Hj. change (col_err m r (d_e A) H1 (fun i j => R0 i (q j)) j <= thr * thr)%R.
    rewrite CE by auto. destruct (INV j Hj) as [Q1 Q2].
    destruct (Nat.ltb_spec (q j) r); auto.
  - rewrite sumsq_cols.
    change (rsum n (col_err m r (d_e A) H1 (fun i j => R0 i (q j))) <= INR (n - r) * (thr * thr))%R.
    rewrite <- (rsum_perm n p (col_err m r (d_e A) H1 (fun i j => R0 i (q j))) HP).
    replace n with (r + (n - r)) at 1 by lia. rewrite (sum_split (R := Rring)).
    assert (QP : forall j, j < n -> q (p j) = j).
    { intros j Hj. destruct HP as [P1 P2]. destruct (INV (p j) (P1 j Hj)) as [Q1 Q2]. apply P2; auto. }
    rewrite (sum_zero' (R := Rring) r).
    2:{ intros j Hj. destruct HP as [P1 P2]. rewrite CE by (apply P1; lia). rewrite QP by lia.
        destruct (Nat.ltb_spec j r); [reflexivity|lia]. }
    rewrite <- rsum_const. simpl. rewrite Rplus_0_l. apply sum_le. intros j Hj. destruct HP as [P1 P2].
    rewrite CE by (apply P1; lia). rewrite QP by lia. destruct (Nat.ltb_spec (r + j) r); [lia|]. apply CB; lia.
Qed.

(** A matrix all of whose columns have norm at most dlamch('e') is replaced by zero. *)
Lemma truncated_geqp3_tiny tol eps (A : rdense) : 0 < d_r A -> 0 < d_c A ->
  (forall j, j < d_c A -> (colnorm (d_e A) (d_r A) 0 j <= tol)%R) ->
  exists Q P, truncated_geqp3 tol eps A = Ok (Q, P) /\ d_r Q = d_r A /\ d_c Q = 1 /\ d_r P = 1 /\ d_c P = d_c A /\
    orth_cols (R := Rring) (d_r A) 1 (d_e Q) /\ feq (d_r A) (d_c A) (mmul 1 (d_e Q) (d_e P)) (mzero (R := Rring)).
Proof.
  intros Hm Hn HT. unfold truncated_geqp3, max_from. destruct (Nat.ltb_spec 0 (d_c A)); [|lia]. cbn [bind].
  destruct (amax_spec (fun j => colnorm (d_e A) (d_r A) 0 j) 0 (d_c A - 1 - 0)) as [K _].
  destruct (Rle_dec _ tol) as [L|L]; [|exfalso; apply L; apply HT; lia].
  destruct (Nat.eqb_spec (d_r A) 0); [lia|].
  do 2 eexists. split; [reflexivity|]. cbn [d_r d_c d_e]. do 4 (split; auto). split.
  - intros i j Hi Hj. replace i with 0 by lia. replace j with 0 by lia. unfold mmul.
    rewrite (sum_single (R := Rring) _ 0); auto.
    + unfold mtr, mid. rring.
    + intros l _ Hl. unfold mtr. destruct (Nat.eqb_spec l 0); [lia|]. rring.
  - intros i j Hi Hj. unfold mmul, mzero. rring.
Qed.

(** The only failure is the dereference of end() after n steps. *)
Lemma piv_loop_total tol thr m n : forall fuel r mx s, r + fuel <= Nat.min m n ->
  (exists x, piv_loop fuel tol thr m n r mx s = Ok x) \/
  (piv_loop fuel tol thr m n r mx s = UB /\ n <= r + fuel).
Proof.
  induction fuel as [|fuel IH]; intros r mx s H; simpl; [eauto|].
  destruct (Rlt_dec thr mx); [|eauto]. unfold max_from. destruct (Nat.ltb_spec (r + 1) n); cbn [bind].
  - destruct (IH (r + 1) (p_cn (piv_step tol m n r s) (amax (p_cn (piv_step tol m n r s)) (r + 1) (n - 1 - (r + 1))))
      (piv_step tol m n r s) ltac:(lia)) as [G|[G1 G2]]; [left; auto|right; split; auto; lia].
  - right. split; auto. lia.
Qed.

Lemma truncated_geqp3_total tol eps (A : rdense) : 0 < d_r A -> 0 < d_c A ->
  (exists x, truncated_geqp3 tol eps A = Ok x) \/ (truncated_geqp3 tol eps A = UB /\ d_c A <= d_r A).
Proof.
  intros Hm Hn. unfold truncated_geqp3, max_from. destruct (Nat.ltb_spec 0 (d_c A)); [|lia]. cbn [bind].
  destruct (Rle_dec _ tol) as [L|L].
  - destruct (Nat.eqb_spec (d_r A) 0); [lia|]. left. eauto.
  - edestruct piv_loop_total as [[x G]|[G1 G2]]; [| rewrite G; cbn [bind]; destruct x; left; eauto|].
    2:{ rewrite G1. right. split; auto. eapply Nat.le_trans; [exact G2|]. lia. }
    lia.
Qed.

(** ** Rank *)

(** Fewer equations than unknowns. *)
Lemma cancel_pivot (a x : R) : a <> 0%R -> (x + a * (- / a * x) = 0)%R.
Proof. intros. field. auto. Qed.

Lemma kernel_exists : forall (p q : nat) (M : rmat), p < q ->
  exists z : vec, (exists j, j < q /\ z j <> 0%R) /\ forall i, i < p -> rsum q (fun j => (M i j * z j)%R) = 0%R.
Proof.
  induction p as [|p IH]; intros q M Hpq.
  - exists (fun j => if j =? 0 then 1%R else 0%R). split; [|intros; lia]. exists 0. split; [lia|]. simpl. lra.
  - assert (D : (exists j0, j0 < q /\ M p j0 <> 0%R) \/ forall j, j < q -> M p j = 0%R).
    { clear -M. induction q as [|q [[j [H1 H2]]|H]]; [right; intros; lia|left; exists j; split; auto; lia|].
      destruct (Req_EM_T (M p q) 0) as [E|E]; [|left; exists q; split; auto; lia].
      right. intros j Hj. destruct (Nat.eq_dec j q) as [->|]; auto. apply H. lia. }
    destruct D as [[j0 [J1 J2]]|D].
    + set (last := q - 1).
      set (T := fun j => transp j0 last j).
      assert (TP : perm_on q T).
      { split; [intros; apply transp_range; unfold last; lia|intros i j _ _ E; eapply transp_inj; exact E]. }
      assert (TL : T last = j0).
      { unfold T, transp. destruct (Nat.eqb_spec last j0); auto. rewrite Nat.eqb_refl. reflexivity. }
      set (N := fun i j : nat => (M i (T j) - M i j0 * / M p j0 * M p (T j))%R).
      destruct (IH (q - 1) N ltac:(lia)) as [z' [[j1 [K1 K2]] K3]].
      set (c := (- / M p j0 * rsum (q - 1) (fun j => M p (T j) * z' j))%R).
      set (w := fun j => if j =? last then c else z' j).
      assert (W : forall i, rsum q (fun j => (M i (T j) * w j)%R) = (rsum (q - 1) (fun j => (M i (T j) * z' j)%R) + M i j0 * c)%R).
      { intros i. replace q with (S (q - 1)) at 1 by lia. rewrite (sum_S (R := Rring)). simpl. f_equal.
        - apply (sum_ext (R := Rring)). intros j Hj. unfold w, last. destruct (Nat.eqb_spec j (q - 1)); [lia|]. reflexivity.
        - fold last. rewrite TL. unfold w. rewrite Nat.eqb_refl. reflexivity. }
      exists (fun j => w (T j)). split.
      * exists (T j1). split; [apply TP; lia|].
        unfold T. rewrite transp_transp.
        unfold w, last. destruct (Nat.eqb_spec j1 (q - 1)); [lia|]. exact K2.
      * intros i Hi.
        rewrite <- (rsum_perm q T (fun j => (M i j * w (T j))%R) TP).
        rewrite (sum_ext (R := Rring) q _ (fun j => (M i (T j) * w j)%R)).
        2:{ intros j Hj. unfold T. rewrite transp_transp. reflexivity. }
        rewrite W. unfold c. destruct (Nat.eq_dec i p) as [->|Hne].
        -- apply cancel_pivot. auto.
        -- specialize (K3 i ltac:(lia)). unfold N in K3.
           rewrite (sum_ext (R := Rring) (q - 1) _ (fun j => (M i (T j) * z' j - (M i j0 * / M p j0) * (M p (T j) * z' j))%R)) in K3 by (intros; rring).
           change (rsum (q - 1) (fun j => rsub (c := Rring) (M i (T j) * z' j)%R ((M i j0 * / M p j0) * (M p (T j) * z' j))%R) = 0%R) in K3.
           rewrite (sum_sub (R := Rring)) in K3. rewrite rsum_mul_l in K3. simpl in K3. lra.
    + destruct (IH q M ltac:(lia)) as [z [Z1 Z2]]. exists z. split; auto. intros i Hi.
      destruct (Nat.eq_dec i p) as [->|]; [|apply Z2; lia].
      apply (sum_zero' (R := Rring)). intros j Hj. rewrite D by auto. rring.
Qed.
