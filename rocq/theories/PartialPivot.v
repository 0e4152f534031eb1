(** LAPACK's dgetf2, LU decomposition with partial pivoting, over the real numbers.
    LAPACKE_dgetrf (getrf.cpp:67-84) does the same eliminations by blocks of columns. *)
From Coq Require Import List Arith Lia Bool Reals Lra Ring_theory Ring.
From Verif Require Import Prelude Ring MatFun MatSetoid Matrix MatOps Triangular TriSpec SvdRank HouseReal Rrqr Spectral Dominant.
Import ListNotations.
Local Open Scope nat_scope.

(** dswap of rows a and b. *)
Definition swap_rows (a b : nat) (A : rmat) : rmat := fun i j => A (transp a b i) j.

(** Division of the column by the pivot (dscal) and the update of the rest (dger). *)
Definition eliminate (n k : nat) (M : rmat) : rmat := fun i j =>
  if (k <? i) && (i <? n)
  then if j =? k then (M i k / M k k)%R else if k <? j then (M i j - M i k / M k k * M k j)%R else M i j
  else M i j.

(** Step k: idamax, dswap, dscal, dger.  With a pivot of zero the column is zero and
    nothing changes. *)
Definition getf2_step (n k : nat) (s : rmat * (nat -> nat)) : rmat * (nat -> nat) :=
  let jp := amax (fun i => Rabs (fst s i k)) k (n - 1 - k) in
  if Req_EM_T (fst s jp k) 0 then s
  else (eliminate n k (swap_rows k jp (fst s)), fun i => snd s (transp k jp i)).

Fixpoint getf2_loop (n k : nat) (s : rmat * (nat -> nat)) : rmat * (nat -> nat) :=
  match k with O => s | S k' => getf2_step n k' (getf2_loop n k' s) end.

Definition dgetf2 (A : rdense) : outcome (rdense * (nat -> nat)) :=
  let s := getf2_loop (d_r A) (Nat.min (d_r A) (d_c A)) (d_e A, fun i => i) in
  Ok (Dn (d_r A) (d_c A) (fst s), snd s).

Lemma amax_first (f : vec) a c : (forall i, a < i <= a + c -> (f i <= f a)%R) -> amax f a c = a.
Proof.
  induction c as [|c IH]; intros H; simpl; auto. rewrite IH by (intros; apply H; lia).
  destruct (Rlt_dec _ _) as [L|L]; auto. specialize (H (a + S c) ltac:(lia)). lra.
Qed.

Lemma transp_same a j : transp a a j = j.
Proof. unfold transp. destruct (Nat.eqb_spec j a); congruence. Qed.

(** ** The product of the factors *)

Definition factored (n c k : nat) (A : rmat) (s : rmat * (nat -> nat)) : Prop :=
  (forall i, i < n -> snd s i < n) /\
  forall i j, i < n -> j < c ->
  (rsum k (fun l => tri (R := Rring) Lower true (fst s) i l * tri (R := Rring) Upper false (fst s) l j) +
   (if (k <=? i) && (k <=? j) then fst s i j else 0))%R = A (snd s i) j.

Ltac cmp := repeat match goal with
  | |- context [?a =? ?b] => destruct (Nat.eqb_spec a b); try lia
  | |- context [?a <? ?b] => destruct (Nat.ltb_spec a b); try lia
  | |- context [?a <=? ?b] => destruct (Nat.leb_spec a b); try lia
  end.

Lemma swap_part n c k jp A M p : k < n -> k <= jp < n -> factored n c k A (M, p) ->
  factored n c k A (swap_rows k jp M, fun i => p (transp k jp i)).
Proof.
  intros Hk Hj [P H]. unfold factored in *. cbn [fst snd] in *.
  assert (TL : forall i, i < n -> transp k jp i < n) by (intros i Hi; unfold transp; cmp).
  split; [intros i Hi; apply P; auto|]. intros i j Hi Hc. rewrite <- H by auto.
  f_equal.
  - apply rsum_ext. intros l Hl.
    assert (E1 : tri (R := Rring) Upper false (swap_rows k jp M) l j = tri (R := Rring) Upper false M l j).
    { unfold tri, swap_rows, transp. cmp; reflexivity. }
    rewrite E1. f_equal. unfold tri, swap_rows, transp. cmp; reflexivity.
  - unfold swap_rows, transp. cmp; reflexivity.
Qed.

Lemma elim_part n c k A M p : k < n -> M k k <> 0%R -> factored n c k A (M, p) -> factored n c (S k) A (eliminate n k M, p).
Proof.
  intros Hk Hd [P H]. split; [exact P|]. cbn [fst snd] in *. intros i j Hi Hj. rewrite <- H by auto.
  rewrite (sum_S (R := Rring)).
  rewrite (rsum_ext k _ (fun l => (tri (R := Rring) Lower true M i l * tri (R := Rring) Upper false M l j)%R)).
  - unfold tri at 3 4. unfold eliminate. cmp; cbn [andb]; cmp; subst; simpl; try lra; try (field; auto).
  - intros l Hl. unfold tri, eliminate. cmp; cbn [andb]; cmp; reflexivity.
Qed.

Lemma zero_part n c k A M p : k < n -> (forall i, k <= i < n -> M i k = 0%R) -> factored n c k A (M, p) -> factored n c (S k) A (M, p).
Proof.
  intros Hk Hz [P H]. split; [exact P|]. cbn [fst snd] in *. intros i j Hi Hj. rewrite <- H by auto.
  rewrite (sum_S (R := Rring)). unfold tri at 3 4. cmp; cbn [andb]; subst; simpl; try lra; rewrite ?Hz by lia; lra.
Qed.

Lemma step_part n c k A s : k < n -> factored n c k A s -> factored n c (S k) A (getf2_step n k s).
Proof.
  intros Hk H. unfold getf2_step. set (jp := amax (fun i => Rabs (fst s i k)) k (n - 1 - k)).
  destruct (amax_spec (fun i => Rabs (fst s i k)) k (n - 1 - k)) as [RG AG]. fold jp in RG, AG.
  destruct s as [M p]. cbn [fst snd] in *. destruct (Req_EM_T (M jp k) 0) as [Z|NZ].
  - apply zero_part; auto. intros i Hi.
    pose proof (AG i ltac:(lia)) as G. cbv beta in G.
    rewrite Z, Rabs_R0 in G. pose proof (Rabs_pos (M i k)). destruct (Req_dec (M i k) 0); auto.
    exfalso. apply (Rabs_no_R0 (M i k)); auto. lra.
  - apply elim_part; auto.
    + unfold swap_rows, transp. rewrite Nat.eqb_refl. exact NZ.
    + apply swap_part; auto. lia.
Qed.

Lemma loop_part n c A k : k <= n -> factored n c k A (getf2_loop n k (A, fun i => i)).
Proof.
  induction k as [|k IH]; intros Hk; cbn [getf2_loop].
  - split; cbn [fst snd]; auto. intros i j Hi Hj. simpl. lra.
  - apply step_part; [lia|]. apply IH. lia.
Qed.

Lemma dgetf2_contract : lu_contract dgetf2.
Proof.
  intros A X p H Esq. unfold dgetf2 in H. rewrite <- Esq, Nat.min_id in H.
  destruct (loop_part (d_r A) (d_c A) (d_e A) (d_r A) (le_n _)) as [P1 P2].
  set (s := getf2_loop (d_r A) (d_r A) (d_e A, fun i => i)) in *. inversion H; subst X p; clear H.
  cbn [d_e]. split; auto. intros i j Hi Hj. rewrite <- P2 by auto.
  destruct (Nat.leb_spec (d_r A) i); [lia|]. simpl andb. cbv iota. unfold mmul. rring.
Qed.

(** ** Dominant columns *)

Definition unmoved (n k : nat) (s : rmat * (nat -> nat)) : Prop :=
  cdom (n - k) (fun i j => fst s (k + i) (k + j)) /\ (forall i, snd s i = i) /\ forall l, l < k -> fst s l l <> 0%R.

Lemma step_unmoved n k s : k < n -> unmoved n k s -> unmoved n (S k) (getf2_step n k s).
Proof.
  intros Hk [D [P NZ]]. destruct s as [M p]. unfold getf2_step. cbn [fst snd] in *.
  assert (E : amax (fun i => Rabs (M i k)) k (n - 1 - k) = k).
  { apply amax_first. intros i Hi. left.
    pose proof (cdom_max (n - k) _ (i - k) 0 D ltac:(lia) ltac:(lia) ltac:(lia)) as X. cbv beta in X.
    replace (k + (i - k)) with i in X by lia. rewrite Nat.add_0_r in X. exact X. }
  rewrite E. pose proof (cdom_nonzero (n - k) _ 0 D ltac:(lia)) as NZk. cbv beta in NZk. rewrite Nat.add_0_r in NZk.
  destruct (Req_EM_T (M k k) 0) as [Z|_]; [contradiction|].
  split; [|split]; cbn [fst snd].
  - apply (schur_dom 1 (n - S k) (fun i j => M (k + i) (k + j)) (fun r _ => (M (S k + r)%nat k / M k k)%R)).
    + replace (1 + (n - S k)) with (n - k) by lia. exact D.
    + intros r [|j] Hr Hj; [|lia]. simpl. rewrite !Nat.add_0_r. replace (k + S r) with (S (k + r)) by lia. field. auto.
    + intros r j Hr Hj. unfold eliminate, swap_rows. rewrite !transp_same. cmp. simpl. rewrite !Nat.add_0_r.
      replace (k + S r) with (S (k + r)) by lia. replace (k + S j) with (S (k + j)) by lia. lra.
  - intros i. rewrite transp_same. apply P.
  - intros l Hl. unfold eliminate, swap_rows. rewrite !transp_same. cmp; simpl; [auto|]. destruct (Nat.eq_dec l k) as [->|]; auto. apply NZ. lia.
Qed.

Lemma loop_unmoved n A k : k <= n -> cdom n A -> unmoved n k (getf2_loop n k (A, fun i => i)).
Proof.
  intros Hk HD. induction k as [|k IH]; cbn [getf2_loop].
  - split; [rewrite Nat.sub_0_r; exact HD|]. split; auto. intros; lia.
  - apply step_unmoved; [lia|]. apply IH. lia.
Qed.

(** No rows are exchanged, and the pivots are not zero. *)
Lemma dgetf2_dominant (A : rdense) : d_r A = d_c A -> cdom (d_r A) (d_e A) ->
  exists X p, dgetf2 A = Ok (X, p) /\ no_exchange dgetf2 A = Ok (X, p) /\ forall i, i < d_r A -> d_e X i i <> 0%R.
Proof.
  intros Esq HD. unfold no_exchange, dgetf2. rewrite <- Esq, Nat.min_id.
  destruct (loop_unmoved (d_r A) (d_e A) (d_r A) (le_n _) HD) as [_ [P NZ]].
  set (s := getf2_loop (d_r A) (d_r A) (d_e A, fun i => i)) in *.
  eexists. eexists. split; [reflexivity|]. cbn [bind]. split; [|exact NZ].
  replace (forallb (fun i => snd s i =? i) (seq 0 (d_r A))) with true; auto.
  symmetry. apply forallb_forall. intros i _. apply Nat.eqb_eq. apply P.
Qed.
