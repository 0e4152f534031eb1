(** Householder reflectors and the QR factorization LAPACK makes of them: dlarfg, dgeqr2
    (the unblocked form of dgeqrf) and dorgqr. *)
From Coq Require Import List Arith ZArith Lia Bool Ring_theory Ring Setoid Morphisms.
From Verif Require Import Prelude Ring MatFun MatSetoid Matrix MatOps Lapack Reflect ReflectSpec.
Import ListNotations.
Local Open Scope nat_scope.

Section Householder.
Context {R : cring}.
Add Ring Rr : (cr_th R).
Notation mat := (mat R).
Notation vec := (nat -> R).

Definition dot (n : nat) (u w : vec) : R := sum n (fun i => (u i * w i)%r).

(** dlarfg(n, alpha, x, incx, tau) overwrites (alpha; x) by (beta; v) and returns tau.  The
    vector of the reflector is (1; v). *)
Definition larfg := nat -> vec -> vec * R.
Definition hv (y : vec) : vec := fun i => if i =? 0 then 1%r else y i.
Definition bal (n : nat) (v : vec) (t : R) : Prop := (t * (t * dot n v v) = t + t)%r.

(** (I - tau v v^T) is its own inverse and maps the vector to (beta; 0). *)
Record larfg_ok (h : larfg) : Prop := {
  lg_bal : forall n x, bal n (hv (fst (h n x))) (snd (h n x));
  lg_ann : forall n x i, i < n ->
    (x i - snd (h n x) * hv (fst (h n x)) i * dot n (hv (fst (h n x))) x)%r = if i =? 0 then fst (h n x) 0 else 0%r
}.

(** I - t v v^T *)
Definition elem (v : vec) (t : R) : mat := fun i j => (mid i j - t * v i * v j)%r.

(** The vector stored in column s below the diagonal. *)
Definition rv (A : mat) (s : nat) : vec := fun i => if i <? s then 0%r else hv (fun l => A (s + l) s) (i - s).

(** H_0 H_1 ... H_{k-1} *)
Fixpoint hprod (m : nat) (A : mat) (tau : vec) (k : nat) : mat :=
  match k with
  | O => mid
  | S k' => mmul m (hprod m A tau k') (elem (rv A k') (tau k'))
  end.

(** One step of dgeqr2: the reflector of column r (dlarfg), then its application to the
    columns behind (dlarf). *)
Definition store_col (m r : nat) (y : vec) (A : mat) : mat :=
  fun i j => if (j =? r) && (r <=? i) && (i <? m) then y (i - r) else A i j.
Definition upd (f : vec) (r : nat) (t : R) : vec := fun i => if i =? r then t else f i.
(** The arrays after applying the reflector in column r to columns r+1 .. n-1. *)
Definition apply_refl (m n r : nat) (t : R) (A : mat) : mat :=
  fun i j => if (r <=? i) && (i <? m) && (r <? j) && (j <? n)
             then (A i j - t * rv A r i * sum (m - r) (fun l => rv A r (r + l)%nat * A (r + l)%nat j))%r
             else A i j.
Definition qr_step (h : larfg) (m n r : nat) (s : mat * vec) : mat * vec :=
  let '(A, tau) := s in
  let '(y, t) := h (m - r) (fun i => A (r + i) r) in
  (apply_refl m n r t (store_col m r y A), upd tau r t).
Fixpoint dgeqrf (h : larfg) (m n k : nat) (s : mat * vec) : mat * vec :=
  match k with
  | O => s
  | S k' => qr_step h m n k' (dgeqrf h m n k' s)
  end.

(** dorgqr(m, n, k): the first n columns of the product of k reflectors; it returns with an
    error, and without doing anything, unless k <= n <= m. *)
Definition dorgqr (m n k : nat) (B : mat) (tau : vec) : mat :=
  if (k <=? n) && (n <=? m) then hprod m B tau k else B.

(** ** Reflectors *)

Lemma dot_ext n u u' w w' : (forall i, i < n -> u i = u' i) -> (forall i, i < n -> w i = w' i) -> dot n u w = dot n u' w'.
Proof. intros H1 H2. apply sum_ext. intros i Hi. rewrite H1, H2; auto. Qed.

Lemma dot_comm n u w : dot n u w = dot n w u.
Proof. apply sum_ext. intros. ring. Qed.

Lemma elem_mul m v t (X : mat) i j : i < m ->
  mmul m (elem v t) X i j = (X i j - t * v i * dot m v (fun l => X l j))%r.
Proof.
  intros Hi. transitivity (mmul m mid X i j - t * v i * dot m v (fun l => X l j))%r.
  - unfold mmul, elem, dot. rewrite <- sum_mul_l, <- sum_sub. apply sum_ext. intros l _. ring.
  - rewrite mmul_id_l by auto. reflexivity.
Qed.

Lemma elem_sym v t i j : mtr (elem v t) i j = elem v t i j.
Proof. unfold mtr, elem. rewrite <- (mtr_mid i j). unfold mtr. ring. Qed.

Lemma elem_sq m v t : bal m v t -> feq m m (mmul m (elem v t) (elem v t)) mid.
Proof.
  intros B i j Hi Hj. rewrite elem_mul by auto.
  assert (E : dot m v (fun l => elem v t l j) = (v j - t * dot m v v * v j)%r).
  { unfold dot, elem. transitivity (sum m (fun l => v l * mid l j) - t * v j * sum m (fun l => v l * v l))%r.
    - rewrite <- sum_mul_l, <- sum_sub. apply sum_ext. intros l _. ring.
    - rewrite (sum_single m j _ Hj).
      + unfold mid at 1. rewrite Nat.eqb_refl. ring.
      + intros l _ Hn. unfold mid. destruct (Nat.eqb_spec l j); [contradiction|ring]. }
  rewrite E. unfold elem. unfold bal in B.
  transitivity (mid i j - v i * v j * (t + t - t * (t * dot m v v)))%r; [ring|]. rewrite B. ring.
Qed.

Lemma elem_orthogonal m v t : bal m v t -> orthogonal m (elem v t).
Proof.
  intros B. assert (E : meq (mtr (elem v t)) (elem v t)) by (intros i j; apply elem_sym).
  split; rewrite E; apply elem_sq; auto.
Qed.

Lemma orthogonal_id m : orthogonal m (mid : mat).
Proof.
  assert (E : meq (mtr (mid : mat)) mid) by (intros i j; apply mtr_mid).
  split; rewrite E; intros i j Hi Hj; apply mmul_id_l; auto.
Qed.

Lemma orthogonal_mmul m (P Q : mat) : orthogonal m P -> orthogonal m Q -> orthogonal m (mmul m P Q).
Proof.
  intros [P1 P2] [Q1 Q2]. split.
  - rewrite meq_tr, meq_assoc.
    eapply feq_trans; [|exact P1]. apply feq_mmul; [apply feq_refl|].
    rewrite <- meq_assoc. intros i j Hi Hj. transitivity (mmul m mid (mtr P) i j); [|apply mmul_id_l; auto].
    apply mmul_ext; auto.
  - rewrite meq_tr, meq_assoc.
    eapply feq_trans; [|exact Q2]. apply feq_mmul; [apply feq_refl|].
    rewrite <- meq_assoc. intros i j Hi Hj. transitivity (mmul m mid Q i j); [|apply mmul_id_l; auto].
    apply mmul_ext; auto.
Qed.

Lemma orthogonal_elim m (P : mat) : orthogonal m P -> orth_cols m m P /\ orth_rows m m P.
Proof. intros [H1 H2]. split; auto. Qed.

(** rv is supported from row s on. *)
Lemma rv_low A s i : i < s -> rv A s i = 0%r.
Proof. intros H. unfold rv. destruct (Nat.ltb_spec i s); [reflexivity|lia]. Qed.
Lemma rv_at A s i : rv A s (s + i) = hv (fun l => A (s + l) s) i.
Proof. unfold rv. destruct (Nat.ltb_spec (s + i) s); [lia|]. f_equal. lia. Qed.

Lemma dot_rv m A s w : s <= m -> dot m (rv A s) w = dot (m - s) (hv (fun l => A (s + l) s)) (fun l => w (s + l)).
Proof.
  intros H. unfold dot. replace m with (s + (m - s)) at 1 by lia. rewrite sum_split.
  rewrite sum_zero' by (intros i Hi; rewrite rv_low by auto; ring).
  transitivity (sum (m - s) (fun i => rv A s (s + i) * w (s + i)%nat))%r; [ring|].
  apply sum_ext. intros i _. rewrite rv_at. reflexivity.
Qed.

Lemma rv_ext A B s i : (forall l, s < l -> l <= i -> A l s = B l s) -> rv A s i = rv B s i.
Proof.
  intros H. unfold rv. destruct (Nat.ltb_spec i s); [reflexivity|]. unfold hv.
  destruct (Nat.eqb_spec (i - s) 0); [reflexivity|]. apply H; lia.
Qed.

Lemma dot_rv_self m A s : s <= m -> dot m (rv A s) (rv A s) = dot (m - s) (hv (fun l => A (s + l) s)) (hv (fun l => A (s + l) s)).
Proof. intros H. rewrite dot_rv by auto. apply dot_ext; auto. intros i _. apply rv_at. Qed.

Lemma hprod_ext m A B tau tau' k :
  (forall s l, s < k -> s < l -> l < m -> A l s = B l s) -> (forall s, s < k -> tau s = tau' s) ->
  feq m m (hprod m A tau k) (hprod m B tau' k).
Proof.
  induction k as [|k IH]; intros HA HT; simpl; [apply feq_refl|].
  apply feq_mmul; [apply IH; auto|]. intros i j Hi Hj. unfold elem.
  rewrite HT by auto. rewrite !(rv_ext A B) by (intros; apply HA; lia). reflexivity.
Qed.

Definition balanced_upto (m : nat) (A : mat) (tau : vec) (k : nat) : Prop :=
  forall s, s < k -> bal m (rv A s) (tau s).

Lemma balanced_ext m A B tau tau' k :
  (forall s l, s < k -> s < l -> l < m -> A l s = B l s) -> (forall s, s < k -> tau s = tau' s) ->
  balanced_upto m A tau k -> balanced_upto m B tau' k.
Proof.
  intros HA HT HB s Hs. specialize (HB s Hs). unfold bal in *. rewrite <- HT by auto.
  rewrite <- (dot_ext m (rv A s) (rv B s) (rv A s) (rv B s)); auto;
    intros i Hi; apply rv_ext; intros; apply HA; auto; lia.
Qed.

Lemma hprod_orthogonal m A tau k : balanced_upto m A tau k -> orthogonal m (hprod m A tau k).
Proof.
  induction k as [|k IH]; intros HB; simpl; [apply orthogonal_id|].
  apply orthogonal_mmul; [apply IH; intros s Hs; apply HB; lia|apply elem_orthogonal; apply HB; lia].
Qed.

(** ** The factorization *)

(** The working matrix after k steps: zeros below the diagonal of the first k columns. *)
Definition work (k : nat) (A : mat) : mat := fun i j => if (j <? k) && (j <? i) then 0%r else A i j.

Variable h : larfg.
Hypothesis Hh : larfg_ok h.

(** Up to step k: B = H_0 ... H_{k-1} W. *)
Definition qr_inv (m n k : nat) (B : mat) (A : mat) (tau : vec) : Prop :=
  balanced_upto m A tau k /\ feq m n B (mmul m (hprod m A tau k) (work k A)).

Lemma qr_inv_0 m n A tau : qr_inv m n 0 A A tau.
Proof.
  split; [intros s Hs; lia|]. simpl. intros i j Hi Hj. rewrite mmul_id_l by auto.
  unfold work. reflexivity.
Qed.

(** What a step does to the arrays, for the two variants of the code that make it. *)
Definition refl_step (m n r : nat) (A A' : mat) (tau tau' : vec) : Prop :=
  let '(y, t) := h (m - r) (fun i => A (r + i) r) in
  (forall i j, i < m -> j < n -> i < r \/ j < r -> A' i j = A i j) /\
  (forall i, r <= i -> i < m -> r < n -> A' i r = y (i - r)) /\
  (forall i j, r <= i -> i < m -> r < j -> j < n ->
     A' i j = (A i j - t * hv y (i - r) * sum (m - r) (fun l => hv y l * A (r + l)%nat j))%r) /\
  tau' r = t /\ (forall s, s < r -> tau' s = tau s).

Lemma qr_step_refl m n r A tau : r < m -> refl_step m n r A (fst (qr_step h m n r (A, tau))) tau (snd (qr_step h m n r (A, tau))).
Proof.
  intros Hr. unfold refl_step, qr_step. destruct (h (m - r) (fun i => A (r + i) r)) as [y t]. simpl.
  assert (V : forall i, r <= i -> i < m -> rv (store_col m r y A) r i = hv y (i - r)).
  { intros i H1 H2. replace i with (r + (i - r)) at 1 by lia. rewrite rv_at. unfold hv.
    destruct (Nat.eqb_spec (i - r) 0); auto. unfold store_col. rewrite Nat.eqb_refl.
    destruct (Nat.leb_spec r (r + (i - r))); [|lia]. destruct (Nat.ltb_spec (r + (i - r)) m); [|lia]. simpl. f_equal. lia. }
  split; [|split; [|split; [|split]]].
  - intros i j Hi Hj H. unfold apply_refl, store_col.
    destruct (Nat.leb_spec r i); destruct (Nat.ltb_spec r j); destruct (Nat.eqb_spec j r); simpl;
      rewrite ?andb_false_r; try reflexivity; lia.
  - intros i H1 H2 H3. unfold apply_refl. rewrite Nat.ltb_irrefl. rewrite andb_false_r. simpl.
    unfold store_col. rewrite Nat.eqb_refl. destruct (Nat.leb_spec r i); [|lia].
    destruct (Nat.ltb_spec i m); [|lia]. reflexivity.
  - intros i j H1 H2 H3 H4. unfold apply_refl.
    destruct (Nat.leb_spec r i); [|lia]. destruct (Nat.ltb_spec i m); [|lia].
    destruct (Nat.ltb_spec r j); [|lia]. destruct (Nat.ltb_spec j n); [|lia]. simpl.
    assert (S1 : forall l, store_col m r y A l j = A l j).
    { intros l. unfold store_col. destruct (Nat.eqb_spec j r); [lia|]. reflexivity. }
    rewrite S1, V by lia. f_equal. f_equal. apply sum_ext. intros l Hl. rewrite S1, V by lia.
    f_equal. f_equal. lia.
  - unfold upd. rewrite Nat.eqb_refl. reflexivity.
  - intros s Hs. unfold upd. destruct (Nat.eqb_spec s r); [lia|]. reflexivity.
Qed.

Lemma refl_step_inv m n r B A tau A' tau' : r < m -> r < n -> refl_step m n r A A' tau tau' ->
  qr_inv m n r B A tau -> qr_inv m n (S r) B A' tau'.
Proof.
  intros Hm Hn HS [HB HE]. unfold refl_step in HS.
  pose proof (lg_bal h Hh (m - r) (fun i => A (r + i) r)) as G1.
  pose proof (lg_ann h Hh (m - r) (fun i => A (r + i) r)) as G2.
  destruct (h (m - r) (fun i => A (r + i) r)) as [y t]. simpl in G1, G2.
  destruct HS as [F1 [F2 [F3 [F4 F5]]]].
  assert (V : forall l, l < m - r -> hv (fun l => A' (r + l) r) l = hv y l).
  { intros l Hl. unfold hv. destruct (Nat.eqb_spec l 0); auto. rewrite F2 by lia. f_equal. lia. }
  assert (BL : bal m (rv A' r) (tau' r)).
  { unfold bal. rewrite dot_rv_self by lia. rewrite F4. rewrite (dot_ext _ _ (hv y) _ (hv y)) by auto. exact G1. }
  assert (HA : forall s l, s < r -> s < l -> l < m -> A l s = A' l s) by (intros; symmetry; apply F1; lia).
  assert (HT : forall s, s < r -> tau s = tau' s) by (intros; symmetry; apply F5; auto).
  split.
  - intros s Hs. destruct (Nat.eq_dec s r) as [->|Hne]; [exact BL|].
    apply (balanced_ext m A A' tau tau' r); auto. lia.
  - assert (W : feq m n (work (S r) A') (mmul m (elem (rv A' r) (tau' r)) (work r A))).
    { intros i j Hi Hj. rewrite elem_mul by auto. rewrite dot_rv by lia. rewrite F4.
      rewrite (dot_ext (m - r) _ (hv y) _ (fun l => work r A (r + l) j)); auto.
      destruct (le_lt_dec r i) as [L|L].
      - destruct (lt_dec j r) as [Lj|Lj].
        + unfold dot. rewrite (sum_zero' (R := R)); [|intros l Hl; unfold work; destruct (Nat.ltb_spec j r); [|lia];
            destruct (Nat.ltb_spec j (r + l)); [|lia]; simpl; ring].
          unfold work. destruct (Nat.ltb_spec j r); [|lia]. destruct (Nat.ltb_spec j (S r)); [|lia].
          destruct (Nat.ltb_spec j i); [|lia]. simpl. ring.
        + assert (WW : forall l, work r A l j = A l j).
          { intros l. unfold work. destruct (Nat.ltb_spec j r); [lia|]. reflexivity. }
          rewrite (dot_ext (m - r) _ (hv y) _ (fun l => A (r + l) j)) by auto. rewrite WW.
          replace (rv A' r i) with (hv y (i - r)).
          2:{ replace i with (r + (i - r)) at 2 by lia. rewrite rv_at. symmetry. apply V. lia. }
          destruct (Nat.eq_dec j r) as [->|Lj2].
          * specialize (G2 (i - r) ltac:(lia)). replace (r + (i - r)) with i in G2 by lia. rewrite G2.
            unfold work. destruct (Nat.ltb_spec r (S r)); [|lia]. simpl.
            destruct (Nat.ltb_spec r i); destruct (Nat.eqb_spec (i - r) 0); try lia; auto.
            replace i with r by lia. rewrite F2 by lia. f_equal. lia.
          * unfold work. destruct (Nat.ltb_spec j (S r)); [lia|]. simpl. rewrite F3 by lia. reflexivity.
      - rewrite (rv_low A' r i) by auto. unfold work.
        assert (E : A' i j = A i j) by (apply F1; auto). rewrite E.
        destruct (Nat.ltb_spec j i); [|rewrite !andb_false_r; ring].
        destruct (Nat.ltb_spec j (S r)); [|lia]. destruct (Nat.ltb_spec j r); [|lia]. simpl. ring. }
    eapply feq_trans; [exact HE|]. simpl. rewrite meq_assoc.
    apply feq_mmul; [apply hprod_ext; auto|].
    eapply feq_trans; [|apply feq_mmul; [apply feq_refl|apply feq_sym; exact W]].
    rewrite <- meq_assoc. apply feq_sym.
    eapply feq_trans; [apply feq_mmul; [apply elem_sq; exact BL|apply feq_refl]|].
    intros i j Hi Hj. apply mmul_id_l. auto.
Qed.

Lemma dgeqrf_inv m n B tau k : k <= m -> k <= n ->
  qr_inv m n k B (fst (dgeqrf h m n k (B, tau))) (snd (dgeqrf h m n k (B, tau))).
Proof.
  induction k as [|k IH]; intros H1 H2; simpl; [apply qr_inv_0|].
  destruct (dgeqrf h m n k (B, tau)) as [A t] eqn:E. simpl in IH.
  eapply refl_step_inv; [lia|lia|apply qr_step_refl; lia|apply IH; lia].
Qed.

End Householder.
