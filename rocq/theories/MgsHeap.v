(** Modified Gram-Schmidt on three Dense: mgs_qr.cpp:323-342.  The columns of A are
    passed to BLAS as pointers with increment A.dim[1]. *)
From Coq Require Import List Arith Lia Bool Ring_theory Ring.
From Verif Require Import Prelude Ring MatFun MatSetoid Matrix MatOps Lapack Heap HeapProofs.
Import ListNotations.
Local Open Scope nat_scope.

Section Model.
Context {R : cring}.
Notation heap := (heap R).
Notation mat := (mat R).

(** The square root of dlange and 1/x. *)
Variables root inv : R -> R.

(** Element i of the vector at &A + j with increment ld. *)
Definition vaddr (A : hdense) (j ld i : nat) : nat := h_off A + j + i * ld.
Definition vget (h : heap) (A : hdense) (j ld i : nat) : outcome R := peek h (h_buf A) (vaddr A j ld i).
Definition vset (h : heap) (A : hdense) (j ld i : nat) (v : R) : outcome heap := poke h (h_buf A) (vaddr A j ld i) v.

Definition sumM (n : nat) (f : nat -> outcome R) : outcome R :=
  for_loop n (fun i s => let* x := f i in Ok (s + x)%r) 0%r.

(** LAPACKE_dlange 'F' of one column (mgs_qr.cpp:329-330), cblas_ddot (334-335),
    cblas_dscal (332), cblas_daxpy (336-337). *)
Definition vnorm (h : heap) (A : hdense) (j ld n : nat) : outcome R :=
  let* s := sumM n (fun i => let* x := vget h A j ld i in Ok (x * x)%r) in Ok (root s).
Definition vdot (h : heap) (A : hdense) (j k ld n : nat) : outcome R :=
  sumM n (fun i => let* x := vget h A j ld i in let* y := vget h A k ld i in Ok (x * y)%r).
Definition vscal (h : heap) (A : hdense) (j ld n : nat) (alpha : R) : outcome heap :=
  for_loop n (fun i h => let* x := vget h A j ld i in vset h A j ld i (alpha * x)%r) h.
Definition vaxpy (h : heap) (A : hdense) (j k ld n : nat) (alpha : R) : outcome heap :=
  for_loop n (fun i h => let* x := vget h A j ld i in let* y := vget h A k ld i in
                         vset h A k ld i (y + alpha * x)%r) h.

(** Q takes over the object A (mgs_qr.cpp:341). *)
Definition mgs_col (A Rm : hdense) (j : nat) (h : heap) : outcome heap :=
  let n := h_r A in
  let ld := h_c A in
  let* s := vnorm h A j ld n in
  let* h := h_set h Rm j j s in
  let* rjj := h_get h Rm j j in
  let* h := vscal h A j ld n (inv rjj) in
  for_loop (h_c A - S j) (fun t h =>
    let k := S j + t in
    let* d := vdot h A j k ld n in
    let* h := h_set h Rm j k d in
    let* rjk := h_get h Rm j k in
    vaxpy h A j k ld n (- rjk)%r) h.
Definition mgs_dense (h : heap) (A Q Rm : hdense) : outcome (heap * hdense) :=
  assert! h_r Q =? h_r A in
  assert! h_c Q =? h_c A in
  assert! h_r Rm =? h_c A in
  assert! h_c Rm =? h_c A in
  let* h := for_loop (h_c A) (mgs_col A Rm) h in
  Ok (h, A).

(** The same algorithm on functions. *)
Definition mstep (r j : nat) (s : mat * mat) : mat * mat :=
  let '(F, G) := s in
  let nr := root (sum r (fun i => F i j * F i j)%r) in
  let q i := (inv nr * F i j)%r in
  let d k := sum r (fun i => q i * F i k)%r in
  ((fun i k => if k =? j then q i else if j <? k then (F i k + - d k * q i)%r else F i k),
   (fun i k => if i =? j then (if k =? j then nr else if j <? k then d k else G i k) else G i k)).
Fixpoint miter (r t : nat) (s : mat * mat) : mat * mat :=
  match t with O => s | S t => mstep r t (miter r t s) end.
End Model.

Section Algebra.
Context {R : cring}.
Add Ring Rr : (cr_th R).
Notation mat := (mat R).
Variables root inv : R -> R.
Variable r c : nat.

(** Q and R of the first t steps. *)
Definition unit_diag (t : nat) (G : mat) : Prop := forall l, l < t -> (inv (G l l) * G l l = 1)%r.

Lemma miter_upper t F0 G0 i k : k < i -> snd (miter root inv r t (F0, G0)) i k = G0 i k.
Proof.
  intros H. induction t as [|t IH]; auto. cbn [miter]. destruct (miter root inv r t (F0, G0)) as [F G]. simpl in *.
  destruct (Nat.eqb_spec i t); auto. destruct (Nat.eqb_spec k t); [lia|]. destruct (Nat.ltb_spec t k); auto. lia.
Qed.
Lemma miter_rows t F0 G0 i k : t <= i -> snd (miter root inv r t (F0, G0)) i k = G0 i k.
Proof.
  intros H. induction t as [|t IH]; auto. cbn [miter]. destruct (miter root inv r t (F0, G0)) as [F G]. simpl in *.
  destruct (Nat.eqb_spec i t); [lia|]. apply IH. lia.
Qed.
(** Rows of R and columns of Q are final after their step. *)
Lemma miter_diag t F0 G0 l s : l < t -> t <= s ->
  snd (miter root inv r s (F0, G0)) l = snd (miter root inv r t (F0, G0)) l.
Proof.
  intros H1 H2. induction s as [|s IH]; [lia|]. destruct (Nat.eq_dec t (S s)) as [->|]; auto.
  rewrite <- IH by lia. cbn [miter]. destruct (miter root inv r s (F0, G0)) as [F G]. simpl.
  destruct (Nat.eqb_spec l s); [lia|]. reflexivity.
Qed.

Lemma miter_product t F0 G0 : unit_diag t (snd (miter root inv r t (F0, G0))) ->
  let F := fst (miter root inv r t (F0, G0)) in
  let G := snd (miter root inv r t (F0, G0)) in
  (forall i k, k < t -> F0 i k = sum (S k) (fun l => F i l * G l k)%r) /\
  (forall i k, t <= k -> F0 i k = (sum t (fun l => F i l * G l k) + F i k)%r).
Proof.
  induction t as [|t IH]; intros HU F G.
  - split; [lia|]. intros i k _. unfold F. simpl. ring.
  - destruct IH as [I1 I2].
    { intros l Hl. rewrite <- (miter_diag t F0 G0 l (S t)) by lia. apply HU. lia. }
    pose proof (HU t (Nat.lt_succ_diag_r t)) as UT.
    unfold F, G. cbn [miter] in *. destruct (miter root inv r t (F0, G0)) as [F1 G1]. cbn [fst snd mstep] in *.
    rewrite !Nat.eqb_refl in UT. set (nr := root (sum r (fun i => F1 i t * F1 i t)%r)) in *.
    assert (LT : forall l, l < t -> (l =? t) = false /\ (t <? l) = false).
    { intros l Hl. split; [apply Nat.eqb_neq|apply Nat.ltb_ge]; lia. }
    assert (SE : forall i k n, n <= t -> sum n (fun l =>
       (if l =? t then inv nr * F1 i t else if t <? l then F1 i l + - sum r (fun i0 => inv nr * F1 i0 t * F1 i0 l) * (inv nr * F1 i t) else F1 i l) *
       (if l =? t then if k =? t then nr else if t <? k then sum r (fun i0 => inv nr * F1 i0 t * F1 i0 k) else G1 l k else G1 l k))%r =
       sum n (fun l => F1 i l * G1 l k)%r).
    { intros i k n Hn. apply sum_ext. intros l Hl. destruct (LT l ltac:(lia)) as [E1 E2]. rewrite E1, E2. reflexivity. }
    assert (TF : forall i, (inv nr * F1 i t * nr = F1 i t)%r).
    { intros i. transitivity (inv nr * nr * F1 i t)%r; [ring|]. rewrite UT. ring. }
    split; intros i k Hk.
    + destruct (Nat.eq_dec k t) as [->|].
      * simpl sum. rewrite SE by lia. rewrite !Nat.eqb_refl. rewrite TF. apply I2. auto.
      * rewrite SE by lia. apply I1. lia.
    + simpl sum. rewrite SE by lia. rewrite Nat.eqb_refl. rewrite (I2 i k) by lia.
      destruct (Nat.eqb_spec k t); [lia|]. destruct (Nat.ltb_spec t k); [|lia]. ring.
Qed.

Hypothesis root_ok : forall (f : nat -> R) n, (root (sum n (fun i => f i * f i)) * root (sum n (fun i => f i * f i)) = sum n (fun i => f i * f i))%r.

Definition cdot (F : mat) (l k : nat) : R := sum r (fun i => F i l * F i k)%r.

Lemma miter_orth t F0 G0 : unit_diag t (snd (miter root inv r t (F0, G0))) ->
  let F := fst (miter root inv r t (F0, G0)) in
  forall l k, l < t -> l <= k -> cdot F l k = if l =? k then 1%r else 0%r.
Proof.
  induction t as [|t IH]; intros HU F l k Hl Hk; [lia|].
  assert (IH' := IH ltac:(intros l' Hl'; rewrite <- (miter_diag t F0 G0 l' (S t)) by lia; apply HU; lia)). clear IH.
  pose proof (HU t (Nat.lt_succ_diag_r t)) as UT.
  unfold F. cbn [miter] in *. destruct (miter root inv r t (F0, G0)) as [F1 G1]. cbn [fst snd mstep] in *.
  rewrite !Nat.eqb_refl in UT. pose proof (root_ok (fun i => F1 i t) r) as RO.
  set (nr := root (sum r (fun i => F1 i t * F1 i t)%r)) in *.
  set (d := fun k => sum r (fun i0 => inv nr * F1 i0 t * F1 i0 k)%r).
  assert (QQ : sum r (fun i => inv nr * F1 i t * (inv nr * F1 i t))%r = 1%r).
  { transitivity (inv nr * inv nr * sum r (fun i => F1 i t * F1 i t))%r.
    { rewrite <- sum_mul_l. apply sum_ext. intros; ring. }
    rewrite <- RO. transitivity ((inv nr * nr) * (inv nr * nr))%r; [ring|]. rewrite UT. ring. }
  assert (LT : l < t -> forall k', t <= k' -> sum r (fun i => F1 i l * F1 i k')%r = 0%r).
  { intros Ht k' Hk'. pose proof (IH' l k' Ht ltac:(lia)) as X. destruct (Nat.eqb_spec l k'); [lia|]. exact X. }
  unfold cdot.
  destruct (Nat.eqb_spec l t) as [->|Nl].
  - destruct (Nat.eqb_spec k t) as [->|Nk].
    + rewrite !Nat.eqb_refl. exact QQ.
    + destruct (Nat.ltb_spec t k); [|lia]. destruct (Nat.eqb_spec t k); [lia|].
      transitivity (sum r (fun i => inv nr * F1 i t * F1 i k)%r + - d k * sum r (fun i => inv nr * F1 i t * (inv nr * F1 i t)))%r.
      { rewrite <- sum_mul_l, <- sum_add. apply sum_ext. intros. unfold d. ring. }
      rewrite QQ. unfold d. ring.
  - assert (l < t) by lia. destruct (Nat.ltb_spec t l); [lia|].
    destruct (Nat.eqb_spec k t) as [->|Nk].
    + destruct (Nat.eqb_spec l t); [lia|].
      transitivity (inv nr * sum r (fun i => F1 i l * F1 i t))%r.
      { rewrite <- sum_mul_l. apply sum_ext. intros; ring. }
      rewrite LT by auto. ring.
    + destruct (Nat.ltb_spec t k).
      * destruct (Nat.eqb_spec l k); [lia|].
        transitivity (sum r (fun i => F1 i l * F1 i k)%r + - d k * (inv nr * sum r (fun i => F1 i l * F1 i t)))%r.
        { rewrite <- !sum_mul_l, <- sum_add. apply sum_ext. intros. unfold d. ring. }
        rewrite !LT by lia. ring.
      * apply (IH' l k); lia.
Qed.
End Algebra.
