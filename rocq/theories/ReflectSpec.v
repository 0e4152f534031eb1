(** Reflectors as matrices, and what is assumed of the tile factorizations. *)
From Coq Require Import List Arith ZArith Lia Bool Ring_theory Ring Setoid Morphisms.
From Verif Require Import Prelude Ring MatFun MatSetoid Matrix MatOps Gemm GemmSpec Lapack Triangular Reflect.
Import ListNotations.
Local Open Scope nat_scope.

Section Spec.
Context {R : cring}.
Add Ring Rr : (cr_th R).
Notation dense := (dense R).
Notation lowrank := (lowrank R).
Notation matrix := (matrix R).
Notation mat := (mat R).

(** I - Y T Y^T with n columns in Y. *)
Definition refl (n : nat) (Y T : mat) : mat := msub mid (mmul n Y (mmul n T (mtr Y))).

(** a (n rows) on top of b. *)
Definition vst (n : nat) (a b : mat) : mat := fun i j => if i <? n then a i j else b (i - n) j.

Definition orthogonal (N : nat) (Q : mat) : Prop :=
  feq N N (mmul N Q (mtr Q)) mid /\ feq N N (mmul N (mtr Q) Q) mid.

(** The reflector stored in a tile, and the one of a triangle on top of a tile. *)
Definition tile_refl (n : nat) (V T : mat) : mat := refl n (tri Lower true V) (tri Upper false T).
Definition pair_refl (n : nat) (V T : mat) : mat := refl n (vst n mid V) (tri Upper false T).

(** LAPACKE_dgeqrt3: a = Q r with r the upper triangle of x and Q the reflector with
    the vectors below the diagonal of x and the factor t. *)
Definition is_geqrt (a x t : dense) : Prop :=
  let n := d_c a in
  d_r x = d_r a /\ d_c x = n /\ d_r t = n /\ d_c t = n /\
  orthogonal (d_r a) (tile_refl n (d_e x) (d_e t)) /\
  feq (d_r a) n (d_e a) (mmul (d_r a) (tile_refl n (d_e x) (d_e t)) (tri Upper false (d_e x))).

(** LAPACKE_dtpqrt2: (r; b) = Q (r'; 0) with r, r' the upper triangles of order n of a
    and a'.  The rest of a is not touched. *)
Definition is_tpqrt (a b a' v t : dense) : Prop :=
  let n := d_c b in
  let m := d_r b in
  d_r a' = d_r a /\ d_c a' = d_c a /\ d_r v = m /\ d_c v = n /\
  (forall i j, i < d_r a -> j < d_c a -> ~ (i <= j /\ j < n) -> d_e a' i j = d_e a i j) /\
  orthogonal (n + m) (pair_refl n (d_e v) (d_e t)) /\
  feq (n + m) n (vst n (tri Upper false (d_e a)) (d_e b))
      (mmul (n + m) (pair_refl n (d_e v) (d_e t)) (vst n (tri Upper false (d_e a')) mzero)).

Record qrt_ok (K : qrt R) : Prop := {
  ok_geqrt : forall a x t, geqrt3 K a = Ok (x, t) -> d_c a <= d_r a -> is_geqrt a x t;
  ok_tpqrt : forall a b a' v t, tpqrt2 K a b = Ok (a', v, t) -> d_c b <= d_r a -> d_c b <= d_c a -> is_tpqrt a b a' v t
}.

(** LowRank tiles with an orthonormal left basis and a square middle factor. *)
Definition orthU (A : matrix) : Prop :=
  match A with
  | ML l => d_r (l_S l) = d_c (l_S l) /\ orth_cols (l_r l) (d_c (l_U l)) (d_e (l_U l))
  | _ => True
  end.

(** Low-rank arithmetic that loses nothing and keeps the left basis orthonormal. *)
Definition keeps_orthU (O : oracles R) : Prop :=
  forall a b c, lr_wf a -> lr_wf b -> l_r a = l_r b -> l_c a = l_c b -> lr_add O a b = Ok c ->
    orthU (ML a) -> orthU (ML c).

(** ** Algebra *)

Lemma vst_top n (a b : mat) c : feq n c (vst n a b) a.
Proof. intros i j Hi _. unfold vst. destruct (Nat.ltb_spec i n); [reflexivity|lia]. Qed.
Lemma vst_bot n (a b : mat) i j : vst n a b (n + i) j = b i j.
Proof. unfold vst. destruct (Nat.ltb_spec (n + i) n); [lia|]. f_equal. lia. Qed.

Lemma feq_vst n m c (f g a b : mat) :
  feq n c f a -> feq m c g b -> feq (n + m) c (vst n f g) (vst n a b).
Proof.
  intros H1 H2 i j Hi Hj. unfold vst. destruct (Nat.ltb_spec i n); [apply H1; auto|apply H2; lia].
Qed.
Lemma feq_vst_inv n m c (f g a b : mat) :
  feq (n + m) c (vst n f g) (vst n a b) -> feq n c f a /\ feq m c g b.
Proof.
  intros H. split; intros i j Hi Hj.
  - specialize (H i j ltac:(lia) Hj). unfold vst in H. destruct (Nat.ltb_spec i n); [exact H|lia].
  - specialize (H (n + i) j ltac:(lia) Hj). rewrite !vst_bot in H. exact H.
Qed.
Lemma vst_eta n m c (f : mat) : feq (n + m) c (vst n f (mwin n 0 f)) f.
Proof.
  intros i j Hi Hj. unfold vst, mwin. destruct (Nat.ltb_spec i n); [reflexivity|]. f_equal. lia.
Qed.

Lemma vst_mul k n (f g h : mat) : meq (mmul k (vst n f g) h) (vst n (mmul k f h) (mmul k g h)).
Proof. intros i j. unfold mmul, vst. destruct (i <? n); reflexivity. Qed.

Lemma vst_dot n m (f g a b : mat) :
  meq (mmul (n + m) (mtr (vst n f g)) (vst n a b)) (madd (mmul n (mtr f) a) (mmul m (mtr g) b)).
Proof.
  intros i j. rewrite mmul_split. unfold madd. f_equal.
  - apply mmul_ext; intros x Hx; unfold mtr, vst; destruct (Nat.ltb_spec x n); auto; lia.
  - apply mmul_ext; intros x Hx.
    + unfold mwin, mtr. simpl. apply vst_bot.
    + unfold mwin. simpl. apply vst_bot.
Qed.

Lemma vst_sub n (a b c d : mat) : meq (vst n (msub a b) (msub c d)) (msub (vst n a c) (vst n b d)).
Proof. intros i j. unfold vst, msub. destruct (i <? n); reflexivity. Qed.

(** Applying a reflector. *)
Lemma refl_apply N n (Y T x : mat) c :
  feq N c (mmul N (refl n Y T) x) (msub x (mmul n Y (mmul n T (mmul N (mtr Y) x)))).
Proof.
  intros i j Hi Hj. unfold refl. rewrite mmul_sub_l. rewrite mmul_id_l by auto. unfold msub. f_equal.
  rewrite mmul_assoc. apply mmul_ext; auto. intros y Hy. rewrite mmul_assoc. reflexivity.
Qed.

Lemma refl_tr n (Y T : mat) : meq (mtr (refl n Y T)) (refl n Y (mtr T)).
Proof.
  intros i j. unfold refl, msub, mtr at 1. f_equal.
  - unfold mid. rewrite Nat.eqb_sym. reflexivity.
  - transitivity (mtr (mmul n Y (mmul n T (mtr Y))) i j); [reflexivity|].
    rewrite mmul_tr.
    transitivity (mmul n (mmul n (mtr (mtr Y)) (mtr T)) (mtr Y) i j).
    + apply mmul_ext; auto. intros y Hy. apply mmul_tr.
    + rewrite mmul_assoc. reflexivity.
Qed.

Lemma refl_op n (Y T : mat) (t : bool) : meq (mop t (refl n Y T)) (refl n Y (mop t T)).
Proof. destruct t; simpl; [apply refl_tr|reflexivity]. Qed.
End Spec.
