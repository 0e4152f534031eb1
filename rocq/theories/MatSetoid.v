(** Rewriting with pointwise equal entry functions. *)
From Coq Require Import List Arith ZArith Lia Bool Ring_theory Ring Setoid Morphisms.
From Verif Require Import Ring MatFun.

Section MatSetoid.
Context {R : cring}.
Add Ring Rr : (cr_th R).
Local Open Scope cr_scope.
Notation mat := (mat R).

Definition meq (f g : mat) : Prop := forall i j, f i j = g i j.

Global Instance meq_equiv : Equivalence meq.
Proof.
  split.
  - intros f i j. reflexivity.
  - intros f g H i j. symmetry. apply H.
  - intros f g h H1 H2 i j. rewrite H1. apply H2.
Qed.

Global Instance mmul_meq k : Proper (meq ==> meq ==> meq) (mmul k).
Proof. intros f f' Hf g g' Hg i j. apply mmul_ext; auto. Qed.
Global Instance madd_meq : Proper (meq ==> meq ==> meq) (@madd R).
Proof. intros f f' Hf g g' Hg i j. unfold madd. now rewrite Hf, Hg. Qed.
Global Instance msub_meq : Proper (meq ==> meq ==> meq) (@msub R).
Proof. intros f f' Hf g g' Hg i j. unfold msub. now rewrite Hf, Hg. Qed.
Global Instance mscale_meq a : Proper (meq ==> meq) (mscale a).
Proof. intros f f' Hf i j. unfold mscale. now rewrite Hf. Qed.
Global Instance mtr_meq : Proper (meq ==> meq) (@mtr R).
Proof. intros f f' Hf i j. unfold mtr. now rewrite Hf. Qed.
Global Instance mop_meq t : Proper (meq ==> meq) (@mop R t).
Proof. intros f f' Hf. destruct t; simpl; [now rewrite Hf|exact Hf]. Qed.
Global Instance mwin_meq a b : Proper (meq ==> meq) (@mwin R a b).
Proof. intros f f' Hf i j. unfold mwin. now rewrite Hf. Qed.
Global Instance feq_meq r c : Proper (meq ==> meq ==> iff) (@feq R r c).
Proof.
  intros f f' Hf g g' Hg. unfold feq. split; intros H i j Hi Hj.
  - rewrite <- Hf, <- Hg; auto.
  - rewrite Hf, Hg; auto.
Qed.

Lemma meq_feq r c (f g : mat) : meq f g -> feq r c f g.
Proof. intros H i j _ _. apply H. Qed.

Lemma meq_assoc k l (f g h : mat) : meq (mmul l (mmul k f g) h) (mmul k f (mmul l g h)).
Proof. intros i j. apply mmul_assoc. Qed.
Lemma meq_tr k (f g : mat) : meq (mtr (mmul k f g)) (mmul k (mtr g) (mtr f)).
Proof. intros i j. apply mmul_tr. Qed.
Lemma meq_tr_tr (f : mat) : meq (mtr (mtr f)) f.
Proof. intros i j. reflexivity. Qed.
Lemma meq_scale_l k a (f g : mat) : meq (mmul k (mscale a f) g) (mscale a (mmul k f g)).
Proof. intros i j. apply mmul_scale_l. Qed.
Lemma meq_scale_r k a (f g : mat) : meq (mmul k f (mscale a g)) (mscale a (mmul k f g)).
Proof. intros i j. apply mmul_scale_r. Qed.
Lemma meq_scale_scale a b (f : mat) : meq (mscale a (mscale b f)) (mscale (a * b) f).
Proof. intros i j. unfold mscale. ring. Qed.
Lemma meq_scale_1 (f : mat) : meq (mscale 1 f) f.
Proof. intros i j. unfold mscale. ring. Qed.
Lemma meq_scale_0 (f : mat) : meq (mscale 0 f) mzero.
Proof. intros i j. unfold mscale, mzero. ring. Qed.
Lemma meq_scale_add a (f g : mat) : meq (mscale a (madd f g)) (madd (mscale a f) (mscale a g)).
Proof. intros i j. unfold mscale, madd. ring. Qed.
Lemma meq_add_l k (f f' g : mat) : meq (mmul k (madd f f') g) (madd (mmul k f g) (mmul k f' g)).
Proof. intros i j. apply mmul_add_l. Qed.
Lemma meq_add_r k (f g g' : mat) : meq (mmul k f (madd g g')) (madd (mmul k f g) (mmul k f g')).
Proof. intros i j. apply mmul_add_r. Qed.
Lemma meq_sub_l k (f f' g : mat) : meq (mmul k (msub f f') g) (msub (mmul k f g) (mmul k f' g)).
Proof. intros i j. apply mmul_sub_l. Qed.
Lemma meq_sub_r k (f g g' : mat) : meq (mmul k f (msub g g')) (msub (mmul k f g) (mmul k f g')).
Proof. intros i j. apply mmul_sub_r. Qed.
Lemma meq_add_comm (f g : mat) : meq (madd f g) (madd g f).
Proof. intros i j. unfold madd. ring. Qed.
Lemma meq_add_assoc (f g h : mat) : meq (madd f (madd g h)) (madd (madd f g) h).
Proof. intros i j. unfold madd. ring. Qed.
Lemma meq_add_0_l (f : mat) : meq (madd mzero f) f.
Proof. intros i j. unfold madd, mzero. ring. Qed.
Lemma meq_add_0_r (f : mat) : meq (madd f mzero) f.
Proof. intros i j. unfold madd, mzero. ring. Qed.
Lemma meq_zero_l k (g : mat) : meq (mmul k mzero g) mzero.
Proof. intros i j. apply mmul_zero_l. Qed.
Lemma meq_zero_r k (f : mat) : meq (mmul k f mzero) mzero.
Proof. intros i j. apply mmul_zero_r. Qed.
Lemma meq_tr_add (f g : mat) : meq (mtr (madd f g)) (madd (mtr f) (mtr g)).
Proof. intros i j. reflexivity. Qed.
Lemma meq_tr_scale a (f : mat) : meq (mtr (mscale a f)) (mscale a (mtr f)).
Proof. intros i j. reflexivity. Qed.
Lemma meq_op_mul k t (f g : mat) :
  meq (mop t (mmul k f g)) (if t then mmul k (mtr g) (mtr f) else mmul k f g).
Proof. destruct t; [apply meq_tr|reflexivity]. Qed.

(** Products only look at entries inside of the inner dimension. *)
Lemma feq_mul r k c (f f' g g' : mat) :
  feq r k f f' -> feq k c g g' -> feq r c (mmul k f g) (mmul k f' g').
Proof. apply feq_mmul. Qed.
Lemma feq_add r c (f f' g g' : mat) : feq r c f f' -> feq r c g g' -> feq r c (madd f g) (madd f' g').
Proof. intros H1 H2 i j Hi Hj. unfold madd. now rewrite H1, H2. Qed.
Lemma feq_sub r c (f f' g g' : mat) : feq r c f f' -> feq r c g g' -> feq r c (msub f g) (msub f' g').
Proof. intros H1 H2 i j Hi Hj. unfold msub. now rewrite H1, H2. Qed.
Lemma feq_scale r c a (f f' : mat) : feq r c f f' -> feq r c (mscale a f) (mscale a f').
Proof. intros H i j Hi Hj. unfold mscale. now rewrite H. Qed.
Lemma feq_mop (t : bool) (r c : nat) (f f' : mat) : feq r c f f' ->
  feq (if t then c else r) (if t then r else c) (mop t f) (mop t f').
Proof. intros H. destruct t; simpl; [now apply feq_tr|exact H]. Qed.
Lemma feq_win r c r' c' a b (f f' : mat) : feq r c f f' -> (a + r' <= r)%nat -> (b + c' <= c)%nat ->
  feq r' c' (mwin a b f) (mwin a b f').
Proof. intros H H1 H2 i j Hi Hj. unfold mwin. apply H; lia. Qed.

End MatSetoid.
