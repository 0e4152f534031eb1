(** The statements about trmm, trsm, getrf and linear systems, for exact low-rank
    arithmetic and up to its errors. *)
From Coq Require Import List Arith ZArith QArith Lia Bool Ring_theory Ring Setoid Morphisms.
From Verif Require Import Prelude Ring MatFun MatSetoid Matrix MatOps MatSpec MatOpsProofs Gemm GemmSpec
  GemmProofs GemmCorrect Triangular TriAlgebra TriSpec TriProofs LuProofs LuCorrect.
Import ListNotations.
Local Open Scope nat_scope.

Section Thm.
Context {R : cring}.
Add Ring Rr : (cr_th R).
Notation dense := (dense R).
Notation lowrank := (lowrank R).
Notation matrix := (matrix R).
Notation mat := (mat R).
Variable Or : oracles R.
Variable rinv : R -> R.
Variable gfuel : nat.

Lemma trmm_exact : oracles_near exact Or -> forall nd fuel A B s u t un alpha X,
  t && nd = false -> wf A -> wf B -> tri_shape A -> nrows A = along s (nrows B) (ncols B) ->
  trmm Or gfuel nd fuel A B s u t un alpha = Ok X ->
  wf X /\ same_layout B X /\
  feq (nrows B) (ncols B) (ent X) (mscale alpha (tri_prod s (nrows A) (mop t (tri u un (ent A))) (ent B))).
Proof.
  intros HO nd fuel A B s u t un alpha X E WA WB TS ED H.
  destruct (trmm_ok exact Or HO gfuel nd fuel A B s u t un alpha X) as [H1 [H2 [H3 _]]]; auto.
Qed.

Lemma trmm_upto : oracles_shape Or -> forall nd fuel A B s u t un alpha X,
  t && nd = false -> wf A -> wf B -> tri_shape A -> nrows A = along s (nrows B) (ncols B) ->
  trmm Or gfuel nd fuel A B s u t un alpha = Ok X ->
  wf X /\ same_layout B X /\
  err_sum (call_error Or) (nrows B) (ncols B)
    (msub (ent X) (mscale alpha (tri_prod s (nrows A) (mop t (tri u un (ent A))) (ent B)))) /\
  (no_lr B ->
   feq (nrows B) (ncols B) (ent X) (mscale alpha (tri_prod s (nrows A) (mop t (tri u un (ent A))) (ent B)))).
Proof.
  intros HO nd fuel A B s u t un alpha X E WA WB TS ED H.
  destruct (trmm_ok _ Or (shape_near_upto Or HO) gfuel nd fuel A B s u t un alpha X) as [H1 [H2 [H3 H4]]]; auto.
Qed.

Lemma trmm_unsupported nd fuel A B s u t un alpha X : trmm Or gfuel nd fuel A B s u t un alpha = Ok X ->
  match A, B with
  | ML _, _ | ME _ _, _ | _, ME _ _ => False
  | _, _ => True
  end.
Proof. destruct fuel; [discriminate|]. destruct A, B; simpl; intros H; try discriminate; auto. Qed.

Lemma trsm_exact : oracles_near exact Or -> forall A B u s X,
  wf A -> wf B -> tri_shape A -> conf s A B -> nrows A = along s (nrows B) (ncols B) ->
  diag_ok rinv u (nrows A) (ent A) -> trsm rinv Or gfuel A B u s = Ok X ->
  wf X /\ same_layout B X /\
  feq (nrows B) (ncols B) (tri_prod s (nrows A) (tri u (unit_of u) (ent A)) (ent X)) (ent B).
Proof.
  intros HO A B u s X WA WB TS CF ED HD H.
  destruct (trsm_ok exact Or HO rinv gfuel A B u s X) as [H1 [H2 [H3 _]]]; auto.
Qed.

Lemma trsm_upto : oracles_shape Or -> forall A B u s X,
  wf A -> wf B -> tri_shape A -> conf s A B -> nrows A = along s (nrows B) (ncols B) ->
  diag_ok rinv u (nrows A) (ent A) -> trsm rinv Or gfuel A B u s = Ok X ->
  wf X /\ same_layout B X /\
  err_sum (call_error Or) (nrows B) (ncols B)
    (msub (tri_prod s (nrows A) (tri u (unit_of u) (ent A)) (ent X)) (ent B)) /\
  (no_lr B -> feq (nrows B) (ncols B) (tri_prod s (nrows A) (tri u (unit_of u) (ent A)) (ent X)) (ent B)).
Proof.
  intros HO A B u s X WA WB TS CF ED HD H.
  destruct (trsm_ok _ Or (shape_near_upto Or HO) rinv gfuel A B u s X) as [H1 [H2 [H3 H4]]]; auto.
Qed.

(** Which combinations have no implementation. *)
Definition trsm_missing (A B : matrix) (u : mode) (s : side) : Prop :=
  match A, B with
  | ML _, _ | ME _ _, _ | MD _, ME _ _ | MH _ _ _, ME _ _ | MD _, MH _ _ _ => True
  | MH _ _ _, MH _ n' _ =>
      match u, s with Lower, SRight => True | Upper, SLeft => n' <> 1 | _, _ => False end
  | _, _ => False
  end.

Lemma trsm_aborts A B u s : trsm_missing A B u s -> trsm rinv Or gfuel A B u s = Abort.
Proof.
  destruct A as [a|l|m n a|r c]; destruct B as [b|l'|m' n' b|r' c']; simpl; try tauto; auto.
  unfold hh_trsm. destruct u, s; try tauto; auto.
  intros H. apply Nat.eqb_neq in H. rewrite H. reflexivity.
Qed.

Lemma trsm_right_lower m n a B X : trsm rinv Or gfuel (MH m n a) B Lower SRight <> Ok X.
Proof.
  destruct B as [b|l|m' n' b|r c]; simpl; try discriminate; intros H.
  - apply bind_Ok in H. destruct H as [x [H _]]. apply bind_Ok in H. destruct H as [BH [_ H]].
    destruct BH; discriminate.
  - apply bind_Ok in H. destruct H as [x [H _]]. apply bind_Ok in H. destruct H as [BH [_ H]].
    destruct BH; discriminate.
Qed.

Variable dgetrf : dense -> outcome (dense * (nat -> nat)).

(** A run without row exchanges is a run. *)
Lemma for_loop_mono {S' : Type} n (f g : nat -> S' -> outcome S') : (forall i s x, i < n -> f i s = Ok x -> g i s = Ok x) ->
  forall s x, for_loop n f s = Ok x -> for_loop n g s = Ok x.
Proof.
  induction n as [|n IH]; intros H s x E; auto. simpl in *.
  apply bind_Ok in E. destruct E as [y [E1 E2]]. rewrite (IH (fun i s x Hi => H i s x (Nat.lt_lt_succ_r _ _ Hi)) s y E1).
  simpl. apply H; auto.
Qed.

Lemma lu_step_mono (r1 r2 : matrix -> outcome (matrix * matrix)) m n i s x :
  (forall A y, r1 A = Ok y -> r2 A = Ok y) ->
  lu_step rinv Or gfuel r1 m n i s = Ok x -> lu_step rinv Or gfuel r2 m n i s = Ok x.
Proof.
  intros H. unfold lu_step. intros E. apply bind_Ok in E. destruct E as [[l u] [E1 E2]].
  rewrite (H _ _ E1). exact E2.
Qed.

Lemma getrf_mono fuel : forall A y, getrf rinv Or gfuel (no_exchange dgetrf) fuel A = Ok y ->
  getrf rinv Or gfuel dgetrf fuel A = Ok y.
Proof.
  induction fuel as [|fuel IH]; intros A y H; [discriminate|].
  destruct A as [d|l|m n a|r c]; try discriminate; cbn [getrf] in *.
  - unfold d_getrf in *. apply bind_Ok in H. destruct H as [lu [H1 H]].
    apply bind_Ok in H1. destruct H1 as [[X p] [H1 H2]]. apply no_exchange_ok in H1. destruct H1 as [-> _].
    cbv beta iota delta [bind]. cbv beta iota in H2. rewrite H2. exact H.
  - apply assert_Ok in H. destruct H as [-> H]. apply bind_Ok in H. destruct H as [s [H1 H]].
    rewrite (for_loop_mono m (fun i s => lu_step rinv Or gfuel (getrf rinv Or gfuel (no_exchange dgetrf) fuel) m n i s)
              (fun i s => lu_step rinv Or gfuel (getrf rinv Or gfuel dgetrf fuel) m n i s)) with (x := s).
    + exact H.
    + intros i s' x _ E. eapply lu_step_mono; [|exact E]. exact IH.
    + exact H1.
Qed.

Lemma getrf_exact : oracles_near exact Or -> lu_contract dgetrf -> forall fuel A L U,
  wf A -> lu_shape A -> udiag rinv U -> getrf rinv Or gfuel (no_exchange dgetrf) fuel A = Ok (L, U) ->
  getrf rinv Or gfuel dgetrf fuel A = Ok (L, U) /\ wf L /\ wf U /\
  (nrows L = nrows A /\ ncols L = nrows A /\ nrows U = nrows A /\ ncols U = nrows A) /\
  feq (nrows A) (nrows A) (ent L) (tri Lower true (ent L)) /\
  feq (nrows A) (nrows A) (ent U) (tri Upper false (ent U)) /\
  feq (nrows A) (ncols A) (mmul (nrows A) (ent L) (ent U)) (ent A).
Proof.
  intros HO HX fuel A L U W HS HU H. split; [apply getrf_mono; auto|].
  destruct (getrf_ok exact Or HO rinv gfuel dgetrf HX fuel A L U W HS HU H)
    as [WL [WU [_ [_ [_ [_ [D [Lo [Up [Rl _]]]]]]]]]]. auto.
  repeat (split; [solve [auto]|]). auto.
Qed.

Lemma getrf_upto : oracles_shape Or -> lu_contract dgetrf -> forall fuel A L U,
  wf A -> lu_shape A -> udiag rinv U -> getrf rinv Or gfuel (no_exchange dgetrf) fuel A = Ok (L, U) ->
  getrf rinv Or gfuel dgetrf fuel A = Ok (L, U) /\ wf L /\ wf U /\
  (nrows L = nrows A /\ ncols L = nrows A /\ nrows U = nrows A /\ ncols U = nrows A) /\
  feq (nrows A) (nrows A) (ent L) (tri Lower true (ent L)) /\
  feq (nrows A) (nrows A) (ent U) (tri Upper false (ent U)) /\
  err_sum (call_error Or) (nrows A) (ncols A) (msub (mmul (nrows A) (ent L) (ent U)) (ent A)) /\
  (no_lr A -> feq (nrows A) (ncols A) (mmul (nrows A) (ent L) (ent U)) (ent A)).
Proof.
  intros HO HX fuel A L U W HS HU H. split; [apply getrf_mono; auto|].
  destruct (getrf_ok _ Or (shape_near_upto Or HO) rinv gfuel dgetrf HX fuel A L U W HS HU H)
    as [WL [WU [_ [_ [_ [_ [D [Lo [Up [Rl Re]]]]]]]]]].
  repeat (split; [solve [auto]|]). auto.
Qed.

(** Dense: whatever the exchanges were. *)
Lemma getrf_dense : lu_contract dgetrf -> forall fuel (A : dense) L U, d_r A = d_c A ->
  getrf rinv Or gfuel dgetrf (S fuel) (MD A) = Ok (L, U) ->
  exists X p, dgetrf A = Ok (X, p) /\ (forall i, i < d_r A -> p i < d_r A) /\
  feq (d_r A) (d_c A) (mmul (d_r A) (ent L) (ent U)) (fun i j => d_e A (p i) j).
Proof.
  intros HX fuel A L U Esq H. cbn [getrf] in H. apply bind_Ok in H. destruct H as [[l u] [H1 H]].
  inversion H; subst. destruct (dense_lu dgetrf HX A l u Esq H1) as [X [p [E1 [E2 E3]]]].
  exists X, p. auto.
Qed.

Lemma solve_exact : oracles_near exact Or -> lu_contract dgetrf -> forall fuel A L U b y x,
  wf A -> lu_shape A -> wf b -> conf SLeft A b -> nrows b = nrows A -> no_lr b -> udiag rinv U ->
  getrf rinv Or gfuel (no_exchange dgetrf) fuel A = Ok (L, U) ->
  trsm rinv Or gfuel L b Lower SLeft = Ok y -> trsm rinv Or gfuel U y Upper SLeft = Ok x ->
  same_layout b x /\ feq (nrows A) (ncols b) (mmul (nrows A) (ent A) (ent x)) (ent b).
Proof.
  intros HO HX fuel A L U b y x W HS Wb Cb Eb Nb HU HLU Hy Hx.
  destruct (solve_ok exact Or HO rinv gfuel dgetrf HX fuel A L U b y x) as [H1 [H2 [H3 _]]]; auto.
  split; auto. eapply feq_trans; [|exact H2]. simpl in H3. apply feq_mmul with (k := nrows A); [|apply feq_refl].
  apply feq_sym. rewrite <- (lu_shape_square A HS) in H3. exact H3.
Qed.

Lemma solve_upto : oracles_shape Or -> lu_contract dgetrf -> forall fuel A L U b y x,
  wf A -> lu_shape A -> wf b -> conf SLeft A b -> nrows b = nrows A -> no_lr b -> udiag rinv U ->
  getrf rinv Or gfuel (no_exchange dgetrf) fuel A = Ok (L, U) ->
  trsm rinv Or gfuel L b Lower SLeft = Ok y -> trsm rinv Or gfuel U y Upper SLeft = Ok x ->
  same_layout b x /\
  (exists E, err_sum (call_error Or) (nrows A) (ncols A) E /\
     feq (nrows A) (ncols b) (mmul (nrows A) (madd (ent A) E) (ent x)) (ent b)) /\
  (no_lr A -> feq (nrows A) (ncols b) (mmul (nrows A) (ent A) (ent x)) (ent b)).
Proof.
  intros HO HX fuel A L U b y x W HS Wb Cb Eb Nb HU HLU Hy Hx.
  destruct (solve_ok _ Or (shape_near_upto Or HO) rinv gfuel dgetrf HX fuel A L U b y x) as [H1 [H2 [H3 H4]]]; auto.
  split; auto. split.
  - exists (msub (mmul (nrows A) (ent L) (ent U)) (ent A)). split; [exact H3|].
    eapply feq_trans; [|exact H2]. apply feq_mmul with (k := nrows A); [|apply feq_refl].
    intros i j _ _. unfold madd, msub. ring.
  - intros NA. specialize (H4 NA). eapply feq_trans; [|exact H2].
    apply feq_mmul with (k := nrows A); [|apply feq_refl].
    apply feq_sym. rewrite <- (lu_shape_square A HS) in H4. exact H4.
Qed.
End Thm.
