(** Consequences for the reflector kernels and for multiplying by the implicit Q. *)
From Coq Require Import List Arith ZArith QArith Lia Bool Ring_theory Ring Setoid Morphisms.
From Verif Require Import Prelude Ring MatFun MatSetoid Matrix MatOps MatSpec MatOpsProofs Lapack Gemm GemmSpec GemmProofs
  GemmTheorems Triangular TriAlgebra TriSpec TriProofs TriTheorems Reflect ReflectSpec ReflectProofs ReflectTile
  QrBig QrTiled QrStep QrApply.
Import ListNotations.
Local Open Scope nat_scope.

Section Thm.
Context {R : cring}.
Add Ring Rr : (cr_th R).
Notation dense := (dense R).
Notation lowrank := (lowrank R).
Notation matrix := (matrix R).
Notation mat := (mat R).
Notation grid := (grid R).

(** V, T, A, B fit together as operands of tpmqrt. *)
Definition tpm_fit (V T A B : matrix) : Prop :=
  wf V /\ wf A /\ wf B /\ nrows V = nrows B /\ nrows T = ncols V /\ ncols T = ncols V /\ ncols A = ncols B.

Definition tpm_value (V T A B : matrix) (tr : bool) : mat :=
  mmul (ncols V + nrows B) (mop tr (pair_refl (ncols V) (ent V) (ent T))) (vst (ncols V) (ent A) (ent B)).

Definition tpm_spec (V T A B : matrix) (tr : bool) (A' B' : matrix) : Prop :=
  wf A' /\ wf B' /\ same_layout A A' /\ same_layout B B' /\
  feq (ncols V + nrows B) (ncols B) (vst (ncols V) (ent A') (ent B')) (tpm_value V T A B tr) /\
  (forall i j, ncols V <= i -> i < nrows A -> j < ncols A -> ent A' i j = ent A i j).

Lemma tpmqrt_exact (Or : oracles R) : oracles_near exact Or -> forall V T A B tr A' B', tpm_fit V T A B ->
  tpmqrt Or V T A B tr = Ok (A', B') -> tpm_spec V T A B tr A' B'.
Proof.
  intros HO V T A B tr A' B' [WV [WA [WB [E1 [E2 [E3 E4]]]]]] H.
  apply (tpmqrt_ok Or) in H; auto. cbv zeta in H.
  destruct H as [_ [_ [_ [_ [_ [H1 [H2 [H3 [H4 [H5 [H6 _]]]]]]]]]]]. unfold tpm_spec, tpm_value. auto 8.
Qed.

(** With Dense A and B low-rank arithmetic does not come in. *)
Lemma tpmqrt_dense_any (Or Or' : oracles R) V T (a b : dense) tr A' B' :
  tpmqrt Or V T (MD a) (MD b) tr = Ok (A', B') -> tpmqrt Or' V T (MD a) (MD b) tr = Ok (A', B').
Proof.
  intros H. unfold tpmqrt in *. destruct V as [v|v|? ? ?|? ?]; try discriminate;
    destruct T as [t|t|? ? ?|? ?]; try discriminate; auto.
Qed.

Lemma tpmqrt_dense (Or : oracles R) : forall V T (a b : dense) tr A' B', tpm_fit V T (MD a) (MD b) ->
  tpmqrt Or V T (MD a) (MD b) tr = Ok (A', B') -> tpm_spec V T (MD a) (MD b) tr A' B'.
Proof.
  intros V T a b tr A' B' F H. apply (tpmqrt_exact exact_oracles exact_oracles_near); auto.
  
Qed.

(** Different structures, same numbers. *)
Lemma tpmqrt_same (Or : oracles R) : oracles_near exact Or -> forall V T A B V2 T2 A2 B2 tr A' B' A2' B2',
  tpm_fit V T A B -> tpm_fit V2 T2 A2 B2 ->
  nrows V2 = nrows V -> ncols V2 = ncols V -> nrows A2 = nrows A -> ncols B2 = ncols B ->
  feq (nrows V) (ncols V) (ent V2) (ent V) -> feq (ncols V) (ncols V) (ent T2) (ent T) ->
  feq (nrows A) (ncols A) (ent A2) (ent A) -> feq (nrows B) (ncols B) (ent B2) (ent B) ->
  tpmqrt Or V T A B tr = Ok (A', B') -> tpmqrt Or V2 T2 A2 B2 tr = Ok (A2', B2') ->
  feq (nrows A) (ncols A) (ent A2') (ent A') /\ feq (nrows B) (ncols B) (ent B2') (ent B').
Proof.
  intros HO V T A B V2 T2 A2 B2 tr A' B' A2' B2' F F2 EV1 EV2 EA EB QV QT QA QB H H2.
  destruct F as [WV [WA [WB [F1 [F3 [F4 F5]]]]]]. destruct F2 as [WV2 [WA2 [WB2 [G1 [G3 [G4 G5]]]]]].
  apply (tpmqrt_ok Or) in H; auto. apply (tpmqrt_ok Or) in H2; auto. cbv zeta in H, H2.
  destruct H as [_ [_ [_ [_ [L [_ [_ [_ [_ [H [K _]]]]]]]]]]].
  destruct H2 as [_ [_ [_ [_ [L2 [_ [_ [_ [_ [H2 [K2 _]]]]]]]]]]].
  assert (EB1 : nrows B2 = nrows B) by congruence.
  rewrite EV2, EB1, EB in H2. rewrite EV2, EA in K2. 
  set (n := ncols V) in *. set (m := nrows B) in *.
  assert (E : feq (n + m) (ncols B) (vst n (ent A2') (ent B2')) (vst n (ent A') (ent B'))).
  { eapply feq_trans; [exact H2|]. eapply feq_trans; [|apply feq_sym; exact H]. apply feq_mmul.
    - assert (P : feq (n + m) (n + m) (pair_refl n (ent V2) (ent T2)) (pair_refl n (ent V) (ent T))).
      { apply pair_refl_feq; auto. rewrite <- F1. exact QV. }
      destruct tr; [apply feq_tr|]; exact P.
    - apply feq_vst; auto. rewrite <- F5. intros i j Hi Hj. apply QA; auto. lia. }
  apply feq_vst_inv in E. destruct E as [E1 E2]. split; [|exact E2].
  intros i j Hi Hj. destruct (Nat.lt_ge_cases i n) as [Li|Li].
  - apply E1; auto. rewrite <- F5. exact Hj.
  - rewrite K2, K; auto. rewrite G5, EB, <- F5. exact Hj.
Qed.

(** With trans and then without gives back the operands. *)
Lemma tpmqrt_round_trip (Or : oracles R) : oracles_near exact Or -> forall V T A B tr A1 B1 A2 B2, tpm_fit V T A B ->
  orthogonal (ncols V + nrows B) (pair_refl (ncols V) (ent V) (ent T)) ->
  tpmqrt Or V T A B tr = Ok (A1, B1) -> tpmqrt Or V T A1 B1 (negb tr) = Ok (A2, B2) ->
  feq (nrows A) (ncols A) (ent A2) (ent A) /\ feq (nrows B) (ncols B) (ent B2) (ent B).
Proof.
  intros HO V T A B tr A1 B1 A2 B2 F HQ H1 H2.
  destruct F as [WV [WA [WB [F1 [F3 [F4 F5]]]]]].
  apply (tpmqrt_ok Or) in H1; auto. cbv zeta in H1.
  destruct H1 as [_ [_ [_ [_ [L1 [W1 [W2 [Y1 [Y2 [V1 [K1 _]]]]]]]]]]].
  destruct (same_layout_dims _ _ WA Y1) as [D1 D2]. destruct (same_layout_dims _ _ WB Y2) as [D3 D4].
  apply (tpmqrt_ok Or) in H2; auto; try congruence. cbv zeta in H2.
  destruct H2 as [_ [_ [_ [_ [_ [_ [_ [_ [_ [V2 [K2 _]]]]]]]]]]].
  rewrite D3, D4 in V2. rewrite D1, D2 in K2.
  set (n := ncols V) in *. set (m := nrows B) in *.
  assert (E : feq (n + m) (ncols B) (vst n (ent A2) (ent B2)) (vst n (ent A) (ent B))).
  { eapply feq_trans; [exact V2|]. eapply feq_trans; [apply feq_mmul; [apply feq_refl|exact V1]|].
    pose proof (orthogonal_cancel (n + m) (ncols B) _ (vst n (ent A) (ent B)) (negb tr) HQ) as X.
    rewrite negb_involutive in X. exact X. }
  apply feq_vst_inv in E. destruct E as [E1 E2]. split; [|exact E2].
  intros i j Hi Hj. destruct (Nat.lt_ge_cases i n) as [Li|Li].
  - apply E1; auto. rewrite <- F5. exact Hj.
  - rewrite K2, K1; auto.
Qed.

(** larfb multiplies by the reflector of a tile. *)
Lemma larfb_exact (V T C : matrix) tr (C' : matrix) : wf C -> larfb V T C tr = Ok C' ->
  wf C' /\ same_layout C C' /\
  feq (nrows C) (ncols C) (ent C') (mmul (nrows C) (mop tr (tile_refl (ncols T) (ent V) (ent T))) (ent C)).
Proof.
  intros W H. destruct (larfb_ok V T C tr C' H W) as [v [t [-> [-> [_ [H1 [H2 [H3 _]]]]]]]]. auto.
Qed.
Lemma larfb_round_trip (V T C : matrix) tr (C1 C2 : matrix) : wf C ->
  orthogonal (nrows C) (tile_refl (ncols T) (ent V) (ent T)) ->
  larfb V T C tr = Ok C1 -> larfb V T C1 (negb tr) = Ok C2 -> feq (nrows C) (ncols C) (ent C2) (ent C).
Proof.
  intros W HQ H1 H2. destruct (larfb_exact _ _ _ _ _ W H1) as [W1 [L1 E1]].
  destruct (larfb_exact _ _ _ _ _ W1 H2) as [_ [_ E2]].
  destruct (same_layout_dims _ _ W L1) as [D1 D2]. rewrite D1, D2 in E2.
  eapply feq_trans; [exact E2|]. eapply feq_trans; [apply feq_mmul; [apply feq_refl|exact E1]|].
  pose proof (orthogonal_cancel (nrows C) (ncols C) _ (ent C) (negb tr) HQ) as X.
  rewrite negb_involutive in X. exact X.
Qed.

(** ** The implicit Q *)

(** Reflectors that fit: Y(i,k) of h i rows and w k columns, T(i,k) square of order w k. *)
Definition reflectors (p q : nat) (h w : nat -> nat) (Y T : grid) : Prop :=
  tiles False p q h w Y /\ factors p q w T /\ (forall k, k < q -> k < p -> w k <= h k).

(** Block column j gets the reflectors of columns 0..j only. *)
Lemma apply_columns (Or : oracles R) : oracles_near exact Or -> forall p q h w cw (Y T C C' : grid) tr,
  reflectors p q h w Y T -> tiles False p q h cw C -> tiled_apply Or p q Y T C tr = Ok C' ->
  tiles False p q h cw C' /\
  forall j, j < q ->
    feq (offs h p) (cw j) (column p h C' j) (mmul (offs h p) (mop tr (Qfac p h w Y T (S j))) (column p h C j)).
Proof.
  intros HO p q h w cw Y T C C' tr [HY [HT LK]] HC H. destruct tr.
  - apply (apply_true Or HO p q h w cw Y T) in H; auto. destruct H as [_ H]. exact H.
  - apply (apply_false Or HO p q h w cw Y T) in H; auto. destruct H as [_ H]. exact H.
Qed.

Lemma apply_block_upper (Or : oracles R) : oracles_near exact Or -> forall p q h w cw (Y T C C' : grid),
  0 < q -> reflectors p q h w Y T -> tiles False p q h cw C -> block_upper p q C ->
  tiled_apply Or p q Y T C false = Ok C' ->
  feq (offs h p) (offs cw q) (ent (MH p q C')) (mmul (offs h p) (Qfac p h w Y T q) (ent (MH p q C))).
Proof.
  intros HO p q h w cw Y T C C' Hq [HY [HT LK]] HC HB H.
  apply (apply_false Or HO p q h w cw Y T) in H; auto. destruct H as [Lqp [HC' H]].
  apply (by_columns p q h cw); try lia; [exact (tiles_shaped _ _ _ _ _ _ HC')|exact (tiles_shaped _ _ _ _ _ _ HC)|].
  intros j Hj. eapply feq_trans; [apply H; auto|]. apply feq_sym. apply Qfac_more; auto.
  - intros k Hk. apply LK; lia.
  - intros i Hi Hi'. destruct (HC i j Hi' Hj) as [_ [E1 [E2 _]]]. rewrite <- E1, <- E2. apply HB; auto; lia.
Qed.

(** With square diagonal tiles the factor is upper triangular entry by entry. *)
Lemma Rgrid_upper p q h w (A : grid) : 0 < p -> 0 < q -> (forall k, k < q -> k < p -> h k = w k \/ (k = q - 1 /\ w k <= h k)) ->
  q <= p -> forall r s, r < offs h p -> s < offs w q -> s < r -> ent (MH p q (Rgrid h w A)) r s = 0%r.
Proof.
  intros Hp Hq HE Lqp r s Hr Hs Hlt.
  destruct (locate_in h p r Hr) as [i [r' [_ [Hi [Hr' Er]]]]].
  destruct (locate_in w q s Hs) as [j [s' [_ [Hj [Hs' Es]]]]]. rewrite Er, Es.
  etransitivity; [exact (ent_block p q (Rgrid h w A) i j r' s' Hi Hj Hr' Hs')|].
  unfold Rgrid. cbn [ent d_e]. unfold Rtile.
  assert (EO : forall k, k <= q - 1 -> offs h k = offs w k).
  { intros k Hk. apply offs_ext. intros x Hx. destruct (HE x) as [E|[E _]]; lia. }
  destruct (Nat.ltb_spec i j) as [L|L].
  - exfalso. pose proof (offs_lt w i j L) as X. assert (E1 := EO i ltac:(lia)).
    destruct (HE i) as [E|[E _]]; lia.
  - destruct (Nat.eqb_spec i j) as [E|E]; [|reflexivity]. subst j. assert (E1 := EO i ltac:(lia)).
    unfold tri. destruct (Nat.eqb_spec r' s'); [lia|]. destruct (Nat.ltb_spec r' s'); [lia|]. reflexivity.
Qed.

(** A tile with fewer rows than columns is not factored at all. *)
Lemma geqrt_wide (K : qrt R) (a t : dense) : d_r t = d_c a -> d_c t = d_c a -> d_r a < d_c a ->
  geqrt K (MD a) (MD t) = Ok (MD a, MD t).
Proof.
  intros E1 E2 L. unfold geqrt. rewrite (proj2 (Nat.eqb_eq _ _) E1), (proj2 (Nat.eqb_eq _ _) E2).
  destruct (Nat.ltb_spec (d_r a) (d_c a)); [reflexivity|lia].
Qed.
End Thm.
