(** Block LU of a matrix whose columns are diagonally dominant: no rows are exchanged. *)
From Coq Require Import List Arith ZArith Lia Bool Reals Lra Ring_theory Ring.
From Verif Require Import Prelude Ring MatFun MatSetoid Matrix MatOps MatSpec MatOpsProofs Gemm GemmSpec
  GemmProofs GemmCorrect Triangular TriAlgebra TriSpec TriProofs LuProofs LuCorrect TriTheorems BlockSchur
  SvdRank HouseReal Rrqr Spectral Dominant PartialPivot.
Import ListNotations.
Local Open Scope nat_scope.

Section Dom.
Notation matrix := (matrix Rring).
Variable N : nearness Rring.
Variable Or : oracles Rring.
Hypothesis HO : oracles_near N Or.
Variable gfuel : nat.
Definition inv_of (x : Rring) : Rring := (/ x)%R.
Notation getrf := (getrf inv_of Or gfuel).

(** The low-rank arithmetic is exact, or there is none. *)
Definition tight (A : matrix) : Prop := (forall r c f g, near N r c f g -> feq r c f g) \/ no_lr A.

Lemma tight_rel (A : matrix) f g : tight A -> rel N A f g -> feq (nrows A) (ncols A) f g.
Proof. intros [H|H] [R1 R2]; auto. Qed.
Lemma tight_block m n a i j : tight (MH m n a) -> i < m -> j < n -> tight (a i j).
Proof. intros [H|H] Hi Hj; [left; auto|right; apply H; auto]. Qed.
Lemma tight_layout (A B : matrix) : same_layout A B -> tight A -> tight B.
Proof. intros L [H|H]; [left; auto|right; apply (same_layout_no_lr A B L); auto]. Qed.

Lemma offs_le (h : nat -> nat) p m : p < m -> offs h p + h p <= offs h m.
Proof. induction m as [|m IH]; intros H; [lia|]. cbn [offs]. destruct (Nat.eq_dec p m) as [->|]; [lia|]. specialize (IH ltac:(lia)). lia. Qed.

Lemma dominant_run fuel : forall A L U, wf A -> lu_shape A -> tight A -> cdom (nrows A) (ent A) ->
  getrf dgetf2 fuel A = Ok (L, U) -> getrf (no_exchange dgetf2) fuel A = Ok (L, U) /\ udiag inv_of U.
Proof.
  induction fuel as [|fuel IH]; intros A L U W HS HT HD H; [discriminate|].
  destruct A as [d|l|m n a|r c]; try discriminate; cbn [Triangular.getrf] in *.
  - simpl in HS. destruct (dgetf2_dominant d HS HD) as [X [p [E1 [E2 NZ]]]].
    apply bind_Ok in H. destruct H as [[l u] [H1 H]]. inversion H; subst L U; clear H.
    assert (H2 : d_getrf (no_exchange dgetf2) d = Ok (l, u)).
    { unfold d_getrf in *. rewrite E1 in H1. rewrite E2. exact H1. }
    rewrite H2. split; [reflexivity|].
    destruct (d_getrf_ok dgetf2 d l u H1) as [X' [p' [E3 [F1 [F2 [F3 [F4 [F5 F6]]]]]]]].
    rewrite E1 in E3. inversion E3; subst X' p'.
    intros i Hi. cbn [nrows ent] in *. rewrite F3 in Hi. rewrite (F6 i i Hi) by lia. unfold tri. rewrite Nat.eqb_refl.
    change (d_e X i i * / d_e X i i = 1)%R. field. apply NZ. exact Hi.
  - destruct HS as [E HS']. subst n. assert (HS : lu_shape (MH m m a)) by (split; auto). clear HS'.
    apply assert_Ok in H. destruct H as [EA H]. rewrite EA.
    apply bind_Ok in H. destruct H as [[Lb Ub] [H1 H]]. inversion H; subst L U; clear H.
    destruct (lu_trace inv_of Or gfuel (getrf dgetf2 fuel) m a Lb Ub _ H1) as [st [E0 [Em [Hst T]]]].
    assert (HR : forall c l u, wf c -> lu_shape c -> udiag inv_of u -> getrf (no_exchange dgetf2) fuel c = Ok (l, u) -> lu_of N c l u).
    { intros c l u. apply (getrf_ok N Or HO inv_of gfuel dgetf2 dgetf2_contract). }
    assert (HP : forall k p, p < k -> p < m -> getrf (no_exchange dgetf2) fuel (snd (st p) p p) = Ok (Lb p p, Ub p p) /\ udiag inv_of (Ub p p)).
    { induction k as [|k IHk]; intros p Hpk Hp; [lia|].
      destruct (T p p Hp Hp) as [T1 [T2 _]]. rewrite Nat.min_id in *. specialize (T2 eq_refl).
      assert (HU : forall i, i < m -> i < p -> udiag inv_of (Ub i i)) by (intros i Hi Hip; apply IHk; lia).
      assert (HC : forall i j, i < m -> j < m -> Nat.min i j < p ->
        exists c, for_loop (Nat.min i j) (fun k c => acc_gemm Or gfuel rm1 (Lb i k) (Ub k j) c) (a i j) = Ok c /\
          (i = j -> getrf (no_exchange dgetf2) fuel c = Ok (Lb i i, Ub i i)) /\
          (j < i -> trsm inv_of Or gfuel (Ub j j) c Upper SRight = Ok (Lb i j) /\ Ub i j = ME (nrows c) (ncols c)) /\
          (i < j -> trsm inv_of Or gfuel (Lb i i) c Lower SLeft = Ok (Ub i j) /\ Lb i j = ME (nrows c) (ncols c))).
      { intros i j Hi Hj Hm. destruct (T i j Hi Hj) as [G1 [G2 [G3 G4]]]. eexists. split; [exact G1|]. split; [|split; assumption].
        intros <-. rewrite Nat.min_id in *. apply IHk; lia. }
      assert (HTt : forall i j, i < m -> j < m -> forall f g, rel N (a i j) f g -> feq (nrows (a i j)) (ncols (a i j)) f g).
      { intros i j Hi Hj f g. apply tight_rel. apply (tight_block _ _ _ i j HT); auto. }
      destruct (schur_wf N Or HO inv_of gfuel m a Lb Ub _ W HS HR p Hp HU HC _ T1) as [Wc [Lc [Sc [C1 C2]]]].
      destruct (schur_block N Or HO inv_of gfuel m a Lb Ub _ W HS HR p Hp HU HC HTt _ T1) as [X [X1 X2]].
      apply IH; auto.
      - apply (tight_layout _ _ Lc). apply (tight_block _ _ _ p p HT); auto.
      - rewrite C1. apply (schur_dom (offs (bheight a) p) (bheight a p) (ent (MH m m a)) X); auto.
        apply (cdom_part (nrows (MH m m a)) (ent (MH m m a)) 0 (offs (bheight a) p + bheight a p)); auto.
        rewrite nrows_MH. apply offs_le. exact Hp. }
    split.
    + assert (H2 : for_loop m (fun i s => lu_step inv_of Or gfuel (getrf (no_exchange dgetf2) fuel) m m i s) (st 0) = Ok (st m)).
      { apply for_loop_of_trace. intros i Hi. pose proof (Hst i Hi) as St. destruct (HP (S i) i (le_n _) Hi) as [R1 _].
        destruct (T i i Hi Hi) as [_ [T2 _]]. rewrite Nat.min_id in T2. specialize (T2 eq_refl).
        destruct (st i) as [L1 A1]. cbn [snd] in *.
        unfold lu_step in *. cbn [fst snd] in *. rewrite T2 in St. rewrite R1. exact St. }
      rewrite E0, Em in H2. rewrite H2. reflexivity.
    + intros i Hi. apply (HP (S i)); auto.
Qed.
End Dom.
