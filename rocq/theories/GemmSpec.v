(** Specification side of gemm: closeness relations, layouts, oracle contracts. *)
From Coq Require Import List Arith ZArith QArith Lia Bool Ring_theory Ring.
From Verif Require Import Prelude Ring MatFun MatSetoid Matrix MatOps MatSpec Gemm.
Import ListNotations.
Local Open Scope nat_scope.

Section Spec.
Context {R : cring}.
Add Ring Rr : (cr_th R).
Notation dense := (dense R).
Notation lowrank := (lowrank R).
Notation matrix := (matrix R).
Notation mat := (mat R).

(** A notion of "equal up to allowed errors" for r x c matrices. *)
Record nearness := Near {
  near : nat -> nat -> mat -> mat -> Prop;
  near_feq : forall r c f g, feq r c f g -> near r c f g;
  near_trans : forall r c f g h, near r c f g -> near r c g h -> near r c f h;
  near_add : forall r c f g h, near r c f g -> near r c (madd f h) (madd g h);
  near_blocks : forall (h w : nat -> nat) m n f g,
    (forall bi bj, bi < m -> bj < n ->
       near (h bi) (w bj) (mwin (offs h bi) (offs w bj) f) (mwin (offs h bi) (offs w bj) g)) ->
    near (offs h m) (offs w n) f g
}.

(** Exact equality is one. *)
Program Definition exact : nearness := Near feq _ _ _ _.
Next Obligation. eapply feq_trans; eauto. Qed.
Next Obligation. apply feq_add; auto. apply feq_refl. Qed.
Next Obligation.
  intros i j Hi Hj.
  destruct (locate_in _ _ _ Hi) as [bi [i' [_ [B1 [B2 B3]]]]].
  destruct (locate_in _ _ _ Hj) as [bj [j' [_ [C1 [C2 C3]]]]].
  subst i j. apply (H bi bj); auto.
Qed.

(** The errors [E] of individual low-rank operations, placed into blocks and added up. *)
Inductive err_sum (E : nat -> nat -> mat -> Prop) : nat -> nat -> mat -> Prop :=
| err_zero r c f : feq r c f mzero -> err_sum E r c f
| err_one r c f e : E r c e -> feq r c f e -> err_sum E r c f
| err_add r c f e1 e2 : err_sum E r c e1 -> err_sum E r c e2 -> feq r c f (madd e1 e2) -> err_sum E r c f
| err_blocks (h w : nat -> nat) m n f :
    (forall bi bj, bi < m -> bj < n -> err_sum E (h bi) (w bj) (mwin (offs h bi) (offs w bj) f)) ->
    err_sum E (offs h m) (offs w n) f.

(** Equality up to such a sum of errors. *)
Program Definition upto (E : nat -> nat -> mat -> Prop) : nearness :=
  Near (fun r c f g => err_sum E r c (msub f g)) _ _ _ _.
Next Obligation.
  apply err_zero. intros i j Hi Hj. unfold msub, mzero. rewrite H by auto. ring.
Qed.
Next Obligation.
  eapply err_add; [exact H|exact H0|]. intros i j Hi Hj. unfold msub, madd. ring.
Qed.
Next Obligation.
  eapply err_add; [exact H|apply err_zero; apply feq_refl|]. intros i j Hi Hj. unfold msub, madd, mzero. ring.
Qed.
Next Obligation.
  apply err_blocks. exact H.
Qed.

(** Same block structure and same dimensions of all leaves. *)
Fixpoint same_layout (A B : matrix) : Prop :=
  match A, B with
  | MD a, MD b => d_r b = d_r a /\ d_c b = d_c a
  | ML a, ML b => l_r b = l_r a /\ l_c b = l_c a
  | MH m n a, MH m' n' b => m' = m /\ n' = n /\ forall i j, i < m -> j < n -> same_layout (a i j) (b i j)
  | ME r c, ME r' c' => r' = r /\ c' = c
  | _, _ => False
  end.

(** No LowRank leaf. *)
Fixpoint no_lr (A : matrix) : Prop :=
  match A with
  | MH m n b => forall i j, i < m -> j < n -> no_lr (b i j)
  | ML _ => False
  | _ => True
  end.

Definition is_lr (C : matrix) : Prop := match C with ML _ => True | _ => False end.

(** The operand combinations for which the transposition flags are honoured: a
    LowRank factor against a Hierarchical one with transposition is not, unless the
    result is a LowRank as well. *)
Fixpoint trans_ok (tA tB : bool) (A B C : matrix) {struct A} : Prop :=
  match A with
  | MH m n a =>
      match B with
      | ML _ => is_lr C \/ (tA = false /\ tB = false)
      | MH m' n' b =>
          forall i j k, i < dim0 tA m n -> k < dim1 tA m n -> k < dim0 tB m' n' -> j < dim1 tB m' n' ->
            match C with
            | MH p q c => i < p -> j < q -> trans_ok tA tB (if tA then a k i else a i k) (opb tB b k j) (c i j)
            | _ => trans_ok tA tB (if tA then a k i else a i k) (opb tB b k j) (MD (d_zeros 0 0))
            end
      | _ => True
      end
  | ML _ => match B with MH _ _ _ => is_lr C \/ tA = false | _ => True end
  | _ => True
  end.

(** Without transposition, or without LowRank factors, it always holds. *)
Lemma trans_ok_notrans (A : matrix) : forall B C, trans_ok false false A B C.
Proof.
  induction A as [d|l|m n b IH|r c]; intros [d'|l'|m' n' b'|r' c'] C; simpl; auto.
  intros; destruct C; auto.
Qed.

Lemma trans_ok_no_lr tA tB (A : matrix) : wf A -> no_lr A -> forall B C, no_lr B -> trans_ok tA tB A B C.
Proof.
  induction A as [d|l|m n b IH|r c]; intros WA HA [d'|l'|m' n' b'|r' c'] C HB; simpl; auto.
  - destruct HA.
  - destruct HB.
  - intros i j k Hi Hk Hk' Hj.
    assert (HB' : no_lr (opb tB b' k j)).
    { simpl in HB. unfold opb. unfold dim0, dim1 in *. destruct tB; apply HB; auto. }
    destruct WA as [_ [_ WA]]. unfold dim0, dim1 in *.
    destruct tA, C; intros; apply IH; auto; apply WA; auto.
Qed.

(** A Dense result is the most demanding case. *)
Lemma trans_ok_D tA tB (A : matrix) : forall B d C, trans_ok tA tB A B (MD d) -> trans_ok tA tB A B C.
Proof.
  induction A as [d|l|m n b IH|r c]; intros [d'|l'|m' n' b'|r' c'] d0 C H; simpl in *; auto.
  - destruct H as [[]|H]; auto.
  - destruct H as [[]|H]; auto.
  - intros i j k Hi Hk Hk' Hj. specialize (H i j k Hi Hk Hk' Hj).
    destruct tA, C; intros; eapply IH; exact H.
Qed.

(** Contract of the approximating routines relative to a closeness relation:
    whatever they return has matching shapes and is close to the exact result. *)
Record oracles_near (N : nearness) (O : oracles R) : Prop := {
  on_add : forall a b c, lr_wf a -> lr_wf b -> l_r a = l_r b -> l_c a = l_c b -> lr_add O a b = Ok c ->
     lr_wf c /\ l_r c = l_r a /\ l_c c = l_c a /\
     near N (l_r a) (l_c a) (lr_ent c) (madd (lr_ent a) (lr_ent b));
  on_rank : forall d r c, crank O d r = Ok c ->
     lr_wf c /\ l_r c = d_r d /\ l_c c = d_c d /\ near N (d_r d) (d_c d) (lr_ent c) (d_e d);
  on_eps : forall d e c, ceps O d e = Ok c ->
     lr_wf c /\ l_r c = d_r d /\ l_c c = d_c d /\ near N (d_r d) (d_c d) (lr_ent c) (d_e d)
}.

(** Shapes only. *)
Record oracles_shape (O : oracles R) : Prop := {
  os_add : forall a b c, lr_wf a -> lr_wf b -> l_r a = l_r b -> l_c a = l_c b -> lr_add O a b = Ok c ->
     lr_wf c /\ l_r c = l_r a /\ l_c c = l_c a;
  os_rank : forall d r c, crank O d r = Ok c -> lr_wf c /\ l_r c = d_r d /\ l_c c = d_c d;
  os_eps : forall d e c, ceps O d e = Ok c -> lr_wf c /\ l_r c = d_r d /\ l_c c = d_c d
}.

(** The error of one actual call of an approximating routine. *)
Inductive call_error (O : oracles R) : nat -> nat -> mat -> Prop :=
| ce_add a b c : lr_wf a -> lr_wf b -> l_r a = l_r b -> l_c a = l_c b -> lr_add O a b = Ok c ->
    call_error O (l_r a) (l_c a) (msub (lr_ent c) (madd (lr_ent a) (lr_ent b)))
| ce_rank d r c : crank O d r = Ok c -> call_error O (d_r d) (d_c d) (msub (lr_ent c) (d_e d))
| ce_eps d e c : ceps O d e = Ok c -> call_error O (d_r d) (d_c d) (msub (lr_ent c) (d_e d)).

Lemma shape_near_upto (O : oracles R) : oracles_shape O -> oracles_near (upto (call_error O)) O.
Proof.
  intros H. split.
  - intros a b c Ha Hb E1 E2 E. destruct (os_add _ H a b c Ha Hb E1 E2 E) as [W [D1 D2]].
    repeat (split; auto). simpl. eapply err_one; [exact (ce_add O a b c Ha Hb E1 E2 E)|apply feq_refl].
  - intros d r c E. destruct (os_rank _ H d r c E) as [W [D1 D2]].
    repeat (split; auto). simpl. eapply err_one; [eapply ce_rank; eauto|apply feq_refl].
  - intros d r c E. destruct (os_eps _ H d r c E) as [W [D1 D2]].
    repeat (split; auto). simpl. eapply err_one; [eapply ce_eps; eauto|apply feq_refl].
Qed.

(** beta*C + alpha*op(A)*op(B), with inner dimension k. *)
Definition gemm_value (k : nat) (A B C : mat) (alpha beta : R) (tA tB : bool) : mat :=
  madd (mscale beta C) (mscale alpha (mmul k (mop tA A) (mop tB B))).

End Spec.
Arguments nearness R : clear implicits.
