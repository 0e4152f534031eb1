(** Tiled and blocked Householder QR from start to end: with tile kernels that meet their
    contracts and always return, the factorization returns, the result is A = Q R, and
    multiplying by Q and its transpose returns what it should.  The kernels of TileKernels.v
    are such kernels. *)
From Coq Require Import List Arith ZArith QArith Lia Bool Ring_theory Ring Setoid Morphisms.
From Verif Require Import Prelude Ring MatFun MatSetoid Matrix MatOps MatSpec MatOpsProofs Lapack Gemm GemmSpec GemmProofs
  GemmCorrect GemmTheorems Triangular TriAlgebra TriSpec TriProofs TriTheorems Reflect ReflectSpec ReflectProofs ReflectTile
  ReflectSuccess QrBig QrTiled QrStep QrApply QrTheorems QrSuccess Mgs MgsProofs Blocked BlockedProofs BlockedQr BlockedMore
  BlockedSuccess DenseQr Householder HouseQr TileKernels.
Import ListNotations.
Local Open Scope nat_scope.

Section Complete.
Context {R : cring}.
Notation matrix := (matrix R).
Notation mat := (mat R).
Notation grid := (grid R).

Lemma wy_qrt_total (h : larfg (R := R)) : qrt_total (wy_qrt h).
Proof.
  split.
  - intros a. simpl. unfold dgeqrt3. eauto.
  - intros a b. simpl. unfold dtpqrt2. destruct (tp_loop _ _ _ _ _) as [[A B] tau]. eauto.
Qed.

(** What is needed of the low-rank arithmetic. *)
Definition good_oracles (Or : oracles R) : Prop :=
  oracles_shape Or /\ oracles_total Or /\ oracles_near exact Or /\ keeps_orthU Or.

Lemma left_oracles_shape : oracles_shape (@left_oracles R).
Proof.
  split.
  - intros a b c Wa Wb E1 E2 E. inversion E; subst c. split; [apply lr_left_of_wf|]. split; reflexivity.
  - intros d r c E. inversion E; subst c. split; [apply lr_left_of_wf|]. split; reflexivity.
  - intros d r c E. inversion E; subst c. split; [apply lr_left_of_wf|]. split; reflexivity.
Qed.
Lemma left_oracles_good : good_oracles left_oracles.
Proof.
  split; [apply left_oracles_shape|]. split; [apply left_oracles_total|]. split; [apply left_oracles_near|apply left_oracles_orthU].
Qed.

(** A matrix of p x q tiles of sizes h i by w j, Dense or LowRank with orthonormal left
    bases, Dense on the diagonal. *)
Definition qr_tiles (p q : nat) (h w : nat -> nat) (A : grid) : Prop := forall i j, i < p -> j < q ->
  wf (A i j) /\ flat (A i j) /\ nrows (A i j) = h i /\ ncols (A i j) = w j /\ orthU (A i j) /\
  (i = j -> exists d, A i j = MD d).
Definition any_tiles (p q : nat) (h cw : nat -> nat) (C : grid) : Prop := forall i j, i < p -> j < q ->
  wf (C i j) /\ flat (C i j) /\ nrows (C i j) = h i /\ ncols (C i j) = cw j.

Section Run.
Variable Or : oracles R.
Hypothesis HG : good_oracles Or.
Variable K : qrt R.
Hypothesis HK : qrt_ok K.
Hypothesis HKT : qrt_total K.
Variables p q : nat.
Variables h w : nat -> nat.

Theorem tiled_complete (A T : grid) : 0 < q -> q <= p ->
  (forall k, k < q -> w k <= h k /\ (S k < q -> h k = w k)) -> qr_tiles p q h w A -> dense_factors p q w T ->
  exists A' T' (Q : mat), tiled_qr Or K p q A p q T = Ok (A', T') /\
    orthogonal (offs h p) Q /\
    feq (offs h p) (offs w q) (ent (MH p q A)) (mmul (offs h p) Q (ent (MH p q (Rgrid h w A')))) /\
    (forall r s, r < offs h p -> s < offs w q -> s < r -> ent (MH p q (Rgrid h w A')) r s = 0%r) /\
    ((forall k, k < q -> h k = w k) ->
     (forall cw C, any_tiles p q h cw C -> block_upper p q C -> exists C', tiled_apply Or p q A' T' C false = Ok C' /\
        feq (offs h p) (offs cw q) (ent (MH p q C')) (mmul (offs h p) Q (ent (MH p q C)))) /\
     (exists C', tiled_apply Or p q A' T' A true = Ok C' /\
        feq (offs h p) (offs w q) (ent (MH p q C')) (ent (MH p q (Rgrid h w A'))))).
Proof.
  destruct HG as [HS [HT [HO HU]]]. intros Hq Hqp SD HA DT.
  assert (TA : tiles True p q h w A).
  { intros i j Hi Hj. destruct (HA i j Hi Hj) as [H1 [H2 [H3 [H4 [H5 _]]]]]. auto. }
  assert (FA : forall i j, i < p -> j < q -> flat (A i j)) by (intros i j Hi Hj; apply (HA i j Hi Hj)).
  assert (DA : dense_diag p q A).
  { intros k Hk Hkp. destruct (HA k k Hkp Hk) as [_ [_ [_ [_ [_ H]]]]]. auto. }
  destruct (tiled_qr_succ Or HS HT HO K HK HKT p q h w HU A T Hqp SD TA FA DA DT) as [A' [T' [E [F' [D' DT']]]]].
  assert (QI : qr_input p q h w A T).
  { split; auto. split; [intros k Hk _; apply SD; auto|]. split; auto. apply (dense_factors_factors p q w); auto. }
  destruct (tiled_qr_correct p q h w Or HO HU K HK A T p q A' T' QI E) as [Q [Q1 [Q2 [Q3 Q4]]]].
  exists A', T', Q. split; auto. split; auto. split; auto. split.
  - apply Rgrid_upper; auto; try lia. intros k Hk _. destruct (SD k Hk) as [L EQ].
    destruct (Nat.eq_dec (S k) q); [right; split; [lia|auto]|left; apply EQ; lia].
  - intros SQ. split.
    + intros cw C HC BU. destruct (tiled_apply_succ Or HS HT HO p q h w cw A' T' C false) as [C' [EC _]]; auto.
      exists C'. split; auto. apply (Q3 cw C C'); auto. intros i j Hi Hj. destruct (HC i j Hi Hj) as [H1 [H2 [H3 H4]]]. repeat (split; auto). tauto.
    + destruct (tiled_apply_succ Or HS HT HO p q h w w A' T' A true) as [C' [EC _]]; auto.
      { intros i j Hi Hj. destruct (HA i j Hi Hj) as [H1 [H2 [H3 [H4 _]]]]. auto. }
      exists C'. split; auto.
Qed.

Theorem blocked_complete (A T : grid) : 0 < q -> q <= p -> (forall k, k < q -> h k = w k) -> qr_tiles p q h w A ->
  exists A' T' (Q : mat), blocked_qr Or K p q A q 1 T = Ok (A', T') /\
    orthogonal (offs h p) Q /\
    feq (offs h p) (offs w q) (ent (MH p q A)) (mmul (offs h p) Q (ent (MH p q (Rgrid h w A')))) /\
    (forall r s, r < offs h p -> s < offs w q -> s < r -> ent (MH p q (Rgrid h w A')) r s = 0%r) /\
    (forall cw C, any_tiles p q h cw C -> block_upper p q C -> exists C', blocked_apply Or p q A' T' p C false = Ok C' /\
       feq (offs h p) (offs cw q) (ent (MH p q C')) (mmul (offs h p) Q (ent (MH p q C)))) /\
    (exists C', blocked_apply Or p q A' T' p A true = Ok C' /\
       feq (offs h p) (offs w q) (ent (MH p q C')) (ent (MH p q (Rgrid h w A')))).
Proof.
  destruct HG as [HS [HT [HO HU]]]. intros Hq Hqp SQ HA.
  assert (SQ' : forall k, k < q -> k < p -> h k = w k) by auto.
  assert (TA : btiles p q h True w A).
  { intros i j Hi Hj. destruct (HA i j Hi Hj) as [H1 [H2 [H3 [H4 [H5 _]]]]]. repeat (split; auto). }
  assert (DA : ddiag p q A).
  { intros k Hk Hkp. destruct (HA k k Hkp Hk) as [_ [_ [_ [_ [_ H]]]]]. auto. }
  destruct (blocked_qr_succ Or HS HT HO p h K HK HKT q w HU A T Hqp SQ' TA DA) as [A' [T' E]].
  pose proof (blocked_qr_ok Or HO p q h w HU K HK SQ' A T q 1 A' T' TA DA E) as [_ _ _ BV _ _ _]. cbn [fst snd] in BV.
  destruct (blocked_qr_correct Or HO p q h w HU K HK SQ' A T q 1 A' T') as [Q [Q1 [Q2 [Q3 [Q4 _]]]]]; auto; [split; auto|].
  exists A', T', Q. split; auto. split; auto. split; auto. split; [|split].
  - apply (blocked_upper p q h w A'); auto. lia.
  - intros cw C HC BU.
    assert (BC : btiles p q h False cw C).
    { intros i j Hi Hj. destruct (HC i j Hi Hj) as [H1 [H2 [H3 H4]]]. repeat (split; auto). tauto. }
    destruct (blocked_apply_succ Or HS HT HO p h q w HU cw A' T' C false BV BC) as [C' EC]. exists C'. split; auto. apply (Q3 cw p C C'); auto.
  - destruct (blocked_apply_succ Or HS HT HO p h q w HU w A' T' A true BV) as [C' EC].
    { eapply btiles_weaken; [|exact TA]. tauto. }
    exists C'. split; auto. apply (Q4 p C'); auto.
Qed.
End Run.

(** ** Dense tiles, any low-rank arithmetic *)

Definition dense_tiles (p q : nat) (h w : nat -> nat) (A : grid) : Prop := forall i j, i < p -> j < q ->
  exists d, A i j = MD d /\ d_r d = h i /\ d_c d = w j.
Lemma dense_qr_tiles p q h w A : dense_tiles p q h w A -> qr_tiles p q h w A.
Proof.
  intros H i j Hi Hj. destruct (H i j Hi Hj) as [d [-> [E1 E2]]]. simpl. repeat (split; auto). eauto.
Qed.
Lemma dense_any_tiles p q h w A : dense_tiles p q h w A -> any_tiles p q h w A.
Proof. intros H i j Hi Hj. destruct (H i j Hi Hj) as [d [-> [E1 E2]]]. simpl. repeat (split; auto). Qed.
Lemma dense_all p q h w A : dense_tiles p q h w A -> all_dense p q A.
Proof. intros H i j Hi Hj. destruct (H i j Hi Hj) as [d [-> _]]. exists d. reflexivity. Qed.

Section RunDense.
Variable Or : oracles R.
Variable K : qrt R.
Hypothesis HK : qrt_ok K.
Hypothesis HKT : qrt_total K.
Variables p q : nat.
Variables h w : nat -> nat.

Theorem tiled_complete_dense (A T : grid) : 0 < q -> q <= p ->
  (forall k, k < q -> w k <= h k /\ (S k < q -> h k = w k)) -> dense_tiles p q h w A -> dense_factors p q w T ->
  exists A' T' (Q : mat), tiled_qr Or K p q A p q T = Ok (A', T') /\
    orthogonal (offs h p) Q /\
    feq (offs h p) (offs w q) (ent (MH p q A)) (mmul (offs h p) Q (ent (MH p q (Rgrid h w A')))) /\
    (forall r s, r < offs h p -> s < offs w q -> s < r -> ent (MH p q (Rgrid h w A')) r s = 0%r) /\
    ((forall k, k < q -> h k = w k) ->
     (forall cw C, dense_tiles p q h cw C -> block_upper p q C -> exists C', tiled_apply Or p q A' T' C false = Ok C' /\
        feq (offs h p) (offs cw q) (ent (MH p q C')) (mmul (offs h p) Q (ent (MH p q C)))) /\
     (exists C', tiled_apply Or p q A' T' A true = Ok C' /\
        feq (offs h p) (offs w q) (ent (MH p q C')) (ent (MH p q (Rgrid h w A'))))).
Proof.
  intros Hq Hqp SD HA DT.
  assert (AT : low_dense p q T) by (intros i j Hi Hj Hij; destruct (DT i j Hi Hj Hij) as [t [-> _]]; exists t; reflexivity).
  pose proof (dense_all _ _ _ _ _ HA) as AA.
  destruct (tiled_complete left_oracles left_oracles_good K HK HKT p q h w A T Hq Hqp SD (dense_qr_tiles _ _ _ _ _ HA) DT)
    as [A' [T' [Q [E [Q1 [Q2 [Q3 Q4]]]]]]].
  destruct (tiled_qr_dense left_oracles Or K p q A T p q AA AT) as [EE EI]. destruct (EI _ E) as [DA' DT']. cbn [fst snd] in *.
  exists A', T', Q. split; [rewrite <- EE; exact E|]. split; auto. split; auto. split; auto. intros SQ. destruct (Q4 SQ) as [Q5 Q6]. split.
  - intros cw C HC BU. destruct (Q5 cw C (dense_any_tiles _ _ _ _ _ HC) BU) as [C' [EC Q7]]. exists C'. split; auto.
    rewrite <- EC. apply tiled_apply_dense; auto. eapply dense_all; exact HC.
  - destruct Q6 as [C' [EC Q7]]. exists C'. split; auto. rewrite <- EC. apply tiled_apply_dense; auto.
Qed.

Theorem blocked_complete_dense (A T : grid) : 0 < q -> q <= p -> (forall k, k < q -> h k = w k) -> dense_tiles p q h w A ->
  exists A' T' (Q : mat), blocked_qr Or K p q A q 1 T = Ok (A', T') /\
    orthogonal (offs h p) Q /\
    feq (offs h p) (offs w q) (ent (MH p q A)) (mmul (offs h p) Q (ent (MH p q (Rgrid h w A')))) /\
    (forall r s, r < offs h p -> s < offs w q -> s < r -> ent (MH p q (Rgrid h w A')) r s = 0%r) /\
    (forall cw C, dense_tiles p q h cw C -> block_upper p q C -> exists C', blocked_apply Or p q A' T' p C false = Ok C' /\
       feq (offs h p) (offs cw q) (ent (MH p q C')) (mmul (offs h p) Q (ent (MH p q C)))) /\
    (exists C', blocked_apply Or p q A' T' p A true = Ok C' /\
       feq (offs h p) (offs w q) (ent (MH p q C')) (ent (MH p q (Rgrid h w A')))).
Proof.
  intros Hq Hqp SQ HA. pose proof (dense_all _ _ _ _ _ HA) as AA.
  destruct (blocked_complete left_oracles left_oracles_good K HK HKT p q h w A T Hq Hqp SQ (dense_qr_tiles _ _ _ _ _ HA))
    as [A' [T' [Q [E [Q1 [Q2 [Q3 [Q5 Q6]]]]]]]].
  destruct (blocked_qr_dense left_oracles Or K p q A q 1 T AA) as [EE EI]. pose proof (EI _ E) as DA'. cbn [fst] in *.
  assert (DT' : forall k, k < q -> is_dense (T' k 0)).
  { destruct left_oracles_good as [_ [_ [HO HU]]]. pose proof (dense_qr_tiles _ _ _ _ _ HA) as HQ.
    assert (SQ' : forall k, k < q -> k < p -> h k = w k) by auto.
    assert (BV : bq_inv p q h w A q (A', T')).
    { apply (blocked_qr_ok left_oracles HO p q h w HU K HK SQ' A T q 1 A' T'); auto.
      - intros i j Hi Hj. destruct (HQ i j Hi Hj) as [H1 [H2 [H3 [H4 [H5 _]]]]]. repeat (split; auto).
      - intros k Hk Hkp. destruct (HQ k k Hkp Hk) as [_ [_ [_ [_ [_ H]]]]]. auto. }
    destruct BV as [_ _ _ BV _ _ _]. intros k Hk. destruct (BV k Hk) as [_ [_ [_ [X _]]]]. exact X. }
  exists A', T', Q. split; [rewrite <- EE; exact E|]. split; auto. split; auto. split; auto. split.
  - intros cw C HC BU. destruct (Q5 cw C (dense_any_tiles _ _ _ _ _ HC) BU) as [C' [EC Q7]]. exists C'. split; auto.
    rewrite <- EC. apply blocked_apply_dense; auto. eapply dense_all; exact HC.
  - destruct Q6 as [C' [EC Q7]]. exists C'. split; auto. rewrite <- EC. apply blocked_apply_dense; auto.
Qed.
End RunDense.
End Complete.
