(** One block column of Gram-Schmidt with a Dense R(j,j). *)
From Coq Require Import List Arith ZArith QArith Lia Bool Ring_theory Ring Setoid Morphisms.
From Verif Require Import Prelude Ring MatFun MatSetoid Matrix MatOps MatSpec MatOpsProofs Lapack Gemm GemmSpec GemmProofs
  GemmTheorems Triangular TriAlgebra TriSpec TriProofs Reflect ReflectSpec ReflectProofs ReflectTile QrBig
  Sampled SampledProofs SampledTheorems Mgs MgsProofs.
Import ListNotations.
Local Open Scope nat_scope.

Section Algebra.
Context {R : cring}.
Add Ring Rr : (cr_th R).
Notation mat := (mat R).

Variables (p : nat) (h rb : nat -> nat).

(** Left factors applied to a stack. *)
Lemma left_mul (U : nat -> mat) (Qb Rb B : mat) c k : feq (offs rb p) c (mmul k Qb Rb) B ->
  feq (offs h p) c (mmul k (stack p h (fun i => mmul (rb i) (U i) (mwin (offs rb i) 0 Qb))) Rb)
    (stack p h (fun i => mmul (rb i) (U i) (mwin (offs rb i) 0 B))).
Proof.
  intros H. rewrite stack_mul. apply feq_stack. intros i Hi. rewrite meq_assoc. apply feq_mmul; [apply feq_refl|].
  intros a b Ha Hb. assert (L : offs rb i + a < offs rb p) by (pose proof (offs_lt rb i p Hi); lia).
  specialize (H (offs rb i + a) b L Hb). unfold mwin. simpl. rewrite <- H. unfold mmul. apply sum_ext. intros; reflexivity.
Qed.

Lemma left_orth (U : nat -> mat) (Qb : mat) c : (forall i, i < p -> orth_cols (h i) (rb i) (U i)) ->
  orth_cols (offs rb p) c Qb ->
  orth_cols (offs h p) c (stack p h (fun i => mmul (rb i) (U i) (mwin (offs rb i) 0 Qb))).
Proof.
  intros HU HQ a b Ha Hb. unfold mmul at 1. rewrite <- (HQ a b Ha Hb).
  transitivity (mmul (offs h p) (mtr (stack p h (fun i => mmul (rb i) (U i) (mwin (offs rb i) 0 Qb))))
    (stack p h (fun i => mmul (rb i) (U i) (mwin (offs rb i) 0 Qb))) a b); [reflexivity|].
  rewrite stack_dot. rewrite mmul_offs. apply sum_ext. intros i Hi.
  set (W := mwin (offs rb i) 0 Qb).
  transitivity (mmul (rb i) (mtr W) W a b); [|reflexivity].
  assert (E : meq (mmul (h i) (mtr (mmul (rb i) (U i) W)) (mmul (rb i) (U i) W))
                  (mmul (rb i) (mtr W) (mmul (rb i) (mmul (h i) (mtr (U i)) (U i)) W))).
  { rewrite meq_tr, !meq_assoc. reflexivity. }
  rewrite (E a b). apply mmul_ext; auto. intros x Hx.
  transitivity (mmul (rb i) mid W x b); [|apply mmul_id_l; auto].
  apply mmul_ext; auto. intros y Hy. apply HU; auto.
Qed.
End Algebra.

Section Ortho.
Context {R : cring}.
Add Ring Rr2 : (cr_th R).
Notation dense := (dense R).
Notation lowrank := (lowrank R).
Notation matrix := (matrix R).
Notation mat := (mat R).
Notation grid := (nat -> nat -> matrix).

Variable L : lapack R.
Hypothesis HL : lapack_sound L.
Variable Or : oracles R.
Hypothesis HO : oracles_near exact Or.
Variable gfuel : nat.
Variables p q : nat.
Variables h w : nat -> nat.
Hypothesis Hp : 0 < p.

Lemma make_left_orthogonal_ok (A : matrix) U B : wf A -> make_left_orthogonal A = Ok (U, B) ->
  d_r U = nrows A /\ d_c U = d_r B /\ d_c B = ncols A /\
  feq (nrows A) (ncols A) (mmul (d_r B) (d_e U) (d_e B)) (ent A) /\
  (orthU A -> orth_cols (nrows A) (d_r B) (d_e U)).
Proof.
  intros W H. destruct A as [d|l|m n b|a b]; simpl in H; try discriminate.
  - inversion H; subst U B. simpl. do 3 (split; auto). split.
    + intros i j Hi Hj. apply mmul_id_l; auto.
    + intros _ i j Hi Hj. rewrite mmul_id_r by auto. unfold mtr, mid. rewrite Nat.eqb_sym. reflexivity.
  - apply bind_Ok in H. destruct H as [sv [H1 H2]]. inversion H2; subst U B; clear H2.
    destruct (dd_mul_inv _ _ _ _ _ _ H1) as [D1 [D2 [D3 D4]]]. simpl in *. destruct W as [W1 [W2 [W3 W4]]].
    split; auto. split; [congruence|]. split; [congruence|]. split.
    + intros i j Hi Hj. unfold lr_ent. rewrite D2, <- W2. apply mmul_ext; auto. intros x Hx.
      rewrite D4. ring.
    + intros [_ O]. rewrite D2, <- W2. exact O.
Qed.

Lemma ortho_dense_ok j (A Q Q' : grid) (Rb : dense) : j < q -> mtiles p q h w A -> mtiles p q h w Q ->
  ortho_dense L Or gfuel p j A Q = Ok (Q', Rb) ->
  mtiles p q h w Q' /\ layouts p q Q Q' /\ (forall i k, k <> j -> Q' i k = Q i k) /\
  d_r Rb = w j /\ d_c Rb = w j /\
  feq (offs h p) (w j) (mmul (w j) (mcolumn p h Q' j) (d_e Rb)) (mcolumn p h A j) /\
  ((forall i, i < p -> orthU (A i j)) -> orth_cols (offs h p) (w j) (mcolumn p h Q' j)).
Proof.
  intros Hj HA HQ H. unfold ortho_dense in H. cbv zeta in H.
  apply bind_Ok in H. destruct H as [qb [H1 H]]. apply bind_Ok in H. destruct H as [DB [H2 H]].
  apply bind_Ok in H. destruct H as [[Qb Rb0] [H3 H]]. apply bind_Ok in H. destruct H as [HQb [H4 H]].
  apply bind_Ok in H. destruct H as [Q0 [H5 H]]. inversion H; subst Q0 Rb0; clear H.
  set (rb := fun k => d_r (snd (qb k))) in *.
  assert (F : forall i, i < p -> d_r (fst (qb i)) = h i /\ d_c (fst (qb i)) = rb i /\ d_c (snd (qb i)) = w j /\
     feq (h i) (w j) (mmul (rb i) (d_e (fst (qb i))) (d_e (snd (qb i)))) (ent (A i j)) /\
     (orthU (A i j) -> orth_cols (h i) (rb i) (d_e (fst (qb i))))).
  { intros i Hi. pose proof (collectv_spec _ _ _ _ H1 i Hi) as E. cbv beta in E. unfold rb.
    destruct (qb i) as [U B]. cbn [fst snd]. destruct (HA i j Hi Hj) as [W [D1 D2]].
    pose proof (make_left_orthogonal_ok _ _ _ W E) as M. rewrite D1, D2 in M. exact M. }
  (* the stacked right factors *)
  assert (WB : wf (MH p 1 (fun i _ => MD (snd (qb i))))).
  { simpl. split; auto. split; auto. intros a b Ha Hb. split; auto. split; auto.
    destruct (F a Ha) as [_ [_ [E1 _]]]. destruct (F 0 Hp) as [_ [_ [E2 _]]]. congruence. }
  destruct (densify_spec _ WB) as [C [E1 [E2 [E3 E4]]]]. rewrite H2 in E1. inversion E1; subst C; clear E1.
  assert (ND : d_r DB = offs rb p) by (rewrite E2; reflexivity).
  assert (NC : d_c DB = w j) by (rewrite E3; simpl; destruct (F 0 Hp) as [_ [_ [X _]]]; lia).
  destruct (thin_qr_ok L HL _ _ _ H3) as [T1 [T2 [T3 [T4 [T5 [T6 T7]]]]]]. rewrite ND, NC in *.
  (* slices of Qb *)
  assert (G : forall i, i < p -> d_r (HQb i) = rb i /\ d_c (HQb i) = w j /\ feq (rb i) (w j) (d_e (HQb i)) (mwin (offs rb i) 0 (d_e Qb))).
  { intros i Hi. pose proof (collectv_spec _ _ _ _ H4 i Hi) as E. cbv beta in E.
    destruct (F i Hi) as [_ [_ [X _]]].
    destruct (d_copy_to_spec Qb (d_zeros (d_r (snd (qb i))) (d_c (snd (qb i)))) (offs rb i) 0) as [C [C1 [C2 [C3 C4]]]].
    - simpl. rewrite T2. pose proof (offs_mono rb (S i) p ltac:(lia)) as M. simpl in M. unfold rb in M at 2. lia.
    - simpl. rewrite T3. lia.
    - rewrite E in C1. inversion C1; subst C. simpl in *. rewrite X in *. auto. }
  (* products *)
  apply (for_loop_inv_out _ _ _ _ (fun t X => mtiles p q h w X /\ layouts p q Q X /\ (forall i k, k <> j -> X i k = Q i k) /\
    (forall i, t <= i -> X i j = Q i j) /\
    (forall i, i < t -> feq (h i) (w j) (ent (X i j)) (mmul (rb i) (d_e (fst (qb i))) (mwin (offs rb i) 0 (d_e Qb)))))) in H5.
  2:{ split; auto. split; [apply layouts_refl|]. split; auto. split; auto. intros; lia. }
  2:{ intros t X X' Ht [X1 [X2 [X3 [X4 X5]]]] Hx.
      apply bind_Ok in Hx. destruct Hx as [y [Hy Hx]]. inversion Hx; subst X'; clear Hx.
      destruct (X1 t j Ht Hj) as [B1 [B2 B3]]. destruct (F t Ht) as [F1 [F2 [F3 _]]]. destruct (G t Ht) as [G1 [G2 G3]].
      assert (W1 : wf (MD (fst (qb t)))) by exact I. assert (W2 : wf (MD (HQb t))) by exact I.
      destruct (gemm_exact Or HO _ _ _ _ _ _ _ _ _ W1 W2 B1 (trans_ok_notrans _ _ _) Hy) as [W' [L' F']].
      destruct (same_layout_dims _ _ B1 L') as [D1 D2]. rewrite B2, B3 in F'.
      split; [|split; [|split; [|split]]].
      - intros i' l Hi' Hl. rewrite bupd_at. destruct (Nat.eqb_spec i' t) as [->|]; [destruct (Nat.eqb_spec l j) as [->|]|]; simpl; auto.
        split; auto. split; congruence.
      - intros i' l Hi' Hl. rewrite bupd_at. destruct (Nat.eqb_spec i' t) as [->|]; [destruct (Nat.eqb_spec l j) as [->|]|]; simpl; auto.
        eapply same_layout_trans; [apply X2; auto|auto].
      - intros i' l Hl. rewrite bupd_oth by auto. auto.
      - intros i' Hi'. rewrite bupd_oth by lia. apply X4. lia.
      - intros i' Hi'. rewrite bupd_at, Nat.eqb_refl, andb_true_r. destruct (Nat.eqb_spec i' t) as [->|].
        + intros a b Ha Hb. rewrite (F' a b Ha Hb). unfold gemm_value, madd, mscale. simpl mop.
          change (opc false (MD (fst (qb t)))) with (d_c (fst (qb t))). rewrite F2.
          cbn [ent]. replace (mmul (rb t) (d_e (fst (qb t))) (d_e (HQb t)) a b) with
            (mmul (rb t) (d_e (fst (qb t))) (mwin (offs rb t) 0 (d_e Qb)) a b).
          2:{ apply mmul_ext; auto. intros x Hx. symmetry. apply G3; auto. }
          ring.
        + apply X5. lia. }
  destruct H5 as [Y1 [Y2 [Y3 [_ Y5]]]].
  assert (CQ : feq (offs h p) (w j) (mcolumn p h Q' j)
     (stack p h (fun i => mmul (rb i) (d_e (fst (qb i))) (mwin (offs rb i) 0 (d_e Qb))))).
  { apply feq_stack. auto. }
  do 5 (split; auto). split.
  - eapply feq_trans; [apply feq_mmul; [exact CQ|apply feq_refl]|].
    eapply feq_trans; [apply (left_mul p h rb _ _ _ _ _ _ T7)|].
    apply feq_stack. intros i Hi. destruct (F i Hi) as [_ [_ [F3 [F4 _]]]].
    eapply feq_trans; [|exact F4]. apply feq_mmul; [apply feq_refl|].
    intros a b Ha Hb. unfold mwin. simpl. rewrite E4.
    + pose proof (ent_block p 1 (fun i _ => MD (snd (qb i))) i 0 a b Hi Nat.lt_0_1) as EB.
      unfold bheight, bwidth in EB. simpl offs in EB. rewrite Nat.add_0_l in EB.
      apply EB; [exact Ha|]. simpl. destruct (F 0 Hp) as [_ [_ [X _]]]. lia.
    + rewrite <- E2. pose proof (offs_lt rb i p Hi). lia.
    + rewrite <- E3. auto.
  - intros HU. intros a b Ha Hb. rewrite <- (left_orth p h rb (fun i => d_e (fst (qb i))) (d_e Qb) (w j)
      ltac:(intros i Hi; apply F; auto) T6 a b Ha Hb).
    apply mmul_ext; intros x Hx; [unfold mtr|]; apply CQ; auto.
Qed.
End Ortho.
