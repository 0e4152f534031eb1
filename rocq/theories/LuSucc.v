(** trsm and getrf on matrices that are divided along a common cluster tree never fail. *)
From Coq Require Import List Arith ZArith QArith Lia Bool.
From Verif Require Import Prelude IndexRange IndexRangeSpec IndexRangeProofs Ring MatFun Matrix MatOps MatSpec MatOpsProofs Gemm GemmSpec GemmProofs
  GemmTheorems ReflectProofs ReflectSuccess Triangular TriAlgebra TriSpec GemmTerm TriTerm CommonTree GemmSucc.
Import ListNotations.
Local Open Scope nat_scope.

Section LuSucc.
Context {R : cring}.
Notation dense := (dense R).
Notation lowrank := (lowrank R).
Notation matrix := (matrix R).
Notation mat := (mat R).

Variable Or : oracles R.
Hypothesis HS : oracles_shape Or.
Variable QS : nat -> nat -> Prop.
Variable PL EL : lowrank -> Prop.
Hypothesis HP : policy QS PL EL Or.
Notation fit := (fit QS).
Notation tfit := (tfit QS).
Notation good := (good PL EL).
Notation allp := (allp PL).
Notation ske := (ske QS PL EL).
Notation goodfor := (goodfor PL EL).
Variable rinv : R -> R.
Variable gfuel : nat.

Lemma acc_fine r k s (A B C : matrix) alpha : valid r -> valid k -> valid s ->
  fit r k A -> fit k s B -> fit r s C -> goodfor A B C -> allp C ->
  fine (acc_gemm Or gfuel alpha A B C) (fun C' => fit r s C' /\ ske C C').
Proof.
  intros Vr Vk Vs FA FB FC G T. unfold acc_gemm. apply (gemm_fit QS PL EL Or HS gfuel r k s); auto.
  apply (gemm_fine QS PL EL Or HS HP gfuel) with (r := r) (k := k) (s := s); auto.
Qed.

(** ** Trees *)

Lemma ske_nh (A B : matrix) : ske A B -> nh A -> nh B.
Proof. destruct A, B; simpl; try tauto; intros S H m' n' b' E; try discriminate. eapply H; reflexivity. Qed.
Lemma below_nh s (A B : matrix) : nh B -> below s A B.
Proof. destruct A; simpl; auto. destruct B; auto. intros H. exfalso. eapply H. reflexivity. Qed.
Lemma below_ske s (A : matrix) : forall B B', ske B B' -> below s A B -> below s A B'.
Proof.
  induction A as [d|l|m n a IH|er ec]; cbn [below]; try (intros B B' S H; exact (ske_nh _ _ S H)).
  intros [d|l|m2 n2 b|er ec] [d'|l'|m' n' b'|er' ec']; simpl; try tauto.
  intros [-> [-> S]] H i j Hi Hj. eapply IH; [apply S; auto|apply H; auto].
Qed.

Lemma fine_cells l (f : (nat -> nat -> matrix) -> nat -> nat -> outcome matrix) (P : (nat -> nat -> matrix) -> Prop) :
  (forall b i j, In (i, j) l -> P b -> fine (f b i j) (fun x => P (bupd b i j x))) ->
  forall b, P b -> fine (run_cells l f b) P.
Proof.
  induction l as [|[i j] l IH]; intros H b Hb; simpl.
  - apply fine_Ok. exact Hb.
  - eapply fine_bind; [apply H; [left; auto|exact Hb]|]. intros x Hx. apply IH; auto. intros b' i' j' Hin. apply H. right. auto.
Qed.

Lemma cells_cols_rows m n i j : In (i, j) (cols_rows m n) -> i < m /\ j < n.
Proof.
  unfold cols_rows. rewrite in_flat_map. intros [y [Hy H]]. apply in_map_iff in H. destruct H as [x [E Hx]].
  inversion E; subst. apply in_seq in Hx. apply in_seq in Hy. lia.
Qed.
Lemma cells_rows_down m i j : In (i, j) (rows_down m) -> i < m /\ j = 0.
Proof.
  unfold rows_down. rewrite in_map_iff. intros [x [E Hx]]. inversion E; subst. apply in_rev in Hx. apply in_seq in Hx. lia.
Qed.

(** ** trsm *)

(** Where the operand is on the left (right), its rows (columns) are divided along r. *)
Definition sfit (s : side) (r c : axis) (B : matrix) : Prop := match s with SLeft => fit r c B | SRight => fit c r B end.
Definition allowed (u : mode) (s : side) (c : axis) : Prop :=
  match u, s with Lower, SLeft | Upper, SRight => True | Upper, SLeft => deg c = 1 | Lower, SRight => False end.

Lemma allowed_sub u s c i : valid c -> allowed u s c -> allowed u s (sub c i).
Proof. destruct u, s; simpl; auto. intros V H. rewrite sub_1; auto. Qed.
Lemma allowed_leaf u s c n : allowed u s c -> allowed u s (Leaf n).
Proof. destruct u, s; simpl; auto. Qed.

Lemma at_Ok m n (a : nat -> nat -> matrix) i j : i < m -> j < n -> at_ m n a i j = Ok (a i j).
Proof. intros Hi Hj. unfold at_. rewrite (proj2 (Nat.ltb_lt _ _) Hi), (proj2 (Nat.ltb_lt _ _) Hj). reflexivity. Qed.

(** Block row (column) and block column (row) counts of the operand. *)
Definition bh (s : side) (r c : axis) : nat := match s with SLeft => deg r | SRight => deg c end.
Definition bw (s : side) (r c : axis) : nat := match s with SLeft => deg c | SRight => deg r end.
Definition ch (s : side) (r c : axis) (i j : nat) : axis := match s with SLeft => sub r i | SRight => sub r j end.
Definition cw (s : side) (r c : axis) (i j : nat) : axis := match s with SLeft => sub c j | SRight => sub c i end.

Definition gridok (s : side) (r c : axis) (b0 b : nat -> nat -> matrix) : Prop :=
  forall i j, i < bh s r c -> j < bw s r c ->
    sfit s (ch s r c i j) (cw s r c i j) (b i j) /\ ske (b0 i j) (b i j).

Lemma gridok_upd s r c b0 b i j x : gridok s r c b0 b -> i < bh s r c -> j < bw s r c ->
  sfit s (ch s r c i j) (cw s r c i j) x -> ske (b0 i j) x -> gridok s r c b0 (bupd b i j x).
Proof.
  intros G Hi Hj F S i' j' Hi' Hj'. unfold bupd. destruct (Nat.eqb_spec i' i) as [->|]; simpl; [|apply G; auto].
  destruct (Nat.eqb_spec j' j) as [->|]; simpl; [auto|apply G; auto].
Qed.

Lemma hh_fine rec r c a b u s : valid r -> valid c -> allowed u s c ->
  (forall i j, i < deg r -> j < deg r -> match u with Upper => i < j | Lower => j < i end -> fit (sub r i) (sub r j) (a i j)) ->
  (forall i j, i < bh s r c -> j < bw s r c -> sfit s (ch s r c i j) (cw s r c i j) (b i j) /\ good (b i j)) ->
  (forall i j x, i < bh s r c -> j < bw s r c -> sfit s (ch s r c i j) (cw s r c i j) x -> ske (b i j) x ->
     fine (rec (along s i j) x) (fun y => sfit s (ch s r c i j) (cw s r c i j) y /\ ske x y)) ->
  fine (hh_trsm Or gfuel rec (deg r) (deg r) a (bh s r c) (bw s r c) b u s) (gridok s r c b).
Proof.
  intros Vr Vc AL FA FB HR.
  assert (G0 : gridok s r c b b).
  { intros i j Hi Hj. destruct (FB i j Hi Hj) as [F _]. split; auto. destruct s; eapply ske_refl; exact F. }
  unfold hh_trsm. destruct u, s; try (exfalso; exact AL); cbn [bh bw ch cw sfit along] in *.
  - (* Upper, left *)
    cbn [allowed] in AL. rewrite AL, Nat.eqb_refl. apply fine_cells; auto.
    intros b1 i j Hin G. apply cells_rows_down in Hin. destruct Hin as [Hi ->].
    eapply fine_bind; [apply (fine_loop _ _ (fun x => fit (sub r i) (sub c 0) x /\ ske (b i 0) x))|].
    + apply (G i 0); simpl; lia.
    + intros t x Ht [Fx Sx]. rewrite at_Ok by lia. cbn [bind].
      destruct (G (deg r - 1 - t) 0) as [F1 _]; [simpl; lia|simpl; lia|].
      eapply fine_imp; [apply (acc_fine (sub r i) (sub r (deg r - 1 - t)) (sub c 0)); auto|].
      * apply valid_sub; auto.
      * apply valid_sub; auto; lia.
      * apply valid_sub; auto; lia.
      * apply FA; lia.
      * right. left. eapply ske_good; eauto. apply FB; lia.
      * eapply good_allp. eapply ske_good; eauto. apply FB; lia.
      * intros y [Fy Sy]. split; auto. eapply ske_trans; eauto.
    + intros x [Fx Sx]. rewrite at_Ok by lia. cbn [bind].
      eapply fine_imp; [apply (HR i 0); auto; lia|]. intros y [Fy Sy].
      apply gridok_upd; auto; try (simpl; lia). eapply ske_trans; eauto.
  - (* Upper, right *)
    apply fine_cells; auto.
    intros b1 i j Hin G. apply in_ij_all in Hin. destruct Hin as [Hi Hj].
    eapply fine_bind; [apply (fine_loop _ _ (fun x => fit (sub c i) (sub r j) x /\ ske (b i j) x))|].
    + apply (G i j); auto.
    + intros t x Ht [Fx Sx]. rewrite at_Ok by lia. cbn [bind].
      destruct (G i t) as [F1 _]; [simpl; lia|simpl; lia|].
      eapply fine_imp; [apply (acc_fine (sub c i) (sub r t) (sub r j)); auto|].
      * apply valid_sub; auto.
      * apply valid_sub; auto; lia.
      * apply valid_sub; auto; lia.
      * apply FA; lia.
      * right. left. eapply ske_good; eauto. apply FB; lia.
      * eapply good_allp. eapply ske_good; eauto. apply FB; lia.
      * intros y [Fy Sy]. split; auto. eapply ske_trans; eauto.
    + intros x [Fx Sx]. rewrite at_Ok by lia. cbn [bind].
      eapply fine_imp; [apply (HR i j); auto; lia|]. intros y [Fy Sy].
      apply gridok_upd; auto; try (simpl; lia). eapply ske_trans; eauto.
  - (* Lower, left *)
    apply fine_cells; auto.
    intros b1 i j Hin G. apply cells_cols_rows in Hin. destruct Hin as [Hi Hj].
    eapply fine_bind; [apply (fine_loop _ _ (fun x => fit (sub r i) (sub c j) x /\ ske (b i j) x))|].
    + apply (G i j); auto.
    + intros t x Ht [Fx Sx]. rewrite at_Ok by lia. cbn [bind].
      destruct (G t j) as [F1 _]; [simpl; lia|simpl; lia|].
      eapply fine_imp; [apply (acc_fine (sub r i) (sub r t) (sub c j)); auto|].
      * apply valid_sub; auto.
      * apply valid_sub; auto; lia.
      * apply valid_sub; auto; lia.
      * apply FA; lia.
      * right. left. eapply ske_good; eauto. apply FB; lia.
      * eapply good_allp. eapply ske_good; eauto. apply FB; lia.
      * intros y [Fy Sy]. split; auto. eapply ske_trans; eauto.
    + intros x [Fx Sx]. rewrite at_Ok by lia. cbn [bind].
      eapply fine_imp; [apply (HR i j); auto; lia|]. intros y [Fy Sy].
      apply gridok_upd; auto; try (simpl; lia). eapply ske_trans; eauto.
Qed.

Lemma trsm_fine (A : matrix) : forall r c B u s, valid r -> valid c -> tfit u r A -> sfit s r c B -> below s A B ->
  nh B \/ good B -> allowed u s c -> fine (trsm rinv Or gfuel A B u s) (fun X => sfit s r c X /\ ske B X).
Proof.
  induction A as [a|l|m n a IH|er ec]; intros r c B u s Vr Vc FA FB BL GB AL; cbn [trsm]; try (exfalso; exact FA); destruct FA as [FA FA'].
  - (* Dense *)
    assert (DT : forall d : dense, along s (d_r d) (d_c d) = asize r ->
      exists x, d_trsm rinv a d u s = Ok x /\ d_r x = d_r d /\ d_c x = d_c d).
    { intros d Hd. unfold d_trsm. rewrite Hd, FA, FA', Nat.leb_refl. simpl. eauto. }
    destruct B as [d|l|m n b|er ec].
    + destruct (DT d) as [x [-> [X1 X2]]]; [destruct s; apply FB|]. cbn [bind]. apply fine_Ok. split; [|exact I].
      destruct s; destruct FB; split; congruence.
    + destruct (DT (side_factor s l)) as [x [-> [X1 X2]]].
      { destruct s; destruct FB as [[W1 [W2 [W3 W4]]] [F1 [F2 _]]]; simpl; congruence. }
      cbn [bind]. apply fine_Ok. split; [|destruct s; (split; [apply (po_same _ _ _ _ HP); reflexivity|split; [apply (po_same _ _ _ _ HP); reflexivity|auto]])].
      destruct s; destruct FB as [[W1 [W2 [W3 W4]]] [F1 [F2 F3]]]; (split; [|simpl; auto]); unfold lr_wf; simpl in *; repeat split; congruence.
    + exfalso. eapply BL. reflexivity.
    + destruct s; destruct FB.
  - (* Hierarchical *)
    destruct FA' as [-> [FD FT]]. subst m.
    assert (HD : forall d : dense, along s (d_r d) (d_c d) = asize r ->
      exists w, w = match s with SLeft => d_c d | SRight => d_r d end /\
      fine (let* BH := split (MD d) (side_rows s (deg r)) (side_cols s (deg r)) in
        match BH with
        | MH m' n' b => let* x := hh_trsm Or gfuel (fun k c => trsm rinv Or gfuel (a k k) c u s) (deg r) (deg r) a m' n' b u s in
                        Ok (join (d_r d) (d_c d) m' n' x)
        | _ => Abort
        end) (fun x => d_r x = d_r d /\ d_c x = d_c d)).
    { intros d Hd. eexists. split; [reflexivity|].
      set (w := match s with SLeft => d_c d | SRight => d_r d end).
      assert (SP : exists b, split (MD d) (side_rows s (deg r)) (side_cols s (deg r)) = Ok (MH (bh s r (Leaf w)) (bw s r (Leaf w)) b) /\
        forall i j, i < bh s r (Leaf w) -> j < bw s r (Leaf w) -> sfit s (ch s r (Leaf w) i j) (cw s r (Leaf w) i j) (b i j) /\
          exists x, b i j = MD x).
      { destruct s; simpl in *.
        - destruct (split_fit QS (MD d) r (Leaf w) Vr I) as [b [E [[_ [_ F]] K]]]; [split; auto|apply nh_MD|]. exists b. split; auto.
          intros i j Hi Hj. split; [apply F; auto|apply K; auto].
        - destruct (split_fit QS (MD d) (Leaf w) r I Vr) as [b [E [[_ [_ F]] K]]]; [split; auto|apply nh_MD|]. exists b. split; auto.
          intros i j Hi Hj. split; [apply F; auto|apply K; auto]. }
      destruct SP as [b [-> SP]]. cbn [bind].
      eapply fine_bind; [apply (hh_fine _ r (Leaf w)); auto; try exact I|].
      - eapply allowed_leaf; eauto.
      - intros i j Hi Hj. destruct (SP i j Hi Hj) as [F [x E]]. split; auto. rewrite E. exact I.
      - intros i j x Hi Hj Fx Sx. destruct (SP i j Hi Hj) as [F [y E]]. rewrite E in Sx. destruct (ske_MD _ _ _ _ _ Sx) as [z ->].
        assert (Hd' : along s i j < deg r) by (destruct s; auto).
        apply (IH (along s i j) (along s i j)); try exact I.
        + destruct s; apply valid_sub; auto.
        + destruct s; exact I.
        + destruct s; apply FD; auto.
        + exact Fx.
        + apply below_nh. apply nh_MD.
        + left. apply nh_MD.
        + destruct s; eapply allowed_leaf; eauto.
      - intros x _. apply fine_Ok. split; reflexivity. }
    destruct B as [d|l|m' n' b|er ec].
    + destruct (HD d) as [w [_ H]]; [destruct s; apply FB|]. eapply fine_bind; [exact H|]. intros x [X1 X2]. apply fine_Ok.
      split; [|exact I]. destruct s; destruct FB; split; congruence.
    + destruct (HD (side_factor s l)) as [w [_ H]].
      { destruct s; destruct FB as [[W1 [W2 [W3 W4]]] [F1 [F2 _]]]; simpl; congruence. }
      eapply fine_bind; [exact H|]. intros x [X1 X2]. apply fine_Ok. split; [|destruct s; (split; [apply (po_same _ _ _ _ HP); reflexivity|split; [apply (po_same _ _ _ _ HP); reflexivity|auto]])].
      destruct s; destruct FB as [[W1 [W2 [W3 W4]]] [F1 [F2 F3]]]; (split; [|simpl; auto]); unfold lr_wf; simpl in *; repeat split; congruence.
    + destruct GB as [GB|[_ GB]]; [exfalso; eapply GB; reflexivity|].
      assert (FB' : m' = bh s r c /\ n' = bw s r c /\ forall i j, i < m' -> j < n' -> sfit s (ch s r c i j) (cw s r c i j) (b i j)).
      { destruct s; exact FB. }
      destruct FB' as [-> [-> FB']].
      eapply fine_bind; [apply (hh_fine _ r c); auto|].
      * intros i j x Hi Hj Fx Sx.
        assert (Hd' : along s i j < deg r) by (destruct s; auto).
        apply (IH (along s i j) (along s i j)).
        -- destruct s; apply valid_sub; auto.
        -- destruct s; apply valid_sub; auto.
        -- destruct s; apply FD; auto.
        -- exact Fx.
        -- eapply below_ske; eauto.
        -- right. eapply ske_good; eauto.
        -- destruct s; apply allowed_sub; auto.
      * intros x Hx. apply fine_Ok. split.
        -- destruct s; (split; [reflexivity|split; [reflexivity|]]); intros i j Hi Hj; apply (Hx i j); auto.
        -- split; auto. split; auto. intros i j Hi Hj. apply Hx; auto.
    + destruct s; destruct FB.
Qed.

(** ** getrf *)

Lemma fine_loop_i {T} n (f : nat -> T -> outcome T) (P : nat -> T -> Prop) s : P 0 s ->
  (forall i x, i < n -> P i x -> fine (f i x) (P (S i))) -> fine (for_loop n f s) (P n).
Proof.
  intros Hs H. induction n as [|n IH].
  - simpl. apply fine_Ok. auto.
  - cbn [for_loop]. eapply fine_bind; [apply IH; auto|]. intros a Ha. apply H; auto.
Qed.

(** X is divided along the diagonal at least as far as A. *)
Definition asdeep (r : axis) (A X : matrix) : Prop :=
  forall s c B, sfit s r c B -> below s A B -> below s X B.

Lemma asdeep_MH r (a x : nat -> nat -> matrix) m : m = deg r ->
  (forall i, i < m -> asdeep (sub r i) (a i i) (x i i)) -> asdeep r (MH m m a) (MH m m x).
Proof.
  intros -> H s c B FB BL. cbn [below] in *. destruct B as [d|l|m' n' b|er ec]; auto.
  intros i j Hi Hj. destruct s; destruct FB as [-> [-> FB]]; cbn [along] in *.
  - apply (H i Hi SLeft (sub c j)); auto. apply FB; auto.
  - apply (H j Hj SRight (sub c i)); auto. apply FB; auto.
Qed.
Lemma ske_asdeep (A : matrix) : forall r X, fit r r A -> ske A X -> asdeep r A X.
Proof.
  induction A as [d|l|m n a IH|er ec]; intros r [d'|l'|m' n' x|er' ec'] F S; try (exfalso; exact S); try (intros s c B _ H; exact H).
  - destruct F as [-> [-> F]]. destruct S as [-> [-> S]]. apply asdeep_MH; auto.
Qed.
Lemma asdeep_trans r A B C : asdeep r A B -> asdeep r B C -> asdeep r A C.
Proof. intros H1 H2 s c X F H. eapply H2; eauto. Qed.

Fixpoint luok (A : matrix) : Prop :=
  match A with
  | MD _ => True
  | MH m n a => m = n /\ (forall i, i < m -> luok (a i i)) /\
      (forall i j, i < j -> j < m -> (below SLeft (a i i) (a i j) /\ below SRight (a i i) (a j i)) /\
         (nh (a i j) \/ good (a i j)) /\ (nh (a j i) \/ good (a j i))) /\
      (forall i p q, i < p -> i < q -> p < m -> q < m -> goodfor (a p i) (a i q) (a p q) /\ allp (a p q))
  | _ => False
  end.

Lemma tower_luok (A : matrix) : tower A -> good A -> luok A.
Proof.
  induction A as [d|l|m n a IH|er ec]; simpl; auto; try tauto.
  intros [-> [T1 T2]] [_ G]. split; auto. split; [intros i Hi; apply IH; auto|]. split.
  - intros i j Hi Hj. split; [apply T2; auto|]. split; right; apply G; lia.
  - intros i p q H1 H2 H3 H4. split; [right; left; apply G; auto|eapply good_allp; apply G; auto].
Qed.
Lemma hodlr_luok (A : matrix) : hodlr A -> allp A -> luok A.
Proof.
  induction A as [d|l|m n a IH|er ec]; simpl; auto.
  intros [-> [T1 T2]] T. split; auto. split; [intros i Hi; apply IH; auto|]. split.
  - intros i j Hi Hj. destruct (T2 i j) as [x ->]; try lia. destruct (T2 j i) as [y ->]; try lia.
    split; [split; apply below_nh; apply nh_ML|]. split; left; apply nh_ML.
  - intros i p q H1 H2 H3 H4. split; [|auto]. left. left. destruct (T2 p i) as [x ->]; try lia. exists x. reflexivity.
Qed.

Lemma goodfor_ske (A A' B B' C C' : matrix) : ske A A' -> ske B B' -> ske C C' -> goodfor A B C -> goodfor A' B' C'.
Proof.
  intros SA SB SC [[[l E]|[l E]]|[G|[b [E [G BG]]]]].
  - subst. destruct A'; try (exfalso; exact SA). left. left. eexists. reflexivity.
  - subst. destruct B'; try (exfalso; exact SB). left. right. eexists. reflexivity.
  - right. left. eapply ske_good; eauto.
  - subst. destruct C' as [d|l|m n b'|er ec]; try (exfalso; exact SC). destruct SC as [E1 [E2 SC]]. subst. right. right.
    exists b'. split; auto. split; [eapply ske_good; [apply SC; lia|auto]|].
    destruct BG as [[m [n [x [E N]]]]|[m [n [x [E N]]]]]; subst.
    + left. destruct A' as [d|l|m' n' x'|er ec]; try (exfalso; exact SA). destruct SA as [E1 [E2 SA]]. subst. exists m, n, x'. auto.
    + right. destruct B' as [d|l|m' n' x'|er ec]; try (exfalso; exact SB). destruct SB as [E1 [E2 SB]]. subst. exists m, n, x'. auto.
Qed.

Lemma luok_ske (A : matrix) : forall r X, valid r -> fit r r A -> ske A X -> luok A -> luok X.
Proof.
  induction A as [d|l|m n a IH|er ec]; intros r [d'|l'|m' n' x|er' ec'] Vr F S; try (exfalso; exact S); cbn [luok]; auto.
  destruct F as [-> [-> F]]. destruct S as [-> [-> S]]. intros [_ [L1 [L2 L3]]]. split; auto. split; [|split].
  - intros i Hi. apply (IH i i (sub r i)); auto. apply valid_sub; auto.
  - intros i j Hi Hj. destruct (L2 i j Hi Hj) as [[B1 B2] [G1 G2]].
    assert (Hi' : i < deg r) by lia.
    assert (SD : asdeep (sub r i) (a i i) (x i i)) by (apply ske_asdeep; auto).
    split; [split|split].
    + apply (below_ske SLeft _ (a i j)); auto. apply (SD SLeft (sub r j)); auto. simpl. auto.
    + apply (below_ske SRight _ (a j i)); auto. apply (SD SRight (sub r j)); auto. simpl. auto.
    + destruct G1; [left; eapply ske_nh; eauto|right; eapply ske_good; eauto].
    + destruct G2; [left; eapply ske_nh; eauto|right; eapply ske_good; eauto].
  - intros i p q H1 H2 H3 H4. destruct (L3 i p q) as [G T]; auto. split; [eapply goodfor_ske; [| | |exact G]; apply S; lia|].
    eapply ske_allp; [|exact T]. apply S; lia.
Qed.

Variable lapack : dense -> outcome (dense * (nat -> nat)).
Hypothesis HL : forall d, d_r d = d_c d -> exists X p, lapack d = Ok (X, p).

Section Step.
Variable r : axis.
Hypothesis Vr : valid r.
Variable a : nat -> nat -> matrix.
Hypothesis FA : forall i j, i < deg r -> j < deg r -> fit (sub r i) (sub r j) (a i j).
Hypothesis LU : luok (MH (deg r) (deg r) a).

Definition held (p q : nat) (X : matrix) : Prop := fit (sub r p) (sub r q) X /\ ske (a p q) X.
Definition done (p : nat) (L U : matrix) : Prop :=
  (tfit Lower (sub r p) L /\ asdeep (sub r p) (a p p) L) /\ (tfit Upper (sub r p) U /\ asdeep (sub r p) (a p p) U).

Definition before (i : nat) (s : @pair_t R) : Prop :=
  (forall p q, i <= p -> i <= q -> p < deg r -> q < deg r -> held p q (snd s p q)) /\
  (forall p, p < i -> p < deg r -> done p (fst s p p) (snd s p p)) /\
  (forall p q, p < i -> p < q -> q < deg r -> fit (sub r q) (sub r p) (fst s q p) /\ fit (sub r p) (sub r q) (snd s p q)).

(** While step i runs: t blocks of its column are done. *)
Record during (i t : nat) (s : @pair_t R) : Prop := {
  k_rest : forall p q, i < p -> i < q -> p < deg r -> q < deg r -> held p q (snd s p q);
  k_row : forall q, i < q -> q < deg r -> held i q (snd s i q);
  k_col : forall p, S i + t <= p -> p < deg r -> held p i (snd s p i);
  k_done : forall p, p <= i -> p < deg r -> done p (fst s p p) (snd s p p);
  k_fac : forall p q, p < i -> p < q -> q < deg r -> fit (sub r q) (sub r p) (fst s q p) /\ fit (sub r p) (sub r q) (snd s p q);
  k_lcol : forall p, i < p -> p < S i + t -> p < deg r -> held p i (fst s p i)
}.

Ltac bu := unfold bupd; cbn [fst snd]; repeat (match goal with |- context[?x =? ?y] => destruct (Nat.eqb_spec x y) end; cbn [andb]); subst; try lia; auto.

Lemma step_fine_lu rec i s : i < deg r ->
  (forall A, fit (sub r i) (sub r i) A -> luok A -> fine (rec A) (fun p =>
     (tfit Lower (sub r i) (fst p) /\ asdeep (sub r i) A (fst p)) /\ (tfit Upper (sub r i) (snd p) /\ asdeep (sub r i) A (snd p)))) ->
  before i s -> fine (lu_step rinv Or gfuel rec (deg r) (deg r) i s) (before (S i)).
Proof.
  intros Hi HR [I1 [I2 I3]]. destruct LU as [_ [LD [LB LG]]]. unfold lu_step.
  destruct (I1 i i) as [Fi Si]; try lia.
  assert (Lu0 : luok (snd s i i)).
  { apply (luok_ske (a i i) (sub r i)); auto; [apply valid_sub; auto|exact (LD i Hi)]. }
  eapply fine_bind; [apply HR; [exact Fi|exact Lu0]|].
  intros [Li Ui] [[TL AL] [TU AU]]. cbn [fst snd] in *.
  assert (SD : asdeep (sub r i) (a i i) (snd s i i)) by (apply ske_asdeep; auto).
  set (s1 := (bupd (fst s) i i Li, bupd (snd s) i i Ui)).
  assert (K0 : during i 0 s1).
  { unfold s1. constructor; cbn [fst snd].
    - intros p q Hp Hq Hp' Hq'. bu. apply I1; lia.
    - intros q Hq Hq'. bu. apply I1; lia.
    - intros p Hp Hp'. bu. apply I1; lia.
    - intros p Hp Hp'. bu; try (apply I2; lia). split; (split; [auto|]); eapply asdeep_trans; eauto.
    - intros p q Hp Hq Hq'. bu. 
    - intros p Hp Hp'. lia. }
  clearbody s1. clear s Lu0 I1 I2 I3 Fi Si SD TL AL TU AU HR Li Ui.
  (* the block column *)
  eapply fine_bind; [apply (fine_loop_i _ _ (during i) s1 K0)|].
  { intros t s Ht K. pose proof K as [K1 K2 K3 K4 K5 K6]. set (ic := S i + t).
    assert (Hic : ic < deg r) by (unfold ic; lia).
    destruct (K3 ic) as [F1 S1]; [unfold ic; lia|auto|]. destruct (K4 i) as [_ [TU AU]]; auto.
    destruct (LB i ic) as [[_ B2] [_ G2]]; [unfold ic; lia|auto|].
    replace (bupd (snd s) ic i (ME (nrows (snd s ic i)) (ncols (snd s ic i))) i i) with (snd s i i) by (unfold ic; bu).
    eapply fine_bind.
    - apply (trsm_fine (snd s i i) (sub r i) (sub r ic)); auto using valid_sub.
      + apply (AU SRight (sub r ic)); [exact F1|eapply below_ske; eauto].
      + destruct G2; [left; eapply ske_nh; eauto|right; eapply ske_good; eauto].
      + exact I.
    - intros y [Fy Sy]. apply fine_Ok. constructor; cbn [fst snd]; unfold ic.
      + intros p q Hp Hq Hp' Hq'. bu.
      + intros q Hq Hq'. bu.
      + intros p Hp Hp'. bu. apply K3; lia.
      + intros p Hp Hp'. bu.
      + intros p q Hp Hq Hq'. bu.
      + intros p Hp Hp' Hp2. bu; [|apply K6; lia]. split; [exact Fy|]. eapply ske_trans; eauto. }
  clear s1 K0. intros [L A] K0.
  (* the block row *)
  eapply fine_bind; [apply (fine_loop _ _ (during i (deg r - S i)) (L, A) K0)|].
  { intros t s Ht K. pose proof K as [K1 K2 K3 K4 K5 K6]. set (j := S i + t).
    assert (Hj : j < deg r) by (unfold j; lia).
    destruct (K2 j) as [F1 S1]; [unfold j; lia|auto|]. destruct (K4 i) as [[TL AL] _]; auto.
    destruct (LB i j) as [[B1 _] [G1 _]]; [unfold j; lia|auto|].
    replace (bupd (fst s) i j (ME (nrows (snd s i j)) (ncols (snd s i j))) i i) with (fst s i i) by (unfold j; bu).
    eapply fine_bind.
    - apply (trsm_fine (fst s i i) (sub r i) (sub r j)); auto using valid_sub.
      + apply (AL SLeft (sub r j)); [exact F1|eapply below_ske; eauto].
      + destruct G1; [left; eapply ske_nh; eauto|right; eapply ske_good; eauto].
      + exact I.
    - intros y [Fy Sy]. apply fine_Ok. constructor; cbn [fst snd]; unfold j.
      + intros p q Hp Hq Hp' Hq'. bu.
      + intros q Hq Hq'. bu. split; [exact Fy|]. eapply ske_trans; eauto.
      + intros p Hp Hp'. bu.
      + intros p Hp Hp'. bu.
      + intros p q Hp Hq Hq'. bu.
      + intros p Hp Hp' Hp2. bu. }
  clear L A K0. intros [L A] K0.
  (* the rest *)
  eapply fine_bind; [apply (fine_loop _ _ (fun A => during i (deg r - S i) (L, A)) A K0)|].
  { clear A K0. intros t A Ht K0. apply (fine_loop _ _ (fun A => during i (deg r - S i) (L, A)) A K0).
    clear A K0. intros v A Hv K. pose proof K as [K1 K2 K3 K4 K5 K6]. cbn [fst snd] in *.
    set (ic := S i + t). set (k := S i + v). assert (Hic : ic < deg r) by (unfold ic; lia). assert (Hk : k < deg r) by (unfold k; lia).
    assert (Hic' : i < ic) by (unfold ic; lia). assert (Hk' : i < k) by (unfold k; lia).
    destruct (K6 ic) as [FL SL]; [lia|unfold ic; lia|auto|]. destruct (K2 k) as [FU SU]; auto. destruct (K1 ic k) as [FC SC]; auto.
    eapply fine_bind.
    - apply (acc_fine (sub r ic) (sub r i) (sub r k)); auto using valid_sub.
      + eapply goodfor_ske; [exact SL|exact SU|exact SC|]. apply LG; auto.
      + eapply ske_allp; [exact SC|]. apply (LG i); auto.
    - intros y [Fy Sy]. apply fine_Ok. clearbody ic k. constructor; cbn [fst snd].
      + intros p q Hp Hq Hp' Hq'. bu. split; [exact Fy|]. eapply ske_trans; eauto.
      + intros q Hq Hq'. bu.
      + intros p Hp Hp'. bu.
      + intros p Hp Hp'. bu. 
      + intros p q Hp Hq Hq'. bu.
      + intros p Hp Hp' Hp2. bu. }
  clear A K0. intros A K. apply fine_Ok. pose proof K as [K1 K2 K3 K4 K5 K6]. cbn [fst snd] in *. split; [|split]; cbn [fst snd].
  - intros p q Hp Hq. apply K1; lia.
  - intros p Hp Hp'. apply K4; auto. lia.
  - intros p q Hp Hq Hq'. destruct (Nat.eq_dec p i) as [->|]; [|apply K5; lia].
    split; [apply K6; lia|apply K2; lia].
Qed.
End Step.

Lemma d_getrf_fine (d : dense) n : d_r d = n -> d_c d = n -> exists l u, d_getrf lapack d = Ok (l, u) /\
  (d_r l = n /\ d_c l = n) /\ (d_r u = n /\ d_c u = n).
Proof.
  intros E1 E2. unfold d_getrf. destruct (HL d) as [X [p E]]; [congruence|]. rewrite E. cbn [bind].
  rewrite E1, E2, Nat.leb_refl. do 2 eexists. split; [reflexivity|]. cbn [d_r d_c]. auto.
Qed.

Lemma asdeep_MD r (a d : dense) : asdeep r (MD a) (MD d).
Proof. intros s c B _ H. exact H. Qed.

Lemma getrf_fine fuel : forall (A : matrix) r, valid r -> fit r r A -> luok A ->
  fine (getrf rinv Or gfuel lapack fuel A) (fun p =>
    (tfit Lower r (fst p) /\ asdeep r A (fst p)) /\ (tfit Upper r (snd p) /\ asdeep r A (snd p))).
Proof.
  induction fuel as [|f IH]; intros A r Vr FA LU; cbn [getrf]; [left; reflexivity|].
  destruct A as [d|l|m n a|er ec]; try (exfalso; exact LU).
  - destruct FA as [E1 E2]. destruct (d_getrf_fine d (asize r) E1 E2) as [l [u [-> [L U]]]]. cbn [bind]. apply fine_Ok.
    split; (split; [auto|apply asdeep_MD]).
  - destruct FA as [-> [-> FA]]. rewrite Nat.leb_refl.
    eapply fine_bind; [apply (fine_loop_i _ _ (before r a))|].
    + split; [|split]; cbn [fst snd].
      * intros p q _ _ Hp Hq. split; [apply FA; auto|]. eapply ske_refl. apply FA; auto.
      * intros p Hp. lia.
      * intros p q Hp. lia.
    + intros i s Hi HB. apply (step_fine_lu r Vr a FA LU); auto. intros A FA1 LU1. apply IH; auto. apply valid_sub; auto.
    + intros [L U] [_ [I2 I3]]. cbn [fst snd] in *. apply fine_Ok. cbn [fst snd].
      split; (split; [|apply asdeep_MH; auto; intros i Hi; apply I2; auto]).
      * cbn [CommonTree.tfit]. split; auto. split; auto. split; [intros i Hi; apply I2; auto|].
        intros i j Hi Hj Hij. apply (I3 j i); auto.
      * cbn [CommonTree.tfit]. split; auto. split; auto. split; [intros i Hi; apply I2; auto|].
        intros i j Hi Hj Hij. apply (I3 i j); auto.
Qed.
End LuSucc.
