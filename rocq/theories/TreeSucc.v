(** Products, solves and block LU on common trees return. *)
From Coq Require Import List Arith ZArith QArith Lia Bool.
From Verif Require Import Prelude IndexRange IndexRangeSpec IndexRangeProofs Ring MatFun Matrix MatOps MatSpec MatOpsProofs
  Gemm GemmSpec GemmTheorems Triangular TriProofs GemmTerm TriTerm ReflectSuccess CommonTree GemmSucc LuSucc.
Import ListNotations.
Local Open Scope nat_scope.

Section Succ.
Context {R : cring}.
Notation dense := (dense R).
Notation lowrank := (lowrank R).
Notation matrix := (matrix R).

Variable Or : oracles R.
Hypothesis HS : oracles_shape Or.
Variable QS : nat -> nat -> Prop.
Variable PL EL : lowrank -> Prop.
Hypothesis HP : policy QS PL EL Or.
Notation fit := (fit QS).
Notation tfit := (tfit QS).
Notation good := (good PL EL).
Notation allp := (allp PL).
Notation ske := (ske QS PL EL).
Notation luok := (luok PL EL).
Notation asdeep := (asdeep QS).
Hypothesis HO : oracles_halt Or.

Lemma fine_halts {T} (x : outcome T) (P : T -> Prop) : halts x -> fine x P -> exists a, x = Ok a /\ P a.
Proof. intros H [E|E]; [exfalso; apply H; exact E|exact E]. Qed.

Lemma fit_pos r c (A : matrix) : valid r -> valid c -> fit r c A -> pos A.
Proof. intros Vr Vc F. apply wf_pos. apply (fit_wf QS r c A Vr Vc F). Qed.

(** Products into a matrix whose LowRank blocks have an accuracy. *)
Lemma gemm_succeeds r k s (A B C : matrix) fuel alpha beta : valid r -> valid k -> valid s ->
  fit r k A -> fit k s B -> fit r s C -> good C ->
  120 * Nat.max (lv A) (Nat.max (lv B) (lv C)) + 33 <= fuel ->
  exists C', gemm Or fuel A B C alpha beta false false = Ok C' /\ fit r s C' /\ ske C C'.
Proof.
  intros Vr Vk Vs FA FB FC GC Hf. apply fine_halts.
  - apply (gemm_halts Or HO (Nat.max (lv A) (Nat.max (lv B) (lv C)))); try lia; eapply fit_pos; [exact Vr|exact Vk|exact FA|exact Vk|exact Vs|exact FB|exact Vr|exact Vs|exact FC].
  - apply (gemm_fit QS PL EL Or HS fuel r k s); auto. apply (proj1 (gemm_fine QS PL EL Or HS HP fuel) r k s); auto; [right; left; auto|eapply good_allp; eauto].
Qed.

Lemma gemm_new_succeeds r k s (A B : matrix) fuel alpha : valid r -> valid k -> valid s ->
  fit r k A -> fit k s B -> 120 * Nat.max (lv A) (lv B) + 33 <= fuel ->
  exists X, gemm_new Or fuel A B alpha false false = Ok X /\ fit r s X /\ good X.
Proof.
  intros Vr Vk Vs FA FB Hf.
  destruct (fine_halts (gemm_new Or fuel A B alpha false false) (fun X => fit r s X /\ good X)) as [X H]; [| |exists X; exact H].
  - apply (gemm_new_halts Or HO (Nat.max (lv A) (lv B))); try lia; eapply fit_pos; [exact Vr|exact Vk|exact FA|exact Vk|exact Vs|exact FB].
  - eapply fine_imp; [apply (proj2 (gemm_fine QS PL EL Or HS HP fuel) r k s); auto|]. simpl. tauto.
Qed.

(** ** Without accuracies, if all off-diagonal blocks are LowRank *)
Lemma skel_sym (A : matrix) : forall B, skel A B -> skel B A.
Proof.
  induction A as [d|l|m n b IH|er ec]; intros [d'|l'|m' n' b'|er' ec']; simpl; try tauto.
  intros [-> [-> H]]. auto.
Qed.
Lemma ske_skel (A : matrix) : forall B, ske A B -> skel A B.
Proof.
  induction A as [d|l|m n b IH|er ec]; intros [d'|l'|m' n' b'|er' ec']; simpl; try tauto.
  intros [-> [-> H]]. auto.
Qed.
Lemma skel_hodlr (A : matrix) : forall B, skel A B -> hodlr A -> hodlr B.
Proof.
  induction A as [d|l|m n b IH|er ec]; intros [d'|l'|m' n' b'|er' ec']; simpl; try tauto.
  intros [-> [-> H]] [-> [H1 H2]]. split; auto. split; [intros i Hi; apply (IH i i); auto|].
  intros i j Hi Hj N. destruct (H2 i j Hi Hj N) as [l El]. specialize (H i j Hi Hj). rewrite El in H.
  destruct (b' i j); try (exfalso; exact H). eauto.
Qed.

Lemma hodlr_gemm_fine f : forall r (A B C : matrix) alpha beta, valid r ->
  fit r r A -> fit r r B -> fit r r C -> hodlr C -> allp C -> skel C A -> skel C B ->
  fine (gemm Or f A B C alpha beta false false) (ske C).
Proof.
  induction f as [|f IH]; intros r A B C alpha beta Vr FA FB FC HC TC SA SB; [left; reflexivity|].
  destruct C as [c|c|m n c|er ec]; try (exfalso; exact HC).
  - apply (proj1 (gemm_fine QS PL EL Or HS HP (S f)) r r r); auto. right. left. exact I.

  - destruct A as [a|a|am an a|? ?]; try (exfalso; exact SA). destruct B as [b|b|bm bn b|? ?]; try (exfalso; exact SB).
    destruct (fit_dims QS r r _ Vr Vr FA) as [A1 A2]. destruct (fit_dims QS r r _ Vr Vr FB) as [B1 B2]. destruct (fit_dims QS r r _ Vr Vr FC) as [C1 C2].
    destruct SA as [_ [_ SA]]. destruct SB as [_ [_ SB]].
    change (fine (gemm_step Or (gemm Or f) (gemm_new Or f) (MH am an a) (MH bm bn b) (MH m n c) alpha beta false false) (ske (MH m n c))).
    unfold gemm_step. unfold opr, opc. rewrite A1, A2, B1, B2, C1, C2, !Nat.eqb_refl.
    destruct FA as [-> [-> FA]]. destruct FB as [-> [-> FB]]. destruct FC as [-> [-> FC]]. cbn [dim0 dim1 opb]. rewrite !Nat.eqb_refl.
    destruct HC as [_ [HC1 HC2]].
    assert (Tc : forall i j, i < deg r -> j < deg r -> allp (c i j)) by (intros i j Hi Hj; eapply allp_sub; [exact Hi|exact Hj|exact TC]).
    eapply fine_bind; [apply (fine_collect (deg r) (deg r) _ (fun i j X => ske (c i j) X))|].
    + intros i j Hi Hj.
      eapply fine_imp; [apply (fine_loop _ _ (fun X => fit (sub r i) (sub r j) X /\ ske (c i j) X))|intros X [_ H]; exact H].
      * split; auto. eapply ske_refl. auto.
      * intros l X Hl [FX SX].
        assert (LP : forall p q (N : matrix), p < deg r -> q < deg r -> p <> q -> skel (c p q) N -> isL N).
        { intros p q N Hp Hq N1 SN. destruct (HC2 p q Hp Hq N1) as [x Ex]. rewrite Ex in SN.
          destruct N; try (exfalso; exact SN). eexists. reflexivity. }
        assert (TX : allp X) by (eapply ske_allp; eauto).
        eapply fine_imp; [apply (gemm_fit QS PL EL Or HS f (sub r i) (sub r l) (sub r j) _ _ _ _ _); auto using valid_sub|].
        -- destruct (Nat.eq_dec i l) as [<-|N1]; [destruct (Nat.eq_dec i j) as [<-|N2]|].
           ++ pose proof (ske_skel _ _ SX) as K. apply (IH (sub r i)); auto using valid_sub.
              ** eapply skel_hodlr; eauto.
              ** eapply skel_trans; [apply skel_sym; exact K|auto].
              ** eapply skel_trans; [apply skel_sym; exact K|auto].
           ++ apply (proj1 (gemm_fine QS PL EL Or HS HP f) (sub r i) (sub r i) (sub r j)); auto using valid_sub.
              left. right. eapply LP; [exact Hi|exact Hj|exact N2|auto].
           ++ apply (proj1 (gemm_fine QS PL EL Or HS HP f) (sub r i) (sub r l) (sub r j)); auto using valid_sub.
              left. left. eapply LP; [exact Hi|exact Hl|exact N1|auto].
        -- intros Y [FY SY]. split; auto. eapply ske_trans; eauto.
    + intros X HX. apply fine_Ok. cbn [CommonTree.ske]. auto.
Qed.

Lemma hodlr_gemm_succeeds r (A B C : matrix) fuel alpha beta : valid r ->
  fit r r A -> fit r r B -> fit r r C -> hodlr C -> allp C -> skel C A -> skel C B ->
  120 * lv C + 33 <= fuel ->
  exists C', gemm Or fuel A B C alpha beta false false = Ok C' /\ fit r r C' /\ hodlr C'.
Proof.
  intros Vr FA FB FC HC TC SA SB Hf.
  destruct (fine_halts (gemm Or fuel A B C alpha beta false false) (fun C' => fit r r C' /\ ske C C')) as [C' [E [F S]]].
  - pose proof (skel_lv _ _ SA). pose proof (skel_lv _ _ SB).
    apply (gemm_halts Or HO (lv C)); try lia; eapply fit_pos; [exact Vr|exact Vr|exact FA|exact Vr|exact Vr|exact FB|exact Vr|exact Vr|exact FC].
  - apply (gemm_fit QS PL EL Or HS fuel r r r); auto. apply (hodlr_gemm_fine fuel r); auto.
  - exists C'. split; auto. split; auto. eapply skel_hodlr; [|exact HC]. apply ske_skel. exact S.
Qed.

(** ** Triangular solves and block LU *)
Variable rinv : R -> R.

Lemma trsm_left_succeeds u r c (A B : matrix) gfuel : valid r -> valid c -> pos A -> tfit u r A -> fit r c B ->
  below SLeft A B -> nh B \/ good B -> (u = Upper -> deg c = 1) ->
  120 * Nat.max (lv A) (lv B) + 33 <= gfuel ->
  exists X, trsm rinv Or gfuel A B u SLeft = Ok X /\ fit r c X /\ ske B X.
Proof.
  intros Vr Vc PA FA FB BL GB AL Hf.
  apply (fine_halts (trsm rinv Or gfuel A B u SLeft) (fun X => fit r c X /\ ske B X)).
  - apply (trsm_halts Or HO rinv gfuel (Nat.max (lv A) (lv B)) Hf); (split; [|lia]); auto. eapply fit_pos; [| |exact FB]; auto.
  - eapply (trsm_fine Or HS QS PL EL HP rinv gfuel A r c B u SLeft); auto. destruct u; simpl; auto.
Qed.

Lemma trsm_right_succeeds r c (A B : matrix) gfuel : valid r -> valid c -> pos A -> tfit Upper r A -> fit c r B ->
  below SRight A B -> nh B \/ good B ->
  120 * Nat.max (lv A) (lv B) + 33 <= gfuel ->
  exists X, trsm rinv Or gfuel A B Upper SRight = Ok X /\ fit c r X /\ ske B X.
Proof.
  intros Vr Vc PA FA FB BL GB Hf.
  apply (fine_halts (trsm rinv Or gfuel A B Upper SRight) (fun X => fit c r X /\ ske B X)).
  - apply (trsm_halts Or HO rinv gfuel (Nat.max (lv A) (lv B)) Hf); (split; [|lia]); auto. eapply fit_pos; [| |exact FB]; auto.
  - eapply (trsm_fine Or HS QS PL EL HP rinv gfuel A r c B Upper SRight); auto. exact I.
Qed.

Variable lapack : dense -> outcome (dense * (nat -> nat)).
Hypothesis HL : forall d, d_r d = d_c d -> exists X p, lapack d = Ok (X, p).
Hypothesis HN : forall d, lapack d <> NoFuel.

Lemma getrf_succeeds r (A : matrix) gfuel fuel : valid r -> fit r r A -> luok A ->
  120 * lv A + 33 <= gfuel -> lv A < fuel ->
  exists L U, getrf rinv Or gfuel lapack fuel A = Ok (L, U) /\
    (tfit Lower r L /\ asdeep r A L /\ pos L /\ lv L <= lv A) /\ (tfit Upper r U /\ asdeep r A U /\ pos U /\ lv U <= lv A).
Proof.
  intros Vr FA LU Hf Hf2.
  destruct (getrf_halts Or HO rinv gfuel _ Hf lapack HN fuel A (conj (fit_pos r r A Vr Vr FA) (le_n _)) Hf2) as [H1 H2].
  destruct (fine_halts _ _ H1 (getrf_fine Or HS QS PL EL HP rinv gfuel lapack HL fuel A r Vr FA LU)) as [[L U] [E [[T1 D1] [T2 D2]]]].
  destruct (H2 _ E) as [[P1 L1] [P2 L2]]. exists L, U. cbn [fst snd] in *. auto 12.
Qed.

(** Factor, then the two solves (examples/lu.cpp, h_lu.cpp): B has one block column. *)
Lemma solve_succeeds r c (A B : matrix) gfuel fuel : valid r -> valid c -> fit r r A -> luok A -> fit r c B ->
  deg c = 1 -> below SLeft A B -> nh B \/ good B ->
  120 * Nat.max (lv A) (lv B) + 33 <= gfuel -> lv A < fuel ->
  exists L U Y X, getrf rinv Or gfuel lapack fuel A = Ok (L, U) /\ trsm rinv Or gfuel L B Lower SLeft = Ok Y /\
    trsm rinv Or gfuel U Y Upper SLeft = Ok X /\ fit r c X /\ ske B X.
Proof.
  intros Vr Vc FA LU FB Hc BL GB Hf Hf2.
  destruct (getrf_succeeds r A gfuel fuel Vr FA LU ltac:(lia) Hf2) as [L [U [E [[T1 [D1 [P1 L1]]] [T2 [D2 [P2 L2]]]]]]].
  destruct (trsm_left_succeeds Lower r c L B gfuel) as [Y [E1 [FY SY]]]; auto; [apply (D1 SLeft c); auto|lia|].
  pose proof (skel_lv _ _ (ske_skel _ _ SY)) as LY.
  destruct (trsm_left_succeeds Upper r c U Y gfuel) as [X [E2 [FX SX]]]; auto.
  - apply (D2 SLeft c); auto. eapply below_ske; eauto.
  - destruct GB; [left; eapply ske_nh; eauto|right; eapply ske_good; eauto].
  - lia.
  - exists L, U, Y, X. split; auto. split; auto. split; auto. split; auto. eapply ske_trans; eauto.
Qed.
End Succ.
