(** gemm over shared storage: what changes and what the result is. *)
From Coq Require Import List Arith ZArith QArith Lia Bool.
From Verif Require Import Prelude Osim IndexRange Ring MatFun Matrix MatOps MatSpec MatOpsProofs Gemm GemmSpec GemmProofs GemmCorrect GemmTheorems.
From Verif Require Import Heap HeapProofs HeapViews MgsHeap Tree TreeProofs TreeScale TreeSim HGemm HGemmOps HGemmAdd HGemmProofs HGemmFrame.
Import ListNotations.
Local Open Scope nat_scope.

Section Theorems.
Context {R : cring}.
Notation heap := (heap R).
Notation matrix := (matrix R).
Notation dense := (dense R).
Notation lowrank := (lowrank R).
Implicit Types (h : heap) (T A B C : htree) (alpha beta : R) (t tA tB : bool).

Lemma wf_mwf (M : matrix) : wf M -> mwf M.
Proof.
  induction M as [d|l|m n f IH|r c]; simpl; auto.
  - intros [W1 [W2 [W3 W4]]]. split; auto.
  - intros [W1 [W2 W3]]. split; auto. split; auto. intros i j Hi Hj. apply IH. apply W3; auto.
Qed.
Lemma mateq_ent (M : matrix) : forall M', mateq M M' -> wf M' -> wf M /\ feq (nrows M) (ncols M) (ent M) (ent M').
Proof.
  induction M as [d|l|m n f IH|r c]; intros [d'|l'|m' n' f'|r' c'] Q W; simpl in Q; try contradiction.
  - split; [exact I|]. apply Q.
  - split; [simpl in *; eapply leq_wf; eauto|]. simpl. apply leq_ent; auto. eapply leq_wf; eauto.
  - destruct Q as [-> [-> Q]]. assert (W' := W). destruct W' as [W1 [W2 W3]].
    assert (D : forall i j, i < m' -> j < n' -> nrows (f i j) = nrows (f' i j) /\ ncols (f i j) = ncols (f' i j)).
    { intros i j Hi Hj. apply mateq_rows; [apply Q; auto|]. apply wf_mwf. apply W3; auto. }
    split.
    + split; auto. split; auto. intros i j Hi Hj. destruct (W3 i j Hi Hj) as [V1 [V2 V3]].
      destruct (D i j) as [D1 D2]; auto. destruct (D i 0) as [D3 _]; auto. destruct (D 0 j) as [_ D4]; auto.
      split; [apply (IH i j _ (Q i j Hi Hj) V1)|]. split; congruence.
    + apply ent_blocks. intros bi bj i j Hbi Hbj Hi Hj.
      rewrite (offs_ext (bheight f) (bheight f') bi) by (intros k Hk; unfold bheight; apply D; lia).
      rewrite (offs_ext (bwidth f) (bwidth f') bj) by (intros k Hk; unfold bwidth; apply D; lia).
      destruct (W3 bi bj Hbi Hbj) as [V1 [V2 V3]].
      destruct (D bi bj) as [D1 D2]; auto. destruct (D bi 0) as [D3 _]; auto. destruct (D 0 bj) as [_ D4]; auto.
      unfold bheight in Hi; unfold bwidth in Hj.
      rewrite ent_block by (unfold bheight, bwidth; auto; lia).
      apply (IH bi bj _ (Q bi bj Hbi Hbj) V1); lia.
  - split; [exact I|]. intros i j Hi Hj. reflexivity.
Qed.

Variable Or : oracles R.

(** ** Frame *)
Lemma gemm_frame fuel A B C alpha beta tA tB h h' C' : nonnull C -> (forall d, tleaf C d -> good h d) ->
  hgemm Or fuel A B C alpha beta tA tB h = Ok (h', C') ->
  nbufs h <= nbufs h' /\
  (forall b, b < nbufs h -> size h' b = size h b /\ forall k, ~ tcell C b k -> val h' b k = val h b k) /\
  (forall b k, tcell C' b k -> tcell C b k \/ nbufs h <= b).
Proof.
  intros N L H. destruct (hgemm_fr Or fuel _ _ _ _ _ _ _ _ _ (good_tree _ _ N L) H) as [[F1 F2] [_ X]]. simpl in *.
  split; auto. split; auto. intros b k Hk. destruct (lt_dec b (nbufs h)); [left; auto|right; lia].
Qed.
Lemma gemm_others fuel A B C alpha beta tA tB h h' C' T : nonnull C -> (forall d, tleaf C d -> good h d) ->
  hgemm Or fuel A B C alpha beta tA tB h = Ok (h', C') ->
  nonnull T -> (forall d, tleaf T d -> good h d) -> tapart T C -> mateq (tread h' T) (tread h T) /\ tapart T C'.
Proof.
  intros N L H NT LT AP. destruct (hgemm_fr Or fuel _ _ _ _ _ _ _ _ _ (good_tree _ _ N L) H) as [F [_ X]]. simpl in *.
  pose proof (good_tree _ _ NT LT) as GT. split.
  - eapply tfr_tread; [exact F|exact GT|]. apply tapart_tclear; auto.
  - intros b k HT HC. pose proof (tgood_cell _ _ _ _ GT HT) as Hb. apply (AP b k HT). apply X; auto.
Qed.
Lemma gemm_new_frame fuel A B alpha tA tB h h' C : hgemm_new Or fuel A B alpha tA tB h = Ok (h', C) ->
  nbufs h <= nbufs h' /\ (forall b, b < nbufs h -> size h' b = size h b /\ forall k, val h' b k = val h b k) /\
  (forall b k, tcell C b k -> nbufs h <= b).
Proof.
  intros H. destruct (hgemm_new_fr Or fuel _ _ _ _ _ _ _ H) as [[F1 F2] [_ X]]. simpl in *. split; auto. split; auto.
  intros b Hb. destruct (F2 b Hb) as [S1 S2]. split; [auto|]. intros k. apply S2. unfold none. tauto.
Qed.

(** ** Values *)
Hypothesis HO : or_cong Or.
Lemma sim_read h T : nonnull T -> (forall d, tleaf T d -> good h d) -> mwf (tread h T) -> sim h T (tread h T).
Proof. intros N L W. split; [apply good_tree; auto|]. split; auto. apply mateq_refl. Qed.

Lemma gemm_same fuel A B C alpha beta tA tB h :
  nonnull A -> nonnull B -> nonnull C -> (forall d, tleaf A d \/ tleaf B d \/ tleaf C d -> good h d) ->
  wf (tread h A) -> wf (tread h B) -> wf (tread h C) -> separate C -> tapart A C -> tapart B C ->
  match hgemm Or fuel A B C alpha beta tA tB h, gemm Or fuel (tread h A) (tread h B) (tread h C) alpha beta tA tB with
  | Ok (h', C'), Ok M => mateq (tread h' C') M /\ separate C' /\ keep C C' /\ forall d, tleaf C' d -> good h' d
  | Abort, Abort | AssertFail, AssertFail | UB, UB | NoFuel, NoFuel => True
  | _, _ => False
  end.
Proof.
  intros NA NB NC L WA WB WC SP AA AB.
  pose proof (hgemm_sim Or HO fuel A B C _ _ _ alpha beta tA tB h (sim_read h A NA (fun d H => L d (or_introl H)) (wf_mwf _ WA))
    (sim_read h B NB (fun d H => L d (or_intror (or_introl H))) (wf_mwf _ WB)) (sim_read h C NC (fun d H => L d (or_intror (or_intror H))) (wf_mwf _ WC)) SP AA AB) as S.
  destruct (hgemm Or fuel A B C alpha beta tA tB h) as [[h' C']| | | |], (gemm Or fuel (tread h A) (tread h B) (tread h C) alpha beta tA tB); simpl in S; auto.
  destruct S as [_ [[G [_ Q]] [S1 [_ K]]]]. simpl in *. split; auto. split; auto. split; auto. intros d Hd. eapply tgood_leaf; eauto.
Qed.
Lemma gemm_product fuel A B C alpha beta tA tB h h' C' : oracles_near exact Or ->
  nonnull A -> nonnull B -> nonnull C -> (forall d, tleaf A d \/ tleaf B d \/ tleaf C d -> good h d) ->
  wf (tread h A) -> wf (tread h B) -> wf (tread h C) -> separate C -> tapart A C -> tapart B C ->
  trans_ok tA tB (tread h A) (tread h B) (tread h C) ->
  hgemm Or fuel A B C alpha beta tA tB h = Ok (h', C') ->
  feq (trows C) (tcols C) (ent (tread h' C'))
    (gemm_value (if tA then trows A else tcols A) (ent (tread h A)) (ent (tread h B)) (ent (tread h C)) alpha beta tA tB) /\
  mateq (tread h' A) (tread h A) /\ mateq (tread h' B) (tread h B).
Proof.
  intros NE NA NB NC L WA WB WC SP AA AB TO H.
  pose proof (gemm_same fuel A B C alpha beta tA tB h NA NB NC L WA WB WC SP AA AB) as S. rewrite H in S.
  destruct (gemm Or fuel (tread h A) (tread h B) (tread h C) alpha beta tA tB) as [M| | | |] eqn:E; try contradiction.
  destruct S as [Q _].
  destruct (gemm_exact Or NE fuel _ _ _ _ _ _ _ _ WA WB WC TO E) as [WM [_ V]].
  destruct (mateq_ent _ _ Q WM) as [_ V2]. destruct (tread_rows h C) as [R1 R2]. destruct (tread_rows h A) as [R3 R4].
  assert (D : nrows (tread h' C') = trows C /\ ncols (tread h' C') = tcols C).
  { destruct (mateq_rows _ _ Q (wf_mwf _ WM)) as [-> ->].
    destruct (gemm_exact Or NE fuel _ _ _ _ _ _ _ _ WA WB WC TO E) as [_ [SL _]]. apply same_layout_dims in SL; auto. destruct SL; lia. }
  destruct D as [D1 D2]. split.
  - intros i j Hi Hj. rewrite V2 by lia. rewrite V by lia. unfold opc. destruct tA; rewrite ?R3, ?R4; reflexivity.
  - assert (LC : forall d, tleaf C d -> good h d) by auto. split.
    + eapply (gemm_others fuel A B C alpha beta tA tB h h' C' A); eauto.
    + eapply (gemm_others fuel A B C alpha beta tA tB h h' C' B); eauto.
Qed.
End Theorems.

(** Exact low-rank arithmetic that only looks at the elements of its arguments. *)
Section Exact.
Context {R : cring}.
Definition lr_wfb (l : lowrank R) : bool :=
  (d_r (l_U l) =? l_r l) && (d_c (l_U l) =? d_r (l_S l)) && (d_c (l_S l) =? d_r (l_V l)) && (d_c (l_V l) =? l_c l).
Definition careful_oracles : oracles R := {|
  crank := fun d _ => Ok (lr_of d);
  ceps := fun d _ => Ok (lr_of d);
  lr_add := fun a b => if lr_wfb a && lr_wfb b && (l_r a =? l_r b) && (l_c a =? l_c b) then Ok (lr_of (Dn (l_r a) (l_c a) (madd (lr_ent a) (lr_ent b)))) else Abort
|}.
Lemma lr_wfb_wf l : lr_wfb l = true <-> lr_wf l.
Proof. unfold lr_wfb, lr_wf. rewrite !andb_true_iff, !Nat.eqb_eq. tauto. Qed.
Lemma lr_of_leq (x y : dense R) : deq x y -> leq (lr_of x) (lr_of y) /\ lr_fit (lr_of y).
Proof.
  intros [D1 [D2 D3]]. split; [|split; reflexivity]. unfold leq, deq, lr_of, lr_make. simpl. rewrite D1, D2 in *.
  split; auto. split; auto. split; auto. split; auto. split; auto. split; (split; [auto|split; [auto|intros i j _ _; reflexivity]]).
Qed.
Lemma careful_near : oracles_near exact careful_oracles.
Proof.
  destruct (exact_oracles_near (R := R)) as [N1 N2]. split; auto. intros a b c Wa Wb E1 E2 E. simpl in E.
  destruct (_ && _); [|discriminate]. apply N1; auto.
Qed.
Lemma careful_cong : or_cong careful_oracles.
Proof.
  split; [|split].
  - intros x y r H. apply lr_of_leq; auto.
  - intros x y e H. apply lr_of_leq; auto.
  - intros x y x' y' H1 H2 _ _. simpl.
    assert (Q : forall a b : lowrank R, leq a b -> lr_wfb a = lr_wfb b).
    { intros a b [E1 [E2 [E3 [E4 [[U1 [U2 _]] [[S1 [S2 _]] [V1 [V2 _]]]]]]]]. unfold lr_wfb. congruence. }
    rewrite (Q _ _ H1), (Q _ _ H2). assert (DX : l_r x = l_r x' /\ l_c x = l_c x') by (split; apply H1). assert (DY : l_r y = l_r y' /\ l_c y = l_c y') by (split; apply H2).
    destruct DX as [DX1 DX2], DY as [DY1 DY2]. rewrite DX1, DX2, DY1, DY2.
    destruct (lr_wfb x') eqn:B1; simpl; [|auto]. destruct (lr_wfb y') eqn:B2; simpl; [|auto].
    destruct (Nat.eqb_spec (l_r x') (l_r y')) as [E1|]; simpl; [|auto]. destruct (Nat.eqb_spec (l_c x') (l_c y')) as [E2|]; simpl; [|auto].
    apply lr_of_leq. split; [reflexivity|]. split; [reflexivity|]. simpl. intros i j Hi Hj. unfold madd.
    assert (WX : lr_wf x) by (apply lr_wfb_wf; rewrite (Q _ _ H1); auto). assert (WY : lr_wf y) by (apply lr_wfb_wf; rewrite (Q _ _ H2); auto).
    rewrite (leq_ent _ _ H1 WX) by lia. rewrite (leq_ent _ _ H2 WY) by lia. reflexivity.
Qed.
End Exact.
