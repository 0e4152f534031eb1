(** Termination of gemm in terms of the nesting of its operands, and of the triangular
    operations and the block LU factorization. *)
From Coq Require Import List Arith ZArith QArith Lia Bool.
From Verif Require Import Prelude Ring MatFun Matrix MatOps MatSpec MatOpsProofs Gemm GemmSpec GemmProofs Triangular GemmTerm.
Import ListNotations.
Local Open Scope nat_scope.

Section Term.
Context {R : cring}.
Notation dense := (dense R).
Notation lowrank := (lowrank R).
Notation matrix := (matrix R).
Notation mat := (mat R).

(** Levels of nesting: 0 for a Dense, 1 for a LowRank, one more than the blocks for a
    Hierarchical. *)
Fixpoint lv (A : matrix) : nat :=
  match A with
  | ML _ => 1
  | MH m n b => S (gmax m n (fun i j => lv (b i j)))
  | _ => 0
  end.

Lemma lv_child m n b i j : i < m -> j < n -> lv (b i j) < lv (MH m n b).
Proof. intros Hi Hj. simpl. pose proof (gmax_in m n (fun i j => lv (b i j)) i j Hi Hj). simpl in H. lia. Qed.

Lemma deep_lv A : deep A <= lv A.
Proof.
  induction A as [d|l|m n b IH|r c]; simpl; auto. destruct (all_d m n b); [lia|]. apply le_n_S.
  apply gmax_le. intros i j Hi Hj. etransitivity; [apply IH|]. apply (gmax_in m n (fun i j => lv (b i j))); auto.
Qed.

Lemma skel_lv A : forall B, skel A B -> lv A = lv B.
Proof.
  induction A as [d|l|m n a IH|r c]; intros [d'|l'|m' n' b|r' c']; simpl; try tauto.
  intros [-> [-> H]]. f_equal. apply Nat.le_antisymm; apply gmax_le; intros i j Hi Hj.
  - rewrite (IH i j (b i j)) by auto. apply (gmax_in m n (fun i j => lv (b i j))); auto.
  - rewrite <- (IH i j (b i j)) by auto. apply (gmax_in m n (fun i j => lv (a i j))); auto.
Qed.

Lemma lv_split m n b : (forall i j, exists x, b i j = MD x) -> lv (MH m n b) = 1.
Proof.
  intros H. simpl. f_equal. apply Nat.le_0_r. apply gmax_le. intros i j _ _. destruct (H i j) as [x ->]. simpl. lia.
Qed.

Variable Or : oracles R.
Hypothesis HO : oracles_halt Or.

Lemma gemm_halts k fuel (A B C : matrix) alpha beta tA tB : pos A -> pos B -> pos C ->
  lv A <= k -> lv B <= k -> lv C <= k -> 120 * k + 33 <= fuel -> halts (gemm Or fuel A B C alpha beta tA tB).
Proof.
  intros PA PB PC LA LB LC H. apply (gemm_stops Or HO fuel); auto. unfold cost.
  pose proof (deep_lv A). pose proof (deep_lv B). pose proof (deep_lv C).
  pose proof (zw_le A). pose proof (zw_le B). pose proof (zw_le C). pose proof (base_le A B C). lia.
Qed.

Lemma gemm_new_halts k fuel (A B : matrix) alpha tA tB : pos A -> pos B ->
  lv A <= k -> lv B <= k -> 120 * k + 33 <= fuel -> halts (gemm_new Or fuel A B alpha tA tB).
Proof.
  intros PA PB LA LB H. apply (gemm_stops Or HO fuel); auto. unfold cost_new.
  pose proof (deep_lv A). pose proof (deep_lv B).
  pose proof (zw_le A). pose proof (zw_le B). pose proof (base_new_le A B). lia.
Qed.

Variable rinv : R -> R.
Variable gfuel : nat.
Variable k : nat.
Hypothesis Hk : 120 * k + 33 <= gfuel.

Definition ok (A : matrix) : Prop := pos A /\ lv A <= k.

Lemma ok_skel A B : skel A B -> ok A -> ok B.
Proof. intros H [P L]. split; [eapply skel_pos; eauto|]. rewrite <- (skel_lv _ _ H). exact L. Qed.
Lemma ok_child m n b i j : ok (MH m n b) -> i < m -> j < n -> ok (b i j).
Proof. intros [P L] Hi Hj. split; [eapply pos_child; eauto|]. pose proof (lv_child m n b i j Hi Hj). lia. Qed.
Lemma ok_split m n b : 1 <= k -> 0 < m -> 0 < n -> (forall i j, exists x, b i j = MD x) -> ok (MH m n b).
Proof. intros H1 H2 H3 H. split; [apply pos_split; auto|]. rewrite lv_split; auto. Qed.
Lemma ok_H m n b : ok (MH m n b) -> 1 <= k.
Proof. intros [_ L]. simpl in L. lia. Qed.

Lemma acc_gemm_halts alpha A B C : ok A -> ok B -> ok C ->
  halts (acc_gemm Or gfuel alpha A B C) /\ forall X, acc_gemm Or gfuel alpha A B C = Ok X -> skel C X.
Proof.
  intros [P1 L1] [P2 L2] [P3 L3]. split; [apply (gemm_halts k); auto|].
  intros X E. exact (gemm_skel Or gfuel _ _ _ _ _ _ _ _ E).
Qed.

Ltac hb := apply halts_bind; [|let E := fresh "E" in intros ? E].
Ltac ha := apply halts_assert; intros ?.
Ltac bok H := let x := fresh "x" in let E := fresh "E" in apply bind_Ok in H; destruct H as [x [E H]].

(** A loop of accumulating products. *)
Lemma acc_loop n (f : nat -> matrix -> outcome matrix) (c : matrix) : ok c ->
  (forall i x, i < n -> ok x -> halts (f i x) /\ forall y, f i x = Ok y -> skel x y) ->
  halts (for_loop n f c) /\ forall y, for_loop n f c = Ok y -> skel c y.
Proof.
  intros Hc H. split.
  - apply (halts_loop _ _ (fun _ x => skel c x)); [apply skel_refl|]. intros i x Hi Sx.
    destruct (H i x Hi (ok_skel _ _ Sx Hc)) as [H1 H2]. split; auto. intros y Hy. eapply skel_trans; eauto.
  - intros y Hy. apply (for_loop_inv_out _ _ _ _ (fun _ x => skel c x) Hy); [apply skel_refl|].
    intros i x x' Hi Sx E. destruct (H i x Hi (ok_skel _ _ Sx Hc)) as [H1 H2]. eapply skel_trans; eauto.
Qed.

Definition okgrid (m n : nat) (b : nat -> nat -> matrix) : Prop := forall i j, i < m -> j < n -> ok (b i j).
Definition skelgrid (m n : nat) (b b' : nat -> nat -> matrix) : Prop := forall i j, i < m -> j < n -> skel (b i j) (b' i j).

Lemma okgrid_skel m n b b' : skelgrid m n b b' -> okgrid m n b -> okgrid m n b'.
Proof. intros H1 H2 i j Hi Hj. eapply ok_skel; [apply H1; auto|apply H2; auto]. Qed.
Lemma skelgrid_refl m n b : skelgrid m n b b.
Proof. intros i j _ _. apply skel_refl. Qed.
Lemma skelgrid_upd m n b b' i j x : skelgrid m n b b' -> skel (b' i j) x -> skelgrid m n b (bupd b' i j x).
Proof.
  intros H S i' j' Hi Hj. unfold bupd. destruct (Nat.eqb_spec i' i) as [->|]; [destruct (Nat.eqb_spec j' j) as [->|]|]; simpl; auto.
  eapply skel_trans; [apply H; auto|exact S].
Qed.

Lemma run_cells_halts m n (l : list (nat * nat)) f : forall b,
  (forall i j, In (i, j) l -> i < m /\ j < n) -> okgrid m n b ->
  (forall b i j, In (i, j) l -> okgrid m n b -> halts (f b i j) /\ forall x, f b i j = Ok x -> skel (b i j) x) ->
  halts (run_cells l f b) /\ forall b', run_cells l f b = Ok b' -> skelgrid m n b b'.
Proof.
  induction l as [|[i j] l IH]; intros b Hl Hb Hf; cbn [run_cells].
  - split; [apply halts_Ok|]. intros b' E. inversion E. apply skelgrid_refl.
  - destruct (Hf b i j (or_introl eq_refl) Hb) as [H1 H2].
    assert (U : forall x, f b i j = Ok x -> skelgrid m n b (bupd b i j x)).
    { intros x E. apply skelgrid_upd; [apply skelgrid_refl|auto]. }
    assert (G : forall x, f b i j = Ok x -> halts (run_cells l f (bupd b i j x)) /\
      forall b', run_cells l f (bupd b i j x) = Ok b' -> skelgrid m n (bupd b i j x) b').
    { intros x E. apply IH; [intros; apply Hl; now right|eapply okgrid_skel; [apply U; exact E|exact Hb]|].
      intros. apply Hf; auto. now right. }
    split.
    + hb; auto. apply (G a E).
    + intros b' E. bok E. specialize (U x E0). destruct (G x E0) as [_ G2]. specialize (G2 b' E).
      intros i' j' Hi Hj. eapply skel_trans; [apply U|apply G2]; auto.
Qed.

Lemma in_cols_rows m n i j : In (i, j) (cols_rows m n) -> i < m /\ j < n.
Proof.
  unfold cols_rows. rewrite in_flat_map. intros [y [Hy H]]. apply in_map_iff in H. destruct H as [x [E Hx]].
  inversion E; subst. apply in_seq in Hx, Hy. lia.
Qed.
Lemma in_rows_down m i j : In (i, j) (rows_down m) -> i < m /\ j = 0.
Proof.
  unfold rows_down. rewrite in_map_iff. intros [x [E Hx]]. inversion E; subst. apply in_rev in Hx. apply in_seq in Hx. lia.
Qed.

Lemma at_halts m n (a : nat -> nat -> matrix) i j : halts (at_ m n a i j).
Proof. unfold at_. ha. apply halts_Ok. Qed.
Lemma at_in m n (a : nat -> nat -> matrix) i j x : at_ m n a i j = Ok x -> x = a i j /\ i < m /\ j < n.
Proof.
  unfold at_. intros H. apply assert_Ok in H. destruct H as [Q H]. rewrite andb_true_iff, !Nat.ltb_lt in Q. inversion H. tauto.
Qed.

Definition rec_ok (m n : nat) (rec : nat -> matrix -> outcome matrix) : Prop := forall i c, i < m -> i < n -> ok c ->
  halts (rec i c) /\ forall x, rec i c = Ok x -> skel c x.

Lemma hh_trsm_halts rec m n a m' n' b u s : rec_ok m n rec -> okgrid m n a -> okgrid m' n' b ->
  halts (hh_trsm Or gfuel rec m n a m' n' b u s) /\
  forall b', hh_trsm Or gfuel rec m n a m' n' b u s = Ok b' -> skelgrid m' n' b b'.
Proof.
  intros HR Ha Hb. unfold hh_trsm.
  assert (CELL : forall (b : nat -> nat -> matrix) i j q K (l r : nat -> outcome matrix), okgrid m' n' b -> i < m' -> j < n' ->
    (forall t, t < K -> halts (l t) /\ forall x, l t = Ok x -> ok x) ->
    (forall t, t < K -> halts (r t) /\ forall x, r t = Ok x -> ok x) ->
    let f := fun t c => let* x := l t in let* y := r t in acc_gemm Or gfuel rm1 x y c in
    let e := let* c := for_loop K f (b i j) in let* _ := at_ m n a q q in rec q c in
    halts e /\ forall x, e = Ok x -> skel (b i j) x).
  { intros b0 i j q K l r Hb0 Hi Hj Hl Hr f e.
    destruct (acc_loop K f (b0 i j) (Hb0 i j Hi Hj)) as [L1 L2].
    { intros t x Ht Hx. destruct (Hl t Ht) as [l1 l2]. destruct (Hr t Ht) as [r1 r2]. split.
      - unfold f. hb; auto. hb; auto. apply acc_gemm_halts; auto.
      - intros y Hy. unfold f in Hy. bok Hy. bok Hy. eapply acc_gemm_halts; [| | |exact Hy]; auto. }
    split.
    - unfold e. hb; auto. hb; [apply at_halts|]. apply at_in in E0. destruct E0 as [_ [Q1 Q2]].
      apply HR; auto. eapply ok_skel; [apply L2; exact E|apply Hb0; auto].
    - intros x Hx. unfold e in Hx. bok Hx. bok Hx. apply at_in in E0. destruct E0 as [_ [Q1 Q2]].
      eapply skel_trans; [apply L2; exact E|]. eapply HR; [exact Q1|exact Q2| |exact Hx].
      eapply ok_skel; [apply L2; exact E|apply Hb0; auto]. }
  assert (AT : forall i j, halts (at_ m n a i j) /\ forall x, at_ m n a i j = Ok x -> ok x).
  { intros i j. split; [apply at_halts|]. intros x E. apply at_in in E. destruct E as [-> [E1 E2]]. apply Ha; auto. }
  assert (OK : forall (b : nat -> nat -> matrix) i j, okgrid m' n' b -> i < m' -> j < n' ->
     halts (Ok (b i j)) /\ forall x, Ok (b i j) = Ok x -> ok x).
  { intros b0 i j H Hi Hj. split; [apply halts_Ok|]. intros x E. inversion E; subst. apply H; auto. }
  destruct u, s.
  - destruct (Nat.eqb_spec n' 1) as [->|]; [|split; [discriminate|discriminate]].
    apply run_cells_halts; auto.
    + intros i j H. apply in_rows_down in H. lia.
    + intros b0 i j H Hb0. apply in_rows_down in H. destruct H as [Hi ->].
      apply (CELL b0 i 0 i (m' - 1 - i) (fun t => at_ m n a i (m' - 1 - t)) (fun t => Ok (b0 (m' - 1 - t) 0))); auto.
      intros t Ht. apply OK; auto; lia.
  - apply run_cells_halts; auto.
    + intros i j H. apply in_ij_all in H. exact H.
    + intros b0 i j H Hb0. apply in_ij_all in H. destruct H as [Hi Hj].
      destruct (CELL b0 i j j j (fun t => Ok (b0 i t)) (fun t => at_ m n a t j)) as [C1 C2]; auto.
      intros t Ht. apply OK; auto; lia.
  - apply run_cells_halts; auto.
    + intros i j H. apply in_cols_rows in H. exact H.
    + intros b0 i j H Hb0. apply in_cols_rows in H. destruct H as [Hi Hj].
      apply (CELL b0 i j i i (fun t => at_ m n a i t) (fun t => Ok (b0 t j))); auto.
      intros t Ht. apply OK; auto; lia.
  - split; discriminate.
Qed.

Lemma skelgrid_MH m n b b' : skelgrid m n b b' -> skel (MH m n b) (MH m n b').
Proof. intros H. simpl. auto. Qed.

Lemma trsm_halts (A : matrix) : forall B u s, ok A -> ok B ->
  halts (trsm rinv Or gfuel A B u s) /\ forall X, trsm rinv Or gfuel A B u s = Ok X -> skel B X.
Proof.
  induction A as [d|l|m n a IH|r c]; intros B u s HA HB; cbn [trsm].
  - destruct B as [b|b|m' n' b|r' c']; try (split; discriminate).
    + unfold d_trsm. destruct (_ && _); split; try discriminate. simpl. intros X E. inversion E. exact I.
    + unfold d_trsm. destruct (_ && _); split; try discriminate. simpl. intros X E. inversion E. exact I.
  - split; discriminate.
  - pose proof (ok_H _ _ _ HA) as K1. assert (P : pos (MH m n a)) by apply HA. destruct P as [P1 [P2 _]].
    assert (HR : rec_ok m n (fun k c => trsm rinv Or gfuel (a k k) c u s)).
    { intros i c Hi1 Hi2 Hc. apply IH; auto. eapply ok_child; eauto. }
    assert (GA : okgrid m n a) by (intros i j Hi Hj; eapply ok_child; eauto).
    assert (HD : forall d : dense, halts
        (let* BH := split (MD d) (side_rows s m) (side_cols s n) in
        match BH with
        | MH m' n' b => let* x := hh_trsm Or gfuel (fun k c => trsm rinv Or gfuel (a k k) c u s) m n a m' n' b u s in Ok (join (d_r d) (d_c d) m' n' x)
        | _ => Abort
        end)).
    { intros d. hb; [apply split_halts|]. destruct (split_MD _ _ _ _ E) as [x [-> [X1 _]]].
      hb; [|apply halts_Ok]. apply hh_trsm_halts; auto. intros i j _ _. destruct (X1 i j) as [y ->]. split; simpl; auto; lia. }
    destruct B as [b|b|m' n' b|r' c'].
    + split; [hb; [apply HD|apply halts_Ok]|]. intros X E. bok E. inversion E. exact I.
    + split; [hb; [apply HD|apply halts_Ok]|]. intros X E. bok E. inversion E. exact I.
    + assert (GB : okgrid m' n' b) by (intros i j Hi Hj; eapply ok_child; eauto).
      destruct (hh_trsm_halts _ m n a m' n' b u s HR GA GB) as [H1 H2]. split.
      * hb; auto. apply halts_Ok.
      * intros X E. bok E. inversion E. apply skelgrid_MH. auto.
    + split; discriminate.
  - split; discriminate.
Qed.

(** ** trmm *)

Lemma hh_trmm_halts rec nd m n a m' n' b s u t alpha :
  (forall q i j, q < m -> q < n -> i < m' -> j < n' ->
     halts (rec (a q q) (b i j)) /\ forall x, rec (a q q) (b i j) = Ok x -> skel (b i j) x) ->
  (forall i j, i < m' -> j < n' -> ok (b i j)) -> okgrid m n a ->
  halts (hh_trmm Or gfuel rec nd m n a m' n' b s u t alpha) /\
  forall b', hh_trmm Or gfuel rec nd m n a m' n' b s u t alpha = Ok b' -> skelgrid m' n' b b'.
Proof.
  intros HR Hb Ha. unfold hh_trmm.
  destruct (Nat.eqb_spec m n) as [<-|]; [|split; discriminate].
  destruct (Nat.eqb_spec m (along s m' n')) as [->|]; [|split; discriminate].
  destruct (negb t || nd); [|split; discriminate].
  assert (CELL : forall (i j q K : nat) (l r : nat -> matrix), i < m' -> j < n' -> q < along s m' n' ->
    (forall t, t < K -> ok (l t)) -> (forall t, t < K -> ok (r t)) ->
    let e := let* c := rec (a q q) (b i j) in for_loop K (fun t c => acc_gemm Or gfuel alpha (l t) (r t) c) c in
    halts e /\ forall x, e = Ok x -> skel (b i j) x).
  { intros i j q K l r Hi Hj Hq Hl Hr e. destruct (HR q i j Hq Hq Hi Hj) as [R1 R2].
    assert (G : forall c, rec (a q q) (b i j) = Ok c -> halts (for_loop K (fun t c => acc_gemm Or gfuel alpha (l t) (r t) c) c) /\
      forall y, for_loop K (fun t c => acc_gemm Or gfuel alpha (l t) (r t) c) c = Ok y -> skel c y).
    { intros c E. apply acc_loop; [eapply ok_skel; [apply R2; exact E|apply Hb; auto]|].
      intros t0 x Ht Hx. apply acc_gemm_halts; auto. }
    split.
    - unfold e. hb; auto. apply (G _ E).
    - intros x Hx. unfold e in Hx. bok Hx. eapply skel_trans; [apply R2; exact E|apply (G _ E); exact Hx]. }
  match goal with |- halts (collect _ _ ?F) /\ _ => assert (C : forall i j, i < m' -> j < n' ->
    halts (F i j) /\ forall x, F i j = Ok x -> skel (b i j) x) end.
  { intros i j Hi Hj. destruct u, s; cbn [along] in *.
    - apply (CELL i j i (m' - S i) (fun t => a i (S i + t)) (fun t => b (S i + t) j)); auto;
        intros t0 Ht; [apply Ha|apply Hb]; lia.
    - apply (CELL i j j j (fun t => b i (j - 1 - t)) (fun t => a (j - 1 - t) j)); auto;
        intros t0 Ht; [apply Hb|apply Ha]; lia.
    - apply (CELL i j i i (fun t => a i (i - 1 - t)) (fun t => b (i - 1 - t) j)); auto;
        intros t0 Ht; [apply Ha|apply Hb]; lia.
    - apply (CELL i j j (n' - S j) (fun t => b i (S j + t)) (fun t => a (S j + t) j)); auto;
        intros t0 Ht; [apply Hb|apply Ha]; lia. }
  split.
  - apply halts_collect. intros i j Hi Hj. apply C; auto.
  - intros b' E i j Hi Hj. eapply C; auto. exact (collect_spec _ _ _ _ E i j Hi Hj).
Qed.

Lemma trmm_halts nd fuel : forall (A B : matrix) s u t un alpha, ok A -> ok B -> lv A + lv B < fuel ->
  halts (trmm Or gfuel nd fuel A B s u t un alpha) /\
  forall X, trmm Or gfuel nd fuel A B s u t un alpha = Ok X -> skel B X.
Proof.
  induction fuel as [|f IH]; intros A B s u t un alpha HA HB Hf; [lia|]. cbn [trmm].
  assert (DT : forall (a b : dense), halts (d_trmm a b s u t un alpha)).
  { intros. unfold d_trmm. ha. ha. apply halts_Ok. }
  assert (HD : forall m n a (d : dense), ok (MH m n a) -> lv (MH m n a) < S f -> halts
      (assert! m =? n in
      assert! nrows (MH m n a) =? along s (d_r d) (d_c d) in
      let* BH := split (MD d) (side_rows s m) (side_cols s m) in
      match BH with
      | MH m' n' b => let* x := hh_trmm Or gfuel (fun A B => trmm Or gfuel nd f A B s u t un alpha) nd m n a m' n' b s u t alpha in
                      Ok (join (d_r d) (d_c d) m' n' x)
      | _ => Abort
      end)).
  { intros m n a d HM HL. pose proof (ok_H _ _ _ HM) as K1. ha. ha. hb; [apply split_halts|].
    destruct (split_MD _ _ _ _ E) as [x [-> [X1 _]]].
    hb; [|apply halts_Ok].
    assert (XO : forall i j, ok (x i j)) by (intros i j; destruct (X1 i j) as [y ->]; split; simpl; auto; lia).
    apply hh_trmm_halts; auto.
    - intros q i j Hq1 Hq2 Hi Hj. apply IH; auto; [eapply ok_child; eauto|].
      destruct (X1 i j) as [y ->]. pose proof (lv_child m n a q q Hq1 Hq2). simpl (lv (MD y)). lia.
    - intros i j Hi Hj. eapply ok_child; eauto. }
  destruct A as [a|a|m n a|ra ca].
  - destruct B as [b|b|m' n' b|r' c'].
    + split; [hb; [apply DT|apply halts_Ok]|]. intros X E. bok E. inversion E. exact I.
    + split; [ha; ha; hb; [apply DT|apply halts_Ok]|]. intros X E. apply assert_Ok in E. destruct E as [_ E].
      apply assert_Ok in E. destruct E as [_ E]. bok E. inversion E. exact I.
    + pose proof (ok_H _ _ _ HB) as K1.
      assert (G : forall AH, split (MD a) (along s m' n') (along s m' n') = Ok AH ->
        exists x, AH = MH (along s m' n') (along s m' n') x /\
        forall y, halts (hh_trmm Or gfuel (fun A B => trmm Or gfuel nd f A B s u t un alpha) nd (along s m' n') (along s m' n') x m' n' b s u t alpha) /\
        (hh_trmm Or gfuel (fun A B => trmm Or gfuel nd f A B s u t un alpha) nd (along s m' n') (along s m' n') x m' n' b s u t alpha = Ok y -> skelgrid m' n' b y)).
      { intros AH E. destruct (split_MD _ _ _ _ E) as [x [-> [X1 _]]]. exists x. split; auto. intros y.
        assert (XO : forall i j, ok (x i j)) by (intros i j; destruct (X1 i j) as [z ->]; split; simpl; auto; lia).
        edestruct (hh_trmm_halts (fun A B => trmm Or gfuel nd f A B s u t un alpha) nd (along s m' n') (along s m' n') x m' n' b s u t alpha) as [H1 H2].
        - intros q i j Hq1 Hq2 Hi Hj. apply IH; auto; [eapply ok_child; eauto|].
          destruct (X1 q q) as [z ->]. pose proof (lv_child m' n' b i j Hi Hj). simpl (lv (MD z)). lia.
        - intros i j Hi Hj. eapply ok_child; eauto.
        - intros i j Hi Hj. auto.
        - split; auto. }
      split.
      * ha. ha. hb; [apply split_halts|]. destruct (G _ E) as [x [-> H1]].
        destruct (H1 (fun _ _ => ME 0 0)) as [H2 _]. hb; auto. apply halts_Ok.
      * intros X E. apply assert_Ok in E. destruct E as [_ E]. apply assert_Ok in E. destruct E as [_ E]. bok E. destruct (G _ E0) as [y [-> H1]].
        bok E. destruct (H1 x) as [_ H2]. inversion E. apply skelgrid_MH. auto.
    + split; discriminate.
  - split; discriminate.
  - destruct B as [b|b|m' n' b|r' c'].
    + split.
      * hb; [|apply halts_Ok]. apply HD; auto. lia.
      * intros X E. bok E. inversion E. exact I.
    + split.
      * ha. ha. hb; [|apply halts_Ok]. apply HD; auto. lia.
      * intros X E. apply assert_Ok in E. destruct E as [_ E]. apply assert_Ok in E. destruct E as [_ E]. bok E. inversion E. exact I.
    + edestruct (hh_trmm_halts (fun A B => trmm Or gfuel nd f A B s u t un alpha) nd m n a m' n' b s u t alpha) as [H1 H2].
      * intros q i j Hq1 Hq2 Hi Hj. apply IH; [eapply ok_child; eauto|eapply ok_child; eauto|].
        pose proof (lv_child m n a q q Hq1 Hq2). pose proof (lv_child m' n' b i j Hi Hj). lia.
      * intros i j Hi Hj. eapply ok_child; eauto.
      * intros i j Hi Hj. eapply ok_child; eauto.
      * split; [hb; auto; apply halts_Ok|]. intros X E. bok E. inversion E. apply skelgrid_MH. auto.
    + split; discriminate.
  - split; discriminate.
Qed.

(** ** getrf *)

Variable lapack : dense -> outcome (dense * (nat -> nat)).
Hypothesis lapack_halts : forall d, halts (lapack d).

Lemma d_getrf_halts d : halts (d_getrf lapack d).
Proof. unfold d_getrf. hb; [apply lapack_halts|]. destruct a. ha. apply halts_Ok. Qed.

Definition lt_grid (q m n : nat) (b : nat -> nat -> matrix) : Prop :=
  forall i j, i < m -> j < n -> pos (b i j) /\ lv (b i j) <= q.

Lemma lt_ok q m n b : q <= k -> lt_grid q m n b -> okgrid m n b.
Proof. intros H1 H2 i j Hi Hj. destruct (H2 i j Hi Hj). split; auto. lia. Qed.

Lemma lt_upd q m n b i j x : lt_grid q m n b -> pos x -> lv x <= q -> lt_grid q m n (bupd b i j x).
Proof. intros H P L i' j' Hi Hj. unfold bupd. destruct ((i' =? i) && (j' =? j)); auto. Qed.

Lemma lt_skel q m n b b' : lt_grid q m n b -> skelgrid m n b b' -> lt_grid q m n b'.
Proof.
  intros H S i j Hi Hj. destruct (H i j Hi Hj) as [P L]. specialize (S i j Hi Hj).
  split; [eapply skel_pos; eauto|]. rewrite <- (skel_lv _ _ S). auto.
Qed.

Lemma loop_both {S : Type} n (f : nat -> S -> outcome S) (P : S -> Prop) s : P s ->
  (forall i x, i < n -> P x -> halts (f i x) /\ forall y, f i x = Ok y -> P y) ->
  halts (for_loop n f s) /\ forall y, for_loop n f s = Ok y -> P y.
Proof.
  intros Hs H. split.
  - apply (halts_loop _ _ (fun _ x => P x)); auto.
  - intros y E. apply (for_loop_inv_out _ _ _ _ (fun _ x => P x) E); auto. intros i x x' Hi Hx Ex. eapply H; eauto.
Qed.

Definition lu_ok q (rec : matrix -> outcome (matrix * matrix)) : Prop := forall A, pos A -> lv A <= q ->
  halts (rec A) /\ forall p, rec A = Ok p -> (pos (fst p) /\ lv (fst p) <= q) /\ (pos (snd p) /\ lv (snd p) <= q).

Lemma both_bind {S T : Type} (x : outcome S) (f : S -> outcome T) (P : S -> Prop) (Q : T -> Prop) :
  halts x /\ (forall s, x = Ok s -> P s) -> (forall s, P s -> halts (f s) /\ forall t, f s = Ok t -> Q t) ->
  halts (bind x f) /\ forall t, bind x f = Ok t -> Q t.
Proof.
  intros [H1 H2] H. destruct x as [s| | | |]; cbn [bind]; try (split; [discriminate|discriminate]).
  - apply H. auto.
  - exfalso. apply H1. reflexivity.
Qed.

Definition lu_st (q m n : nat) (st : @pair_t R) : Prop := lt_grid q m n (fst st) /\ lt_grid q m n (snd st).

Lemma lu_step_halts q rec m n t st : q <= k -> lu_ok q rec -> t < m -> t < n -> lu_st q m n st ->
  halts (lu_step rinv Or gfuel rec m n t st) /\
  forall st', lu_step rinv Or gfuel rec m n t st = Ok st' -> lu_st q m n st'.
Proof.
  intros Hq HR Hm Hn [HL HU]. unfold lu_step.
  eapply both_bind; [apply HR; apply HU; auto|]. intros [Lt Ut] [[P1 P2] [P3 P4]]. cbn [fst snd] in P1, P2, P3, P4.
  eapply (both_bind _ _ (lu_st q m n)).
  { apply loop_both; [split; cbn [fst snd]; apply lt_upd; auto|].
    intros p x Hp [X1 X2]. destruct (X2 (S t + p) t) as [Y1 Y2]; [lia|auto|].
    assert (X3 : lt_grid q m n (bupd (snd x) (S t + p) t (ME (nrows (snd x (S t + p) t)) (ncols (snd x (S t + p) t))))).
    { apply lt_upd; auto; simpl; auto; lia. }
    eapply both_bind; [apply trsm_halts; [eapply lt_ok; [exact Hq|exact X3| |]; auto|split; [auto|lia]]|].
    intros y Sy. split; [apply halts_Ok|]. intros z E. inversion E; subst. split; cbn [fst snd]; auto.
    apply lt_upd; auto; [eapply skel_pos; eauto|rewrite <- (skel_lv _ _ Sy); auto]. }
  intros [L1 U1] [HL1 HU1]. cbn [fst snd] in HL1, HU1.
  eapply (both_bind _ _ (lu_st q m n)).
  { apply loop_both; [split; auto|].
    intros p x Hp [X1 X2]. destruct (X2 t (S t + p)) as [Y1 Y2]; [auto|lia|].
    assert (X3 : lt_grid q m n (bupd (fst x) t (S t + p) (ME (nrows (snd x t (S t + p))) (ncols (snd x t (S t + p)))))).
    { apply lt_upd; auto; simpl; auto; lia. }
    eapply both_bind; [apply trsm_halts; [eapply lt_ok; [exact Hq|exact X3| |]; auto|split; [auto|lia]]|].
    intros y Sy. split; [apply halts_Ok|]. intros z E. inversion E; subst. split; cbn [fst snd]; auto.
    apply lt_upd; auto; [eapply skel_pos; eauto|rewrite <- (skel_lv _ _ Sy); auto]. }
  intros [L2 U2] [HL2 HU2]. cbn [fst snd] in HL2, HU2.
  eapply (both_bind _ _ (lt_grid q m n)).
  { apply loop_both; [auto|]. intros p x Hp X. apply loop_both; [auto|]. intros v y Hv Y.
    pose proof (lt_ok _ _ _ _ Hq Y) as OY. pose proof (lt_ok _ _ _ _ Hq HL2) as OL.
    destruct (Y (S t + p) (S t + v)) as [Z1 Z2]; [lia|lia|].
    eapply both_bind; [apply acc_gemm_halts; [apply OL; auto; lia|apply OY; auto; lia|apply OY; lia]|].
    intros z Sz. split; [apply halts_Ok|]. intros w E. inversion E; subst.
    apply lt_upd; auto; [eapply skel_pos; eauto|rewrite <- (skel_lv _ _ Sz); auto]. }
  intros U3 HU3. split; [apply halts_Ok|]. intros w E. inversion E; subst. split; auto.
Qed.

Lemma getrf_halts fuel : forall (A : matrix), ok A -> lv A < fuel ->
  halts (getrf rinv Or gfuel lapack fuel A) /\
  forall p, getrf rinv Or gfuel lapack fuel A = Ok p ->
    (pos (fst p) /\ lv (fst p) <= lv A) /\ (pos (snd p) /\ lv (snd p) <= lv A).
Proof.
  induction fuel as [|f IH]; intros A HA Hf; [lia|]. cbn [getrf].
  destruct A as [d|l|m n a|r c].
  - eapply (both_bind _ _ (fun _ => True)); [split; [apply d_getrf_halts|auto]|].
    intros [x y] _. split; [apply halts_Ok|]. intros p E. inversion E. simpl. auto.
  - split; discriminate.
  - set (q := gmax m n (fun i j => lv (a i j))). assert (Lq : lv (MH m n a) = S q) by reflexivity.
    assert (Hq : q <= k) by (destruct HA as [_ Q]; lia).
    assert (HR : lu_ok q (getrf rinv Or gfuel lapack f)).
    { intros B PB LB. destruct (IH B) as [I1 I2]; [split; auto; lia|lia|]. split; auto.
      intros p E. destruct (I2 p E) as [[A1 A2] [A3 A4]]. repeat split; auto; lia. }
    assert (Ga : lt_grid q m n a).
    { intros i j Hi Hj. split; [apply (pos_child m n a i j); auto; apply HA|]. apply (gmax_in m n (fun i j => lv (a i j))); auto. }
    assert (Ge : lt_grid q m n (fun _ _ => ME 0 0)) by (intros i j _ _; simpl; split; auto; lia).
    assert (Pm : 0 < m /\ 0 < n) by (destruct HA as [[P [Q _]] _]; auto).
    destruct (m <=? n) eqn:Emn; [|split; discriminate]. apply Nat.leb_le in Emn.
    eapply (both_bind _ _ (lu_st q m n)).
    { apply loop_both; [split; auto|]. intros i x Hi Hx. apply (lu_step_halts q); auto. lia. }
    intros [L U] [G1 G2]. cbn [fst snd] in G1, G2. split; [apply halts_Ok|]. intros p E. inversion E; subst. rewrite Lq. cbn [fst snd].
    assert (K : forall (b : nat -> nat -> matrix), lt_grid q m n b -> pos (MH m n b) /\ lv (MH m n b) <= S q).
    { intros b Gb. split; [split; [tauto|split; [tauto|intros i j Hi Hj; apply Gb; auto]]|].
      apply le_n_S. apply gmax_le. intros i j Hi Hj. apply Gb; auto. }
    split; apply K; auto.
  - split; discriminate.
Qed.
End Term.
