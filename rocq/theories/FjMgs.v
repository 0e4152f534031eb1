(** examples/forkjoin_blocked_mgs_blr_qr.cpp: the loops and their parallel phases. *)
From Coq Require Import List Arith Lia Bool Permutation FunctionalExtensionality.
From Verif Require Import Prelude Ring MatFun Matrix MatOps Lapack Gemm MatOpsProofs Triangular Reflect QrTiled Sampled Mgs MgsProofs Blocked Osim
  Tasks TaskQr ForkJoin FjTiled FjBlocked.
Import ListNotations.
Local Open Scope nat_scope.

(** Line 54, lines 55-58, and the iterations of the loops 59-64 and 65-70. *)
Inductive mtask := Ort (j : nat) | Trq (j : nat) | Rup (j k : nat) | Aup (j k i : nat).

Definition mphases (p q : nat) : list (list mtask) :=
  flat_map (fun j => [[Ort j]; [Trq j]; map (Rup j) (seq (S j) (q - S j));
    flat_map (fun k => map (Aup j k) (seq 0 p)) (seq (S j) (q - S j))]) (seq 0 q).

Definition wcol (p : nat) : list blk := map BW (seq 0 p).
Definition fm_rd (p : nat) (t : mtask) : list blk :=
  match t with
  | Ort j => BR j j :: acol p 0 j ++ qcol p 0 j
  | Trq j => qcol p 0 j
  | Rup j k => BR j k :: wcol p ++ acol p 0 k
  | Aup j k i => [BQ i j; BR j k; BA i k]
  end.
Definition fm_wr (p : nat) (t : mtask) : list blk :=
  match t with
  | Ort j => BR j j :: qcol p 0 j
  | Trq j => wcol p
  | Rup j k => [BR j k]
  | Aup j k i => [BA i k]
  end.

Lemma in_wcol p x : In x (wcol p) <-> exists i, x = BW i /\ i < p.
Proof.
  unfold wcol. rewrite in_map_iff. split.
  - intros [i [<- H]]. apply in_seq in H. exists i. split; [auto|lia].
  - intros [i [-> H]]. exists i. split; [auto|]. apply in_seq. lia.
Qed.

Lemma rup_phase p j a n : independent (inl_ (fm_rd p)) (inl_ (fm_wr p)) (map (Rup j) (seq a n)).
Proof.
  apply independent_map; [intros x y E; inversion E; auto|]. intros k k' _ _ _ _ N x [<-|[]]. cbn [fm_rd fm_wr]. split; intros H.
  - destruct H as [H|H]; [inversion H; congruence|]. apply in_app_or in H. destruct H as [H|H].
    + apply in_wcol in H. destruct H as [i [E _]]. discriminate.
    + apply in_acol in H. destruct H as [i [E _]]. discriminate.
  - destruct H as [H|[]]. inversion H; congruence.
Qed.
Lemma NoDup_pairs {A B C} (f : A -> B -> C) l1 l2 : (forall a b a' b', f a b = f a' b' -> a = a' /\ b = b') ->
  NoDup l1 -> NoDup l2 -> NoDup (flat_map (fun a => map (f a) l2) l1).
Proof.
  intros Hf H1 H2. induction H1 as [|x l Hx H1 IH]; simpl; [constructor|].
  assert (Hm : NoDup (map (f x) l2)) by (apply FinFun.Injective_map_NoDup; [intros b b' E; apply Hf in E; tauto|auto]).
  assert (HD : forall y, In y (map (f x) l2) -> ~ In y (flat_map (fun a => map (f a) l2) l)).
  { intros y Hy Hy'. apply in_map_iff in Hy. destruct Hy as [b [<- _]]. apply in_flat_map in Hy'. destruct Hy' as [a [Ha Hb]].
    apply in_map_iff in Hb. destruct Hb as [b' [E _]]. apply Hf in E. destruct E; subst. auto. }
  revert Hm HD. induction (map (f x) l2) as [|y m IHm]; simpl; auto. intros Hm HD. inversion Hm; subst. constructor.
  - intros Hy. apply in_app_or in Hy. destruct Hy as [Hy|Hy]; auto. apply (HD y); auto.
  - apply IHm; auto.
Qed.
Lemma aup_phase p j a n : independent (inl_ (fm_rd p)) (inl_ (fm_wr p)) (flat_map (fun k => map (Aup j k) (seq 0 p)) (seq a n)).
Proof.
  split.
  - apply NoDup_pairs; try apply seq_NoDup. intros k i k' i' E. inversion E. auto.
  - intros x y Hx Hy N. apply in_flat_map in Hx. destruct Hx as [k [_ Hx]]. apply in_map_iff in Hx. destruct Hx as [i [<- _]].
    apply in_flat_map in Hy. destruct Hy as [k' [_ Hy]]. apply in_map_iff in Hy. destruct Hy as [i' [<- _]].
    assert (N' : BA i k <> BA i' k') by (intros E; inversion E; congruence).
    intros z [<-|[]]. cbn [fm_rd fm_wr]. split; intros H; repeat destruct H as [H|H]; try discriminate; try congruence; destruct H.
Qed.
Theorem mgs_independent p q : Forall (independent (inl_ (fm_rd p)) (inl_ (fm_wr p))) (mphases p q).
Proof.
  apply Forall_flat_map. intros j _. constructor; [apply independent_one|]. constructor; [apply independent_one|].
  constructor; [apply rup_phase|]. constructor; [|constructor]. apply aup_phase.
Qed.

Section Run.
Context {R : cring}.
Notation dense := (dense R).
Notation matrix := (matrix R).
Notation grid := (grid R).
Variable L : lapack R.
Variable Or : oracles R.
Variable gfuel : nat.
Notation g := (gemm Or gfuel).

(** *** orthogonalize_block_col *)

(** mgs_qr.cpp:281-321, as in mgs_qr. *)
Definition ortho_col (fuel p j : nat) (A Q : grid) (Rjj : matrix) : outcome (grid * matrix) :=
  match Rjj with
  | MD _ => let* (Q', Rb) := ortho_dense L Or gfuel p j A Q in Ok (Q', MD Rb)
  | MH _ _ _ =>
      let* (P, nC, SA, QL) := split_block_col p j A in
      let* (_, QS, R') := mgs_qr L Or gfuel fuel (MH P nC SA) (MH P nC SA) Rjj in
      match QS with
      | MH P' nC' QS => let* Q' := restore_block_col p j P' nC' QS QL Q in Ok (Q', R')
      | _ => Abort
      end
  | _ => Abort
  end.
Lemma mgs_qr_ortho fuel p q a qm qn b rm rn r :
  mgs_qr L Or gfuel (S fuel) (MH p q a) (MH qm qn b) (MH rm rn r) =
  assert! qm =? p in assert! qn =? q in assert! rm =? q in assert! rn =? q in
  let* (a, b, r) := for_loop q (mgs_step Or gfuel (ortho_col fuel p) p q) (a, b, r) in
  Ok (MH p q a, MH p q b, MH q q r).
Proof. reflexivity. Qed.

(** *** The loops, lines 53-71; the last component is QjT. *)
Definition mst := (grid * grid * grid * (nat -> matrix))%type.
Definition fj_rjk (p j k : nat) (QT : nat -> matrix) (A Rg : grid) : outcome grid :=
  let* r := for_loop p (fun i r => g (QT i) (A i k) r 1%r 1%r false false) (Rg j k) in Ok (bupd Rg j k r).
Definition fj_aik (j k i : nat) (Q Rg A : grid) : outcome grid :=
  let* x := g (Q i j) (Rg j k) (A i k) (- (1))%r 1%r false false in Ok (bupd A i k x).
Definition fj_step (fuel p q j : nat) (s : mst) : outcome mst :=
  let '(A, Q, Rg, W) := s in
  let* (Q, r) := ortho_col fuel p j A Q (Rg j j) in
  let Rg := bupd Rg j j r in
  let* QT := collectv (ME 0 0) p (fun i => transpose (Q i j)) in
  let W := fun i => if i <? p then QT i else W i in
  let* Rg := for_loop (q - S j) (fun t Rg => fj_rjk p j (S j + t) W A Rg) Rg in
  let* A := for_loop (q - S j) (fun t A => for_loop p (fun i A => fj_aik j (S j + t) i Q Rg A) A) A in
  Ok (A, Q, Rg, W).
Definition fj_mgs (fuel p q : nat) (s : mst) : outcome mst := for_loop q (fj_step fuel p q) s.

(** *** Locality *)
Lemma ortho_dense_local p j A A' Q Q' : (forall i, A i j = A' i j) -> (forall i, Q i j = Q' i j) ->
  osim (fun x y => snd x = snd y /\ forall i, fst x i j = fst y i j) (ortho_dense L Or gfuel p j A Q) (ortho_dense L Or gfuel p j A' Q').
Proof.
  intros HA HQ. unfold ortho_dense.
  replace (fun i => make_left_orthogonal (A' i j)) with (fun i => make_left_orthogonal (A i j))
    by (extensionality i; rewrite HA; reflexivity).
  eapply osim_bind; [apply osim_refl|]. intros qb ? _ _ <-.
  eapply osim_bind; [apply osim_refl|]. intros D ? _ _ <-.
  eapply osim_bind; [apply osim_refl|]. intros [Qb Rb] ? _ _ <-.
  eapply osim_bind; [apply osim_refl|]. intros HB ? _ _ <-.
  eapply osim_bind.
  - apply (osim_for (fun X Y => forall i, X i j = Y i j)); [exact HQ|]. intros i X Y Hi HP. cbv beta. rewrite HP.
    eapply osim_bind; [apply osim_refl|]. intros x ? _ _ <-. intros i'. unfold bupd. destruct ((i' =? i) && (j =? j)); auto.
  - intros X Y _ _ HP. simpl. auto.
Qed.
Lemma split_block_col_local p j (A A' : grid) : (forall i, A i j = A' i j) -> split_block_col p j A = split_block_col p j A'.
Proof.
  intros H. change (split_block_col p 0 (fun i _ => (fun i => A i j) i) = split_block_col p 0 (fun i _ => (fun i => A' i j) i)).
  replace (fun i => A' i j) with (fun i => A i j) by (extensionality i; auto). reflexivity.
Qed.
Lemma restore_local p j P nC SA QL (Q Q' : grid) : (forall i, Q i j = Q' i j) ->
  osim (fun x y => forall i, x i j = y i j) (restore_block_col p j P nC SA QL Q) (restore_block_col p j P nC SA QL Q').
Proof.
  intros H. unfold restore_block_col. eapply osim_bind.
  - apply (osim_for (fun X Y => snd X = snd Y /\ forall i, fst X i j = fst Y i j)); [simpl; auto|].
    intros i [X c] [Y c'] Hi [E HP]. cbn [fst snd] in *. subst c'. rewrite HP.
    eapply osim_bind; [apply osim_refl|]. intros [x y] ? _ _ <-. cbn [osim fst snd]. split; auto.
    intros i'. unfold bupd. destruct ((i' =? i) && (j =? j)); auto.
  - intros X Y _ _ [_ HP]. simpl. auto.
Qed.
Lemma ortho_col_local fuel p j A A' Q Q' r : (forall i, A i j = A' i j) -> (forall i, Q i j = Q' i j) ->
  osim (fun x y => snd x = snd y /\ forall i, fst x i j = fst y i j) (ortho_col fuel p j A Q r) (ortho_col fuel p j A' Q' r).
Proof.
  intros HA HQ. unfold ortho_col. destruct r; try exact I.
  - eapply osim_bind; [apply ortho_dense_local; eauto|]. intros [X x] [Y y] _ _ [E HP]. cbn [fst snd] in *. subst. simpl. auto.
  - rewrite (split_block_col_local p j A A' HA). eapply osim_bind; [apply osim_refl|]. intros [[[P nC] SA] QL] ? _ _ <-.
    eapply osim_bind; [apply osim_refl|]. intros [[AA QS] RR] ? _ _ <-. destruct QS; try exact I.
    eapply osim_bind; [apply restore_local; eauto|]. intros X Y _ _ HP. simpl. auto.
Qed.
Lemma ortho_col_frame fuel p j A Q r Q' r' : ortho_col fuel p j A Q r = Ok (Q', r') -> forall i k, k <> j \/ p <= i -> Q' i k = Q i k.
Proof.
  unfold ortho_col. destruct r; try discriminate; intros H.
  - apply bind_Ok in H. destruct H as [[X x] [H E]]. inversion E; subst; clear E. unfold ortho_dense in H.
    apply bind_Ok in H. destruct H as [qb [_ H]]. apply bind_Ok in H. destruct H as [D [_ H]].
    apply bind_Ok in H. destruct H as [[Qb Rb] [_ H]]. apply bind_Ok in H. destruct H as [HB [_ H]].
    apply bind_Ok in H. destruct H as [X [H E]]. inversion E; subst; clear E.
    refine (for_loop_inv_out _ _ _ _ (fun _ X => forall i k, k <> j \/ p <= i -> X i k = Q i k) H _ _); [auto|].
    intros t Y Y' Ht HI Hb i k Hik. apply bind_Ok in Hb. destruct Hb as [y [_ Hb]]. inversion Hb; subst.
    rewrite bupd_other by lia. auto.
  - apply bind_Ok in H. destruct H as [[[[P nC] SA] QL] [_ H]]. apply bind_Ok in H. destruct H as [[[AA QS] RR] [_ H]].
    destruct QS; try discriminate. apply bind_Ok in H. destruct H as [X [H E]]. inversion E; subst; clear E.
    unfold restore_block_col in H. apply bind_Ok in H. destruct H as [[X c] [H E]]. inversion E; subst; clear E.
    refine (for_loop_inv_out _ _ _ _ (fun _ X => forall i k, k <> j \/ p <= i -> fst X i k = Q i k) H _ _); [auto|].
    intros t [Y c0] Y' Ht HI Hb i k Hik. cbn [fst snd] in *. apply bind_Ok in Hb. destruct Hb as [[y c1] [_ Hb]]. inversion Hb; subst.
    cbn [fst]. rewrite bupd_other by lia. auto.
Qed.

(** *** The tasks on memory *)
Definition at_col (vs : list matrix) : grid := fun i _ => nth i vs (ME 0 0).
Definition fm_body (fuel p : nat) (t : mtask) (vs : list matrix) : outcome (list matrix) :=
  match t, vs with
  | Ort j, r :: vs =>
      let* (Q, r) := ortho_col fuel p j (at_col (firstn p vs)) (at_col (skipn p vs)) r in
      Ok (r :: rows_of p 0 (fun i => Q i j))
  | Trq j, vs => let* QT := collectv (ME 0 0) p (fun i => transpose (nth i vs (ME 0 0))) in Ok (rows_of p 0 QT)
  | Rup j k, r :: vs =>
      let* r := for_loop p (fun i r => g (nth i (firstn p vs) (ME 0 0)) (nth i (skipn p vs) (ME 0 0)) r 1%r 1%r false false) r in
      Ok [r]
  | Aup j k i, [q; r; a] => let* x := g q r a (- (1))%r 1%r false false in Ok [x]
  | _, _ => Abort
  end.
Definition fm_run (fuel p : nat) : mtask -> bmem -> bmem := trun blk_eq (fm_rd p) (fm_wr p) (fm_body fuel p).
Definition mheld (T : grid) (s : mst) : bmem := let '(A, Q, Rg, W) := s in held A T Q Rg W.

Lemma nth_rows0 p (c : nat -> matrix) i : i < p -> nth i (rows_of p 0 c) (ME 0 0) = c i.
Proof.
  intros H. unfold rows_of. rewrite Nat.sub_0_r. rewrite nth_indep with (d' := c 0) by (rewrite map_length, seq_length; lia).
  rewrite map_nth, seq_nth by lia. reflexivity.
Qed.
Lemma at_col_rows p (c : nat -> matrix) j : (forall i, p <= i -> c i = ME 0 0) -> forall i, at_col (rows_of p 0 c) i j = c i.
Proof. intros H i. assert (E := col_of_rows p 0 c H i (Nat.le_0_l i)). unfold col_of in E. rewrite Nat.sub_0_r in E. exact E. Qed.
Lemma gather_wcol p (A T Q Rg : grid) (W : nat -> matrix) : gather (held A T Q Rg W) (wcol p) = Some (rows_of p 0 W).
Proof.
  unfold wcol, rows_of. rewrite Nat.sub_0_r. induction (seq 0 p) as [|x l IH]; simpl; [reflexivity|]. rewrite IH. reflexivity.
Qed.
Lemma pos_wcol p i : i < p -> pos blk_eq (BW i) (wcol p) = Some i.
Proof. intros H. unfold wcol. rewrite (pos_map BW) by (try lia; intros; congruence). f_equal. lia. Qed.
Lemma nth_rows_0 p (c : nat -> matrix) i : i < p -> nth_error (rows_of p 0 c) i = Some (c i).
Proof. intros H. rewrite <- (nth_rows p 0 c i) by lia. f_equal. lia. Qed.
Lemma length_rows0 p (c : nat -> matrix) : length (rows_of p 0 c) = p.
Proof. rewrite length_rows. lia. Qed.

Lemma at_ort fuel p A T Q Rg W j Q' r : padded p A -> padded p Q -> ortho_col fuel p j A Q (Rg j j) = Ok (Q', r) ->
  same (fm_run fuel p (Ort j) (held A T Q Rg W)) (held A T Q' (bupd Rg j j r) W).
Proof.
  intros HA HQ H. assert (F := ortho_col_frame _ _ _ _ _ _ _ _ H).
  assert (C := ortho_col_local fuel p j (at_col (rows_of p 0 (fun i => A i j))) A (at_col (rows_of p 0 (fun i => Q i j))) Q (Rg j j)
    (at_col_rows p (fun i => A i j) j (fun i Hi => HA i j Hi)) (at_col_rows p (fun i => Q i j) j (fun i Hi => HQ i j Hi))).
  destruct (osim_Ok_r _ _ _ _ C H) as [[Q1 r1] [E [E1 E2]]]. cbn [fst snd] in E1, E2. subst r1.
  intros x. unfold fm_run, trun, results. cbn [fm_rd fm_wr gather held].
  rewrite (gather_app _ _ _ _ _ (gather_acol p 0 j A T Q Rg W) (gather_qcol p 0 j A T Q Rg W)).
  cbn [fm_body]. rewrite firstn_len, skipn_len by apply length_rows0. rewrite E. cbn [bind pos].
  destruct (blk_eq x (BR j j)) as [->|N]. { cbn [nth_error held]. rewrite bupd_same. reflexivity. }
  destruct (in_dec blk_eq x (qcol p 0 j)) as [Hx|Hx].
  - apply in_qcol in Hx. destruct Hx as [i [-> Hi]]. rewrite pos_qcol by lia. cbn [option_map nth_error].
    rewrite nth_rows by lia. cbn [held]. rewrite E2. reflexivity.
  - rewrite (proj2 (pos_None blk_eq x (qcol p 0 j)) Hx). cbn [option_map].
    destruct x as [a b|a b|a b|a b|a]; cbn [held]; auto.
    + f_equal. symmetry. apply F. destruct (Nat.eq_dec b j) as [->|]; [|auto]. right.
      destruct (Nat.lt_ge_cases a p); [|auto]. exfalso. apply Hx. apply in_qcol. exists a. split; [auto|lia].
    + rewrite bupd_other; auto. destruct (Nat.eq_dec a j); [|auto]. right. congruence.
Qed.
Lemma at_trq fuel p A T Q Rg W j QT : collectv (ME 0 0) p (fun i => transpose (Q i j)) = Ok QT ->
  same (fm_run fuel p (Trq j) (held A T Q Rg W)) (held A T Q Rg (fun i => if i <? p then QT i else W i)).
Proof.
  intros H. assert (HS := collectv_spec _ _ _ _ H).
  assert (E : exists QT', collectv (ME 0 0) p (fun i => transpose (nth i (rows_of p 0 (fun i => Q i j)) (ME 0 0))) = Ok QT' /\
    forall i, i < p -> QT' i = QT i).
  { unfold collectv in *. apply bind_Ok in H. destruct H as [u [H1 H2]].
    rewrite (check_ok_all p (fun i => transpose (nth i (rows_of p 0 (fun i0 => Q i0 j)) (ME 0 0)))).
    - cbn [bind]. eexists. split; [reflexivity|]. intros i Hi. cbv beta. rewrite nth_rows0 by auto. rewrite HS by auto. reflexivity.
    - intros i Hi. rewrite nth_rows0 by auto. eauto. }
  destruct E as [QT' [E EQ]].
  intros x. unfold fm_run, trun, results. cbn [fm_rd fm_wr]. rewrite gather_qcol. cbn [fm_body]. rewrite E. cbn [bind].
  destruct (in_dec blk_eq x (wcol p)) as [Hx|Hx].
  - apply in_wcol in Hx. destruct Hx as [i [-> Hi]]. rewrite pos_wcol by auto. rewrite nth_rows_0 by auto. cbn [held].
    destruct (Nat.ltb_spec i p); [|lia]. rewrite EQ by auto. reflexivity.
  - rewrite (proj2 (pos_None blk_eq x (wcol p)) Hx). destruct x as [a b|a b|a b|a b|a]; cbn [held]; auto.
    destruct (Nat.ltb_spec a p); auto. exfalso. apply Hx. apply in_wcol. eauto.
Qed.
Lemma at_rup fuel p A T Q Rg W j k Rg' : fj_rjk p j k W A Rg = Ok Rg' ->
  same (fm_run fuel p (Rup j k) (held A T Q Rg W)) (held A T Q Rg' W).
Proof.
  intros H. unfold fj_rjk in H. apply bind_Ok in H. destruct H as [r [H E]]. inversion E; subst; clear E.
  assert (E : for_loop p (fun i r => g (nth i (rows_of p 0 W) (ME 0 0)) (nth i (rows_of p 0 (fun i => A i k)) (ME 0 0)) r 1%r 1%r false false) (Rg j k) = Ok r).
  { rewrite <- H. clear H. generalize (Rg j k). assert (G : forall n s, n <= p ->
      for_loop n (fun i r => g (nth i (rows_of p 0 W) (ME 0 0)) (nth i (rows_of p 0 (fun i => A i k)) (ME 0 0)) r 1%r 1%r false false) s =
      for_loop n (fun i r => g (W i) (A i k) r 1%r 1%r false false) s).
    { induction n as [|n IH]; intros s Hn; cbn [for_loop]; auto. rewrite IH by lia. rewrite !nth_rows0 by lia. reflexivity. }
    intros s. apply G. auto. }
  intros x. unfold fm_run, trun, results. cbn [fm_rd fm_wr gather held].
  rewrite (gather_app _ _ _ _ _ (gather_wcol p A T Q Rg W) (gather_acol p 0 k A T Q Rg W)).
  cbn [fm_body]. rewrite firstn_len, skipn_len by apply length_rows0. rewrite E. cbn [bind pos option_map].
  destruct (blk_eq x (BR j k)) as [->|N]. { cbn [nth_error held]. rewrite bupd_same. reflexivity. }
  destruct x as [a b|a b|a b|a b|a]; cbn [held option_map]; auto.
  rewrite bupd_other; auto. destruct (Nat.eq_dec a j); [|auto]. right. congruence.
Qed.
Lemma at_aup fuel p A T Q Rg W j k i A' : fj_aik j k i Q Rg A = Ok A' ->
  same (fm_run fuel p (Aup j k i) (held A T Q Rg W)) (held A' T Q Rg W).
Proof.
  intros H. unfold fj_aik in H. apply bind_Ok in H. destruct H as [y [H E]]. inversion E; subst; clear E.
  intros x. unfold fm_run, trun, results. cbn [fm_rd fm_wr gather held fm_body]. rewrite H. cbn [bind pos].
  destruct (blk_eq x (BA i k)) as [->|N]. { cbn [nth_error held]. rewrite bupd_same. reflexivity. }
  destruct x as [a b|a b|a b|a b|a]; cbn [held option_map]; auto.
  rewrite bupd_other; auto. destruct (Nat.eq_dec a i); [|auto]. right. congruence.
Qed.

(** *** The sequential program *)
Lemma fm_same fuel p t (s u : bmem) : same s u -> same (fm_run fuel p t s) (fm_run fuel p t u).
Proof. apply (respects_same (fm_run fuel p) _ _ (fun t x => wdec_in blk_eq (fm_wr p) t x) (trun_respects blk_eq (fm_rd p) (fm_wr p) (fm_body fuel p))). Qed.
Lemma fm_exec fuel p l (s u : bmem) : same s u -> same (exec (fm_run fuel p) l s) (exec (fm_run fuel p) l u).
Proof. revert s u. induction l; simpl; auto using fm_same. Qed.

Lemma seq_rjk fuel p q j A T Q Rg W Rg' : for_loop (q - S j) (fun t Rg => fj_rjk p j (S j + t) W A Rg) Rg = Ok Rg' ->
  same (exec (fm_run fuel p) (map (Rup j) (seq (S j) (q - S j))) (held A T Q Rg W)) (held A T Q Rg' W).
Proof.
  intros H. rewrite <- single_map.
  refine (proj2 (loop_tasks (fm_run fuel p) same (fun Rg => held A T Q Rg W) (fun _ => True) (fun k => [Rup j k]) _ (S j) (q - S j) Rg Rg'
    mem_refl mem_trans (fm_same fuel p) _ I H)).
  intros t s s' Ht _ Hb. split; [exact I|]. cbn [exec]. apply at_rup. exact Hb.
Qed.
Lemma seq_aik fuel p q j A T Q Rg W A' : padded p A ->
  for_loop (q - S j) (fun t A => for_loop p (fun i A => fj_aik j (S j + t) i Q Rg A) A) A = Ok A' ->
  padded p A' /\
  same (exec (fm_run fuel p) (flat_map (fun k => map (Aup j k) (seq 0 p)) (seq (S j) (q - S j))) (held A T Q Rg W)) (held A' T Q Rg W).
Proof.
  intros HA H.
  refine (loop_tasks (fm_run fuel p) same (fun A => held A T Q Rg W) (padded p) _ _ (S j) (q - S j) A A'
    mem_refl mem_trans (fm_same fuel p) _ HA H).
  intros t s s' Ht HI Hb. cbv beta in Hb. rewrite <- single_map.
  refine (loop_tasks (fm_run fuel p) same (fun A => held A T Q Rg W) (padded p) (fun i => [Aup j (S j + t) i]) _ 0 p s s'
    mem_refl mem_trans (fm_same fuel p) _ HI Hb).
  intros i u u' Hi HU Hc. split; [|cbn [exec]; apply at_aup; exact Hc].
  cbv beta in Hc. unfold fj_aik in Hc. apply bind_Ok in Hc. destruct Hc as [x [_ Hc]]. inversion Hc; subst.
  intros a b Ha. rewrite bupd_other by lia. auto.
Qed.

Definition mpadded (p : nat) (s : mst) : Prop := let '(A, Q, _, _) := s in padded p A /\ padded p Q.

Lemma seq_mgs fuel p q T s s' : mpadded p s -> fj_mgs fuel p q s = Ok s' ->
  mpadded p s' /\ same (exec (fm_run fuel p) (concat (mphases p q)) (mheld T s)) (mheld T s').
Proof.
  intros HP H. unfold mphases. rewrite concat_flat_map.
  refine (loop_tasks (fm_run fuel p) same (mheld T) (mpadded p) _ _ 0 q s s' mem_refl mem_trans (fm_same fuel p) _ HP H).
  clear. intros j [[[A Q] Rg] W] s' Hj [HA HQ] H. unfold fj_step in H.
  apply bind_Ok in H. destruct H as [[Q1 r] [H1 H]]. apply bind_Ok in H. destruct H as [QT [H2 H]]. cbv zeta in H.
  apply bind_Ok in H. destruct H as [R1 [H3 H]]. apply bind_Ok in H. destruct H as [A1 [H4 H]]. inversion H; subst; clear H.
  destruct (seq_aik fuel p q j A T Q1 R1 (fun i => if i <? p then QT i else W i) A1 HA H4) as [P1 S1].
  split.
  - split; auto. intros a b Ha. rewrite (ortho_col_frame _ _ _ _ _ _ _ _ H1) by auto. auto.
  - rewrite Nat.add_0_l. cbn [concat app exec mheld]. rewrite app_nil_r, exec_app.
    eapply mem_trans; [apply fm_exec, fm_exec, fm_same; apply at_ort; eauto|].
    eapply mem_trans; [apply fm_exec, fm_exec; apply at_trq; exact H2|].
    eapply mem_trans; [apply fm_exec; apply seq_rjk; exact H3|]. exact S1.
Qed.

Theorem fj_mgs_orders fuel p q T s s' sched : mpadded p s -> fj_mgs fuel p q s = Ok s' -> orders (mphases p q) sched ->
  same (exec (fm_run fuel p) sched (mheld T s)) (mheld T s').
Proof.
  intros HP H O. eapply mem_trans; [|apply (seq_mgs fuel p q T s s' HP H)].
  apply (fork_join (inl_ (fm_rd p)) (inl_ (fm_wr p)) (fm_run fuel p) (fun t x => wdec_in blk_eq (fm_wr p) t x) (trun_respects blk_eq (fm_rd p) (fm_wr p) (fm_body fuel p)));
    [apply mgs_independent|exact O].
Qed.
End Run.
