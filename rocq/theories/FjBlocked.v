(** examples/forkjoin_blocked_householder_blr_qr.cpp: the loops and their parallel phases. *)
From Coq Require Import List Arith Lia Bool Permutation FunctionalExtensionality.
From Verif Require Import Prelude Ring MatFun Matrix MatOps Lapack Gemm MatOpsProofs Triangular Reflect QrTiled Sampled Mgs Blocked Osim Tasks TaskQr ForkJoin FjTiled.
Import ListNotations.
Local Open Scope nat_scope.

(** triangularize_block_col(k, A, T) and apply_block_col_householder(A, T, k, _, C, j). *)
Inductive btask := Tri (k : nat) | App (k j : nat).

(** Lines 50-56. *)
Definition bfactor_phases (q : nat) : list (list btask) :=
  flat_map (fun k => [[Tri k]; map (App k) (seq (S k) (q - S k))]) (seq 0 q).
(** Lines 62-67. *)
Definition bform_phases (q : nat) : list (list btask) :=
  flat_map (fun k' => let k := q - 1 - k' in [map (App k) (seq k (q - k))]) (seq 0 q).
(** Lines 85-90. *)
Definition bcheck_phases (q : nat) : list (list btask) :=
  flat_map (fun k => [map (App k) (seq k (q - k))]) (seq 0 q).

(** Rows k to p-1 of a block column. *)
Definition acol (p k j : nat) : list blk := map (fun i => BA i j) (seq k (p - k)).
Definition qcol (p k j : nat) : list blk := map (fun i => BQ i j) (seq k (p - k)).

Definition fb_rd (p : nat) (t : btask) : list blk :=
  match t with
  | Tri k => acol p k k
  | App k j => BT k 0 :: acol p k k ++ acol p k j
  end.
Definition fb_wr (p : nat) (t : btask) : list blk :=
  match t with
  | Tri k => BT k 0 :: acol p k k
  | App k j => acol p k j
  end.
Definition fbq_rd (p : nat) (t : btask) : list blk :=
  match t with
  | Tri k => []
  | App k j => BT k 0 :: acol p k k ++ qcol p k j
  end.
Definition fbq_wr (p : nat) (t : btask) : list blk :=
  match t with
  | Tri k => []
  | App k j => qcol p k j
  end.

Lemma in_acol p k j x : In x (acol p k j) <-> exists i, x = BA i j /\ k <= i < p.
Proof.
  unfold acol. rewrite in_map_iff. split.
  - intros [i [<- H]]. apply in_seq in H. exists i. split; [auto|lia].
  - intros [i [-> H]]. exists i. split; [auto|]. apply in_seq. lia.
Qed.
Lemma in_qcol p k j x : In x (qcol p k j) <-> exists i, x = BQ i j /\ k <= i < p.
Proof.
  unfold qcol. rewrite in_map_iff. split.
  - intros [i [<- H]]. apply in_seq in H. exists i. split; [auto|lia].
  - intros [i [-> H]]. exists i. split; [auto|]. apply in_seq. lia.
Qed.

Lemma app_inj k i j : App k i = App k j -> i = j.
Proof. intros E. inversion E. auto. Qed.

Lemma app_phase p k a n : k < a -> independent (inl_ (fb_rd p)) (inl_ (fb_wr p)) (map (App k) (seq a n)).
Proof.
  intros Ha. apply independent_map; [apply app_inj|]. intros i j Hi _ Hj _ N x W. cbn [fb_wr fb_rd] in *.
  apply in_acol in W. destruct W as [r [-> Hr]]. split; intros H.
  - destruct H as [H|H]; [discriminate|]. apply in_app_or in H. destruct H as [H|H];
      apply in_acol in H; destruct H as [r' [E _]]; inversion E; lia.
  - apply in_acol in H; destruct H as [r' [E _]]; inversion E; lia.
Qed.
Lemma q_app_phase p k a n : independent (inl_ (fbq_rd p)) (inl_ (fbq_wr p)) (map (App k) (seq a n)).
Proof.
  apply independent_map; [apply app_inj|]. intros i j Hi _ Hj _ N x W. cbn [fbq_wr fbq_rd] in *.
  apply in_qcol in W. destruct W as [r [-> Hr]]. split; intros H.
  - destruct H as [H|H]; [discriminate|]. apply in_app_or in H. destruct H as [H|H].
    + apply in_acol in H; destruct H as [r' [E _]]; discriminate.
    + apply in_qcol in H; destruct H as [r' [E _]]; inversion E; lia.
  - apply in_qcol in H; destruct H as [r' [E _]]; inversion E; lia.
Qed.
Theorem bfactor_independent p q : Forall (independent (inl_ (fb_rd p)) (inl_ (fb_wr p))) (bfactor_phases q).
Proof.
  apply Forall_flat_map. intros k _. constructor; [apply independent_one|]. constructor; [|constructor]. apply app_phase. lia.
Qed.
Theorem bform_independent p q : Forall (independent (inl_ (fbq_rd p)) (inl_ (fbq_wr p))) (bform_phases q).
Proof. apply Forall_flat_map. intros k _. constructor; [|constructor]. apply q_app_phase. Qed.
Theorem bcheck_independent p q : Forall (independent (inl_ (fbq_rd p)) (inl_ (fbq_wr p))) (bcheck_phases q).
Proof. apply Forall_flat_map. intros k _. constructor; [|constructor]. apply q_app_phase. Qed.

Lemma osim_for {S S'} (P : S -> S' -> Prop) n f g s t : P s t ->
  (forall i a b, i < n -> P a b -> osim P (f i a) (g i b)) -> osim P (for_loop n f s) (for_loop n g t).
Proof.
  intros H0. induction n as [|n IH]; intros H; simpl; [exact H0|].
  eapply osim_bind; [apply IH; auto|]. intros a b _ _ HP. apply H; auto.
Qed.
Lemma osim_refl {A} (x : outcome A) : osim eq x x.
Proof. destruct x; simpl; auto. Qed.

Section Run.
Context {R : cring}.
Notation matrix := (matrix R).
Notation grid := (grid R).
Variable Or : oracles R.
Variable K : qrt R.

(** *** Block columns k and more only depend on their own rows *)
Definition from (k : nat) (a b : nat -> matrix) : Prop := forall i, k <= i -> a i = b i.

Lemma from_vupd k a b i x : from k a b -> from k (vupd a i x) (vupd b i x).
Proof. intros H j Hj. unfold vupd. destruct (j =? i); auto. Qed.

Lemma tri_col_from p k a b : from k a b ->
  osim (fun x y => snd x = snd y /\ from k (fst x) (fst y)) (tri_col K p k a) (tri_col K p k b).
Proof.
  intros H. unfold tri_col. destruct (k <? p); [|exact I].
  replace (fun i => right_factor (b (k + i))) with (fun i => right_factor (a (k + i)))
    by (extensionality i; rewrite H by lia; reflexivity).
  eapply osim_bind; [apply osim_refl|]. intros r ? _ _ <-.
  eapply osim_bind; [apply osim_refl|]. intros D ? _ _ <-.
  eapply osim_bind; [apply osim_refl|]. intros [x t] ? _ _ <-.
  destruct x; try exact I.
  eapply osim_bind; [apply osim_refl|]. intros s ? _ _ <-.
  eapply osim_bind.
  - apply (osim_for (from k)); [exact H|]. intros i c c' Hi HP. cbv beta.
    rewrite (HP (k + i)) by lia. eapply osim_bind; [apply osim_refl|]. intros m ? _ _ <-. apply from_vupd. exact HP.
  - intros c c' _ _ HP. simpl. auto.
Qed.
Lemma tri_col_frame p k a a' t : tri_col K p k a = Ok (a', t) -> forall i, i < k \/ p <= i -> a' i = a i.
Proof.
  unfold tri_col. destruct (Nat.ltb_spec k p); [|discriminate]. intros H1.
  apply bind_Ok in H1. destruct H1 as [r [_ H1]]. apply bind_Ok in H1. destruct H1 as [D [_ H1]].
  apply bind_Ok in H1. destruct H1 as [[x t'] [_ H1]]. destruct x; try discriminate.
  apply bind_Ok in H1. destruct H1 as [s [_ H1]]. apply bind_Ok in H1. destruct H1 as [c [H1 H2]]. inversion H2; subst.
  assert (G := for_loop_inv_out _ _ _ _ (fun _ c => forall i, i < k \/ p <= i -> c i = a i) H1). apply G; auto. clear G H1.
  intros i u u' Hi HI Hb j Hj. apply bind_Ok in Hb. destruct Hb as [m [_ Hb]]. inversion Hb; subst. unfold vupd.
  destruct (Nat.eqb_spec j (k + i)); [lia|auto].
Qed.

Lemma apply_col_from p k tr y y' t a b : from k y y' -> from k a b ->
  osim (from k) (apply_col Or p k tr y t a) (apply_col Or p k tr y' t b).
Proof.
  intros HY H. unfold apply_col. destruct (k <? p); [|exact I].
  replace (fun i => transpose (y' (k + i))) with (fun i => transpose (y (k + i)))
    by (extensionality i; rewrite HY by lia; reflexivity).
  eapply osim_bind; [apply osim_refl|]. intros yt ? _ _ <-.
  rewrite <- (HY k), <- (H k) by lia.
  eapply osim_bind; [apply osim_refl|]. intros c ? _ _ <-.
  eapply osim_bind.
  { apply (osim_for eq); [reflexivity|]. intros i u v Hi ->. cbv beta. rewrite (H (S k + i)) by lia. apply osim_refl. }
  intros c1 ? _ _ <-.
  eapply osim_bind; [apply osim_refl|]. intros c2 ? _ _ <-.
  apply (osim_for (from k)); [exact H|]. intros i u v Hi HP. cbv beta. destruct (i =? 0).
  - eapply osim_bind; [apply osim_refl|]. intros c3 ? _ _ <-. rewrite (HP k) by lia.
    eapply osim_bind; [apply osim_refl|]. intros x ? _ _ <-. apply from_vupd. exact HP.
  - rewrite (HP (k + i)), (HY (k + i)) by lia.
    eapply osim_bind; [apply osim_refl|]. intros x ? _ _ <-. apply from_vupd. exact HP.
Qed.
Lemma apply_col_frame p k tr y t a a' : apply_col Or p k tr y t a = Ok a' -> forall i, i < k \/ p <= i -> a' i = a i.
Proof.
  unfold apply_col. destruct (Nat.ltb_spec k p); [|discriminate]. intros H1.
  apply bind_Ok in H1. destruct H1 as [yt [_ H1]]. apply bind_Ok in H1. destruct H1 as [c [_ H1]].
  apply bind_Ok in H1. destruct H1 as [c1 [_ H1]]. apply bind_Ok in H1. destruct H1 as [c2 [_ H1]].
  assert (G := for_loop_inv_out _ _ _ _ (fun _ c => forall i, i < k \/ p <= i -> c i = a i) H1). apply G; auto. clear G H1.
  intros i u u' Hi HI Hb j Hj. destruct (i =? 0).
  - apply bind_Ok in Hb. destruct Hb as [m [_ Hb]]. apply bind_Ok in Hb. destruct Hb as [m' [_ Hb]]. inversion Hb; subst. unfold vupd.
    destruct (Nat.eqb_spec j k); [lia|auto].
  - apply bind_Ok in Hb. destruct Hb as [m [_ Hb]]. inversion Hb; subst. unfold vupd.
    destruct (Nat.eqb_spec j (k + i)); [lia|auto].
Qed.

(** *** The tasks on memory *)
Definition col_of (k : nat) (vs : list matrix) : nat -> matrix := fun i => nth (i - k) vs (ME 0 0).
Definition rows_of (p k : nat) (c : nat -> matrix) : list matrix := map c (seq k (p - k)).

Definition fb_body (p : nat) (t : btask) (vs : list matrix) : outcome (list matrix) :=
  match t, vs with
  | Tri k, vs => let* (a, t) := tri_col K p k (col_of k vs) in Ok (t :: rows_of p k a)
  | App k j, t :: vs =>
      let* a := apply_col Or p k true (col_of k (firstn (p - k) vs)) t (col_of k (skipn (p - k) vs)) in Ok (rows_of p k a)
  | _, _ => Abort
  end.
Definition fbq_body (p : nat) (tr : bool) (t : btask) (vs : list matrix) : outcome (list matrix) :=
  match t, vs with
  | App k j, t :: vs =>
      let* a := apply_col Or p k tr (col_of k (firstn (p - k) vs)) t (col_of k (skipn (p - k) vs)) in Ok (rows_of p k a)
  | _, _ => Abort
  end.
Definition fb_run (p : nat) : btask -> bmem -> bmem := trun blk_eq (fb_rd p) (fb_wr p) (fb_body p).
Definition fbq_run (p : nat) (tr : bool) : btask -> bmem -> bmem := trun blk_eq (fbq_rd p) (fbq_wr p) (fbq_body p tr).

(** No blocks past the last row. *)
Definition padded (p : nat) (A : grid) : Prop := forall i j, p <= i -> A i j = ME 0 0.

Lemma col_of_rows p k c : (forall i, p <= i -> c i = ME 0 0) -> from k (col_of k (rows_of p k c)) c.
Proof.
  intros H i Hi. unfold col_of, rows_of. destruct (Nat.lt_ge_cases i p) as [L|L].
  - rewrite nth_indep with (d' := c 0) by (rewrite map_length, seq_length; lia). rewrite map_nth, seq_nth by lia. f_equal. lia.
  - rewrite nth_overflow by (rewrite map_length, seq_length; lia). symmetry. auto.
Qed.
Lemma nth_rows p k c i : k <= i < p -> nth_error (rows_of p k c) (i - k) = Some (c i).
Proof.
  intros H. unfold rows_of. rewrite nth_error_map.
  replace (nth_error (seq k (p - k)) (i - k)) with (Some i); [reflexivity|].
  symmetry. erewrite nth_error_nth' with (d := 0) by (rewrite seq_length; lia). rewrite seq_nth by lia. f_equal. lia.
Qed.
Lemma pos_map (f : nat -> blk) a n i : (forall i j, f i = f j -> i = j) -> a <= i < a + n ->
  pos blk_eq (f i) (map f (seq a n)) = Some (i - a).
Proof.
  intros Hf. revert a. induction n as [|n IH]; intros a Hi; [lia|]. simpl. destruct (blk_eq (f i) (f a)) as [E|N].
  - apply Hf in E. subst. f_equal. lia.
  - assert (i <> a) by congruence. rewrite IH by lia. simpl. f_equal. lia.
Qed.
Lemma pos_acol p k j i : k <= i < p -> pos blk_eq (BA i j) (acol p k j) = Some (i - k).
Proof. intros H. apply (pos_map (fun i => BA i j)); [intros; congruence|lia]. Qed.
Lemma pos_qcol p k j i : k <= i < p -> pos blk_eq (BQ i j) (qcol p k j) = Some (i - k).
Proof. intros H. apply (pos_map (fun i => BQ i j)); [intros; congruence|lia]. Qed.
Lemma gather_acol p k j A T Q Rg W : gather (held A T Q Rg W) (acol p k j) = Some (rows_of p k (fun i => A i j)).
Proof.
  unfold acol, rows_of. induction (seq k (p - k)) as [|x l IH]; simpl; [reflexivity|]. rewrite IH. reflexivity.
Qed.
Lemma gather_qcol p k j A T Q Rg W : gather (held A T Q Rg W) (qcol p k j) = Some (rows_of p k (fun i => Q i j)).
Proof.
  unfold qcol, rows_of. induction (seq k (p - k)) as [|x l IH]; simpl; [reflexivity|]. rewrite IH. reflexivity.
Qed.
Lemma gather_app {L V} (s : L -> option V) l1 l2 v1 v2 : gather s l1 = Some v1 -> gather s l2 = Some v2 ->
  gather s (l1 ++ l2) = Some (v1 ++ v2).
Proof.
  revert v1. induction l1 as [|x l IH]; simpl; intros v1 H1 H2.
  - inversion H1; subst. auto.
  - destruct (s x); [|discriminate]. destruct (gather s l); [|discriminate]. inversion H1; subst.
    rewrite (IH l0) by auto. reflexivity.
Qed.
Lemma length_rows p k (c : nat -> matrix) : length (rows_of p k c) = p - k.
Proof. unfold rows_of. rewrite map_length, seq_length. reflexivity. Qed.
Lemma firstn_len {A} (l1 l2 : list A) n : length l1 = n -> firstn n (l1 ++ l2) = l1.
Proof. intros <-. rewrite firstn_app, firstn_all, Nat.sub_diag. simpl. apply app_nil_r. Qed.
Lemma skipn_len {A} (l1 l2 : list A) n : length l1 = n -> skipn n (l1 ++ l2) = l2.
Proof. intros <-. rewrite skipn_app, skipn_all, Nat.sub_diag. reflexivity. Qed.

Lemma at_tri p A T Q Rg W k a t : padded p A -> tri_col K p k (fun i => A i k) = Ok (a, t) ->
  same (fb_run p (Tri k) (held A T Q Rg W)) (held (set_col A k a) (bupd T k 0 t) Q Rg W).
Proof.
  intros HP H. assert (F := tri_col_frame _ _ _ _ _ H).
  assert (HC : from k (col_of k (rows_of p k (fun i => A i k))) (fun i => A i k)) by (apply col_of_rows; intros; apply HP; auto).
  assert (C := tri_col_from p k _ _ HC). destruct (osim_Ok_r _ _ _ _ C H) as [[a' t'] [E [E1 E2]]]. simpl in E1, E2. subst t'.
  intros x. unfold fb_run, trun, results. cbn [fb_rd fb_wr]. rewrite gather_acol. cbn [fb_body]. rewrite E. cbn [bind].
  destruct (blk_eq x (BT k 0)) as [->|N1].
  { cbn [pos]. destruct (blk_eq (BT k 0) (BT k 0)); [|congruence]. cbn [nth_error held]. rewrite bupd_same. reflexivity. }
  cbn [pos]. destruct (blk_eq x (BT k 0)); [congruence|].
  destruct (in_dec blk_eq x (acol p k k)) as [Hx|Hx].
  - apply in_acol in Hx. destruct Hx as [i [-> Hi]]. rewrite pos_acol by lia.
    cbn [option_map nth_error]. rewrite nth_rows by lia. cbn [held]. unfold set_col. rewrite Nat.eqb_refl, E2 by lia. reflexivity.
  - assert (Hp := proj2 (pos_None blk_eq x (acol p k k)) Hx). rewrite Hp. cbn [option_map].
    destruct x as [i j|i j|i j|i j|i]; cbn [held]; auto.
    + unfold set_col. destruct (Nat.eqb_spec j k) as [->|Nj]; auto. f_equal. symmetry. apply F.
      destruct (Nat.lt_ge_cases i k); [auto|]. right. destruct (Nat.lt_ge_cases i p); [|lia]. exfalso. apply Hx. apply in_acol. eauto.
    + rewrite bupd_other; auto. destruct (Nat.eq_dec i k); [|auto]. destruct (Nat.eq_dec j 0); [|auto]. subst. congruence.
Qed.
Lemma at_app p A T Q Rg W k j a : padded p A -> apply_col Or p k true (fun i => A i k) (T k 0) (fun i => A i j) = Ok a ->
  same (fb_run p (App k j) (held A T Q Rg W)) (held (set_col A j a) T Q Rg W).
Proof.
  intros HP H. assert (F := apply_col_frame _ _ _ _ _ _ _ H).
  assert (HC : forall j, from k (col_of k (rows_of p k (fun i => A i j))) (fun i => A i j)) by (intros; apply col_of_rows; intros; apply HP; auto).
  assert (C := apply_col_from p k true _ _ (T k 0) _ _ (HC k) (HC j)). destruct (osim_Ok_r _ _ _ _ C H) as [a' [E E2]].
  intros x. unfold fb_run, trun, results. cbn [fb_rd fb_wr gather held].
  rewrite (gather_app _ _ _ _ _ (gather_acol p k k A T Q Rg W) (gather_acol p k j A T Q Rg W)).
  cbn [fb_body]. rewrite firstn_len, skipn_len by apply length_rows. rewrite E. cbn [bind].
  destruct (in_dec blk_eq x (acol p k j)) as [Hx|Hx].
  - apply in_acol in Hx. destruct Hx as [i [-> Hi]]. rewrite pos_acol by lia.
    rewrite nth_rows by lia. cbn [held]. unfold set_col. rewrite Nat.eqb_refl, E2 by lia. reflexivity.
  - assert (Hp := proj2 (pos_None blk_eq x (acol p k j)) Hx). rewrite Hp.
    destruct x as [i j'|i j'|i j'|i j'|i]; cbn [held]; auto.
    unfold set_col. destruct (Nat.eqb_spec j' j) as [->|Nj]; auto. f_equal. symmetry. apply F.
    destruct (Nat.lt_ge_cases i k); [auto|]. right. destruct (Nat.lt_ge_cases i p); [|lia]. exfalso. apply Hx. apply in_acol. eauto.
Qed.
Lemma at_q_app p A T Q Rg W tr k j a : padded p A -> padded p Q -> apply_col Or p k tr (fun i => A i k) (T k 0) (fun i => Q i j) = Ok a ->
  same (fbq_run p tr (App k j) (held A T Q Rg W)) (held A T (set_col Q j a) Rg W).
Proof.
  intros HP HQ H. assert (F := apply_col_frame _ _ _ _ _ _ _ H).
  assert (HC : from k (col_of k (rows_of p k (fun i => A i k))) (fun i => A i k)) by (intros; apply col_of_rows; intros; apply HP; auto).
  assert (HD : from k (col_of k (rows_of p k (fun i => Q i j))) (fun i => Q i j)) by (intros; apply col_of_rows; intros; apply HQ; auto).
  assert (C := apply_col_from p k tr _ _ (T k 0) _ _ HC HD). destruct (osim_Ok_r _ _ _ _ C H) as [a' [E E2]].
  intros x. unfold fbq_run, trun, results. cbn [fbq_rd fbq_wr gather held].
  rewrite (gather_app _ _ _ _ _ (gather_acol p k k A T Q Rg W) (gather_qcol p k j A T Q Rg W)).
  cbn [fbq_body]. rewrite firstn_len, skipn_len by apply length_rows. rewrite E. cbn [bind].
  destruct (in_dec blk_eq x (qcol p k j)) as [Hx|Hx].
  - apply in_qcol in Hx. destruct Hx as [i [-> Hi]]. rewrite pos_qcol by lia.
    rewrite nth_rows by lia. cbn [held]. unfold set_col. rewrite Nat.eqb_refl, E2 by lia. reflexivity.
  - assert (Hp := proj2 (pos_None blk_eq x (qcol p k j)) Hx). rewrite Hp.
    destruct x as [i j'|i j'|i j'|i j'|i]; cbn [held]; auto.
    unfold set_col. destruct (Nat.eqb_spec j' j) as [->|Nj]; auto. f_equal. symmetry. apply F.
    destruct (Nat.lt_ge_cases i k); [auto|]. right. destruct (Nat.lt_ge_cases i p); [|lia]. exfalso. apply Hx. apply in_qcol. eauto.
Qed.

(** *** The sequential program *)
Lemma fb_same p t (s u : bmem) : same s u -> same (fb_run p t s) (fb_run p t u).
Proof. apply (respects_same (fb_run p) _ _ (fun t x => wdec_in blk_eq (fb_wr p) t x) (trun_respects blk_eq (fb_rd p) (fb_wr p) (fb_body p))). Qed.
Lemma fbq_same p tr t (s u : bmem) : same s u -> same (fbq_run p tr t s) (fbq_run p tr t u).
Proof. apply (respects_same (fbq_run p tr) _ _ (fun t x => wdec_in blk_eq (fbq_wr p) t x) (trun_respects blk_eq (fbq_rd p) (fbq_wr p) (fbq_body p tr))). Qed.
Lemma fb_exec p l (s u : bmem) : same s u -> same (exec (fb_run p) l s) (exec (fb_run p) l u).
Proof. revert s u. induction l; simpl; auto using fb_same. Qed.

Lemma padded_col p A j a k : padded p A -> (forall i, i < k \/ p <= i -> a i = A i j) -> padded p (set_col A j a).
Proof. intros H F i j' Hi. unfold set_col. destruct (j' =? j); [rewrite F by auto|]; apply H; auto. Qed.

Variables (Rg : grid) (W : nat -> matrix).

Lemma seq_bfactor p q Q A T A' T' : padded p A -> blocked_qr Or K p q A q 1 T = Ok (A', T') ->
  same (exec (fb_run p) (concat (bfactor_phases q)) (held A T Q Rg W)) (held A' T' Q Rg W).
Proof.
  intros HP H. unfold blocked_qr in H. apply assert_Ok in H. destruct H as [_ H]. apply assert_Ok in H. destruct H as [_ H].
  unfold bfactor_phases. rewrite concat_flat_map.
  refine (proj2 (loop_tasks (fb_run p) same (fun s => held (fst s) (snd s) Q Rg W) (fun s => padded p (fst s)) _ _ 0 q (A, T) (A', T')
    mem_refl mem_trans (fb_same p) _ HP H)).
  clear H HP. intros k s s' Hk HP H. cbv beta in H. apply bind_Ok in H. destruct H as [s1 [H1 H2]].
  unfold block_tri in H1. apply bind_Ok in H1. destruct H1 as [[a t] [H1 H3]]. injection H3 as H3. subst s1. cbn [fst snd] in H2.
  apply bind_Ok in H2. destruct H2 as [A1 [H2 H3]]. injection H3 as H3. subst s'. cbn [fst snd].
  assert (F := tri_col_frame _ _ _ _ _ H1).
  assert (HP1 : padded p (set_col (fst s) k a)) by (eapply padded_col; eauto).
  rewrite Nat.add_0_l. cbn [concat app exec]. rewrite app_nil_r.
  assert (HS : forall u A1 A2, u < q - S k -> padded p A1 -> block_apply Or p k true A1 (bupd (snd s) k 0 t) A1 (S k + u) = Ok A2 ->
    padded p A2 /\ same (exec (fb_run p) [App k (S k + u)] (held A1 (bupd (snd s) k 0 t) Q Rg W)) (held A2 (bupd (snd s) k 0 t) Q Rg W)).
  { intros u s1 s1' Hu HI Hb. unfold block_apply in Hb. apply bind_Ok in Hb. destruct Hb as [c [H3 H4]]. inversion H4; subst. split.
    - eapply padded_col; [exact HI|]. eapply apply_col_frame. exact H3.
    - cbn [exec]. apply at_app; auto. }
  destruct (loop_tasks (fb_run p) same (fun C => held C (bupd (snd s) k 0 t) Q Rg W) (padded p) (fun j => [App k j]) _ (S k) (q - S k) _ A1
    mem_refl mem_trans (fb_same p) HS HP1 H2) as [J1 J2]. split; [exact J1|].
  rewrite single_map in J2.
  eapply mem_trans; [apply fb_exec; apply at_tri; [exact HP|exact H1]|]. exact J2.
Qed.
Lemma seq_bcols p q k tr Y T C C' : padded p Y -> padded p C ->
  for_loop (q - k) (fun t C => assert! p =? p in block_apply Or p k tr Y T C (k + t)) C = Ok C' ->
  padded p C' /\ same (exec (fbq_run p tr) (map (App k) (seq k (q - k))) (held Y T C Rg W)) (held Y T C' Rg W).
Proof.
  intros HY HC H. rewrite <- single_map.
  refine (loop_tasks (fbq_run p tr) same (fun C => held Y T C Rg W) (padded p) (fun j => [App k j]) _ k (q - k) C C'
    mem_refl mem_trans (fbq_same p tr) _ HC H).
  intros u s1 s1' Hu HI Hb. cbv beta in Hb. apply assert_Ok in Hb. destruct Hb as [_ Hb].
  unfold block_apply in Hb. apply bind_Ok in Hb. destruct Hb as [c [H3 H4]]. inversion H4; subst. split.
  - eapply padded_col; [exact HI|]. eapply apply_col_frame. exact H3.
  - cbn [exec]. apply at_q_app; auto.
Qed.
Lemma seq_bform p q Y T C C' : padded p Y -> padded p C -> blocked_apply Or p q Y T p C false = Ok C' ->
  same (exec (fbq_run p false) (concat (bform_phases q)) (held Y T C Rg W)) (held Y T C' Rg W).
Proof.
  intros HY HC H. unfold blocked_apply in H. unfold bform_phases. rewrite concat_flat_map.
  refine (proj2 (loop_tasks (fbq_run p false) same (fun C => held Y T C Rg W) (padded p) _ _ 0 q C C'
    mem_refl mem_trans (fbq_same p false) _ HC H)).
  intros t s s' Ht HI Hb. rewrite Nat.add_0_l. cbv zeta. cbn [concat]. rewrite app_nil_r. apply seq_bcols; auto.
Qed.
Lemma seq_bcheck p q Y T C C' : padded p Y -> padded p C -> blocked_apply Or p q Y T p C true = Ok C' ->
  same (exec (fbq_run p true) (concat (bcheck_phases q)) (held Y T C Rg W)) (held Y T C' Rg W).
Proof.
  intros HY HC H. unfold blocked_apply in H. unfold bcheck_phases. rewrite concat_flat_map.
  refine (proj2 (loop_tasks (fbq_run p true) same (fun C => held Y T C Rg W) (padded p) _ _ 0 q C C'
    mem_refl mem_trans (fbq_same p true) _ HC H)).
  intros t s s' Ht HI Hb. rewrite Nat.add_0_l. cbn [concat]. rewrite app_nil_r. apply seq_bcols; auto.
Qed.

(** *** All orders *)
Theorem fj_blocked_factor p q Q A T A' T' sched : padded p A -> blocked_qr Or K p q A q 1 T = Ok (A', T') ->
  orders (bfactor_phases q) sched -> same (exec (fb_run p) sched (held A T Q Rg W)) (held A' T' Q Rg W).
Proof.
  intros HP H O. eapply mem_trans; [|apply seq_bfactor; [exact HP|exact H]].
  apply (fork_join (inl_ (fb_rd p)) (inl_ (fb_wr p)) (fb_run p) (fun t x => wdec_in blk_eq (fb_wr p) t x) (trun_respects blk_eq (fb_rd p) (fb_wr p) (fb_body p)));
    [apply bfactor_independent|exact O].
Qed.
Theorem fj_blocked_form p q Y T C C' sched : padded p Y -> padded p C -> blocked_apply Or p q Y T p C false = Ok C' ->
  orders (bform_phases q) sched -> same (exec (fbq_run p false) sched (held Y T C Rg W)) (held Y T C' Rg W).
Proof.
  intros HY HC H O. eapply mem_trans; [|apply (seq_bform p q); eassumption].
  apply (fork_join (inl_ (fbq_rd p)) (inl_ (fbq_wr p)) (fbq_run p false) (fun t x => wdec_in blk_eq (fbq_wr p) t x) (trun_respects blk_eq (fbq_rd p) (fbq_wr p) (fbq_body p false)));
    [apply bform_independent|exact O].
Qed.
Theorem fj_blocked_check p q Y T C C' sched : padded p Y -> padded p C -> blocked_apply Or p q Y T p C true = Ok C' ->
  orders (bcheck_phases q) sched -> same (exec (fbq_run p true) sched (held Y T C Rg W)) (held Y T C' Rg W).
Proof.
  intros HY HC H O. eapply mem_trans; [|apply (seq_bcheck p q); eassumption].
  apply (fork_join (inl_ (fbq_rd p)) (inl_ (fbq_wr p)) (fbq_run p true) (fun t x => wdec_in blk_eq (fbq_wr p) t x) (trun_respects blk_eq (fbq_rd p) (fbq_wr p) (fbq_body p true)));
    [apply bcheck_independent|exact O].
Qed.
End Run.
