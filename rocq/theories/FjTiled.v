(** examples/forkjoin_tiled_householder_blr_qr.cpp: the loops and their parallel phases. *)
From Coq Require Import List Arith Lia Bool Permutation.
From Verif Require Import Prelude Ring MatFun Matrix MatOps Lapack Gemm MatOpsProofs Triangular Reflect Tasks TaskQr ForkJoin.
Import ListNotations.
Local Open Scope nat_scope.

(** Blocks of A, T, Q, R and of the transposed block column QjT. *)
Inductive blk := BA (i j : nat) | BT (i j : nat) | BQ (i j : nat) | BR (i j : nat) | BW (i : nat).
Definition blk_eq (x y : blk) : {x = y} + {x <> y}.
Proof. decide equality; apply Nat.eq_dec. Defined.

(** *** Phases *)
(** Lines 55-68. *)
Definition factor_phases (p q : nat) : list (list task) :=
  flat_map (fun k =>
    [[Geqrt k]; map (Larfb k) (seq (S k) (q - S k))] ++
    flat_map (fun i => [[Tpqrt k i]; map (Tpmqrt k i) (seq (S k) (q - S k))]) (seq (S k) (p - S k))) (seq 0 q).
(** Lines 74-85. *)
Definition form_phases (p q : nat) : list (list task) :=
  flat_map (fun k' => let k := q - 1 - k' in
    flat_map (fun i' => [map (Tpmqrt k (p - 1 - i')) (seq k (q - k))]) (seq 0 (p - 1 - k)) ++
    [map (Larfb k) (seq k (q - k))]) (seq 0 q).
(** Lines 103-114. *)
Definition check_phases (p q : nat) : list (list task) :=
  flat_map (fun k =>
    [map (Larfb k) (seq k (q - k))] ++
    flat_map (fun i => [map (Tpmqrt k i) (seq k (q - k))]) (seq (S k) (p - S k))) (seq 0 q).

Definition fj_rd (t : task) : list blk :=
  match t with
  | Geqrt k => [BA k k; BT k k]
  | Larfb k j => [BA k k; BT k k; BA k j]
  | Tpqrt k i => [BA k k; BA i k; BT i k]
  | Tpmqrt k i j => [BA i k; BT i k; BA k j; BA i j]
  end.
Definition fj_wr (t : task) : list blk :=
  match t with
  | Geqrt k => [BA k k; BT k k]
  | Larfb k j => [BA k j]
  | Tpqrt k i => [BA k k; BA i k; BT i k]
  | Tpmqrt k i j => [BA k j; BA i j]
  end.
Definition fjq_rd (t : task) : list blk :=
  match t with
  | Larfb k j => [BA k k; BT k k; BQ k j]
  | Tpmqrt k i j => [BA i k; BT i k; BQ k j; BQ i j]
  | _ => []
  end.
Definition fjq_wr (t : task) : list blk :=
  match t with
  | Larfb k j => [BQ k j]
  | Tpmqrt k i j => [BQ k j; BQ i j]
  | _ => []
  end.
Notation inl_ f := (fun t x => In x (f t)) (only parsing).

Lemma independent_one {T L} (r w : T -> L -> Prop) t : independent r w [t].
Proof. split; [constructor; [simpl; tauto|constructor]|]. intros a b [<-|[]] [<-|[]] N. congruence. Qed.
Lemma independent_map {T L} (r w : T -> L -> Prop) (f : nat -> T) a n :
  (forall i j, f i = f j -> i = j) ->
  (forall i j, a <= i -> i < a + n -> a <= j -> j < a + n -> i <> j -> forall x, w (f i) x -> ~ r (f j) x /\ ~ w (f j) x) ->
  independent r w (map f (seq a n)).
Proof.
  intros Hi H. split; [apply FinFun.Injective_map_NoDup; [exact Hi|apply seq_NoDup]|].
  intros x y Hx Hy N. apply in_map_iff in Hx, Hy. destruct Hx as [i [<- Hx]], Hy as [j [<- Hy]].
  apply in_seq in Hx, Hy. apply H; try lia. congruence.
Qed.

Lemma larfb_phase k a n : k < a -> independent (inl_ fj_rd) (inl_ fj_wr) (map (Larfb k) (seq a n)).
Proof.
  intros L. apply independent_map; [intros; congruence|]. intros i j Hi _ Hj _ N x [<-|[]]. simpl.
  split; intros H; repeat destruct H as [H|H]; try discriminate; try (inversion H; lia); destruct H.
Qed.
Lemma tpmqrt_phase k i a n : k < a -> independent (inl_ fj_rd) (inl_ fj_wr) (map (Tpmqrt k i) (seq a n)).
Proof.
  intros L. apply independent_map; [intros; congruence|]. intros j j' Hj _ Hj' _ N x [<-|[<-|[]]]; simpl;
  split; intros H; repeat destruct H as [H|H]; try discriminate; try (inversion H; lia); destruct H.
Qed.
Lemma q_larfb_phase k a n : independent (inl_ fjq_rd) (inl_ fjq_wr) (map (Larfb k) (seq a n)).
Proof.
  apply independent_map; [intros; congruence|]. intros i j Hi _ Hj _ N x [<-|[]]. simpl.
  split; intros H; repeat destruct H as [H|H]; try discriminate; try (inversion H; lia); destruct H.
Qed.
Lemma q_tpmqrt_phase k i a n : independent (inl_ fjq_rd) (inl_ fjq_wr) (map (Tpmqrt k i) (seq a n)).
Proof.
  apply independent_map; [intros; congruence|]. intros j j' Hj _ Hj' _ N x [<-|[<-|[]]]; simpl;
  split; intros H; repeat destruct H as [H|H]; try discriminate; try (inversion H; lia); destruct H.
Qed.

Lemma Forall_flat_map {A B} (P : B -> Prop) (f : A -> list B) l : (forall x, In x l -> Forall P (f x)) -> Forall P (flat_map f l).
Proof. intros H. apply Forall_forall. intros y Hy. apply in_flat_map in Hy. destruct Hy as [x [Hx Hy]]. exact (proj1 (Forall_forall _ _) (H x Hx) y Hy). Qed.

Theorem factor_independent p q : Forall (independent (inl_ fj_rd) (inl_ fj_wr)) (factor_phases p q).
Proof.
  apply Forall_flat_map. intros k _. apply Forall_app. split.
  - constructor; [apply independent_one|]. constructor; [|constructor]. apply larfb_phase. lia.
  - apply Forall_flat_map. intros i _. constructor; [apply independent_one|]. constructor; [|constructor]. apply tpmqrt_phase. lia.
Qed.
Theorem form_independent p q : Forall (independent (inl_ fjq_rd) (inl_ fjq_wr)) (form_phases p q).
Proof.
  apply Forall_flat_map. intros k _. apply Forall_app. split.
  - apply Forall_flat_map. intros i _. constructor; [|constructor]. apply q_tpmqrt_phase.
  - constructor; [|constructor]. apply q_larfb_phase.
Qed.
Theorem check_independent p q : Forall (independent (inl_ fjq_rd) (inl_ fjq_wr)) (check_phases p q).
Proof.
  apply Forall_flat_map. intros k _. apply Forall_app. split.
  - constructor; [|constructor]. apply q_larfb_phase.
  - apply Forall_flat_map. intros i _. constructor; [|constructor]. apply q_tpmqrt_phase.
Qed.

Section Run.
Context {R : cring}.
Notation matrix := (matrix R).
Notation grid := (grid R).
Variable Or : oracles R.
Variable K : qrt R.

Definition fj_body (t : task) (vs : list matrix) : outcome (list matrix) :=
  match t, vs with
  | Geqrt _, [a; t] => let* (x, y) := geqrt K a t in Ok [x; y]
  | Larfb _ _, [v; t; c] => let* x := larfb v t c true in Ok [x]
  | Tpqrt _ _, [a; b; t] => let* (x, v, y) := tpqrt K a b t in Ok [x; v; y]
  | Tpmqrt _ _ _, [v; t; a; b] => let* (x, y) := tpmqrt Or v t a b true in Ok [x; y]
  | _, _ => Abort
  end.
Definition fjq_body (tr : bool) (t : task) (vs : list matrix) : outcome (list matrix) :=
  match t, vs with
  | Larfb _ _, [v; t; c] => let* x := larfb v t c tr in Ok [x]
  | Tpmqrt _ _ _, [v; t; a; b] => let* (x, y) := tpmqrt Or v t a b tr in Ok [x; y]
  | _, _ => Abort
  end.
Definition bmem := blk -> option matrix.
Definition fj_run : task -> bmem -> bmem := trun blk_eq fj_rd fj_wr fj_body.
Definition fjq_run (tr : bool) : task -> bmem -> bmem := trun blk_eq fjq_rd fjq_wr (fjq_body tr).

(** The matrices in memory. *)
Definition held (A T Q Rg : grid) (W : nat -> matrix) : bmem := fun x =>
  match x with BA i j => Some (A i j) | BT i j => Some (T i j) | BQ i j => Some (Q i j) | BR i j => Some (Rg i j) | BW i => Some (W i) end.

Lemma bupd_at (b : grid) i j x a c : bupd b i j x a c = if blk_eq (BA a c) (BA i j) then x else b a c.
Proof.
  unfold bupd. destruct (blk_eq (BA a c) (BA i j)) as [E|N].
  - inversion E; subst. rewrite !Nat.eqb_refl. reflexivity.
  - destruct (Nat.eqb_spec a i), (Nat.eqb_spec c j); subst; try reflexivity. congruence.
Qed.

Lemma mem_refl (s : bmem) : same s s. Proof. intros x. reflexivity. Qed.
Lemma mem_trans (s t u : bmem) : same s t -> same t u -> same s u. Proof. intros H1 H2 x. rewrite H1. auto. Qed.
Lemma fj_same t (s u : bmem) : same s u -> same (fj_run t s) (fj_run t u).
Proof. apply (respects_same fj_run _ _ (fun t x => wdec_in blk_eq fj_wr t x) (trun_respects blk_eq fj_rd fj_wr fj_body)). Qed.
Lemma fjq_same tr t (s u : bmem) : same s u -> same (fjq_run tr t s) (fjq_run tr t u).
Proof. apply (respects_same (fjq_run tr) _ _ (fun t x => wdec_in blk_eq fjq_wr t x) (trun_respects blk_eq fjq_rd fjq_wr (fjq_body tr))). Qed.

Ltac cells := let z := fresh "z" in intros z; unfold fj_run, fjq_run, trun, results, bupd;
  destruct z as [a b|a b|a b|a b|a]; cbn [fj_rd fj_wr fjq_rd fjq_wr fj_body fjq_body pos gather held nth_error];
  repeat match goal with |- context [blk_eq ?x ?y] => destruct (blk_eq x y) as [?E|?N]; cbn [option_map nth_error] end;
  try discriminate; try reflexivity.
Ltac eqs := repeat match goal with
  | E : BA _ _ = BA _ _ |- _ => inversion E; clear E; subst
  | E : BT _ _ = BT _ _ |- _ => inversion E; clear E; subst
  | E : BQ _ _ = BQ _ _ |- _ => inversion E; clear E; subst
  end; rewrite ?Nat.eqb_refl; cbn [andb];
  repeat match goal with |- context [(?x =? ?y)] => destruct (Nat.eqb_spec x y); subst; cbn [andb] end;
  try reflexivity; try congruence; try lia.

Lemma at_geqrt A T Q Rg W k x y : geqrt K (A k k) (T k k) = Ok (x, y) ->
  same (fj_run (Geqrt k) (held A T Q Rg W)) (held (bupd A k k x) (bupd T k k y) Q Rg W).
Proof. intros H. cells; rewrite ?H; cbn [bind nth_error]; eqs. Qed.
Lemma at_larfb A T Q Rg W k j x : larfb (A k k) (T k k) (A k j) true = Ok x ->
  same (fj_run (Larfb k j) (held A T Q Rg W)) (held (bupd A k j x) T Q Rg W).
Proof. intros H. cells; rewrite ?H; cbn [bind nth_error]; eqs. Qed.
Lemma at_tpqrt A T Q Rg W k i x v y : i <> k -> tpqrt K (A k k) (A i k) (T i k) = Ok (x, v, y) ->
  same (fj_run (Tpqrt k i) (held A T Q Rg W)) (held (bupd (bupd A k k x) i k v) (bupd T i k y) Q Rg W).
Proof. intros Hne H. cells; rewrite ?H; cbn [bind nth_error]; eqs. Qed.
Lemma at_tpmqrt A T Q Rg W k i j x y : i <> k -> tpmqrt Or (A i k) (T i k) (A k j) (A i j) true = Ok (x, y) ->
  same (fj_run (Tpmqrt k i j) (held A T Q Rg W)) (held (bupd (bupd A k j x) i j y) T Q Rg W).
Proof. intros Hne H. cells; rewrite ?H; cbn [bind nth_error]; eqs. Qed.
Lemma at_q_larfb A T Q Rg W tr k j x : larfb (A k k) (T k k) (Q k j) tr = Ok x ->
  same (fjq_run tr (Larfb k j) (held A T Q Rg W)) (held A T (bupd Q k j x) Rg W).
Proof. intros H. cells; rewrite ?H; cbn [bind nth_error]; eqs. Qed.
Lemma at_q_tpmqrt A T Q Rg W tr k i j x y : i <> k -> tpmqrt Or (A i k) (T i k) (Q k j) (Q i j) tr = Ok (x, y) ->
  same (fjq_run tr (Tpmqrt k i j) (held A T Q Rg W)) (held A T (bupd (bupd Q k j x) i j y) Rg W).
Proof. intros Hne H. cells; rewrite ?H; cbn [bind nth_error]; eqs. Qed.

(** *** The sequential program *)
Lemma fj_exec l (s u : bmem) : same s u -> same (exec fj_run l s) (exec fj_run l u).
Proof. apply (exec_same_gen (inl_ fj_rd) (inl_ fj_wr) fj_run (fun t x => wdec_in blk_eq fj_wr t x) (trun_respects blk_eq fj_rd fj_wr fj_body)). Qed.
Lemma fjq_exec tr l (s u : bmem) : same s u -> same (exec (fjq_run tr) l s) (exec (fjq_run tr) l u).
Proof. apply (exec_same_gen (inl_ fjq_rd) (inl_ fjq_wr) (fjq_run tr) (fun t x => wdec_in blk_eq fjq_wr t x) (trun_respects blk_eq fjq_rd fjq_wr (fjq_body tr))). Qed.
Lemma single_map {A B} (f : A -> B) l : flat_map (fun x => [f x]) l = map f l.
Proof. induction l; simpl; congruence. Qed.

Variables (Rg : grid) (W : nat -> matrix).

Lemma seq_larfb q k Q (A T C : grid) C' : (forall i, C i k = A i k) -> tiled_larfb q k true (S k) A T C = Ok C' ->
  (forall i, C' i k = A i k) /\ same (exec fj_run (map (Larfb k) (seq (S k) (q - S k))) (held C T Q Rg W)) (held C' T Q Rg W).
Proof.
  intros HI H. rewrite <- single_map.
  apply (loop_tasks fj_run same (fun C => held C T Q Rg W) (fun C => forall i, C i k = A i k)) with (body := fun t C =>
    let* x := larfb (A k k) (T k k) (C k (S k + t)) true in Ok (bupd C k (S k + t) x));
    auto using mem_refl, fj_same; [exact mem_trans|].
  intros t s s' Ht Hs Hb. apply bind_Ok in Hb. destruct Hb as [x [H1 H2]]. inversion H2; subst. split.
  - intros i. rewrite bupd_at. destruct (blk_eq _ _) as [E|]; auto. inversion E. lia.
  - cbn [exec]. apply at_larfb. rewrite Hs. auto.
Qed.
Lemma seq_tpmqrt q k i Q (A T C : grid) C' : i <> k -> (forall i, C i k = A i k) ->
  tiled_tpmqrt Or q k i true (S k) A T C = Ok C' ->
  (forall i, C' i k = A i k) /\ same (exec fj_run (map (Tpmqrt k i) (seq (S k) (q - S k))) (held C T Q Rg W)) (held C' T Q Rg W).
Proof.
  intros Hne HI H. rewrite <- single_map.
  apply (loop_tasks fj_run same (fun C => held C T Q Rg W) (fun C => forall i, C i k = A i k)) with (body := fun t C =>
    let* (x, y) := tpmqrt Or (A i k) (T i k) (C k (S k + t)) (C i (S k + t)) true in
    Ok (bupd (bupd C k (S k + t) x) i (S k + t) y));
    auto using mem_refl, fj_same; [exact mem_trans|].
  intros t s s' Ht Hs Hb. apply bind_Ok in Hb. destruct Hb as [[x y] [H1 H2]]. inversion H2; subst. split.
  - intros i'. rewrite bupd_at. destruct (blk_eq _ _) as [E|]; [inversion E; lia|].
    rewrite bupd_at. destruct (blk_eq _ _) as [E|]; [inversion E; lia|]. auto.
  - cbn [exec]. apply at_tpmqrt; auto. rewrite Hs. auto.
Qed.

Lemma seq_factor p q Q A T A' T' : tiled_qr Or K p q A p q T = Ok (A', T') ->
  same (exec fj_run (concat (factor_phases p q)) (held A T Q Rg W)) (held A' T' Q Rg W).
Proof.
  intros H. unfold tiled_qr in H. apply assert_Ok in H. destruct H as [_ H]. apply assert_Ok in H. destruct H as [_ H].
  unfold factor_phases. rewrite concat_flat_map.
  refine (proj2 (loop_tasks fj_run same (fun s => held (fst s) (snd s) Q Rg W) (fun _ => True) _ _ 0 q (A, T) (A', T')
    mem_refl mem_trans fj_same _ I H)).
  clear H. intros k s s' Hk _ H. split; [exact I|]. unfold tiled_step in H. apply assert_Ok in H. destruct H as [_ H].
  apply bind_Ok in H. destruct H as [[x y] [H1 H]]. apply bind_Ok in H. destruct H as [A1 [H2 H3]].
  rewrite Nat.add_0_l. rewrite concat_app, concat_flat_map, exec_app. cbn [concat app exec]. rewrite app_nil_r.
  eapply mem_trans; [apply fj_exec; apply fj_exec; apply at_geqrt; exact H1|].
  eapply mem_trans; [apply fj_exec; eapply seq_larfb; [|exact H2]; auto|].
  refine (proj2 (loop_tasks fj_run same (fun s => held (fst s) (snd s) Q Rg W) (fun _ => True) _ _ (S k) (p - S k) (A1, bupd (snd s) k k y) s'
    mem_refl mem_trans fj_same _ I H3)).
  intros t s1 s1' Ht _ Hb. split; [exact I|]. cbv beta zeta in Hb. apply bind_Ok in Hb. destruct Hb as [[[x1 v1] y1] [G1 Hb]].
  apply bind_Ok in Hb. destruct Hb as [A2 [G2 G3]]. inversion G3; subst. cbn [concat app exec fst snd]. rewrite app_nil_r.
  eapply mem_trans; [apply fj_exec; apply at_tpqrt; [|exact G1]; lia|].
  eapply seq_tpmqrt; [| |exact G2]; [lia|auto].
Qed.

Lemma seq_q_larfb q k tr (Y T C : grid) C' : tiled_larfb q k tr k Y T C = Ok C' ->
  same (exec (fjq_run tr) (map (Larfb k) (seq k (q - k))) (held Y T C Rg W)) (held Y T C' Rg W).
Proof.
  intros H. rewrite <- single_map.
  refine (proj2 (loop_tasks (fjq_run tr) same (fun C => held Y T C Rg W) (fun _ => True) _ _ k (q - k) C C'
    mem_refl mem_trans (fjq_same tr) _ I H)).
  intros t s s' Ht _ Hb. apply bind_Ok in Hb. destruct Hb as [x [H1 H2]]. inversion H2; subst. split; [exact I|].
  cbn [exec]. apply at_q_larfb. auto.
Qed.
Lemma seq_q_tpmqrt q k i tr (Y T C : grid) C' : i <> k -> tiled_tpmqrt Or q k i tr k Y T C = Ok C' ->
  same (exec (fjq_run tr) (map (Tpmqrt k i) (seq k (q - k))) (held Y T C Rg W)) (held Y T C' Rg W).
Proof.
  intros Hne H. rewrite <- single_map.
  refine (proj2 (loop_tasks (fjq_run tr) same (fun C => held Y T C Rg W) (fun _ => True) _ _ k (q - k) C C'
    mem_refl mem_trans (fjq_same tr) _ I H)).
  intros t s s' Ht _ Hb. apply bind_Ok in Hb. destruct Hb as [[x y] [H1 H2]]. inversion H2; subst. split; [exact I|].
  cbn [exec]. apply at_q_tpmqrt; auto.
Qed.
Lemma seq_form p q Y T C C' : tiled_apply Or p q Y T C false = Ok C' ->
  same (exec (fjq_run false) (concat (form_phases p q)) (held Y T C Rg W)) (held Y T C' Rg W).
Proof.
  intros H. unfold tiled_apply in H. apply assert_Ok in H. destruct H as [_ H]. unfold form_phases. rewrite concat_flat_map.
  refine (proj2 (loop_tasks (fjq_run false) same (fun C => held Y T C Rg W) (fun _ => True) _ _ 0 q C C'
    mem_refl mem_trans (fjq_same false) _ I H)).
  intros t s s' Ht _ Hb. split; [exact I|]. cbv beta zeta in Hb. apply bind_Ok in Hb. destruct Hb as [C1 [H1 H2]].
  rewrite Nat.add_0_l. cbv zeta. rewrite concat_app, concat_flat_map, exec_app. cbn [concat app]. rewrite app_nil_r.
  eapply mem_trans; [apply fjq_exec|eapply seq_q_larfb; exact H2].
  replace (p - S (q - 1 - t)) with (p - 1 - (q - 1 - t)) in H1 by lia.
  refine (proj2 (loop_tasks (fjq_run false) same (fun C => held Y T C Rg W) (fun _ => True) _ _ 0 _ s C1
    mem_refl mem_trans (fjq_same false) _ I H1)).
  intros i u u' Hi _ Hb. split; [exact I|]. rewrite Nat.add_0_l. cbn [concat]. rewrite app_nil_r. apply seq_q_tpmqrt; auto. lia.
Qed.
Lemma seq_check p q Y T C C' : tiled_apply Or p q Y T C true = Ok C' ->
  same (exec (fjq_run true) (concat (check_phases p q)) (held Y T C Rg W)) (held Y T C' Rg W).
Proof.
  intros H. unfold tiled_apply in H. apply assert_Ok in H. destruct H as [_ H]. unfold check_phases. rewrite concat_flat_map.
  refine (proj2 (loop_tasks (fjq_run true) same (fun C => held Y T C Rg W) (fun _ => True) _ _ 0 q C C'
    mem_refl mem_trans (fjq_same true) _ I H)).
  intros t s s' Ht _ Hb. split; [exact I|]. cbv beta zeta in Hb. apply bind_Ok in Hb. destruct Hb as [C1 [H1 H2]].
  rewrite Nat.add_0_l. rewrite concat_app, concat_flat_map, exec_app. cbn [concat app]. rewrite app_nil_r.
  eapply mem_trans; [apply fjq_exec; eapply seq_q_larfb; exact H1|].
  refine (proj2 (loop_tasks (fjq_run true) same (fun C => held Y T C Rg W) (fun _ => True) _ _ (S t) _ C1 s'
    mem_refl mem_trans (fjq_same true) _ I H2)).
  intros i u u' Hi _ Hb. split; [exact I|]. cbn [concat]. rewrite app_nil_r. apply seq_q_tpmqrt; auto. lia.
Qed.

(** *** All orders *)
Theorem fj_tiled_factor p q Q A T A' T' sched : tiled_qr Or K p q A p q T = Ok (A', T') -> orders (factor_phases p q) sched ->
  same (exec fj_run sched (held A T Q Rg W)) (held A' T' Q Rg W).
Proof.
  intros H O. eapply mem_trans; [|apply seq_factor; exact H].
  apply (fork_join (inl_ fj_rd) (inl_ fj_wr) fj_run (fun t x => wdec_in blk_eq fj_wr t x) (trun_respects blk_eq fj_rd fj_wr fj_body));
    [apply factor_independent|exact O].
Qed.
Theorem fj_tiled_form p q Y T C C' sched : tiled_apply Or p q Y T C false = Ok C' -> orders (form_phases p q) sched ->
  same (exec (fjq_run false) sched (held Y T C Rg W)) (held Y T C' Rg W).
Proof.
  intros H O. eapply mem_trans; [|apply (seq_form p q); exact H].
  apply (fork_join (inl_ fjq_rd) (inl_ fjq_wr) (fjq_run false) (fun t x => wdec_in blk_eq fjq_wr t x) (trun_respects blk_eq fjq_rd fjq_wr (fjq_body false)));
    [apply form_independent|exact O].
Qed.
Theorem fj_tiled_check p q Y T C C' sched : tiled_apply Or p q Y T C true = Ok C' -> orders (check_phases p q) sched ->
  same (exec (fjq_run true) sched (held Y T C Rg W)) (held Y T C' Rg W).
Proof.
  intros H O. eapply mem_trans; [|apply (seq_check p q); exact H].
  apply (fork_join (inl_ fjq_rd) (inl_ fjq_wr) (fjq_run true) (fun t x => wdec_in blk_eq fjq_wr t x) (trun_respects blk_eq fjq_rd fjq_wr (fjq_body true)));
    [apply check_independent|exact O].
Qed.
End Run.
