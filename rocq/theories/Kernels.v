(** Matrix kernels: src/functions.cpp, over the real numbers.  Offsets are not
    negative; the stream of a reseeded generator is some fixed sequence. *)
From Coq Require Import List Arith ZArith Lia Bool Reals Lra.
From Verif Require Import Prelude Ring MatFun Matrix MatOps MatOpsProofs SvdRank.
Import ListNotations.
Local Open Scope nat_scope.

Inductive kernel := KZeros | KIdentity | KRandom (stream : nat -> R) | KArange | KCauchy2d | KLaplace | KHelmholtz.

(** x[k][i] *)
Definition coord (x : list (list R)) (k i : nat) : outcome R :=
  match nth_error x k with
  | Some l => match nth_error l i with Some v => Ok v | None => UB end
  | None => UB
  end.

(** functions.cpp:101-107 and 121-127: the sum over all coordinates *)
Fixpoint dist2 (x : list (list R)) (i j : nat) (acc : R) : outcome R :=
  match x with
  | [] => Ok acc
  | l :: t =>
      match nth_error l i, nth_error l j with
      | Some a, Some b => dist2 t i j (acc + (a - b) * (a - b))%R
      | _, _ => UB
      end
  end.

(** The value written to A(i,j) of a block with [cols] columns. *)
Definition entry (k : kernel) (x : list (list R)) (cols row_start col_start i j : nat) : outcome R :=
  match k with
  | KZeros => Ok 0%R                                                         (* 14-23 *)
  | KIdentity => Ok (if row_start + i =? col_start + j then 1 else 0)%R     (* 25-34 *)
  | KRandom st => Ok (st (i * cols + j))                                     (* 36-68 *)
  | KArange => Ok (INR (i * cols + j))                                       (* 70-79 *)
  | KCauchy2d =>                                                             (* 81-92 *)
      let* a := coord x 0 (i + row_start) in
      let* b := coord x 1 (j + col_start) in
      Ok (1 / (a - b + 1 / 100))%R
  | KLaplace =>                                                              (* 94-111 *)
      let* r := dist2 x (i + row_start) (j + col_start) 0%R in
      Ok (1 / (sqrt r + 1 / 1000))%R
  | KHelmholtz =>                                                            (* 113-130 *)
      let* r := dist2 x (i + row_start) (j + col_start) 0%R in
      Ok (exp (- 1 * r) / (sqrt r + 1 / 1000))%R
  end.

(** The loops over the block. *)
Definition kernel_fill (k : kernel) (x : list (list R)) (rows cols row_start col_start : nat) : outcome (dense Rring) :=
  let* _ := check_ok rows (fun i => check_ok cols (fun j => entry k x cols row_start col_start i j)) in
  Ok (@Dn Rring rows cols (fun i j => get_ok 0%R (entry k x cols row_start col_start i j))).

(** Kernels whose entries depend on the absolute position only. *)
Definition positional (k : kernel) : bool :=
  match k with KRandom _ | KArange => false | _ => true end.
(** Kernels of a symmetric matrix. *)
Definition symmetric_kernel (k : kernel) : bool :=
  match k with KZeros | KIdentity | KLaplace | KHelmholtz => true | _ => false end.

(** Every coordinate has at least n points. *)
Definition enough (x : list (list R)) (n : nat) : Prop := forall l, In l x -> n <= length l.

Lemma check_ok_inv {A} n (f : nat -> outcome A) : check_ok n f = Ok tt -> forall i, i < n -> exists a, f i = Ok a.
Proof.
  induction n as [|n IH]; intros H i Hi; [lia|]. simpl in H.
  destruct (check_ok n f) as [[]| | | |] eqn:E; try discriminate. simpl in H.
  destruct (Nat.eq_dec i n) as [->|]; [destruct (f n); simpl in H; try discriminate; eauto|apply IH; auto; lia].
Qed.
Lemma check_ok_intro {A} n (f : nat -> outcome A) : (forall i, i < n -> exists a, f i = Ok a) -> check_ok n f = Ok tt.
Proof.
  induction n as [|n IH]; intros H; simpl; auto. rewrite IH by (intros; apply H; lia). simpl.
  destruct (H n) as [a ->]; auto.
Qed.

Lemma kernel_fill_inv k x r c rs cs D : kernel_fill k x r c rs cs = Ok D ->
  d_r D = r /\ d_c D = c /\ forall i j, i < r -> j < c -> entry k x c rs cs i j = Ok (d_e D i j).
Proof.
  unfold kernel_fill. intros H. apply bind_Ok in H. destruct H as [[] [E H]]. inversion H; subst. simpl. split; auto. split; auto.
  intros i j Hi Hj. destruct (check_ok_inv _ _ E i Hi) as [[] Ei]. destruct (check_ok_inv _ _ Ei j Hj) as [a Ea].
  rewrite Ea. reflexivity.
Qed.
Lemma kernel_fill_intro k x r c rs cs : (forall i j, i < r -> j < c -> exists v, entry k x c rs cs i j = Ok v) ->
  exists D, kernel_fill k x r c rs cs = Ok D.
Proof.
  intros H. unfold kernel_fill. rewrite (check_ok_intro r). { eexists. reflexivity. }
  intros i Hi. exists tt. apply check_ok_intro. intros; apply H; auto.
Qed.

(** Entries by absolute position. *)
Lemma entry_shift k x c c' rs cs i j dr dc : positional k = true ->
  entry k x c' (rs + dr) (cs + dc) i j = entry k x c rs cs (dr + i) (dc + j).
Proof.
  destruct k; simpl; intros H; try discriminate; auto.
  - replace (rs + dr + i =? cs + dc + j) with (rs + (dr + i) =? cs + (dc + j)); auto. f_equal; lia.
  - replace (i + (rs + dr)) with (dr + i + rs) by lia. replace (j + (cs + dc)) with (dc + j + cs) by lia. reflexivity.
  - replace (i + (rs + dr)) with (dr + i + rs) by lia. replace (j + (cs + dc)) with (dc + j + cs) by lia. reflexivity.
  - replace (i + (rs + dr)) with (dr + i + rs) by lia. replace (j + (cs + dc)) with (dc + j + cs) by lia. reflexivity.
Qed.

Theorem fill_window k x R C rs cs F r c dr dc : positional k = true -> kernel_fill k x R C rs cs = Ok F ->
  dr + r <= R -> dc + c <= C ->
  exists B, kernel_fill k x r c (rs + dr) (cs + dc) = Ok B /\ d_r B = r /\ d_c B = c /\
    forall i j, i < r -> j < c -> d_e B i j = d_e F (dr + i) (dc + j).
Proof.
  intros Hk HF Hr Hc. destruct (kernel_fill_inv _ _ _ _ _ _ _ HF) as [_ [_ E]].
  destruct (kernel_fill_intro k x r c (rs + dr) (cs + dc)) as [B HB].
  { intros i j Hi Hj. rewrite (entry_shift k x C c rs cs i j dr dc Hk). rewrite E by lia. eauto. }
  exists B. split; auto. destruct (kernel_fill_inv _ _ _ _ _ _ _ HB) as [E1 [E2 E3]]. split; auto. split; auto.
  intros i j Hi Hj. specialize (E3 i j Hi Hj). rewrite (entry_shift k x C c rs cs i j dr dc Hk), E in E3 by lia. congruence.
Qed.

(** Success. *)
Lemma dist2_ok x n i j : enough x n -> i < n -> j < n -> forall acc, exists r, dist2 x i j acc = Ok r.
Proof.
  induction x as [|l x IH]; intros H Hi Hj acc; simpl; eauto.
  assert (n <= length l) by (apply H; left; auto).
  destruct (nth_error l i) eqn:E1; [|apply nth_error_None in E1; lia].
  destruct (nth_error l j) eqn:E2; [|apply nth_error_None in E2; lia].
  apply IH; auto. intros l' Hl'. apply H. right; auto.
Qed.

Theorem fill_succeeds k x r c rs cs n : enough x n -> rs + r <= n -> cs + c <= n ->
  (k = KCauchy2d -> 2 <= length x) -> exists D, kernel_fill k x r c rs cs = Ok D.
Proof.
  intros HE Hr Hc HC. apply kernel_fill_intro. intros i j Hi Hj. destruct k; simpl; eauto.
  - assert (CO : forall k i, k < 2 -> i < n -> exists v, coord x k i = Ok v).
    { intros k i' Hk Hi'. unfold coord. specialize (HC eq_refl).
      destruct (nth_error x k) as [l|] eqn:E; [|apply nth_error_None in E; lia].
      assert (n <= length l) by (apply HE; eapply nth_error_In; eauto).
      destruct (nth_error l i') eqn:E2; [eauto|apply nth_error_None in E2; lia]. }
    destruct (CO 0 (i + rs)) as [a ->]; [lia|lia|]. cbn [bind]. destruct (CO 1 (j + cs)) as [b ->]; [lia|lia|]. cbn [bind]. eauto.
  - destruct (dist2_ok x n (i + rs) (j + cs) HE ltac:(lia) ltac:(lia) 0%R) as [q ->]. cbn [bind]. eauto.
  - destruct (dist2_ok x n (i + rs) (j + cs) HE ltac:(lia) ltac:(lia) 0%R) as [q ->]. cbn [bind]. eauto.
Qed.

(** Symmetry. *)
Lemma dist2_sym x i j : forall acc, dist2 x i j acc = dist2 x j i acc.
Proof.
  induction x as [|l x IH]; intros acc; simpl; auto.
  destruct (nth_error l i) as [a|], (nth_error l j) as [b|]; auto.
  rewrite IH. f_equal. ring.
Qed.

Lemma entry_sym k x c c' rs cs i j : symmetric_kernel k = true -> entry k x c rs cs i j = entry k x c' cs rs j i.
Proof.
  destruct k; simpl; intros H; try discriminate; auto.
  - rewrite (Nat.eqb_sym (rs + i)). reflexivity.
  - rewrite dist2_sym. reflexivity.
  - rewrite dist2_sym. reflexivity.
Qed.

Theorem fill_sym k x r c rs cs D : symmetric_kernel k = true -> kernel_fill k x r c rs cs = Ok D ->
  exists E, kernel_fill k x c r cs rs = Ok E /\ d_r E = c /\ d_c E = r /\
    forall i j, i < r -> j < c -> d_e E j i = d_e D i j.
Proof.
  intros Hk HD. destruct (kernel_fill_inv _ _ _ _ _ _ _ HD) as [_ [_ H]].
  destruct (kernel_fill_intro k x c r cs rs) as [E HE].
  { intros j i Hj Hi. rewrite (entry_sym k x r c cs rs j i Hk), H by auto. eauto. }
  exists E. split; auto. destruct (kernel_fill_inv _ _ _ _ _ _ _ HE) as [E1 [E2 E3]]. split; auto. split; auto.
  intros i j Hi Hj. specialize (E3 j i Hj Hi). rewrite (entry_sym k x r c cs rs j i Hk), H in E3 by auto. congruence.
Qed.

(** The distance kernels are defined and bounded everywhere: the shift keeps the
    denominator away from zero. *)
Lemma dist2_nonneg x i j : forall acc r, (0 <= acc)%R -> dist2 x i j acc = Ok r -> (0 <= r)%R.
Proof.
  induction x as [|l x IH]; intros acc r H E; simpl in E; [inversion E; subst; auto|].
  destruct (nth_error l i) as [a|]; [|discriminate]. destruct (nth_error l j) as [b|]; [|discriminate].
  apply IH in E; auto. pose proof (Rle_0_sqr (a - b)). unfold Rsqr in *. lra.
Qed.

Theorem entry_bounds k x c rs cs i j v : k = KLaplace \/ k = KHelmholtz -> entry k x c rs cs i j = Ok v ->
  (0 < v <= 1000)%R.
Proof.
  intros Hk E.
  assert (K : exists r num, (0 <= r)%R /\ (0 < num <= 1)%R /\ v = (num / (sqrt r + 1 / 1000))%R).
  { destruct Hk as [-> | ->]; simpl in E; apply bind_Ok in E; destruct E as [r [Er E]]; inversion E; subst;
      (assert (Hr : (0 <= r)%R) by (eapply dist2_nonneg; [|exact Er]; lra)).
    - exists r, 1%R. repeat split; auto; lra.
    - exists r, (exp (- 1 * r)). split; auto. split; auto. split; [apply exp_pos|].
      rewrite <- exp_0. destruct Hr as [Hr|Hr]; [left; apply exp_increasing; lra|right; f_equal; lra]. }
  destruct K as [r [num [Hr [Hn ->]]]]. pose proof (sqrt_pos r). split.
  - apply Rmult_lt_0_compat; [lra|]. apply Rinv_0_lt_compat. lra.
  - apply (Rmult_le_reg_r (sqrt r + 1 / 1000)); [lra|]. unfold Rdiv at 1. rewrite Rmult_assoc, Rinv_l by lra. lra.
Qed.

(** Counterexamples: arange ignores the offsets and depends on the width of the block. *)
Theorem arange_offsets : exists F B, kernel_fill KArange [] 2 2 0 0 = Ok F /\ kernel_fill KArange [] 1 1 1 1 = Ok B /\
  d_e B 0 0 <> d_e F 1 1.
Proof. eexists _, _. split; [reflexivity|]. split; [reflexivity|]. simpl. lra. Qed.

(** Blocks of a random matrix repeat the same numbers. *)
Theorem random_repeats st x r c rs cs rs' cs' :
  kernel_fill (KRandom st) x r c rs cs = kernel_fill (KRandom st) x r c rs' cs'.
Proof. reflexivity. Qed.
