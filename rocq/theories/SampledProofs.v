(** Interpolative decompositions and randomized factorizations compose correctly. *)
From Coq Require Import List Arith ZArith QArith Lia Bool Ring_theory Ring Setoid Morphisms Permutation.
From Verif Require Import Prelude Ring MatFun MatSetoid Matrix MatOps MatSpec MatOpsProofs Lapack Gemm GemmSpec GemmProofs
  GemmTheorems Triangular TriAlgebra TriSpec TriProofs Sampled.
Import ListNotations.
Local Open Scope nat_scope.

Section Proofs.
Context {R : cring}.
Add Ring Rr : (cr_th R).
Notation dense := (dense R).
Notation lowrank := (lowrank R).
Notation matrix := (matrix R).
Notation mat := (mat R).

(** P lists 0..n-1 in some order. *)
Definition order (n : nat) (P : list nat) : Prop := length P = n /\ NoDup P /\ forall c, In c P -> c < n.

(** Columns P of f. *)
Definition pick (P : list nat) (f : mat) : mat := fun i j => f i (nth j P 0).

(** What is assumed of LAPACKE_dgeqp3: A(:,P) = Q R with orthonormal Q and R the upper
    trapezoid of a. *)
Definition is_geqp3 (A a : dense) (jpvt : list nat) : Prop :=
  let P := map (fun j => j - 1) jpvt in
  let k := Nat.min (d_r A) (d_c A) in
  order (d_c A) P /\
  exists Q : mat, orth_cols (d_r A) k Q /\
    feq (d_r A) (d_c A) (pick P (d_e A)) (mmul k Q (tri Upper false (d_e a))).
Definition pivot_ok (dgeqp3 : dense -> outcome (dense * list nat)) : Prop :=
  forall A a jpvt, dgeqp3 A = Ok (a, jpvt) -> is_geqp3 A a jpvt.

(** ** Orders *)

Lemma order_nth n P j : order n P -> j < n -> nth j P 0 < n.
Proof. intros [H1 [H2 H3]] Hj. apply H3. apply nth_In. lia. Qed.
Lemma order_inj n P i j : order n P -> i < n -> j < n -> nth i P 0 = nth j P 0 -> i = j.
Proof. intros [H1 [H2 H3]] Hi Hj E. apply (proj1 (NoDup_nth P 0) H2); lia. Qed.
Lemma order_onto n P c : order n P -> c < n -> exists j, j < n /\ nth j P 0 = c.
Proof.
  intros [H1 [H2 H3]] Hc.
  assert (I : incl (seq 0 n) P).
  { apply NoDup_length_incl; auto; [rewrite seq_length; lia|]. intros x Hx. apply in_seq. specialize (H3 x Hx). lia. }
  assert (Hin : In c P) by (apply I; apply in_seq; lia).
  destruct (In_nth P c 0 Hin) as [j [Hj Ej]]. exists j. split; auto. lia.
Qed.

Definition suml (l : list nat) (f : nat -> R) : R := fold_right (fun x s => (f x + s)%r) rO l.
Lemma suml_perm l l' (f : nat -> R) : Permutation l l' -> suml l f = suml l' f.
Proof. induction 1; simpl; auto; [rewrite IHPermutation; reflexivity|ring|congruence]. Qed.
Lemma suml_app l l' (f : nat -> R) : suml (l ++ l') f = (suml l f + suml l' f)%r.
Proof. induction l; simpl; [ring|rewrite IHl; ring]. Qed.
Lemma suml_seq n (f : nat -> R) : suml (seq 0 n) f = sum n f.
Proof.
  induction n; auto. rewrite seq_S, suml_app, IHn. simpl. ring.
Qed.
Lemma suml_nth P (f : nat -> R) : suml P f = sum (length P) (fun j => f (nth j P 0)).
Proof.
  induction P as [|c P IH]; auto. simpl length. rewrite sum_first. simpl. rewrite IH. reflexivity.
Qed.
Lemma sum_order n P (f : nat -> R) : order n P -> sum n (fun j => f (nth j P 0)) = sum n f.
Proof.
  intros HP. destruct HP as [H1 [H2 H3]]. rewrite <- (suml_seq n f). rewrite <- H1 at 1. rewrite <- suml_nth.
  apply suml_perm. apply NoDup_Permutation; auto; [apply seq_NoDup|].
  intros x. rewrite in_seq. split; [intros Hx; specialize (H3 x Hx); lia|].
  intros Hx. destruct (order_onto n P x) as [j [Hj <-]]; [split; auto|lia|]. apply nth_In. lia.
Qed.
Lemma sumsq_order m n P (f : mat) : order n P -> sumsq m n (pick P f) = sumsq m n f.
Proof.
  intros HP. unfold sumsq, pick. apply sum_ext. intros i _. apply (sum_order n P (fun c => (f i c * f i c)%r) HP).
Qed.

(** ** Interleaving *)

Lemma fold_upd (l : list (nat * nat)) (tg : nat * nat -> nat * nat) (v : nat * nat -> R) (f : mat) x :
  NoDup (map tg l) -> In x l ->
  fold_left (fun f y => upd f (fst (tg y)) (snd (tg y)) (v y)) l f (fst (tg x)) (snd (tg x)) = v x.
Proof.
  assert (Out : forall l f i j, ~ In (i, j) (map tg l) ->
    fold_left (fun f y => upd f (fst (tg y)) (snd (tg y)) (v y)) l f i j = f i j).
  { clear. induction l as [|y l IH]; intros f i j H; simpl; auto. rewrite IH by (intros Hin; apply H; right; auto).
    apply upd_other. intros E. apply H. left. destruct (tg y). simpl in E. congruence. }
  intros HN. revert f. induction l as [|y l IH]; intros f Hin; [destruct Hin|].
  simpl in HN. inversion HN as [|? ? Hn HN']; subst. simpl. destruct Hin as [->|Hin].
  - rewrite Out by (destruct (tg x); exact Hn). apply upd_same.
  - apply IH; auto.
Qed.

Lemma nodup_map_inj {A B} (g : A -> B) l : NoDup l -> (forall x y, In x l -> In y l -> g x = g y -> x = y) -> NoDup (map g l).
Proof.
  induction 1 as [|x l Hx Hl IH]; intros Hg; simpl; constructor.
  - rewrite in_map_iff. intros [y [E Hy]]. apply Hx. rewrite <- (Hg y x); auto; [right|left]; auto.
  - apply IH. intros y z Hy Hz. apply Hg; right; auto.
Qed.

Lemma interleave_spec (X W : dense) P : order (length P) P -> interleave_id X P = Ok W ->
  let n := length P in
  let k := n - d_c X in
  d_c X <= n /\ d_r W = d_r X /\ d_c W = n /\
  forall i j, i < d_r X -> j < n ->
    d_e W i (nth j P 0) = if j <? k then (if i =? j then rI else rO) else d_e X i (j - k).
Proof.
  intros HP H n k. unfold interleave_id in H. apply assert_Ok in H. destruct H as [L H]. apply Nat.leb_le in L.
  destruct (forallb _ _); [|discriminate]. inversion H; subst W; clear H. cbn [d_r d_c d_e].
  split; auto. split; auto. split; auto. intros i j Hi Hj.
  set (tg := fun ij : nat * nat => (fst ij, nth (snd ij) P 0)).
  pose proof (fold_upd (ij_all (d_r X) n) tg (fun ij => if snd ij <? k then if fst ij =? snd ij then rI else rO
    else d_e X (fst ij) (snd ij - k)) mzero (i, j)) as F. unfold tg in F. cbn [fst snd] in F.
  apply F.
  - apply nodup_map_inj; [apply ij_loop_nodup|]. intros [a b] [c d] H1 H2 E. apply in_ij_all in H1, H2.
    cbn [fst snd] in E. injection E as -> E. f_equal. apply (order_inj n P); auto; lia.
  - apply in_ij_all. auto.
Qed.

(** ** The one sided decomposition *)

Variable dgeqp3 : dense -> outcome (dense * list nat).
Hypothesis HP : pivot_ok dgeqp3.
Variable rinv : R -> R.

Lemma geqp3_ok (A Rf : dense) P : geqp3 dgeqp3 A = Ok (Rf, P) ->
  let m := d_r A in
  let n := d_c A in
  let k := Nat.min m n in
  d_r Rf = n /\ d_c Rf = n /\ order n P /\
  (forall i j, j < i \/ k <= i -> d_e Rf i j = 0%r) /\
  exists Q : mat, orth_cols m k Q /\ feq m n (pick P (d_e A)) (mmul k Q (d_e Rf)).
Proof.
  intros H m n k. unfold geqp3 in H. apply bind_Ok in H. destruct H as [[a jp] [Ha H]]. inversion H; subst Rf P; clear H.
  apply HP in Ha. destruct Ha as [HO [Q [OQ E]]]. fold m n in HO, OQ, E |- *. fold k in OQ, E |- *. cbn [d_r d_c d_e].
  split; auto. split; auto. split; auto.
  assert (F : forall i j, j < n -> loop_upd (ij_loop k (fun i => i) (fun _ => n)) (fun _ i j => d_e a i j) mzero i j =
    if (i <? k) && (i <=? j) then d_e a i j else 0%r).
  { intros i j Hj. destruct (Nat.ltb_spec i k); [destruct (Nat.leb_spec i j)|]; simpl.
    - rewrite loop_upd_in; auto; [apply ij_loop_nodup|]. apply in_ij_loop. lia.
    - rewrite loop_upd_out; [reflexivity|]. rewrite in_ij_loop. lia.
    - rewrite loop_upd_out; [reflexivity|]. rewrite in_ij_loop. lia. }
  split.
  - intros i j Hij. rewrite loop_upd_out; [reflexivity|]. rewrite in_ij_loop. lia.
  - exists Q. split; auto. eapply feq_trans; [exact E|]. apply feq_mmul; [apply feq_refl|].
    intros i j Hi Hj. rewrite F by auto. unfold tri.
    destruct (Nat.ltb_spec i k); [|lia]. destruct (Nat.eqb_spec i j) as [->|]; [rewrite Nat.leb_refl; reflexivity|].
    destruct (Nat.ltb_spec i j); destruct (Nat.leb_spec i j); try lia; reflexivity.
Qed.

(** The part of A(:,P) - A(:,sel) W that comes from the rows of R that are dropped. *)
Definition tail_part (k kk : nat) (Q Rf : mat) : mat :=
  fun i j => if j <? k then 0%r else sum (kk - k) (fun l => (Q i (k + l)%nat * Rf (k + l)%nat j)%r).

Lemma one_sided_ok (A : dense) k (W : dense) sel : one_sided_id dgeqp3 rinv A k = Ok (W, sel) ->
  let m := d_r A in
  let n := d_c A in
  k <= Nat.min m n /\
  exists (Rf : dense) P, geqp3 dgeqp3 A = Ok (Rf, P) /\ sel = firstn k P /\
    d_r W = k /\ d_c W = n /\ length sel = k /\ NoDup sel /\ (forall c, In c sel -> c < n) /\
    (forall a b, a < k -> b < k -> d_e W a (nth b sel 0) = if a =? b then rI else rO) /\
    (diag_ok rinv Upper k (d_e Rf) -> exists Q, orth_cols m (Nat.min m n) Q /\
       feq m n (pick P (msub (d_e A) (mmul k (pick sel (d_e A)) (d_e W)))) (tail_part k (Nat.min m n) Q (d_e Rf))).
Proof.
  intros H m n. unfold one_sided_id in H. fold m n in H. apply assert_Ok in H. destruct H as [Lk H]. apply Nat.leb_le in Lk.
  split; auto. apply bind_Ok in H. destruct H as [[Rf P] [HG H]]. apply bind_Ok in H. destruct H as [W' [HW H]].
  inversion H; subst W' sel; clear H. exists Rf, P. split; auto. split; auto.
  destruct (geqp3_ok A Rf P HG) as [E1 [E2 [HO [Z [Q [OQ F]]]]]]. fold m n in E1, E2, HO, Z, OQ, F. set (kk := Nat.min m n) in *.
  pose proof HO as [OL [ON OI]].
  assert (LN : length (firstn k P) = k) by (rewrite firstn_length; lia).
  assert (NT : forall b, b < k -> nth b (firstn k P) 0 = nth b P 0).
  { intros b Hb. rewrite <- (firstn_skipn k P) at 2. rewrite app_nth1 by lia. reflexivity. }
  (* what W is *)
  assert (HWs : d_r W = k /\ d_c W = n /\ exists X : mat,
    (forall i j, i < k -> j < n -> d_e W i (nth j P 0) = if j <? k then (if i =? j then rI else rO) else X i (j - k)) /\
    (diag_ok rinv Upper k (d_e Rf) -> forall i j, i < k -> j < n - k ->
       mmul k (tri Upper false (d_e Rf)) X i j = d_e Rf i (k + j))).
  { destruct ((k <? kk) || (m <? n)) eqn:C.
    - apply bind_Ok in HW. destruct HW as [X [HX HW]].
      assert (Lkn : k < n). { apply orb_prop in C. destruct C as [C|C]; apply Nat.ltb_lt in C; lia. }
      unfold d_trsm in HX. cbn [d_r d_c d_e along] in HX. apply ub_Ok in HX. destruct HX as [_ HX]. inversion HX; subst X; clear HX.
      apply interleave_spec in HW; [|rewrite OL; exact HO]. cbv zeta in HW. rewrite OL, E2 in HW. cbn [d_r d_c d_e] in HW.
      destruct HW as [_ [W1 [W2 W3]]]. split; auto. split; auto.
      eexists. split.
      + intros i j Hi Hj. rewrite (W3 i j Hi Hj). replace (n - (n - k)) with k by lia. reflexivity.
      + intros Hd i j Hi Hj. etransitivity; [exact (dtrsm_left rinv Upper k (d_e Rf) (mwin 0 k (d_e Rf)) i j Hd Hi)|].
        unfold mwin. f_equal; lia.
    - apply orb_false_iff in C. destruct C as [C1 C2]. apply Nat.ltb_ge in C1, C2.
      assert (Ekn : k = n) by (unfold kk in *; lia).
      apply interleave_spec in HW; [|rewrite OL; exact HO]. cbv zeta in HW. rewrite OL in HW. cbn [eye d_r d_c d_e] in HW.
      destruct HW as [_ [W1 [W2 W3]]]. split; auto. split; auto.
      exists mzero. split.
      + intros i j Hi Hj. rewrite (W3 i j Hi Hj). rewrite Ekn, Nat.sub_diag. simpl.
        rewrite (proj2 (Nat.ltb_lt j n) Hj). rewrite Nat.sub_0_r. reflexivity.
      + intros _ i j Hi Hj. lia. }
  destruct HWs as [W1 [W2 [X [W3 W4]]]]. split; auto. split; auto. split; auto. split.
  { apply (NoDup_nth _ 0). intros a b Ha Hb E. rewrite LN in Ha, Hb. rewrite !NT in E by auto.
    apply (order_inj n P); auto; lia. }
  split. { intros c Hc. apply OI. rewrite <- (firstn_skipn k P). apply in_or_app. auto. }
  split.
  { intros a b Ha Hb. rewrite NT by auto. rewrite W3 by lia. rewrite (proj2 (Nat.ltb_lt b k) Hb). reflexivity. }
  intros Hd. exists Q. split; auto. intros i j Hi Hj. unfold pick at 1. unfold msub.
  assert (EW : mmul k (pick (firstn k P) (d_e A)) (d_e W) i (nth j P 0) =
               sum k (fun b => (mmul kk Q (d_e Rf) i b * (if Nat.ltb j k then (if Nat.eqb b j then rI else rO) else X b (j - k)%nat))%r)).
  { unfold mmul at 1. apply sum_ext. intros b Hb. rewrite W3 by auto. f_equal. unfold pick. rewrite NT by auto.
    rewrite <- (F i b) by (auto; lia). reflexivity. }
  rewrite EW. change (d_e A i (nth j P 0)) with (pick P (d_e A) i j). rewrite (F i j Hi Hj).
  unfold tail_part. destruct (Nat.ltb_spec j k) as [L|L].
  - rewrite (sum_single k j _ L).
    + rewrite Nat.eqb_refl. ring.
    + intros b Hb Hn. destruct (Nat.eqb_spec b j); [lia|ring].
  - assert (E : sum k (fun b => (mmul kk Q (d_e Rf) i b * X b (j - k)%nat)%r) = mmul k Q (d_e Rf) i j).
    { transitivity (mmul k (mmul k Q (tri Upper false (d_e Rf))) X i (j - k)).
      - unfold mmul at 2. apply sum_ext. intros b Hb. f_equal. unfold mmul.
        replace kk with (k + (kk - k)) by lia. rewrite sum_split. rewrite (sum_zero' (kk - k)).
        + transitivity (sum k (fun l => (Q i l * tri Upper false (d_e Rf) l b)%r)); [|reflexivity].
          transitivity (sum k (fun l => (Q i l * d_e Rf l b)%r)); [ring|]. apply sum_ext. intros l Hl. f_equal. unfold tri.
          destruct (Nat.eqb_spec l b); auto. destruct (Nat.ltb_spec l b); auto. apply Z. lia.
        + intros l Hl. rewrite (Z (k + l) b) by lia. ring.
      - rewrite mmul_assoc. unfold mmul at 1 3. apply sum_ext. intros l Hl. f_equal. rewrite W4 by (auto; lia). f_equal. lia. }
    rewrite E. unfold mmul. replace kk with (k + (kk - k)) at 1 by lia. rewrite sum_split. ring.
Qed.

(** Nothing is lost when the dropped part of R is zero, in particular for k = min(m, n). *)
Lemma one_sided_exact (A : dense) k (W : dense) sel Rf P : one_sided_id dgeqp3 rinv A k = Ok (W, sel) ->
  geqp3 dgeqp3 A = Ok (Rf, P) -> diag_ok rinv Upper k (d_e Rf) ->
  (forall i j, k <= i -> i < Nat.min (d_r A) (d_c A) -> k <= j -> j < d_c A -> d_e Rf i j = 0%r) ->
  feq (d_r A) (d_c A) (mmul k (pick sel (d_e A)) (d_e W)) (d_e A).
Proof.
  intros H HG Hd HZ. apply one_sided_ok in H. destruct H as [Lk [Rf' [P' [HG' [_ [_ [_ [_ [_ [_ [_ H]]]]]]]]]]].
  rewrite HG in HG'. inversion HG'; subst Rf' P'; clear HG'. destruct (H Hd) as [Q [_ F]].
  destruct (geqp3_ok A Rf P HG) as [_ [_ [HO _]]].
  intros i c Hi Hc. destruct (order_onto _ P c HO Hc) as [j [Hj <-]].
  specialize (F i j Hi Hj). unfold pick at 1 in F. unfold msub in F.
  assert (E : tail_part k (Nat.min (d_r A) (d_c A)) Q (d_e Rf) i j = 0%r).
  { unfold tail_part. destruct (Nat.ltb_spec j k); auto. apply sum_zero'. intros l Hl. rewrite HZ by lia. ring. }
  rewrite E in F.
  set (x := mmul k (pick sel (d_e A)) (d_e W) i (nth j P 0)) in *. set (y := d_e A i (nth j P 0)) in *.
  transitivity (y - (y - x))%r; [ring|rewrite F; ring].
Qed.

(** The squared error is the squared norm of the dropped part. *)
Lemma tail_norm m n k kk (Q Rf : mat) : k <= kk -> k <= n -> orth_cols m kk Q ->
  sumsq m n (tail_part k kk Q Rf) = sumsq (kk - k) (n - k) (mwin k k Rf).
Proof.
  intros L1 L2 HQ. unfold sumsq.
  transitivity (sum n (fun j => sum m (fun i => (tail_part k kk Q Rf i j * tail_part k kk Q Rf i j)%r))); [apply sum_swap|].
  replace n with (k + (n - k)) at 1 by lia. rewrite sum_split. rewrite (sum_zero' k).
  2:{ intros j Hj. apply sum_zero'. intros i _. unfold tail_part. rewrite (proj2 (Nat.ltb_lt j k) Hj). ring. }
  transitivity (sum (n - k) (fun j => sum (kk - k) (fun l => (mwin k k Rf l j * mwin k k Rf l j)%r))).
  - transitivity (sum (n - k) (fun i => sum m (fun i0 => (tail_part k kk Q Rf i0 (k + i)%nat * tail_part k kk Q Rf i0 (k + i)%nat)%r))); [ring|].
    apply sum_ext. intros j Hj.
    transitivity (sum (kk - k) (fun a => sum (kk - k) (fun b =>
      (Rf (k + a)%nat (k + j)%nat * Rf (k + b)%nat (k + j)%nat * mmul m (mtr Q) Q (k + a)%nat (k + b)%nat)%r))).
    + transitivity (sum m (fun i => sum (kk - k) (fun a => sum (kk - k) (fun b =>
        (Rf (k + a)%nat (k + j)%nat * Rf (k + b)%nat (k + j)%nat * (Q i (k + a)%nat * Q i (k + b)%nat))%r)))).
      { apply sum_ext. intros i _. unfold tail_part. destruct (Nat.ltb_spec (k + j) k); [lia|].
        rewrite <- sum_mul_r. apply sum_ext. intros a _. rewrite <- sum_mul_l. apply sum_ext. intros b _. ring. }
      rewrite sum_swap. apply sum_ext. intros a _. rewrite sum_swap. apply sum_ext. intros b _.
      unfold mmul, mtr. rewrite <- sum_mul_l. reflexivity.
    + apply sum_ext. intros a Ha. rewrite (sum_single _ a _ Ha).
      * rewrite HQ by lia. unfold mid, mwin. rewrite Nat.eqb_refl. ring.
      * intros b Hb Hn. rewrite HQ by lia. unfold mid. destruct (Nat.eqb_spec (k + a) (k + b)); [lia|ring].
  - apply sum_swap.
Qed.

Lemma one_sided_error (A : dense) k (W : dense) sel Rf P : one_sided_id dgeqp3 rinv A k = Ok (W, sel) ->
  geqp3 dgeqp3 A = Ok (Rf, P) -> diag_ok rinv Upper k (d_e Rf) ->
  sumsq (d_r A) (d_c A) (msub (d_e A) (mmul k (pick sel (d_e A)) (d_e W))) =
  sumsq (Nat.min (d_r A) (d_c A) - k) (d_c A - k) (mwin k k (d_e Rf)).
Proof.
  intros H HG Hd. apply one_sided_ok in H. destruct H as [Lk [Rf' [P' [HG' [_ [_ [_ [_ [_ [_ [_ H]]]]]]]]]]].
  rewrite HG in HG'. inversion HG'; subst Rf' P'; clear HG'. destruct (H Hd) as [Q [OQ F]].
  destruct (geqp3_ok A Rf P HG) as [_ [_ [HO _]]].
  rewrite <- (sumsq_order _ _ P _ HO). rewrite <- (tail_norm (d_r A) (d_c A) k _ Q); auto; [|lia].
  unfold sumsq. apply sum_ext. intros i Hi. apply sum_ext. intros j Hj. rewrite (F i j Hi Hj). reflexivity.
Qed.
End Proofs.
