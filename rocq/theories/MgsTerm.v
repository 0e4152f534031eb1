(** Termination of the block Gram-Schmidt factorization and of the relative error. *)
From Coq Require Import List Arith ZArith QArith Lia Bool.
From Verif Require Import Prelude IndexRange IndexRangeProofs ClusterTree ClusterTreeProofs Ring MatFun Matrix MatOps MatSpec MatOpsProofs Lapack Gemm GemmSpec GemmProofs Triangular Reflect Sampled Mgs L2Error GemmTerm TriTerm.
Import ListNotations.
Local Open Scope nat_scope.

Section Term.
Context {R : cring}.
Notation dense := (dense R).
Notation lowrank := (lowrank R).
Notation matrix := (matrix R).
Notation mat := (mat R).
Notation grid := (nat -> nat -> matrix).

Ltac hb := apply halts_bind; [|let E := fresh "E" in intros ? E].
Ltac ha := apply halts_assert; intros ?.
Ltac bok H := let x := fresh "x" in let E := fresh "E" in apply bind_Ok in H; destruct H as [x [E H]].

(** ** The relative error *)

(** Nesting where leaves of both kinds count 0. *)
Fixpoint hv (A : matrix) : nat :=
  match A with
  | MH m n b => S (gmax m n (fun i j => hv (b i j)))
  | _ => 0
  end.
Lemma hv_lv A : hv A <= lv A.
Proof.
  induction A as [d|l|m n b IH|r c]; simpl; auto. apply le_n_S. apply gmax_le. intros i j Hi Hj.
  etransitivity; [apply IH|]. apply (gmax_in m n (fun i j => lv (b i j))); auto.
Qed.
Lemma hv_child m n b i j : i < m -> j < n -> hv (b i j) < hv (MH m n b).
Proof. intros Hi Hj. simpl. pose proof (gmax_in m n (fun i j => hv (b i j)) i j Hi Hj). simpl in H. lia. Qed.

Lemma halts_accum {A} n (f : nat -> A -> outcome A) a : (forall i a, i < n -> halts (f i a)) -> halts (accum n f a).
Proof. revert a. induction n as [|n IH]; intros a H; simpl; [apply halts_Ok|]. hb; auto. Qed.

Lemma norm_halts (A : matrix) : halts (norm A).
Proof.
  induction A as [d|l|m n b IH|r c]; cbn [norm]; try discriminate.
  - hb; [apply densify_halts|apply halts_Ok].
  - apply halts_accum. intros i a _. apply halts_accum. intros j a' _. hb; [apply IH|apply halts_Ok].
Qed.

Lemma nat_ranges_length n k l : nat_ranges (ir_split (IR 0 n) (Z.of_nat k)) = Ok l -> length l = k.
Proof.
  intros E. unfold nat_ranges in E. apply mapM_Forall2 in E.
  assert (Q : length (ir_split (IR 0 n) (Z.of_nat k)) = length l) by (induction E; simpl; congruence).
  rewrite ir_split_length, Nat2Z.id in Q. congruence.
Qed.

Lemma split_leaf (A X : matrix) m n : (forall p q a, A <> MH p q a) -> split A m n = Ok X -> exists x, X = MH m n x /\ hv X <= 1.
Proof.
  intros HA E.
  assert (K : forall y : grid, (forall i j, hv (y i j) = 0) -> hv (MH m n y) <= 1).
  { intros y Hy. cbn [hv]. apply le_n_S. apply gmax_le. intros i j _ _. rewrite Hy. lia. }
  destruct A as [d|l|p q a|r c].
  - destruct (split_MD _ _ _ _ E) as [b [-> [H1 _]]]. exists b. split; auto. apply K. intros i j. destruct (H1 i j) as [x ->]. reflexivity.
  - unfold split in E. bok E. bok E. simpl in E. unfold split_lr in E. bok E. bok E. inversion E as [E9].
    rewrite (nat_ranges_length _ _ _ E0), (nat_ranges_length _ _ _ E1). eexists. split; [reflexivity|]. apply K. reflexivity.
  - exfalso. eapply HA. reflexivity.
  - unfold split in E. bok E. bok E. discriminate.
Qed.

Definition odd_pair (A B : matrix) : nat :=
  match A, B with MD _, MD _ => 0 | MH _ _ _, MH _ _ _ => 0 | _, _ => 1 end.

Lemma cdn_halts fuel : forall A B : matrix, 2 * Nat.max (hv A) (hv B) + odd_pair A B < fuel -> halts (cdn fuel A B).
Proof.
  induction fuel as [|f IH]; intros A B H; [lia|]. cbn [cdn].
  assert (DD : forall a b : dense, 0 < f -> halts (cdn f (MD a) (MD b))) by (intros; apply IH; simpl; lia).
  assert (HL : forall m n a (B0 : matrix), (forall p q b, B0 <> MH p q b) -> 2 * hv (MH m n a) < f ->
     halts (let* BH := split B0 m n in cdn f (MH m n a) BH) /\ halts (let* BH := split B0 m n in cdn f BH (MH m n a))).
  { intros m n a B0 HB Hf. split; (hb; [apply split_halts|]); destruct (split_leaf _ _ _ _ HB E) as [x [-> Hx]];
      apply IH; cbn [odd_pair]; assert (1 <= hv (MH m n a)) by (cbn [hv]; lia); lia. }
  destruct A as [a|a|m n a|ra ca], B as [b|b|m' n' b|rb cb]; try discriminate.
  - hb; [unfold subtraction; repeat ha; apply halts_Ok|]. hb; [apply norm_halts|]. hb; [apply norm_halts|]. apply halts_Ok.
  - hb; [apply densify_halts|]. apply DD. simpl in H. lia.
  - apply HL; [discriminate|]. cbn [odd_pair] in H. lia.
  - hb; [apply densify_halts|]. apply DD. simpl in H. lia.
  - hb; [apply densify_halts|]. hb; [apply densify_halts|]. apply DD. simpl in H. lia.
  - apply HL; [discriminate|]. cbn [odd_pair] in H. lia.
  - apply HL; [discriminate|]. cbn [odd_pair] in H. lia.
  - apply HL; [discriminate|]. cbn [odd_pair] in H. lia.
  - destruct (_ && _) eqn:E.
    + apply andb_true_iff in E. destruct E as [E1 E2]. apply Nat.eqb_eq in E1, E2. subst m' n'.
      apply halts_accum. intros i x Hi. apply halts_accum. intros j y Hj. hb; [|destruct a0; apply halts_Ok].
      apply IH. pose proof (hv_child m n a i j Hi Hj). pose proof (hv_child m n b i j Hi Hj).
      assert (odd_pair (a i j) (b i j) <= 1) by (destruct (a i j), (b i j); simpl; lia). lia.
    + hb; [apply densify_halts|]. hb; [apply densify_halts|]. apply DD. cbn [hv] in H. lia.
  - apply HL; [discriminate|]. cbn [odd_pair] in H. lia.
  - apply HL; [discriminate|]. cbn [odd_pair] in H. lia.
Qed.

(** ** Block Gram-Schmidt *)

Variable L : lapack R.
Hypothesis HL : forall d, halts (lp_qr L d).
Variable Or : oracles R.
Hypothesis HO : oracles_halt Or.
Variable gfuel : nat.
Notation okgrid := (@okgrid R).

Lemma ok_leaf k (d : dense) : ok k (MD d).
Proof. split; simpl; auto; lia. Qed.

Lemma g_both k A B C alpha beta tA tB : 120 * k + 33 <= gfuel -> ok k A -> ok k B -> ok k C ->
  halts (gemm Or gfuel A B C alpha beta tA tB) /\ forall X, gemm Or gfuel A B C alpha beta tA tB = Ok X -> skel C X.
Proof.
  intros Hk [P1 L1] [P2 L2] [P3 L3]. split; [apply (gemm_halts Or HO k); auto|].
  intros X E. exact (gemm_skel Or gfuel _ _ _ _ _ _ _ _ E).
Qed.

Lemma collectv_both {A} (d : A) n f (P : nat -> A -> Prop) :
  (forall i, i < n -> halts (f i) /\ forall x, f i = Ok x -> P i x) ->
  halts (collectv d n f) /\ forall g, collectv d n f = Ok g -> forall i, i < n -> P i (g i).
Proof.
  intros H. unfold collectv. split.
  - hb; [apply halts_check; intros i Hi; apply H; auto|apply halts_Ok].
  - intros g E i Hi. bok E. inversion E; subst. destruct (H i Hi) as [H1 H2]. apply H2.
    destruct (check_ok_spec _ _ _ E0 i Hi) as [y Hy]. rewrite Hy. reflexivity.
Qed.

Lemma okgrid_upd k m n b i j x : okgrid k m n b -> ok k x -> okgrid k m n (bupd b i j x).
Proof. intros H Hx i' j' Hi Hj. unfold bupd. destruct (_ && _); auto. Qed.

Lemma mlo_halts (A : matrix) : halts (make_left_orthogonal A).
Proof. destruct A; simpl; try discriminate. hb; [apply dd_mul_halts|apply halts_Ok]. Qed.

Lemma ortho_dense_both k p q j A Q : 120 * k + 33 <= gfuel -> j < q -> okgrid k p q Q ->
  halts (ortho_dense L Or gfuel p j A Q) /\ forall r, ortho_dense L Or gfuel p j A Q = Ok r -> okgrid k p q (fst r).
Proof.
  intros Hk Hj HQ. unfold ortho_dense.
  eapply (both_bind _ _ (fun _ => True)).
  { split; auto. apply (collectv_both _ _ _ (fun _ _ => True)). intros i _. split; auto. apply mlo_halts. }
  intros qb _. eapply (both_bind _ _ (fun _ => True)); [split; auto; apply densify_halts|].
  intros DB _. eapply (both_bind _ _ (fun _ => True)).
  { split; auto. unfold thin_qr. destruct (_ <? _); [discriminate|apply HL]. }
  intros [Qb Rb] _. eapply (both_bind _ _ (fun _ => True)).
  { split; auto. apply (collectv_both _ _ _ (fun _ _ => True)). intros i _. split; auto.
    unfold d_copy_to. repeat ha. apply halts_Ok. }
  intros HQb _. eapply (both_bind _ _ (okgrid k p q)).
  { apply loop_both; [exact HQ|]. intros i x Hi Hx.
    eapply both_bind; [apply (g_both k); [exact Hk|apply ok_leaf|apply ok_leaf|]; apply Hx; auto|].
    intros y Sy. split; [apply halts_Ok|]. intros z E. inversion E; subst. apply okgrid_upd; auto.
    eapply ok_skel; [exact Sy|apply Hx; auto]. }
  intros Q' HQ'. split; [apply halts_Ok|]. intros r E. inversion E. exact HQ'.
Qed.

Lemma split_by_column_both k (A : matrix) nC : ok (S k) A ->
  halts (split_by_column A nC) /\ forall s, split_by_column A nC = Ok s -> okgrid k (split_rows A) nC (fst s).
Proof.
  intros HA. destruct A as [d|l|m n b|r c]; cbn [split_by_column split_rows].
  - eapply (both_bind _ _ (fun X => exists b, X = MH 1 nC b /\ forall i j, exists x, b i j = MD x)).
    { split; [apply split_halts|]. intros X E. destruct (split_MD _ _ _ _ E) as [b [-> [H _]]]. eauto. }
    intros X [b [-> H]]. split; [apply halts_Ok|]. intros s E. inversion E. intros i j _ _. cbn [fst].
    destruct (H 0 j) as [x ->]. apply ok_leaf.
  - eapply (both_bind _ _ (fun _ => True)); [split; [|auto]; apply mlo_halts|]. intros [U SV] _.
    eapply (both_bind _ _ (fun X => exists b, X = MH 1 nC b /\ forall i j, exists x, b i j = MD x)).
    { split; [apply split_halts|]. intros X E. destruct (split_MD _ _ _ _ E) as [b [-> [H _]]]. eauto. }
    intros X [b [-> H]]. split; [apply halts_Ok|]. intros s E. inversion E. intros i j _ _. cbn [fst].
    destruct (H 0 j) as [x ->]. apply ok_leaf.
  - destruct (Nat.leb_spec n nC); [|split; discriminate]. destruct (Nat.ltb_spec n nC); [split; discriminate|].
    split; [apply halts_Ok|]. intros s E. inversion E. cbn [fst]. intros i j Hi Hj. destruct HA as [PA LA].
    split; [eapply pos_child; eauto; lia|]. assert (Hj' : j < n) by lia. pose proof (lv_child m n b i j Hi Hj'). lia.
  - split; discriminate.
Qed.

Lemma split_block_col_both k p q j A : j < q -> okgrid (S k) p q A ->
  halts (split_block_col p j A) /\
  forall s, split_block_col p j A = Ok s -> okgrid k (fst (fst (fst s))) (snd (fst (fst s))) (snd (fst s)).
Proof.
  intros Hj HA. unfold split_block_col.
  eapply (both_bind _ _ (fun _ => True)); [split; [|auto]|].
  { apply (halts_loop _ _ (fun _ _ => True)); auto. intros. split; auto. apply halts_Ok. }
  intros nC _. eapply both_bind.
  { apply collectv_both. intros i Hi. apply (split_by_column_both k). apply HA; auto. }
  intros s Hs. split; [apply halts_Ok|]. intros x E. inversion E; subst. cbn [fst snd]. intros r c Hr Hc.
  destruct (locate_in _ _ _ Hr) as [bi [i' [-> [B1 [B2 B3]]]]]. apply (Hs bi); auto.
Qed.

Lemma concat_both k (Qij : matrix) P nC SA QL cur : ok (S k) Qij -> okgrid k P nC SA ->
  halts (concat_columns Qij P nC SA QL cur) /\
  forall s, concat_columns Qij P nC SA QL cur = Ok s -> ok (S k) (fst s).
Proof.
  intros HQ HS. destruct Qij as [d|l|m n b|r c]; cbn [concat_columns].
  - split.
    + ha. hb; [apply densify_halts|]. ha. ha. apply halts_Ok.
    + intros s E. apply assert_Ok in E. destruct E as [_ E]. bok E. do 2 (apply assert_Ok in E; destruct E as [_ E]).
      inversion E. apply ok_leaf.
  - split.
    + ha. hb; [apply densify_halts|]. ha. ha. ha. apply halts_Ok.
    + intros s E. apply assert_Ok in E. destruct E as [_ E]. bok E. do 3 (apply assert_Ok in E; destruct E as [_ E]).
      inversion E. split; simpl; auto; lia.
  - split; [ha; ha; apply halts_Ok|]. intros s E. apply assert_Ok in E. destruct E as [E1 E]. apply assert_Ok in E. destruct E as [E2 E].
    apply Nat.eqb_eq in E1. apply Nat.leb_le in E2. inversion E. subst. cbn [fst]. destruct HQ as [[P1 [P2 P3]] _].
    split.
    + split; [auto|split; [auto|]]. intros i j Hi Hj. apply HS; lia.
    + cbn [lv]. apply le_n_S. apply gmax_le. intros i j Hi Hj. apply HS; lia.
  - split; discriminate.
Qed.

Lemma restore_both k p q j P nC SA QL Q : j < q -> okgrid k P nC SA -> okgrid (S k) p q Q ->
  halts (restore_block_col p j P nC SA QL Q) /\
  forall Q', restore_block_col p j P nC SA QL Q = Ok Q' -> okgrid (S k) p q Q'.
Proof.
  intros Hj HS HQ. unfold restore_block_col.
  eapply (both_bind _ _ (fun s => okgrid (S k) p q (fst s))).
  { apply loop_both; [exact HQ|]. intros i x Hi Hx.
    eapply both_bind; [apply (concat_both k); [apply Hx; auto|exact HS]|]. intros [y cur] Hy.
    split; [apply halts_Ok|]. intros z E. inversion E. cbn [fst]. apply okgrid_upd; auto. }
  intros s Hs. split; [apply halts_Ok|]. intros Q' E. inversion E. subst. exact Hs.
Qed.

Lemma transpose_ok k (A : matrix) : ok k A -> halts (transpose A) /\ forall X, transpose A = Ok X -> ok k X.
Proof.
  intros HA. assert (T : halts (transpose A)).
  { clear HA. induction A as [d|l|m n b IH|r c]; cbn [transpose]; try discriminate.
    hb; [apply halts_collect; intros; apply IH|apply halts_Ok]. }
  split; auto. clear T. revert k HA. induction A as [d|l|m n b IH|r c]; cbn [transpose]; intros k HA X E.
  - inversion E. apply ok_leaf.
  - inversion E. destruct HA as [_ Q]. split; simpl in *; auto.
  - bok E. inversion E. destruct HA as [PA LA].
    assert (C : forall i j, i < m -> j < n -> pos (x i j) /\ lv (x i j) <= lv (b i j)).
    { intros i j Hi Hj. assert (Q : ok (lv (b i j)) (x i j)).
      { eapply IH; [|exact (collect_spec _ _ _ _ E0 i j Hi Hj)]. split; [eapply pos_child; eauto|auto]. }
      exact Q. }
    destruct PA as [P1 [P2 P3]]. split.
    + split; [auto|split; [auto|]]. intros i j Hi Hj. apply C; auto.
    + cbn [lv] in *. etransitivity; [|exact LA]. apply le_n_S. apply gmax_le. intros i j Hi Hj.
      etransitivity; [apply C; auto|]. apply (gmax_in m n (fun i j => lv (b i j))); auto.
  - discriminate.
Qed.

Lemma mgs_update_both k p q j t QT Q A Rjk : 120 * k + 33 <= gfuel -> j < q -> t < q ->
  (forall i, i < p -> ok k (QT i)) -> okgrid k p q Q -> okgrid k p q A -> ok k Rjk ->
  halts (mgs_update Or gfuel p j t QT Q A Rjk) /\
  forall s, mgs_update Or gfuel p j t QT Q A Rjk = Ok s -> okgrid k p q (fst s) /\ ok k (snd s).
Proof.
  intros Hk Hj Ht HT HQ HA HR. unfold mgs_update.
  eapply (both_bind _ _ (ok k)).
  { apply loop_both; [exact HR|]. intros i x Hi Hx.
    destruct (g_both k (QT i) (A i t) x 1%r (if i =? 0 then 0%r else 1%r) false false) as [G1 G2]; auto.
    split; auto. intros y E. eapply ok_skel; [apply G2; exact E|exact Hx]. }
  intros r Hr. eapply (both_bind _ _ (okgrid k p q)).
  { apply loop_both; [exact HA|]. intros i x Hi Hx.
    eapply both_bind; [apply (g_both k); auto|].
    intros y Sy. split; [apply halts_Ok|]. intros z E. inversion E; subst. apply okgrid_upd; auto.
    eapply ok_skel; [exact Sy|apply Hx; auto]. }
  intros A' HA'. split; [apply halts_Ok|]. intros s E. inversion E. auto.
Qed.

Definition mgs_inv k p q (s : grid * grid * grid) : Prop :=
  okgrid k p q (fst (fst s)) /\ okgrid k p q (snd (fst s)) /\ okgrid k q q (snd s).

Lemma mgs_step_both k p q j ortho s : 120 * k + 33 <= gfuel -> j < q -> mgs_inv k p q s ->
  (forall A Q, okgrid k p q A -> okgrid k p q Q ->
     halts (ortho j A Q (snd s j j)) /\ forall r, ortho j A Q (snd s j j) = Ok r -> okgrid k p q (fst r) /\ ok k (snd r)) ->
  halts (mgs_step Or gfuel ortho p q j s) /\
  forall s', mgs_step Or gfuel ortho p q j s = Ok s' -> mgs_inv k p q s' /\ forall i, j < i -> i < q -> snd s' i i = snd s i i.
Proof.
  intros Hk Hj [HA [HQ HR]] HO1. destruct s as [[A Q] Rg]. cbn [fst snd] in *. unfold mgs_step.
  eapply both_bind; [apply (HO1 A Q HA HQ)|]. intros [Q1 r] [HQ1 Hr]. cbn [fst snd] in HQ1, Hr.
  eapply both_bind.
  { apply (collectv_both _ _ _ (fun i x => ok k x)). intros i Hi. apply transpose_ok. apply HQ1; auto. }
  intros QT HT. eapply (both_bind _ _ (fun s => okgrid k p q (fst s) /\ okgrid k q q (snd s) /\
     forall i, j < i -> i < q -> snd s i i = Rg i i)).
  { apply loop_both; [cbn [fst snd]; split; [exact HA|split; [apply okgrid_upd; auto|]]|].
    - intros i Hi Hq. unfold bupd. destruct (Nat.eqb_spec i j); [lia|reflexivity].
    - intros t x Ht [X1 [X2 X3]].
      eapply both_bind; [apply (mgs_update_both k p q); auto; [lia|apply X2; lia]|]. intros [A1 r1] [HA1 Hr1].
      split; [apply halts_Ok|]. intros y E. inversion E. cbn [fst snd] in *. split; auto. split; [apply okgrid_upd; auto|].
      intros i Hi Hq. unfold bupd. destruct (Nat.eqb_spec i j); [lia|]. cbn [andb]. auto. }
  intros [A2 R2] [X1 [X2 X3]]. split; [apply halts_Ok|]. intros s' E. inversion E. subst. cbn [fst snd] in *.
  split; [split; [|split]; auto|auto].
Qed.

Lemma loop_both_i {S : Type} n (f : nat -> S -> outcome S) (P : nat -> S -> Prop) s : P 0 s ->
  (forall i x, i < n -> P i x -> halts (f i x) /\ forall y, f i x = Ok y -> P (Datatypes.S i) y) ->
  halts (for_loop n f s) /\ forall y, for_loop n f s = Ok y -> P n y.
Proof.
  intros Hs H. split.
  - apply (halts_loop _ _ P); auto.
  - intros y E. apply (for_loop_inv_out _ _ _ _ P E); auto. intros i x x' Hi Hx Ex. eapply H; eauto.
Qed.

Lemma mgs_both fuel : forall k (A Q Rm : matrix), 120 * k + 33 <= gfuel -> lv Rm < fuel ->
  (forall p q a, A = MH p q a -> okgrid k p q a) -> (forall p q b, Q = MH p q b -> okgrid k p q b) ->
  (forall p q r, Rm = MH p q r -> okgrid k p q r) ->
  halts (mgs_qr L Or gfuel fuel A Q Rm) /\
  forall s, mgs_qr L Or gfuel fuel A Q Rm = Ok s -> exists p q a b r r0,
    s = (MH p q a, MH p q b, MH q q r) /\ Rm = MH q q r0 /\ mgs_inv k p q (a, b, r).
Proof.
  induction fuel as [|f IH]; intros k A Q Rm Hk Hf HA HQ HR; [lia|]. cbn [mgs_qr].
  destruct A as [?|?|p q a|? ?]; try (split; discriminate).
  destruct Q as [?|?|qm qn b|? ?]; try (split; discriminate).
  destruct Rm as [?|?|rm rn r|? ?]; try (split; discriminate).
  destruct (Nat.eqb_spec qm p) as [->|]; [|split; discriminate].
  destruct (Nat.eqb_spec qn q) as [->|]; [|split; discriminate].
  destruct (Nat.eqb_spec rm q) as [->|]; [|split; discriminate].
  destruct (Nat.eqb_spec rn q) as [->|]; [|split; discriminate].
  specialize (HA _ _ _ eq_refl). specialize (HQ _ _ _ eq_refl). specialize (HR _ _ _ eq_refl).
  eapply (both_bind _ _ (mgs_inv k p q)).
  - match goal with |- halts ?X /\ _ =>
      assert (W : halts X /\ forall y, X = Ok y -> mgs_inv k p q y /\ forall i, q <= i -> i < q -> snd y i i = r i i);
        [|destruct W as [W1 W2]; split; auto; intros y E; apply (W2 y E)] end.
    apply (loop_both_i q _ (fun j s => mgs_inv k p q s /\ forall i, j <= i -> i < q -> snd s i i = r i i)).
    { split; [split; [|split]; auto|]. reflexivity. }
    intros j s Hj [Hs Hd].
    match goal with |- context [mgs_step Or gfuel ?o p q j s] =>
      destruct (mgs_step_both k p q j o s Hk Hj Hs) as [M1 M2] end.
    + intros A Q HA1 HQ1. rewrite (Hd j) by auto. clear Hd.
      destruct (r j j) as [d|l|m' n' r'|r0 c0] eqn:Er; try (split; discriminate).
      * eapply both_bind; [apply (ortho_dense_both k p q); auto|]. intros [Q' Rb] HQ'. cbn [fst] in HQ'.
        split; [apply halts_Ok|]. intros y E. inversion E. cbn [fst snd]. split; auto. apply ok_leaf.
      * assert (OR : ok k (MH m' n' r')) by (rewrite <- Er; apply HR; auto).
        destruct k as [|k']; [destruct OR as [_ O2]; simpl in O2; lia|].
        eapply both_bind; [apply (split_block_col_both k' p q); auto|]. intros [[[P nC] SA] QL] HS. cbn [fst snd] in HS.
        eapply both_bind.
        { apply (IH k'); [lia| | | |].
          - pose proof (lv_child q q r j j Hj Hj). rewrite Er in H. lia.
          - intros p1 q1 a1 E1. inversion E1; subst. exact HS.
          - intros p1 q1 a1 E1. inversion E1; subst. exact HS.
          - intros p1 q1 a1 E1. inversion E1; subst. intros x y Hx Hy. destruct OR as [O1 O2].
            split; [eapply pos_child; eauto|]. pose proof (lv_child p1 q1 a1 x y Hx Hy). lia. }
        intros [[AS QS] R'] [p1 [q1 [a1 [b1 [r1 [r2 [E1 [E2 [I1 [I2 I3]]]]]]]]]]. inversion E1; subst. inversion E2; subst.
        cbn [fst snd] in *.
        eapply both_bind; [apply (restore_both k' p q); eauto|]. intros Q' HQ'. split; [apply halts_Ok|].
        intros y E. inversion E. cbn [fst snd]. split; auto. destruct OR as [[O1 [O2 O3]] O4]. split.
        -- split; [auto|split; [auto|]]. intros x z Hx Hz. apply I3; auto.
        -- cbn [lv]. apply le_n_S. apply gmax_le. intros x z Hx Hz. apply I3; auto.
    + split; auto. intros y E. destruct (M2 y E) as [N1 N2]. split; auto. intros i Hi Hq. rewrite N2 by lia. apply Hd; lia.
  - intros [[a' b'] r'] Hs. split; [apply halts_Ok|]. intros s E. inversion E. exists p, q, a', b', r', r. auto.
Qed.

Lemma mgs_halts fuel k (A Q Rm : matrix) : 120 * k + 33 <= gfuel -> lv Rm < fuel ->
  ok k A -> ok k Q -> ok k Rm -> halts (mgs_qr L Or gfuel fuel A Q Rm).
Proof.
  intros Hk Hf HA HQ HR. apply (mgs_both fuel k); auto; intros p q a -> i j Hi Hj; eapply ok_child; eauto.
Qed.
End Term.
