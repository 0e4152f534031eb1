(** gemm on matrices that are divided along common cluster trees never fails. *)
From Coq Require Import List Arith ZArith QArith Lia Bool.
From Verif Require Import Prelude IndexRange IndexRangeSpec IndexRangeProofs Ring MatFun Matrix MatOps MatSpec MatOpsProofs Gemm GemmSpec GemmProofs
  GemmTheorems ReflectProofs ReflectSuccess GemmTerm CommonTree.
Import ListNotations.
Local Open Scope nat_scope.

(** ** Axes *)

Lemma valid_sub a i : valid a -> i < deg a -> valid (sub a i).
Proof. destruct a as [n|n k c]; simpl; auto. intros [_ [_ H]] Hi. apply H; auto. Qed.

Lemma divides_1 n : divides n 1.
Proof. apply ir_split_tiles_iff; simpl; lia. Qed.
Lemma part_1 n : part n 1 0 = n.
Proof. unfold part. unfold ir_split_child. simpl. rewrite Nat2Z.id || (rewrite Z.mul_0_r, Z.sub_0_r, Nat2Z.id). reflexivity. Qed.

Lemma valid_div a : valid a -> 0 < deg a /\ divides (asize a) (deg a) /\
  forall i, i < deg a -> asize (sub a i) = part (asize a) (deg a) i.
Proof.
  destruct a as [n|n k c]; simpl.
  - intros _. split; auto. split; [apply divides_1|]. intros [|i] Hi; [|lia]. now rewrite part_1.
  - intros [H1 [H2 H3]]. split; [lia|]. split; auto. intros i Hi. apply H3; auto.
Qed.

Lemma offs_sub a : valid a -> offs (fun i => asize (sub a i)) (deg a) = asize a.
Proof.
  intros V. destruct (valid_div a V) as [D1 [D2 D3]]. destruct (uniform_ok _ _ D1 D2) as [rs Hrs].
  destruct (uniform_ranges _ _ _ D1 Hrs) as [L [h [C Sh]]]. destruct C as [_ C]. rewrite L in C. rewrite <- C.
  apply offs_ext. intros i Hi. rewrite D3 by auto. unfold part. rewrite <- Sh by auto. now rewrite Nat2Z.id.
Qed.

Section Succ.
Context {R : cring}.
Notation dense := (dense R).
Notation lowrank := (lowrank R).
Notation matrix := (matrix R).
Notation mat := (mat R).
Variable QS : nat -> nat -> Prop.
Notation fit := (fit QS).
Notation mid := (mid QS).

Lemma fit_dims r c (A : matrix) : valid r -> valid c -> fit r c A -> nrows A = asize r /\ ncols A = asize c.
Proof.
  revert r c. induction A as [d|l|m n b IH|er ec]; intros r c Vr Vc; simpl; try tauto.
  intros [-> [-> H]]. destruct (valid_div r Vr) as [D1 _]. destruct (valid_div c Vc) as [E1 _].
  rewrite <- (offs_sub r Vr), <- (offs_sub c Vc). split; apply offs_ext; intros i Hi.
  - apply (IH i 0 (sub r i) (sub c 0)); auto; apply valid_sub; auto.
  - apply (IH 0 i (sub r 0) (sub c i)); auto; apply valid_sub; auto.
Qed.

Lemma fit_wf r c (A : matrix) : valid r -> valid c -> fit r c A -> wf A /\ no_empty A.
Proof.
  revert r c. induction A as [d|l|m n b IH|er ec]; intros r c Vr Vc; simpl; try tauto.
  intros [-> [-> H]]. destruct (valid_div r Vr) as [D1 _]. destruct (valid_div c Vc) as [E1 _].
  split.
  - split; auto. split; auto. intros i j Hi Hj. split; [apply (IH i j (sub r i) (sub c j)); auto using valid_sub|].
    destruct (fit_dims (sub r i) (sub c j) (b i j)) as [P1 P2]; auto using valid_sub.
    destruct (fit_dims (sub r i) (sub c 0) (b i 0)) as [Q1 Q2]; auto using valid_sub.
    destruct (fit_dims (sub r 0) (sub c j) (b 0 j)) as [S1 S2]; auto using valid_sub. split; congruence.
  - intros i j Hi Hj. apply (IH i j (sub r i) (sub c j)); auto using valid_sub.
Qed.

(** Splitting a leaf. *)
Lemma split_fit (A : matrix) r c : valid r -> valid c -> fit r c A -> (forall m n b, A <> MH m n b) ->
  exists b, split A (deg r) (deg c) = Ok (MH (deg r) (deg c) b) /\ fit r c (MH (deg r) (deg c) b) /\
    forall i j, i < deg r -> j < deg c ->
      match A with MD _ => exists x, b i j = MD x | ML l => exists x, b i j = ML x /\ l_S x = l_S l | _ => True end.
Proof.
  intros Vr Vc F NH. destruct (valid_div r Vr) as [D1 [D2 D3]]. destruct (valid_div c Vc) as [E1 [E2 E3]].
  destruct (fit_dims r c A Vr Vc F) as [N1 N2]. destruct (fit_wf r c A Vr Vc F) as [W NE].
  destruct (split_uniform_ok A (deg r) (deg c)) as [H HS]; auto; [rewrite N1; auto|rewrite N2; auto|].
  destruct (split_spec A _ _ H W D1 E1 HS) as [h [w [[b [-> [Wb [Sb _]]]] [Hh Hw]]]]. exists b. split; auto.
  assert (K : forall i j, i < deg r -> j < deg c ->
      match A with MD _ => exists x, b i j = MD x | ML l => exists x, b i j = ML x /\ l_S x = l_S l | _ => True end).
  { intros i j Hi Hj. destruct A as [d|l|m n bb|er ec]; auto.
    - destruct (split_MD _ _ _ _ HS) as [b' [E [X _]]]. inversion E. subst b'. apply X.
    - unfold split in HS. apply bind_Ok in HS. destruct HS as [rs [_ HS]]. apply bind_Ok in HS. destruct HS as [cs [_ HS]].
      simpl in HS. unfold split_lr in HS. apply bind_Ok in HS. destruct HS as [U [_ HS]]. apply bind_Ok in HS. destruct HS as [V [_ HS]].
      inversion HS. eexists. split; reflexivity. }
  split; auto. cbn [CommonTree.fit]. split; auto. split; auto. intros i j Hi Hj. specialize (K i j Hi Hj).
  destruct (Sb i j Hi Hj) as [S1 S2]. destruct Wb as [_ [_ Wb]]. destruct (Wb i j Hi Hj) as [Wij _].
  assert (P1 : nrows (b i j) = asize (sub r i)).
  { rewrite S1, D3 by auto. unfold part. rewrite <- N1, <- Hh by auto. now rewrite Nat2Z.id. }
  assert (P2 : ncols (b i j) = asize (sub c j)).
  { rewrite S2, E3 by auto. unfold part. rewrite <- N2, <- Hw by auto. now rewrite Nat2Z.id. }
  destruct A as [d|l|m n bb|er ec].
  - destruct K as [x Ex]; rewrite Ex in *; simpl in *; auto.
  - destruct K as [x [Ex Es]]; rewrite Ex in *; simpl in *. destruct F as [_ [_ [_ F]]]. unfold CommonTree.mid. rewrite Es. auto.
  - exfalso. eapply NH. reflexivity.
  - destruct F.
Qed.

Variable PL EL : lowrank -> Prop.
Notation good := (good PL EL).
Notation allp := (allp PL).
Notation ske := (ske QS PL EL).

(** ** Outcomes *)

Definition fine {T} (x : outcome T) (F : T -> Prop) : Prop := x = NoFuel \/ exists a, x = Ok a /\ F a.

Lemma fine_Ok {T} (a : T) (P : T -> Prop) : P a -> fine (Ok a) P.
Proof. right. eauto. Qed.
Lemma fine_bind {T S} (x : outcome T) (f : T -> outcome S) (P : T -> Prop) (Q : S -> Prop) :
  fine x P -> (forall a, P a -> fine (f a) Q) -> fine (bind x f) Q.
Proof. intros [->|[a [-> H]]] K; [left; reflexivity|simpl; auto]. Qed.
Lemma fine_imp {T} (x : outcome T) (P Q : T -> Prop) : fine x P -> (forall a, P a -> Q a) -> fine x Q.
Proof. intros [->|[a [-> H]]] K; [left; auto|right; eauto]. Qed.

Lemma fine_check {T} n (f : nat -> outcome T) (P : nat -> T -> Prop) : (forall i, i < n -> fine (f i) (P i)) ->
  fine (check_ok n f) (fun _ => forall i, i < n -> exists a, f i = Ok a /\ P i a).
Proof.
  induction n as [|n IH]; intros H; simpl.
  - apply fine_Ok. intros i Hi. lia.
  - eapply fine_bind; [apply IH; auto|]. intros u Hu. simpl. destruct (H n) as [E|[a [E Pa]]]; [lia| |].
    + rewrite E. left. reflexivity.
    + rewrite E. simpl. apply fine_Ok. intros i Hi. destruct (Nat.eq_dec i n) as [->|]; [eauto|apply Hu; lia].
Qed.
Lemma fine_collect m n (f : nat -> nat -> outcome matrix) (P : nat -> nat -> matrix -> Prop) :
  (forall i j, i < m -> j < n -> fine (f i j) (P i j)) ->
  fine (collect m n f) (fun g => forall i j, i < m -> j < n -> P i j (g i j)).
Proof.
  intros H. unfold collect. eapply fine_bind.
  - apply (fine_check m (fun i => check_ok n (f i)) (fun i _ => forall j, j < n -> exists a, f i j = Ok a /\ P i j a)).
    intros i Hi. apply fine_check. auto.
  - intros u Hu. apply fine_Ok. intros i j Hi Hj. destruct (Hu i Hi) as [_ [_ K]]. destruct (K j Hj) as [a [-> Pa]]. exact Pa.
Qed.
Lemma fine_loop {T} n (f : nat -> T -> outcome T) (P : T -> Prop) s : P s ->
  (forall i x, i < n -> P x -> fine (f i x) P) -> fine (for_loop n f s) P.
Proof.
  intros Hs H. induction n as [|n IH].
  - simpl. apply fine_Ok. auto.
  - cbn [for_loop]. eapply fine_bind; [apply IH; auto|]. intros a Ha. apply H; auto.
Qed.

(** ** The result *)

Lemma fit_layout (C : matrix) : forall r c C', fit r c C -> wf C' -> same_layout C C' -> ske C C' -> fit r c C'.
Proof.
  induction C as [d|l|m n b IH|er ec]; intros r c [d'|l'|m' n' b'|er' ec']; simpl; try tauto.
  - intros [H1 H2] _ [H3 H4] _. split; congruence.
  - intros [H0 [H1 [H2 HM]]] W [H3 H4] [_ [_ K]]. split; [exact W|]. split; [congruence|]. split; [congruence|auto].
  - intros [-> [-> H]] [_ [_ W]] [-> [-> L]] [_ [_ K]]. split; auto. split; auto. intros i j Hi Hj.
    apply (IH i j); auto. apply W; auto.
Qed.

Lemma ske_trans (A : matrix) : forall B C, ske A B -> ske B C -> ske A C.
Proof.
  induction A as [d|l|m n b IH|er ec]; intros [d'|l'|m' n' b'|er' ec'] [d2|l2|m2 n2 b2|er2 ec2]; simpl; try tauto.
  intros [-> [-> H]] [-> [-> H']]. split; auto. split; auto. intros i j Hi Hj. eapply IH; eauto.
Qed.
Lemma ske_refl r c (A : matrix) : fit r c A -> ske A A.
Proof.
  revert r c. induction A as [d|l|m n b IH|er ec]; intros r c; simpl; try tauto.
  intros [-> [-> H]]. split; auto. split; auto. intros i j Hi Hj. eapply IH; eauto.
Qed.

Lemma ske_good (A : matrix) : forall B, ske A B -> good A -> good B.
Proof.
  induction A as [d|l|m n b IH|er ec]; intros [d'|l'|m' n' b'|er' ec']; simpl; try tauto.
  intros [-> [-> H]] [G1 G2]. split; auto. intros i j Hi Hj. apply (IH i j); auto.
Qed.

Definition bigH (A : matrix) : Prop := exists m n b, A = MH m n b /\ ~ (m = 1 /\ n = 1).
Definition isL (A : matrix) : Prop := exists l, A = ML l.
Definition goodfor (A B C : matrix) : Prop :=
  (isL A \/ isL B) \/ good C \/ exists b, C = MH 1 1 b /\ good (b 0 0) /\ (bigH A \/ bigH B).

Variable Or : oracles R.
Hypothesis HS : oracles_shape Or.
Hypothesis HP : policy QS PL EL Or.

Lemma ske_allp (A : matrix) : forall B, ske A B -> allp A -> allp B.
Proof.
  induction A as [d|l|m n b IH|er ec]; intros [d'|l'|m' n' b'|er' ec']; simpl; try tauto.
  intros [-> [-> H]] G i j Hi Hj. eapply IH; eauto.
Qed.
Lemma good_allp (A : matrix) : good A -> allp A.
Proof. induction A as [d|l|m n b IH|er ec]; simpl; auto; try tauto. intros [_ H] i j Hi Hj. auto. Qed.
Lemma allp_MD (d : dense) : allp (MD d).
Proof. exact I. Qed.
Lemma allp_sub m n b i j : i < m -> j < n -> allp (MH m n b) -> allp (b i j).
Proof. intros Hi Hj T. apply T; auto. Qed.

Lemma lr_scale_P c beta : PL c -> PL (lr_scale c beta).
Proof. intros H. apply (po_same _ _ _ _ HP c); auto; reflexivity. Qed.
Lemma lr_scale_E c beta : EL c -> EL (lr_scale c beta).
Proof. intros H. apply (po_same _ _ _ _ HP c); auto; reflexivity. Qed.

Lemma add_fine (a b : lowrank) : PL a -> mid a -> mid b -> lr_wf a -> lr_wf b -> l_r a = l_r b -> l_c a = l_c b ->
  exists c, lr_add Or a b = Ok c /\ ske (ML a) (ML c).
Proof.
  intros Pa Ma Mb Wa Wb E1 E2. destruct (po_add _ _ _ _ HP a b) as [c [E [Pc [Mc Ec]]]]; auto.
  exists c. split; auto. split; auto.
Qed.

Lemma acc_lr_fine c beta x r s : PL c -> fit r s (ML c) -> lr_wf x -> l_r x = asize r -> l_c x = asize s -> mid x ->
  exists C', acc_lr Or c beta x = Ok C' /\ fit r s C' /\ ske (ML c) C'.
Proof.
  intros T [W [E1 [E2 Mc]]] Wx X1 X2 Mx. unfold acc_lr, lr_acc.
  change (l_r (lr_scale c beta)) with (l_r c). change (l_c (lr_scale c beta)) with (l_c c).
  rewrite (proj2 (Nat.eqb_eq _ _) (eq_trans E1 (eq_sym X1))), (proj2 (Nat.eqb_eq _ _) (eq_trans E2 (eq_sym X2))).
  destruct (add_fine (lr_scale c beta) x) as [d [Hd Sd]]; auto; try (simpl; congruence); [apply lr_scale_P; exact T|].
  rewrite Hd. cbn [bind]. exists (ML d). split; auto.
  assert (Sc : ske (ML c) (ML d)).
  { destruct Sd as [S1 [S2 S3]]. split; [intros H; apply S1; apply lr_scale_P; exact H|]. split; [intros H; apply S2; apply lr_scale_E; exact H|auto]. }
  split; auto. destruct (os_add _ HS (lr_scale c beta) x d) as [W1 [W2 W3]]; auto; try (simpl; congruence).
  split; auto. split; [rewrite W2; exact E1|]. split; [rewrite W3; exact E2|]. destruct Sc as [_ [_ S3]]. auto.
Qed.

Lemma madd_ok (C : matrix) : forall r s x, allp C -> valid r -> valid s -> fit r s C -> lr_wf x -> l_r x = asize r -> l_c x = asize s -> mid x ->
  exists C', madd_to Or C (ML x) = Ok C' /\ ske C C'.
Proof.
  induction C as [d|l|m n b IH|er ec]; intros r s x T Vr Vs F Wx X1 X2 Mx; [| | |destruct F].
  - cbn [madd_to]. unfold d_add_lr. destruct Wx as [W1 [W2 [W3 W4]]]. destruct F as [F1 F2].
    destruct (dd_mul_ok (l_U x) (l_S x) 1%r false false) as [us H]; auto. rewrite H. cbn [bind].
    apply dd_mul_inv in H. destruct H as [_ [U1 [U2 _]]].
    destruct (dd_gemm_ok us (l_V x) d 1%r 1%r false false) as [y Hy]; try congruence.
    rewrite Hy. cbn [bind]. eexists. split; [reflexivity|exact I].
  - cbn [madd_to]. unfold lr_acc. destruct F as [W [E1 [E2 Ml]]].
    rewrite (proj2 (Nat.eqb_eq _ _) (eq_trans E1 (eq_sym X1))), (proj2 (Nat.eqb_eq _ _) (eq_trans E2 (eq_sym X2))).
    destruct (add_fine l x) as [c [Hc Sc]]; auto; try congruence. rewrite Hc. cbn [bind]. eexists. split; [reflexivity|exact Sc].
  - assert (Ti : forall i j, i < m -> j < n -> allp (b i j)) by (intros i j Hi Hj; eapply allp_sub; [exact Hi|exact Hj|exact T]).
    destruct F as [-> [-> F]]. cbn [madd_to].
    destruct (split_fit (ML x) r s) as [b' [E [F' K]]]; auto; [split; auto; split; auto|discriminate|].
    rewrite E. cbn [bind]. destruct F' as [_ [_ F']].
    destruct (collect_all (deg r) (deg s) (fun i j => madd_to Or (b i j) (b' i j))) as [g Hg].
    + intros i j Hi Hj. destruct (K i j Hi Hj) as [y [Ey _]]. specialize (F' i j Hi Hj). rewrite Ey in *.
      destruct F' as [G1 [G2 [G3 G4]]]. destruct (IH i j (sub r i) (sub s j) y) as [z [Hz _]]; auto using valid_sub. eauto.
    + rewrite Hg. cbn [bind]. eexists. split; [reflexivity|]. cbn [CommonTree.ske]. split; auto. split; auto. intros i j Hi Hj.
      pose proof (collect_spec _ _ _ _ Hg i j Hi Hj) as Hz. cbv beta in Hz.
      destruct (K i j Hi Hj) as [y [Ey _]]. specialize (F' i j Hi Hj). rewrite Ey in *.
      destruct F' as [G1 [G2 [G3 G4]]]. destruct (IH i j (sub r i) (sub s j) y) as [z [Hz' Sz]]; auto using valid_sub.
      rewrite Hz' in Hz. inversion Hz. subst. auto.
Qed.

Lemma scale_fine (C : matrix) : forall r s beta, valid r -> valid s -> fit r s C ->
  exists C', scale C beta = Ok C' /\ fit r s C' /\ ske C C'.
Proof.
  intros r s beta Vr Vs F. destruct (fit_wf r s C Vr Vs F) as [W NE].
  destruct (scale_spec C beta W NE) as [C' [H [W' _]]]. exists C'. split; auto.
  assert (SK : ske C C'); [|split; [eapply fit_layout; eauto; eapply scale_layout; eauto|exact SK]].
  clear W W' NE Vr Vs. revert r s F C' H. induction C as [d|l|m n b IH|er ec]; intros r s F C' H; cbn [scale] in H.
  - inversion H. exact I.
  - inversion H. cbn [CommonTree.ske]. split; [apply lr_scale_P|split; [apply lr_scale_E|auto]].
  - destruct F as [-> [-> F]]. apply bind_Ok in H. destruct H as [g [Hg H]]. inversion H. cbn [CommonTree.ske]. split; auto. split; auto.
    intros i j Hi Hj. eapply IH; [apply F; auto|]. exact (collect_spec _ _ _ _ Hg i j Hi Hj).
  - destruct F.
Qed.

Lemma acc_h_fine (C : matrix) r s beta x : allp C -> valid r -> valid s -> fit r s C -> lr_wf x -> l_r x = asize r -> l_c x = asize s -> mid x ->
  exists C', acc_h Or C beta x = Ok C' /\ ske C C'.
Proof.
  intros T Vr Vs F Wx X1 X2 Mx. unfold acc_h. destruct (scale_fine C r s beta Vr Vs F) as [C1 [-> [F1 S1]]]. cbn [bind].
  destruct (madd_ok C1 r s x) as [C2 [H S2]]; auto; [eapply ske_allp; eauto|]. exists C2. split; auto. eapply ske_trans; eauto.
Qed.

(** ** gemm *)

Lemma fit_flat r s r' s' (A : matrix) : (forall m n b, A <> MH m n b) -> asize r' = asize r -> asize s' = asize s ->
  fit r s A -> fit r' s' A.
Proof.
  intros H E1 E2. destruct A as [d|l|m n b|er ec]; simpl; try tauto.
  - intros [F1 F2]. split; congruence.
  - intros [W [F1 [F2 Ml]]]. split; auto. split; [congruence|]. split; [congruence|auto].
  - exfalso. eapply H. reflexivity.
Qed.

Definition GO (f : nat) : Prop := forall r k s A B C alpha beta, valid r -> valid k -> valid s ->
  fit r k A -> fit k s B -> fit r s C -> goodfor A B C -> allp C ->
  fine (gemm Or f A B C alpha beta false false) (ske C).
Definition NO (f : nat) : Prop := forall r k s A B alpha, valid r -> valid k -> valid s ->
  fit r k A -> fit k s B ->
  fine (gemm_new Or f A B alpha false false) (fun X => fit r s X /\ good X /\
    (((forall m n b, A <> MH m n b) \/ (forall m n b, B <> MH m n b)) -> exists d, X = MD d)).

Lemma gemm_fit f r k s A B C alpha beta : valid r -> valid k -> valid s ->
  fit r k A -> fit k s B -> fit r s C -> fine (gemm Or f A B C alpha beta false false) (ske C) ->
  fine (gemm Or f A B C alpha beta false false) (fun C' => fit r s C' /\ ske C C').
Proof.
  intros Vr Vk Vs FA FB FC [E|[C' [E H]]]; [left; auto|right]. exists C'. split; auto. split; auto.
  destruct (fit_wf r k A Vr Vk FA) as [WA _]. destruct (fit_wf k s B Vk Vs FB) as [WB _]. destruct (fit_wf r s C Vr Vs FC) as [WC _].
  destruct (gemm_upto Or HS f A B C alpha beta false false C' WA WB WC (trans_ok_notrans A B C) E) as [W [L _]].
  eapply fit_layout; eauto.
Qed.

Lemma nh_MD (d : dense) : nh (MD d). Proof. discriminate. Qed.
Lemma nh_ML (l : lowrank) : nh (ML l). Proof. discriminate. Qed.
Hint Resolve nh_MD nh_ML valid_sub allp_MD good_allp : fit.

Lemma sub_1 a i : valid a -> deg a = 1 -> sub a i = a.
Proof. destruct a as [n|n k c]; simpl; auto. intros [H _] E. lia. Qed.
Lemma deg_pos a : valid a -> 0 < deg a.
Proof. intros V. apply (valid_div a V). Qed.

Lemma fit_flat_C r s r' s' (C C' : matrix) : nh C -> asize r' = asize r -> asize s' = asize s ->
  fit r' s' C' /\ ske C C' -> fit r s C' /\ ske C C'.
Proof.
  intros N E1 E2 [F S]. split; auto. apply (fit_flat r' s'); auto. intros m n b ->.
  destruct C as [d|l|m' n' b'|er ec]; try destruct S. eapply N. reflexivity.
Qed.

Lemma fit_lr r s u (S v : dense) : d_r u = asize r -> d_c v = asize s -> d_c u = d_r S -> d_c S = d_r v ->
  lr_wf (lr_make u S v) /\ l_r (lr_make u S v) = asize r /\ l_c (lr_make u S v) = asize s.
Proof. intros. unfold lr_wf, lr_make. simpl. repeat split; congruence. Qed.

Section Step.
Variable g : @gemm_t R.
Variable gn : @new_t R.
Hypothesis Hg : forall r k s A B C alpha beta, valid r -> valid k -> valid s ->
  fit r k A -> fit k s B -> fit r s C -> goodfor A B C -> allp C ->
  fine (g A B C alpha beta false false) (fun C' => fit r s C' /\ ske C C').
Hypothesis Hn : forall r k s A B alpha, valid r -> valid k -> valid s -> fit r k A -> fit k s B ->
  fine (gn A B alpha false false) (fun X => fit r s X /\ good X /\ (nh A \/ nh B -> exists d, X = MD d)).

Lemma ske_MD c (C : matrix) : ske (MD c) C -> exists d, C = MD d.
Proof. destruct C; simpl; try tauto. eauto. Qed.

Lemma into_views_fine r k s A B c alpha beta : valid r -> valid k -> valid s -> fit r k A -> fit k s B ->
  fit r s (MD c) -> (deg r = 1 /\ deg s = 1 -> bigH A \/ bigH B) ->
  fine (into_views g A B c (deg r) (deg s) alpha beta false false) (ske (MD c)).
Proof.
  intros Vr Vk Vs FA FB FC Hb. unfold into_views.
  destruct (split_fit (MD c) r s Vr Vs FC) as [b [E [Fb K]]]; [apply nh_MD|]. rewrite E. cbn [bind].
  eapply fine_bind.
  - assert (T : allp (MH (deg r) (deg s) b)).
    { intros i j Hi Hj. destruct (K i j Hi Hj) as [x ->]. exact I. }
    apply (Hg r k s); auto. unfold goodfor.
    assert (G : forall i j, i < deg r -> j < deg s -> good (b i j)).
    { intros i j Hi Hj. destruct (K i j Hi Hj) as [x ->]. exact I. }
    destruct (Nat.eq_dec (deg r) 1) as [E1|E1]; [destruct (Nat.eq_dec (deg s) 1) as [E2|E2]|].
    + right. right. exists b. rewrite E1, E2 in *. split; auto.
    + right. left. split; [tauto|auto].
    + right. left. split; [tauto|auto].
  - intros X [_ Sx]. destruct X as [d|l|m n x|er ec]; try destruct Sx. apply fine_Ok. exact I.
Qed.

Ltac fd := repeat match goal with
  | V1 : valid ?r, V2 : valid ?s, F : fit ?r ?s ?A |- _ =>
      lazymatch goal with K : nrows A = asize r |- _ => fail | _ => idtac end;
      let P1 := fresh "P" in let P2 := fresh "P" in destruct (fit_dims r s A V1 V2 F) as [P1 P2]
  end.

Ltac wfl F := let W := fresh "W" in let a1 := fresh "a" in let a2 := fresh "a" in let a3 := fresh "a" in
  let w1 := fresh "w" in let w2 := fresh "w" in let w3 := fresh "w" in let w4 := fresh "w" in
  destruct F as [W [a1 [a2 a3]]]; destruct W as [w1 [w2 [w3 w4]]].

Lemma exact_total : oracles_total (@exact_oracles R).
Proof. split; intros; eexists; reflexivity. Qed.

Lemma flat_D r k s A B c alpha beta : valid r -> valid k -> valid s -> fit r k A -> fit k s B -> fit r s (MD c) ->
  flat A -> flat B -> fine (gemm_step Or g gn A B (MD c) alpha beta false false) (ske (MD c)).
Proof.
  intros Vr Vk Vs FA FB FC LA LB. fd.
  destruct (fit_wf r k A Vr Vk FA) as [WA _]. destruct (fit_wf k s B Vk Vs FB) as [WB _]. destruct (fit_wf r s (MD c) Vr Vs FC) as [WC _].
  destruct (gemm_flat_ok exact_oracles (oracles_near_shape _ _ (@exact_oracles_near R)) exact_total A B (MD c) alpha beta false false) as [C' H];
    auto; try (unfold opr, opc; congruence); try exact I.
  right. exists C'.
  assert (E : gemm_step Or g gn A B (MD c) alpha beta false false = gemm exact_oracles 1 A B (MD c) alpha beta false false).
  { destruct A; try destruct LA; destruct B; try destruct LB; reflexivity. }
  rewrite E. split; auto. pose proof (gemm_skel exact_oracles 1 A B (MD c) alpha beta false false C' H) as K.
  destruct C'; try destruct K. exact I.
Qed.

(** C = MD *)
Lemma step_D r k s A B c alpha beta : valid r -> valid k -> valid s -> fit r k A -> fit k s B -> fit r s (MD c) ->
  fine (gemm_step Or g gn A B (MD c) alpha beta false false) (ske (MD c)).
Proof.
  intros Vr Vk Vs FA FB FC. pose proof FC as FC0.
  assert (GC : forall X Y, goodfor X Y (MD c)) by (intros; right; left; exact I).
  destruct A as [a|a|am an a|er ec]; [| | |destruct FA];
    (destruct B as [b|b|bm bn b|er2 ec2]; [| | |destruct FB]);
    try (eapply (flat_D r k s); eauto with fit; exact I).
  all: fd; unfold gemm_step; rewrite ?P, ?P0, ?P1, ?P2, ?P3, ?P4; unfold opr, opc;
    repeat match goal with H : nrows _ = _ |- _ => rewrite H | H : ncols _ = _ |- _ => rewrite H end; rewrite !Nat.eqb_refl.
  - (* D H *)
    destruct FB as [-> [-> FB]].
    destruct ((deg k =? 1) && (deg s =? 1)) eqn:E.
    + apply andb_true_iff in E. rewrite !Nat.eqb_eq in E. destruct E as [E1 E2].
      assert (FB0 : fit k s (b 0 0)) by (rewrite <- (sub_1 k 0 Vk E1), <- (sub_1 s 0 Vs E2); apply FB; lia).
      eapply fine_imp; [apply (Hg r k s); auto with fit|]. intros C' [_ H]. exact H.
    + apply (into_views_fine (Leaf (asize r)) k s); auto; try exact I; try (split; auto; fail).
      intros [_ E2]. right. exists (deg k), (deg s), b. split; auto. apply andb_false_iff in E. rewrite !Nat.eqb_neq in E. lia.
  - (* L H *)
    destruct FB as [-> [-> FB]].
    destruct ((deg k =? 1) && (deg s =? 1)) eqn:E.
    + apply andb_true_iff in E. rewrite !Nat.eqb_eq in E. destruct E as [E1 E2].
      assert (FB0 : fit k s (b 0 0)) by (rewrite <- (sub_1 k 0 Vk E1), <- (sub_1 s 0 Vs E2); apply FB; lia).
      eapply fine_imp; [apply (Hg r k s); auto with fit|]. intros C' [_ H]. exact H.
    + apply (into_views_fine (Leaf (asize r)) k s); auto; try exact I; try (split; auto; fail).
      intros [_ E2]. right. exists (deg k), (deg s), b. split; auto. apply andb_false_iff in E. rewrite !Nat.eqb_neq in E. lia.
  - (* H D *)
    destruct FA as [-> [-> FA]].
    destruct ((deg r =? 1) && (deg k =? 1)) eqn:E.
    + apply andb_true_iff in E. rewrite !Nat.eqb_eq in E. destruct E as [E1 E2].
      assert (FA0 : fit r k (a 0 0)) by (rewrite <- (sub_1 r 0 Vr E1), <- (sub_1 k 0 Vk E2); apply FA; lia).
      eapply fine_imp; [apply (Hg r k s); auto with fit|]. intros C' [_ H]. exact H.
    + apply (into_views_fine r k (Leaf (asize s))); auto; try exact I; try (split; auto; fail).
      intros [E2 _]. left. exists (deg r), (deg k), a. split; auto. apply andb_false_iff in E. rewrite !Nat.eqb_neq in E. lia.
  - (* H L *)
    destruct FA as [-> [-> FA]].
    destruct ((deg r =? 1) && (deg k =? 1)) eqn:E.
    + apply andb_true_iff in E. rewrite !Nat.eqb_eq in E. destruct E as [E1 E2].
      assert (FA0 : fit r k (a 0 0)) by (rewrite <- (sub_1 r 0 Vr E1), <- (sub_1 k 0 Vk E2); apply FA; lia).
      eapply fine_imp; [apply (Hg r k s); auto with fit|]. intros C' [_ H]. exact H.
    + apply (into_views_fine r k (Leaf (asize s))); auto; try exact I; try (split; auto; fail).
      intros [E2 _]. left. exists (deg r), (deg k), a. split; auto. apply andb_false_iff in E. rewrite !Nat.eqb_neq in E. lia.
  - (* H H *)
    pose proof FA as FA0. pose proof FB as FB0.
    destruct FA as [-> [-> FA]]. destruct FB as [_ [-> FB]]. destruct FB0 as [-> FB0].
    cbn [dim0 dim1]. rewrite Nat.eqb_refl. destruct ((deg r =? 1) && (deg s =? 1)) eqn:E.
    + apply andb_true_iff in E. rewrite !Nat.eqb_eq in E. destruct E as [E1 E2].
      eapply fine_imp; [apply (fine_loop _ _ (fun C' => fit r s C' /\ ske (MD c) C'))|intros C' [_ H]; exact H].
      * split; auto. exact I.
      * intros i X Hi [FX SX]. rewrite E1, E2. unfold hvec.
        rewrite (proj2 (Nat.ltb_lt _ _) Hi). rewrite (Nat.eqb_refl 1).
        assert (FA1 : fit r (sub k i) (a 0 i)) by (rewrite <- (sub_1 r 0 Vr E1); apply FA; lia).
        assert (FB1 : fit (sub k i) s (b i 0)) by (rewrite <- (sub_1 s 0 Vs E2); apply FB; lia).
        destruct (ske_MD _ _ SX) as [d ->]. change (ske (MD c)) with (ske (MD d)).
        destruct (deg k =? 1) eqn:Ek.
        -- apply Nat.eqb_eq in Ek. assert (i = 0) by lia. subst i. cbn [bind].
           change (0 <? 1) with true. cbn [bind].
           apply (Hg r (sub k 0) s); auto with fit. right. left. exact I.
        -- cbn [bind]. apply (Hg r (sub k i) s); auto with fit. right. left. exact I.
    + apply (into_views_fine r k s); auto; try (split; auto; fail).
      apply andb_false_iff in E. rewrite !Nat.eqb_neq in E. lia.
Qed.

(** C = ML *)
Lemma step_L r k s A B c alpha beta : valid r -> valid k -> valid s -> fit r k A -> fit k s B -> fit r s (ML c) ->
  goodfor A B (ML c) -> allp (ML c) -> fine (gemm_step Or g gn A B (ML c) alpha beta false false) (ske (ML c)).
Proof.
  intros Vr Vk Vs FA FB FC H0 TC. pose proof FC as FC0.
  assert (Hc : isL A \/ isL B \/ EL c).
  { destruct H0 as [[H|H]|[[_ H]|[b [E _]]]]; auto. discriminate. }
  assert (Gc : EL c -> forall X Y, goodfor X Y (ML c)) by (intros H X Y; right; left; split; [exact TC|exact H]).
  assert (PC : PL c) by exact TC.
  assert (AC : forall u S v, d_r u = asize r -> d_c v = asize s -> d_c u = d_r S -> d_c S = d_r v -> QS (d_r S) (d_c S) ->
     fine (acc_lr Or c beta (lr_make u S v)) (ske (ML c))).
  { intros u S v E1 E2 E3 E4 E5. destruct (fit_lr r s u S v E1 E2 E3 E4) as [W1 [W2 W3]].
    destruct (acc_lr_fine c beta _ r s TC FC W1 W2 W3 E5) as [C' [-> [_ SC]]]. apply fine_Ok. exact SC. }
  destruct A as [a|a|am an a|er ec]; [| | |destruct FA];
    (destruct B as [b|b|bm bn b|er2 ec2]; [| | |destruct FB]).
  all: fd; unfold gemm_step; unfold opr, opc;
    repeat match goal with H : nrows _ = _ |- _ => rewrite H | H : ncols _ = _ |- _ => rewrite H end; rewrite !Nat.eqb_refl.
  - (* D D *)
    destruct FA as [A1 A2]. destruct FB as [B1 B2]. destruct FC as [WC [C1 [C2 MC]]].
    destruct (dd_mul_ok a b alpha false false) as [d Hd]; [congruence|]. rewrite Hd. cbn [bind].
    apply dd_mul_inv in Hd. destruct Hd as [_ [D1 [D2 _]]]. cbn in D1, D2.
    assert (D1' : d_r d = l_r c) by congruence. assert (D2' : d_c d = l_c c) by congruence.
    assert (Hc' : EL c) by (destruct Hc as [[l E]|[[l E]|E]]; [discriminate|discriminate|exact E]).
    unfold compress_like. destruct (po_eps _ _ _ _ HP c d PC Hc' D1' D2') as [-> [x [Hx [_ [Mx _]]]]]. rewrite Hx. cbn [bind].
    destruct (os_eps _ HS _ _ _ Hx) as [Wx [X1 X2]].
    destruct (acc_lr_fine c beta x r s) as [C' [-> [_ SC]]]; auto; try congruence. apply fine_Ok. exact SC.
  - (* D L *)
    wfl FB. destruct FA as [A1 A2]. destruct (dd_mul_ok a (l_U b) alpha false false) as [u Hu]; [congruence|]. rewrite Hu. cbn [bind].
    apply dd_mul_inv in Hu. destruct Hu as [_ [U1 [U2 _]]]. apply AC; cbn [lr_right lr_mid]; auto; congruence.
  - (* D H *)
    assert (Hc' : EL c) by (destruct Hc as [[l E]|[[l E]|E]]; [discriminate|discriminate|exact E]). pose proof (Gc Hc') as GC.
    pose proof FB as FB0. destruct FB as [-> [-> FB]]. cbn [dim0].
    destruct (split_fit (MD a) (Leaf (asize r)) k I Vk FA) as [x [E [Fx _]]]; [apply nh_MD|]. cbn [deg] in E. rewrite E. cbn [bind].
    eapply fine_imp; [apply (Hg (Leaf (asize r)) k s); auto with fit; exact I|]. intros C' [_ H]. exact H.
  - (* L D *)
    wfl FA. destruct FB as [B1 B2]. destruct (dd_mul_ok (l_V a) b alpha false false) as [v Hv]; [congruence|]. rewrite Hv. cbn [bind].
    apply dd_mul_inv in Hv. destruct Hv as [_ [U1 [U2 _]]]. apply AC; cbn [lr_left lr_mid]; auto; congruence.
  - (* L L *)
    wfl FA. wfl FB. unfold lr_lr_mid.
    destruct (dd_mul_ok (l_S a) (l_V a) 1%r false false) as [x Hx]; [congruence|]. rewrite Hx. cbn [bind].
    destruct (dd_mul_ok (l_U b) (l_S b) 1%r false false) as [y Hy]; [congruence|]. rewrite Hy. cbn [bind].
    apply dd_mul_inv in Hx. destruct Hx as [_ [X1 [X2 _]]]. apply dd_mul_inv in Hy. destruct Hy as [_ [Y1 [Y2 _]]].
    destruct (dd_mul_ok x y alpha false false) as [z Hz]; [congruence|]. rewrite Hz. cbn [bind].
    apply dd_mul_inv in Hz. destruct Hz as [_ [Z1 [Z2 _]]]. apply AC; cbn [lr_left lr_right]; try congruence. rewrite Z1, Z2, X1, Y2. eapply (po_link _ _ _ _ HP); eassumption.
  - (* L H *)
    wfl FA. eapply fine_bind; [apply (Hn (Leaf (d_r (l_V a))) k s); auto; [exact I|split; auto; congruence]|].
    intros X [FX [_ DX]]. destruct DX as [d ->]; [left; apply nh_MD|]. destruct FX as [X1 X2]. cbn [to_dense bind].
    apply AC; cbn [lr_left lr_mid]; auto; try congruence. simpl in X1. congruence.
  - (* H D *)
    assert (Hc' : EL c) by (destruct Hc as [[l E]|[[l E]|E]]; [discriminate|discriminate|exact E]). pose proof (Gc Hc') as GC.
    pose proof FA as FA0. destruct FA as [-> [-> FA]]. cbn [dim1].
    destruct (split_fit (MD b) k (Leaf (asize s)) Vk I FB) as [x [E [Fx _]]]; [apply nh_MD|]. cbn [deg] in E. rewrite E. cbn [bind].
    eapply fine_imp; [apply (Hg r k (Leaf (asize s))); auto with fit; exact I|]. intros C' [_ H]. exact H.
  - (* H L *)
    wfl FB. eapply fine_bind; [apply (Hn r k (Leaf (d_c (l_U b)))); auto; [exact I|split; auto; congruence]|].
    intros X [FX [_ DX]]. destruct DX as [d ->]; [right; apply nh_MD|]. destruct FX as [X1 X2]. cbn [to_dense bind].
    apply AC; cbn [lr_right lr_mid]; auto; try congruence. simpl in X2. congruence.
  - (* H H *)
    assert (Hc' : EL c) by (destruct Hc as [[l E]|[[l E]|E]]; [discriminate|discriminate|exact E]). pose proof (Gc Hc') as GC.
    destruct (fit_wf r s (ML c) Vr Vs FC) as [WC _]. destruct (densify_spec (ML c) WC) as [cd [E [C1 [C2 _]]]].
    assert (Ue : use_eps c = true).
    { apply (proj1 (po_eps _ _ _ _ HP c cd PC Hc' C1 C2)). }
    rewrite Ue.
    rewrite E. cbn [bind]. eapply fine_bind.
    + apply (Hg r k s (MH am an a) (MH bm bn b) (MD cd)); auto with fit; [split; congruence|right; left; exact I].
    + intros X [FX SX]. destruct (ske_MD _ _ SX) as [d ->]. cbn [to_dense bind].
      destruct FX as [X1 X2]. destruct FC as [_ [Q1 [Q2 _]]].
      destruct (po_eps _ _ _ _ HP c d PC Hc') as [_ [c' [Hx [Pc [Mc Ec]]]]]; try congruence. rewrite Hx. cbn [bind]. apply fine_Ok. split; auto.
Qed.

(** C = MH *)
Ltac CG := match goal with Gc : forall i j, _ -> _ -> (isL ?A \/ isL ?B) \/ good _ |- goodfor _ _ (?c ?i ?j) =>
  let X := fresh in let Y := fresh in let E := fresh in destruct (Gc i j) as [[[X E]|[Y E]]|E]; auto; [discriminate E || (left; left; eexists; reflexivity)|discriminate E || (left; right; eexists; reflexivity)|right; left; exact E] end.

Lemma step_H r k s A B c alpha beta : valid r -> valid k -> valid s -> fit r k A -> fit k s B ->
  fit r s (MH (deg r) (deg s) c) -> goodfor A B (MH (deg r) (deg s) c) -> allp (MH (deg r) (deg s) c) ->
  fine (gemm_step Or g gn A B (MH (deg r) (deg s) c) alpha beta false false) (ske (MH (deg r) (deg s) c)).
Proof.
  intros Vr Vk Vs FA FB FC GC TC. pose proof FC as FC0. destruct FC as [_ [_ FC]].
  assert (Tc : forall i j, i < deg r -> j < deg s -> allp (c i j)) by (intros i j Hi Hj; eapply allp_sub; [exact Hi|exact Hj|exact TC]).
  pose proof (deg_pos r Vr) as Dr. pose proof (deg_pos k Vk) as Dk. pose proof (deg_pos s Vs) as Ds.
  assert (Gc : forall i j, i < deg r -> j < deg s -> (isL A \/ isL B) \/ good (c i j)).
  { intros i j Hi Hj. destruct GC as [GC|[[_ G]|[b [E [G _]]]]]; auto. right. inversion E as [[E1 E2 E3]]. subst b. rewrite E1 in Hi. rewrite E2 in Hj.
    replace i with 0 by lia. replace j with 0 by lia. exact G. }
  assert (AC : forall u S v, d_r u = asize r -> d_c v = asize s -> d_c u = d_r S -> d_c S = d_r v -> QS (d_r S) (d_c S) ->
     fine (acc_h Or (MH (deg r) (deg s) c) beta (lr_make u S v)) (ske (MH (deg r) (deg s) c))).
  { intros u S v E1 E2 E3 E4 E5. destruct (fit_lr r s u S v E1 E2 E3 E4) as [W1 [W2 W3]].
    destruct (acc_h_fine _ r s beta _ TC Vr Vs FC0 W1 W2 W3 E5) as [C' [-> SC]]. apply fine_Ok. exact SC. }
  assert (S0 : forall i j, i < deg r -> j < deg s -> ske (c i j) (c i j)).
  { intros i j Hi Hj. eapply ske_refl. apply FC; auto. }
  destruct A as [a|a|am an a|er ec]; [| | |destruct FA];
    (destruct B as [b|b|bm bn b|er2 ec2]; [| | |destruct FB]).
  all: fd; unfold gemm_step; unfold opr, opc;
    repeat match goal with H : nrows _ = _ |- _ => rewrite H | H : ncols _ = _ |- _ => rewrite H end; rewrite !Nat.eqb_refl.
  - (* D D *)
    assert (N11 : ~ (deg r = 1 /\ deg s = 1)).
    { destruct GC as [[[? E]|[? E]]|[[G _]|[x [_ [_ [[? [? [? [E _]]]]|[? [? [? [E _]]]]]]]]]]; auto; discriminate. }
    assert (GC' : forall X Y, goodfor X Y (MH (deg r) (deg s) c)).
    { intros. right. left. split; auto. intros i j Hi Hj. destruct (Gc i j Hi Hj) as [[[? E]|[? E]]|E]; [discriminate|discriminate|exact E]. }
    destruct ((deg r =? 1) && (deg s =? 1)) eqn:E.
    { apply andb_true_iff in E. rewrite !Nat.eqb_eq in E. tauto. }
    destruct (deg s =? 1) eqn:Es; [|destruct (deg r =? 1) eqn:Er].
    + destruct (split_fit (MD a) r (Leaf (asize k)) Vr I FA) as [x [Ex [Fx _]]]; [apply nh_MD|]. cbn [deg] in Ex. rewrite Ex. cbn [bind].
      eapply fine_imp; [apply (Hg r (Leaf (asize k)) s); auto with fit; exact I|]. intros C' [_ H]. exact H.
    + destruct (split_fit (MD b) (Leaf (asize k)) s I Vs FB) as [x [Ex [Fx _]]]; [apply nh_MD|]. cbn [deg] in Ex. rewrite Ex. cbn [bind].
      eapply fine_imp; [apply (Hg r (Leaf (asize k)) s); auto with fit; exact I|]. intros C' [_ H]. exact H.
    + destruct (split_fit (MD a) r (Leaf (asize k)) Vr I FA) as [x [Ex [Fx _]]]; [apply nh_MD|]. cbn [deg] in Ex. rewrite Ex. cbn [bind].
      destruct (split_fit (MD b) (Leaf (asize k)) s I Vs FB) as [y [Ey [Fy _]]]; [apply nh_MD|]. cbn [deg] in Ey. rewrite Ey. cbn [bind].
      eapply fine_imp; [apply (Hg r (Leaf (asize k)) s); auto with fit; exact I|]. intros C' [_ H]. exact H.
  - (* D L *)
    wfl FB. destruct FA as [A1 A2]. destruct (dd_mul_ok a (l_U b) alpha false false) as [u Hu]; [congruence|]. rewrite Hu. cbn [bind].
    apply dd_mul_inv in Hu. destruct Hu as [_ [U1 [U2 _]]]. apply AC; cbn [lr_right lr_mid]; auto; congruence.
  - (* D H *)
    pose proof FB as FB0. destruct FB as [-> [-> FB]]. cbn [dim0 dim1]. rewrite Nat.eqb_refl.
    destruct ((deg k =? 1) && (deg s =? 1)) eqn:E.
    { apply andb_true_iff in E. rewrite !Nat.eqb_eq in E. destruct E as [E1 E2].
      assert (FB1 : fit k s (b 0 0)) by (rewrite <- (sub_1 k 0 Vk E1), <- (sub_1 s 0 Vs E2); apply FB; lia).
      eapply fine_imp; [apply (Hg r k s); auto with fit|intros C' [_ H]; exact H].
      destruct GC as [[G|[? E]]|[G|[x [_ [_ [[? [? [? [E _]]]]|[m [n [y [E N]]]]]]]]]]; [left; auto|discriminate|right; left; auto|discriminate|].
      inversion E. subst m n. tauto. }
    destruct ((deg k =? 1) && (deg r =? 1)) eqn:E3.
    + apply andb_true_iff in E3. rewrite !Nat.eqb_eq in E3. destruct E3 as [E1 E2].
      eapply fine_bind; [apply (fine_collect 1 (deg s) _ (fun _ j X => ske (c 0 j) X))|].
      * intros i j Hi Hj. unfold hvec. rewrite E1, E2. rewrite (Nat.eqb_refl 1), (proj2 (Nat.ltb_lt _ _) Hj). cbn [bind].
        eapply fine_imp; [apply (Hg r k (sub s j)); auto with fit|intros C' [_ H]; exact H].
        -- rewrite <- (sub_1 k 0 Vk E1). apply FB; auto.
        -- rewrite <- (sub_1 r 0 Vr E2). apply FC; auto.
        -- CG.
      * intros X HX. apply fine_Ok. cbn [CommonTree.ske]. split; auto. split; auto. intros i j Hi Hj. replace i with 0 by lia. apply HX; auto.
    + destruct (split_fit (MD a) r k Vr Vk FA) as [x [Ex [Fx _]]]; [apply nh_MD|]. rewrite Ex. cbn [bind].
      eapply fine_imp; [apply (Hg r k s); auto with fit|intros C' [_ H]; exact H].
      destruct GC as [[[? E4]|[? E4]]|[G|[y [E4 [G [[? [? [? [E5 _]]]]|HB]]]]]]; [discriminate|discriminate|right; left; auto|discriminate|]. right. right. exists y. auto.
  - (* L D *)
    wfl FA. destruct FB as [B1 B2]. destruct (dd_mul_ok (l_V a) b alpha false false) as [v Hv]; [congruence|]. rewrite Hv. cbn [bind].
    apply dd_mul_inv in Hv. destruct Hv as [_ [U1 [U2 _]]]. apply AC; cbn [lr_left lr_mid]; auto; congruence.
  - (* L L *)
    wfl FA. wfl FB. unfold lr_lr_mid.
    destruct (dd_mul_ok (l_S a) (l_V a) 1%r false false) as [x Hx]; [congruence|]. rewrite Hx. cbn [bind].
    destruct (dd_mul_ok (l_U b) (l_S b) 1%r false false) as [y Hy]; [congruence|]. rewrite Hy. cbn [bind].
    apply dd_mul_inv in Hx. destruct Hx as [_ [X1 [X2 _]]]. apply dd_mul_inv in Hy. destruct Hy as [_ [Y1 [Y2 _]]].
    destruct (dd_mul_ok x y alpha false false) as [z Hz]; [congruence|]. rewrite Hz. cbn [bind].
    apply dd_mul_inv in Hz. destruct Hz as [_ [Z1 [Z2 _]]]. apply AC; cbn [lr_left lr_right]; try congruence. rewrite Z1, Z2, X1, Y2. eapply (po_link _ _ _ _ HP); eassumption.
  - (* L H *)
    pose proof FB as FB0. destruct FB as [-> [-> FB]]. cbn [dim0 dim1]. rewrite Nat.eqb_refl.
    destruct ((deg k =? 1) && (deg s =? 1)) eqn:E.
    { apply andb_true_iff in E. rewrite !Nat.eqb_eq in E. destruct E as [E1 E2].
      assert (FB1 : fit k s (b 0 0)) by (rewrite <- (sub_1 k 0 Vk E1), <- (sub_1 s 0 Vs E2); apply FB; lia).
      eapply fine_imp; [apply (Hg r k s); auto with fit|intros C' [_ H]; exact H].
      destruct GC as [[G|[? E]]|[G|[x [_ [_ [[? [? [? [E _]]]]|[m [n [y [E N]]]]]]]]]]; [left; auto|discriminate|right; left; auto|discriminate|].
      inversion E. subst m n. tauto. }
    destruct ((deg k =? 1) && (deg r =? 1)) eqn:E3.
    + apply andb_true_iff in E3. rewrite !Nat.eqb_eq in E3. destruct E3 as [E1 E2].
      eapply fine_bind; [apply (fine_collect 1 (deg s) _ (fun _ j X => ske (c 0 j) X))|].
      * intros i j Hi Hj. unfold hvec. rewrite E1, E2. rewrite (Nat.eqb_refl 1), (proj2 (Nat.ltb_lt _ _) Hj). cbn [bind].
        eapply fine_imp; [apply (Hg r k (sub s j)); auto with fit|intros C' [_ H]; exact H].
        -- rewrite <- (sub_1 k 0 Vk E1). apply FB; auto.
        -- rewrite <- (sub_1 r 0 Vr E2). apply FC; auto.
        -- CG.
      * intros X HX. apply fine_Ok. cbn [CommonTree.ske]. split; auto. split; auto. intros i j Hi Hj. replace i with 0 by lia. apply HX; auto.
    + wfl FA. eapply fine_bind; [apply (Hn (Leaf (d_r (l_V a))) k s); auto; [exact I|split; auto; congruence]|].
      intros X [FX [_ DX]]. destruct DX as [d ->]; [left; apply nh_MD|]. destruct FX as [X1 X2]. cbn [to_dense bind].
      apply AC; auto; try congruence. simpl in X1. congruence.
  - (* H D *)
    pose proof FA as FA0. destruct FA as [-> [-> FA]]. cbn [dim0 dim1].
    destruct ((deg r =? 1) && (deg k =? 1)) eqn:E.
    { apply andb_true_iff in E. rewrite !Nat.eqb_eq in E. destruct E as [E1 E2].
      assert (FA1 : fit r k (a 0 0)) by (rewrite <- (sub_1 r 0 Vr E1), <- (sub_1 k 0 Vk E2); apply FA; lia).
      eapply fine_imp; [apply (Hg r k s); auto with fit|intros C' [_ H]; exact H].
      destruct GC as [[[? E]|G]|[G|[x [_ [_ [[m [n [y [E N]]]]|[? [? [? [E _]]]]]]]]]]; [discriminate|left; auto|right; left; auto| |discriminate].
      inversion E. subst m n. tauto. }
    destruct ((deg k =? 1) && (deg s =? 1)) eqn:E3.
    + apply andb_true_iff in E3. rewrite !Nat.eqb_eq in E3. destruct E3 as [E1 E2].
      assert (Er : (deg r =? 1) = false) by (rewrite E1, Nat.eqb_refl, andb_true_r in E; auto).
      eapply fine_bind; [apply (fine_collect (deg r) 1 _ (fun i _ X => ske (c i 0) X))|].
      * intros i j Hi Hj. unfold hvec. rewrite Er, E1, E2. rewrite (Nat.eqb_refl 1), (proj2 (Nat.ltb_lt _ _) Hi). cbn [bind].
        eapply fine_imp; [apply (Hg (sub r i) k s); auto with fit|intros C' [_ H]; exact H].
        -- rewrite <- (sub_1 k 0 Vk E1). apply FA; auto.
        -- rewrite <- (sub_1 s 0 Vs E2). apply FC; auto.
        -- CG.
      * intros X HX. apply fine_Ok. cbn [CommonTree.ske]. split; auto. split; auto. intros i j Hi Hj. replace j with 0 by lia.
        rewrite (proj2 (Nat.ltb_lt _ _) Hi). apply HX; auto.
    + destruct (split_fit (MD b) k s Vk Vs FB) as [x [Ex [Fx _]]]; [apply nh_MD|]. rewrite Ex. cbn [bind].
      eapply fine_imp; [apply (Hg r k s); auto with fit|intros C' [_ H]; exact H].
      destruct GC as [[[? E4]|[? E4]]|[G|[y [E4 [G [HA|[? [? [? [E5 _]]]]]]]]]]; [discriminate|discriminate|right; left; auto| |discriminate]. right. right. exists y. auto.
  - (* H L *)
    pose proof FA as FA0. destruct FA as [-> [-> FA]]. cbn [dim0 dim1].
    destruct ((deg r =? 1) && (deg k =? 1)) eqn:E.
    { apply andb_true_iff in E. rewrite !Nat.eqb_eq in E. destruct E as [E1 E2].
      assert (FA1 : fit r k (a 0 0)) by (rewrite <- (sub_1 r 0 Vr E1), <- (sub_1 k 0 Vk E2); apply FA; lia).
      eapply fine_imp; [apply (Hg r k s); auto with fit|intros C' [_ H]; exact H].
      destruct GC as [[[? E]|G]|[G|[x [_ [_ [[m [n [y [E N]]]]|[? [? [? [E _]]]]]]]]]]; [discriminate|left; auto|right; left; auto| |discriminate].
      inversion E. subst m n. tauto. }
    destruct ((deg k =? 1) && (deg s =? 1)) eqn:E3.
    + apply andb_true_iff in E3. rewrite !Nat.eqb_eq in E3. destruct E3 as [E1 E2].
      assert (Er : (deg r =? 1) = false) by (rewrite E1, Nat.eqb_refl, andb_true_r in E; auto).
      eapply fine_bind; [apply (fine_collect (deg r) 1 _ (fun i _ X => ske (c i 0) X))|].
      * intros i j Hi Hj. unfold hvec. rewrite Er, E1, E2. rewrite (Nat.eqb_refl 1), (proj2 (Nat.ltb_lt _ _) Hi). cbn [bind].
        eapply fine_imp; [apply (Hg (sub r i) k s); auto with fit|intros C' [_ H]; exact H].
        -- rewrite <- (sub_1 k 0 Vk E1). apply FA; auto.
        -- rewrite <- (sub_1 s 0 Vs E2). apply FC; auto.
        -- CG.
      * intros X HX. apply fine_Ok. cbn [CommonTree.ske]. split; auto. split; auto. intros i j Hi Hj. replace j with 0 by lia.
        rewrite (proj2 (Nat.ltb_lt _ _) Hi). apply HX; auto.
    + wfl FB. eapply fine_bind; [apply (Hn r k (Leaf (d_c (l_U b)))); auto; [exact I|split; auto; congruence]|].
      intros X [FX [_ DX]]. destruct DX as [d ->]; [right; apply nh_MD|]. destruct FX as [X1 X2]. cbn [to_dense bind].
      apply AC; auto; try congruence. simpl in X2. congruence.
  - (* H H *)
    destruct FA as [-> [-> FA]]. destruct FB as [-> [-> FB]]. cbn [dim0 dim1 opb]. rewrite !Nat.eqb_refl.
    eapply fine_bind; [apply (fine_collect (deg r) (deg s) _ (fun i j X => ske (c i j) X))|].
    + intros i j Hi Hj.
      eapply fine_imp; [apply (fine_loop _ _ (fun X => fit (sub r i) (sub s j) X /\ ske (c i j) X))|intros X [_ H]; exact H].
      * split; auto.
      * intros l X Hl [FX SX]. eapply fine_imp; [apply (Hg (sub r i) (sub k l) (sub s j)); auto with fit|].
        -- right. left. eapply ske_good; eauto. destruct (Gc i j Hi Hj) as [[[? E]|[? E]]|E]; [discriminate|discriminate|exact E].
        -- eapply ske_allp; eauto.
        -- intros Y [FY SY]. split; auto. eapply ske_trans; eauto.
    + intros X HX. apply fine_Ok. cbn [CommonTree.ske]. auto.
Qed.

Lemma step_fine r k s A B C alpha beta : valid r -> valid k -> valid s -> fit r k A -> fit k s B -> fit r s C ->
  goodfor A B C -> allp C -> fine (gemm_step Or g gn A B C alpha beta false false) (ske C).
Proof.
  intros Vr Vk Vs FA FB FC GC TC. destruct C as [c|c|m n c|er ec].
  - apply (step_D r k s); auto.
  - apply (step_L r k s); auto.
  - pose proof FC as F. destruct F as [-> [-> _]]. apply (step_H r k s); auto.
  - destruct FC.
Qed.

Lemma new_fine r k s A B alpha : valid r -> valid k -> valid s -> fit r k A -> fit k s B ->
  fine (new_step g gn A B alpha false false)
    (fun X => fit r s X /\ good X /\ (nh A \/ nh B -> exists d, X = MD d)).
Proof.
  intros Vr Vk Vs FA FB. fd.
  assert (Z : fine (g A B (MD (d_zeros (nrows A) (ncols B))) alpha 0%r false false)
     (fun X => fit r s X /\ good X /\ (nh A \/ nh B -> exists d, X = MD d))).
  { eapply fine_imp; [apply (Hg r k s); auto with fit; [split; auto|right; left; exact I]|].
    intros X [FX SX]. destruct (ske_MD _ _ SX) as [d ->]. split; auto. split; [exact I|eauto]. }
  unfold new_step. unfold opr, opc. replace (ncols A =? nrows B) with true by (symmetry; apply Nat.eqb_eq; congruence).
  destruct A as [a|a|am an a|er ec]; [exact Z|exact Z| |destruct FA].
  destruct B as [b|b|bm bn b|er ec]; [exact Z|exact Z| |destruct FB].
  destruct FA as [-> [-> FA]]. destruct FB as [-> [-> FB]]. cbn [dim0 dim1 opb].
  pose proof (deg_pos k Vk) as Dk.
  destruct ((deg r =? 1) && (deg s =? 1)) eqn:E; [exact Z|].
  eapply fine_bind; [apply (fine_collect (deg r) (deg s) _ (fun i j X => fit (sub r i) (sub s j) X /\ good X))|].
  - intros i j Hi Hj. eapply fine_bind; [apply (Hn (sub r i) (sub k 0) (sub s j)); auto with fit|].
    intros c0 [F0 [G0 _]]. apply fine_loop; auto. intros l X Hl [FX GX].
    replace (S l <? deg k) with true by (symmetry; apply Nat.ltb_lt; lia).
    eapply fine_imp; [apply (Hg (sub r i) (sub k (S l)) (sub s j)); auto with fit|].
    + apply valid_sub; auto. lia.
    + apply FA; auto. lia.
    + apply FB; auto. lia.
    + right. left. auto.
    + intros Y [FY SY]. split; auto. eapply ske_good; eauto.
  - intros X HX. apply fine_Ok. split; [split; auto; split; auto; intros i j Hi Hj; apply HX; auto|]. split.
    + cbn [CommonTree.good]. apply andb_false_iff in E. rewrite !Nat.eqb_neq in E. split; [lia|]. intros i j Hi Hj. apply HX; auto.
    + intros [N|N]; exfalso; eapply N; reflexivity.
Qed.
End Step.

Lemma gemm_fine f : GO f /\ NO f.
Proof.
  induction f as [|f [IG IN]]; unfold GO, NO.
  - split; intros; left; reflexivity.
  - assert (G : forall r k s A B C alpha beta, valid r -> valid k -> valid s ->
      fit r k A -> fit k s B -> fit r s C -> goodfor A B C -> allp C ->
      fine (gemm Or f A B C alpha beta false false) (fun C' => fit r s C' /\ ske C C')).
    { intros. apply (gemm_fit f r k s); auto. apply (IG r k s); auto. }
    split; intros.
    + exact (step_fine (gemm Or f) (gemm_new Or f) G IN r k s A B C alpha beta H H0 H1 H2 H3 H4 H5 H6).
    + exact (new_fine (gemm Or f) (gemm_new Or f) G IN r k s A B alpha H H0 H1 H2 H3).
Qed.

End Succ.
