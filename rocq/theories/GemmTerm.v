(** gemm and the operations built on it terminate: the recursion budget of the model is
    enough from some point on, whatever the operands are. *)
From Coq Require Import List Arith ZArith QArith Lia Bool.
From Verif Require Import Prelude IndexRange IndexRangeProofs ClusterTree ClusterTreeProofs Ring MatFun Matrix MatOps MatSpec MatOpsProofs Gemm GemmSpec GemmProofs.
Import ListNotations.
Local Open Scope nat_scope.

(** ** Outcomes other than an exhausted budget *)

Definition halts {A} (x : outcome A) : Prop := x <> NoFuel.

Lemma halts_Ok {A} (a : A) : halts (Ok a). Proof. discriminate. Qed.
Lemma halts_abort {A} : halts (@Abort A). Proof. discriminate. Qed.
Lemma halts_bind {A B} (x : outcome A) (f : A -> outcome B) :
  halts x -> (forall a, x = Ok a -> halts (f a)) -> halts (bind x f).
Proof. unfold halts. destruct x; simpl; intros H1 H2; try congruence. now apply H2. Qed.
Lemma halts_assert {A} (b : bool) (x : outcome A) : (b = true -> halts x) -> halts (if b then x else AssertFail).
Proof. destruct b; auto. intros _. discriminate. Qed.
Lemma halts_check {A} n (f : nat -> outcome A) : (forall i, i < n -> halts (f i)) -> halts (check_ok n f).
Proof.
  induction n as [|n IH]; intros H; simpl; [apply halts_Ok|].
  apply halts_bind; [apply IH; intros; apply H; lia|]. intros _ _. apply halts_bind; [apply H; lia|].
  intros _ _. apply halts_Ok.
Qed.
Lemma halts_collect {R : cring} m n (f : nat -> nat -> outcome (matrix R)) :
  (forall i j, i < m -> j < n -> halts (f i j)) -> halts (collect m n f).
Proof.
  intros H. unfold collect. apply halts_bind; [|intros; apply halts_Ok].
  apply halts_check. intros i Hi. apply halts_check. auto.
Qed.
Lemma halts_loop {T} n (f : nat -> T -> outcome T) (Inv : nat -> T -> Prop) s : Inv 0 s ->
  (forall i s, i < n -> Inv i s -> halts (f i s) /\ (forall s', f i s = Ok s' -> Inv (S i) s')) ->
  halts (for_loop n f s).
Proof.
  intros H0 H. enough (G : halts (for_loop n f s) /\ forall s', for_loop n f s = Ok s' -> Inv n s') by apply G.
  induction n as [|n IH]; simpl; [split; [apply halts_Ok|congruence]|].
  destruct IH as [I1 I2]; [intros i s1 Hi; apply H; lia|]. split.
  - apply halts_bind; auto. intros a Ha. apply (H n a); auto.
  - intros s' Hs. apply bind_Ok in Hs. destruct Hs as [a [Ha Hs]]. eapply H; eauto.
Qed.
Lemma halts_mapM {A B} (f : A -> outcome B) l : (forall a, halts (f a)) -> halts (mapM f l).
Proof.
  intros H. induction l as [|a l IH]; simpl; [apply halts_Ok|].
  apply halts_bind; auto. intros b _. apply halts_bind; auto. intros. apply halts_Ok.
Qed.

Section Term.
Context {R : cring}.
Notation dense := (dense R).
Notation lowrank := (lowrank R).
Notation matrix := (matrix R).
Notation mat := (mat R).

(** ** The parts without recursion *)

Ltac hb := apply halts_bind; [|let E := fresh "E" in intros ? E].
Ltac ha := apply halts_assert; intros ?.

Lemma dd_gemm_halts (A B C : dense) alpha beta tA tB : halts (dd_gemm A B C alpha beta tA tB).
Proof. unfold dd_gemm. repeat ha. apply halts_Ok. Qed.
Lemma dd_mul_halts (A B : dense) alpha tA tB : halts (dd_mul A B alpha tA tB).
Proof. unfold dd_mul. ha. apply dd_gemm_halts. Qed.

Lemma nat_ranges_halts l : halts (nat_ranges l).
Proof. apply halts_mapM. intros a. destruct (_ && _); discriminate. Qed.

Lemma split_ranges_halts (A : matrix) rs cs : halts (split_ranges A rs cs).
Proof.
  destruct A as [d|l|m n b|r c]; simpl; try discriminate.
  - unfold split_dense. destruct (_ && _); discriminate.
  - unfold split_lr, split_U, split_V. destruct (1 <? length rs), (1 <? length cs);
      repeat destruct (ranges_fit _ _); discriminate.
  - unfold split_h. destruct (_ || _); [discriminate|]. hb; [|apply halts_Ok].
    apply halts_collect. intros. destruct (_ || _); discriminate.
Qed.
Lemma split_halts (A : matrix) nr nc : halts (split A nr nc).
Proof. unfold split. hb; [apply nat_ranges_halts|]. hb; [apply nat_ranges_halts|]. apply split_ranges_halts. Qed.
Lemma split_like_halts (A : matrix) m n b : halts (split_like A m n b).
Proof. unfold split_like. ha. ha. hb; [apply nat_ranges_halts|]. hb; [apply nat_ranges_halts|]. apply split_ranges_halts. Qed.

Lemma fill_halts (A : matrix) : forall B, halts (fill_dense_from A B).
Proof.
  induction A as [d|l|m n b IH|r c]; intros B; cbn [fill_dense_from].
  - repeat ha. unfold d_copy_to. repeat ha. apply halts_Ok.
  - hb; [apply dd_mul_halts|apply dd_gemm_halts].
  - hb; [apply split_like_halts|]. destruct a; try discriminate. hb; [|apply halts_Ok].
    apply halts_collect. intros i j Hi Hj. destruct (b0 i j); try discriminate. hb; [apply IH|apply halts_Ok].
  - repeat ha. apply halts_Ok.
Qed.
Lemma densify_halts (A : matrix) : halts (densify A).
Proof. apply fill_halts. Qed.
Lemma scale_halts (A : matrix) b : halts (scale A b).
Proof.
  induction A as [d|l|m n a IH|r c]; simpl; try discriminate. hb; [|apply halts_Ok].
  apply halts_collect. auto.
Qed.

(** The low-rank routines return. *)
Record oracles_halt (O : oracles R) : Prop := {
  oh_add : forall a b, halts (lr_add O a b);
  oh_rank : forall d r, halts (crank O d r);
  oh_eps : forall d e, halts (ceps O d e)
}.
Variable Or : oracles R.
Hypothesis HO : oracles_halt Or.

Lemma lr_acc_halts a b : halts (lr_acc Or a b).
Proof. unfold lr_acc. repeat ha. apply (oh_add _ HO). Qed.

Lemma madd_halts (A : matrix) : forall B, halts (madd_to Or A B).
Proof.
  induction A as [d|l|m n a IH|r c]; intros [d'|l'|m' n' b|r' c']; cbn [madd_to]; try discriminate.
  - hb; [|apply halts_Ok]. unfold d_add. destruct (_ || _); discriminate.
  - hb; [|apply halts_Ok]. unfold d_add_lr. hb; [apply dd_mul_halts|apply dd_gemm_halts].
  - hb; [|apply halts_Ok]. apply lr_acc_halts.
  - hb; [apply split_halts|]. destruct a0; try discriminate. hb; [|apply halts_Ok]. apply halts_collect. auto.
  - destruct (_ && _); [|discriminate]. hb; [|apply halts_Ok]. apply halts_collect. auto.
Qed.
Lemma acc_lr_halts c beta x : halts (acc_lr Or c beta x).
Proof. unfold acc_lr. hb; [apply lr_acc_halts|apply halts_Ok]. Qed.
Lemma acc_h_halts C beta x : halts (acc_h Or C beta x).
Proof. unfold acc_h. hb; [apply scale_halts|apply madd_halts]. Qed.
Lemma compress_halts c d : halts (compress_like Or c d).
Proof. unfold compress_like. destruct (use_eps c); [apply (oh_eps _ HO)|apply (oh_rank _ HO)]. Qed.
Lemma crank_h_halts A r : halts (crank_h Or A r).
Proof. destruct A; simpl; try discriminate. repeat ha. hb; [apply densify_halts|apply (oh_rank _ HO)]. Qed.
Lemma lr_lr_mid_halts a b alpha tA tB : halts (lr_lr_mid (R := R) a b alpha tA tB).
Proof. unfold lr_lr_mid. hb; [apply dd_mul_halts|]. hb; apply dd_mul_halts. Qed.
Lemma to_dense_halts (A : matrix) : halts (to_dense A).
Proof. destruct A; discriminate. Qed.
Lemma hvec_halts m n (b : nat -> nat -> matrix) k : halts (hvec m n b k).
Proof. unfold hvec. destruct (_ =? _); [ha; apply halts_Ok|]. destruct (_ =? _); [ha; apply halts_Ok|discriminate]. Qed.

(** ** Skeletons: gemm returns the tree it was given *)

Fixpoint skel (A B : matrix) : Prop :=
  match A, B with
  | MD _, MD _ => True
  | ML _, ML _ => True
  | ME _ _, ME _ _ => True
  | MH m n a, MH m' n' b => m' = m /\ n' = n /\ forall i j, i < m -> j < n -> skel (a i j) (b i j)
  | _, _ => False
  end.

Lemma skel_refl A : skel A A.
Proof. induction A; simpl; auto. Qed.
Lemma skel_trans A : forall B C, skel A B -> skel B C -> skel A C.
Proof.
  induction A as [d|l|m n a IH|r c]; intros [d'|l'|m' n' b|r' c'] [d''|l''|m'' n'' b''|r'' c'']; simpl; try tauto.
  intros [-> [-> H1]] [-> [-> H2]]. repeat split; auto. intros i j Hi Hj. eapply IH; eauto.
Qed.
Lemma layout_skel A : forall B, same_layout A B -> skel A B.
Proof.
  induction A as [d|l|m n a IH|r c]; intros [d'|l'|m' n' b|r' c']; simpl; try tauto.
  intros [-> [-> H]]. auto.
Qed.

Lemma madd_skel (A : matrix) : forall B C, madd_to Or A B = Ok C -> skel A C.
Proof.
  induction A as [d|l|m n a IH|r c]; intros [d'|l'|m' n' b|r' c'] C; cbn [madd_to]; intros H; try discriminate;
    try (apply bind_Ok in H; destruct H as [x [_ H]]; inversion H; exact I).
  - apply bind_Ok in H. destruct H as [x [_ H]]. destruct x; try discriminate.
    apply bind_Ok in H. destruct H as [x [Hx H]]. inversion H. simpl. repeat split.
    intros i j Hi Hj. eapply IH. exact (collect_spec _ _ _ _ Hx i j Hi Hj).
  - destruct (_ && _); [|discriminate].
    apply bind_Ok in H. destruct H as [x [Hx H]]. inversion H. simpl. repeat split.
    intros i j Hi Hj. eapply IH. exact (collect_spec _ _ _ _ Hx i j Hi Hj).
Qed.
Lemma acc_h_skel C beta x C' : acc_h Or C beta x = Ok C' -> skel C C'.
Proof.
  unfold acc_h. intros H. apply bind_Ok in H. destruct H as [y [Hy H]].
  eapply skel_trans; [apply layout_skel; eapply scale_layout; eauto|]. eapply madd_skel; eauto.
Qed.
Lemma acc_lr_skel c beta x C' : acc_lr Or c beta x = Ok C' -> skel (ML c) C'.
Proof. unfold acc_lr. intros H. apply bind_Ok in H. destruct H as [y [_ H]]. inversion H. exact I. Qed.

Local Opaque acc_h acc_lr.

Definition keeps (g : gemm_t) : Prop := forall A B C alpha beta tA tB C', g A B C alpha beta tA tB = Ok C' -> skel C C'.

Ltac bok H := let x := fresh "x" in let E := fresh "E" in apply bind_Ok in H; destruct H as [x [E H]].

Lemma vec_row_skel g (Hg : keeps g) (fA : nat -> outcome matrix) (A : matrix) m n (c : nat -> nat -> matrix) alpha beta tA tB c' : m = 1 ->
  collect 1 n (fun _ j => let* bj := fA j in let* cj := hvec m n c j in g A bj cj alpha beta tA tB) = Ok c' ->
  skel (MH m n c) (MH m n c').
Proof.
  intros -> H. split; auto. split; auto. intros i j Hi Hj. assert (i = 0) by lia. subst i.
  pose proof (collect_spec _ _ _ _ H 0 j ltac:(lia) Hj) as E. cbv beta in E. bok E. bok E.
  cbn in E1. apply assert_Ok in E1. destruct E1 as [_ E1]. inversion E1; subst. eapply Hg; eauto.
Qed.

Lemma vec_col_skel g (Hg : keeps g) (fA : nat -> outcome matrix) (B : matrix) k m n (c : nat -> nat -> matrix) alpha beta tA tB c' : n = 1 ->
  collect k 1 (fun i _ => let* ai := fA i in let* ci := hvec m n c i in g ai B ci alpha beta tA tB) = Ok c' ->
  skel (MH m n c) (MH m n (fun i j => if i <? k then c' i 0 else c i j)).
Proof.
  intros -> H. split; auto. split; auto. intros i j Hi Hj. assert (j = 0) by lia. subst j.
  destruct (Nat.ltb_spec i k); [|apply skel_refl].
  pose proof (collect_spec _ _ _ _ H i 0 ltac:(lia) ltac:(lia)) as E. cbv beta in E. bok E. bok E.
  unfold hvec in E1. destruct (Nat.eqb_spec m 1).
  - apply assert_Ok in E1. destruct E1 as [Q E1]. apply Nat.ltb_lt in Q. assert (i = 0) by lia. subst i.
    inversion E1; subst. eapply Hg; eauto.
  - cbn in E1. apply assert_Ok in E1. destruct E1 as [_ E1]. inversion E1; subst. eapply Hg; eauto.
Qed.

Lemma loop_skel n (f : nat -> matrix -> outcome matrix) s s' :
  (forall i s s', f i s = Ok s' -> skel s s') -> for_loop n f s = Ok s' -> skel s s'.
Proof.
  intros H E. apply (for_loop_inv_out n f s s' (fun _ x => skel s x) E); [apply skel_refl|].
  intros i x y _ I1 E1. eapply skel_trans; [exact I1|eapply H; eauto].
Qed.

Lemma gemm_step_skel g gn : keeps g -> keeps (gemm_step Or g gn).
Proof.
  intros Hg A B C alpha beta tA tB C' H. unfold gemm_step in H.
  apply assert_Ok in H. destruct H as [_ H]. apply assert_Ok in H. destruct H as [_ H].
  apply assert_Ok in H. destruct H as [_ H].
  assert (IV : forall A B c nr nc, into_views g A B c nr nc alpha beta tA tB = Ok C' -> skel (MD c) C').
  { clear H. intros A' B' c nr nc H. unfold into_views in H. bok H. bok H. destruct x0; try discriminate. inversion H. exact I. }
  destruct A as [a|a|am an a|r1 c1]; destruct B as [b|b|bm bn b|r2 c2]; destruct C as [c|c|m n c|r3 c3]; try discriminate H;
    try (repeat bok H; inversion H; exact I); try (repeat bok H; eapply acc_lr_skel; eassumption);
    try (repeat bok H; eapply acc_h_skel; eassumption);
    try (repeat bok H; eapply Hg; eassumption).
  all: repeat (apply assert_Ok in H; destruct H as [_ H]).
  all: try (destruct (_ && _); [eapply Hg; eassumption|]); try (eapply IV; eassumption).
  - destruct (_ && _); [discriminate|]. destruct (n =? 1); [|destruct (m =? 1)]; repeat bok H; eapply Hg; eassumption.
  - destruct (_ && (m =? 1)) eqn:Q.
    + apply andb_true_iff in Q. destruct Q as [_ Q]. apply Nat.eqb_eq in Q. bok H. inversion H.
      eapply (vec_row_skel g Hg (hvec bm bn b)); eauto.
    + repeat bok H; eapply Hg; eassumption.
  - destruct (_ && (m =? 1)) eqn:Q.
    + apply andb_true_iff in Q. destruct Q as [_ Q]. apply Nat.eqb_eq in Q. bok H. inversion H.
      eapply (vec_row_skel g Hg (hvec bm bn b)); eauto.
    + repeat bok H. eapply acc_h_skel; eassumption.
  - destruct (_ && (n =? 1)) eqn:Q.
    + apply andb_true_iff in Q. destruct Q as [_ Q]. apply Nat.eqb_eq in Q. bok H. inversion H.
      eapply (vec_col_skel g Hg (hvec am an a)); eauto.
    + repeat bok H; eapply Hg; eassumption.
  - destruct (_ && (n =? 1)) eqn:Q.
    + apply andb_true_iff in Q. destruct Q as [_ Q]. apply Nat.eqb_eq in Q. bok H. inversion H.
      eapply (vec_col_skel g Hg (hvec am an a)); eauto.
    + repeat bok H. eapply acc_h_skel; eassumption.
  - destruct (_ && _); [|eapply IV; eassumption]. eapply loop_skel; [|exact H].
    intros i s s' E. cbv beta in E. bok E. bok E. eapply Hg; eassumption.
  - destruct (use_eps c); repeat bok H; [inversion H; exact I|eapply acc_lr_skel; eassumption].
  - bok H. inversion H. split; auto. split; auto. intros i j Hi Hj.
    pose proof (collect_spec _ _ _ _ E i j Hi Hj) as F. eapply loop_skel; [|exact F].
    intros k s s' E1. exact (Hg _ _ _ _ _ _ _ _ E1).
Qed.

Lemma gemm_skel fuel : keeps (gemm Or fuel).
Proof.
  unfold gemm. induction fuel as [|f IH]; cbn [gemm_pair fst].
  - intros A B C alpha beta tA tB C' H. discriminate.
  - apply gemm_step_skel. exact IH.
Qed.

(** ** The measure *)

Definition is_d (A : matrix) : bool := match A with MD _ => true | _ => false end.
Definition all_d (m n : nat) (b : nat -> nat -> matrix) : bool :=
  forallb (fun i => forallb (fun j => is_d (b i j)) (seq 0 n)) (seq 0 m).
Definition gmax (m n : nat) (f : nat -> nat -> nat) : nat :=
  list_max (map (fun i => list_max (map (f i) (seq 0 n))) (seq 0 m)).

(** Levels of nesting above the last one; a block matrix of Dense blocks counts 0, as a
    split Dense does. *)
Fixpoint deep (A : matrix) : nat :=
  match A with
  | ML _ => 1
  | MH m n b => if all_d m n b then 0 else S (gmax m n (fun i j => deep (b i j)))
  | _ => 0
  end.

Definition zw (A : matrix) : nat :=
  match A with
  | MH m n b => if all_d m n b then if (m =? 1) && (n =? 1) then 6 else 4 else 0
  | _ => 0
  end.

(** At least one block in each direction. *)
Fixpoint pos (A : matrix) : Prop :=
  match A with
  | MH m n b => 0 < m /\ 0 < n /\ forall i j, i < m -> j < n -> pos (b i j)
  | _ => True
  end.

Lemma wf_pos (A : matrix) : wf A -> pos A.
Proof.
  induction A as [d|l|m n b IH|r c]; simpl; auto. intros [H1 [H2 H3]]. split; auto. split; auto.
  intros i j Hi Hj. apply IH. apply H3; auto.
Qed.

Lemma all_d_in m n b i j : all_d m n b = true -> i < m -> j < n -> exists d, b i j = MD d.
Proof.
  unfold all_d. rewrite forallb_forall. intros H Hi Hj. specialize (H i). rewrite forallb_forall in H.
  assert (is_d (b i j) = true) by (apply H; apply in_seq; lia). destruct (b i j); try discriminate. eauto.
Qed.
Lemma all_d_intro m n b : (forall i j, i < m -> j < n -> exists d, b i j = MD d) -> all_d m n b = true.
Proof.
  intros H. unfold all_d. apply forallb_forall. intros i Hi. apply in_seq in Hi. apply forallb_forall. intros j Hj.
  apply in_seq in Hj. destruct (H i j) as [d ->]; [lia|lia|reflexivity].
Qed.
Lemma gmax_in m n f i j : i < m -> j < n -> f i j <= gmax m n f.
Proof.
  intros Hi Hj. unfold gmax.
  assert (L : forall l x, In x l -> x <= list_max l).
  { intros l x Hx. pose proof (proj1 (list_max_le l (list_max l)) (le_n _)) as F.
    rewrite Forall_forall in F. auto. }
  etransitivity; [|apply L; apply in_map_iff; exists i; split; [reflexivity|apply in_seq; lia]].
  apply L. apply in_map_iff. exists j. split; [reflexivity|apply in_seq; lia].
Qed.
Lemma gmax_le m n f k : (forall i j, i < m -> j < n -> f i j <= k) -> gmax m n f <= k.
Proof.
  intros H. unfold gmax. apply list_max_le. apply Forall_forall. intros x Hx. apply in_map_iff in Hx.
  destruct Hx as [i [<- Hi]]. apply in_seq in Hi. apply list_max_le. apply Forall_forall. intros x Hx.
  apply in_map_iff in Hx. destruct Hx as [j [<- Hj]]. apply in_seq in Hj. apply H; lia.
Qed.

Lemma skel_is_d A B : skel A B -> is_d A = is_d B.
Proof. destruct A, B; simpl; tauto. Qed.
Lemma skel_all_d m n a b : (forall i j, i < m -> j < n -> skel (a i j) (b i j)) -> all_d m n a = all_d m n b.
Proof.
  intros H. destruct (all_d m n a) eqn:E.
  - symmetry. apply all_d_intro. intros i j Hi Hj. destruct (all_d_in _ _ _ i j E Hi Hj) as [d D].
    specialize (H i j Hi Hj). rewrite D in H. destruct (b i j); try destruct H; eauto.
  - destruct (all_d m n b) eqn:F; auto. rewrite <- E. apply all_d_intro. intros i j Hi Hj.
    destruct (all_d_in _ _ _ i j F Hi Hj) as [d D]. specialize (H i j Hi Hj). rewrite D in H.
    destruct (a i j); try destruct H; eauto.
Qed.
Lemma skel_deep A : forall B, skel A B -> deep A = deep B.
Proof.
  induction A as [d|l|m n a IH|r c]; intros [d'|l'|m' n' b|r' c']; simpl; try tauto.
  intros [-> [-> H]]. rewrite (skel_all_d m n a b H). destruct (all_d m n b); auto. f_equal.
  apply Nat.le_antisymm; apply gmax_le; intros i j Hi Hj.
  - rewrite (IH i j (b i j)) by auto. apply (gmax_in m n (fun i j => deep (b i j))); auto.
  - rewrite <- (IH i j (b i j)) by auto. apply (gmax_in m n (fun i j => deep (a i j))); auto.
Qed.
Lemma skel_zw A B : skel A B -> zw A = zw B.
Proof.
  destruct A as [d|l|m n a|r c], B as [d'|l'|m' n' b|r' c']; simpl; try tauto.
  intros [-> [-> H]]. rewrite (skel_all_d m n a b H). reflexivity.
Qed.
Lemma skel_pos A : forall B, skel A B -> pos A -> pos B.
Proof.
  induction A as [d|l|m n a IH|r c]; intros [d'|l'|m' n' b|r' c']; simpl; try tauto.
  intros [-> [-> H]] [H1 [H2 H3]]. split; auto. split; auto. intros i j Hi Hj. eapply IH; eauto.
Qed.

(** A block is less nested, or it is a Dense among Dense ones. *)
Lemma deep_child m n b i j : i < m -> j < n ->
  deep (b i j) < deep (MH m n b) \/
  (deep (MH m n b) = 0 /\ 4 <= zw (MH m n b) /\ (m = 1 -> n = 1 -> zw (MH m n b) = 6) /\ exists d, b i j = MD d).
Proof.
  intros Hi Hj. simpl. destruct (all_d m n b) eqn:E.
  - right. split; auto. split; [destruct (_ && _); lia|]. split; [intros -> ->; reflexivity|]. eapply all_d_in; eauto.
  - left. pose proof (gmax_in m n (fun i j => deep (b i j)) i j Hi Hj). simpl in H. lia.
Qed.

Lemma zw_le A : zw A <= 6.
Proof. destruct A; simpl; try lia. destruct (all_d _ _ _); [destruct (_ && _)|]; lia. Qed.

(** The result of splitting a Dense. *)
Lemma split_MD d nr nc (X : matrix) : split (MD d) nr nc = Ok X ->
  exists b, X = MH nr nc b /\ (forall i j, exists x, b i j = MD x) /\ deep X = 0 /\ zw X <= 6 /\
    (nr <> 1 \/ nc <> 1 -> zw X = 4).
Proof.
  unfold split. intros H. apply bind_Ok in H. destruct H as [rs [Hr H]]. apply bind_Ok in H. destruct H as [cs [Hc H]].
  assert (L : forall n k l, nat_ranges (ir_split (IR 0 n) (Z.of_nat k)) = Ok l -> length l = k).
  { intros n k l E. unfold nat_ranges in E. apply mapM_Forall2 in E.
    assert (Q : length (ir_split (IR 0 n) (Z.of_nat k)) = length l) by (induction E; simpl; congruence).
    rewrite ir_split_length, Nat2Z.id in Q. congruence. }
  apply L in Hr, Hc. simpl in H. unfold split_dense in H. apply ub_Ok in H. destruct H as [_ H].
  inversion H as [H1]. clear H. rewrite Hr, Hc. eexists. split; [reflexivity|].
  split; [intros i j; eexists; reflexivity|].
  rewrite Hr, Hc in H1. unfold deep, zw. rewrite all_d_intro by (intros; eexists; reflexivity).
  split; auto. split; [destruct (_ && _); lia|]. intros D.
  destruct (Nat.eqb_spec nr 1), (Nat.eqb_spec nc 1); simpl; auto. lia.
Qed.

(** What the kinds of the operands cost, beyond the nesting. *)
Definition base (A B C : matrix) : nat :=
  match A, B, C with
  | MH _ _ _, MH _ _ _, MH _ _ _ => 0
  | MH _ _ _, MH _ _ _, MD _ => 5
  | MH _ _ _, MH _ _ _, ML _ => 7
  | MH _ _ _, _, MH _ _ _ => 5
  | _, MH _ _ _, MH _ _ _ => 5
  | MD _, MD _, MH _ _ _ => 10
  | MH _ _ _, _, MD _ => 12
  | _, MH _ _ _, MD _ => 12
  | MH _ _ _, _, ML _ => 14
  | _, MH _ _ _, ML _ => 14
  | _, _, _ => 0
  end.
Definition base_new (A B : matrix) : nat :=
  match A, B with
  | MH _ _ _, MH _ _ _ => 6
  | MH _ _ _, _ => 13
  | _, MH _ _ _ => 13
  | _, _ => 1
  end.
Definition cost (A B C : matrix) : nat :=
  40 * (deep A + deep B + Nat.max (deep C) (Nat.min (deep A) (deep B))) + (zw A + zw B + zw C) + base A B C.
Definition cost_new (A B : matrix) : nat :=
  40 * (deep A + deep B + Nat.min (deep A) (deep B)) + (zw A + zw B) + base_new A B.

Lemma base_le A B C : base A B C <= 14.
Proof. destruct A, B, C; simpl; lia. Qed.
Lemma base_new_le A B : base_new A B <= 13.
Proof. destruct A, B; simpl; lia. Qed.
Lemma cost_skel A B C C' : skel C C' -> cost A B C' = cost A B C.
Proof.
  intros H. unfold cost. rewrite <- (skel_deep _ _ H), <- (skel_zw _ _ H). f_equal.
  destruct C, C'; try destruct H; reflexivity.
Qed.

(** ** Termination *)

Definition stops (f : nat) (g : gemm_t) : Prop := forall A B C alpha beta tA tB,
  pos A -> pos B -> pos C -> cost A B C < f -> halts (g A B C alpha beta tA tB).
Definition stops_new (f : nat) (gn : new_t) : Prop := forall A B alpha tA tB,
  pos A -> pos B -> cost_new A B < f -> halts (gn A B alpha tA tB).
Definition flat_new (gn : new_t) : Prop := forall A B alpha tA tB C, pos A -> pos B -> gn A B alpha tA tB = Ok C ->
  pos C /\ deep C <= Nat.min (deep A) (deep B) /\ (is_d A = true \/ is_d B = true -> is_d C = true).

Lemma opb_in (t : bool) m n (a : nat -> nat -> matrix) i k : i < dim0 t m n -> k < dim1 t m n ->
  exists x y, opb t a i k = a x y /\ x < m /\ y < n.
Proof. unfold dim0, dim1, opb. destruct t; eauto 6. Qed.

Lemma hvec_in m n (b : nat -> nat -> matrix) k x : hvec m n b k = Ok x -> exists i j, x = b i j /\ i < m /\ j < n.
Proof.
  unfold hvec. destruct (Nat.eqb_spec m 1).
  - intros H. apply assert_Ok in H. destruct H as [Q H]. apply Nat.ltb_lt in Q. inversion H. exists 0, k. subst m. auto.
  - destruct (Nat.eqb_spec n 1); [|discriminate]. intros H. apply assert_Ok in H. destruct H as [Q H]. apply Nat.ltb_lt in Q.
    inversion H. exists k, 0. subst n. auto.
Qed.

Lemma pos_child m n b i j : pos (MH m n b) -> i < m -> j < n -> pos (b i j).
Proof. intros [_ [_ H]]. apply H. Qed.
Lemma pos_split (b : nat -> nat -> matrix) m n : 0 < m -> 0 < n -> (forall i j, exists x, b i j = MD x) -> pos (MH m n b).
Proof. intros H1 H2 H. split; auto. split; auto. intros i j _ _. destruct (H i j) as [x ->]. exact I. Qed.
Lemma pos_dims t m n b : pos (MH m n b) -> 0 < dim0 t m n /\ 0 < dim1 t m n.
Proof. intros [H1 [H2 _]]. destruct t; simpl; auto. Qed.

Lemma new_step_flat g gn : keeps g -> flat_new gn -> flat_new (new_step g gn).
Proof.
  intros Hg Hn A B alpha tA tB C PA PB H. unfold new_step in H. apply assert_Ok in H. destruct H as [_ H].
  assert (G : forall A B al be d, g A B (MD d) al be tA tB = Ok C ->
    pos C /\ deep C = 0 /\ is_d C = true).
  { intros A' B' al be d E. apply Hg in E. destruct C; try destruct E. simpl. auto. }
  destruct A as [a|a|am an a|r1 c1]; destruct B as [b|b|bm bn b|r2 c2];
    try (destruct (G _ _ _ _ _ H) as [G1 [G2 G3]]; rewrite G2; repeat split; auto; lia).
  destruct (_ && _); [destruct (G _ _ _ _ _ H) as [G1 [G2 G3]]; rewrite G2; repeat split; auto; lia|].
  bok H. inversion H; subst C; clear H G.
  destruct (pos_dims tA _ _ _ PA) as [D1 D2]. destruct (pos_dims tB _ _ _ PB) as [D3 D4].
  assert (F : forall i j, i < dim0 tA am an -> j < dim1 tB bm bn -> exists i1 i2 j1 j2,
     i1 < am /\ i2 < an /\ j1 < bm /\ j2 < bn /\ pos (x i j) /\ deep (x i j) <= Nat.min (deep (a i1 i2)) (deep (b j1 j2)) /\
     (is_d (a i1 i2) = true \/ is_d (b j1 j2) = true -> is_d (x i j) = true)).
  { intros i j Hi Hj. pose proof (collect_spec _ _ _ _ E i j Hi Hj) as H. cbv beta in H. bok H.
    destruct (opb_in tA am an a i 0 Hi D2) as [i1 [i2 [E1 [X1 X2]]]].
    destruct (opb_in tB bm bn b 0 j D3 Hj) as [j1 [j2 [E2 [Y1 Y2]]]].
    rewrite E1, E2 in E0. apply Hn in E0; [|eapply pos_child; eauto|eapply pos_child; eauto].
    destruct E0 as [P1 [P2 P3]].
    assert (S1 : skel x0 (x i j)).
    { eapply loop_skel; [|exact H]. intros k s s' Q. cbv beta in Q. apply assert_Ok in Q. destruct Q as [_ Q]. eapply Hg; eauto. }
    exists i1, i2, j1, j2. repeat (split; [assumption|]). rewrite <- (skel_deep _ _ S1), <- (skel_is_d _ _ S1).
    split; [eapply skel_pos; eauto|]. auto. }
  split; [|split].
  - split; auto. split; auto. intros i j Hi Hj. destruct (F i j Hi Hj) as [i1 [i2 [j1 [j2 [_ [_ [_ [_ [P _]]]]]]]]]. exact P.
  - cbn [deep]. destruct (all_d (dim0 tA am an) (dim1 tB bm bn) x) eqn:EX; [lia|].
    assert (NA : all_d am an a = false).
    { destruct (all_d am an a) eqn:Q; auto. rewrite <- EX. symmetry. apply all_d_intro. intros i j Hi Hj.
      destruct (F i j Hi Hj) as [i1 [i2 [j1 [j2 [Q1 [Q2 [_ [_ [_ [_ P]]]]]]]]]].
      destruct (all_d_in _ _ _ i1 i2 Q Q1 Q2) as [d Ed]. rewrite Ed in P. specialize (P (or_introl eq_refl)).
      destruct (x i j); try discriminate. eauto. }
    assert (NB : all_d bm bn b = false).
    { destruct (all_d bm bn b) eqn:Q; auto. rewrite <- EX. symmetry. apply all_d_intro. intros i j Hi Hj.
      destruct (F i j Hi Hj) as [i1 [i2 [j1 [j2 [_ [_ [Q1 [Q2 [_ [_ P]]]]]]]]]].
      destruct (all_d_in _ _ _ j1 j2 Q Q1 Q2) as [d Ed]. rewrite Ed in P. specialize (P (or_intror eq_refl)).
      destruct (x i j); try discriminate. eauto. }
    rewrite NA, NB. rewrite <- Nat.succ_min_distr. apply le_n_S. apply gmax_le. intros i j Hi Hj.
    destruct (F i j Hi Hj) as [i1 [i2 [j1 [j2 [Q1 [Q2 [Q3 [Q4 [_ [P _]]]]]]]]]].
    pose proof (gmax_in am an (fun i j => deep (a i j)) i1 i2 Q1 Q2) as G1.
    pose proof (gmax_in bm bn (fun i j => deep (b i j)) j1 j2 Q3 Q4) as G2. cbv beta in G1, G2. lia.
  - simpl. intros [Q|Q]; discriminate.
Qed.

Lemma gemm_new_flat fuel : flat_new (gemm_new Or fuel).
Proof.
  unfold gemm_new. induction fuel as [|f IH]; cbn [gemm_pair snd].
  - intros A B alpha tA tB C _ _ H. discriminate.
  - apply new_step_flat; auto. apply (gemm_skel f).
Qed.


Ltac dn := repeat match goal with
  | |- context[deep (MD ?x)] => change (deep (MD x)) with 0
  | H : context[deep (MD ?x)] |- _ => change (deep (MD x)) with 0 in H
  | |- context[deep (ML ?x)] => change (deep (ML x)) with 1
  | H : context[deep (ML ?x)] |- _ => change (deep (ML x)) with 1 in H
  | |- context[deep (ME ?x ?y)] => change (deep (ME x y)) with 0
  | H : context[deep (ME ?x ?y)] |- _ => change (deep (ME x y)) with 0 in H
  | |- context[zw (MD ?x)] => change (zw (MD x)) with 0
  | H : context[zw (MD ?x)] |- _ => change (zw (MD x)) with 0 in H
  | |- context[zw (ML ?x)] => change (zw (ML x)) with 0
  | H : context[zw (ML ?x)] |- _ => change (zw (ML x)) with 0 in H
  | |- context[zw (ME ?x ?y)] => change (zw (ME x y)) with 0
  | H : context[zw (ME ?x ?y)] |- _ => change (zw (ME x y)) with 0 in H
  end.
Ltac bounds := repeat match goal with
  | |- context[base ?a ?b ?c] => lazymatch goal with H : base a b c <= 14 |- _ => fail | _ => pose proof (base_le a b c) end
  | |- context[base_new ?a ?b] => lazymatch goal with H : base_new a b <= 13 |- _ => fail | _ => pose proof (base_new_le a b) end
  | |- context[zw ?a] => lazymatch goal with H : zw a <= 6 |- _ => fail | _ => pose proof (zw_le a) end
  end.
Ltac cst1 := unfold cost, cost_new in *; cbn [base base_new] in *; dn; bounds; lia.
Ltac cst2 := unfold cost, cost_new in *; bounds;
  repeat match goal with
  | |- context[base ?a ?b ?c] => let x := fresh in set (x := base a b c) in *; clearbody x
  | |- context[base_new ?a ?b] => let x := fresh in set (x := base_new a b) in *; clearbody x
  end; cbn [base base_new] in *; dn; lia.
Ltac cst := first [cst2 | cst1].

(** The block (x, y) of [b] in the goal. *)
Ltac child m n b x y Hx Hy :=
  let K := fresh "K" in destruct (deep_child m n b x y Hx Hy) as [K|[K [? [? [? ?]]]]];
  [|repeat match goal with E : b x y = MD _ |- _ => rewrite E in *; clear E end].

Lemma into_views_stops f g alpha beta tA tB (A B : matrix) c nr nc : stops f g -> pos A -> pos B -> 0 < nr -> 0 < nc ->
  (forall CH, (exists b, CH = MH nr nc b) -> deep CH = 0 -> zw CH <= 6 -> (nr <> 1 \/ nc <> 1 -> zw CH = 4) -> cost A B CH < f) ->
  halts (into_views g A B c nr nc alpha beta tA tB).
Proof.
  intros Hg PA PB Hr Hc H. unfold into_views. hb; [apply split_halts|].
  destruct (split_MD _ _ _ _ E) as [b [-> [Hb [S1 [S2 S3]]]]]. hb; [|destruct a; discriminate].
  apply Hg; auto; [apply pos_split; auto|]. apply H; eauto.
Qed.

Definition nonh (A : matrix) : Prop := match A with MH _ _ _ => False | _ => True end.

Lemma one_one m n : (m =? 1) && (n =? 1) = true -> m = 1 /\ n = 1.
Proof. rewrite andb_true_iff, !Nat.eqb_eq. auto. Qed.
Lemma not_one_one m n : (m =? 1) && (n =? 1) = false -> m <> 1 \/ n <> 1.
Proof. rewrite andb_false_iff, !Nat.eqb_neq. auto. Qed.

Section Step.
Variable f : nat.
Variable g : gemm_t (R := R).
Variable gn : new_t (R := R).
Hypothesis Kg : keeps g.
Hypothesis Fn : flat_new gn.
Hypothesis Hg : stops f g.
Hypothesis Hn : stops_new f gn.
Variables alpha beta : R.
Variables tA tB : bool.

Lemma xhd (A : matrix) bm bn b c : nonh A -> pos A -> pos (MH bm bn b) -> cost A (MH bm bn b) (MD c) < S f ->
  halts (if (bm =? 1) && (bn =? 1) then g A (b 0 0) (MD c) alpha beta tA tB
         else into_views g A (MH bm bn b) c 1 (dim1 tB bm bn) alpha beta tA tB).
Proof.
  intros NA PA PB H. destruct (_ && _) eqn:Q.
  - apply one_one in Q. destruct Q as [-> ->]. apply Hg; auto; [apply (pos_child 1 1 b 0 0 PB); lia|exact I|].
    child 1 1 b 0 0 Nat.lt_0_1 Nat.lt_0_1; destruct A; try destruct NA; cst.
  - destruct (pos_dims tB _ _ _ PB) as [D1 D2]. apply (into_views_stops f); auto.
    intros CH [x ->] Z1 Z2 Z3. destruct A; try destruct NA; cst.
Qed.

Lemma hxd (B : matrix) am an a c : nonh B -> pos B -> pos (MH am an a) -> cost (MH am an a) B (MD c) < S f ->
  halts (if (am =? 1) && (an =? 1) then g (a 0 0) B (MD c) alpha beta tA tB
         else into_views g (MH am an a) B c (dim0 tA am an) 1 alpha beta tA tB).
Proof.
  intros NB PB PA H. destruct (_ && _) eqn:Q.
  - apply one_one in Q. destruct Q as [-> ->]. apply Hg; auto; [apply (pos_child 1 1 a 0 0 PA); lia|exact I|].
    child 1 1 a 0 0 Nat.lt_0_1 Nat.lt_0_1; destruct B; try destruct NB; cst.
  - destruct (pos_dims tA _ _ _ PA) as [D1 D2]. apply (into_views_stops f); auto.
    intros CH [x ->] Z1 Z2 Z3. destruct B; try destruct NB; cst.
Qed.

Lemma vec_row (A : matrix) bm bn b m n c : nonh A -> pos A -> pos (MH bm bn b) -> pos (MH m n c) ->
  cost A (MH bm bn b) (MH m n c) < S f ->
  halts (let* c' := collect 1 n (fun _ j =>
          let* bj := hvec bm bn b j in
          let* cj := hvec m n c j in g A bj cj alpha beta tA tB) in
        Ok (MH m n c')).
Proof.
  intros NA PA PB PC H. hb; [|apply halts_Ok]. apply halts_collect. intros i j Hi Hj.
  hb; [apply hvec_halts|]. hb; [apply hvec_halts|].
  apply hvec_in in E, E0. destruct E as [x [y [-> [X Y]]]]. destruct E0 as [v [w [-> [V W]]]].
  apply Hg; auto; [eapply pos_child; eauto|eapply pos_child; eauto|].
  child bm bn b x y X Y; child m n c v w V W; destruct A; try destruct NA; cst.
Qed.

Lemma vec_col (B : matrix) am an a m n c k (r : (nat -> nat -> matrix) -> matrix) : nonh B -> pos B -> pos (MH am an a) -> pos (MH m n c) ->
  cost (MH am an a) B (MH m n c) < S f ->
  halts (let* c' := collect k 1 (fun i _ =>
          let* ai := hvec am an a i in
          let* ci := hvec m n c i in g ai B ci alpha beta tA tB) in
        Ok (r c')).
Proof.
  intros NB PB PA PC H. hb; [|apply halts_Ok]. apply halts_collect. intros i j Hi Hj.
  hb; [apply hvec_halts|]. hb; [apply hvec_halts|].
  apply hvec_in in E, E0. destruct E as [x [y [-> [X Y]]]]. destruct E0 as [v [w [-> [V W]]]].
  apply Hg; auto; [eapply pos_child; eauto|eapply pos_child; eauto|].
  child am an a x y X Y; child m n c v w V W; destruct B; try destruct NB; cst.
Qed.

(** The single block of a 1 x 1 factor. *)
Lemma one_b (A : matrix) b m n c : nonh A -> pos A -> pos (MH 1 1 b) -> pos (MH m n c) ->
  cost A (MH 1 1 b) (MH m n c) < S f -> halts (g A (b 0 0) (MH m n c) alpha beta tA tB).
Proof.
  intros NA PA PB PC H. apply Hg; auto; [apply (pos_child 1 1 b 0 0 PB); lia|].
  child 1 1 b 0 0 Nat.lt_0_1 Nat.lt_0_1; destruct A; try destruct NA; cst.
Qed.
Lemma one_a (B : matrix) a m n c : nonh B -> pos B -> pos (MH 1 1 a) -> pos (MH m n c) ->
  cost (MH 1 1 a) B (MH m n c) < S f -> halts (g (a 0 0) B (MH m n c) alpha beta tA tB).
Proof.
  intros NB PB PA PC H. apply Hg; auto; [apply (pos_child 1 1 a 0 0 PA); lia|].
  child 1 1 a 0 0 Nat.lt_0_1 Nat.lt_0_1; destruct B; try destruct NB; cst.
Qed.

Lemma gemm_step_halts (A B C : matrix) : pos A -> pos B -> pos C -> cost A B C < S f ->
  halts (gemm_step Or g gn A B C alpha beta tA tB).
Proof.
  intros PA PB PC H. unfold gemm_step. ha. ha. ha. clear H0 H1 H2.
  destruct A as [a|a|am an a|r1 c1]; destruct B as [b|b|bm bn b|r2 c2]; destruct C as [c|c|m n c|r3 c3]; try discriminate;
    try solve [repeat (hb; [try apply dd_mul_halts; try apply dd_gemm_halts; try apply compress_halts; try apply lr_lr_mid_halts|]);
      try apply halts_Ok; try apply acc_lr_halts; try apply acc_h_halts];
    try solve [apply xhd; simpl; auto]; try solve [apply hxd; simpl; auto].
  - (* D D H *)
    destruct (_ && _) eqn:Q; [discriminate|]. apply not_one_one in Q. pose proof PC as [P1 [P2 _]].
    destruct (Nat.eqb_spec n 1).
    + hb; [apply split_halts|]. destruct (split_MD _ _ _ _ E) as [x [-> [X1 [X2 [X3 X4]]]]].
      apply Hg; auto; [apply pos_split; auto; destruct tA; lia|]. rewrite X4 in X3 by (destruct tA; lia).
      assert (zw (MH (if tA then 1 else m) (if tA then m else 1) x) = 4) by (apply X4; destruct tA; lia). cst.
    + destruct (Nat.eqb_spec m 1).
      * hb; [apply split_halts|]. destruct (split_MD _ _ _ _ E) as [x [-> [X1 [X2 [X3 X4]]]]].
        apply Hg; auto; [apply pos_split; auto; destruct tB; lia|].
        assert (zw (MH (if tB then n else 1) (if tB then 1 else n) x) = 4) by (apply X4; destruct tB; lia). cst.
      * hb; [apply split_halts|]. destruct (split_MD _ _ _ _ E) as [x [-> [X1 [X2 [X3 X4]]]]].
        hb; [apply split_halts|]. destruct (split_MD _ _ _ _ E0) as [y [-> [Y1 [Y2 [Y3 Y4]]]]].
        apply Hg; auto; [apply pos_split; auto; destruct tA; lia|apply pos_split; auto; destruct tB; lia|].
        assert (zw (MH (if tA then 1 else m) (if tA then m else 1) x) = 4) by (apply X4; destruct tA; lia).
        assert (zw (MH (if tB then n else 1) (if tB then 1 else n) y) = 4) by (apply Y4; destruct tB; lia). cst.
  - (* D H L *)
    hb; [apply split_halts|]. destruct (split_MD _ _ _ _ E) as [x [-> [X1 [X2 [X3 _]]]]].
    destruct (pos_dims tB _ _ _ PB) as [D1 D2].
    apply Hg; auto; [apply pos_split; auto; destruct tA; lia|]. cst.
  - (* D H H *)
    ha. destruct ((bm =? 1) && (bn =? 1)) eqn:Q1.
    { apply one_one in Q1. destruct Q1 as [-> ->]. apply one_b; simpl; auto. }
    destruct ((dim0 tB bm bn =? 1) && (m =? 1)) eqn:Q2; [apply vec_row; simpl; auto|].
    apply not_one_one in Q2. destruct (pos_dims tB _ _ _ PB) as [D1 D2]. pose proof PC as [P1 [P2 _]].
    hb; [apply split_halts|]. destruct (split_MD _ _ _ _ E) as [x [-> [X1 [X2 [X3 X4]]]]].
    apply Hg; auto; [apply pos_split; auto; destruct tA; lia|].
    match goal with |- cost ?X _ _ < _ => assert (zw X = 4) by (apply X4; destruct tA; lia) end. cst.
  - (* L H L *)
    hb; [apply Hn; simpl; auto; cst|]. hb; [apply to_dense_halts|apply acc_lr_halts].
  - (* L H H *)
    ha. destruct ((bm =? 1) && (bn =? 1)) eqn:Q1.
    { apply one_one in Q1. destruct Q1 as [-> ->]. apply one_b; simpl; auto. }
    destruct ((dim0 tB bm bn =? 1) && (m =? 1)) eqn:Q2; [apply vec_row; simpl; auto|].
    hb; [apply Hn; simpl; auto; cst|]. hb; [apply to_dense_halts|apply acc_h_halts].
  - (* H D L *)
    hb; [apply split_halts|]. destruct (split_MD _ _ _ _ E) as [x [-> [X1 [X2 [X3 _]]]]].
    destruct (pos_dims tA _ _ _ PA) as [D1 D2].
    apply Hg; auto; [apply pos_split; auto; destruct tB; lia|]. cst.
  - (* H D H *)
    destruct ((am =? 1) && (an =? 1)) eqn:Q1.
    { apply one_one in Q1. destruct Q1 as [-> ->]. apply one_a; simpl; auto. }
    destruct ((dim1 tA am an =? 1) && (n =? 1)) eqn:Q2; [apply vec_col; simpl; auto|].
    apply not_one_one in Q2. destruct (pos_dims tA _ _ _ PA) as [D1 D2]. pose proof PC as [P1 [P2 _]].
    hb; [apply split_halts|]. destruct (split_MD _ _ _ _ E) as [x [-> [X1 [X2 [X3 X4]]]]].
    apply Hg; auto; [apply pos_split; auto; destruct tB; lia|].
    match goal with |- cost _ ?X _ < _ => assert (zw X = 4) by (apply X4; destruct tB; lia) end. cst.
  - (* H L L *)
    hb; [apply Hn; simpl; auto; cst|]. hb; [apply to_dense_halts|apply acc_lr_halts].
  - (* H L H *)
    destruct ((am =? 1) && (an =? 1)) eqn:Q1.
    { apply one_one in Q1. destruct Q1 as [-> ->]. apply one_a; simpl; auto. }
    destruct ((dim1 tA am an =? 1) && (n =? 1)) eqn:Q2; [apply vec_col; simpl; auto|].
    hb; [apply Hn; simpl; auto; cst|]. hb; [apply to_dense_halts|apply acc_h_halts].
  - (* H H D *)
    ha. apply Nat.eqb_eq in H0. destruct (_ && _) eqn:Q.
    + apply (halts_loop _ _ (fun _ X => exists d, X = MD d)); [eauto|]. intros i X Hi [d ->]. split.
      * hb; [apply hvec_halts|]. hb; [apply hvec_halts|].
        apply hvec_in in E, E0. destruct E as [x [y [-> [X Y]]]]. destruct E0 as [v [w [-> [V W]]]].
        apply Hg; [eapply pos_child; eauto|eapply pos_child; eauto|exact I|].
        child am an a x y X Y; child bm bn b v w V W; cst.
      * intros s' E. bok E. bok E. apply Kg in E. destruct s'; try destruct E. eauto.
    + apply not_one_one in Q. destruct (pos_dims tA _ _ _ PA) as [D1 D2]. destruct (pos_dims tB _ _ _ PB) as [D3 D4].
      apply (into_views_stops f); auto. intros CH [x ->] Z1 Z2 Z3. specialize (Z3 Q). cst.
  - (* H H L *)
    destruct (use_eps c).
    + hb; [apply densify_halts|]. hb; [apply Hg; simpl; auto; cst|]. hb; [apply to_dense_halts|].
      hb; [apply (oh_eps _ HO)|apply halts_Ok].
    + hb; [apply Hn; auto; cst|]. hb; [apply crank_h_halts|apply acc_lr_halts].
  - (* H H H *)
    ha. ha. ha. apply Nat.eqb_eq in H0, H1, H2. subst m n. hb; [|apply halts_Ok].
    apply halts_collect. intros i j Hi Hj. apply (halts_loop _ _ (fun _ X => skel (c i j) X)); [apply skel_refl|].
    intros k X Hk SX. split; [|intros s' E; eapply skel_trans; [exact SX|eapply Kg; exact E]].
    destruct (opb_in tA am an a i k Hi Hk) as [x [y [-> [X1 X2]]]]. rewrite H1 in Hk.
    destruct (opb_in tB bm bn b k j Hk Hj) as [v [w [-> [V W]]]].
    pose proof (pos_child _ _ _ _ _ PC Hi Hj) as Pc.
    apply Hg; [eapply pos_child; eauto|eapply pos_child; eauto|eapply skel_pos; eauto|].
    rewrite (cost_skel _ _ _ _ SX).
    child am an a x y X1 X2; child bm bn b v w V W; child (dim0 tA am an) (dim1 tB bm bn) c i j Hi Hj; cst.
Qed.

Lemma new_step_halts (A B : matrix) : pos A -> pos B -> cost_new A B < S f -> halts (new_step g gn A B alpha tA tB).
Proof.
  intros PA PB H. unfold new_step. ha.
  destruct A as [a|a|am an a|r1 c1]; destruct B as [b|b|bm bn b|r2 c2];
    try solve [apply Hg; simpl; auto; cst].
  destruct (_ && _); [apply Hg; simpl; auto; cst|]. hb; [|apply halts_Ok].
  destruct (pos_dims tA _ _ _ PA) as [D1 D2]. destruct (pos_dims tB _ _ _ PB) as [D3 D4].
  apply halts_collect. intros i j Hi Hj.
  destruct (opb_in tA am an a i 0 Hi D2) as [x [y [Ex [X1 X2]]]].
  destruct (opb_in tB bm bn b 0 j D3 Hj) as [v [w [Ev [V W]]]]. rewrite Ex, Ev.
  assert (Px : pos (a x y)) by (eapply pos_child; eauto). assert (Pv : pos (b v w)) by (eapply pos_child; eauto).
  hb.
  - apply Hn; auto. child am an a x y X1 X2; child bm bn b v w V W; cst.
  - destruct (Fn _ _ _ _ _ _ Px Pv E) as [Pc [Dc Ic]].
    apply (halts_loop _ _ (fun _ X => skel a0 X)); [apply skel_refl|]. intros k X Hk SX.
    split; [|intros s' Q; apply assert_Ok in Q; destruct Q as [_ Q]; eapply skel_trans; [exact SX|eapply Kg; exact Q]].
    ha. apply Nat.ltb_lt in H1.
    destruct (opb_in tA am an a i (S k) Hi ltac:(lia)) as [x' [y' [-> [X1' X2']]]].
    destruct (opb_in tB bm bn b (S k) j H1 Hj) as [v' [w' [-> [V' W']]]].
    apply Hg; [eapply pos_child; eauto|eapply pos_child; eauto|eapply skel_pos; eauto|].
    rewrite (cost_skel _ _ _ _ SX).
    destruct (deep_child am an a x y X1 X2) as [K|[K [_ [_ [d Ed]]]]].
    2: { rewrite Ed in Ic. specialize (Ic (or_introl eq_refl)). destruct a0; try discriminate Ic.
         child am an a x' y' X1' X2'; child bm bn b v' w' V' W'; cst. }
    destruct (deep_child bm bn b v w V W) as [K'|[K' [_ [_ [d Ed]]]]].
    2: { rewrite Ed in Ic. specialize (Ic (or_intror eq_refl)). destruct a0; try discriminate Ic.
         child am an a x' y' X1' X2'; child bm bn b v' w' V' W'; cst. }
    child am an a x' y' X1' X2'; child bm bn b v' w' V' W'; cst.
Qed.
End Step.

Lemma gemm_stops fuel : stops fuel (gemm Or fuel) /\ stops_new fuel (gemm_new Or fuel).
Proof.
  induction fuel as [|f [IH1 IH2]].
  - split; [intros A B C alpha beta tA tB _ _ _ H|intros A B alpha tA tB _ _ H]; lia.
  - split.
    + intros A B C alpha beta tA tB PA PB PC H. unfold gemm. cbn [gemm_pair fst].
      apply (gemm_step_halts f); auto. apply gemm_skel.
    + intros A B alpha tA tB PA PB H. unfold gemm_new. cbn [gemm_pair snd].
      apply (new_step_halts f); auto. apply gemm_skel. apply gemm_new_flat.
Qed.

End Term.
