(** Programs over MatrixProxy objects compute with values. *)
From Coq Require Import List Arith ZArith QArith Lia Bool.
From Verif Require Import Prelude Osim Ring MatFun Matrix MatOps MatOpsProofs Heap HeapProofs Tree TreeProofs Proxy.
Import ListNotations.
Local Open Scope nat_scope.

Section Proofs.
Context {R : cring}.
Notation heap := (heap R).
Notation matrix := (matrix R).
Implicit Types (h : heap) (d : hdense) (T : htree) (M : option matrix) (p : path).

(** An object and its value. *)
Definition vrel h T (m : matrix) : Prop := tgood h T /\ separate T /\ mateq (tread h T) m.
Definition orel h T M : Prop := match M with None => T = TN | Some m => vrel h T m end.

(** All objects have their values and share nothing. *)
Definition srel h (ts : list htree) (ms : list (option matrix)) : Prop :=
  length ts = length ms /\
  (forall k T M, nth_error ts k = Some T -> nth_error ms k = Some M -> orel h T M) /\
  (forall k l T T', k <> l -> nth_error ts k = Some T -> nth_error ts l = Some T' -> tapart T T').

Lemma vobj_sim h ts ms k : srel h ts ms -> osim (orel h) (vobj ts k) (vobj ms k).
Proof.
  intros [L [H _]]. unfold vobj. destruct (nth_error ts k) as [T|] eqn:E1; destruct (nth_error ms k) as [M|] eqn:E2; simpl; eauto.
  - apply nth_error_None in E2. assert (k < length ts) by (apply nth_error_Some; congruence). lia.
  - apply nth_error_None in E1. assert (k < length ms) by (apply nth_error_Some; congruence). lia.
Qed.
Lemma vobj_nth {A} (ts : list A) k x : vobj ts k = Ok x -> nth_error ts k = Some x.
Proof. unfold vobj. destruct (nth_error ts k); congruence. Qed.

Lemma block_rel h m n f m' n' g i j : vrel h (TH m n f) (MH m' n' g) -> i < m -> j < n -> vrel h (f i j) (g i j).
Proof.
  intros [G [[S1 S2] [E1 [E2 E]]]] Hi Hj. subst. split; [|split]; auto.
Qed.

Lemma tget_sim h p : forall T M, orel h T M ->
  osim (fun B b => vrel h B b /\ (forall d, tleaf B d -> tleaf T d)) (tget T p) (mget M p).
Proof.
  induction p as [|[i j] p IH]; intros T M H.
  - destruct M as [M|]; simpl in H |- *; [|subst; exact I]. destruct T; try (simpl; split; [exact H|auto]; fail).
    destruct H as [[] _].
  - destruct M as [M|]; simpl in H |- *; [|subst; exact I].
    pose proof H as [G [SP E]]. destruct T as [e|l|m n f|r c|], M as [e'|l'|m' n' g|r' c']; simpl in E; try tauto; try exact I.
    destruct E as [<- [<- E]].
    apply osim_assert; auto. intros Hi. apply osim_assert; auto. intros Hj. apply Nat.ltb_lt in Hi, Hj.
    eapply osim_weaken; [apply IH; exact (block_rel _ _ _ _ _ _ _ _ _ H Hi Hj)|].
    simpl. intros B b [HB L]. split; auto. intros d Hd. exists i, j. auto.
Qed.

(** Replacing a part. *)
Lemma tput_sim h p X x : vrel h X x -> forall T M, orel h T M -> tapart T X ->
  osim (fun T' m' => vrel h T' m' /\ (forall d, tleaf T' d -> tleaf T d \/ tleaf X d)) (tput T p X) (mput M p x).
Proof.
  intros HX. induction p as [|[i j] p IH]; intros T M H AP.
  - destruct M; simpl; split; auto.
  - destruct M as [M|]; simpl in H |- *; [|subst; exact I].
    pose proof H as [G [SP E]]. destruct T as [e|l|m n f|r c|], M as [e'|l'|m' n' g|r' c']; simpl in E; try tauto; try exact I.
    destruct E as [<- [<- E]].
    apply osim_assert; auto. intros Hi. apply osim_assert; auto. intros Hj. apply Nat.ltb_lt in Hi, Hj.
    eapply osim_bind; [apply IH; [exact (block_rel _ _ _ _ _ _ _ _ _ H Hi Hj)|]|].
    { intros b k C. apply AP. apply tcell_TH. eauto. }
    simpl. intros T' m' _ _ [[G' [S' E']] L]. destruct SP as [SP1 SP2].
    assert (APX : forall i' j', i' < m -> j' < n -> (i', j') <> (i, j) -> tapart T' (f i' j')).
    { intros i' j' Hi' Hj' NE b k [d [Ld C]] C2. destruct (L d Ld) as [Ld'|Ld'].
      - apply (SP2 i j i' j') with (b := b) (k := k); auto. exists d; auto.
      - apply (AP b k); [apply tcell_TH; eauto|exists d; auto]. }
    split; [split; [|split; [split|]]|].
    + simpl. intros i' j' Hi' Hj'. unfold put. destruct ((i' =? i) && (j' =? j)); auto; apply G; auto.
    + intros i' j' Hi' Hj'. unfold put. destruct ((i' =? i) && (j' =? j)); auto.
    + intros i1 j1 i2 j2 H1 H2 H3 H4 NE.
      unfold put. destruct ((i1 =? i) && (j1 =? j)) eqn:E1; destruct ((i2 =? i) && (j2 =? j)) eqn:E2; auto.
      * apply andb_prop in E1, E2. destruct E1, E2. rewrite !Nat.eqb_eq in *. subst. congruence.
      * apply APX; auto. intros EE. inversion EE; subst. rewrite !Nat.eqb_refl in E2. discriminate.
      * apply tapart_sym, APX; auto. intros EE. inversion EE; subst. rewrite !Nat.eqb_refl in E1. discriminate.
    + simpl. split; auto. split; auto. intros i' j' Hi' Hj'. unfold put. destruct ((i' =? i) && (j' =? j)); auto.
    + intros d [i' [j' [Hi' [Hj' Ld]]]]. unfold put in Ld. destruct ((i' =? i) && (j' =? j)); [|left; exists i', j'; auto].
      destruct (L d Ld) as [|]; [left; exists i, j|right]; auto.
Qed.

(** Writing an element of a part. *)
Lemma dset_sim h d a i j v : good h d -> deq (dread h d) a ->
  osim (fun h' a' => frame h h' d /\ deq (dread h' d) a') (h_set h d i j v) (dset a i j v).
Proof.
  intros G [E1 [E2 E3]]. simpl in *. destruct (h_set h d i j v) as [h'| | | |] eqn:ES; unfold dset; rewrite <- E1, <- E2.
  - destruct (h_set_entries _ _ _ _ _ _ G ES) as [Hi [Hj [H1 [H2 H3]]]].
    pose proof Hi as Hi'. pose proof Hj as Hj'. apply Nat.ltb_lt in Hi', Hj'. rewrite Hi', Hj'. simpl.
    split; [split; auto|]. split; [auto|]. split; [auto|]. intros a1 b1 Ha Hb. simpl in *.
    unfold hent in H2. rewrite H2 by auto. unfold put. destruct ((a1 =? i) && (b1 =? j)); auto.
  - revert ES. unfold h_set. destruct (i <? h_r d); [|discriminate]. destruct (j <? h_c d); [|discriminate].
    unfold poke. destruct (nth_error (h_bufs h) (h_buf d)); [|discriminate]. destruct (_ <? _); discriminate.
  - revert ES. unfold h_set. destruct (i <? h_r d); [|simpl; auto]. destruct (j <? h_c d); [|simpl; auto].
    unfold poke. destruct (nth_error (h_bufs h) (h_buf d)); [|discriminate]. destruct (_ <? _); discriminate.
  - revert ES. unfold h_set. destruct (Nat.ltb_spec i (h_r d)); [|discriminate]. destruct (Nat.ltb_spec j (h_c d)); [|discriminate].
    destruct (poke_spec h (h_buf d) (addr d i j) v) as [h' [-> _]]; [apply good_addr; auto|]. discriminate.
  - revert ES. unfold h_set. destruct (i <? h_r d); [|discriminate]. destruct (j <? h_c d); [|discriminate].
    unfold poke. destruct (nth_error (h_bufs h) (h_buf d)); [|discriminate]. destruct (_ <? _); discriminate.
Qed.

Lemma frame_deq h h' d e a : frame h h' d -> good h e -> apart e d -> deq (dread h e) a -> deq (dread h' e) a.
Proof. intros F G AP H. eapply deq_trans; [|exact H]. eapply tfr_read; eauto. apply frame_tfr; eauto. Qed.

Lemma tset_sim h B b w i j v : vrel h B b ->
  osim (fun hd b' => tleaf B (snd hd) /\ frame h (fst hd) (snd hd) /\ mateq (tread (fst hd) B) b')
       (let* d := tcomp B w in let* h' := h_set h d i j v in Ok (h', d)) (mset b w i j v).
Proof.
  intros [G [SP E]]. destruct B as [e|l|m n f|r c|], b as [e'|l'|m' n' g|r' c']; simpl in E; try tauto;
    try (destruct w; exact I).
  - destruct w; try exact I. simpl. eapply osim_bind; [apply dset_sim; eauto|]. simpl. intros h' a' _ _ [F D]. auto.
  - destruct G as [G1 [G2 G3]]. destruct SP as [A1 [A2 A3]]. destruct E as [E1 [E2 [E3 [E4 [E5 [E6 E7]]]]]]. simpl in *.
    destruct w; try exact I; simpl; (eapply osim_bind; [apply dset_sim; eauto|]); simpl; intros h' a' _ _ [F D];
      (split; [auto|]); (split; [auto|]); unfold leq; simpl; repeat (split; [assumption|]);
      (split; [|split]); auto; eapply frame_deq; eauto using apart_sym.
Qed.

Lemma mput_written h h' d p : forall T M B b b', orel h T M -> tget T p = Ok B -> mget M p = Ok b -> tleaf B d ->
  frame h h' d -> mateq (tread h' B) b' -> exists m', mput M p b' = Ok m' /\ mateq (tread h' T) m'.
Proof.
  induction p as [|[i j] p IH]; intros T M B b b' H E1 E2 L F D.
  - assert (T = B) by (simpl in E1; destruct T; congruence). subst. exists b'. split; [destruct M; reflexivity|auto].
  - destruct M as [M|]; simpl in H, E2; [|discriminate].
    pose proof H as [G [SP E]]. destruct T as [e|l|m n f|r c|], M as [e'|l'|m' n' g|r' c']; simpl in E; try tauto; try discriminate.
    destruct E as [<- [<- E]]. cbn [tget] in E1. cbn [mput].
    destruct (Nat.ltb_spec i m); [|discriminate]. destruct (Nat.ltb_spec j n); [|discriminate].
    destruct (IH (f i j) (Some (g i j)) B b b') as [m' [E3 E4]]; auto.
    { exact (block_rel _ _ _ _ _ _ _ _ _ H H0 H1). }
    rewrite E3. simpl bind. eexists. split; [reflexivity|]. simpl. split; auto. split; auto.
    intros i' j' Hi' Hj'. unfold put. destruct ((i' =? i) && (j' =? j)) eqn:EQ.
    + apply andb_prop in EQ. destruct EQ as [Q1 Q2]. apply Nat.eqb_eq in Q1, Q2. subst. auto.
    + eapply mateq_trans; [|apply E; auto]. eapply tfr_tread; [apply frame_tfr; eauto|apply G; auto|].
      intros x k C1 C2.
      assert (LB : tleaf (f i j) d).
      { pose proof (tget_sim h p (f i j) (Some (g i j)) (block_rel _ _ _ _ _ _ _ _ _ H H0 H1)) as TG.
        rewrite E1 in TG. destruct (mget (Some (g i j)) p); try destruct TG. auto. }
      apply (proj2 SP i' j' i j) with (b := x) (k := k); auto; [|exists d; auto].
      intros EE. inversion EE; subst. rewrite !Nat.eqb_refl in EQ. discriminate.
Qed.

(** ** States *)

Lemma orel_extends h h' T M : extends h h' -> orel h T M -> orel h' T M.
Proof.
  intros X. destruct M as [m|]; simpl; auto. intros [G [SP E]]. split; [eapply tgood_extends; eauto|]. split; auto.
  eapply mateq_trans; [apply tread_extends; eauto|auto].
Qed.
Lemma srel_extends h h' ts ms : extends h h' -> srel h ts ms -> srel h' ts ms.
Proof. intros X [L [H A]]. split; auto. split; auto. intros. eapply orel_extends; eauto. Qed.

Lemma nth_snoc {A} (l : list A) a k x : nth_error (l ++ [a]) k = Some x ->
  (k < length l /\ nth_error l k = Some x) \/ (k = length l /\ x = a).
Proof.
  intros H. destruct (le_lt_dec (length l) k).
  - right. rewrite nth_error_app2 in H by auto. destruct (k - length l) as [|q] eqn:E; simpl in H; [|destruct q; discriminate].
    split; [lia|congruence].
  - left. rewrite nth_error_app1 in H by auto. auto.
Qed.

(** A further object sharing nothing with the others. *)
Lemma srel_snoc h ts ms T M : srel h ts ms -> orel h T M ->
  (forall k T', nth_error ts k = Some T' -> tapart T' T) -> srel h (ts ++ [T]) (ms ++ [M]).
Proof.
  intros [L [H A]] HO HA. split; [rewrite !app_length; simpl; lia|]. split.
  - intros k T' M' E1 E2. apply nth_snoc in E1. apply nth_snoc in E2.
    destruct E1 as [[K1 E1]|[K1 E1]]; destruct E2 as [[K2 E2]|[K2 E2]]; try lia; eauto. subst. auto.
  - intros k l T1 T2 NE E1 E2. apply nth_snoc in E1. apply nth_snoc in E2.
    destruct E1 as [[K1 E1]|[K1 E1]]; destruct E2 as [[K2 E2]|[K2 E2]]; try lia; eauto.
    + subst. eauto.
    + subst. apply tapart_sym. eauto.
Qed.

Lemma orel_cells h T M b k : orel h T M -> tcell T b k -> b < nbufs h.
Proof. destruct M; simpl; [intros [G _]; apply tgood_cell; auto|]. intros -> [d [[] _]]. Qed.

Lemma srel_nth h ts ms k T : srel h ts ms -> nth_error ts k = Some T -> exists M, nth_error ms k = Some M /\ orel h T M.
Proof.
  intros [L [H _]] E. assert (k < length ts) by (apply nth_error_Some; congruence).
  destruct (nth_error ms k) as [M|] eqn:EM; [|apply nth_error_None in EM; lia]. eauto.
Qed.

Lemma srel_fresh h h' ts ms T m : srel h ts ms -> fresh h h' T m -> srel h' (ts ++ [T]) (ms ++ [Some m]).
Proof.
  intros H [X [G [Y [SP E]]]]. apply srel_snoc; [eapply srel_extends; eauto|split; auto|].
  intros k T' E1 b c C1 C2. destruct (srel_nth _ _ _ _ _ H E1) as [M' [_ HO]].
  pose proof (orel_cells _ _ _ _ _ HO C1). pose proof (young_cell _ _ _ _ Y C2). lia.
Qed.

(** Replacing an object by one that has taken cells only from it and from nowhere else. *)
Lemma srel_replace h h' ts ms k T T' M' : srel h ts ms -> nth_error ts k = Some T -> orel h' T' M' ->
  (forall l S M, l <> k -> nth_error ts l = Some S -> orel h S M -> orel h' S M /\ tapart T' S) ->
  srel h' (lupd ts k T') (lupd ms k M').
Proof.
  intros HS E HT HO. pose proof HS as [L [H A]]. split; [rewrite !lupd_length; auto|].
  assert (Hk : k < length ts) by (apply nth_error_Some; congruence).
  split.
  - intros l S M E1 E2. rewrite lupd_nth in E1. rewrite lupd_nth in E2.
    destruct (Nat.eqb_spec l k) as [->|NE]; simpl in E1, E2.
    + apply Nat.ltb_lt in Hk. rewrite <- L in E2. rewrite Hk in E1, E2. congruence.
    + eapply HO; eauto.
  - intros l1 l2 T1 T2 NE E1 E2. rewrite lupd_nth in E1. rewrite lupd_nth in E2.
    assert (HO' : forall l S, l <> k -> nth_error ts l = Some S -> tapart T' S).
    { intros l S NE' ES. destruct (srel_nth _ _ _ _ _ HS ES) as [M [_ HM]]. eapply HO; eauto. }
    apply Nat.ltb_lt in Hk. rewrite Hk in E1, E2.
    destruct (Nat.eqb_spec l1 k) as [->|N1]; destruct (Nat.eqb_spec l2 k) as [->|N2]; simpl in E1, E2; try lia; eauto.
    + inversion E1; subst. eauto.
    + inversion E2; subst. apply tapart_sym. eauto.
Qed.

Lemma srel_firstn h ts ms k : srel h ts ms -> srel h (firstn k ts) (firstn k ms).
Proof.
  assert (N : forall A (l : list A) e x, nth_error (firstn k l) e = Some x -> nth_error l e = Some x).
  { intros A l e x E. rewrite <- (firstn_skipn k l). rewrite nth_error_app1; auto. apply nth_error_Some. congruence. }
  intros [L [H A]]. split; [rewrite !firstn_length; lia|]. split; eauto.
Qed.

Lemma nth_skipn {A} (l : list A) k e : nth_error (skipn k l) e = nth_error l (k + e).
Proof.
  revert l. induction k as [|k IH]; intros l; simpl; auto. destruct l; simpl; auto. destruct e; reflexivity.
Qed.

Lemma nth_firstn_lt {A} (l : list A) k e x : nth_error (firstn k l) e = Some x -> e < k /\ nth_error l e = Some x.
Proof.
  intros E. assert (e < length (firstn k l)) by (apply nth_error_Some; congruence). rewrite firstn_length in H.
  split; [lia|]. rewrite <- (firstn_skipn k l). rewrite nth_error_app1; auto. rewrite firstn_length. auto.
Qed.

(** Combining the last objects into one. *)
Lemma srel_group h ts ms k T m : srel h ts ms -> vrel h T m ->
  (forall d, tleaf T d -> exists e S, k <= e /\ nth_error ts e = Some S /\ tleaf S d) ->
  srel h (firstn k ts ++ [T]) (firstn k ms ++ [Some m]).
Proof.
  intros H HT HL. pose proof H as [_ [_ A]]. apply srel_snoc; [apply srel_firstn; auto|exact HT|].
  intros e S E. apply nth_firstn_lt in E. destruct E as [He E]. intros b c C1 [d [Ld C2]].
  destruct (HL d Ld) as [e' [S' [He' [E' LS]]]]. apply (A e e' S S') with (b := b) (k := c); auto; [lia|].
  exists d; auto.
Qed.

Lemma step_sim h ts ms (c : vcmd R) : srel h ts ms ->
  osim (fun s ms' => srel (fst s) (snd s) ms') (vstep (h, ts) c) (astep ms c).
Proof.
  intros HS. pose proof HS as [LEN [HO HA]].
  destruct c as [r c|r c| |m n|k p|k|k p l q|k p w i j v]; unfold vstep, astep.
  - destruct (h_new_makes h r c) as [h' [d [E MK]]]. rewrite E. simpl.
    eapply srel_fresh; [exact HS|]. pose proof MK as [X [G [_ [_ [B [N _]]]]]].
    split; auto. split; [exact G|]. split; [intros ? ->; lia|]. split; [exact I|].
    simpl. exact (makes_read _ _ _ _ _ _ MK).
  - simpl. eapply srel_fresh; [exact HS|]. split; [apply extends_refl|]. split; [exact I|]. split; [intros d []|]. simpl. auto.
  - cbv zeta. rewrite <- LEN. set (k := length ts - 3).
    assert (NR : forall e T, nth_error (skipn k ts) e = Some T -> exists M, nth_error (skipn k ms) e = Some M /\ orel h T M).
    { intros e T. rewrite !nth_skipn. intros E. eapply srel_nth; eauto. }
    assert (LS : length (skipn k ts) = length (skipn k ms)) by (rewrite !skipn_length; lia).
    assert (HL : forall e T, nth_error (skipn k ts) e = Some T -> nth_error ts (k + e) = Some T).
    { intros e T. rewrite nth_skipn. auto. }
    remember (skipn k ts) as us eqn:EU. remember (skipn k ms) as us' eqn:EU'.
    destruct us as [|T1 [|T2 [|T3 [|T4 us]]]]; destruct us' as [|M1 [|M2 [|M3 [|M4 us']]]]; simpl in LS; try lia; try exact I.
    + repeat match goal with |- osim _ match ?x with _ => _ end _ => destruct x | |- osim _ _ match ?x with _ => _ end => destruct x end; exact I.
    + repeat match goal with |- osim _ match ?x with _ => _ end _ => destruct x | |- osim _ _ match ?x with _ => _ end => destruct x end; exact I.
    + destruct (NR 0 T1 eq_refl) as [M [E1 R1]]. destruct (NR 1 T2 eq_refl) as [M' [E2 R2]]. destruct (NR 2 T3 eq_refl) as [M'' [E3 R3]].
      simpl in E1, E2, E3. inversion E1; subst M. inversion E2; subst M'. inversion E3; subst M''.
      destruct M1 as [[a1|a1|? ? ?|? ?]|]; simpl in R1; try (subst T1; exact I);
      try (destruct R1 as [_ [_ R1]]; destruct T1; simpl in R1; try tauto; exact I).
      destruct R1 as [G1 [_ R1]]. destruct T1 as [d1| | | |]; simpl in R1; try tauto.
      destruct M2 as [[a2|a2|? ? ?|? ?]|]; simpl in R2; try (subst T2; exact I);
      try (destruct R2 as [_ [_ R2]]; destruct T2; simpl in R2; try tauto; exact I).
      destruct R2 as [G2 [_ R2]]. destruct T2 as [d2| | | |]; simpl in R2; try tauto.
      destruct M3 as [[a3|a3|? ? ?|? ?]|]; simpl in R3; try (subst T3; exact I);
      try (destruct R3 as [_ [_ R3]]; destruct T3; simpl in R3; try tauto; exact I).
      destruct R3 as [G3 [_ R3]]. destruct T3 as [d3| | | |]; simpl in R3; try tauto.
      simpl. apply srel_group; auto.
      * split; [simpl; unfold lgood; auto|]. split.
        -- assert (AP : forall x y dx dy, x <> y -> nth_error [TD d1; TD d2; TD d3] x = Some (TD dx) -> nth_error [TD d1; TD d2; TD d3] y = Some (TD dy) -> apart dx dy).
           { intros x y dx dy NE X1 X2. eapply tapart_leaf; [eapply (HA (k + x) (k + y)); eauto; lia| |]; simpl; auto. }
           simpl. unfold lsep. simpl. split; [apply (AP 1 0); auto|]. split; [apply (AP 1 2); auto|apply (AP 0 2); auto].
        -- simpl. unfold leq. simpl. destruct R1 as [R11 [R12 R13]], R2 as [R21 [R22 R23]], R3 as [R31 [R32 R33]]. simpl in *.
           repeat match goal with |- _ = _ /\ _ => split; [auto|] end. unfold deq. simpl. auto 12.
      * simpl. intros d [->|[->| ->]]; [exists (k + 0)|exists (k + 1)|exists (k + 2)]; eexists; (split; [lia|]); (split; [apply HL; reflexivity|]); simpl; auto.
    + repeat match goal with |- osim _ match ?x with _ => _ end _ => destruct x | |- osim _ _ match ?x with _ => _ end => destruct x end; exact I.
  - cbv zeta. rewrite <- LEN. set (k := length ts - m * n). apply osim_if; [reflexivity|exact (fun _ => I)|]. intros HL. apply Nat.ltb_ge in HL.
    assert (NR : forall e T, nth_error (skipn k ts) e = Some T -> exists M, nth_error (skipn k ms) e = Some M /\ orel h T M).
    { intros e T. rewrite !nth_skipn. intros E. eapply srel_nth; eauto. }
    assert (LS : length (skipn k ts) = length (skipn k ms)) by (rewrite !skipn_length; lia).
    assert (EX : existsb null (skipn k ts) = existsb nothing (skipn k ms)).
    { revert LS NR. generalize (skipn k ts) (skipn k ms). induction l as [|T l IH]; intros [|M l']; simpl; try lia; auto.
      intros LS NR. rewrite (IH l'); [|lia|intros e T' E; apply (NR (S e) T'); auto].
      f_equal. destruct (NR 0 T eq_refl) as [M' [E1 R1]]. simpl in E1. inversion E1; subst M'.
      destruct M as [M|]; simpl in R1; [|subst; auto]. destruct R1 as [G _]. destruct T; simpl; auto. destruct G. }
    apply osim_if; [exact EX|exact (fun _ => I)|]. intros NN. simpl.
    assert (HB : forall i j, i < m -> j < n -> exists T (M : matrix), nth_error (skipn k ts) (i * n + j) = Some T /\
               nth_error (skipn k ms) (i * n + j) = Some (Some M) /\ vrel h T M).
    { intros i j Hi Hj. assert (Hlt : i * n + j < m * n) by nia.
      destruct (nth_error (skipn k ts) (i * n + j)) as [T|] eqn:ET; [|apply nth_error_None in ET; rewrite skipn_length in ET; lia].
      destruct (NR _ _ ET) as [[M|] [EM RM]].
      - exists T, M. auto.
      - exfalso. simpl in RM. subst T. rewrite <- not_true_iff_false in NN. apply NN. apply existsb_exists. exists TN.
        split; auto. eapply nth_error_In; eauto. }
    apply srel_group; auto.
    + assert (NE : forall i j T, nth_error (skipn k ts) (i * n + j) = Some T -> nth (i * n + j) (skipn k ts) TN = T) by (intros; apply nth_error_nth; auto).
      split; [|split; [split|]].
      * simpl. intros i j Hi Hj. destruct (HB i j Hi Hj) as [T [M [E1 [E2 [G _]]]]]. rewrite (NE _ _ _ E1). auto.
      * intros i j Hi Hj. destruct (HB i j Hi Hj) as [T [M [E1 [E2 [_ [SP _]]]]]]. rewrite (NE _ _ _ E1). auto.
      * intros i j i' j' Hi Hj Hi' Hj' NEQ. destruct (HB i j Hi Hj) as [T [M [E1 _]]]. destruct (HB i' j' Hi' Hj') as [T' [M' [E1' _]]].
        rewrite (NE _ _ _ E1), (NE _ _ _ E1'). rewrite nth_skipn in E1, E1'.
        apply (HA _ _ _ _) with (2 := E1) (3 := E1').
        intros EQ. apply NEQ. assert (i = i') by nia. subst. f_equal. lia.
      * simpl. split; auto. split; auto. intros i j Hi Hj. destruct (HB i j Hi Hj) as [T [M [E1 [E2 [_ [_ E]]]]]].
        rewrite (NE _ _ _ E1). rewrite (nth_error_nth _ _ None E2). simpl. auto.
    + intros d [i [j [Hi [Hj Ld]]]]. destruct (HB i j Hi Hj) as [T [M [E1 _]]]. rewrite (nth_error_nth _ _ TN E1) in Ld.
      exists (k + (i * n + j)), T. split; [lia|]. split; auto. rewrite <- nth_skipn. auto.
  - eapply osim_bind; [apply vobj_sim; exact HS|]. intros T M E1 E2 RO.
    eapply osim_bind; [apply tget_sim; exact RO|]. intros B b E3 E4 [[G [SP E]] L].
    destruct (clone_spec B h G) as [h' [X [EC F]]]. rewrite EC. simpl.
    eapply srel_fresh; [exact HS|]. eapply fresh_from; eauto.
  - eapply osim_bind; [apply vobj_sim; exact HS|]. intros T M E1 E2 RO. simpl.
    apply vobj_nth in E1. apply srel_snoc; auto.
    + eapply srel_replace; eauto; [reflexivity|]. intros l S M' NE ES RS. split; auto. intros b c [d [[] _]].
    + intros l T' EL. rewrite lupd_nth in EL.
      destruct (Nat.eqb_spec l k) as [->|NE]; simpl in EL; [|eauto].
      assert (Hk : k < length ts) by (apply nth_error_Some; congruence). apply Nat.ltb_lt in Hk. rewrite Hk in EL. inversion EL; subst.
      intros b c [d [[] _]].
  - eapply osim_bind; [apply vobj_sim; exact HS|]. intros T M E1 E2 RO.
    eapply osim_bind; [apply vobj_sim; exact HS|]. intros T1 M1 E3 E4 RO1.
    eapply osim_bind; [apply tget_sim; exact RO1|]. intros B b E5 E6 [[G [SP E]] L].
    destruct (clone_spec B h G) as [h' [X [EC F]]]. rewrite EC. simpl bind.
    pose proof F as [EXT [GX [YX [SPX EQX]]]].
    assert (RT : orel h' T M) by (eapply orel_extends; eauto).
    assert (APX : forall S N, orel h S N -> tapart S X).
    { intros S N RS b0 c C1 C2. pose proof (orel_cells _ _ _ _ _ RS C1). pose proof (young_cell _ _ _ _ YX C2). lia. }
    assert (VX : vrel h' X b) by (split; [auto|split; auto]; eapply mateq_trans; eauto).
    pose proof (tput_sim h' p X b VX T M RT (APX _ _ RO)) as TP.
    assert (CHK : osim (fun _ _ => True) (tput T p TN) (tput T p X)).
    { clear. revert T. induction p as [|[i j] p IH]; intros T; simpl; auto. destruct T; simpl; auto.
      destruct (i <? m); simpl; auto. destruct (j <? n); simpl; auto. eapply osim_bind; [apply IH|]. simpl; auto. }
    destruct (tput T p TN) as [T0| | | |]; destruct (tput T p X) as [T'| | | |] eqn:ET; simpl in CHK; try tauto;
      destruct (mput M p b) as [m'| | | |] eqn:EM; simpl in TP; try tauto; try exact I.
    simpl. destruct TP as [VT LT]. apply vobj_nth in E1. eapply srel_replace; eauto.
    intros l0 S N NE ES RS. split; [eapply orel_extends; eauto|].
    intros b0 c [d [Ld C]] C2. destruct (LT d Ld) as [LL|LL].
    + apply (HA k l0 T S) with (b := b0) (k := c); auto. exists d; auto.
    + apply (APX S N RS b0 c); auto. exists d; auto.
  - eapply osim_bind; [apply vobj_sim; exact HS|]. intros T M E1 E2 RO.
    eapply osim_bind; [apply tget_sim; exact RO|]. intros B b E5 E6 [VB L].
    pose proof (tset_sim h B b w i j v VB) as TS.
    destruct (tcomp B w) as [d| | | |] eqn:ED; simpl in TS |- *;
      [|destruct (mset b w i j v); simpl in *; tauto..].
    destruct (h_set h d i j v) as [h'| | | |] eqn:ES; simpl in TS |- *;
      destruct (mset b w i j v) as [b'| | | |] eqn:EMS; simpl in TS |- *; try tauto.
    destruct TS as [Ld [FR EB]].
    destruct (mput_written h h' d p T M B b b' RO E5 E6 Ld FR EB) as [m' [EP EQ]]. rewrite EP. simpl.
    apply vobj_nth in E1.
    assert (SAME : lupd ts k T = ts).
    { clear - E1. revert k E1. induction ts as [|a ts IH]; intros [|k] E; simpl in *; try discriminate; [congruence|]. f_equal. auto. }
    rewrite <- SAME. eapply srel_replace; eauto.
    + destruct M as [M|]; [|exfalso; clear - E6; destruct p as [|[? ?] ?]; simpl in E6; discriminate]. destruct RO as [G [SP _]].
      split; [eapply tfr_tgood; eauto; apply frame_tfr; eauto|]. split; auto.
    + intros l S N NE ES' RS. split; [|eauto].
      destruct N as [N|]; simpl in RS |- *; auto. destruct RS as [G [SP E]].
      split; [eapply tfr_tgood; eauto; apply frame_tfr; eauto|]. split; auto.
      eapply mateq_trans; [|exact E]. eapply tfr_tread; [apply frame_tfr; eauto|auto|].
      intros b0 c C1 C2. apply (HA k l T S) with (b := b0) (k := c); auto. exists d; auto.
Qed.

Lemma run_sim (cs : list (vcmd R)) : forall h ts ms, srel h ts ms ->
  osim (fun s ms' => srel (fst s) (snd s) ms') (vrun (h, ts) cs) (arun ms cs).
Proof.
  induction cs as [|c cs IH]; intros h ts ms HS; [exact HS|]. cbn [vrun arun].
  eapply osim_bind; [apply step_sim; exact HS|]. intros [h' ts'] ms' _ _ H. apply IH. exact H.
Qed.

Lemma init_srel : srel empty_heap [] [].
Proof. split; auto. split; intros [|k]; intros; discriminate. Qed.
End Proofs.
