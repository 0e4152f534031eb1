(** Objects over shared storage against plain values: how routines that change an object
    in place, or make a new one, follow the same routines on values. *)
From Coq Require Import List Arith ZArith QArith Lia Bool.
From Verif Require Import Prelude Osim IndexRange Ring MatFun Matrix MatOps MatOpsProofs Heap HeapProofs Tree TreeProofs.
Import ListNotations.
Local Open Scope nat_scope.

Section Proofs.
Context {R : cring}.
Notation heap := (heap R).
Notation matrix := (matrix R).
Implicit Types (h : heap) (d : hdense) (T : htree) (M : matrix).

(** At least one block in every grid; outer factors that fit. *)
Definition lr_fit (l : lowrank R) : Prop := l_r l = d_r (l_U l) /\ l_c l = d_c (l_V l).
Fixpoint mwf M : Prop :=
  match M with
  | ML l => lr_fit l
  | MH m n b => 0 < m /\ 0 < n /\ forall i j, i < m -> j < n -> mwf (b i j)
  | _ => True
  end.

(** The object [T] has the value [M]. *)
Definition sim h T M : Prop := tgood h T /\ mwf M /\ mateq (tread h T) M.

(** The same objects, except that the factors of a LowRank may have been exchanged. *)
Fixpoint keep T T' : Prop :=
  match T, T' with
  | TD d, TD d' => d = d'
  | TL _, TL _ => True
  | TH m n f, TH m' n' f' => m = m' /\ n = n' /\ forall i j, i < m -> j < n -> keep (f i j) (f' i j)
  | TE r c, TE r' c' => r = r' /\ c = c'
  | _, _ => False
  end.

(** [C] has been changed in place and has the value [M]. *)
Definition upd h C (p : heap * htree) M : Prop :=
  tfr (tcell C) h (fst p) /\ sim (fst p) (snd p) M /\ separate (snd p) /\
  (forall b k, tcell (snd p) b k -> b < nbufs h -> tcell C b k) /\ keep C (snd p).
(** A new object with value [M]. *)
Definition mk h (p : heap * htree) M : Prop :=
  tfr none h (fst p) /\ sim (fst p) (snd p) M /\ separate (snd p) /\
  (forall b k, tcell (snd p) b k -> nbufs h <= b).

Lemma mateq_wf M : forall M', mateq M M' -> mwf M' -> mwf M.
Proof.
  induction M as [a|a|m n f IH|r c]; intros [b|b|m' n' g|r' c']; simpl; try tauto.
  - intros [H1 [H2 [H3 [H4 [[U1 [U2 _]] [[D1 [D2 _]] [V1 [V2 _]]]]]]]] [W1 W2]. split; congruence.
  - intros [-> [-> H]] [P1 [P2 W]]. split; auto. split; auto. intros i j Hi Hj. eapply IH; eauto.
Qed.
Lemma mateq_rows M : forall M', mateq M M' -> mwf M' -> nrows M = nrows M' /\ ncols M = ncols M'.
Proof.
  induction M as [a|a|m n f IH|r c]; intros [b|b|m' n' g|r' c']; simpl; try tauto.
  - intros [H1 [H2 _]]; auto.
  - intros [H1 [H2 _]]; auto.
  - intros [-> [-> H]] [P1 [P2 W]]. split; apply offs_ext; intros i Hi; apply IH; auto.
Qed.
Lemma tread_rows h T : nrows (tread h T) = trows T /\ ncols (tread h T) = tcols T.
Proof.
  induction T as [d|l|m n f IH|r c|]; simpl; auto.
  split; apply offs_ext; intros i Hi; apply IH.
Qed.
Lemma sim_rows h T M : sim h T M -> trows T = nrows M /\ tcols T = ncols M.
Proof.
  intros [_ [W Q]]. destruct (mateq_rows _ _ Q W) as [E1 E2]. destruct (tread_rows h T) as [E3 E4]. split; congruence.
Qed.

Lemma keep_refl h T : tgood h T -> keep T T.
Proof. induction T as [d|l|m n f IH|r c|]; simpl; auto. Qed.
Lemma keep_trans T1 : forall T2 T3, keep T1 T2 -> keep T2 T3 -> keep T1 T3.
Proof.
  induction T1 as [d|l|m n f IH|r c|]; intros [d2|l2|m2 n2 f2|r2 c2|] [d3|l3|m3 n3 f3|r3 c3|]; simpl; try tauto; try congruence.
  - intros [-> [-> H]] [-> [-> K]]. split; [auto|]. split; [auto|]. intros i j Hi Hj. eapply IH; eauto.
  - intros [-> ->]. auto.
Qed.

(** ** Moving between states of the storage *)
Lemma sim_tfr X h h' T M : tfr X h h' -> tclear X T -> sim h T M -> sim h' T M.
Proof.
  intros F C [G [W Q]]. split; [eapply tfr_tgood; eauto|]. split; auto. eapply mateq_trans; [|exact Q]. eapply tfr_tread; eauto.
Qed.
Lemma sim_none h h' T M : tfr none h h' -> sim h T M -> sim h' T M.
Proof. intros F. apply (sim_tfr none); auto. apply tclear_none. Qed.
Lemma sim_mateq h T M M' : sim h T M -> mateq M M' -> mwf M' -> sim h T M'.
Proof. intros [G [W Q]] E W'. split; auto. split; auto. eapply mateq_trans; eauto. Qed.

Lemma upd_refl h C M : sim h C M -> separate C -> upd h C (h, C) M.
Proof. intros S1 SP. split; [apply tfr_refl|]. split; auto. split; auto. split; auto. simpl. eapply keep_refl. apply S1. Qed.
Lemma upd_trans h C h1 C1 M1 p M2 : upd h C (h1, C1) M1 -> upd h1 C1 p M2 -> upd h C p M2.
Proof.
  intros [F1 [S1 [P1 [C1' K1]]]] [F2 [S2 [P2 [C2' K2]]]]. simpl in *. pose proof F1 as [N1 _].
  split; [eapply tfr_trans'; eauto|]. split; auto. split; auto. split; [intros b k H Hb; apply C1'; auto; apply C2'; auto; lia|].
  eapply keep_trans; eauto.
Qed.
(** Temporaries made before do not matter. *)
Lemma upd_from h h1 C p M : tfr none h h1 -> upd h1 C p M -> upd h C p M.
Proof.
  intros F [F2 [S2 [P2 [C2' K2]]]]. pose proof F as [N1 _]. split; [eapply tfr_trans'; eauto; intros b k _ []|].
  split; auto. split; auto. split; auto. intros b k H Hb. apply C2'; auto. lia.
Qed.
Lemma upd_other h C p M' A MA : upd h C p M' -> sim h A MA -> tapart A C -> sim (fst p) A MA /\ tapart A (snd p).
Proof.
  intros [F [S1 [P1 [C1 K1]]]] SA AP. split; [eapply sim_tfr; eauto|].
  intros b k H H'. apply (AP b k H). apply C1; auto. exact (tgood_cell _ _ _ _ (proj1 SA) H).
Qed.
Lemma mk_upd h h1 C M p M' : mk h (h1, C) M -> upd h1 C p M' -> mk h p M'.
Proof.
  intros [F [S1 [P1 Y]]] [F2 [S2 [P2 [C2 K2]]]]. simpl in *. pose proof F as [N1 _]. pose proof F2 as [N2 _].
  split; [eapply tfr_trans'; eauto; intros b k Hb H; pose proof (Y b k H); lia|]. split; auto. split; auto.
  intros b k H. destruct (le_lt_dec (nbufs h) b); auto. apply Y with (k := k). apply C2; auto. lia.
Qed.
Lemma mk_from h h1 p M : tfr none h h1 -> mk h1 p M -> mk h p M.
Proof.
  intros F [F2 [S2 [P2 Y]]]. pose proof F as [N1 _]. split; [eapply tfr_trans; eauto|]. split; auto. split; auto.
  intros b k H. pose proof (Y b k H). lia.
Qed.
Lemma mk_apart h p M A MA : mk h p M -> sim h A MA -> sim (fst p) A MA /\ tapart A (snd p).
Proof.
  intros [F [S1 [P1 Y]]] SA. split; [eapply sim_none; eauto|]. intros b k H H'.
  pose proof (tgood_cell _ _ _ _ (proj1 SA) H). pose proof (Y b k H'). lia.
Qed.

Lemma tapart_block m n f A i j : tapart A (TH m n f) -> i < m -> j < n -> tapart A (f i j).
Proof. intros H Hi Hj b k H1 H2. apply (H b k H1). apply tcell_TH. eauto. Qed.
Lemma tapart_block_l m n f A i j : tapart (TH m n f) A -> i < m -> j < n -> tapart (f i j) A.
Proof. intros H Hi Hj b k H1. apply H. apply tcell_TH. eauto. Qed.
Lemma tapart_sub A A' C : (forall b k, tcell A' b k -> tcell A b k) -> tapart A C -> tapart A' C.
Proof. intros H K b k H1. apply K. auto. Qed.
Lemma sim_block h m n f b i j : sim h (TH m n f) (MH m n b) -> i < m -> j < n -> sim h (f i j) (b i j).
Proof. intros [G [[_ [_ W]] [_ [_ Q]]]] Hi Hj. split; [apply G; auto|]. split; auto. Qed.
Lemma sim_grid h m n f b : 0 < m -> 0 < n -> (forall i j, i < m -> j < n -> sim h (f i j) (b i j)) -> sim h (TH m n f) (MH m n b).
Proof.
  intros H1 H2 H. split; [intros i j Hi Hj; apply H; auto|]. split; [split; auto; split; auto; intros i j Hi Hj; apply H; auto|].
  simpl. split; auto. split; auto. intros i j Hi Hj; apply H; auto.
Qed.

(** ** Loops over blocks *)

Fixpoint clist {A} (l : list (nat * nat)) (f : nat -> nat -> outcome A) : outcome unit :=
  match l with
  | [] => Ok tt
  | (i, j) :: t => let* _ := f i j in clist t f
  end.
Lemma bind_assoc {A B C} (x : outcome A) (f : A -> outcome B) (g : B -> outcome C) : bind (bind x f) g = bind x (fun a => bind (f a) g).
Proof. destruct x; reflexivity. Qed.
Lemma clist_app {A} (l1 l2 : list (nat * nat)) (f : nat -> nat -> outcome A) : clist (l1 ++ l2) f = let* _ := clist l1 f in clist l2 f.
Proof.
  induction l1 as [|[i j] l1 IH]; simpl; auto. destruct (f i j); simpl; auto.
Qed.
Lemma check_row {A} i n (f : nat -> nat -> outcome A) : check_ok n (f i) = clist (map (fun j => (i, j)) (seq 0 n)) f.
Proof.
  induction n as [|n IH]; auto. rewrite seq_S, map_app, clist_app. cbn [check_ok]. rewrite IH. simpl. reflexivity.
Qed.
Lemma check_rows {A} m n (f : nat -> nat -> outcome A) : check_ok m (fun i => check_ok n (f i)) = clist (ij_all m n) f.
Proof.
  unfold ij_all, ij_loop. induction m as [|m IH]; auto. rewrite seq_S, flat_map_app, clist_app. cbn [check_ok]. rewrite IH.
  cbn [flat_map]. rewrite app_nil_r, Nat.sub_0_r. rewrite check_row. simpl Nat.add.
  assert (T : forall x : outcome unit, (let* _ := x in Ok tt) = x) by (intros [[]| | | |]; reflexivity).
  rewrite T. reflexivity.
Qed.
Lemma collect_clist m n (f : nat -> nat -> outcome matrix) : collect m n f = let* _ := clist (ij_all m n) f in Ok (fun i j => get_ok (ME 0 0) (f i j)).
Proof. unfold collect. rewrite check_rows. reflexivity. Qed.

(** What a loop over blocks of a grid has done so far. *)
Definition blk h h1 T T' M : Prop :=
  sim h1 T' M /\ separate T' /\ (forall b k, tcell T' b k -> b < nbufs h -> tcell T b k) /\ keep T T'.
Definition gstate h m n (c : nat -> nat -> htree) (mc : nat -> nat -> matrix) (pf : nat -> nat -> outcome matrix)
    (done : list (nat * nat)) h1 (f1 : nat -> nat -> htree) : Prop :=
  tfr (tcell (TH m n c)) h h1 /\
  (forall i j, In (i, j) done -> i < m /\ j < n /\ exists M, pf i j = Ok M /\ blk h h1 (c i j) (f1 i j) M) /\
  (forall i j, i < m -> j < n -> ~ In (i, j) done -> f1 i j = c i j /\ sim h1 (c i j) (mc i j)) /\
  (forall i j i' j', i < m -> j < n -> i' < m -> j' < n -> (i, j) <> (i', j') -> tapart (f1 i j) (f1 i' j')).

Lemma in_dec (ij : nat * nat) (l : list (nat * nat)) : In ij l \/ ~ In ij l.
Proof. destruct (in_dec (fun a b : nat * nat => ltac:(decide equality; apply Nat.eq_dec)) ij l); auto. Qed.

Lemma glist_sim h m n c mc pf body : separate (TH m n c) ->
  forall l done h1 f1, NoDup (done ++ l) ->
  (forall i j h2, In (i, j) l -> tfr (tcell (TH m n c)) h h2 -> (i < m -> j < n -> sim h2 (c i j) (mc i j)) ->
     osim (fun p M => i < m /\ j < n /\ upd h2 (c i j) p M) (body i j h2) (pf i j)) ->
  gstate h m n c mc pf done h1 f1 ->
  osim (fun p _ => gstate h m n c mc pf (done ++ l) (fst p) (snd p)) (glist l body h1 f1) (clist l pf).
Proof.
  intros SP. induction l as [|[i j] l IH]; intros done h1 f1 ND HB GS.
  - simpl. rewrite app_nil_r. exact GS.
  - cbn [glist clist]. pose proof GS as [F1 [D1 [U1 A1]]].
    assert (NI : ~ In (i, j) done) by (intros HI; apply NoDup_remove_2 in ND; apply ND; apply in_or_app; auto).
    eapply osim_bind.
    + apply (HB i j h1); [left; auto|exact F1|]. intros Hi Hj. apply U1; auto.
    + intros [h2 x] M _ EM [Hi [Hj UP]]. simpl fst in *. simpl snd in *.
      assert (EQ : done ++ (i, j) :: l = (done ++ [(i, j)]) ++ l) by (rewrite <- app_assoc; reflexivity).
      rewrite EQ. apply IH.
      * rewrite <- EQ. exact ND.
      * intros; apply HB; auto. right; auto.
      * destruct (U1 i j Hi Hj NI) as [Ef Sc]. pose proof UP as [F2 [S2 [P2 [C2 K2]]]]. simpl in F2, S2, P2, C2, K2.
        pose proof F1 as [N1 _].
        assert (OT : forall i' j', i' < m -> j' < n -> (i', j') <> (i, j) -> tapart (f1 i' j') (c i j)).
        { intros i' j' Hi' Hj' NE. rewrite <- Ef. apply A1; auto. }
        assert (PO : forall i' j', (i', j') <> (i, j) -> put f1 i j x i' j' = f1 i' j') by (intros; apply put_other; auto).
        assert (G1 : forall i' j', i' < m -> j' < n -> tgood h1 (f1 i' j')).
        { intros i' j' Hi' Hj'. destruct (in_dec (i', j') done) as [HI|HI].
          - destruct (D1 _ _ HI) as [_ [_ [M' [_ [[G _] _]]]]]. exact G.
          - destruct (U1 i' j' Hi' Hj' HI) as [-> [G _]]. exact G. }
        split; [|split; [|split]].
        -- eapply tfr_trans'; [exact F1|exact F2|auto|]. intros b k _ H. apply tcell_TH. eauto.
        -- intros i' j' HI. apply in_app_or in HI. destruct HI as [HI|[HI|[]]].
           ++ assert (NE : (i', j') <> (i, j)) by (intros E; apply NI; rewrite <- E; auto).
              destruct (D1 _ _ HI) as [Hi' [Hj' [M' [EM' [S' [P' [C' K']]]]]]].
              split; [auto|]. split; [auto|]. exists M'. split; auto. rewrite PO by auto. split; auto.
              eapply sim_tfr; [exact F2| |exact S']. apply OT; auto.
           ++ inversion HI; subst i' j'. split; [auto|]. split; [auto|]. exists M. split; auto. rewrite put_same.
              split; auto. split; auto. split; auto. intros b k H Hb. apply C2; auto. lia.
        -- intros i' j' Hi' Hj' HI. assert (NE : (i', j') <> (i, j)) by (intros E; apply HI; rewrite E; apply in_or_app; simpl; auto).
           rewrite PO by auto. destruct (U1 i' j' Hi' Hj') as [E' S']; [intros K; apply HI; apply in_or_app; auto|].
           split; auto. eapply sim_tfr; [exact F2| |exact S']. rewrite <- E'. apply OT; auto.
        -- assert (NX : forall i' j', i' < m -> j' < n -> (i', j') <> (i, j) -> tapart (f1 i' j') x).
           { intros i' j' Hi' Hj' NE b k H H'. apply (OT i' j' Hi' Hj' NE b k H). apply C2; auto.
             eapply tgood_cell; eauto. }
           intros i1 j1 i2 j2 Hi1 Hj1 Hi2 Hj2 NE.
           destruct (Nat.eq_dec i1 i) as [->|N1']; [destruct (Nat.eq_dec j1 j) as [->|N2']|].
           ++ rewrite put_same. rewrite PO by congruence. apply tapart_sym. apply NX; auto; congruence.
           ++ rewrite (PO i j1) by congruence. destruct (Nat.eq_dec i2 i) as [->|N3]; [destruct (Nat.eq_dec j2 j) as [->|N4]|].
              ** rewrite put_same. apply NX; auto; congruence.
              ** rewrite PO by congruence. apply A1; auto.
              ** rewrite PO by congruence. apply A1; auto.
           ++ rewrite (PO i1 j1) by congruence. destruct (Nat.eq_dec i2 i) as [->|N3]; [destruct (Nat.eq_dec j2 j) as [->|N4]|].
              ** rewrite put_same. apply NX; auto; congruence.
              ** rewrite PO by congruence. apply A1; auto.
              ** rewrite PO by congruence. apply A1; auto.
Qed.

Lemma gstate_init h m n c mc pf : sim h (TH m n c) (MH m n mc) -> separate (TH m n c) -> gstate h m n c mc pf [] h c.
Proof.
  intros S1 [_ SP]. split; [apply tfr_refl|]. split; [intros i j []|]. split; [|auto].
  intros i j Hi Hj _. split; auto. eapply sim_block; eauto.
Qed.

Lemma gstate_upd h m n c mc pf done h1 f1 r : sim h (TH m n c) (MH m n mc) -> separate (TH m n c) -> gstate h m n c mc pf done h1 f1 ->
  (forall i j, i < m -> j < n -> In (i, j) done -> pf i j = Ok (r i j)) ->
  (forall i j, i < m -> j < n -> ~ In (i, j) done -> r i j = mc i j) ->
  upd h (TH m n c) (h1, TH m n f1) (MH m n r).
Proof.
  intros [G0 [[P1 [P2 _]] _]] [SP1 SP2] [F1 [D1 [U1 A1]]] H1 H2.
  assert (B : forall i j, i < m -> j < n -> blk h h1 (c i j) (f1 i j) (r i j)).
  { intros i j Hi Hj. destruct (in_dec (i, j) done) as [HI|HI].
    - destruct (D1 _ _ HI) as [_ [_ [M [E B]]]]. rewrite H1 in E by auto. inversion E; subst. auto.
    - rewrite H2 by auto. destruct (U1 i j Hi Hj HI) as [-> S']. split; auto. split; auto. split; auto. eapply keep_refl. apply (G0 i j Hi Hj). }
  split; auto. simpl fst. simpl snd. split; [apply sim_grid; auto; intros; apply B; auto|].
  split; [split; auto; intros; apply B; auto|]. split.
  - intros b k H Hb. apply tcell_TH in H. destruct H as [i [j [Hi [Hj H]]]]. apply tcell_TH. exists i, j. split; [auto|]. split; [auto|].
    apply (B i j Hi Hj); auto.
  - simpl. split; auto. split; auto. intros i j Hi Hj. apply B; auto.
Qed.

(** All blocks of the grid. *)
Lemma grid_upd h m n c mc pf body : sim h (TH m n c) (MH m n mc) -> separate (TH m n c) ->
  (forall i j h2, i < m -> j < n -> tfr (tcell (TH m n c)) h h2 -> sim h2 (c i j) (mc i j) -> osim (upd h2 (c i j)) (body i j h2) (pf i j)) ->
  osim (upd h (TH m n c)) (let* (h', c') := glist (ij_all m n) body h c in Ok (h', TH m n c')) (let* c' := collect m n pf in Ok (MH m n c')).
Proof.
  intros S1 SP HB. rewrite collect_clist, bind_assoc. eapply osim_bind.
  - apply (glist_sim h m n c mc pf body SP (ij_all m n) [] h c); [apply nodup_ij| |apply gstate_init; auto].
    intros i j h2 Hin F S2. apply in_ij_all in Hin. destruct Hin as [Hi Hj]. eapply osim_weaken; [apply HB; auto|]. auto.
  - intros [h' c'] [] _ _ GS. cbn [bind osim fst snd] in *. eapply gstate_upd; eauto.
    + intros i j Hi Hj HI. destruct GS as [_ [D _]]. destruct (D _ _ HI) as [_ [_ [M [-> _]]]]. reflexivity.
    + intros i j Hi Hj HI. exfalso. apply HI. apply in_ij_all. auto.
Qed.

(** The blocks of some rows of a grid with one block column. *)
Lemma rows_upd h m c mc p pf body : sim h (TH m 1 c) (MH m 1 mc) -> separate (TH m 1 c) ->
  (forall i h2, i < p -> tfr (tcell (TH m 1 c)) h h2 -> (i < m -> sim h2 (c i 0) (mc i 0)) ->
     osim (fun q M => i < m /\ upd h2 (c i 0) q M) (body i 0 h2) (pf i 0)) ->
  osim (upd h (TH m 1 c)) (let* (h', c') := glist (ij_all p 1) body h c in Ok (h', TH m 1 c'))
    (let* c' := collect p 1 pf in Ok (MH m 1 (fun i j => if i <? p then c' i 0 else mc i j))).
Proof.
  intros S1 SP HB. rewrite collect_clist, bind_assoc. eapply osim_bind.
  - apply (glist_sim h m 1 c mc pf body SP (ij_all p 1) [] h c); [apply nodup_ij| |apply gstate_init; auto].
    intros i j h2 Hin F S2. apply in_ij_all in Hin. destruct Hin as [Hi Hj]. assert (j = 0) as -> by lia.
    eapply osim_weaken; [apply HB; auto|]. intros a M [H1 H2]. auto.
  - intros [h' c'] [] _ _ GS. cbn [bind osim fst snd] in *. eapply gstate_upd; eauto.
    + intros i j Hi Hj HI. destruct GS as [_ [D _]]. destruct (D _ _ HI) as [_ [_ [M [E _]]]].
      apply in_ij_all in HI. assert (j = 0) as -> by lia. destruct (Nat.ltb_spec i p); [|lia]. rewrite E. reflexivity.
    + intros i j Hi Hj HI. destruct (Nat.ltb_spec i p); auto. exfalso. apply HI. apply in_ij_all. auto.
Qed.

(** A loop that keeps changing the same object. *)
Lemma for_upd h C M K body pbody : sim h C M -> separate C ->
  (forall k h1 C1 M1, k < K -> upd h C (h1, C1) M1 -> osim (upd h1 C1) (body k (h1, C1)) (pbody k M1)) ->
  osim (upd h C) (for_loop K body (h, C)) (for_loop K pbody M).
Proof.
  intros S1 SP HB. induction K as [|K IH]; simpl.
  - apply upd_refl; auto.
  - eapply osim_bind; [apply IH; intros; apply HB; auto|]. intros [h1 C1] M1 _ _ U1.
    eapply osim_weaken; [apply HB; auto|]. intros p M2 U2. eapply upd_trans; eauto.
Qed.

(** A grid of new objects. *)
Definition nstate h (pf : nat -> nat -> outcome matrix) (done : list (nat * nat)) h1 (f1 : nat -> nat -> htree) : Prop :=
  tfr none h h1 /\
  (forall i j, In (i, j) done -> exists M, pf i j = Ok M /\ sim h1 (f1 i j) M /\ separate (f1 i j) /\ (forall b k, tcell (f1 i j) b k -> nbufs h <= b)) /\
  (forall i j i' j', In (i, j) done -> In (i', j') done -> (i, j) <> (i', j') -> tapart (f1 i j) (f1 i' j')).
Lemma glist_new h pf body : forall l done h1 f1, NoDup (done ++ l) ->
  (forall i j h2, In (i, j) l -> tfr none h h2 -> osim (mk h2) (body i j h2) (pf i j)) ->
  nstate h pf done h1 f1 ->
  osim (fun p _ => nstate h pf (done ++ l) (fst p) (snd p)) (glist l body h1 f1) (clist l pf).
Proof.
  induction l as [|[i j] l IH]; intros done h1 f1 ND HB GS.
  - simpl. rewrite app_nil_r. exact GS.
  - cbn [glist clist]. pose proof GS as [F1 [D1 A1]].
    assert (NI : ~ In (i, j) done) by (intros HI; apply NoDup_remove_2 in ND; apply ND; apply in_or_app; auto).
    eapply osim_bind.
    + apply (HB i j h1); [left; auto|exact F1].
    + intros [h2 x] M _ EM UP. simpl fst in *. simpl snd in *.
      assert (EQ : done ++ (i, j) :: l = (done ++ [(i, j)]) ++ l) by (rewrite <- app_assoc; reflexivity).
      rewrite EQ. apply IH.
      * rewrite <- EQ. exact ND.
      * intros; apply HB; auto. right; auto.
      * pose proof UP as [F2 [S2 [P2 C2]]]. simpl in F2, S2, P2, C2. pose proof F1 as [N1 _].
        assert (PO : forall i' j', (i', j') <> (i, j) -> put f1 i j x i' j' = f1 i' j') by (intros; apply put_other; auto).
        assert (ND' : forall i' j', In (i', j') done -> (i', j') <> (i, j)) by (intros i' j' HI E; apply NI; rewrite <- E; auto).
        split; [eapply tfr_trans; eauto|]. split.
        -- intros i' j' HI. apply in_app_or in HI. destruct HI as [HI|[HI|[]]].
           ++ destruct (D1 _ _ HI) as [M' [EM' [S' [P' C']]]]. exists M'. split; auto. rewrite PO by auto. split; auto.
              eapply sim_none; eauto.
           ++ inversion HI; subst i' j'. exists M. split; auto. rewrite put_same.
              split; auto. split; auto. intros b k H. pose proof (C2 b k H). lia.
        -- assert (NX : forall i' j', In (i', j') done -> tapart (f1 i' j') x).
           { intros i' j' HI. destruct (D1 _ _ HI) as [M' [_ [S' _]]]. eapply mk_apart with (p := (h2, x)); eauto. }
           intros i1 j1 i2 j2 I1 I2 NE. apply in_app_or in I1. apply in_app_or in I2.
           destruct I1 as [I1|[I1|[]]]; destruct I2 as [I2|[I2|[]]].
           ++ rewrite !PO by auto. apply A1; auto.
           ++ inversion I2; subst. rewrite put_same, PO by auto. auto.
           ++ inversion I1; subst. rewrite put_same, PO by auto. apply tapart_sym. auto.
           ++ congruence.
Qed.
Lemma grid_new h m n pf body : 0 < m -> 0 < n ->
  (forall i j h2, i < m -> j < n -> tfr none h h2 -> osim (mk h2) (body i j h2) (pf i j)) ->
  osim (mk h) (let* (h', c') := gridM m n body h in Ok (h', TH m n c')) (let* c' := collect m n pf in Ok (MH m n c')).
Proof.
  intros P1 P2 HB. rewrite collect_clist, bind_assoc. unfold gridM. eapply osim_bind.
  - apply (glist_new h pf body (ij_all m n) [] h); [apply nodup_ij| |].
    + intros i j h2 Hin. apply in_ij_all in Hin. destruct Hin. auto.
    + split; [apply tfr_refl|]. split; [intros i j []|intros i j i' j' []].
  - intros [h' c'] [] _ _ [F [D A]]. cbn [bind osim fst snd] in *.
    assert (D' : forall i j, i < m -> j < n -> sim h' (c' i j) (get_ok (ME 0 0) (pf i j)) /\ separate (c' i j) /\ (forall b k, tcell (c' i j) b k -> nbufs h <= b)).
    { intros i j Hi Hj. destruct (D i j) as [M [-> H]]; [apply in_ij_all; auto|]. exact H. }
    split; auto. simpl fst. simpl snd. split; [apply sim_grid; auto; intros; apply D'; auto|]. split.
    + split; [intros; apply D'; auto|]. intros. apply A; auto; apply in_ij_all; auto.
    + intros b k H. apply tcell_TH in H. destruct H as [i [j [Hi [Hj H]]]]. destruct (D' i j Hi Hj) as [_ [_ D3]]. eauto.
Qed.

(** ** operator*= over blocks changes no object *)
Lemma hlist_glist (body : nat -> nat -> heap -> outcome heap) c : forall l h f, (forall i j, f i j = c i j) ->
  osim (fun (h' : heap) (p : heap * (nat -> nat -> htree)) => h' = fst p /\ forall i j, snd p i j = c i j)
    (hlist l body h) (glist l (fun i j h => let* h' := body i j h in Ok (h', c i j)) h f).
Proof.
  induction l as [|[i j] l IH]; intros h f Hf; simpl; auto.
  destruct (body i j h) as [h1| | | |]; simpl; auto. apply IH. intros i' j'.
  unfold put. destruct (Nat.eqb_spec i' i); destruct (Nat.eqb_spec j' j); simpl; subst; auto.
Qed.
Lemma upd_ext h C h' m n f f' M : (forall i j, f i j = f' i j) -> upd h C (h', TH m n f) M -> upd h C (h', TH m n f') M.
Proof.
  intros E [F [[G [W Q]] [P [C1 K]]]]. simpl in F, G, Q, P, C1, K. split; auto. simpl fst. simpl snd. split; [|split; [|split]].
  - split; [intros i j Hi Hj; rewrite <- E; apply G; auto|]. split; auto.
    destruct M as [| |m' n' b|]; simpl in Q; try tauto. destruct Q as [E1 [E2 Q]]. simpl. split; auto. split; auto.
    intros i j Hi Hj. rewrite <- E. auto.
  - destruct P as [P1 P2]. split; intros; rewrite <- !E; auto.
  - intros b k H. apply C1. apply tcell_TH in H. apply tcell_TH. destruct H as [i [j [Hi [Hj H]]]]. exists i, j. rewrite E. auto.
  - destruct C; simpl in K |- *; try tauto. destruct K as [E1 [E2 K]]. split; auto. split; auto. intros i j Hi Hj. rewrite <- E. auto.
Qed.
End Proofs.
