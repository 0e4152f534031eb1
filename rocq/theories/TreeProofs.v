(** Facts about trees of objects over shared storage. *)
From Coq Require Import List Arith ZArith QArith Lia Bool.
From Verif Require Import Prelude IndexRange Ring MatFun Matrix MatOps MatOpsProofs Heap HeapProofs Tree.
Import ListNotations.
Local Open Scope nat_scope.

Section Proofs.
Context {R : cring}.
Notation heap := (heap R).
Notation matrix := (matrix R).
Implicit Types (h : heap) (d : hdense) (l : hlow) (T : htree).

(** ** Values *)

Lemma deq_refl (a : dense R) : deq a a.
Proof. split; auto. split; auto. apply feq_refl. Qed.
Lemma deq_sym (a b : dense R) : deq a b -> deq b a.
Proof. intros [H1 [H2 H3]]. split; auto. split; auto. intros i j Hi Hj. symmetry. apply H3; congruence. Qed.
Lemma deq_trans (a b c : dense R) : deq a b -> deq b c -> deq a c.
Proof.
  intros [H1 [H2 H3]] [K1 [K2 K3]]. split; [congruence|]. split; [congruence|].
  intros i j Hi Hj. rewrite H3 by auto. apply K3; congruence.
Qed.
Lemma leq_refl (a : lowrank R) : leq a a.
Proof. repeat (split; [reflexivity|]). repeat split; auto using feq_refl. Qed.
Lemma leq_sym (a b : lowrank R) : leq a b -> leq b a.
Proof. intros [H1 [H2 [H3 [H4 [H5 [H6 H7]]]]]]. unfold leq. repeat match goal with |- _ = _ /\ _ => split; [auto|] end. auto 8 using deq_sym. Qed.
Lemma leq_trans (a b c : lowrank R) : leq a b -> leq b c -> leq a c.
Proof.
  intros [H1 [H2 [H3 [H4 [H5 [H6 H7]]]]]] [K1 [K2 [K3 [K4 [K5 [K6 K7]]]]]].
  unfold leq. repeat match goal with |- _ = _ /\ _ => split; [congruence|] end. eauto 8 using deq_trans.
Qed.
Lemma mateq_refl (A : matrix) : mateq A A.
Proof. induction A; simpl; auto using deq_refl, leq_refl. Qed.
Lemma mateq_sym (A : matrix) : forall B, mateq A B -> mateq B A.
Proof.
  induction A as [a|a|m n f IH|r c]; intros [b|b|m' n' g|r' c']; simpl; try tauto; auto using deq_sym, leq_sym.
  - intros [-> [-> H]]. split; [auto|]. split; auto.
  - intros [-> ->]. auto.
Qed.
Lemma mateq_trans (A : matrix) : forall B C, mateq A B -> mateq B C -> mateq A C.
Proof.
  induction A as [a|a|m n f IH|r c]; intros [b|b|m' n' g|r' c'] [e|e|m2 n2 g2|r2 c2]; simpl; try tauto; eauto using deq_trans, leq_trans.
  - intros [-> [-> H]] [-> [-> K]]. split; [auto|]. split; [auto|]. intros i j Hi Hj. eapply IH; eauto.
  - intros [-> ->]. auto.
Qed.

Lemma leq_wf (a b : lowrank R) : leq a b -> lr_wf b -> lr_wf a.
Proof.
  intros [H1 [H2 [H3 [H4 [[U1 [U2 _]] [[D1 [D2 _]] [V1 [V2 _]]]]]]]] [W1 [W2 [W3 W4]]].
  split; [congruence|]. split; [congruence|]. split; congruence.
Qed.
Lemma leq_ent (a b : lowrank R) : leq a b -> lr_wf a -> feq (l_r a) (l_c a) (lr_ent a) (lr_ent b).
Proof.
  intros [H1 [H2 [H3 [H4 [[U1 [U2 U3]] [[D1 [D2 D3]] [V1 [V2 V3]]]]]]]] [W1 [W2 [W3 W4]]] i j Hi Hj.
  unfold lr_ent, mmul. rewrite <- U2, <- D2. apply sum_ext. intros k Hk. rewrite U3 by lia. f_equal.
  apply sum_ext. intros k' Hk'. rewrite D3, V3 by lia. reflexivity.
Qed.

(** ** Good trees, cells *)

Definition lgood h l : Prop := good h (q_U l) /\ good h (q_S l) /\ good h (q_V l).
Fixpoint tgood h T : Prop :=
  match T with
  | TD d => good h d
  | TL l => lgood h l
  | TH m n f => forall i j, i < m -> j < n -> tgood h (f i j)
  | TE _ _ => True
  | TN => False
  end.

Lemma tgood_leaf h T : tgood h T -> forall d, tleaf T d -> good h d.
Proof.
  induction T as [e|l|m n f IH|r c|]; simpl; intros G d L; try tauto.
  - subst; auto.
  - destruct G as [G1 [G2 G3]]. destruct L as [->|[->| ->]]; auto.
  - destruct L as [i [j [Hi [Hj L]]]]. eapply IH; eauto.
Qed.
Lemma good_tree h T : nonnull T -> (forall d, tleaf T d -> good h d) -> tgood h T.
Proof.
  induction T as [e|l|m n f IH|r c|]; simpl; intros G L; try tauto; auto.
  - repeat split; apply L; auto.
  - intros i j Hi Hj. apply IH; auto. intros d Hd. apply L. eauto.
Qed.
Lemma tgood_nonnull h T : tgood h T -> nonnull T.
Proof. induction T as [e|l|m n f IH|r c|]; simpl; auto. Qed.

Definition tcell T b k : Prop := exists d, tleaf T d /\ cell d b k.
Definition tapart T1 T2 : Prop := forall b k, tcell T1 b k -> ~ tcell T2 b k.
Lemma tapart_sym T1 T2 : tapart T1 T2 -> tapart T2 T1.
Proof. intros H b k H1 H2. eapply H; eauto. Qed.
Lemma tapart_leaf T1 T2 d e : tapart T1 T2 -> tleaf T1 d -> tleaf T2 e -> apart d e.
Proof. intros H H1 H2 b k C1 C2. apply (H b k); [exists d|exists e]; auto. Qed.

Definition lsep l : Prop := apart (q_S l) (q_U l) /\ apart (q_S l) (q_V l) /\ apart (q_U l) (q_V l).
(** The leaves of an object share no element. *)
Fixpoint separate T : Prop :=
  match T with
  | TL l => lsep l
  | TH m n f => (forall i j, i < m -> j < n -> separate (f i j)) /\
      forall i j i' j', i < m -> j < n -> i' < m -> j' < n -> (i, j) <> (i', j') -> tapart (f i j) (f i' j')
  | _ => True
  end.

Lemma tcell_TD d b k : tcell (TD d) b k <-> cell d b k.
Proof. split; [intros [e [-> H]]; auto|]. intros H. exists d. simpl. auto. Qed.
Lemma tcell_TH m n f b k : tcell (TH m n f) b k <-> exists i j, i < m /\ j < n /\ tcell (f i j) b k.
Proof.
  split.
  - intros [d [[i [j [Hi [Hj L]]]] C]]. exists i, j. split; auto. split; auto. exists d. auto.
  - intros [i [j [Hi [Hj [d [L C]]]]]]. exists d. split; auto. simpl. eauto.
Qed.
Lemma tcell_TL l b k : tcell (TL l) b k <-> cell (q_U l) b k \/ cell (q_S l) b k \/ cell (q_V l) b k.
Proof.
  split.
  - intros [d [[->|[->| ->]] C]]; auto.
  - intros [C|[C|C]]; [exists (q_U l)|exists (q_S l)|exists (q_V l)]; simpl; auto.
Qed.

(** ** What may have changed: only existing elements in [X]; new arrays may appear. *)
Definition tfr (X : nat -> nat -> Prop) h h' : Prop :=
  nbufs h <= nbufs h' /\ forall b, b < nbufs h -> size h' b = size h b /\ forall k, ~ X b k -> val h' b k = val h b k.

Definition none : nat -> nat -> Prop := fun _ _ => False.

Lemma tfr_refl X h : tfr X h h.
Proof. split; auto. Qed.
Lemma tfr_mono (X Y : nat -> nat -> Prop) h h' : (forall b k, b < nbufs h -> X b k -> Y b k) -> tfr X h h' -> tfr Y h h'.
Proof. intros H [H1 H2]. split; [auto|]. intros b Hb. destruct (H2 b Hb) as [H3 H4]. split; [auto|]. intros k HY. apply H4. intros HX. apply HY. auto. Qed.
Lemma tfr_trans X h1 h2 h3 : tfr X h1 h2 -> tfr X h2 h3 -> tfr X h1 h3.
Proof.
  intros [A1 A2] [B1 B2]. split; [lia|]. intros b Hb. destruct (A2 b Hb) as [A3 A4]. destruct (B2 b) as [B3 B4]; [lia|].
  split; [congruence|]. intros k HX. rewrite B4, A4; auto.
Qed.
(** Changes in arrays made since the start do not count. *)
Lemma tfr_trans' (X Y Z : nat -> nat -> Prop) h1 h2 h3 : tfr X h1 h2 -> tfr Y h2 h3 ->
  (forall b k, b < nbufs h1 -> X b k -> Z b k) -> (forall b k, b < nbufs h1 -> Y b k -> Z b k) -> tfr Z h1 h3.
Proof.
  intros [A1 A2] [B1 B2] HX HY. split; [lia|]. intros b Hb. destruct (A2 b Hb) as [A3 A4]. destruct (B2 b) as [B3 B4]; [lia|].
  split; [congruence|]. intros k HZ. rewrite B4, A4; auto.
Qed.
Lemma extends_tfr h h' X : extends h h' -> tfr X h h'.
Proof. intros [H1 [_ H2]]. split; auto. intros b Hb. destruct (H2 b Hb) as [H3 H4]. auto. Qed.
Lemma frame_tfr h h' d : frame h h' d -> tfr (cell d) h h'.
Proof. intros [[H1 [_ H2]] H3]. split; [lia|]. intros b Hb. auto. Qed.
Lemma tfr_bufs X h h' : h_bufs h' = h_bufs h -> tfr X h h'.
Proof. intros E. unfold tfr, nbufs, size, val. rewrite E. split; auto. Qed.

Lemma tfr_good X h h' d : tfr X h h' -> good h d -> good h' d.
Proof.
  intros [A1 A2] [H1 [H2 [H3 H4]]]. destruct (A2 _ H1) as [X1 _]. split; [lia|]. split; auto. split; auto. rewrite X1. auto.
Qed.
Lemma tfr_tgood X h h' T : tfr X h h' -> tgood h T -> tgood h' T.
Proof. intros F G. apply good_tree; [eapply tgood_nonnull; eauto|]. intros d L. eapply tfr_good; eauto. eapply tgood_leaf; eauto. Qed.

Definition clear (X : nat -> nat -> Prop) d : Prop := forall b k, cell d b k -> ~ X b k.
Definition tclear (X : nat -> nat -> Prop) T : Prop := forall b k, tcell T b k -> ~ X b k.

Lemma tfr_read X h h' d : tfr X h h' -> good h d -> clear X d -> deq (dread h' d) (dread h d).
Proof.
  intros [A1 A2] [H1 _] C. split; [auto|]. split; [auto|]. intros i j Hi Hj. simpl in *. apply A2; auto. apply C.
  split; auto. exists i, j. auto.
Qed.
Lemma tclear_leaf X T d : tclear X T -> tleaf T d -> clear X d.
Proof. intros H L b k C. apply H. exists d. auto. Qed.
Lemma tfr_tread X h h' T : tfr X h h' -> tgood h T -> tclear X T -> mateq (tread h' T) (tread h T).
Proof.
  intros F. induction T as [e|l|m n f IH|r c|]; intros G C; try (simpl; tauto).
  - eapply (tfr_read X h h' e); eauto. eapply tclear_leaf; eauto. simpl; auto.
  - destruct G as [G1 [G2 G3]]. simpl. unfold leq. simpl. repeat (split; [reflexivity|]).
    split; [|split]; (eapply tfr_read; eauto; eapply tclear_leaf; eauto; simpl; auto).
  - simpl. split; auto. split; auto. intros i j Hi Hj. apply IH; auto. intros b k Hb. apply C. apply tcell_TH. eauto.
Qed.
Lemma tclear_none T : tclear none T.
Proof. intros b k _ []. Qed.

(** Objects known when the storage was [h] are clear of what came later. *)
Definition young (n : nat) T : Prop := forall d, tleaf T d -> n <= h_buf d.
Lemma young_cell n T b k : young n T -> tcell T b k -> n <= b.
Proof. intros Y [d [L [-> _]]]. auto. Qed.
Lemma tgood_cell h T b k : tgood h T -> tcell T b k -> b < nbufs h.
Proof. intros G [d [L [-> _]]]. apply (tgood_leaf _ _ G _ L). Qed.
Lemma young_apart h T1 T2 n : tgood h T1 -> nbufs h <= n -> young n T2 -> tapart T1 T2.
Proof. intros G Hn Y b k C1 C2. pose proof (tgood_cell _ _ _ _ G C1). pose proof (young_cell _ _ _ _ Y C2). lia. Qed.

(** ** Loops filling a grid *)
Lemma put_same {A} (f : nat -> nat -> A) i j x : put f i j x i j = x.
Proof. unfold put. rewrite !Nat.eqb_refl. reflexivity. Qed.
Lemma put_other {A} (f : nat -> nat -> A) i j x i' j' : (i', j') <> (i, j) -> put f i j x i' j' = f i' j'.
Proof.
  intros H. unfold put. destruct (Nat.eqb_spec i' i); destruct (Nat.eqb_spec j' j); auto. subst. congruence.
Qed.

Lemma glist_inv body (I : list (nat * nat) -> heap -> (nat -> nat -> htree) -> Prop) : forall (l : list (nat * nat)) done h f,
  NoDup (done ++ l) -> I done h f ->
  (forall done i j h f, In (i, j) l -> ~ In (i, j) done -> I done h f ->
      exists h' x, body i j h = Ok (h', x) /\ I (done ++ [(i, j)]) h' (put f i j x)) ->
  exists h' f', glist l body h f = Ok (h', f') /\ I (done ++ l) h' f'.
Proof.
  induction l as [|[i j] l IH]; intros done h f ND H0 HS.
  - exists h, f. rewrite app_nil_r. auto.
  - destruct (HS done i j h f) as [h1 [x [E H1]]]; [left; auto| |auto|].
    { intros Hin. apply NoDup_remove_2 in ND. apply ND. apply in_or_app. auto. }
    simpl. rewrite E. simpl. destruct (IH (done ++ [(i, j)]) h1 (put f i j x)) as [h' [f' [E' H']]].
    + rewrite <- app_assoc. exact ND.
    + exact H1.
    + intros. apply HS; auto. right; auto.
    + exists h', f'. rewrite <- app_assoc in H'. auto.
Qed.

Lemma nodup_ij m n : NoDup (ij_all m n).
Proof. apply ij_loop_nodup. Qed.

Lemma gridM_inv m n body h (I : list (nat * nat) -> heap -> (nat -> nat -> htree) -> Prop) :
  I [] h (fun _ _ => TN) ->
  (forall done i j h f, i < m -> j < n -> ~ In (i, j) done -> I done h f ->
      exists h' x, body i j h = Ok (h', x) /\ I (done ++ [(i, j)]) h' (put f i j x)) ->
  exists h' f', gridM m n body h = Ok (h', f') /\ I (ij_all m n) h' f'.
Proof.
  intros H0 HS. unfold gridM. apply (glist_inv body I (ij_all m n) [] h (fun _ _ => TN)); auto.
  - apply nodup_ij.
  - intros done i j h1 f Hin. apply in_ij_all in Hin. apply HS; tauto.
Qed.

(** ** Copies *)

(** [T'] is a new object with the value of [M]. *)
Definition fresh h h' T' (M : matrix) : Prop :=
  extends h h' /\ tgood h' T' /\ young (nbufs h) T' /\ separate T' /\ mateq (tread h' T') M.

Lemma makes_read h h' d r c f : makes h h' d r c f -> deq (dread h' d) (Dn r c f).
Proof. intros [_ [_ [<- [<- [_ [_ [_ [_ [_ [_ [_ [_ H]]]]]]]]]]]]. split; [auto|]. split; auto. Qed.

Lemma h_copy_deq h d : good h d -> exists h' d', h_copy h d = Ok (h', d') /\ extends h h' /\ good h' d' /\
  h_buf d' = nbufs h /\ nbufs h' = S (nbufs h) /\ deq (dread h' d') (dread h d).
Proof.
  intros G. destruct (h_copy_spec h d G) as [h' [d' [E M]]]. exists h', d'. split; auto.
  pose proof M as [H1 [H2 [_ [_ [H5 [H6 _]]]]]]. repeat (split; [assumption|]).
  apply (makes_read _ _ _ _ _ _ M).
Qed.

Lemma read_extends h h' d : extends h h' -> good h d -> deq (dread h' d) (dread h d).
Proof. intros E G. eapply tfr_read; eauto. apply extends_tfr with (X := none); auto. intros b k _ []. Qed.
Lemma tread_extends h h' T : extends h h' -> tgood h T -> mateq (tread h' T) (tread h T).
Proof. intros E G. eapply tfr_tread; eauto. apply extends_tfr with (X := none); auto. apply tclear_none. Qed.
Lemma tgood_extends h h' T : extends h h' -> tgood h T -> tgood h' T.
Proof. intros E G. eapply tfr_tgood; eauto. apply extends_tfr with (X := none); auto. Qed.

(** Three copies in a row. *)
Lemma copy3_spec h U D V : good h U -> good h D -> good h V ->
  exists h1 h2 h3 U' D' V', h_copy h U = Ok (h1, U') /\ h_copy h1 D = Ok (h2, D') /\ h_copy h2 V = Ok (h3, V') /\
    extends h h3 /\ good h3 U' /\ good h3 D' /\ good h3 V' /\
    h_buf U' = nbufs h /\ h_buf D' = S (nbufs h) /\ h_buf V' = S (S (nbufs h)) /\
    deq (dread h3 U') (dread h U) /\ deq (dread h3 D') (dread h D) /\ deq (dread h3 V') (dread h V).
Proof.
  intros G1 G2 G3. destruct (h_copy_deq h U G1) as [h1 [U' [E1 [X1 [K1 [B1 [N1 Q1]]]]]]].
  destruct (h_copy_deq h1 D) as [h2 [D' [E2 [X2 [K2 [B2 [N2 Q2]]]]]]]; [eapply extends_good; eauto|].
  pose proof (extends_trans _ _ _ X1 X2) as X12.
  destruct (h_copy_deq h2 V) as [h3 [V' [E3 [X3 [K3 [B3 [N3 Q3]]]]]]]; [eapply extends_good; eauto|].
  exists h1, h2, h3, U', D', V'. repeat (split; [assumption|]).
  split; [eapply extends_trans; eauto|]. split; [apply (extends_good h2); auto; apply (extends_good h1); auto|].
  split; [apply (extends_good h2); auto|]. split; auto. split; auto. split; [congruence|]. split; [congruence|].
  split; [|split].
  - eapply deq_trans; [|exact Q1]. apply read_extends; auto. eapply extends_trans; eauto.
  - eapply deq_trans; [apply read_extends; eauto|]. eapply deq_trans; [exact Q2|]. apply read_extends; auto.
  - eapply deq_trans; [exact Q3|]. apply read_extends; auto.
Qed.

Lemma low_copy_spec h l : lgood h l -> exists h' l', low_copy l h = Ok (h', l') /\ fresh h h' (TL l') (tread h (TL l)).
Proof.
  intros [G1 [G2 G3]]. destruct (copy3_spec h _ _ _ G1 G2 G3) as
    [h1 [h2 [h3 [U' [D' [V' [E1 [E2 [E3 [X [K1 [K2 [K3 [B1 [B2 [B3 [Q1 [Q2 Q3]]]]]]]]]]]]]]]]]].
  unfold low_copy. rewrite E1. simpl bind. rewrite E2. simpl bind. rewrite E3. simpl bind.
  eexists. eexists. split; [reflexivity|]. unfold fresh. split; auto. split; [simpl; unfold lgood; auto|].
  split; [intros d; simpl; intros [->|[->| ->]]; lia|].
  split; [|simpl; unfold leq; simpl; auto 10].
  simpl. unfold lsep. simpl. split; [|split]; apply bufs_apart; lia.
Qed.

(** Filling a grid with new objects. *)
Lemma fresh_grid m n body (f : nat -> nat -> htree) h (g : nat -> nat -> matrix) :
  (forall i j h1, i < m -> j < n -> extends h h1 -> exists h' x, body i j h1 = Ok (h', x) /\ fresh h1 h' x (g i j)) ->
  exists h' f', gridM m n body h = Ok (h', f') /\ fresh h h' (TH m n f') (MH m n g).
Proof.
  intros HB.
  set (I := fun (done : list (nat * nat)) h1 (f' : nat -> nat -> htree) =>
     extends h h1 /\
     (forall i j, In (i, j) done -> tgood h1 (f' i j) /\ young (nbufs h) (f' i j) /\ separate (f' i j) /\ mateq (tread h1 (f' i j)) (g i j)) /\
     (forall i j i' j', In (i, j) done -> In (i', j') done -> (i, j) <> (i', j') -> tapart (f' i j) (f' i' j'))).
  destruct (gridM_inv m n body h I) as [h' [f' [E [H1 [H2 H3]]]]].
  - split; [apply extends_refl|]. split; intros; simpl in *; tauto.
  - intros done i j h1 f1 Hi Hj ND [X [H1 H2]]. destruct (HB i j h1 Hi Hj X) as [h' [x [E [X' [G [Y [SP Q]]]]]]].
    exists h', x. split; auto. split; [eapply extends_trans; eauto|]. split.
    + intros i' j' Hin. apply in_app_or in Hin. destruct Hin as [Hin|[E'|[]]].
      * rewrite put_other by (intros E'; inversion E'; subst; auto). destruct (H1 _ _ Hin) as [A1 [A2 [A3 A4]]].
        split; [eapply tgood_extends; eauto|]. split; auto. split; auto.
        eapply mateq_trans; [apply tread_extends; eauto|]. auto.
      * inversion E'; subst. rewrite put_same. split; auto. split; auto.
        intros d L. specialize (Y d L). destruct X as [X _]. lia.
    + assert (HN : forall i' j', In (i', j') done -> tapart (f1 i' j') x).
      { intros i' j' Hin. eapply young_apart with (n := nbufs h1); eauto. apply H1. auto. }
      intros i1 j1 i2 j2 I1 I2 NE. apply in_app_or in I1. apply in_app_or in I2.
      destruct I1 as [I1|[I1|[]]]; destruct I2 as [I2|[I2|[]]].
      * rewrite !put_other by (intros E'; inversion E'; subst; auto). apply H2; auto.
      * inversion I2; subst. rewrite put_same. rewrite put_other by auto. auto.
      * inversion I1; subst. rewrite put_same. rewrite put_other by auto. apply tapart_sym. auto.
      * congruence.
  - exists h', f'. split; auto. split; auto. split; [|split; [|split]].
    + intros i j Hi Hj. apply H2. apply in_ij_all. auto.
    + intros d [i [j [Hi [Hj L]]]]. destruct (H2 i j) as [_ [Y _]]; [apply in_ij_all; auto|]. auto.
    + split; intros; [apply H2|apply H3]; auto; apply in_ij_all; auto.
    + simpl. split; auto. split; auto. intros i j Hi Hj. apply H2. apply in_ij_all. auto.
Qed.

Lemma fresh_from h h' x M M' : fresh h h' x M -> mateq M M' -> fresh h h' x M'.
Proof. intros [A1 [A2 [A3 [A4 A5]]]] H. repeat (split; [assumption|]). eapply mateq_trans; eauto. Qed.

(** Copying any object made of existing objects. *)
Lemma clone_spec T : forall h, tgood h T -> exists h' T', clone T h = Ok (h', T') /\ fresh h h' T' (tread h T).
Proof.
  induction T as [e|l|m n f IH|r c|]; intros h G; [| | | |destruct G].
  - destruct (h_copy_deq h e G) as [h1 [d [E [X [K [B [N Q]]]]]]]. simpl. rewrite E. simpl bind.
    eexists. eexists. split; [reflexivity|]. split; auto. split; auto. split; [intros ? ->; lia|]. simpl. auto.
  - destruct (low_copy_spec h l G) as [h1 [d [E F]]]. cbn [clone]. rewrite E. simpl bind. eauto.
  - destruct (fresh_grid m n (fun i j => clone (f i j)) f h (fun i j => tread h (f i j))) as [h' [f' [E F]]].
    + intros i j h1 Hi Hj X. destruct (IH i j h1) as [h' [x [E F]]]; [eapply tgood_extends; eauto; apply G; auto|].
      exists h', x. split; auto. eapply fresh_from; eauto. apply tread_extends; auto; apply G; auto.
    + cbn [clone]. rewrite E. simpl bind. eauto.
  - simpl. exists h, (TE r c). split; auto. split; [apply extends_refl|]. split; [exact I|]. split; [intros d []|]. simpl. auto.
Qed.

(** Copying an unfilled grid or an empty proxy fails. *)
Lemma clone_Ok_nonnull T : forall h h' T', clone T h = Ok (h', T') -> nonnull T.
Proof.
  induction T as [e|l|m n f IH|r c|]; intros h h' T' E; simpl; auto; [|discriminate].
  cbn [clone] in E. apply bind_Ok in E. destruct E as [[h1 f1] [E _]].
  intros i j Hi Hj. unfold gridM in E. assert (Hin : In (i, j) (ij_all m n)) by (apply in_ij_all; auto).
  revert Hin E. generalize (fun _ _ : nat => TN). generalize h. generalize (ij_all m n) as L.
  induction L as [|[a b] L IHL]; intros h2 f2 Hin E; [destruct Hin|].
  simpl in E. apply bind_Ok in E. destruct E as [[h3 x] [E1 E2]].
  destruct Hin as [Hin|Hin]; [inversion Hin; subst; eapply IH; eauto|eapply IHL; eauto].
Qed.

(** ** Copies are independent *)

Lemma copy_spec h T : nonnull T -> (forall d, tleaf T d -> good h d) ->
  exists h' T', clone T h = Ok (h', T') /\ extends h h' /\
    mateq (tread h' T') (tread h T) /\ mateq (tread h' T) (tread h T) /\
    (forall d, tleaf T' d -> good h' d /\ nbufs h <= h_buf d) /\ separate T' /\
    (forall b k, tcell T' b k -> ~ tcell T b k).
Proof.
  intros N L. pose proof (good_tree h T N L) as G. destruct (clone_spec T h G) as [h' [T' [E [X [G' [Y [SP Q]]]]]]].
  exists h', T'. split; auto. split; auto. split; auto. split; [apply tread_extends; auto|].
  split; [intros d Ld; split; [eapply tgood_leaf; eauto|auto]|]. split; auto.
  intros b k C1 C2. eapply (young_apart h T T' (nbufs h)); eauto.
Qed.

(** Writes to elements of Dense objects. *)
Fixpoint writes (w : list (hdense * nat * nat * R)) h : outcome heap :=
  match w with
  | [] => Ok h
  | (d, i, j, v) :: t => let* h' := h_set h d i j v in writes t h'
  end.

Lemma writes_tfr T : forall w h h', tgood h T -> (forall d i j v, In (d, i, j, v) w -> tleaf T d) ->
  writes w h = Ok h' -> tfr (tcell T) h h'.
Proof.
  induction w as [|[[[d i] j] v] w IH]; intros h h' G HL E; simpl in E.
  - inversion E; subst. apply tfr_refl.
  - apply bind_Ok in E. destruct E as [h1 [E1 E2]].
    assert (Ld : tleaf T d) by (eapply HL; left; eauto).
    assert (F1 : tfr (tcell T) h h1).
    { eapply tfr_mono; [|apply frame_tfr; eapply frame_set; [eapply tgood_leaf; eauto|eauto]].
      intros b k _ C. exists d. auto. }
    eapply tfr_trans; [exact F1|]. apply IH; auto; [eapply tfr_tgood; eauto|]. intros. eapply HL. right. eauto.
Qed.

Lemma copy_independent h T h' T' w h2 : nonnull T -> (forall d, tleaf T d -> good h d) -> clone T h = Ok (h', T') -> writes w h' = Ok h2 ->
  ((forall d i j v, In (d, i, j, v) w -> tleaf T' d) -> mateq (tread h2 T) (tread h T)) /\
  ((forall d i j v, In (d, i, j, v) w -> tleaf T d) -> mateq (tread h2 T') (tread h T)).
Proof.
  intros N L E W. pose proof (good_tree h T N L) as G. destruct (clone_spec T h G) as [h0 [T0 [E0 [X [G' [Y [SP Q]]]]]]].
  rewrite E in E0. inversion E0; subst h0 T0. pose proof (tgood_extends _ _ _ X G) as GT.
  assert (AP : tapart T T') by (apply (young_apart h T T' (nbufs h)); auto).
  split; intros HL.
  - eapply mateq_trans; [|apply (tread_extends h h'); auto]. eapply tfr_tread; [eapply writes_tfr; [exact G'|exact HL|exact W]|auto|exact AP].
  - eapply mateq_trans; [|exact Q]. eapply tfr_tread; [eapply writes_tfr; [exact GT|exact HL|exact W]|auto|]. apply tapart_sym. exact AP.
Qed.
End Proofs.
