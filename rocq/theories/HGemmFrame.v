(** Whatever the operands of gemm share, only elements of its third operand change. *)
From Coq Require Import List Arith ZArith QArith Lia Bool.
From Verif Require Import Prelude Osim IndexRange Ring MatFun Matrix MatOps MatOpsProofs Gemm Heap HeapProofs HeapViews MgsHeap.
From Verif Require Import Tree TreeProofs TreeScale TreeSim HGemm HGemmOps.
Import ListNotations.
Local Open Scope nat_scope.

Section Proofs.
Context {R : cring}.
Notation heap := (heap R).
Notation matrix := (matrix R).
Notation dense := (dense R).
Notation lowrank := (lowrank R).
Implicit Types (h : heap) (d e : hdense) (T A B C : htree) (alpha beta : R) (t tA tB : bool).
Variable Or : oracles R.

(** [C] has been changed in place to [snd p]; a new object [snd p] has been made. *)
Definition chg h C (p : heap * htree) : Prop :=
  tfr (tcell C) h (fst p) /\ tgood (fst p) (snd p) /\ forall b k, tcell (snd p) b k -> b < nbufs h -> tcell C b k.
Definition made h (p : heap * htree) : Prop :=
  tfr none h (fst p) /\ tgood (fst p) (snd p) /\ forall b k, tcell (snd p) b k -> nbufs h <= b.

Lemma tfr_weaken (X : nat -> nat -> Prop) h h' : tfr none h h' -> tfr X h h'.
Proof. apply tfr_mono. intros b k _ []. Qed.
Lemma chg_refl h C : tgood h C -> chg h C (h, C).
Proof. intros G. split; [apply tfr_refl|]. split; auto. Qed.
Lemma chg_trans h C h1 C1 p : chg h C (h1, C1) -> chg h1 C1 p -> chg h C p.
Proof.
  intros [F1 [G1 X1]] [F2 [G2 X2]]. simpl in *. split; [|split; auto].
  - eapply tfr_trans'; eauto.
  - intros b k H Hb. apply X1; auto. apply X2; auto. destruct F1. lia.
Qed.
Lemma chg_from h h1 C p : tfr none h h1 -> chg h1 C p -> chg h C p.
Proof.
  intros F1 [F2 [G2 X2]]. split; [|split; auto].
  - eapply tfr_trans; [apply tfr_weaken; eauto|auto].
  - intros b k H Hb. apply X2; auto. destruct F1. lia.
Qed.
Lemma made_from h h1 p : tfr none h h1 -> made h1 p -> made h p.
Proof.
  intros F1 [F2 [G2 X2]]. split; [eapply tfr_trans; eauto|split; auto]. intros b k H. pose proof (X2 b k H). destruct F1. lia.
Qed.
Lemma made_chg h h1 C p : made h (h1, C) -> chg h1 C p -> made h p.
Proof.
  intros [F1 [G1 X1]] [F2 [G2 X2]]. simpl in *. split; [|split; auto].
  - eapply tfr_trans'; eauto. intros b k Hb H. pose proof (X1 b k H). lia.
  - intros b k H. destruct (lt_dec b (nbufs h1)) as [L|L]; [eauto|]. destruct F1. lia.
Qed.
Lemma made_TL h C p : made h p -> chg h C p.
Proof.
  intros [F1 [G1 X1]]. split; [apply tfr_weaken; auto|]. split; auto. intros b k H Hb. pose proof (X1 b k H). lia.
Qed.

(** ** Dense *)
Lemma loop_fr (l : list (nat * nat)) d w : forall h h', good h d -> h_loop l d w h = Ok h' -> frame h h' d.
Proof.
  induction l as [|[i j] l IH]; intros h h' G H; simpl in H.
  - inversion H; subst. apply frame_refl.
  - apply bind_Ok in H. destruct H as [v [_ H]]. apply bind_Ok in H. destruct H as [h1 [E H]].
    pose proof (frame_set _ _ _ _ _ _ G E) as F. eapply frame_trans; [exact F|]. apply IH; auto. eapply good_shape; eauto. apply F.
Qed.
Lemma frame_chg h h' d : good h d -> frame h h' d -> chg h (TD d) (h', TD d).
Proof.
  intros G F. split; [|split]; simpl; auto.
  - eapply tfr_mono; [|apply frame_tfr; exact F]. intros b k _ H. apply tcell_TD. auto.
  - eapply good_shape; eauto. apply F.
Qed.
Lemma new_made h r c h1 d : h_new h r c = (h1, d) -> made h (h1, TD d).
Proof.
  intros E. destruct (h_new_spec h r c) as [h2 [d2 [E2 [X [G [_ [_ [B _]]]]]]]]. rewrite E in E2. inversion E2; subst.
  split; [apply extends_tfr; auto|]. split; auto. intros b k H. apply tcell_TD in H. destruct H as [-> _]. simpl in *. lia.
Qed.
Lemma gemm_fr (a b c : hdense) alpha beta tA tB h h' : good h c -> hdd_gemm a b c alpha beta tA tB h = Ok h' -> chg h (TD c) (h', TD c).
Proof.
  intros G H. unfold hdd_gemm in H. apply assert_Ok in H. destruct H as [_ H]. apply assert_Ok in H. destruct H as [_ H]. apply assert_Ok in H. destruct H as [_ H].
  apply frame_chg; auto. eapply loop_fr; eauto.
Qed.
Lemma mul_fr (a b : hdense) alpha tA tB h h' d : hdd_mul a b alpha tA tB h = Ok (h', d) -> made h (h', TD d).
Proof.
  intros H. unfold hdd_mul in H. apply assert_Ok in H. destruct H as [_ H]. destruct (h_new h _ _) as [h1 c] eqn:E. apply new_made in E.
  apply bind_Ok in H. destruct H as [h2 [H1 H2]]. inversion H2; subst. eapply made_chg; [exact E|]. eapply gemm_fr; eauto. apply E.
Qed.
Lemma transpose_fr d h h' e : h_transpose h d = Ok (h', e) -> made h (h', TD e).
Proof.
  intros H. unfold h_transpose in H. destruct (h_new h _ _) as [h1 c] eqn:E. apply new_made in E.
  apply bind_Ok in H. destruct H as [h2 [H1 H2]]. inversion H2; subst. eapply made_chg; [exact E|]. apply frame_chg; [apply E|].
  eapply loop_fr; eauto. apply E.
Qed.
Lemma factor_fr t (x y : hdense) h h' d : hfactor t x y h = Ok (h', d) -> tfr none h h'.
Proof.
  unfold hfactor. destruct t; intros H; [apply transpose_fr in H; apply H|]. inversion H; subst. apply tfr_refl.
Qed.
Lemma d_store_fr (D : dense) h h' d : d_store D h = Ok (h', d) -> made h (h', TD d).
Proof.
  intros H. destruct (d_store_ok D h) as [h1 [e [E MK]]]. rewrite E in H. inversion H; subst. destruct MK as [F [[G _] [_ Y]]]. split; auto.
Qed.
Lemma lr_store_fr (L : lowrank) h h' l : lr_store L h = Ok (h', l) -> made h (h', TL l).
Proof.
  intros H. unfold lr_store in H. apply bind_Ok in H. destruct H as [[h1 U] [H1 H]]. apply bind_Ok in H. destruct H as [[h2 D] [H2 H]]. apply bind_Ok in H. destruct H as [[h3 V] [H3 H]].
  inversion H; subst; clear H. apply d_store_fr in H1, H2, H3.
  destruct H1 as [F1 [G1 X1]]. destruct H2 as [F2 [G2 X2]]. destruct H3 as [F3 [G3 X3]]. simpl in *.
  split; [|split]; simpl.
  - eapply tfr_trans; [eauto|]. eapply tfr_trans; eauto.
  - split; [|split]; simpl; auto; [eapply tfr_good; [eapply tfr_trans; [exact F2|exact F3]|auto]|eapply tfr_good; [exact F3|auto]].
  - intros b k H. apply tcell_TL in H. simpl in H. rewrite <- !tcell_TD in H. destruct F1 as [N1 _]. destruct F2 as [N2 _].
    destruct H as [H|[H|H]]; [apply X1 in H|apply X2 in H|apply X3 in H]; lia.
Qed.
Lemma hscale_fr d (b : R) h h' : good h d -> hscale d b h = Ok h' -> frame h h' d.
Proof. intros G H. eapply loop_fr; eauto. Qed.
Lemma hscale_S_fr l (b : R) h h' : lgood h l -> hscale (q_S l) b h = Ok h' -> chg h (TL l) (h', TL l).
Proof.
  intros [G1 [G2 G3]] H. apply hscale_fr in H; auto. split; [|split]; simpl; auto.
  - eapply tfr_mono; [|apply frame_tfr; exact H]. intros b0 k _ HH. apply tcell_TL. auto.
  - assert (SH : same_shape h h') by apply H. split; [|split]; eapply good_shape; eauto.
Qed.

(** ** Grids *)
Lemma tcell_block m n f i j b k : i < m -> j < n -> tcell (f i j) b k -> tcell (TH m n f) b k.
Proof. intros Hi Hj H. apply tcell_TH. eauto. Qed.
Lemma put_chg h m n f i j h1 x : i < m -> j < n -> tgood h (TH m n f) -> chg h (f i j) (h1, x) -> chg h (TH m n f) (h1, TH m n (put f i j x)).
Proof.
  intros Hi Hj G [F [G1 X]]. simpl in *. split; [|split]; simpl.
  - eapply tfr_mono; [|exact F]. intros b k _ H. eapply tcell_block; eauto.
  - intros i' j' Hi' Hj'. destruct (Nat.eq_dec i' i) as [->|NE]; [destruct (Nat.eq_dec j' j) as [->|NE]|].
    + rewrite put_same. auto.
    + rewrite put_other by congruence. eapply tfr_tgood; eauto.
    + rewrite put_other by congruence. eapply tfr_tgood; eauto.
  - intros b k H Hb. apply tcell_TH in H. destruct H as [i' [j' [Hi' [Hj' H]]]].
    destruct (Nat.eq_dec i' i) as [->|NE]; [destruct (Nat.eq_dec j' j) as [->|NE]|].
    + rewrite put_same in H. eapply tcell_block; eauto.
    + rewrite put_other in H by congruence. eapply tcell_block; eauto.
    + rewrite put_other in H by congruence. eapply tcell_block; eauto.
Qed.
(** Blocks whose body always starts from the original block. *)
Lemma grid_fr m n c body : forall (l : list (nat * nat)) h f h' c',
  tgood h (TH m n f) -> NoDup l -> (forall i j, In (i, j) l -> f i j = c i j) ->
  (forall i j h1 h2 x, In (i, j) l -> (i < m -> j < n -> tgood h1 (c i j)) -> body i j h1 = Ok (h2, x) -> i < m /\ j < n /\ chg h1 (c i j) (h2, x)) ->
  glist l body h f = Ok (h', c') -> chg h (TH m n f) (h', TH m n c').
Proof.
  induction l as [|[i j] l IH]; intros h f h' c' G ND EQ HB H; simpl in H.
  - inversion H; subst. apply chg_refl; auto.
  - apply bind_Ok in H. destruct H as [[h1 x] [H1 H]]. inversion ND as [|? ? NI ND']; subst.
    assert (Eij : f i j = c i j) by (apply EQ; left; auto).
    destruct (HB i j h h1 x) as [Hi [Hj CH]]; [left; auto|intros Hi Hj; rewrite <- Eij; apply G; auto|auto|].
    rewrite <- Eij in CH. pose proof (put_chg _ _ _ _ _ _ _ _ Hi Hj G CH) as P.
    eapply chg_trans; [exact P|]. eapply IH; [apply P|auto| |intros; eapply HB; eauto; right; auto|exact H].
    intros i' j' Hin. rewrite put_other; [apply EQ; right; auto|]. congruence.
Qed.
Lemma hgrid_fr m n c (b : nat -> nat -> heap -> outcome heap) : forall (l : list (nat * nat)) h h',
  tgood h (TH m n c) -> (forall i j, In (i, j) l -> i < m /\ j < n) ->
  (forall i j h1 h2, i < m -> j < n -> tgood h1 (c i j) -> b i j h1 = Ok h2 -> chg h1 (c i j) (h2, c i j)) ->
  hlist l b h = Ok h' -> chg h (TH m n c) (h', TH m n c).
Proof.
  induction l as [|[i j] l IH]; intros h h' G HI HB H; simpl in H.
  - inversion H; subst. apply chg_refl; auto.
  - apply bind_Ok in H. destruct H as [h1 [H1 H]]. destruct (HI i j) as [Hi Hj]; [left; auto|].
    apply HB in H1; auto. assert (P : chg h (TH m n c) (h1, TH m n c)).
    { destruct H1 as [F [G1 X]]. simpl in *. split; [|split]; simpl; auto.
      - eapply tfr_mono; [|exact F]. intros b0 k _ HH. eapply tcell_block; eauto.
      - intros i' j' Hi' Hj'. eapply tfr_tgood; [exact F|]. apply G; auto. }
    eapply chg_trans; [exact P|]. apply IH; auto; [apply P|]. intros; apply HI; right; auto.
Qed.
Lemma for_fr h C K (body : nat -> heap * htree -> outcome (heap * htree)) p : tgood h C ->
  (forall k h1 C1 p1, k < K -> tgood h1 C1 -> body k (h1, C1) = Ok p1 -> chg h1 C1 p1) ->
  for_loop K body (h, C) = Ok p -> chg h C p.
Proof.
  intros G HB H. apply (for_loop_inv_out _ _ _ _ (fun _ q => chg h C q) H); [apply chg_refl; auto|].
  intros k [h1 C1] p1 Hk CH E. eapply chg_trans; [exact CH|]. eapply HB; eauto. apply CH.
Qed.
Lemma new_fr body : forall (l : list (nat * nat)) h0 h f h' c' , NoDup l -> tfr none h0 h ->
  (forall i j h1 p, In (i, j) l -> body i j h1 = Ok p -> made h1 p) ->
  glist l body h f = Ok (h', c') -> tfr none h h' /\
    (forall i j, In (i, j) l -> tgood h' (c' i j) /\ forall b k, tcell (c' i j) b k -> nbufs h0 <= b) /\
    (forall i j, ~ In (i, j) l -> c' i j = f i j).
Proof.
  induction l as [|[i j] l IH]; intros h0 h f h' c' ND F HB H; simpl in H.
  - inversion H; subst. split; [apply tfr_refl|]. split; [intros ? ? []|auto].
  - apply bind_Ok in H. destruct H as [[h1 x] [H1 H]]. inversion ND as [|? ? NI ND']; subst.
    apply HB in H1; [|left; auto]. destruct H1 as [F1 [G1 X1]]. simpl in *.
    assert (F01 : tfr none h0 h1) by (eapply tfr_trans; eauto).
    destruct (IH h0 h1 (put f i j x) h' c' ND' F01) as [F2 [P2 P3]]; [intros; eapply HB; eauto|auto|].
    split; [eapply tfr_trans; eauto|]. split.
    + intros i' j' [E|Hin]; [|auto]. inversion E; subst. rewrite P3 by auto. rewrite put_same.
      split; [eapply tfr_tgood; eauto|]. intros b k Hc. apply X1 in Hc. destruct F as [NB _]. lia.
    + intros i' j' NI'. rewrite P3 by tauto. apply put_other. intros E. apply NI'. left. congruence.
Qed.

(** ** Splitting *)
Lemma children_bufs l (A : hdense) : forall h h' ds, h_children l false A h = Ok (h', ds) -> h_bufs h' = h_bufs h.
Proof.
  induction l as [|[rr cr] l IH]; intros h h' ds H; simpl in H; [inversion H; auto|].
  apply bind_Ok in H. destruct H as [[h2 es] [H1 H]]. inversion H; subst. apply IH in H1. simpl in H1. auto.
Qed.
Lemma factor_bufs d rs cs k h h' ds : split_factor d rs cs k false h = Ok (h', ds) -> h_bufs h' = h_bufs h.
Proof. unfold split_factor. destruct (1 <? k); intros H; [eapply children_bufs; exact H|inversion H; auto]. Qed.
Lemma glist_same (body : nat -> nat -> heap -> outcome (heap * htree)) : forall l h f h' c', (forall i j h1 h2 x, body i j h1 = Ok (h2, x) -> h2 = h1) ->
  glist l body h f = Ok (h', c') -> h' = h.
Proof.
  induction l as [|[i j] l IH]; intros h f h' c' HB H; simpl in H; [inversion H; auto|].
  apply bind_Ok in H. destruct H as [[h1 x] [H1 H]]. apply IH in H; auto. apply HB in H1. congruence.
Qed.
Definition flat (T : htree) : Prop := match T with TD _ | TL _ => True | _ => False end.
Lemma split_fr T nr nc h h' T' : flat T -> tsplit_n T nr nc false h = Ok (h', T') -> h_bufs h' = h_bufs h.
Proof.
  intros FL H. unfold tsplit_n in H. apply bind_Ok in H. destruct H as [rs [_ H]]. apply bind_Ok in H. destruct H as [cs [_ H]].
  destruct T as [d|l| | |]; try destruct FL; simpl in H.
  - apply bind_Ok in H. destruct H as [[h1 ds] [H1 H]]. inversion H; subst. eapply children_bufs; exact H1.
  - apply bind_Ok in H. destruct H as [[h1 us] [H1 H]]. apply bind_Ok in H. destruct H as [[h2 vs] [H2 H]]. apply bind_Ok in H. destruct H as [[h3 f] [H3 H]].
    inversion H; subst. apply factor_bufs in H1, H2. apply glist_same in H3; [congruence|]. intros i j h4 h5 x E. simpl in E. inversion E; auto.
Qed.
Lemma split_tfr T nr nc h h' T' : flat T -> tsplit_n T nr nc false h = Ok (h', T') -> tfr none h h'.
Proof. intros FL H. apply tfr_bufs. eapply split_fr; eauto. Qed.
Lemma sim_self h d : good h d -> sim h (TD d) (MD (dread h d)).
Proof. intros G. apply sim_TD. split; auto. apply deq_refl. Qed.
Lemma ranges_len n k rs : nat_ranges (ir_split (IR 0 (Z.of_nat n)) (Z.of_nat k)) = Ok rs -> k = 0 -> rs = [].
Proof. intros H ->. inversion H. auto. Qed.
Lemma split_into c nr nc h h' T' : good h c -> tsplit_n (TD c) nr nc false h = Ok (h', T') ->
  tfr none h h' /\ tgood h' T' /\ forall b k, tcell T' b k -> cell c b k.
Proof.
  intros G H. split; [eapply split_tfr; [|exact H]; exact I|].
  destruct (Nat.eq_dec nr 0) as [E0|E0]; [|destruct (Nat.eq_dec nc 0) as [E1|E1]].
  - unfold tsplit_n in H. apply bind_Ok in H. destruct H as [rs [Hr H]]. apply bind_Ok in H. destruct H as [cs [Hc H]].
    apply ranges_len in Hr; auto. subst rs. simpl in H. inversion H; subst. split; [intros i j Hi; lia|]. intros b k Hk. apply tcell_TH in Hk. destruct Hk as [i [j [Hi _]]]. lia.
  - unfold tsplit_n in H. apply bind_Ok in H. destruct H as [rs [Hr H]]. apply bind_Ok in H. destruct H as [cs [Hc H]].
    apply ranges_len in Hc; auto. subst cs. simpl in H. apply bind_Ok in H. destruct H as [[h1 ds] [_ H]]. inversion H; subst. simpl. split; [intros i j Hi Hj; lia|].
    intros b k Hk. apply tcell_TH in Hk. destruct Hk as [i [j [Hi [Hj _]]]]. lia.
  - pose proof (split_D_sim h c _ nr nc (sim_self _ _ G) ltac:(lia) ltac:(lia)) as S. rewrite H in S.
    destruct (split (MD (dread h c)) nr nc); simpl in S; try contradiction. destruct S as [_ [f [mb [wr [wc [E [_ [SM [TT _]]]]]]]]]. subst T'.
    split; [apply SM|]. intros b k Hk. apply (tiles_cells _ _ _ _ _ _ _ _ _ TT) in Hk. tauto.
Qed.

(** ** += and scaling *)
Ltac undo H := apply bind_Ok in H; let x := fresh "r" in destruct H as [x [? H]]; lazymatch type of x with (_ * _)%type => destruct x as [? ?] | _ => idtac end; cbv beta iota in H.
Lemma acc_fr a b h p : hlr_acc Or a b h = Ok p -> made h p.
Proof.
  intros H. unfold hlr_acc in H. apply assert_Ok in H. destruct H as [_ H]. apply assert_Ok in H. destruct H as [_ H].
  apply bind_Ok in H. destruct H as [L [_ H]]. undo H. inversion H; subst. eapply lr_store_fr; eauto.
Qed.
Lemma add_fr (a b : hdense) h h' : good h a -> hd_add a b h = Ok h' -> chg h (TD a) (h', TD a).
Proof. intros G H. apply frame_chg; auto. eapply loop_fr; eauto. Qed.
Lemma add_lr_fr (a : hdense) b h h' : good h a -> hd_add_lr a b h = Ok h' -> chg h (TD a) (h', TD a).
Proof.
  intros G H. unfold hd_add_lr in H. undo H. apply mul_fr in H0. destruct H0 as [F _]. simpl in F.
  eapply chg_from; [exact F|]. eapply gemm_fr; eauto. eapply tfr_good; eauto.
Qed.
Lemma in_bounds m n i j : In (i, j) (ij_all m n) -> i < m /\ j < n.
Proof. apply in_ij_all. Qed.
Lemma tscale_fr T : forall (b : R) h h', tgood h T -> tscale T b h = Ok h' -> chg h T (h', T).
Proof.
  induction T as [d|l|m n f IH| |]; intros b h h' G H; simpl in H; try discriminate.
  - apply frame_chg; auto. eapply hscale_fr; eauto.
  - eapply hscale_S_fr; eauto.
  - eapply hgrid_fr; [exact G|apply in_bounds| |exact H]. intros i j h1 h2 Hi Hj G1 E. apply (IH i j b); auto.
Qed.
Lemma tadd_fr C : forall B h p, tgood h C -> tadd Or C B h = Ok p -> chg h C p.
Proof.
  induction C as [d|l|m n f IH| |]; intros B h p G H; destruct B as [d'|l'|m' n' f'| |]; cbn [tadd] in H; try discriminate.
  - apply bind_Ok in H. destruct H as [h' [H1 H]]. inversion H; subst. eapply add_fr; eauto.
  - apply bind_Ok in H. destruct H as [h' [H1 H]]. inversion H; subst. eapply add_lr_fr; eauto.
  - apply acc_fr in H. apply made_TL; auto.
  - undo H. destruct h1; try discriminate. undo H. inversion H; subst.
    assert (F : tfr none h h0) by (eapply split_tfr; [|exact H0]; exact I).
    eapply chg_from; [exact F|]. eapply grid_fr; [eapply tfr_tgood; [exact F|exact G]|apply nodup_ij|reflexivity| |exact H1].
    intros i j h5 h6 x Hin G1 E. apply in_bounds in Hin. destruct Hin as [Hi Hj]. split; auto. split; auto. apply (IH i j _ _ _ (G1 Hi Hj) E).
  - destruct (_ && _); [|discriminate]. undo H. inversion H; subst.
    eapply grid_fr; [exact G|apply nodup_ij|reflexivity| |exact H0].
    intros i j h5 h6 x Hin G1 E. apply in_bounds in Hin. destruct Hin as [Hi Hj]. split; auto. split; auto. apply (IH i j _ _ _ (G1 Hi Hj) E).
Qed.
Lemma acc_lr_fr c beta x h p : lgood h c -> hacc_lr Or c beta x h = Ok p -> chg h (TL c) p.
Proof.
  intros G H. unfold hacc_lr in H. apply bind_Ok in H. destruct H as [h1 [H1 H]]. pose proof (hscale_S_fr _ _ _ _ G H1) as P.
  eapply chg_trans; [exact P|]. apply acc_fr in H. apply made_TL; auto.
Qed.
Lemma acc_h_fr C beta x h p : tgood h C -> hacc_h Or C beta x h = Ok p -> chg h C p.
Proof.
  intros G H. unfold hacc_h in H. apply bind_Ok in H. destruct H as [h1 [H1 H]]. apply tscale_fr in H1; auto.
  eapply chg_trans; [exact H1|]. eapply tadd_fr; eauto. apply H1.
Qed.
Lemma mid_fr a b alpha tA tB h h' d : hlr_lr_mid a b alpha tA tB h = Ok (h', d) -> tfr none h h'.
Proof.
  intros H. unfold hlr_lr_mid in H. undo H. undo H. apply mul_fr in H, H0, H1.
  destruct H as [F1 _], H0 as [F2 _], H1 as [F3 _]. simpl in *. eapply tfr_trans; [exact F2|]. eapply tfr_trans; eauto.
Qed.
Lemma compress_fr c d h h' l : hcompress_like Or c d h = Ok (h', l) -> tfr none h h'.
Proof. intros H. unfold hcompress_like in H. apply bind_Ok in H. destruct H as [L [_ H]]. apply lr_store_fr in H. apply H. Qed.

(** ** gemm *)
Definition gfr (g : @hgemm_t R) : Prop := forall A B C alpha beta tA tB h p, tgood h C -> g A B C alpha beta tA tB h = Ok p -> chg h C p.
Definition nfr (gn : @hnew_t R) : Prop := forall A B alpha tA tB h p, gn A B alpha tA tB h = Ok p -> made h p.
Section Step.
Variable g : @hgemm_t R.
Variable gn : @hnew_t R.
Hypothesis Hg : gfr g.
Hypothesis Hgn : nfr gn.

Lemma views_fr A B c nr nc alpha beta tA tB h p : good h c -> hinto_views g A B c nr nc alpha beta tA tB h = Ok p -> chg h (TD c) p.
Proof.
  intros G H. unfold hinto_views in H. undo H. undo H. inversion H; subst. destruct (split_into _ _ _ _ _ _ G H0) as [F1 [G1 X1]].
  apply Hg in H1; auto. destruct H1 as [F2 _]. simpl in F2.
  assert (F : tfr (tcell (TD c)) h h2). { eapply tfr_trans; [apply tfr_weaken; exact F1|]. eapply tfr_mono; [|exact F2]. intros b k _ Hk. apply tcell_TD. auto. }
  split; [exact F|]. split; [eapply tfr_good; eauto|auto].
Qed.
Lemma vec_fr m n c j (cj : htree) : tvec m n c j = Ok cj -> exists i k, i < m /\ k < n /\ cj = c i k /\ (m = 1 -> i = 0 /\ k = j) /\ (n = 1 -> i = j \/ (m = 1)).
Proof.
  unfold tvec. destruct (Nat.eqb_spec m 1).
  - intros H. apply assert_Ok in H. destruct H as [H1 H]. inversion H; subst. apply Nat.ltb_lt in H1. exists 0, j. repeat split; auto; lia.
  - destruct (Nat.eqb_spec n 1); [|discriminate]. intros H. apply assert_Ok in H. destruct H as [H1 H]. inversion H; subst. apply Nat.ltb_lt in H1.
    exists j, 0. repeat split; auto; lia.
Qed.
Lemma row_fr A m n c tA tB alpha beta (f : nat -> outcome htree) h h' c' : m = 1 -> tgood h (TH m n c) ->
  glist (ij_all 1 n) (fun _ j h => let* bj := f j in let* cj := tvec m n c j in g A bj cj alpha beta tA tB h) h c = Ok (h', c') ->
  chg h (TH m n c) (h', TH m n c').
Proof.
  intros -> G H. eapply grid_fr; [exact G|apply nodup_ij|reflexivity| |exact H].
  intros i j h1 h2 x Hin G1 E. apply in_bounds in Hin. destruct Hin as [Hi Hj]. split; auto. split; auto.
  apply bind_Ok in E. destruct E as [bj [_ E]]. apply bind_Ok in E. destruct E as [cj [E1 E]].
  unfold tvec in E1. simpl in E1. apply assert_Ok in E1. destruct E1 as [_ E1]. inversion E1; subst. assert (i = 0) by lia. subst i. eapply Hg; eauto.
Qed.
Lemma col_fr B K m n c tA tB alpha beta (f : nat -> outcome htree) h h' c' : n = 1 -> tgood h (TH m n c) ->
  glist (ij_all K 1) (fun i _ h => let* ai := f i in let* ci := tvec m n c i in g ai B ci alpha beta tA tB h) h c = Ok (h', c') ->
  chg h (TH m n c) (h', TH m n c').
Proof.
  intros -> G H. eapply grid_fr; [exact G|apply nodup_ij|reflexivity| |exact H].
  intros i j h1 h2 x Hin G1 E. apply in_bounds in Hin. destruct Hin as [Hi Hj]. assert (j = 0) by lia. subst j.
  apply bind_Ok in E. destruct E as [bj [_ E]]. apply bind_Ok in E. destruct E as [cj [E1 E]].
  assert (Q : i < m /\ cj = c i 0).
  { unfold tvec in E1. destruct (Nat.eqb_spec m 1).
    - apply assert_Ok in E1. destruct E1 as [L E1]. apply Nat.ltb_lt in L. inversion E1; subst. assert (i = 0) by lia. subst i. split; auto.
    - simpl in E1. apply assert_Ok in E1. destruct E1 as [L E1]. apply Nat.ltb_lt in L. inversion E1; subst. auto. }
  destruct Q as [Q ->]. split; auto. split; auto. eapply Hg; eauto.
Qed.

Ltac open H := repeat (lazymatch type of H with
  | bind _ _ = Ok _ => undo H
  | (if ?b then _ else AssertFail) = Ok _ => let E := fresh "As" in destruct b eqn:E; [|discriminate H]
  | (if ?b then _ else _) = Ok _ => let E := fresh "Tt" in destruct b eqn:E
  | Ok _ = Ok _ => injection H; clear H; intros; subst
  | Abort = Ok _ => discriminate H
  | AssertFail = Ok _ => discriminate H
  end).
Ltac quiet := repeat match goal with
  | H : hdd_mul _ _ _ _ _ _ = Ok _ |- _ => apply mul_fr in H; destruct H as [H _]; cbn [fst] in H
  | H : hfactor _ _ _ _ = Ok _ |- _ => apply factor_fr in H
  | H : hlr_left _ _ _ = Ok _ |- _ => apply factor_fr in H
  | H : hlr_mid _ _ _ = Ok _ |- _ => apply factor_fr in H
  | H : hlr_right _ _ _ = Ok _ |- _ => apply factor_fr in H
  | H : hlr_lr_mid _ _ _ _ _ _ = Ok _ |- _ => apply mid_fr in H
  | H : hcompress_like _ _ _ _ = Ok _ |- _ => apply compress_fr in H
  | H : lr_store _ _ = Ok _ |- _ => apply lr_store_fr in H
  | H : gn _ _ _ _ _ _ = Ok _ |- _ => apply Hgn in H; destruct H as [H _]; cbn [fst] in H
  | H : tsplit_n _ _ _ false _ = Ok _ |- _ => apply split_tfr in H; [|exact I]
  end.
Ltac adv := repeat match goal with
  | G : tgood ?h ?C, H : tfr none ?h ?h1 |- chg ?h ?C _ => apply (chg_from h h1 C _ H); apply (tfr_tgood _ _ _ _ H) in G; clear H
  end.

Lemma step_fr : gfr (hgemm_step Or g gn).
Proof.
  intros A B C alpha beta tA tB h p G H. unfold hgemm_step in H.
  apply assert_Ok in H. destruct H as [_ H]. apply assert_Ok in H. destruct H as [_ H]. apply assert_Ok in H. destruct H as [_ H].
  destruct A as [a|a|am an a|ar ac|]; destruct B as [b|b|bm bn b|br bc|]; destruct C as [c|c|m n c|cr cc|]; try discriminate; open H; quiet; adv;
  try (eapply gemm_fr; eassumption); try (eapply acc_lr_fr; eassumption); try (eapply acc_h_fr; eassumption); try (eapply Hg; eassumption);
  try (eapply views_fr; eassumption).
  all: try (eapply row_fr; [|eassumption|eassumption]; apply andb_true_iff in Tt0; destruct Tt0 as [_ Tt0]; apply Nat.eqb_eq in Tt0; exact Tt0).
  all: try (eapply col_fr; [|eassumption|eassumption]; apply andb_true_iff in Tt0; destruct Tt0 as [_ Tt0]; apply Nat.eqb_eq in Tt0; exact Tt0).
  - eapply chg_trans; [eapply hscale_S_fr; eassumption|]. eapply chg_from; [eassumption|]. eapply chg_from; [eassumption|]. apply made_TL. eapply acc_fr; eassumption.
  - eapply for_fr; [exact G| |exact H]. intros k h1 C1 p1 _ G1 E. cbv beta iota in E. undo E. undo E. eapply Hg; eassumption.
  - apply d_store_fr in H1. apply Hg in H2; [|apply H1]. pose proof (made_chg _ _ _ _ H1 H2) as M. eapply chg_from; [apply M|]. apply made_TL; auto.
  - eapply chg_from; [apply H2|]. eapply acc_lr_fr; [|exact H]. eapply tfr_tgood in G; [exact G|apply H2].
  - eapply grid_fr; [exact G|apply nodup_ij|reflexivity| |exact H0].
    intros i j h2 h3 x Hin G1 E. apply in_bounds in Hin. destruct Hin as [Hi Hj]. split; auto. split; auto.
    eapply for_fr; [auto| |exact E]. intros k h4 C1 p1 _ G2 E2. cbv beta iota in E2. eapply Hg; eassumption.
Qed.

Lemma zeros_fr A B alpha tA tB r c h h1 d p : h_new h r c = (h1, d) -> g A B (TD d) alpha 0%r tA tB h1 = Ok p -> made h p.
Proof. intros E H. apply new_made in E. eapply made_chg; [exact E|]. eapply Hg; [apply E|exact H]. Qed.
Lemma new_step_fr : nfr (hnew_step g gn).
Proof.
  intros A B alpha tA tB h p H. unfold hnew_step in H. apply assert_Ok in H. destruct H as [_ H].
  assert (Z : forall r c, (let '(h1, d) := h_new h r c in g A B (TD d) alpha 0%r tA tB h1) = Ok p -> made h p).
  { intros r c E. destruct (h_new h r c) as [h1 d] eqn:E1. eapply zeros_fr; eauto. }
  destruct A as [a|a|am an a|ar ac|]; destruct B as [b|b|bm bn b|br bc|]; try (exact (Z _ _ H)).
  destruct (_ && _); [exact (Z _ _ H)|]. undo H. injection H; clear H; intros; subst. unfold gridM in H0.
  apply (new_fr _ _ h) in H0; [|apply nodup_ij|apply tfr_refl|].
  - destruct H0 as [F [P _]]. split; [exact F|]. split.
    + intros i j Hi Hj. apply P. apply in_ij_all; auto.
    + intros b0 k Hk. apply tcell_TH in Hk. destruct Hk as [i [j [Hi [Hj Hk]]]]. destruct (P i j) as [_ P2]; [apply in_ij_all; auto|]. eapply P2; eauto.
  - intros i j h2 p Hin E. undo E. apply Hgn in H. eapply made_chg; [exact H|]. eapply for_fr; [apply H| |exact E].
    intros k h5 C1 p1 _ G2 E2. cbv beta iota in E2. apply assert_Ok in E2. destruct E2 as [_ E2]. eapply Hg; eassumption.
Qed.
End Step.

Lemma pair_fr fuel : gfr (fst (hgemm_pair Or fuel)) /\ nfr (snd (hgemm_pair Or fuel)).
Proof.
  induction fuel as [|f [IH1 IH2]]; simpl.
  - split; [intros A B C alpha beta tA tB h p _ H; discriminate|intros A B alpha tA tB h p H; discriminate].
  - split; [apply step_fr; auto|apply new_step_fr; auto].
Qed.
Lemma hgemm_fr fuel : gfr (hgemm Or fuel).
Proof. apply pair_fr. Qed.
Lemma hgemm_new_fr fuel : nfr (hgemm_new Or fuel).
Proof. apply pair_fr. Qed.
End Proofs.
