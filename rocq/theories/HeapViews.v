(** Windows into shared storage, and which objects are windows. *)
From Coq Require Import List Arith Lia Bool.
From Verif Require Import Prelude Ring MatFun Matrix MatOps MatOpsProofs Heap HeapProofs HeapHistory.
Import ListNotations.
Local Open Scope nat_scope.

(** The ranges cover 0..n-1, every index exactly once. *)
Definition covers (n : nat) (l : list (nat * nat)) : Prop :=
  (forall r, In r l -> fst r + snd r <= n) /\
  forall x, x < n -> exists p r, nth_error l p = Some r /\ fst r <= x < fst r + snd r /\
    forall p' r', nth_error l p' = Some r' -> fst r' <= x < fst r' + snd r' -> p' = p.

Section Views.
Context {R : cring}.
Notation heap := (heap R).
Notation state := (state R).
Notation cmd := (cmd R).
Notation mat := (mat R).
Implicit Types (h : heap) (s : state) (v : R).

(** [d] shows the part of [A] with upper left corner (x,y), whatever the storage holds. *)
Definition window (d A : hdense) (x y : nat) : Prop :=
  h_buf d = h_buf A /\ forall i j, addr d i j = addr A (x + i) (y + j).

Lemma window_get d A x y : window d A x y -> x + h_r d <= h_r A -> y + h_c d <= h_c A ->
  forall h i j, i < h_r d -> j < h_c d -> h_get h d i j = h_get h A (x + i) (y + j).
Proof.
  intros [W1 W2] Hr Hc h i j Hi Hj. unfold h_get. rewrite W1, W2.
  destruct (Nat.ltb_spec i (h_r d)); [|lia]. destruct (Nat.ltb_spec j (h_c d)); [|lia].
  destruct (Nat.ltb_spec (x + i) (h_r A)); [|lia]. destruct (Nat.ltb_spec (y + j) (h_c A)); [|lia]. reflexivity.
Qed.

Lemma window_set d A x y : window d A x y -> x + h_r d <= h_r A -> y + h_c d <= h_c A ->
  forall h i j v, i < h_r d -> j < h_c d -> h_set h d i j v = h_set h A (x + i) (y + j) v.
Proof.
  intros [W1 W2] Hr Hc h i j v Hi Hj. unfold h_set. rewrite W1, W2.
  destruct (Nat.ltb_spec i (h_r d)); [|lia]. destruct (Nat.ltb_spec j (h_c d)); [|lia].
  destruct (Nat.ltb_spec (x + i) (h_r A)); [|lia]. destruct (Nat.ltb_spec (y + j) (h_c A)); [|lia]. reflexivity.
Qed.

(** Windows at disjoint places share no storage cell. *)
Lemma windows_apart h A d e x y x' y' : good h A -> window d A x y -> window e A x' y' ->
  y + h_c d <= h_c A -> y' + h_c e <= h_c A ->
  (x + h_r d <= x' \/ x' + h_r e <= x \/ y + h_c d <= y' \/ y' + h_c e <= y) -> apart d e.
Proof.
  intros G [W1 W2] [V1 V2] H1 H2 HD b k [_ [i [j [Hi [Hj Ek]]]]] [_ [i' [j' [Hi' [Hj' Ek']]]]].
  rewrite W2 in Ek. rewrite V2 in Ek'. rewrite Ek in Ek'.
  destruct (good_inj h A (x + i) (y + j) (x' + i') (y' + j') G); lia.
Qed.

Lemma pairs_nth {A B} (l : list A) (m : list B) p q a b : nth_error l p = Some a -> nth_error m q = Some b ->
  nth_error (pairs l m) (p * length m + q) = Some (a, b).
Proof.
  revert p. induction l as [|x l IH]; intros [|p] Ha Hb; simpl in Ha; try discriminate.
  - inversion Ha; subst. simpl. assert (Hq : q < length m) by (apply nth_error_Some; congruence).
    rewrite nth_error_app1 by (rewrite map_length; auto). rewrite nth_error_map, Hb. reflexivity.
  - simpl. rewrite nth_error_app2 by (rewrite map_length; lia). rewrite map_length.
    replace (length m + p * length m + q - length m) with (p * length m + q) by lia. apply IH; auto.
Qed.

(** Non-copying split of any object, itself possibly a window. *)
Lemma h_split_views h A rs cs : good h A ->
  (forall r, In r rs -> fst r + snd r <= h_r A) -> (forall r, In r cs -> fst r + snd r <= h_c A) ->
  exists h' ds, h_split h A rs cs false = Ok (h', ds) /\ h_bufs h' = h_bufs h /\ length ds = length rs * length cs /\
   forall p q rr cr, nth_error rs p = Some rr -> nth_error cs q = Some cr ->
    exists d, nth_error ds (p * length cs + q) = Some d /\ good h' d /\ h_r d = snd rr /\ h_c d = snd cr /\
      window d A (fst rr) (fst cr).
Proof.
  intros G Hr Hc. unfold h_split.
  destruct (h_children_spec (pairs rs cs) false A h G) as [h' [ds [E [_ [HL [_ [_ [HB HD]]]]]]]].
  { apply Forall_forall. intros [rr cr] Hin. apply pairs_in in Hin. destruct Hin. split; simpl; auto. }
  exists h', ds. split; auto. split; auto. split; [rewrite HL; apply pairs_length|].
  intros p q rr cr Hp Hq. destruct (HD _ _ _ (pairs_nth _ _ _ _ _ _ Hp Hq)) as [d [D1 [D2 [D3 [D4 [D5 [D6 [D7 D8]]]]]]]].
  exists d. split; auto. split; auto. split; auto. split; auto. split; auto.
Qed.

(** ** Histories of writes through the blocks *)
Record wr := W { w_p : nat; w_q : nat; w_i : nat; w_j : nat; w_v : R }.

Fixpoint do_writes (ds : list hdense) (ncol : nat) (l : list wr) h : outcome heap :=
  match l with
  | [] => Ok h
  | w :: t => match nth_error ds (w_p w * ncol + w_q w) with
              | Some d => let* h' := h_set h d (w_i w) (w_j w) (w_v w) in do_writes ds ncol t h'
              | None => UB
              end
  end.

(** What the last write to (x,y) stored, else the old value. *)
Fixpoint last_write (rs cs : list (nat * nat)) (l : list wr) (f : mat) : mat :=
  match l with
  | [] => f
  | w :: t => last_write rs cs t (fun x y =>
       if (x =? fst (nth (w_p w) rs (0,0)) + w_i w) && (y =? fst (nth (w_q w) cs (0,0)) + w_j w) then w_v w else f x y)
  end.

Definition in_block (rs cs : list (nat * nat)) (w : wr) : Prop :=
  exists rr cr, nth_error rs (w_p w) = Some rr /\ nth_error cs (w_q w) = Some cr /\ w_i w < snd rr /\ w_j w < snd cr.

Lemma last_write_ext rs cs l : forall (f g : mat) r c, feq r c f g -> feq r c (last_write rs cs l f) (last_write rs cs l g).
Proof.
  induction l as [|w l IH]; intros f g r c H; simpl; auto.
  apply IH. intros x y Hx Hy. destruct (_ && _); auto.
Qed.

Lemma window_hent d A x y : window d A x y -> forall h i j, hent h d i j = hent h A (x + i) (y + j).
Proof. intros [W1 W2] h i j. unfold hent. rewrite W1, W2. reflexivity. Qed.

Lemma do_writes_spec A rs cs ds :
  (forall p q rr cr, nth_error rs p = Some rr -> nth_error cs q = Some cr ->
    exists d, nth_error ds (p * length cs + q) = Some d /\ h_r d = snd rr /\ h_c d = snd cr /\
      window d A (fst rr) (fst cr) /\ fst rr + snd rr <= h_r A /\ fst cr + snd cr <= h_c A) ->
  forall l h, good h A -> Forall (in_block rs cs) l ->
  exists h', do_writes ds (length cs) l h = Ok h' /\ frame h h' A /\
    feq (h_r A) (h_c A) (hent h' A) (last_write rs cs l (hent h A)).
Proof.
  intros HD. induction l as [|w l IH]; intros h G HF.
  - simpl. exists h. split; auto. split; [apply frame_refl|]. intros i j _ _. reflexivity.
  - inversion HF as [|x y [rr [cr [Hp [Hq [Hi Hj]]]]] HF']; subst.
    destruct (HD _ _ _ _ Hp Hq) as [d [D1 [D2 [D3 [D4 [D5 D6]]]]]].
    simpl. rewrite D1. rewrite (window_set d A _ _ D4) by lia.
    destruct (h_set_spec h A (fst rr + w_i w) (fst cr + w_j w) (w_v w) G) as [h1 [E1 _]]; [lia|lia|].
    rewrite E1. cbn [bind]. destruct (h_set_entries _ _ _ _ _ _ G E1) as [_ [_ [S1 [E2 _]]]].
    destruct (IH h1 (good_shape _ _ _ G S1) HF') as [h' [E3 [F3 V3]]].
    exists h'. split; auto. split; [eapply frame_trans; eauto; eapply frame_set; eauto|].
    intros i j Hx Hy. rewrite V3 by auto. apply last_write_ext with (r := h_r A) (c := h_c A); auto.
    intros x y Hx' Hy'. rewrite E2 by auto.
    rewrite (nth_error_nth rs (w_p w) (0,0) Hp), (nth_error_nth cs (w_q w) (0,0) Hq). reflexivity.
Qed.

(** The blocks of a tiling determine the matrix. *)
Lemma blocks_determine A rs cs ds (f : mat) h :
  covers (h_r A) rs -> covers (h_c A) cs ->
  (forall p q rr cr, nth_error rs p = Some rr -> nth_error cs q = Some cr ->
    exists d, nth_error ds (p * length cs + q) = Some d /\ window d A (fst rr) (fst cr) /\
     feq (snd rr) (snd cr) (hent h d) (mwin (fst rr) (fst cr) f)) ->
  feq (h_r A) (h_c A) (hent h A) f.
Proof.
  intros [_ Cr] [_ Cc] HD x y Hx Hy.
  destruct (Cr x Hx) as [p [rr [Hp [Hrr _]]]]. destruct (Cc y Hy) as [q [cr [Hq [Hcr _]]]].
  destruct (HD _ _ _ _ Hp Hq) as [d [_ [W V]]].
  specialize (V (x - fst rr) (y - fst cr)). rewrite (window_hent _ _ _ _ W) in V. unfold mwin in V.
  replace (fst rr + (x - fst rr)) with x in V by lia. replace (fst cr + (y - fst cr)) with y in V by lia.
  apply V; lia.
Qed.

Lemma covers_disjoint n l p p' r r' : covers n l -> nth_error l p = Some r -> nth_error l p' = Some r' -> p <> p' ->
  snd r = 0 \/ snd r' = 0 \/ fst r + snd r <= fst r' \/ fst r' + snd r' <= fst r.
Proof.
  intros [C1 C2] Hp Hp' Hne.
  destruct (Nat.eq_dec (snd r) 0); auto. destruct (Nat.eq_dec (snd r') 0); auto.
  destruct (le_lt_dec (fst r + snd r) (fst r')); auto. destruct (le_lt_dec (fst r' + snd r') (fst r)); auto.
  exfalso. apply Hne. assert (In r l) by (eapply nth_error_In; eauto). pose proof (C1 _ H).
  destruct (C2 (Nat.max (fst r) (fst r'))) as [p0 [r0 [_ [_ U]]]]; [lia|].
  rewrite (U p r); [rewrite (U p' r'); auto|auto|]; lia.
Qed.

(** Blocks at different positions of a tiling are apart. *)
Lemma blocks_apart h A rs cs p q p' q' rr cr rr' cr' d e : good h A -> covers (h_r A) rs -> covers (h_c A) cs ->
  nth_error rs p = Some rr -> nth_error cs q = Some cr -> nth_error rs p' = Some rr' -> nth_error cs q' = Some cr' ->
  (p, q) <> (p', q') -> h_r d = snd rr -> h_c d = snd cr -> h_r e = snd rr' -> h_c e = snd cr' ->
  window d A (fst rr) (fst cr) -> window e A (fst rr') (fst cr') -> apart d e.
Proof.
  intros G Cr Cc Hp Hq Hp' Hq' Hne D1 D2 E1 E2 W1 W2.
  assert (B1 : fst cr + snd cr <= h_c A) by (apply Cc; eapply nth_error_In; eauto).
  assert (B2 : fst cr' + snd cr' <= h_c A) by (apply Cc; eapply nth_error_In; eauto).
  assert (HN : forall d0 : hdense, h_r d0 = 0 \/ h_c d0 = 0 -> forall b k, ~ cell d0 b k).
  { intros d0 H0 b k [_ [i [j [Hi [Hj _]]]]]. lia. }
  destruct (Nat.eq_dec p p') as [->|Hpp].
  - assert (Hqq : q <> q') by congruence. destruct (covers_disjoint _ _ _ _ _ _ Cc Hq Hq' Hqq) as [H|[H|H]].
    + intros b k H1 _. apply (HN d) in H1; [auto|right; congruence].
    + intros b k _ H1. apply (HN e) in H1; [auto|right; congruence].
    + eapply windows_apart; eauto; lia.
  - destruct (covers_disjoint _ _ _ _ _ _ Cr Hp Hp' Hpp) as [H|[H|H]].
    + intros b k H1 _. apply (HN d) in H1; [auto|left; congruence].
    + intros b k _ H1. apply (HN e) in H1; [auto|left; congruence].
    + eapply windows_apart; eauto; lia.
Qed.

(** ** is_submatrix *)
Lemma is_submatrix_false h d : is_submatrix h d = false <->
  h_r0 d = 0 /\ h_c0 d = 0 /\ size h (h_buf d) = h_r d * h_c d.
Proof.
  unfold is_submatrix. rewrite negb_false_iff, !andb_true_iff, !Nat.eqb_eq. tauto.
Qed.

Lemma is_submatrix_start h d : good h d -> 0 < h_c d ->
  (is_submatrix h d = false <-> h_off d = 0 /\ size h (h_buf d) = h_r d * h_c d).
Proof.
  intros [_ [E [Hc _]]] H0. rewrite is_submatrix_false. rewrite E. split.
  - intros [-> [-> H]]. auto.
  - intros [H1 H2]. assert (h_c0 d = 0) by lia. assert (h_r0 d = 0) by nia. auto.
Qed.

Lemma makes_owner h h' d r c f : makes h h' d r c f -> is_submatrix h' d = false.
Proof.
  intros [_ [_ [M3 [M4 [_ [_ [_ [_ [_ [M10 [M11 [M12 _]]]]]]]]]]]]. apply is_submatrix_false. rewrite M3, M4. auto.
Qed.

Lemma good_size h d : good h d -> h_r d * h_c d <= size h (h_buf d).
Proof.
  intros G. destruct (Nat.eq_dec (h_r d) 0) as [E|]; [rewrite E; lia|].
  destruct (Nat.eq_dec (h_c d) 0) as [E|]; [rewrite E; lia|].
  pose proof (good_addr h d (h_r d - 1) (h_c d - 1) G). destruct G as [_ [_ [G3 _]]]. unfold addr in H.
  lapply H; [intros H1; lapply H1; [|lia]|lia]. nia.
Qed.

(** A window that covers less than the object it was cut from is a submatrix; one that
    covers all of it is one exactly if that object is. *)
Lemma window_submatrix h A d x y : good h A -> window d A x y -> h_r d * h_c d < h_r A * h_c A ->
  is_submatrix h d = true.
Proof.
  intros G [W _] H. destruct (is_submatrix h d) eqn:E; auto.
  apply is_submatrix_false in E. destruct E as [_ [_ E]]. rewrite W in E. pose proof (good_size _ _ G). lia.
Qed.

(** Later operations never change the answer. *)
Lemma submatrix_stable (cs cs' : list cmd) s s' k d : legal init (cs ++ cs') -> run cs init = Ok s -> run cs' s = Ok s' ->
  live s k d -> is_submatrix (s_heap s') d = is_submatrix (s_heap s) d.
Proof.
  intros L E E' Hl. apply legal_app in L. destruct L as [L1 L2]. specialize (L2 _ E).
  destruct (run_ok cs init init_inv L1) as [s0 [E0 I0]]. rewrite E in E0. inversion E0; subst s0.
  unfold is_submatrix. rewrite (run_size cs' s s' (h_buf d)); auto. apply (I0 _ _ Hl).
Qed.

Lemma reachable_good (cs : list cmd) s k d : legal init cs -> run cs init = Ok s -> live s k d -> good (s_heap s) d.
Proof.
  intros L E Hl. destruct (run_ok cs init init_inv L) as [s0 [E0 I0]]. rewrite E in E0. inversion E0; subst s0. apply (I0 _ _ Hl).
Qed.

(** ** The statements of the properties, in terms of reading and writing *)
Lemma vector_accesses_inside (cs : list cmd) : legal init cs ->
  exists s, run cs init = Ok s /\
    forall k d, live s k d -> forall i, (h_r d = 1 /\ i < h_c d) \/ (h_r d <> 1 /\ h_c d = 1 /\ i < h_r d) ->
      h_get1 (s_heap s) d i = (if h_r d =? 1 then h_get (s_heap s) d 0 i else h_get (s_heap s) d i 0) /\
      (exists v, h_get1 (s_heap s) d i = Ok v) /\ (forall v, exists h, h_set1 (s_heap s) d i v = Ok h).
Proof.
  intros L. destruct (accesses_inside cs L) as [s [E H]]. exists s. split; auto. intros k d Hl i Hi.
  specialize (H k d Hl).
  assert (Q : h_get1 (s_heap s) d i = if h_r d =? 1 then h_get (s_heap s) d 0 i else h_get (s_heap s) d i 0).
  { unfold h_get1, addr1, h_get, addr. destruct Hi as [[H1 H2]|[H1 [H2 H3]]].
    - rewrite H1. simpl. apply Nat.ltb_lt in H2. rewrite H2. simpl. rewrite Nat.add_0_r. reflexivity.
    - apply Nat.eqb_neq in H1. rewrite H1, H2. simpl. apply Nat.ltb_lt in H3. rewrite H3. simpl. rewrite Nat.add_0_r. reflexivity. }
  split; auto. rewrite Q. split.
  - destruct Hi as [[H1 H2]|[H1 [H2 H3]]].
    + rewrite H1. simpl. apply H; lia.
    + apply Nat.eqb_neq in H1. rewrite H1. apply H; lia.
  - intros v. rewrite set1_as_set by auto. destruct Hi as [[H1 H2]|[H1 [H2 H3]]].
    + rewrite H1. simpl. apply H; lia.
    + apply Nat.eqb_neq in H1. rewrite H1. apply H; lia.
Qed.

Lemma run_app (cs cs' : list cmd) : forall s, run (cs ++ cs') s = let* s' := run cs s in run cs' s'.
Proof.
  induction cs as [|c cs IH]; intros s; simpl; auto. destruct (step s c); simpl; auto.
Qed.

Lemma copy_equal_separate (cs : list cmd) s k a :
  legal init cs -> run cs init = Ok s -> live s k a ->
  exists s' d, run (cs ++ [Ccopy k]) init = Ok s' /\ live s' k a /\ live s' (length (s_objs s)) d /\
    h_r d = h_r a /\ h_c d = h_c a /\
    (forall i j, i < h_r a -> j < h_c a -> h_get (s_heap s') d i j = h_get (s_heap s') a i j /\ h_get (s_heap s') a i j = h_get (s_heap s) a i j) /\
    (forall l e, live s' l e -> h_buf e = h_buf d -> l = length (s_objs s)).
Proof.
  intros L E Hl. destruct (run_ok cs init init_inv L) as [s0 [E0 I]]. rewrite E in E0. inversion E0; subst s0.
  pose proof (I _ _ Hl) as G. destruct (h_copy_spec (s_heap s) a G) as [h [d [EC M]]].
  exists (push s h [d]), d. rewrite run_app, E. cbn [bind run step]. rewrite (obj_live _ _ _ Hl). cbn [bind]. rewrite EC. cbn [bind].
  split; auto. split.
  { unfold live, push. simpl. rewrite nth_error_app1; auto. eapply live_lt; eauto. }
  split. { unfold live, push. simpl. rewrite nth_error_app2, Nat.sub_diag by lia. reflexivity. }
  destruct M as [X1 [X2 [X3 [X4 [X5 [_ [_ [_ [_ [_ [_ [_ X13]]]]]]]]]]]].
  split; auto. split; auto. split.
  - intros i j Hi Hj. simpl.
    rewrite (h_get_spec h d) by (auto; lia). rewrite (h_get_spec h a) by (auto; eapply extends_good; eauto).
    rewrite (h_get_spec (s_heap s) a) by auto. rewrite X13 by auto. rewrite (extends_hent _ _ _ _ _ X1 G). auto.
  - intros l e He Hb. unfold live in He. apply live_push in He. destruct He as [He|[x [-> Hx]]].
    + exfalso. destruct (I _ _ He) as [I1 _]. lia.
    + destruct x as [|x]; [lia|]. simpl in Hx. destruct x; discriminate.
Qed.

Lemma independence_get (cs cs' : list cmd) s s' k d x : legal init (cs ++ cs') ->
  run cs init = Ok s -> run cs' s = Ok s' -> live s k d -> nth_error (storages cs) k = Some x ->
  ~ In x (written (length cs) cs' (storages cs)) ->
  forall i j, i < h_r d -> j < h_c d -> h_get (s_heap s') d i j = h_get (s_heap s) d i j.
Proof.
  intros L E E' Hl Hx NW i j Hi Hj.
  pose proof (independence cs cs' s s' k d x L E E' Hl Hx NW i j) as H.
  apply legal_app in L. destruct L as [L1 L2]. specialize (L2 _ E).
  destruct (run_ok cs init init_inv L1) as [s0 [E0 I]]. rewrite E in E0. inversion E0; subst s0.
  pose proof (I _ _ Hl) as G.
  assert (HS : size (s_heap s') (h_buf d) = size (s_heap s) (h_buf d)) by (eapply run_size; eauto; apply G).
  unfold h_get. pose proof (good_addr _ _ _ _ G Hi Hj) as HA. apply Nat.ltb_lt in Hi, Hj. rewrite Hi, Hj.
  rewrite !peek_spec by (rewrite ?HS; auto). unfold hent in H. rewrite H. reflexivity.
Qed.

Lemma grun_app views (cs cs' : list cmd) : forall t g, grun views t (cs ++ cs') g = grun views (t + length cs) cs' (grun views t cs g).
Proof.
  induction cs as [|c cs IH]; intros t g; simpl; [rewrite Nat.add_0_r; auto|].
  rewrite IH. f_equal. lia.
Qed.

Lemma copy_storage (cs : list cmd) s k x y :
  legal init cs -> run cs init = Ok s -> nth_error (storages cs) k = Some x ->
  nth_error (storages (cs ++ [Ccopy k])) (length (s_objs s)) = Some y -> y = (length cs, 0) /\ y <> x /\ ~ In y (storages cs).
Proof.
  intros L E Hx Hy. destruct (storages_length cs s L E) as [HL _].
  unfold storages in Hy. rewrite grun_app in Hy. simpl in Hy. fold (storages cs) in Hy.
  rewrite nth_error_app2 in Hy by lia. rewrite HL, Nat.sub_diag in Hy. simpl in Hy. inversion Hy; subst y.
  assert (HB : forall b, In b (storages cs) -> fst b < length cs).
  { destruct (matches_run h_buf true nbufs matches_storage cs 0 init [] init_inv L (matches_init _)) as [s' [E' [_ [_ [_ [M _]]]]]].
    intros b Hb. apply In_nth_error in Hb. destruct Hb as [n Hn]. exact (M n b Hn). }
  split; auto. split.
  - intros Q. apply nth_error_In in Hx. apply HB in Hx. rewrite <- Q in Hx. simpl in Hx. lia.
  - intros Q. apply HB in Q. simpl in Q. lia.
Qed.

Lemma assign_packed h A : good h A -> packed A ->
  exists h' d, h_assign h false A = Ok (h', d) /\ h_r d = h_r A /\ h_c d = h_c A /\ h_buf d = nbufs h /\
    (forall i j, i < h_r A -> j < h_c A -> h_get h' d i j = h_get h A i j /\ h_get h' A i j = h_get h A i j).
Proof.
  intros G P. destruct (h_assign_spec h A G P) as [h' [d [E M]]]. exists h', d. split; auto.
  destruct M as [X1 [X2 [X3 [X4 [X5 [_ [_ [_ [_ [_ [_ [_ X13]]]]]]]]]]]]. repeat (split; [assumption|]).
  intros i j Hi Hj. rewrite (h_get_spec h' d) by (auto; lia). rewrite (h_get_spec h' A) by (auto; eapply extends_good; eauto).
  rewrite (h_get_spec h A) by auto. rewrite X13 by auto. rewrite (extends_hent _ _ _ _ _ X1 G). auto.
Qed.

Lemma assign_view_UB h A : good h A -> ~ packed A -> forall self, h_assign h self A = UB.
Proof.
  intros G P self. apply h_assign_UB; auto; unfold packed in P; destruct G as [_ [_ [G3 _]]]; lia.
Qed.

Lemma self_assign_zero h A : good h A -> packed A ->
  exists h' d, h_assign h true A = Ok (h', d) /\ h_r d = h_r A /\ h_c d = h_c A /\
    forall i j, i < h_r A -> j < h_c A -> h_get h' d i j = Ok 0%r.
Proof.
  intros G P. destruct (h_assign_self h A G P) as [h' [d [E M]]]. exists h', d. split; auto.
  destruct M as [X1 [X2 [X3 [X4 [X5 [_ [_ [_ [_ [_ [_ [_ X13]]]]]]]]]]]]. repeat (split; [assumption|]).
  intros i j Hi Hj. rewrite (h_get_spec h' d) by (auto; lia). rewrite X13 by auto. reflexivity.
Qed.

Lemma split_windows h A rs cs : good h A ->
  (forall r, In r rs -> fst r + snd r <= h_r A) -> (forall r, In r cs -> fst r + snd r <= h_c A) ->
  exists h' ds, h_split h A rs cs false = Ok (h', ds) /\ h_bufs h' = h_bufs h /\ length ds = length rs * length cs /\
   forall p q rr cr, nth_error rs p = Some rr -> nth_error cs q = Some cr ->
    exists d, nth_error ds (p * length cs + q) = Some d /\ good h' d /\ h_r d = snd rr /\ h_c d = snd cr /\
      forall (h2 : heap) i j, i < snd rr -> j < snd cr ->
        h_get h2 d i j = h_get h2 A (fst rr + i) (fst cr + j) /\
        forall v, h_set h2 d i j v = h_set h2 A (fst rr + i) (fst cr + j) v.
Proof.
  intros G Hr Hc. destruct (h_split_views h A rs cs G Hr Hc) as [h' [ds [E [HB [HL HD]]]]].
  exists h', ds. split; auto. split; auto. split; auto. intros p q rr cr Hp Hq.
  destruct (HD p q rr cr Hp Hq) as [d [D1 [D2 [D3 [D4 D5]]]]]. exists d. repeat (split; [assumption|]).
  pose proof (Hr _ (nth_error_In _ _ Hp)). pose proof (Hc _ (nth_error_In _ _ Hq)).
  intros h2 i j Hi Hj. split; [|intros v].
  - apply window_get; auto; lia.
  - apply window_set; auto; lia.
Qed.

Lemma set_one_entry h A i j v h' : good h A -> h_set h A i j v = Ok h' ->
  i < h_r A /\ j < h_c A /\
  forall i' j', i' < h_r A -> j' < h_c A ->
    h_get h' A i' j' = if (i' =? i) && (j' =? j) then Ok v else h_get h A i' j'.
Proof.
  intros G E. destruct (h_set_entries _ _ _ _ _ _ G E) as [H1 [H2 [H3 [H4 _]]]]. split; auto. split; auto.
  intros i' j' Hi' Hj'. rewrite (h_get_spec h' A) by (auto; eapply good_shape; eauto). rewrite H4 by auto.
  rewrite h_get_spec by auto. destruct (_ && _); auto.
Qed.

Lemma split_facts h A rs cs h' ds : good h A ->
  (forall r, In r rs -> fst r + snd r <= h_r A) -> (forall r, In r cs -> fst r + snd r <= h_c A) ->
  h_split h A rs cs false = Ok (h', ds) -> h_bufs h' = h_bufs h /\ length ds = length rs * length cs /\
   forall p q rr cr d, nth_error rs p = Some rr -> nth_error cs q = Some cr ->
    nth_error ds (p * length cs + q) = Some d -> good h' d /\ h_r d = snd rr /\ h_c d = snd cr /\ window d A (fst rr) (fst cr).
Proof.
  intros G Hr Hc E. destruct (h_split_views h A rs cs G Hr Hc) as [h1 [ds1 [E1 [HB [HL HD]]]]].
  rewrite E in E1. inversion E1; subst h1 ds1. split; auto. split; auto. intros p q rr cr d Hp Hq Hd.
  destruct (HD p q rr cr Hp Hq) as [d' [D1 D2]]. rewrite Hd in D1. inversion D1; subst d'. exact D2.
Qed.

Lemma split_disjoint h h' h2 h3 A rs cs ds p q p' q' rr cr rr' cr' d e i j v :
  good h A -> covers (h_r A) rs -> covers (h_c A) cs -> h_split h A rs cs false = Ok (h', ds) ->
  nth_error rs p = Some rr -> nth_error cs q = Some cr -> nth_error rs p' = Some rr' -> nth_error cs q' = Some cr' ->
  (p, q) <> (p', q') -> nth_error ds (p * length cs + q) = Some d -> nth_error ds (p' * length cs + q') = Some e ->
  good h2 A -> h_set h2 d i j v = Ok h3 ->
  forall i' j', i' < h_r e -> j' < h_c e -> h_get h3 e i' j' = h_get h2 e i' j'.
Proof.
  intros G Cr Cc E Hp Hq Hp' Hq' Hne Hd He G2 ES i' j' Hi' Hj'.
  destruct (split_facts h A rs cs h' ds G (proj1 Cr) (proj1 Cc) E) as [_ [_ HF]].
  destruct (HF _ _ _ _ _ Hp Hq Hd) as [_ [D1 [D2 D3]]]. destruct (HF _ _ _ _ _ Hp' Hq' He) as [_ [E1 [E2 E3]]].
  assert (AP : apart e d) by (eapply (blocks_apart h A rs cs p' q' p q); eauto).
  pose proof (proj1 Cr _ (nth_error_In _ _ Hp)). pose proof (proj1 Cc _ (nth_error_In _ _ Hq)).
  pose proof (proj1 Cr _ (nth_error_In _ _ Hp')). pose proof (proj1 Cc _ (nth_error_In _ _ Hq')).
  assert (Hij : i < h_r d /\ j < h_c d).
  { unfold h_set in ES. destruct (Nat.ltb_spec i (h_r d)); [|discriminate]. destruct (Nat.ltb_spec j (h_c d)); [|discriminate]. auto. }
  destruct Hij as [Hi Hj].
  pose proof ES as ES2. rewrite (window_set d A _ _ D3) in ES by lia.
  destruct (h_set_entries _ _ _ _ _ _ G2 ES) as [_ [_ [SS [HV _]]]].
  rewrite !(window_get e A _ _ E3) by lia.
  assert (G3 : good h3 A) by (eapply good_shape; eauto).
  rewrite !h_get_spec by (auto; lia). f_equal. rewrite HV by lia.
  destruct ((fst rr' + i' =? fst rr + i) && (fst cr' + j' =? fst cr + j)) eqn:Q; auto.
  exfalso. apply andb_prop in Q. destruct Q as [Q1 Q2]. apply Nat.eqb_eq in Q1, Q2.
  apply (AP (h_buf A) (addr A (fst rr + i) (fst cr + j))).
  - destruct E3 as [W1 W2]. split; auto. exists i', j'. rewrite W2, Q1, Q2. auto.
  - destruct D3 as [W1 W2]. split; auto. exists i, j. rewrite W2. auto.
Qed.

Lemma bufs_good h h' A : h_bufs h' = h_bufs h -> good h A -> good h' A.
Proof. unfold good, nbufs, size. intros ->. auto. Qed.

Lemma write_histories h A rs cs : good h A ->
  (forall r, In r rs -> fst r + snd r <= h_r A) -> (forall r, In r cs -> fst r + snd r <= h_c A) ->
  exists h' ds, h_split h A rs cs false = Ok (h', ds) /\
  forall l : list wr, Forall (in_block rs cs) l ->
  exists h2, do_writes ds (length cs) l h' = Ok h2 /\
    forall i j, i < h_r A -> j < h_c A -> h_get h2 A i j = Ok (last_write rs cs l (hent h A) i j).
Proof.
  intros G Hr Hc. destruct (h_split_views h A rs cs G Hr Hc) as [h' [ds [E [HB [HL HD]]]]].
  exists h', ds. split; auto. intros l HF.
  pose proof (bufs_good _ _ _ HB G) as G'.
  destruct (do_writes_spec A rs cs ds) with (l := l) (h := h') as [h2 [E2 [F V]]]; auto.
  - intros p q rr cr Hp Hq. destruct (HD p q rr cr Hp Hq) as [d [D1 [D2 [D3 [D4 D5]]]]]. exists d.
    repeat (split; [assumption|]). split; [apply Hr|apply Hc]; eapply nth_error_In; eauto.
  - exists h2. split; auto. intros i j Hi Hj. rewrite h_get_spec by (auto; eapply good_shape; eauto; apply F).
    rewrite V by auto. f_equal. apply last_write_ext with (r := h_r A) (c := h_c A); auto.
    intros x y _ _. unfold hent, val. rewrite HB. reflexivity.
Qed.

Lemma split_determine h h' h2 A rs cs ds (f : mat) : good h A ->
  covers (h_r A) rs -> covers (h_c A) cs -> h_split h A rs cs false = Ok (h', ds) -> good h2 A ->
  (forall p q rr cr d, nth_error rs p = Some rr -> nth_error cs q = Some cr -> nth_error ds (p * length cs + q) = Some d ->
     forall i j, i < snd rr -> j < snd cr -> h_get h2 d i j = Ok (f (fst rr + i) (fst cr + j))) ->
  forall i j, i < h_r A -> j < h_c A -> h_get h2 A i j = Ok (f i j).
Proof.
  intros G Cr Cc E G2 HF i j Hi Hj. rewrite h_get_spec by auto. f_equal.
  apply (blocks_determine A rs cs ds f h2); auto. intros p q rr cr Hp Hq.
  destruct (h_split_views h A rs cs G (proj1 Cr) (proj1 Cc)) as [h1 [ds1 [E1 [HB [HL HD]]]]].
  rewrite E in E1. inversion E1; subst h1 ds1.
  destruct (HD p q rr cr Hp Hq) as [d [D1 [D2 [D3 [D4 D5]]]]]. exists d. split; auto. split; auto.
  intros x y Hx Hy. specialize (HF p q rr cr d Hp Hq D1 x y Hx Hy).
  pose proof (proj1 Cr _ (nth_error_In _ _ Hp)). pose proof (proj1 Cc _ (nth_error_In _ _ Hq)).
  rewrite (window_get d A _ _ D5), h_get_spec in HF by (auto; lia).
  rewrite (window_hent _ _ _ _ D5). unfold mwin. congruence.
Qed.

Lemma submatrix_reachable (cs : list cmd) s k d : legal init cs -> run cs init = Ok s -> live s k d -> 0 < h_c d ->
  (is_submatrix (s_heap s) d = false <-> h_off d = 0 /\ size (s_heap s) (h_buf d) = h_r d * h_c d).
Proof. intros L E Hl Hc. apply is_submatrix_start; auto. eapply reachable_good; eauto. Qed.

Lemma owners h A : good h A ->
  (forall r c, let '(h', d) := h_new h r c in is_submatrix h' d = false) /\
  (forall h' d, h_copy h A = Ok (h', d) -> is_submatrix h' d = false) /\
  (forall h' d rr cr, fst rr + snd rr <= h_r A -> fst cr + snd cr <= h_c A -> h_cut h A rr cr = Ok (h', d) -> is_submatrix h' d = false) /\
  (forall h' d r c, h_resize h A r c = Ok (h', d) -> is_submatrix h' d = false) /\
  (forall h' d, h_transpose h A = Ok (h', d) -> is_submatrix h' d = false) /\
  (forall self h' d, h_assign h self A = Ok (h', d) -> is_submatrix h' d = false).
Proof.
  intros G. split; [|split; [|split; [|split; [|split]]]].
  - intros r c. destruct (h_new_makes h r c) as [h' [d [E M]]]. rewrite E. eapply makes_owner; eauto.
  - intros h' d E. destruct (h_copy_spec h A G) as [h1 [d1 [E1 M]]]. rewrite E in E1. inversion E1; subst. eapply makes_owner; eauto.
  - intros h' d rr cr Hr Hc E. destruct (h_cut_spec h A rr cr G Hr Hc) as [h1 [d1 [E1 M]]]. rewrite E in E1. inversion E1; subst. eapply makes_owner; eauto.
  - intros h' d r c E. assert (Hrc : r <= h_r A /\ c <= h_c A).
    { unfold h_resize in E. destruct (Nat.leb_spec r (h_r A)); [|discriminate]. destruct (Nat.leb_spec c (h_c A)); [|discriminate]. auto. }
    destruct Hrc as [Hr Hc].
    destruct (h_resize_spec h A r c G Hr Hc) as [h1 [d1 [E1 M]]]. rewrite E in E1. inversion E1; subst. eapply makes_owner; eauto.
  - intros h' d E. destruct (h_transpose_spec h A G) as [h1 [d1 [E1 M]]]. rewrite E in E1. inversion E1; subst. eapply makes_owner; eauto.
  - intros self h' d E.
    assert (D : packed A \/ ~ packed A) by (unfold packed; lia). destruct D as [P|P].
    + destruct self.
      * destruct (h_assign_self h A G P) as [h1 [d1 [E1 M]]]. rewrite E in E1. inversion E1; subst. eapply makes_owner; eauto.
      * destruct (h_assign_spec h A G P) as [h1 [d1 [E1 M]]]. rewrite E in E1. inversion E1; subst. eapply makes_owner; eauto.
    + rewrite (assign_view_UB h A G P) in E. discriminate.
Qed.

Lemma blocks_submatrix h A rs cs h' ds : good h A ->
  (forall r, In r rs -> fst r + snd r <= h_r A) -> (forall r, In r cs -> fst r + snd r <= h_c A) ->
  h_split h A rs cs false = Ok (h', ds) -> forall d, In d ds ->
  (h_r d * h_c d < h_r A * h_c A -> is_submatrix h' d = true) /\
  (h_r d = h_r A -> h_c d = h_c A -> is_submatrix h' d = is_submatrix h A).
Proof.
  intros G Hr Hc. unfold h_split. intros E.
  assert (X : forall l h h' ds, Forall (in_ranges A) l -> h_children l false A h = Ok (h', ds) -> forall d, In d ds ->
     h_bufs h' = h_bufs h /\ exists x y, x + h_r d <= h_r A /\ y + h_c d <= h_c A /\ h_buf d = h_buf A /\ h_r0 d = h_r0 A + x /\ h_c0 d = h_c0 A + y).
  { clear. induction l as [|[rr cr] l IH]; intros h h' ds HF E d Hin; simpl in E.
    - inversion E; subst. destruct Hin.
    - inversion HF as [|? ? [B1 B2] HF']; subst. simpl in B1, B2. apply bind_Ok in E. destruct E as [[h1 ds1] [E1 E2]]. inversion E2; subst.
      assert (HB : h_bufs h' = h_bufs h).
      { clear -E1. assert (Y : forall l h h' ds, h_children l false A h = Ok (h', ds) -> h_bufs h' = h_bufs h).
        { clear. induction l as [|[rr cr] l IH]; intros h h' ds E; simpl in E; [inversion E; auto|].
          apply bind_Ok in E. destruct E as [[h1 ds1] [E1 E2]]. inversion E2; subst. rewrite (IH _ _ _ E1). reflexivity. }
        rewrite (Y _ _ _ _ E1). reflexivity. }
      split; auto. destruct Hin as [<-|Hin].
      + exists (fst rr), (fst cr). simpl. auto.
      + destruct (IH _ _ _ HF' E1 d Hin) as [_ H]. exact H. }
  intros d Hin. destruct (X (pairs rs cs) h h' ds) with (d := d) as [HB [x [y [H1 [H2 [H3 [H4 H5]]]]]]]; auto.
  { apply Forall_forall. intros [rr cr] Hp. apply pairs_in in Hp. destruct Hp. split; simpl; auto. }
  assert (HS : size h' (h_buf A) = size h (h_buf A)) by (unfold size; rewrite HB; auto).
  split.
  - intros Hlt. destruct (is_submatrix h' d) eqn:Q; auto. apply is_submatrix_false in Q. destruct Q as [_ [_ Q]].
    rewrite H3, HS in Q. pose proof (good_size _ _ G). lia.
  - intros E1 E2. unfold is_submatrix. rewrite H3, HS, H4, H5, E1, E2.
    assert (x = 0) as -> by lia. assert (y = 0) as -> by lia. rewrite !Nat.add_0_r. reflexivity.
Qed.

End Views.
Arguments wr : clear implicits.
