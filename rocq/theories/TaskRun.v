(** The tasks of examples/taskbased_tiled_householder_blr_qr.cpp on tiles, and the loops of
    qr.cpp as their sequential execution. *)
From Coq Require Import List Arith Lia Bool Permutation Relation_Operators FunctionalExtensionality.
From Verif Require Import Prelude Ring MatFun Matrix MatOps Lapack Gemm MatOpsProofs Triangular Reflect Tasks TaskQr.
Import ListNotations.
Local Open Scope nat_scope.

Section Run.
Context {R : cring}.
Notation dense := (dense R).
Notation matrix := (matrix R).
Notation grid := (grid R).
Variable Or : oracles R.
Variable K : qrt R.

(** The strict lower part of a tile, and the rest. *)
Definition half (h : part) (m : matrix) : matrix :=
  match m with
  | MD d => MD (Dn (d_r d) (d_c d) (fun i j => if (j <? i) then match h with Lo => d_e d i j | Up => 0%r end
                                              else match h with Lo => 0%r | Up => d_e d i j end))
  | _ => m
  end.
Definition merge (l u : matrix) : matrix :=
  match l, u with
  | MD l, MD u => MD (Dn (d_r u) (d_c u) (fun i j => if j <? i then d_e l i j else d_e u i j))
  | _, _ => u
  end.
Lemma merge_half m : merge (half Lo m) (half Up m) = m.
Proof.
  destruct m as [[r c e]|l|m n b|r c]; simpl; auto. f_equal. f_equal.
  apply functional_extensionality; intros i. apply functional_extensionality; intros j. destruct (j <? i); auto.
Qed.

(** Memory; None after a failed task. *)
Definition mem := loc -> option matrix.
Definition mbind {A B} (x : option A) (f : A -> option B) : option B := match x with Some a => f a | None => None end.
Definition okay {A} (x : outcome A) : option A := match x with Ok a => Some a | _ => None end.
Definition tget (s : mem) i j : option matrix := mbind (s (LA i j Lo)) (fun l => mbind (s (LA i j Up)) (fun u => Some (merge l u))).
Definition at2 (i j a b : nat) : bool := (a =? i) && (b =? j).
Definition put_half (s : mem) i j h (v : option matrix) : mem := fun x =>
  match x with
  | LA a b h' => if at2 i j a b && match h, h' with Lo, Lo | Up, Up => true | _, _ => false end then option_map (half h) v else s x
  | _ => s x
  end.
Definition put_tile (s : mem) i j (v : option matrix) : mem := put_half (put_half s i j Lo v) i j Up v.
Definition put_T (s : mem) i j (v : option matrix) : mem := fun x =>
  match x with LT a b => if at2 i j a b then v else s x | _ => s x end.
Definition put_Q (s : mem) i j (v : option matrix) : mem := fun x =>
  match x with LQ a b => if at2 i j a b then v else s x | _ => s x end.

(** The bodies of the tasks: lines 63, 68, 74, 79. *)
Definition factor_run (t : task) (s : mem) : mem :=
  match t with
  | Geqrt k =>
      let r := mbind (tget s k k) (fun a => mbind (s (LT k k)) (fun t => okay (geqrt K a t))) in
      put_T (put_tile s k k (option_map fst r)) k k (option_map snd r)
  | Larfb k j =>
      put_tile s k j (mbind (s (LA k k Lo)) (fun v => mbind (s (LT k k)) (fun t => mbind (tget s k j) (fun c => okay (larfb v t c true)))))
  | Tpqrt k i =>
      let r := mbind (tget s k k) (fun a => mbind (tget s i k) (fun b => mbind (s (LT i k)) (fun t => okay (tpqrt K a b t)))) in
      put_T (put_tile (put_half s k k Up (option_map (fun r => fst (fst r)) r)) i k (option_map (fun r => snd (fst r)) r)) i k (option_map snd r)
  | Tpmqrt k i j =>
      let r := mbind (tget s i k) (fun v => mbind (s (LT i k)) (fun t => mbind (tget s k j) (fun a => mbind (tget s i j) (fun b =>
               okay (tpmqrt Or v t a b true))))) in
      put_tile (put_tile s k j (option_map fst r)) i j (option_map snd r)
  end.
(** Lines 100, 107 (tr false) and 138, 145 (tr true). *)
Definition q_run (tr : bool) (t : task) (s : mem) : mem :=
  match t with
  | Larfb k j =>
      put_Q s k j (mbind (s (LA k k Lo)) (fun v => mbind (s (LT k k)) (fun t => mbind (s (LQ k j)) (fun c => okay (larfb v t c tr)))))
  | Tpmqrt k i j =>
      let r := mbind (tget s i k) (fun v => mbind (s (LT i k)) (fun t => mbind (s (LQ k j)) (fun a => mbind (s (LQ i j)) (fun b =>
               okay (tpmqrt Or v t a b tr))))) in
      put_Q (put_Q s k j (option_map fst r)) i j (option_map snd r)
  | _ => s
  end.

(** *** The tasks stay within their footprints *)
Lemma at2_true i j a b : at2 i j a b = true <-> a = i /\ b = j.
Proof. unfold at2. rewrite andb_true_iff, !Nat.eqb_eq. tauto. Qed.
Lemma at2_spec i j a b : {a = i /\ b = j /\ at2 i j a b = true} + {~ (a = i /\ b = j) /\ at2 i j a b = false}.
Proof. destruct (at2 i j a b) eqn:E; [left|right]; [apply at2_true in E; tauto|]. split; auto. intros H. apply at2_true in H. congruence. Qed.
Lemma put_tile_other s i j v x : ~ In x (tile i j) -> put_tile s i j v x = s x.
Proof.
  intros H. unfold put_tile, put_half. destruct x as [a b h|a b|a b]; auto. destruct (at2_spec i j a b) as [[-> [-> _]]|[N ->]]; auto.
  exfalso. apply H. simpl. destruct h; auto.
Qed.
Lemma put_tile_at s i j v h : put_tile s i j v (LA i j h) = option_map (half h) v.
Proof. unfold put_tile, put_half. assert (E : at2 i j i j = true) by (apply at2_true; auto). rewrite E. destruct h; auto. Qed.
Lemma put_half_other s i j h v x : x <> LA i j h -> put_half s i j h v x = s x.
Proof.
  intros H. unfold put_half. destruct x as [a b h'|a b|a b]; auto. destruct (at2_spec i j a b) as [[-> [-> E]]|[N ->]]; auto.
  rewrite E. destruct h, h'; auto; congruence.
Qed.
Lemma put_half_at s i j h v : put_half s i j h v (LA i j h) = option_map (half h) v.
Proof. unfold put_half. assert (E : at2 i j i j = true) by (apply at2_true; auto). rewrite E. destruct h; auto. Qed.
Lemma put_T_other s i j v x : x <> LT i j -> put_T s i j v x = s x.
Proof. intros H. unfold put_T. destruct x as [a b h'|a b|a b]; auto. destruct (at2_spec i j a b) as [[-> [-> E]]|[N ->]]; auto. congruence. Qed.
Lemma put_T_at s i j v : put_T s i j v (LT i j) = v.
Proof. unfold put_T. assert (E : at2 i j i j = true) by (apply at2_true; auto). rewrite E. auto. Qed.
Lemma put_Q_other s i j v x : x <> LQ i j -> put_Q s i j v x = s x.
Proof. intros H. unfold put_Q. destruct x as [a b h'|a b|a b]; auto. destruct (at2_spec i j a b) as [[-> [-> E]]|[N ->]]; auto. congruence. Qed.
Lemma put_Q_at s i j v : put_Q s i j v (LQ i j) = v.
Proof. unfold put_Q. assert (E : at2 i j i j = true) by (apply at2_true; auto). rewrite E. auto. Qed.

Lemma tget_ext (s t : mem) i j : (forall x, In x (tile i j) -> s x = t x) -> tget s i j = tget t i j.
Proof. intros H. unfold tget. rewrite !H by (simpl; auto). auto. Qed.

(** The values put depend on what is read, whatever is there besides. *)
Lemma factor_respects : respects factor_run (fun t x => In x (factor_reads t) \/ In x (factor_writes t)) (fun t x => In x (factor_writes t)).
Proof.
  split.
  - intros t s x H. destruct t as [k|k j|k i|k i j]; simpl in H |- *.
    + rewrite put_T_other, put_tile_other; auto; simpl; intuition.
    + rewrite put_tile_other; auto.
    + rewrite put_T_other, put_tile_other, put_half_other; auto; simpl; intuition.
    + rewrite !put_tile_other; auto; simpl; intuition.
  - intros t s u H x Hx. destruct t as [k|k j|k i|k i j]; cbn [factor_run factor_reads factor_writes] in *.
    + rewrite (tget_ext s u), (H (LT k k)) by (intros; try apply H; simpl in *; tauto).
      destruct Hx as [<-|Hx]; [rewrite !put_T_at; auto|]. destruct Hx as [<-|[<-|[]]]; rewrite !put_T_other, !put_tile_at by discriminate; auto.
    + rewrite (tget_ext s u k j), (H (LT k k)), (H (LA k k Lo)) by (intros; try apply H; simpl in *; tauto).
      destruct Hx as [<-|[<-|[]]]; rewrite !put_tile_at; auto.
    + rewrite (tget_ext s u k k), (tget_ext s u i k), (H (LT i k)) by (intros; try apply H; simpl in *; tauto).
      destruct Hx as [<-|[<-|Hx]]; [|rewrite !put_T_at; auto|].
      * rewrite !put_T_other by discriminate.
        unfold put_tile. destruct (Nat.eq_dec i k) as [->|N]; [rewrite !put_half_at; auto|].
        rewrite !(put_half_other _ i k), !put_half_at by congruence. auto.
      * destruct Hx as [<-|[<-|[]]]; rewrite !put_T_other, !put_tile_at by discriminate; auto.
    + rewrite (tget_ext s u k j), (tget_ext s u i k), (tget_ext s u i j), (H (LT i k)) by (intros; try apply H; simpl in *; tauto).
      set (r := mbind _ _).
      assert (G : forall h, put_tile (put_tile s k j (option_map fst r)) i j (option_map snd r) (LA i j h) = put_tile (put_tile u k j (option_map fst r)) i j (option_map snd r) (LA i j h)).
      { intros h. rewrite !put_tile_at. auto. }
      assert (G2 : forall h, put_tile (put_tile s k j (option_map fst r)) i j (option_map snd r) (LA k j h) = put_tile (put_tile u k j (option_map fst r)) i j (option_map snd r) (LA k j h)).
      { intros h. destruct (Nat.eq_dec i k) as [->|N]; [apply G|]. rewrite !(put_tile_other _ i j), !put_tile_at; auto; simpl; intros [E|[E|[]]]; congruence. }
      destruct Hx as [<-|[<-|[<-|[<-|[]]]]]; auto.
Qed.
Lemma q_respects tr : respects (q_run tr) (fun t x => In x (q_reads t) \/ In x (q_writes t)) (fun t x => In x (q_writes t)).
Proof.
  split.
  - intros t s x H. destruct t as [k|k j|k i|k i j]; simpl in H |- *; auto.
    + rewrite put_Q_other; auto.
    + rewrite !put_Q_other; auto.
  - intros t s u H x Hx. destruct t as [k|k j|k i|k i j]; cbn [q_run q_reads q_writes] in *; try destruct Hx as [].
    + rewrite (H (LT k k)), (H (LA k k Lo)), (H (LQ k j)) by (simpl in *; tauto). subst x. rewrite !put_Q_at; auto.
    + destruct H0.
    + rewrite (tget_ext s u i k), (H (LT i k)), (H (LQ k j)), (H (LQ i j)) by (intros; try apply H; simpl in *; tauto). subst x.
      destruct (Nat.eq_dec i k) as [->|N]; [rewrite !put_Q_at; auto|]. rewrite !(put_Q_other _ i j), !put_Q_at by congruence. auto.
    + destruct H0 as [<-|[]]. rewrite (tget_ext s u i k), (H (LT i k)), (H (LQ k j)), (H (LQ i j)) by (intros; try apply H; simpl in *; tauto).
      rewrite !put_Q_at; auto.
Qed.

(** *** The sequential program *)
(** The matrices in memory. *)
Definition enc (A T Q : grid) : mem := fun x =>
  match x with LA i j h => Some (half h (A i j)) | LT i j => Some (T i j) | LQ i j => Some (Q i j) end.
Lemma tget_enc A T Q i j : tget (enc A T Q) i j = Some (A i j).
Proof. unfold tget. simpl. rewrite merge_half. auto. Qed.
Lemma enc_put_tile A T Q i j x : same (put_tile (enc A T Q) i j (Some x)) (enc (bupd A i j x) T Q).
Proof.
  intros [a b h|a b|a b]; [|rewrite put_tile_other by (simpl; intros [|[|[]]]; discriminate); auto..].
  simpl enc. unfold bupd. destruct (at2_spec i j a b) as [[-> [-> E]]|[N E]].
  - rewrite put_tile_at. unfold at2 in E. rewrite E. auto.
  - rewrite put_tile_other by (simpl; intros [E1|[E1|[]]]; inversion E1; subst; tauto). unfold at2 in E. rewrite E. auto.
Qed.

Lemma factor_same t (s u : mem) : same s u -> same (factor_run t s) (factor_run t u).
Proof. apply (respects_same _ _ _ (fun e x => in_wdec factor_writes e x) factor_respects). Qed.
Lemma q_same tr t (s u : mem) : same s u -> same (q_run tr t s) (q_run tr t u).
Proof. apply (respects_same _ _ _ (fun e x => in_wdec q_writes e x) (q_respects tr)). Qed.
Lemma same_trans (s t u : mem) : same s t -> same t u -> same s u.
Proof. intros H1 H2 x. rewrite H1. auto. Qed.
Lemma exec_same (run : task -> mem -> mem) : (forall t s u, same s u -> same (run t s) (run t u)) ->
  forall l s u, same s u -> same (exec run l s) (exec run l u).
Proof. intros H l. induction l; simpl; auto. Qed.

(** A loop and the tasks of its iterations. *)
Lemma loop_sim {S} (run : task -> mem -> mem) (code : S -> mem) (Inv : S -> Prop) (f : nat -> list task) (body : nat -> S -> outcome S) a n s0 s1 :
  (forall t s u, same s u -> same (run t s) (run t u)) ->
  (forall t s s', t < n -> Inv s -> body t s = Ok s' -> Inv s' /\ same (exec run (f (a + t)) (code s)) (code s')) ->
  Inv s0 -> for_loop n body s0 = Ok s1 -> Inv s1 /\ same (exec run (flat_map f (seq a n)) (code s0)) (code s1).
Proof.
  intros HS. revert s1. induction n as [|n IH]; intros s1 H HI HL; simpl in HL.
  - inversion HL; subst. split; auto. intros x; auto.
  - apply bind_Ok in HL. destruct HL as [s [H1 H2]]. destruct (IH s) as [J1 J2]; auto.
    destruct (H n s s1) as [L1 L2]; auto. split; auto.
    rewrite seq_S, flat_map_app, exec_app. simpl flat_map. rewrite app_nil_r.
    eapply same_trans; [apply exec_same; [auto|exact J2]|]. exact L2.
Qed.
Lemma flat_single {A B} (f : A -> B) l : flat_map (fun x => [f x]) l = map f l.
Proof. induction l; simpl; congruence. Qed.

Lemma larfb_half v t c tr : larfb (half Lo v) t c tr = larfb v t c tr.
Proof.
  destruct v as [v|l|m n b|r c0]; simpl; auto. destruct t as [t|l|m n b|r c0]; auto.
  assert (E : tri Lower true (fun i j => if j <? i then d_e v i j else 0%r) = tri Lower true (d_e v)).
  { apply functional_extensionality; intros i. apply functional_extensionality; intros j. unfold tri.
    destruct (Nat.ltb_spec j i); auto. }
  destruct c as [c|l|m n b|r c0]; auto; unfold dlarfb; cbn [d_r d_c d_e]; rewrite E; auto.
Qed.

(** What the coupling kernel does to the tile on the diagonal: the part below the
    diagonal, which holds the reflectors, stays. *)
Definition writes_upper : Prop := forall a b a' v t, tpqrt2 K a b = Ok (a', v, t) ->
  d_r a' = d_r a /\ d_c a' = d_c a /\ forall i j, j < i -> d_e a' i j = d_e a i j.
Lemma tpqrt_half A B T A' V T' : writes_upper -> tpqrt K A B T = Ok (A', V, T') -> half Lo A' = half Lo A.
Proof.
  intros WU H.
  assert (D : forall a b t a' v y, d_tpqrt K a b t = Ok (a', v, y) -> half Lo (MD a') = half Lo (MD a)).
  { intros a b t a' v y E. unfold d_tpqrt in E. cbv zeta in E. destruct (_ && _); [|discriminate]. apply bind_Ok in E. destruct E as [[[x1 x2] x3] [E1 E2]].
    inversion E2; subst. destruct (WU _ _ _ _ _ E1) as [W1 [W2 W3]]. simpl. rewrite W1, W2. f_equal. f_equal.
    apply functional_extensionality; intros i. apply functional_extensionality; intros j. destruct (Nat.ltb_spec j i); auto. }
  unfold tpqrt in H. destruct A as [a| | |]; try discriminate. destruct B as [b|b| |]; try discriminate; destruct T as [t| | |]; try discriminate.
  - apply bind_Ok in H. destruct H as [[[x1 x2] x3] [E1 E2]]. inversion E2; subst. eapply D; eauto.
  - apply bind_Ok in H. destruct H as [sv [_ H]]. apply bind_Ok in H. destruct H as [[[x1 x2] x3] [E1 E2]]. inversion E2; subst. eapply D; eauto.
Qed.

Lemma put_tile_same (s u : mem) i j v : same s u -> same (put_tile s i j v) (put_tile u i j v).
Proof. intros H [a b h|a b|a b]; unfold put_tile, put_half; rewrite ?H; auto. Qed.
Lemma put_T_same (s u : mem) i j v : same s u -> same (put_T s i j v) (put_T u i j v).
Proof. intros H [a b h|a b|a b]; unfold put_T; rewrite ?H; auto. Qed.
Lemma put_Q_same (s u : mem) i j v : same s u -> same (put_Q s i j v) (put_Q u i j v).
Proof. intros H [a b h|a b|a b]; unfold put_Q; rewrite ?H; auto. Qed.
Lemma enc_put_T A T Q i j x : same (put_T (enc A T Q) i j (Some x)) (enc A (bupd T i j x) Q).
Proof. intros [a b h|a b|a b]; auto. simpl. unfold bupd, at2. destruct (_ && _); auto. Qed.
Lemma enc_put_Q A T Q i j x : same (put_Q (enc A T Q) i j (Some x)) (enc A T (bupd Q i j x)).
Proof. intros [a b h|a b|a b]; auto. simpl. unfold bupd, at2. destruct (_ && _); auto. Qed.
Lemma enc_put_up A T Q k x : half Lo x = half Lo (A k k) -> same (put_half (enc A T Q) k k Up (Some x)) (enc (bupd A k k x) T Q).
Proof.
  intros HL [a b h|a b|a b]; auto. destruct (at2_spec k k a b) as [[-> [-> E]]|[N E]].
  - simpl. unfold bupd. rewrite E. unfold at2 in E. rewrite E. destruct h; simpl; congruence.
  - simpl. unfold bupd. rewrite E. unfold at2 in E. rewrite E. auto.
Qed.

(** One task. *)
Lemma run_geqrt A T Q k x y : geqrt K (A k k) (T k k) = Ok (x, y) ->
  same (factor_run (Geqrt k) (enc A T Q)) (enc (bupd A k k x) (bupd T k k y) Q).
Proof.
  intros H. cbn [factor_run]. rewrite tget_enc. cbn [mbind enc]. rewrite H. cbn [okay option_map fst snd].
  eapply same_trans; [apply put_T_same, enc_put_tile|]. apply enc_put_T.
Qed.
Lemma run_larfb A T Q k j x : larfb (A k k) (T k k) (A k j) true = Ok x ->
  same (factor_run (Larfb k j) (enc A T Q)) (enc (bupd A k j x) T Q).
Proof.
  intros H. cbn [factor_run]. rewrite tget_enc. cbn [mbind enc]. rewrite larfb_half, H. cbn [okay]. apply enc_put_tile.
Qed.
Lemma run_tpqrt A T Q k i x v y : writes_upper -> tpqrt K (A k k) (A i k) (T i k) = Ok (x, v, y) ->
  same (factor_run (Tpqrt k i) (enc A T Q)) (enc (bupd (bupd A k k x) i k v) (bupd T i k y) Q).
Proof.
  intros WU H. cbn [factor_run]. rewrite !tget_enc. cbn [mbind enc]. rewrite H. cbn [okay option_map fst snd].
  eapply same_trans; [apply put_T_same, put_tile_same, enc_put_up; eapply tpqrt_half; eauto|].
  eapply same_trans; [apply put_T_same, enc_put_tile|]. apply enc_put_T.
Qed.
Lemma run_tpmqrt A T Q k i j x y : tpmqrt Or (A i k) (T i k) (A k j) (A i j) true = Ok (x, y) ->
  same (factor_run (Tpmqrt k i j) (enc A T Q)) (enc (bupd (bupd A k j x) i j y) T Q).
Proof.
  intros H. cbn [factor_run]. rewrite !tget_enc. cbn [mbind enc]. rewrite H. cbn [okay option_map fst snd].
  eapply same_trans; [apply put_tile_same, enc_put_tile|]. apply enc_put_tile.
Qed.
Lemma run_q_larfb A T Q tr k j x : larfb (A k k) (T k k) (Q k j) tr = Ok x ->
  same (q_run tr (Larfb k j) (enc A T Q)) (enc A T (bupd Q k j x)).
Proof.
  intros H. cbn [q_run]. cbn [mbind enc]. rewrite larfb_half, H. cbn [okay]. apply enc_put_Q.
Qed.
Lemma run_q_tpmqrt A T Q tr k i j x y : tpmqrt Or (A i k) (T i k) (Q k j) (Q i j) tr = Ok (x, y) ->
  same (q_run tr (Tpmqrt k i j) (enc A T Q)) (enc A T (bupd (bupd Q k j x) i j y)).
Proof.
  intros H. cbn [q_run]. rewrite !tget_enc. cbn [mbind enc]. rewrite H. cbn [okay option_map fst snd].
  eapply same_trans; [apply put_Q_same, enc_put_Q|]. apply enc_put_Q.
Qed.

(** The loops of qr.cpp:213-228. *)
Lemma bupd_other (b : grid) i j x a c : ~ (a = i /\ c = j) -> bupd b i j x a c = b a c.
Proof. intros H. unfold bupd. destruct (at2_spec i j a c) as [[-> [-> E]]|[N E]]; [tauto|]. unfold at2 in E. rewrite E. auto. Qed.
Lemma sim_larfb q k Q (A T C : grid) C' : (forall i, C i k = A i k) ->
  tiled_larfb q k true (S k) A T C = Ok C' ->
  (forall i, C' i k = A i k) /\ same (exec factor_run (map (Larfb k) (seq (S k) (q - S k))) (enc C T Q)) (enc C' T Q).
Proof.
  intros HI H. rewrite <- flat_single.
  apply (loop_sim factor_run (fun C => enc C T Q) (fun C => forall i, C i k = A i k)) with (body := fun t C =>
    let* x := larfb (A k k) (T k k) (C k (S k + t)) true in Ok (bupd C k (S k + t) x)); auto; [apply factor_same|].
  intros t s s' Ht Hs Hb. apply bind_Ok in Hb. destruct Hb as [x [H1 H2]]. inversion H2; subst. split.
  - intros i. rewrite bupd_other; auto. lia.
  - cbn [exec]. apply run_larfb. rewrite Hs. auto.
Qed.
Lemma sim_tpmqrt q k i Q (A T C : grid) C' : (forall i, C i k = A i k) ->
  tiled_tpmqrt Or q k i true (S k) A T C = Ok C' ->
  (forall i, C' i k = A i k) /\ same (exec factor_run (map (Tpmqrt k i) (seq (S k) (q - S k))) (enc C T Q)) (enc C' T Q).
Proof.
  intros HI H. rewrite <- flat_single.
  apply (loop_sim factor_run (fun C => enc C T Q) (fun C => forall i, C i k = A i k)) with (body := fun t C =>
    let* (x, y) := tpmqrt Or (A i k) (T i k) (C k (S k + t)) (C i (S k + t)) true in
    Ok (bupd (bupd C k (S k + t) x) i (S k + t) y)); auto; [apply factor_same|].
  intros t s s' Ht Hs Hb. apply bind_Ok in Hb. destruct Hb as [[x y] [H1 H2]]. inversion H2; subst. split.
  - intros i'. rewrite !bupd_other; auto; lia.
  - cbn [exec]. apply run_tpmqrt. rewrite Hs. auto.
Qed.
Lemma sim_step p q k Q s s' : writes_upper -> tiled_step Or K p q k s = Ok s' ->
  same (exec factor_run (Geqrt k :: map (Larfb k) (seq (S k) (q - S k)) ++
    flat_map (fun i => Tpqrt k i :: map (Tpmqrt k i) (seq (S k) (q - S k))) (seq (S k) (p - S k))) (enc (fst s) (snd s) Q)) (enc (fst s') (snd s') Q).
Proof.
  intros WU H. unfold tiled_step in H. apply assert_Ok in H. destruct H as [_ H]. apply bind_Ok in H. destruct H as [[x y] [H1 H]].
  apply bind_Ok in H. destruct H as [A1 [H2 H3]].
  cbn [exec]. rewrite exec_app.
  eapply same_trans; [apply exec_same; [apply factor_same|]; apply exec_same; [apply factor_same|]; apply run_geqrt; exact H1|].
  eapply same_trans; [apply exec_same; [apply factor_same|]; eapply sim_larfb; [|exact H2]; auto|].
  refine (proj2 (loop_sim factor_run (fun s => enc (fst s) (snd s) Q) (fun _ => True) _ _ (S k) (p - S k) (A1, bupd (snd s) k k y) s' factor_same _ I H3)).
  intros t s1 s1' Ht _ Hb. split; auto. cbv beta zeta in Hb. apply bind_Ok in Hb. destruct Hb as [[[x1 v1] y1] [G1 Hb]].
  apply bind_Ok in Hb. destruct Hb as [A2 [G2 G3]]. inversion G3; subst. cbn [exec fst snd].
  eapply same_trans; [apply exec_same; [apply factor_same|]; apply run_tpqrt; [exact WU|exact G1]|].
  eapply sim_tpmqrt; [|exact G2]; auto.
Qed.
Lemma sim_factor p q Q A T A' T' : writes_upper -> tiled_qr Or K p q A p q T = Ok (A', T') ->
  same (exec factor_run (factor_tasks p q) (enc A T Q)) (enc A' T' Q).
Proof.
  intros WU H. unfold tiled_qr in H. apply assert_Ok in H. destruct H as [_ H]. apply assert_Ok in H. destruct H as [_ H].
  refine (proj2 (loop_sim factor_run (fun s => enc (fst s) (snd s) Q) (fun _ => True) _ _ 0 q (A, T) (A', T') factor_same _ I H)).
  intros t s1 s1' Ht _ Hb. split; auto. eapply sim_step; eauto.
Qed.

(** qr.cpp:230-257 *)
Lemma sim_q_larfb q k tr (Y T C : grid) C' : tiled_larfb q k tr k Y T C = Ok C' ->
  same (exec (q_run tr) (map (Larfb k) (seq k (q - k))) (enc Y T C)) (enc Y T C').
Proof.
  intros H. rewrite <- flat_single.
  refine (proj2 (loop_sim (q_run tr) (fun C => enc Y T C) (fun _ => True) _ _ k (q - k) C C' (q_same tr) _ I H)).
  intros t s s' Ht _ Hb. apply bind_Ok in Hb. destruct Hb as [x [H1 H2]]. inversion H2; subst. split; auto.
  cbn [exec]. apply run_q_larfb. auto.
Qed.
Lemma sim_q_tpmqrt q k i tr (Y T C : grid) C' : tiled_tpmqrt Or q k i tr k Y T C = Ok C' ->
  same (exec (q_run tr) (map (Tpmqrt k i) (seq k (q - k))) (enc Y T C)) (enc Y T C').
Proof.
  intros H. rewrite <- flat_single.
  refine (proj2 (loop_sim (q_run tr) (fun C => enc Y T C) (fun _ => True) _ _ k (q - k) C C' (q_same tr) _ I H)).
  intros t s s' Ht _ Hb. apply bind_Ok in Hb. destruct Hb as [[x y] [H1 H2]]. inversion H2; subst. split; auto.
  cbn [exec]. apply run_q_tpmqrt. auto.
Qed.
Lemma sim_form p q Y T C C' : tiled_apply Or p q Y T C false = Ok C' ->
  same (exec (q_run false) (form_tasks p q) (enc Y T C)) (enc Y T C').
Proof.
  intros H. unfold tiled_apply in H. apply assert_Ok in H. destruct H as [_ H].
  refine (proj2 (loop_sim (q_run false) (fun C => enc Y T C) (fun _ => True) _ _ 0 q C C' (q_same false) _ I H)).
  intros t s s' Ht _ Hb. split; auto. cbv beta zeta in Hb. apply bind_Ok in Hb. destruct Hb as [C1 [H1 H2]].
  rewrite Nat.add_0_l. cbv zeta. rewrite exec_app.
  eapply same_trans; [apply exec_same; [apply q_same|]|eapply sim_q_larfb; exact H2].
  replace (p - S (q - 1 - t)) with (p - 1 - (q - 1 - t)) in H1 by lia.
  refine (proj2 (loop_sim (q_run false) (fun C => enc Y T C) (fun _ => True) _ _ 0 _ s C1 (q_same false) _ I H1)).
  intros i u u' Hi _ Hb. split; auto. rewrite Nat.add_0_l. apply sim_q_tpmqrt. auto.
Qed.
Lemma sim_check p q Y T C C' : tiled_apply Or p q Y T C true = Ok C' ->
  same (exec (q_run true) (check_tasks p q) (enc Y T C)) (enc Y T C').
Proof.
  intros H. unfold tiled_apply in H. apply assert_Ok in H. destruct H as [_ H].
  refine (proj2 (loop_sim (q_run true) (fun C => enc Y T C) (fun _ => True) _ _ 0 q C C' (q_same true) _ I H)).
  intros t s s' Ht _ Hb. split; auto. cbv beta zeta in Hb. apply bind_Ok in Hb. destruct Hb as [C1 [H1 H2]].
  rewrite Nat.add_0_l. rewrite exec_app.
  eapply same_trans; [apply exec_same; [apply q_same|]; eapply sim_q_larfb; exact H1|].
  refine (proj2 (loop_sim (q_run true) (fun C => enc Y T C) (fun _ => True) _ _ (S t) _ C1 s' (q_same true) _ I H2)).
  intros i u u' Hi _ Hb. split; auto. apply sim_q_tpmqrt. auto.
Qed.

(** *** All orders *)
Lemma factor_allowed p q sched s : q <= p -> allowed (factor_tasks p q) (waits (factor_tasks p q) factor_in factor_out) sched ->
  same (exec factor_run sched s) (exec factor_run (factor_tasks p q) s).
Proof.
  intros HPQ HA. eapply (allowed_same factor_run (fun t x => In x (factor_reads t)) (fun t x => In x (factor_writes t))); [|apply factor_respects|apply factor_nodup| |exact HA].
  - intros t x. apply in_wdec.
  - intros a b Hb. destruct (list_conflict factor_reads factor_writes a b) as [C|C]; auto. right. apply factor_ordered; auto.
Qed.
Lemma form_allowed p q tr sched s : allowed (form_tasks p q) (waits (form_tasks p q) form_inout form_inout) sched ->
  same (exec (q_run tr) sched s) (exec (q_run tr) (form_tasks p q) s).
Proof.
  intros HA. eapply (allowed_same (q_run tr) (fun t x => In x (q_reads t)) (fun t x => In x (q_writes t))); [|apply q_respects|apply form_nodup| |exact HA].
  - intros t x. apply in_wdec.
  - intros a b Hb. destruct (list_conflict q_reads q_writes a b) as [C|C]; auto. right. apply form_ordered; auto.
Qed.
Lemma check_allowed p q tr sched s : q <= p -> allowed (check_tasks p q) (waits (check_tasks p q) check_in check_out) sched ->
  same (exec (q_run tr) sched s) (exec (q_run tr) (check_tasks p q) s).
Proof.
  intros HPQ HA. eapply (allowed_same (q_run tr) (fun t x => In x (q_reads t)) (fun t x => In x (q_writes t))); [|apply q_respects|apply check_nodup| |exact HA].
  - intros t x. apply in_wdec.
  - intros a b Hb. destruct (list_conflict q_reads q_writes a b) as [C|C]; auto. right. apply check_ordered; auto.
Qed.

Theorem any_order_factor p q Q A T A' T' sched : writes_upper -> tiled_qr Or K p q A p q T = Ok (A', T') ->
  allowed (factor_tasks p q) (waits (factor_tasks p q) factor_in factor_out) sched ->
  forall i j, let s := exec factor_run sched (enc A T Q) in tget s i j = Some (A' i j) /\ s (LT i j) = Some (T' i j) /\ s (LQ i j) = Some (Q i j).
Proof.
  intros WU H HA i j s.
  assert (HPQ : q <= p).
  { clear -H. destruct (le_lt_dec q p) as [L|L]; auto. exfalso. unfold tiled_qr in H. apply assert_Ok in H. destruct H as [_ H]. apply assert_Ok in H. destruct H as [_ H].
    remember (A, T) as s0. clear Heqs0.
    assert (G : forall n s1, for_loop (S (p + n)) (fun k s => tiled_step Or K p q k s) s0 = Ok s1 -> False).
    { induction n as [|n IH]; intros s1 E.
      - simpl in E. apply bind_Ok in E. destruct E as [s2 [_ E]]. unfold tiled_step in E. apply assert_Ok in E. destruct E as [E _]. apply Nat.ltb_lt in E. lia.
      - replace (p + S n) with (S (p + n)) in E by lia. simpl in E. apply bind_Ok in E. destruct E as [s2 [E _]]. apply (IH s2). exact E. }
    apply (G (q - p - 1) (A', T')). replace (S (p + (q - p - 1))) with q by lia. exact H. }
  assert (E : same s (enc A' T' Q)). { eapply same_trans; [apply (factor_allowed p q); auto|]. apply sim_factor; auto. }
  rewrite (tget_ext s (enc A' T' Q)) by (intros; apply E). rewrite tget_enc, !E. auto.
Qed.
Theorem any_order_form p q Y T Q Q' sched : tiled_apply Or p q Y T Q false = Ok Q' ->
  allowed (form_tasks p q) (waits (form_tasks p q) form_inout form_inout) sched ->
  forall i j, let s := exec (q_run false) sched (enc Y T Q) in s (LQ i j) = Some (Q' i j) /\ tget s i j = Some (Y i j) /\ s (LT i j) = Some (T i j).
Proof.
  intros H HA i j s.
  assert (E : same s (enc Y T Q')). { eapply same_trans; [apply (form_allowed p q); auto|]. apply sim_form; auto. }
  rewrite (tget_ext s (enc Y T Q')) by (intros; apply E). rewrite tget_enc, !E. auto.
Qed.
Theorem any_order_check p q Y T Q Q' sched : tiled_apply Or p q Y T Q true = Ok Q' ->
  allowed (check_tasks p q) (waits (check_tasks p q) check_in check_out) sched ->
  forall i j, let s := exec (q_run true) sched (enc Y T Q) in s (LQ i j) = Some (Q' i j) /\ tget s i j = Some (Y i j) /\ s (LT i j) = Some (T i j).
Proof.
  intros H HA i j s.
  assert (HPQ : q <= p). { unfold tiled_apply in H. apply assert_Ok in H. destruct H as [H _]. apply Nat.leb_le in H. auto. }
  assert (E : same s (enc Y T Q')). { eapply same_trans; [apply (check_allowed p q); auto|]. apply sim_check; auto. }
  rewrite (tget_ext s (enc Y T Q')) by (intros; apply E). rewrite tget_enc, !E. auto.
Qed.
End Run.
