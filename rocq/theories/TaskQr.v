(** The task graph of examples/taskbased_tiled_householder_blr_qr.cpp. *)
From Coq Require Import List Arith Lia Bool Permutation Relation_Operators.
From Verif Require Import Tasks.
Import ListNotations.

(** Memory: a tile of A is the strict lower part and the upper part (with diagonal); T and
    Q by whole tiles. *)
Inductive part := Lo | Up.
Inductive loc := LA (i j : nat) (s : part) | LT (i j : nat) | LQ (i j : nat).
Lemma loc_dec (x y : loc) : x = y \/ x <> y.
Proof. assert ({x = y} + {x <> y}) by (decide equality; try apply Nat.eq_dec; decide equality). tauto. Qed.

Inductive task := Geqrt (k : nat) | Larfb (k j : nat) | Tpqrt (k i : nat) | Tpmqrt (k i j : nat).
Lemma task_dec (x y : task) : x = y \/ x <> y.
Proof. assert ({x = y} + {x <> y}) by (decide equality; apply Nat.eq_dec). tauto. Qed.

Definition tile i j : list loc := [LA i j Lo; LA i j Up].

(** *** Factorization, lines 60-83 *)
Definition factor_tasks (p q : nat) : list task :=
  flat_map (fun k =>
    Geqrt k :: map (Larfb k) (seq (S k) (q - S k)) ++
    flat_map (fun i => Tpqrt k i :: map (Tpmqrt k i) (seq (S k) (q - S k))) (seq (S k) (p - S k))) (seq 0 q).
(** depend(in: ...), depend(out: ...): lines 61, 66, 72, 77. *)
Definition factor_in (t : task) : list (nat * nat) :=
  match t with
  | Geqrt k => []
  | Larfb k j => [(k, k)]
  | Tpqrt k i => [(i - 1, k)]
  | Tpmqrt k i j => [(i, k); (i - 1, j)]
  end.
Definition factor_out (t : task) : list (nat * nat) :=
  match t with
  | Geqrt k => [(k, k)]
  | Larfb k j => [(k, j)]
  | Tpqrt k i => [(i, k)]
  | Tpmqrt k i j => [(i, j)]
  end.
(** What is written; all of it may be read as well. *)
Definition factor_writes (t : task) : list loc :=
  match t with
  | Geqrt k => LT k k :: tile k k
  | Larfb k j => tile k j
  | Tpqrt k i => LA k k Up :: LT i k :: tile i k
  | Tpmqrt k i j => tile k j ++ tile i j
  end.
(** What is read besides. *)
Definition factor_reads (t : task) : list loc :=
  match t with
  | Geqrt k => []
  | Larfb k j => [LA k k Lo; LT k k]
  | Tpqrt k i => [LA k k Lo]
  | Tpmqrt k i j => LT i k :: tile i k
  end.

(** *** Q from the reflectors, lines 95-110 *)
Definition form_tasks (p q : nat) : list task :=
  flat_map (fun k' => let k := q - 1 - k' in
    flat_map (fun i' => map (Tpmqrt k (p - 1 - i')) (seq k (q - k))) (seq 0 (p - 1 - k)) ++
    map (Larfb k) (seq k (q - k))) (seq 0 q).
(** depend(inout: ...) counts as in and out: lines 98, 105. *)
Definition form_inout (t : task) : list (nat * nat) :=
  match t with
  | Larfb k j => [(k, j)]
  | Tpmqrt k i j => [(k, j); (i, j)]
  | _ => []
  end.
(** *** Q^T Q, lines 134-149 *)
Definition check_tasks (p q : nat) : list task :=
  flat_map (fun k =>
    map (Larfb k) (seq k (q - k)) ++
    flat_map (fun i => map (Tpmqrt k i) (seq k (q - k))) (seq (S k) (p - S k))) (seq 0 q).
Definition check_in (t : task) : list (nat * nat) :=
  match t with
  | Larfb k j => [(k, k)]
  | Tpmqrt k i j => [(i, k); (i - 1, j)]
  | _ => []
  end.
Definition check_out (t : task) : list (nat * nat) :=
  match t with
  | Larfb k j => [(k, j)]
  | Tpmqrt k i j => [(i, j)]
  | _ => []
  end.
Definition q_writes (t : task) : list loc :=
  match t with
  | Larfb k j => [LQ k j]
  | Tpmqrt k i j => [LQ k j; LQ i j]
  | _ => []
  end.
Definition q_reads (t : task) : list loc :=
  match t with
  | Larfb k j => [LA k k Lo; LT k k]
  | Tpmqrt k i j => LT i k :: tile i k
  | _ => []
  end.

(** OpenMP: a task waits for those generated before it with a dependence on the same
    storage, unless both only read it. *)
Definition clash (i o : task -> list (nat * nat)) (a b : task) : Prop :=
  exists d, (In d (o a) /\ (In d (i b) \/ In d (o b))) \/ (In d (i a) /\ In d (o b)).
Definition waits (prog : list task) (i o : task -> list (nat * nat)) (a b : task) : Prop := before prog a b /\ clash i o a b.

(** *** Order of generation *)
Definition tk t := match t with Geqrt k | Larfb k _ | Tpqrt k _ | Tpmqrt k _ _ => k end.
Definition ti t := match t with Geqrt k | Larfb k _ => k | Tpqrt _ i | Tpmqrt _ i _ => i end.
Definition tj t := match t with Geqrt k | Tpqrt k _ => k | Larfb _ j | Tpmqrt _ _ j => j end.
Definition lex (a b : task) : Prop :=
  tk a < tk b \/ (tk a = tk b /\ (ti a < ti b \/ (ti a = ti b /\ tj a < tj b))).
Lemma lex_irrefl a : ~ lex a a.
Proof. unfold lex. lia. Qed.
Lemma lex_asym a b : lex a b -> ~ lex b a.
Proof. unfold lex. lia. Qed.

Definition valid p q (t : task) : Prop :=
  match t with
  | Geqrt k => k < q
  | Larfb k j => k < j /\ j < q
  | Tpqrt k i => k < q /\ k < i /\ i < p
  | Tpmqrt k i j => k < j /\ j < q /\ k < i /\ i < p
  end.
Lemma in_factor p q t : In t (factor_tasks p q) <-> valid p q t.
Proof.
  unfold factor_tasks. rewrite in_flat_map. split.
  - intros [k [Hk H]]. apply in_seq in Hk. destruct H as [<-|H]; [simpl; lia|]. apply in_app_iff in H. destruct H as [H|H].
    + apply in_map_iff in H. destruct H as [j [<- H]]. apply in_seq in H. simpl. lia.
    + apply in_flat_map in H. destruct H as [i [Hi H]]. apply in_seq in Hi. destruct H as [<-|H]; [simpl; lia|].
      apply in_map_iff in H. destruct H as [j [<- H]]. apply in_seq in H. simpl. lia.
  - intros V. exists (tk t). split; [apply in_seq; destruct t; simpl in *; lia|]. destruct t as [k|k j|k i|k i j]; simpl in *; auto; right; apply in_app_iff.
    + left. apply in_map. apply in_seq. lia.
    + right. apply in_flat_map. exists i. split; [apply in_seq; lia|]. left; auto.
    + right. apply in_flat_map. exists i. split; [apply in_seq; lia|]. right. apply in_map. apply in_seq. lia.
Qed.
Lemma factor_lex p q a b : before (factor_tasks p q) a b -> lex a b.
Proof.
  intros H. apply before_flat in H. destruct H as [[k [Hk H]]|[k [k' [Hk [Ha Hb]]]]].
  - apply before_cons in H. destruct H as [[-> H]|H].
    + apply in_app_iff in H. destruct H as [H|H].
      * apply in_map_iff in H. destruct H as [j [<- H]]. apply in_seq in H. unfold lex. simpl. lia.
      * apply in_flat_map in H. destruct H as [i [Hi H]]. apply in_seq in Hi. destruct H as [<-|H]; [unfold lex; simpl; lia|].
        apply in_map_iff in H. destruct H as [j [<- H]]. apply in_seq in H. unfold lex. simpl. lia.
    + apply before_app in H. destruct H as [H|[H|[Ha Hb]]].
      * apply before_map in H. destruct H as [x [y [-> [-> H]]]]. apply before_seq in H. unfold lex. simpl. lia.
      * apply before_flat in H. destruct H as [[i [Hi H]]|[i [i' [Hi [Ha Hb]]]]].
        -- apply before_cons in H. destruct H as [[-> H]|H].
           ++ apply in_map_iff in H. destruct H as [j [<- H]]. apply in_seq in H. unfold lex. simpl. lia.
           ++ apply before_map in H. destruct H as [x [y [-> [-> H]]]]. apply before_seq in H. unfold lex. simpl. lia.
        -- apply before_seq in Hi. assert (tk a = k /\ ti a = i). { destruct Ha as [<-|Ha]; [auto|]. apply in_map_iff in Ha. destruct Ha as [j [<- _]]. auto. }
           assert (tk b = k /\ ti b = i'). { destruct Hb as [<-|Hb]; [auto|]. apply in_map_iff in Hb. destruct Hb as [j [<- _]]. auto. }
           unfold lex. lia.
      * apply in_map_iff in Ha. destruct Ha as [j [<- Ha]]. apply in_flat_map in Hb. destruct Hb as [i [Hi Hb]]. apply in_seq in Hi.
        assert (tk b = k /\ ti b = i). { destruct Hb as [<-|Hb]; [auto|]. apply in_map_iff in Hb. destruct Hb as [j' [<- _]]. auto. }
        unfold lex. simpl. lia.
  - apply before_seq in Hk.
    assert (Q : forall x t, In t (Geqrt x :: map (Larfb x) (seq (S x) (q - S x)) ++
      flat_map (fun i => Tpqrt x i :: map (Tpmqrt x i) (seq (S x) (q - S x))) (seq (S x) (p - S x))) -> tk t = x).
    { intros x t [<-|H]; auto. apply in_app_iff in H. destruct H as [H|H].
      - apply in_map_iff in H. destruct H as [j [<- _]]. auto.
      - apply in_flat_map in H. destruct H as [i [_ [<-|H]]]; auto. apply in_map_iff in H. destruct H as [j [<- _]]. auto. }
    apply Q in Ha, Hb. unfold lex. lia.
Qed.
Lemma factor_before p q a b : valid p q a -> valid p q b -> lex a b -> before (factor_tasks p q) a b.
Proof.
  intros Va Vb H. apply (order_before lex); auto.
  - apply lex_asym.
  - apply factor_lex.
  - apply in_factor; auto.
  - apply in_factor; auto.
Qed.
Lemma factor_nodup p q : NoDup (factor_tasks p q).
Proof. apply (nodup_order lex); [apply lex_irrefl|apply factor_lex]. Qed.

(** *** Conflicts are ordered *)
(** The task of step k that works on the tiles (k,j) and (i,j). *)
Definition at_ (k i j : nat) : task :=
  if i =? k then (if j =? k then Geqrt k else Larfb k j) else if j =? k then Tpqrt k i else Tpmqrt k i j.
Lemma at_self t : forall p q, valid p q t -> t = at_ (tk t) (ti t) (tj t).
Proof.
  intros p q V. unfold at_. destruct t; simpl in *; rewrite ?Nat.eqb_refl; auto;
    repeat match goal with |- context [?x =? ?y] => destruct (Nat.eqb_spec x y); try lia end; auto.
Qed.
Lemma at_spec k i j p q : k <= i -> k <= j -> i < p -> j < q -> q <= p -> valid p q (at_ k i j) /\ tk (at_ k i j) = k /\ ti (at_ k i j) = i /\ tj (at_ k i j) = j /\
  factor_out (at_ k i j) = [(i, j)] /\ (k < i -> In (i - 1, j) (factor_in (at_ k i j))) /\ (k < j -> In (i, k) (factor_in (at_ k i j))).
Proof.
  intros H1 H2 H3 H4 H5. unfold at_. destruct (Nat.eqb_spec i k), (Nat.eqb_spec j k); simpl; subst; repeat split; auto; try lia; intros; try lia; auto.
Qed.

Section Factor.
Variables p q : nat.
Hypothesis HPQ : q <= p.
Notation hb := (clos_trans_1n task (waits (factor_tasks p q) factor_in factor_out)).

Lemma hb_trans a b c : hb a b -> hb b c -> hb a c.
Proof. induction 1; intros K; econstructor 2; eauto. Qed.
Lemma step_down k i j : k <= i -> k <= j -> S i < p -> j < q -> hb (at_ k i j) (at_ k (S i) j).
Proof.
  intros H1 H2 H3 H4.
  destruct (at_spec k i j p q) as [V1 [E1 [E2 [E3 [E4 [E5 E6]]]]]]; try lia.
  destruct (at_spec k (S i) j p q) as [V1' [E1' [E2' [E3' [E4' [E5' E6']]]]]]; try lia.
  constructor. split.
  - apply factor_before; auto. unfold lex. lia.
  - exists (i, j). left. rewrite E4. split; [left; auto|]. left. replace i with (S i - 1) at 1 by lia. apply E5'. lia.
Qed.
Lemma down k i j n : k <= i -> k <= j -> i + S n < p -> j < q -> hb (at_ k i j) (at_ k (i + S n) j).
Proof.
  induction n as [|n IH]; intros H1 H2 H3 H4.
  - replace (i + 1) with (S i) by lia. apply step_down; lia.
  - eapply hb_trans; [apply IH; lia|]. replace (i + S (S n)) with (S (i + S n)) by lia. apply step_down; lia.
Qed.
Lemma down' k i i' j : k <= i -> k <= j -> i < i' -> i' < p -> j < q -> hb (at_ k i j) (at_ k i' j).
Proof. intros. replace i' with (i + S (i' - i - 1)) by lia. apply down; lia. Qed.
Lemma across k i j : k <= i -> k < j -> i < p -> j < q -> hb (at_ k i k) (at_ k i j).
Proof.
  intros H1 H2 H3 H4.
  destruct (at_spec k i k p q) as [V1 [E1 [E2 [E3 [E4 [E5 E6]]]]]]; try lia.
  destruct (at_spec k i j p q) as [V1' [E1' [E2' [E3' [E4' [E5' E6']]]]]]; try lia.
  constructor. split.
  - apply factor_before; auto. unfold lex. lia.
  - exists (i, k). left. rewrite E4. split; [left; auto|]. left. apply E6'. lia.
Qed.
Lemma later k k' i j : k < k' -> k' <= i -> k' <= j -> i < p -> j < q -> hb (at_ k i j) (at_ k' i j).
Proof.
  intros H1 H2 H3 H4 H5.
  destruct (at_spec k i j p q) as [V1 [E1 [E2 [E3 [E4 [E5 E6]]]]]]; try lia.
  destruct (at_spec k' i j p q) as [V1' [E1' [E2' [E3' [E4' [E5' E6']]]]]]; try lia.
  constructor. split.
  - apply factor_before; auto. unfold lex. lia.
  - exists (i, j). left. rewrite E4, E4'. split; [left; auto|]. right. left. auto.
Qed.

Lemma valid_bounds t : valid p q t -> tk t <= ti t /\ tk t <= tj t /\ ti t < p /\ tj t < q.
Proof. destruct t; simpl; lia. Qed.

(** Accesses by tile. *)
Definition touches t (x : loc) : Prop := In x (factor_writes t) \/ In x (factor_reads t).
Ltac cases H := repeat match type of H with
  | False => destruct H
  | _ \/ _ => destruct H as [H|H]
  | _ = _ => try discriminate H; injection H; clear H; intros; subst
  | In _ _ => simpl in H
  end.
Lemma writes_at t x : valid p q t -> In x (factor_writes t) ->
  (exists s, x = LA (ti t) (tj t) s) \/ (ti t > tk t /\ exists s, x = LA (tk t) (tj t) s /\ (tj t = tk t -> s = Up)) \/ (x = LT (ti t) (tk t) /\ tj t = tk t).
Proof.
  intros V H. destruct t as [k|k j|k i|k i j]; simpl in V, H |- *.
  - destruct H as [<-|[<-|[<-|[]]]]; [right; right; auto|left; eauto|left; eauto].
  - destruct H as [<-|[<-|[]]]; left; eauto.
  - destruct H as [<-|[<-|[<-|[<-|[]]]]]; [right; left; split; [lia|eauto]|right; right; auto|left; eauto|left; eauto].
  - destruct H as [<-|[<-|[<-|[<-|[]]]]]; [| |left; eauto|left; eauto]; right; left; (split; [lia|]; eexists; split; [reflexivity|lia]).
Qed.
Lemma reads_at t x : valid p q t -> In x (factor_reads t) -> (tj t > tk t /\
  ((exists s, x = LA (ti t) (tk t) s /\ (ti t = tk t -> s = Lo)) \/ x = LT (ti t) (tk t))) \/
  (tj t = tk t /\ ti t > tk t /\ x = LA (tk t) (tk t) Lo).
Proof.
  intros V H. destruct t as [k|k j|k i|k i j]; simpl in V, H |- *.
  - destruct H.
  - left. split; [lia|]. destruct H as [<-|[<-|[]]]; [left; eauto|right; auto].
  - right. destruct H as [<-|[]]. split; [auto|]. split; [lia|auto].
  - left. split; [lia|]. destruct H as [<-|[<-|[<-|[]]]]; [right; auto| |]; left; (eexists; split; [reflexivity|lia]).
Qed.
Ltac pick := solve [exfalso; lia | left; repeat split; lia | right; left; repeat split; lia | right; right; left; repeat split; lia
  | right; right; right; left; repeat split; lia | right; right; right; right; repeat split; lia].
Ltac solve5 HL ib kb jb := try (solve [destruct HL as [HL|[HL [HL'|[HL' HL'']]]];
  try pick; destruct (Nat.eq_dec ib kb); try pick; destruct (Nat.eq_dec jb kb); pick]).
Lemma conflict_hb a b : valid p q a -> valid p q b -> lex a b ->
  tconflict (fun t x => In x (factor_reads t)) (fun t x => In x (factor_writes t)) a b -> hb a b.
Proof.
  intros Va Vb HL [x C]. rewrite (at_self _ _ _ Va), (at_self _ _ _ Vb).
  pose proof (valid_bounds _ Va) as Ba. pose proof (valid_bounds _ Vb) as Bb.
  assert (W1 := writes_at a x Va). assert (W2 := writes_at b x Vb). assert (R1 := reads_at a x Va). assert (R2 := reads_at b x Vb).
  revert W1 W2 R1 R2. set (ka := tk a) in *. set (ia := ti a) in *. set (ja := tj a) in *. set (kb := tk b) in *. set (ib := ti b) in *. set (jb := tj b) in *.
  intros W1 W2 R1 R2. unfold lex in HL. fold ka ia ja kb ib jb in HL.
  assert (G : (ka = kb /\ ia < ib /\ ja = jb) \/ (ka = kb /\ ia = ib /\ ja = ka /\ ka < jb) \/
              (ka < kb /\ ia = ib /\ ja = jb) \/ (ka < kb /\ ia = kb /\ ja = jb /\ kb < ib) \/ (ka < kb /\ ia = ib /\ ja = kb /\ kb < jb)).
  { clearbody ka ia ja kb ib jb.
    destruct C as [[Ca [Cb|Cb]]|[Cb [Ca|Ca]]].
    - apply W1 in Ca. apply R2 in Cb. clear W1 W2 R1 R2.
      destruct Ca as [[s ->]|[[Ca1 [s [-> Ca2]]]|[-> Ca]]]; destruct Cb as [[Cb0 [[s' [Cb Cb2]]|Cb]]|[Cb0 [Cb2 Cb]]]; inversion Cb; clear Cb; solve5 HL ib kb jb.
    - apply W1 in Ca. apply W2 in Cb. clear W1 W2 R1 R2.
      destruct Ca as [[s ->]|[[Ca1 [s [-> Ca2]]]|[-> Ca]]]; destruct Cb as [[s' Cb]|[[Cb1 [s' [Cb Cb2]]]|[Cb Cb1]]]; inversion Cb; clear Cb; solve5 HL ib kb jb.
    - apply W2 in Cb. apply R1 in Ca. clear W1 W2 R1 R2.
      destruct Cb as [[s ->]|[[Cb1 [s [-> Cb2]]]|[-> Cb]]]; destruct Ca as [[Ca0 [[s' [Ca Ca2]]|Ca]]|[Ca0 [Ca2 Ca]]]; inversion Ca; clear Ca; solve5 HL ib kb jb.
      specialize (Ca2 ltac:(lia)). specialize (Cb2 ltac:(lia)). congruence.
    - apply W1 in Ca. apply W2 in Cb. clear W1 W2 R1 R2.
      destruct Ca as [[s ->]|[[Ca1 [s [-> Ca2]]]|[-> Ca]]]; destruct Cb as [[s' Cb]|[[Cb1 [s' [Cb Cb2]]]|[Cb Cb1]]]; inversion Cb; clear Cb; solve5 HL ib kb jb. }
  destruct G as [[-> [G1 ->]]|[[-> [-> [-> G1]]]|[[G1 [-> ->]]|[[G1 [-> [-> G2]]]|[G1 [-> [-> G2]]]]]]].
  - apply down'; lia.
  - apply across; lia.
  - apply later; lia.
  - apply (hb_trans _ (at_ kb kb jb)); [apply later; lia|]. apply down'; lia.
  - apply (hb_trans _ (at_ kb ib kb)); [apply later; lia|]. apply across; lia.
Qed.

Lemma factor_ordered a b : before (factor_tasks p q) a b ->
  tconflict (fun t x => In x (factor_reads t)) (fun t x => In x (factor_writes t)) a b -> hb a b.
Proof.
  intros H. pose proof (before_in _ _ _ H) as [Ha Hb]. apply in_factor in Ha, Hb. apply conflict_hb; auto. eapply factor_lex; eauto.
Qed.

(** *** With whole tiles *)
(** Tasks that can be reached from larfb(k,j): step at least k, column right of k. *)
Lemma reach k t u : k <= tk t -> k < tj t -> valid p q t -> hb t u -> k <= tk u /\ k < tj u.
Proof.
  assert (ST : forall x y, k <= tk x -> k < tj x -> waits (factor_tasks p q) factor_in factor_out x y -> k <= tk y /\ k < tj y).
  { intros x y H1 H2 [B C]. pose proof (before_in _ _ _ B) as [Vx Vy]. apply in_factor in Vx, Vy. apply factor_lex in B. unfold lex in B.
    destruct C as [d C]. destruct x as [k1|k1 j1|k1 i1|k1 i1 j1], y as [k2|k2 j2|k2 i2|k2 i2 j2]; simpl in *;
      repeat match goal with
      | H : _ /\ _ |- _ => destruct H
      | H : False |- _ => destruct H
      | H : (_ =? _) = _ |- _ => idtac
      | H : _ \/ False |- _ => destruct H
      | H : (_ = d \/ _) |- _ => destruct H
      | H : (_ \/ _) /\ _ \/ _ |- _ => destruct H
      | H : _ /\ _ \/ _ |- _ => destruct H
      | H : (_ = d) \/ _ |- _ => destruct H
      | H : (_ \/ _) \/ (_ = d \/ _) |- _ => destruct H
      | H : False \/ _ |- _ => destruct H
      | H : (_ = d \/ False) \/ _ |- _ => destruct H
      end; subst; try match goal with H : (_, _) = (_, _) |- _ => inversion H; subst; clear H end; try lia. }
  intros H1 H2 V H. revert H1 H2. induction H as [x y W|x y z W _ IH]; intros H1 H2.
  - eapply ST; eauto.
  - destruct (ST x y H1 H2 W) as [K1 K2]. apply IH; auto. destruct W as [B _]. apply before_in in B. apply in_factor with (1 := proj2 B) || apply in_factor; tauto.
Qed.
End Factor.

(** *** Q from the reflectors *)
Definition qvalid p q (t : task) : Prop :=
  match t with
  | Larfb k j => k <= j /\ j < q
  | Tpmqrt k i j => k <= j /\ j < q /\ k < i /\ i < p
  | _ => False
  end.
Definition rlex (a b : task) : Prop :=
  tk b < tk a \/ (tk a = tk b /\ (ti b < ti a \/ (ti a = ti b /\ tj a < tj b))).
Lemma in_form p q t : In t (form_tasks p q) <-> qvalid p q t.
Proof.
  unfold form_tasks. rewrite in_flat_map. split.
  - intros [k' [Hk H]]. apply in_seq in Hk. cbv zeta in H. apply in_app_iff in H. destruct H as [H|H].
    + apply in_flat_map in H. destruct H as [i' [Hi H]]. apply in_seq in Hi. apply in_map_iff in H. destruct H as [j [<- H]]. apply in_seq in H. simpl. lia.
    + apply in_map_iff in H. destruct H as [j [<- H]]. apply in_seq in H. simpl. lia.
  - intros V. exists (q - 1 - tk t). split; [apply in_seq; destruct t; simpl in *; lia|]. cbv zeta. apply in_app_iff.
    destruct t as [k|k j|k i|k i j]; simpl in *; try tauto; replace (q - 1 - (q - 1 - k)) with k by lia.
    + right. apply in_map. apply in_seq. lia.
    + left. apply in_flat_map. exists (p - 1 - i). split; [apply in_seq; lia|]. replace (p - 1 - (p - 1 - i)) with i by lia. apply in_map. apply in_seq. lia.
Qed.
Lemma form_rlex p q a b : before (form_tasks p q) a b -> rlex a b.
Proof.
  intros H. apply before_flat in H. destruct H as [[k' [Hk H]]|[k1 [k2 [Hk [Ha Hb]]]]]; cbv zeta in *.
  - apply in_seq in Hk. set (k := q - 1 - k') in *. apply before_app in H. destruct H as [H|[H|[Ha Hb]]].
    + apply before_flat in H. destruct H as [[i [Hi H]]|[i [i' [Hi [Ha Hb]]]]].
      * apply before_map in H. destruct H as [x [y [-> [-> H]]]]. apply before_seq in H. unfold rlex. simpl. lia.
      * pose proof (before_in _ _ _ Hi) as [I1 I2]. apply in_seq in I1, I2. apply before_seq in Hi. apply in_map_iff in Ha, Hb. destruct Ha as [j [<- Ha]], Hb as [j' [<- Hb]]. unfold rlex. simpl. lia.
    + apply before_map in H. destruct H as [x [y [-> [-> H]]]]. apply before_seq in H. unfold rlex. simpl. lia.
    + apply in_flat_map in Ha. destruct Ha as [i [Hi Ha]]. apply in_seq in Hi. apply in_map_iff in Ha, Hb. destruct Ha as [j [<- Ha]], Hb as [j' [<- Hb]]. unfold rlex. simpl. lia.
  - pose proof (before_in _ _ _ Hk) as [I1 I2]. apply in_seq in I1, I2. apply before_seq in Hk.
    assert (Q : forall k t, In t (flat_map (fun i' => map (Tpmqrt k (p - 1 - i')) (seq k (q - k))) (seq 0 (p - 1 - k)) ++ map (Larfb k) (seq k (q - k))) -> tk t = k).
    { intros k t H. apply in_app_iff in H. destruct H as [H|H].
      - apply in_flat_map in H. destruct H as [i [_ H]]. apply in_map_iff in H. destruct H as [j [<- _]]. auto.
      - apply in_map_iff in H. destruct H as [j [<- _]]. auto. }
    apply Q in Ha, Hb. unfold rlex. lia.
Qed.
Lemma form_nodup p q : NoDup (form_tasks p q).
Proof. apply (nodup_order rlex); [unfold rlex; intros; lia|apply form_rlex]. Qed.
Lemma form_ordered p q a b : before (form_tasks p q) a b ->
  tconflict (fun t x => In x (q_reads t)) (fun t x => In x (q_writes t)) a b ->
  clos_trans_1n task (waits (form_tasks p q) form_inout form_inout) a b.
Proof.
  intros H [x C]. pose proof (before_in _ _ _ H) as [Ha Hb]. apply in_form in Ha, Hb.
  constructor. split; auto.
  assert (RW : forall s t, In x (q_reads s) -> In x (q_writes t) -> False).
  { clear C. intros s t H1 H2. destruct s as [k|k j|k i|k i j], t as [k'|k' j'|k' i'|k' i' j']; simpl in H1, H2; try tauto;
    repeat match goal with K : _ \/ _ |- _ => destruct K as [K|K] end; try tauto; subst; discriminate. }
  assert (WD : forall t, In x (q_writes t) -> exists i j, x = LQ i j /\ In (i, j) (form_inout t)).
  { clear C. intros t H1. destruct t as [k|k j|k i|k i j]; simpl in H1 |- *; [destruct H1|destruct H1 as [<-|[]]|destruct H1|destruct H1 as [<-|[<-|[]]]]; eauto 8. }
  assert (B : In x (q_writes a) /\ In x (q_writes b)).
  { destruct C as [[C1 [C2|C2]]|[C1 [C2|C2]]]; auto; exfalso; eauto. }
  destruct B as [B1 B2]. destruct (WD _ B1) as [i [j [E1 D1]]]. destruct (WD _ B2) as [i' [j' [E2 D2]]].
  rewrite E1 in E2. inversion E2; subst. exists (i', j'). left. auto.
Qed.

(** *** Q^T Q *)
Lemma in_check p q t : In t (check_tasks p q) <-> qvalid p q t.
Proof.
  unfold check_tasks. rewrite in_flat_map. split.
  - intros [k [Hk H]]. apply in_seq in Hk. apply in_app_iff in H. destruct H as [H|H].
    + apply in_map_iff in H. destruct H as [j [<- H]]. apply in_seq in H. simpl. lia.
    + apply in_flat_map in H. destruct H as [i [Hi H]]. apply in_seq in Hi. apply in_map_iff in H. destruct H as [j [<- H]]. apply in_seq in H. simpl. lia.
  - intros V. exists (tk t). split; [apply in_seq; destruct t; simpl in *; lia|]. apply in_app_iff.
    destruct t as [k|k j|k i|k i j]; simpl in *; try tauto.
    + left. apply in_map. apply in_seq. lia.
    + right. apply in_flat_map. exists i. split; [apply in_seq; lia|]. apply in_map. apply in_seq. lia.
Qed.
Lemma check_lex p q a b : before (check_tasks p q) a b -> lex a b.
Proof.
  intros H. apply before_flat in H. destruct H as [[k [Hk H]]|[k [k' [Hk [Ha Hb]]]]].
  - apply before_app in H. destruct H as [H|[H|[Ha Hb]]].
    + apply before_map in H. destruct H as [x [y [-> [-> H]]]]. apply before_seq in H. unfold lex. simpl. lia.
    + apply before_flat in H. destruct H as [[i [Hi H]]|[i [i' [Hi [Ha Hb]]]]].
      * apply before_map in H. destruct H as [x [y [-> [-> H]]]]. apply before_seq in H. unfold lex. simpl. lia.
      * apply before_seq in Hi. apply in_map_iff in Ha, Hb. destruct Ha as [j [<- Ha]], Hb as [j' [<- Hb]]. unfold lex. simpl. lia.
    + apply in_flat_map in Hb. destruct Hb as [i [Hi Hb]]. apply in_seq in Hi. apply in_map_iff in Ha, Hb. destruct Ha as [j [<- Ha]], Hb as [j' [<- Hb]]. unfold lex. simpl. lia.
  - apply before_seq in Hk.
    assert (Q : forall k t, In t (map (Larfb k) (seq k (q - k)) ++ flat_map (fun i => map (Tpmqrt k i) (seq k (q - k))) (seq (S k) (p - S k))) -> tk t = k).
    { intros x t H. apply in_app_iff in H. destruct H as [H|H].
      - apply in_map_iff in H. destruct H as [j [<- _]]. auto.
      - apply in_flat_map in H. destruct H as [i [_ H]]. apply in_map_iff in H. destruct H as [j [<- _]]. auto. }
    apply Q in Ha, Hb. unfold lex. lia.
Qed.
Lemma check_nodup p q : NoDup (check_tasks p q).
Proof. apply (nodup_order lex); [apply lex_irrefl|apply check_lex]. Qed.
Definition qat (k i j : nat) : task := if i =? k then Larfb k j else Tpmqrt k i j.
Lemma qat_self t : forall p q, qvalid p q t -> t = qat (tk t) (ti t) (tj t).
Proof.
  intros p q V. unfold qat. destruct t; simpl in *; try tauto; rewrite ?Nat.eqb_refl; auto.
  destruct (Nat.eqb_spec i k); auto. lia.
Qed.
Lemma qat_spec k i j p q : k <= i -> k <= j -> i < p -> j < q -> qvalid p q (qat k i j) /\ tk (qat k i j) = k /\ ti (qat k i j) = i /\ tj (qat k i j) = j /\
  check_out (qat k i j) = [(i, j)] /\ (k < i -> In (i - 1, j) (check_in (qat k i j))).
Proof.
  intros H1 H2 H3 H4. unfold qat. destruct (Nat.eqb_spec i k); simpl; subst; repeat split; auto; try lia.
Qed.
Section Check.
Variables p q : nat.
Notation hb := (clos_trans_1n task (waits (check_tasks p q) check_in check_out)).
Lemma check_before a b : qvalid p q a -> qvalid p q b -> lex a b -> before (check_tasks p q) a b.
Proof.
  intros Va Vb H. apply (order_before lex); auto.
  - apply lex_asym.
  - apply check_lex.
  - apply in_check; auto.
  - apply in_check; auto.
Qed.
Lemma qhb_trans a b c : hb a b -> hb b c -> hb a c.
Proof. induction 1; intros K; econstructor 2; eauto. Qed.
Lemma qdown k i j n : k <= i -> k <= j -> i + S n < p -> j < q -> hb (qat k i j) (qat k (i + S n) j).
Proof.
  assert (ST : forall i, k <= i -> k <= j -> S i < p -> j < q -> hb (qat k i j) (qat k (S i) j)).
  { clear i. intros i H1 H2 H3 H4.
    destruct (qat_spec k i j p q) as [V1 [E1 [E2 [E3 [E4 E5]]]]]; try lia.
    destruct (qat_spec k (S i) j p q) as [V1' [E1' [E2' [E3' [E4' E5']]]]]; try lia.
    constructor. split.
    - apply check_before; auto. unfold lex. lia.
    - exists (i, j). left. rewrite E4. split; [left; auto|]. left. replace i with (S i - 1) at 1 by lia. apply E5'. lia. }
  induction n as [|n IH]; intros H1 H2 H3 H4.
  - replace (i + 1) with (S i) by lia. apply ST; lia.
  - apply (qhb_trans _ (qat k (i + S n) j)); [apply IH; lia|]. replace (i + S (S n)) with (S (i + S n)) by lia. apply ST; lia.
Qed.
Lemma qdown' k i i' j : k <= i -> k <= j -> i < i' -> i' < p -> j < q -> hb (qat k i j) (qat k i' j).
Proof. intros. replace i' with (i + S (i' - i - 1)) by lia. apply qdown; lia. Qed.
Lemma qlater k k' i j : k < k' -> k' <= i -> k' <= j -> i < p -> j < q -> hb (qat k i j) (qat k' i j).
Proof.
  intros H1 H2 H3 H4 H5.
  destruct (qat_spec k i j p q) as [V1 [E1 [E2 [E3 [E4 E5]]]]]; try lia.
  destruct (qat_spec k' i j p q) as [V1' [E1' [E2' [E3' [E4' E5']]]]]; try lia.
  constructor. split.
  - apply check_before; auto. unfold lex. lia.
  - exists (i, j). left. rewrite E4, E4'. split; [left; auto|]. right. left. auto.
Qed.
Lemma check_ordered a b : q <= p -> before (check_tasks p q) a b ->
  tconflict (fun t x => In x (q_reads t)) (fun t x => In x (q_writes t)) a b -> hb a b.
Proof.
  intros HPQ H [x C]. pose proof (before_in _ _ _ H) as [Va Vb]. apply in_check in Va, Vb. apply check_lex in H.
  assert (RW : forall s t, In x (q_reads s) -> In x (q_writes t) -> False).
  { clear C. intros s t H1 H2. destruct s as [k|k j|k i|k i j], t as [k'|k' j'|k' i'|k' i' j']; simpl in H1, H2; try tauto;
    repeat match goal with K : _ \/ _ |- _ => destruct K as [K|K] end; try tauto; subst; discriminate. }
  assert (B : In x (q_writes a) /\ In x (q_writes b)).
  { destruct C as [[C1 [C2|C2]]|[C1 [C2|C2]]]; auto; exfalso; eauto. }
  assert (WD : forall t, In x (q_writes t) -> (x = LQ (ti t) (tj t) \/ x = LQ (tk t) (tj t))).
  { clear C B. intros t H1. destruct t as [k|k j|k i|k i j]; simpl in H1 |- *; [destruct H1|destruct H1 as [<-|[]]|destruct H1|destruct H1 as [<-|[<-|[]]]]; auto. }
  destruct B as [B1 B2]. apply WD in B1, B2.
  assert (Ba : forall t, qvalid p q t -> tk t <= ti t /\ tk t <= tj t /\ ti t < p /\ tj t < q) by (intros t; destruct t; simpl; lia).
  pose proof (Ba _ Va) as Ba1. pose proof (Ba _ Vb) as Bb1. clear Ba WD RW C.
  rewrite (qat_self _ _ _ Va), (qat_self _ _ _ Vb). unfold lex in H.
  assert (J : tj a = tj b) by (destruct B1 as [->| ->], B2 as [B2|B2]; inversion B2; auto).
  destruct H as [H|[H H']].
  - assert (I : ti a = ti b \/ ti a = tk b) by (destruct B1 as [->| ->], B2 as [B2|B2]; inversion B2; lia).
    rewrite J. destruct (Nat.eq_dec (ti a) (ti b)) as [E|E].
    + rewrite E. apply qlater; lia.
    + assert (E2 : ti a = tk b) by lia. rewrite E2. apply (qhb_trans _ (qat (tk b) (tk b) (tj b))); [apply qlater; lia|apply qdown'; lia].
  - rewrite H, J. apply qdown'; lia.
Qed.
End Check.

(** *** Schedules *)
Lemma in_wdec (f : task -> list loc) t x : In x (f t) \/ ~ In x (f t).
Proof. induction (f t) as [|y l IH]; simpl; [tauto|]. destruct (loc_dec y x), IH; tauto. Qed.
Lemma list_conflict (r w : task -> list loc) a b :
  ~ tconflict (fun t x => In x (r t)) (fun t x => In x (w t)) a b \/ tconflict (fun t x => In x (r t)) (fun t x => In x (w t)) a b.
Proof.
  assert (D : forall (l1 l2 : list loc), (exists x, In x l1 /\ In x l2) \/ ~ (exists x, In x l1 /\ In x l2)).
  { induction l1 as [|y l1 IH]; intros l2; [right; intros [x [[] _]]|].
    assert (Dy : In y l2 \/ ~ In y l2) by (induction l2 as [|z l2 IH2]; simpl; [tauto|]; destruct (loc_dec z y), IH2; tauto).
    destruct Dy as [Dy|Dy]; [left; exists y; simpl; auto|]. destruct (IH l2) as [[x [H1 H2]]|H]; [left; exists x; simpl; auto|].
    right. intros [x [[->|H1] H2]]; [tauto|]. apply H. eauto. }
  destruct (D (w a) (r b ++ w b)) as [[x [H1 H2]]|N1].
  - right. exists x. left. apply in_app_iff in H2. auto.
  - destruct (D (w b) (r a ++ w a)) as [[x [H1 H2]]|N2].
    + right. exists x. right. apply in_app_iff in H2. auto.
    + left. intros [x [[H1 H2]|[H1 H2]]]; [apply N1|apply N2]; exists x; rewrite in_app_iff; auto.
Qed.

Section Schedules.
Context {V : Type}.
Variable steps : task -> nat.
Variable step : task * nat -> (loc + task -> V) -> loc + task -> V.
Hypothesis HS : forall t, 0 < steps t.

Lemma schedule_gen (prog : list task) (i o : task -> list (nat * nat)) (r w : task -> list loc) sched s :
  NoDup prog -> (forall a b, before prog a b -> tconflict (fun t x => In x (r t)) (fun t x => In x (w t)) a b -> clos_trans_1n task (waits prog i o) a b) ->
  respects step (sreads (fun t x => In x (r t)) (fun t x => In x (w t))) (swrites (fun t x => In x (w t))) ->
  interleaving steps prog (waits prog i o) sched ->
  same (exec step sched s) (exec step (events steps prog) s).
Proof.
  intros ND HC HR HI. apply (interleavings steps step (fun t x => In x (r t)) (fun t x => In x (w t))) with (ord := waits prog i o); auto.
  - intros t x. apply in_wdec.
  - apply task_dec.
  - intros a b Hb. destruct (list_conflict r w a b); auto.
Qed.
Lemma factor_schedule p q sched s : q <= p ->
  respects step (sreads (fun t x => In x (factor_reads t)) (fun t x => In x (factor_writes t))) (swrites (fun t x => In x (factor_writes t))) ->
  interleaving steps (factor_tasks p q) (waits (factor_tasks p q) factor_in factor_out) sched ->
  same (exec step sched s) (exec step (events steps (factor_tasks p q)) s).
Proof. intros H. apply schedule_gen; [apply factor_nodup|]. intros a b. apply factor_ordered; auto. Qed.
Lemma form_schedule p q sched s :
  respects step (sreads (fun t x => In x (q_reads t)) (fun t x => In x (q_writes t))) (swrites (fun t x => In x (q_writes t))) ->
  interleaving steps (form_tasks p q) (waits (form_tasks p q) form_inout form_inout) sched ->
  same (exec step sched s) (exec step (events steps (form_tasks p q)) s).
Proof. apply schedule_gen; [apply form_nodup|]. intros a b. apply form_ordered. Qed.
Lemma check_schedule p q sched s : q <= p ->
  respects step (sreads (fun t x => In x (q_reads t)) (fun t x => In x (q_writes t))) (swrites (fun t x => In x (q_writes t))) ->
  interleaving steps (check_tasks p q) (waits (check_tasks p q) check_in check_out) sched ->
  same (exec step sched s) (exec step (events steps (check_tasks p q)) s).
Proof. intros H. apply schedule_gen; [apply check_nodup|]. intros a b. apply check_ordered; auto. Qed.
End Schedules.

(** *** What may run at the same time *)
(** Both are generated and neither has to wait for the other. *)
Definition concurrent (prog : list task) (i o : task -> list (nat * nat)) (a b : task) : Prop :=
  In a prog /\ In b prog /\ a <> b /\ ~ clos_trans_1n task (waits prog i o) a b /\ ~ clos_trans_1n task (waits prog i o) b a.
(** One writes what the other reads or writes. *)
Definition interferes (r w : task -> list loc) (a b : task) : Prop :=
  exists x, (In x (w a) /\ (In x (r b) \/ In x (w b))) \/ (In x (w b) /\ (In x (r a) \/ In x (w a))).
Lemma concurrent_gen (prog : list task) (i o : task -> list (nat * nat)) (r w : task -> list loc) a b :
  (forall a b, before prog a b -> tconflict (fun t x => In x (r t)) (fun t x => In x (w t)) a b -> clos_trans_1n task (waits prog i o) a b) ->
  concurrent prog i o a b -> ~ interferes r w a b.
Proof.
  intros H [Ha [Hb [N [N1 N2]]]] [x C]. destruct (before_total prog a b Ha Hb N) as [B|B].
  - apply N1. apply H; auto. exists x. exact C.
  - apply N2. apply H; auto. exists x. tauto.
Qed.
Lemma factor_concurrent p q a b : q <= p -> concurrent (factor_tasks p q) factor_in factor_out a b -> ~ interferes factor_reads factor_writes a b.
Proof. intros H. apply concurrent_gen. intros. apply factor_ordered; auto. Qed.
Lemma form_concurrent p q a b : concurrent (form_tasks p q) form_inout form_inout a b -> ~ interferes q_reads q_writes a b.
Proof. apply concurrent_gen. intros. apply form_ordered; auto. Qed.
Lemma check_concurrent p q a b : q <= p -> concurrent (check_tasks p q) check_in check_out a b -> ~ interferes q_reads q_writes a b.
Proof. intros H. apply concurrent_gen. intros. apply check_ordered; auto. Qed.

(** By whole tiles: larfb(k,j) reads A(k,k) while tpqrt(k+1,k) may be changing it. *)
Lemma tile_race p q k j : q <= p -> k < j -> j < q ->
  concurrent (factor_tasks p q) factor_in factor_out (Larfb k j) (Tpqrt k (S k)) /\
  (exists h, In (LA k k h) (factor_reads (Larfb k j))) /\ (exists h, In (LA k k h) (factor_writes (Tpqrt k (S k)))).
Proof.
  intros HPQ H1 H2. split; [|split; eexists; left; reflexivity]. split; [apply in_factor; simpl; lia|]. split; [apply in_factor; simpl; lia|]. split; [discriminate|]. split.
  - intros H. apply (reach p q HPQ k) in H; simpl in *; lia.
  - intros H. assert (G : forall a b, clos_trans_1n task (waits (factor_tasks p q) factor_in factor_out) a b -> before (factor_tasks p q) a b).
    { clear. intros a b H. induction H as [a b [H _]|a b c [H _] _ IH]; auto. eapply before_trans; [apply factor_nodup|exact H|exact IH]. }
    apply G in H. apply factor_lex in H. unfold lex in H. simpl in H. lia.
Qed.
