(** Sorting points by Morton index: src/operations/misc/morton_index.cpp:47-98.
    Coordinates are rationals; std::sort, which leaves the order of equal elements
    unspecified, is any function that returns a sorted permutation. *)
From Coq Require Import List Arith ZArith NArith QArith Qround Lia Lqa Permutation Sorted.
From Verif Require Import Prelude Heap HeapProofs Morton.
Import ListNotations.
Local Open Scope nat_scope.

(** *std::min_element(l.begin(), l.end()) *)
Fixpoint min_list (x : Q) (l : list Q) : Q :=
  match l with [] => x | y :: t => min_list (if Qle_bool x y then x else y) t end.
Fixpoint max_list (x : Q) (l : list Q) : Q :=
  match l with [] => x | y :: t => max_list (if Qle_bool y x then x else y) t end.
Definition min_elem (l : list Q) : outcome Q := match l with [] => UB | x :: t => Ok (min_list x t) end.
Definition max_elem (l : list Q) : outcome Q := match l with [] => UB | x :: t => Ok (max_list x t) end.

(** normalizeWithinBox (56-73): size of the box and its lower corner, then scaling. *)
Fixpoint box_of (x : list (list Q)) (eps bsize : Q) : outcome (Q * list Q) :=
  match x with
  | [] => Ok (bsize, [])
  | c :: t =>
      let* lo := min_elem c in
      let* hi := max_elem c in
      let w := Qminus hi lo in
      let* (b, bmin) := box_of t eps (if Qle_bool w bsize then bsize else w) in
      Ok (b, Qminus lo eps :: bmin)
  end.
Fixpoint scale_all (x : list (list Q)) (bmin : list Q) (bsize : Q) : list (list Q) :=
  match x, bmin with
  | c :: t, b :: bs => map (fun v => Qdiv (Qminus v b) bsize) c :: scale_all t bs bsize
  | _, _ => []
  end.
Definition normalize (x : list (list Q)) (eps : Q) : outcome (list (list Q)) :=
  let* (b, bmin) := box_of x eps 0%Q in
  Ok (scale_all x bmin (Qplus b (Qmult 2 eps))).

(** getBoxNumber (47-54).  A negative coordinate would give a negative cell, which is
    outside of the model of [morton]. *)
Fixpoint cells (p : list Q) (level : nat) : outcome (list N) :=
  match p with
  | [] => Ok []
  | v :: t =>
      let z := Qfloor (Qmult v (inject_Z (2 ^ Z.of_nat level))) in
      if (z <? 0)%Z then UB else let* r := cells t level in Ok (Z.to_N z :: r)
  end.
Definition box_number (p : list Q) (level : nat) : outcome N :=
  let* c := cells p level in Ok (morton c level).

(** Point i: xnT[i] (79-83) *)
Fixpoint point (x : list (list Q)) (i : nat) : outcome (list Q) :=
  match x with
  | [] => Ok []
  | c :: t => match nth_error c i with
              | Some v => let* r := point t i in Ok (v :: r)
              | None => UB
              end
  end.

Fixpoint omaps {A B} (f : A -> outcome B) (l : list A) : outcome (list B) :=
  match l with [] => Ok [] | a :: t => let* b := f a in let* r := omaps f t in Ok (b :: r) end.

(** The box numbers of all points (77-86). *)
Definition box_numbers (x : list (list Q)) (level : nat) : outcome (list N) :=
  let* xn := normalize x (1 # 2) in
  match xn with
  | [] => UB
  | c :: _ => omaps (fun i => let* p := point xn i in box_number p level) (seq 0 (length c))
  end.

Definition gather {A} (l : list A) (idx : list nat) : outcome (list A) :=
  omaps (fun i => match nth_error l i with Some a => Ok a | None => UB end) idx.

(** x[dim][i] = x_copy[dim][first of i], for the points there are. *)
Definition rearrange (idx : list nat) (c : list Q) : outcome (list Q) :=
  if length c <? length idx then UB
  else let* g := gather c idx in Ok (g ++ skipn (length idx) c).

Section Sort.
Variable srt : list (nat * N) -> list (nat * N).

(** sortByMortonIndex (75-98) *)
Definition sort_morton (x : list (list Q)) (level : nat) (perm : list nat) : outcome (list (list Q) * list nat) :=
  let* bs := box_numbers x level in
  let s := srt (combine (seq 0 (length bs)) bs) in
  let idx := map fst s in
  if length perm <? length idx then UB
  else
    let* x' := omaps (rearrange idx) x in
    Ok (x', idx ++ skipn (length idx) perm).
End Sort.

Definition sorts (srt : list (nat * N) -> list (nat * N)) : Prop :=
  forall l, Permutation (srt l) l /\ StronglySorted (fun a b => (snd a <= snd b)%N) (srt l).

(** A rectangular array of n points, at least one coordinate. *)
Definition points (n : nat) (x : list (list Q)) : Prop := x <> [] /\ forall c, In c x -> length c = n.

(** ** Extremal elements *)
Lemma Qle_bool_total x y : Qle_bool x y = false -> (y <= x)%Q.
Proof.
  intros H. destruct (Qlt_le_dec x y) as [Hl|Hl]; auto. apply Qlt_le_weak in Hl. apply Qle_bool_iff in Hl. congruence.
Qed.

Lemma min_list_spec l : forall x, In (min_list x l) (x :: l) /\ forall y, In y (x :: l) -> (min_list x l <= y)%Q.
Proof.
  induction l as [|z l IH]; intros x; simpl.
  - split; auto. intros y [<-|[]]. apply Qle_refl.
  - destruct (Qle_bool x z) eqn:E.
    + apply Qle_bool_iff in E. destruct (IH x) as [I1 I2]. split.
      * destruct I1 as [I1|I1]; auto.
      * intros y [<-|[<-|H]]; [apply I2; left; auto| |apply I2; right; auto].
        eapply Qle_trans; [apply I2; left; reflexivity|auto].
    + apply Qle_bool_total in E. destruct (IH z) as [I1 I2]. split.
      * destruct I1 as [I1|I1]; auto.
      * intros y [<-|[<-|H]]; [|apply I2; left; auto|apply I2; right; auto].
        eapply Qle_trans; [apply I2; left; reflexivity|auto].
Qed.

Lemma max_list_spec l : forall x, In (max_list x l) (x :: l) /\ forall y, In y (x :: l) -> (y <= max_list x l)%Q.
Proof.
  induction l as [|z l IH]; intros x; simpl.
  - split; auto. intros y [<-|[]]. apply Qle_refl.
  - destruct (Qle_bool z x) eqn:E.
    + apply Qle_bool_iff in E. destruct (IH x) as [I1 I2]. split.
      * destruct I1 as [I1|I1]; auto.
      * intros y [<-|[<-|H]]; [apply I2; left; auto| |apply I2; right; auto].
        eapply Qle_trans; [exact E|]. apply I2; left; reflexivity.
    + apply Qle_bool_total in E. destruct (IH z) as [I1 I2]. split.
      * destruct I1 as [I1|I1]; auto.
      * intros y [<-|[<-|H]]; [|apply I2; left; auto|apply I2; right; auto].
        eapply Qle_trans; [exact E|]. apply I2; left; reflexivity.
Qed.

Definition is_min (m : Q) (l : list Q) : Prop := (exists y, In y l /\ (y == m)%Q) /\ forall y, In y l -> (m <= y)%Q.
Definition is_max (m : Q) (l : list Q) : Prop := (exists y, In y l /\ (y == m)%Q) /\ forall y, In y l -> (y <= m)%Q.

Lemma min_elem_spec l : l <> [] -> exists m, min_elem l = Ok m /\ is_min m l.
Proof.
  destruct l as [|x l]; [congruence|]. intros _. exists (min_list x l). split; auto.
  destruct (min_list_spec l x) as [H1 H2]. split; auto. exists (min_list x l). split; auto. reflexivity.
Qed.
Lemma max_elem_spec l : l <> [] -> exists m, max_elem l = Ok m /\ is_max m l.
Proof.
  destruct l as [|x l]; [congruence|]. intros _. exists (max_list x l). split; auto.
  destruct (max_list_spec l x) as [H1 H2]. split; auto. exists (max_list x l). split; auto. reflexivity.
Qed.

Lemma is_min_perm m m' l l' : Permutation l l' -> is_min m l -> is_min m' l' -> (m == m')%Q.
Proof.
  intros P [[y [Hy Ey]] H2] [[z [Hz Ez]] H4]. apply Qle_antisym.
  - rewrite <- Ez. apply H2. eapply Permutation_in; [apply Permutation_sym; eauto|auto].
  - rewrite <- Ey. apply H4. eapply Permutation_in; eauto.
Qed.
Lemma is_max_perm m m' l l' : Permutation l l' -> is_max m l -> is_max m' l' -> (m == m')%Q.
Proof.
  intros P [[y [Hy Ey]] H2] [[z [Hz Ez]] H4]. apply Qle_antisym.
  - rewrite <- Ey. apply H4. eapply Permutation_in; eauto.
  - rewrite <- Ez. apply H2. eapply Permutation_in; [apply Permutation_sym; eauto|auto].
Qed.
Lemma is_min_max m m' l : is_min m l -> is_max m' l -> (m <= m')%Q.
Proof. intros [[y [Hy Ey]] _] [_ H4]. rewrite <- Ey. apply H4; auto. Qed.

(** ** The box *)
(** Same coordinates, each list permuted. *)
Definition permuted (x x' : list (list Q)) : Prop := Forall2 (@Permutation Q) x x'.

Lemma box_of_spec eps x : forall bs, (forall c, In c x -> c <> []) ->
  exists b bmin, box_of x eps bs = Ok (b, bmin) /\ length bmin = length x /\ (bs <= b)%Q /\
   forall k c, nth_error x k = Some c -> exists lo hi, is_min lo c /\ is_max hi c /\
     nth_error bmin k = Some (lo - eps)%Q /\ (hi - lo <= b)%Q.
Proof.
  induction x as [|c x IH]; intros bs H.
  - exists bs, []. simpl. split; auto. split; auto. split; [apply Qle_refl|]. intros [|k] c Hc; discriminate.
  - simpl. destruct (min_elem_spec c) as [lo [E1 M1]]; [apply H; left; auto|].
    destruct (max_elem_spec c) as [hi [E2 M2]]; [apply H; left; auto|]. rewrite E1, E2. cbn [bind].
    set (w := (hi - lo)%Q). set (bs1 := if Qle_bool w bs then bs else w).
    assert (B1 : (bs <= bs1)%Q /\ (w <= bs1)%Q).
    { unfold bs1. destruct (Qle_bool w bs) eqn:E.
      - apply Qle_bool_iff in E. split; [apply Qle_refl|auto].
      - apply Qle_bool_total in E. split; [auto|apply Qle_refl]. }
    destruct (IH bs1) as [b [bmin [E3 [L3 [B3 H3]]]]]; [intros c' Hc'; apply H; right; auto|].
    rewrite E3. cbn [bind]. exists b, ((lo - eps)%Q :: bmin). split; auto. split; [simpl; auto|].
    destruct B1 as [B1 B2]. split; [eapply Qle_trans; eauto|].
    intros [|k] c' Hc'; simpl in Hc'.
    + inversion Hc'; subst c'. exists lo, hi. repeat (split; auto). eapply Qle_trans; eauto.
    + destruct (H3 k c' Hc') as [lo' [hi' [X1 [X2 [X3 X4]]]]]. exists lo', hi'. auto.
Qed.

Lemma box_of_perm eps x : forall x' bs bs' b bmin b' bmin', (forall c, In c x -> c <> []) -> permuted x x' -> (bs == bs')%Q ->
  box_of x eps bs = Ok (b, bmin) -> box_of x' eps bs' = Ok (b', bmin') -> (b == b')%Q /\ Forall2 Qeq bmin bmin'.
Proof.
  induction x as [|c x IH]; intros x' bs bs' b bmin b' bmin' H P E E1 E2; inversion P as [|? c' ? x1 Pc Px]; subst.
  - simpl in E1, E2. inversion E1; inversion E2; subst. split; auto.
  - assert (Hc : c <> []) by (apply H; left; auto).
    assert (Hc' : c' <> []). { intros ->. apply Permutation_sym, Permutation_nil in Pc. auto. }
    simpl in E1, E2.
    destruct (min_elem_spec c Hc) as [lo [El Ml]]. destruct (max_elem_spec c Hc) as [hi [Eh Mh]].
    destruct (min_elem_spec c' Hc') as [lo' [El' Ml']]. destruct (max_elem_spec c' Hc') as [hi' [Eh' Mh']].
    rewrite El, Eh in E1. rewrite El', Eh' in E2. cbn [bind] in E1, E2.
    apply bind_Ok in E1. destruct E1 as [[b1 m1] [E1 Q1]]. apply bind_Ok in E2. destruct E2 as [[b2 m2] [E2 Q2]].
    inversion Q1; inversion Q2; subst.
    pose proof (is_min_perm _ _ _ _ Pc Ml Ml') as Elo. pose proof (is_max_perm _ _ _ _ Pc Mh Mh') as Ehi.
    refine ((fun HI => _) (fun Eq => IH x1 _ _ _ _ _ _ (fun c0 H0 => H c0 (or_intror H0)) Px Eq E1 E2)).
    destruct HI as [I1 I2].
    + destruct (Qle_bool (hi - lo) bs) eqn:A, (Qle_bool (hi' - lo') bs') eqn:B; auto.
      * apply Qle_bool_iff in A. apply Qle_bool_total in B. lra.
      * apply Qle_bool_total in A. apply Qle_bool_iff in B. lra.
      * lra.
    + split; auto. constructor; auto. lra.
Qed.

(** Components of the normalized points. *)
Lemma scale_all_nth x : forall bmin b k c m, nth_error x k = Some c -> nth_error bmin k = Some m ->
  nth_error (scale_all x bmin b) k = Some (map (fun v => Qdiv (Qminus v m) b) c).
Proof.
  induction x as [|c x IH]; intros bmin b k c' m H1 H2; [destruct k; discriminate|].
  destruct bmin as [|m' bmin]; [destruct k; discriminate|]. destruct k as [|k]; simpl in *.
  - inversion H1; inversion H2; subst. reflexivity.
  - apply IH; auto.
Qed.
Lemma scale_all_length x : forall bmin b, length bmin = length x -> length (scale_all x bmin b) = length x.
Proof. induction x as [|c x IH]; intros [|m bmin] b H; simpl in *; auto; lia. Qed.

(** All normalized coordinates are in (0,1). *)
Lemma normalize_spec x : (forall c, In c x -> c <> []) ->
  exists b bmin, box_of x (1 # 2) 0 = Ok (b, bmin) /\ length bmin = length x /\ (0 <= b)%Q /\
   normalize x (1 # 2) = Ok (scale_all x bmin (b + 2 * (1 # 2))%Q) /\
   forall k c m v, nth_error x k = Some c -> nth_error bmin k = Some m -> In v c ->
     (0 < (v - m) / (b + 2 * (1 # 2)))%Q /\ ((v - m) / (b + 2 * (1 # 2)) < 1)%Q.
Proof.
  intros H. destruct (box_of_spec (1 # 2) x 0%Q H) as [b [bmin [E [L [B HB]]]]].
  exists b, bmin. split; auto. split; auto. split; auto. split; [unfold normalize; rewrite E; reflexivity|].
  intros k c m v Hk Hm Hv. destruct (HB k c Hk) as [lo [hi [[_ M1] [[_ M2] [M3 M4]]]]].
  rewrite Hm in M3. inversion M3; subst m. specialize (M1 v Hv). specialize (M2 v Hv).
  split.
  - apply Qlt_shift_div_l; lra.
  - apply Qlt_shift_div_r; lra.
Qed.

Lemma point_spec x : forall i n, (forall c, In c x -> length c = n) -> i < n ->
  exists p, point x i = Ok p /\ length p = length x /\
   forall k c, nth_error x k = Some c -> nth_error p k = nth_error c i.
Proof.
  induction x as [|c x IH]; intros i n H Hi.
  - exists []. simpl. split; auto. split; auto. intros [|k] c Hc; discriminate.
  - simpl. assert (Hc : length c = n) by (apply H; left; auto).
    destruct (nth_error c i) as [v|] eqn:E; [|apply nth_error_None in E; lia].
    destruct (IH i n) as [p [E1 [L1 H1]]]; auto. { intros c' Hc'. apply H. right. auto. }
    rewrite E1. cbn [bind]. exists (v :: p). split; auto. split; [simpl; auto|].
    intros [|k] c' Hc'; simpl in *; [inversion Hc'; subst; auto|auto].
Qed.

Lemma cells_spec level p : (forall v, In v p -> (0 <= v)%Q /\ (v < 1)%Q) ->
  exists c, cells p level = Ok c /\ length c = length p /\ (forall x, In x c -> (x < 2 ^ N.of_nat level)%N).
Proof.
  induction p as [|v p IH]; intros H.
  - exists []. simpl. split; auto. split; auto. intros x [].
  - cbn [cells]. destruct (H v) as [H1 H2]; [left; auto|].
    assert (P : (0 < 2 ^ Z.of_nat level)%Z) by (apply Z.pow_pos_nonneg; lia).
    assert (PQ : (0 < inject_Z (2 ^ Z.of_nat level))%Q) by (rewrite (Zlt_Qlt 0) in P; exact P).
    set (z := Qfloor (v * inject_Z (2 ^ Z.of_nat level))).
    assert (Z0 : (0 <= z)%Z).
    { change 0%Z with (Qfloor 0). apply Qfloor_resp_le. apply Qmult_le_0_compat; auto. apply Qlt_le_weak. auto. }
    assert (Z1 : (z < 2 ^ Z.of_nat level)%Z).
    { rewrite Zlt_Qlt. eapply Qle_lt_trans; [apply Qfloor_le|].
      rewrite <- (Qmult_1_l (inject_Z (2 ^ Z.of_nat level))) at 2. apply Qmult_lt_compat_r; auto. }
    destruct (Z.ltb_spec z 0); [lia|].
    destruct IH as [c [E [L B]]]; [intros; apply H; right; auto|]. rewrite E. cbn [bind].
    exists (Z.to_N z :: c). split; auto. split; [simpl; auto|]. intros x [<-|Hx]; [|auto].
    apply N2Z.inj_lt. rewrite Z2N.id by auto. rewrite N2Z.inj_pow, nat_N_Z. exact Z1.
Qed.

(** Equal coordinates give equal cells. *)
Lemma cells_eq level p : forall p', Forall2 Qeq p p' -> cells p level = cells p' level.
Proof.
  induction p as [|v p IH]; intros p' H; inversion H as [|? v' ? q Hv Hq]; subst; auto.
  cbn [cells]. rewrite (IH q Hq). rewrite (Qfloor_comp _ _ (Qmult_comp _ _ Hv _ _ (Qeq_refl (inject_Z (2 ^ Z.of_nat level))))). reflexivity.
Qed.

Lemma omaps_spec {A B} (f : A -> outcome B) (l : list A) : (forall a, In a l -> exists b, f a = Ok b) ->
  exists r, omaps f l = Ok r /\ Forall2 (fun a b => f a = Ok b) l r.
Proof.
  induction l as [|a l IH]; intros H; simpl.
  - exists []. split; auto.
  - destruct (H a) as [b E]; [left; auto|]. rewrite E. cbn [bind].
    destruct IH as [r [E1 F1]]; [intros; apply H; right; auto|]. rewrite E1. cbn [bind]. exists (b :: r). split; auto.
Qed.

Lemma Forall2_nth {A B} (P : A -> B -> Prop) l m : Forall2 P l m -> forall i a, nth_error l i = Some a ->
  exists b, nth_error m i = Some b /\ P a b.
Proof.
  induction 1 as [|a b l m Hab F IH]; intros i a' Hi; [destruct i; discriminate|].
  destruct i as [|i]; simpl in *; [inversion Hi; subst; eauto|auto].
Qed.
Lemma Forall2_length' {A B} (P : A -> B -> Prop) l m : Forall2 P l m -> length l = length m.
Proof. induction 1; simpl; auto. Qed.

Lemma points_nonempty n x c : points n x -> 0 < n -> In c x -> c <> [].
Proof. intros [_ H] Hn Hc E. apply H in Hc. rewrite E in Hc. simpl in Hc. lia. Qed.

(** The box number of every point, and its normalized coordinates. *)
Lemma box_numbers_spec n x level : points n x -> 0 < n ->
  exists b bmin bs, box_of x (1 # 2) 0 = Ok (b, bmin) /\ length bmin = length x /\
   box_numbers x level = Ok bs /\ length bs = n /\
   forall i, i < n -> exists p c, point (scale_all x bmin (b + 2 * (1 # 2))%Q) i = Ok p /\ cells p level = Ok c /\
     box (length x) level c /\ nth_error bs i = Some (morton c level).
Proof.
  intros HP Hn. destruct (normalize_spec x (fun c => points_nonempty n x c HP Hn)) as [b [bmin [E [L [B [EN HV]]]]]].
  set (xn := scale_all x bmin (b + 2 * (1 # 2))%Q) in *.
  assert (HX : forall k c, nth_error xn k = Some c -> exists c0 m, nth_error x k = Some c0 /\ nth_error bmin k = Some m /\
     c = map (fun v => Qdiv (Qminus v m) (b + 2 * (1 # 2))) c0).
  { intros k c Hc. assert (Hk : k < length x).
    { assert (k < length xn) by (apply nth_error_Some; congruence). unfold xn in H. rewrite scale_all_length in H; auto. }
    destruct (nth_error x k) as [c0|] eqn:E0; [|apply nth_error_None in E0; lia].
    destruct (nth_error bmin k) as [m|] eqn:E1; [|apply nth_error_None in E1; lia].
    exists c0, m. split; auto. split; auto. unfold xn in Hc. rewrite (scale_all_nth x bmin _ k c0 m E0 E1) in Hc. congruence. }
  assert (HL : forall c, In c xn -> length c = n).
  { intros c Hc. apply In_nth_error in Hc. destruct Hc as [k Hk]. destruct (HX k c Hk) as [c0 [m [H1 [H2 ->]]]].
    rewrite map_length. apply HP. eapply nth_error_In; eauto. }
  assert (HPT : forall i, i < n -> exists p c, point xn i = Ok p /\ cells p level = Ok c /\ box (length x) level c).
  { intros i Hi. destruct (point_spec xn i n HL Hi) as [p [E1 [L1 H1]]]. exists p.
    destruct (cells_spec level p) as [c [E2 [L2 B2]]].
    - intros v Hv. apply In_nth_error in Hv. destruct Hv as [k Hk].
      assert (Hkx : k < length xn) by (rewrite <- L1; apply nth_error_Some; congruence).
      destruct (nth_error xn k) as [c|] eqn:Ec; [|apply nth_error_None in Ec; lia].
      rewrite (H1 k c Ec) in Hk. destruct (HX k c Ec) as [c0 [m [X1 [X2 X3]]]]. subst c. rewrite nth_error_map in Hk.
      destruct (nth_error c0 i) as [v0|] eqn:Ev; [|discriminate]. simpl in Hk. inversion Hk; subst v.
      destruct (HV k c0 m v0 X1 X2 (nth_error_In _ _ Ev)) as [V1 V2]. split; auto. apply Qlt_le_weak; auto.
    - exists c. split; auto. split; auto. split; [rewrite L2, L1; unfold xn; apply scale_all_length; auto|auto]. }
  destruct (omaps_spec (fun i => let* p := point xn i in box_number p level) (seq 0 n)) as [bs [EB FB]].
  { intros i Hi. apply in_seq in Hi. destruct (HPT i) as [p [c [E1 [E2 _]]]]; [lia|]. rewrite E1. cbn [bind].
    unfold box_number. rewrite E2. cbn [bind]. eauto. }
  exists b, bmin, bs. split; auto. split; auto. split.
  { unfold box_numbers. rewrite EN. cbn [bind]. destruct HP as [HP1 HP2].
    destruct xn as [|c0 xn0] eqn:EX.
    { exfalso. apply HP1. apply length_zero_iff_nil. rewrite <- (scale_all_length x bmin (b + 2 * (1 # 2))%Q) by auto. fold xn. rewrite EX. reflexivity. }
    rewrite <- EX in *. assert (Hc0 : length c0 = n) by (apply HL; rewrite EX; left; auto). rewrite Hc0. exact EB. }
  split. { rewrite <- (Forall2_length' _ _ _ FB). apply seq_length. }
  intros i Hi. destruct (HPT i Hi) as [p [c [E1 [E2 B2]]]]. exists p, c. split; auto. split; auto. split; auto.
  destruct (Forall2_nth _ _ _ FB i i) as [r [Hr Er]].
  { rewrite (nth_error_nth' _ 0) by (rewrite seq_length; auto). rewrite seq_nth by auto. reflexivity. }
  rewrite Hr. f_equal. rewrite E1 in Er. cbn [bind] in Er. unfold box_number in Er. rewrite E2 in Er. cbn [bind] in Er. congruence.
Qed.

(** ** The sort *)
Lemma gather_spec {A} (l : list A) idx : (forall i, In i idx -> i < length l) ->
  exists g, gather l idx = Ok g /\ Forall2 (fun i a => nth_error l i = Some a) idx g.
Proof.
  intros H. destruct (omaps_spec (fun i => match nth_error l i with Some a => Ok a | None => UB end) idx) as [g [E F]].
  - intros i Hi. apply H in Hi. apply nth_error_Some in Hi. destruct (nth_error l i); [eauto|congruence].
  - exists g. split; auto. clear -F. induction F as [|i a idx g Ha F IH]; constructor; auto.
    destruct (nth_error l i); congruence.
Qed.

Lemma gather_all (l g : list Q) idx : Permutation idx (seq 0 (length l)) ->
  Forall2 (fun i a => nth_error l i = Some a) idx g -> Permutation l g.
Proof.
  intros P F.
  assert (E1 : g = map (fun i => nth i l 0%Q) idx).
  { clear P. induction F as [|i a idx g Ha F IH]; simpl; auto. rewrite IH. f_equal. symmetry. apply nth_error_nth. auto. }
  assert (E2 : l = map (fun i => nth i l 0%Q) (seq 0 (length l))).
  { clear. apply nth_ext with (d := 0%Q) (d' := 0%Q); [rewrite map_length, seq_length; auto|].
    intros n Hn. rewrite nth_indep with (l := map _ _) (d' := nth 0 l 0%Q) by (rewrite map_length, seq_length; auto).
    rewrite (map_nth (fun i => nth i l 0%Q)). rewrite seq_nth by auto. reflexivity. }
  rewrite E1. rewrite E2 at 1. apply Permutation_map. apply Permutation_sym. auto.
Qed.

Lemma combine_nth_error {A B} (l : list A) (m : list B) i a b :
  nth_error (combine l m) i = Some (a, b) -> nth_error l i = Some a /\ nth_error m i = Some b.
Proof.
  revert m i. induction l as [|x l IH]; intros [|y m] [|i] H; simpl in *; try discriminate; [inversion H; auto|auto].
Qed.

Lemma map_fst_combine {A B} (l : list A) : forall (m : list B), length l = length m -> map fst (combine l m) = l.
Proof. induction l as [|x l IH]; intros [|y m] H; simpl in *; try discriminate; auto. rewrite IH; auto. Qed.

Theorem sort_morton_spec srt n x level perm : sorts srt -> points n x -> 0 < n -> n <= length perm ->
  exists x' perm', sort_morton srt x level perm = Ok (x', perm') /\
    Permutation (firstn n perm') (seq 0 n) /\ skipn n perm' = skipn n perm /\ length perm' = length perm /\
    points n x' /\ length x' = length x /\
    (forall k c i, nth_error x k = Some c -> i < n -> exists c', nth_error x' k = Some c' /\
       nth_error c' i = nth_error c (nth i perm' 0)) /\
    exists bs, box_numbers x' level = Ok bs /\ length bs = n /\ StronglySorted N.le bs.
Proof.
  intros HS HP Hn Hperm.
  destruct (box_numbers_spec n x level HP Hn) as [b [bmin [bs [EB0 [LB [EB [LBS HB]]]]]]].
  unfold sort_morton. rewrite EB. cbn [bind]. rewrite LBS.
  set (s := srt (combine (seq 0 n) bs)). set (idx := map fst s).
  destruct (HS (combine (seq 0 n) bs)) as [PS SS]. fold s in PS, SS.
  assert (PI : Permutation idx (seq 0 n)).
  { unfold idx. rewrite <- (map_fst_combine (seq 0 n) bs) at 1 by (rewrite seq_length; auto). apply Permutation_map. exact PS. }
  assert (LI : length idx = n) by (rewrite (Permutation_length PI); apply seq_length).
  assert (BI : forall i, In i idx -> i < n). { intros i Hi. apply (Permutation_in _ PI) in Hi. apply in_seq in Hi. lia. }
  destruct (Nat.ltb_spec (length perm) (length idx)); [lia|].
  assert (HR : forall c, In c x -> exists g, rearrange idx c = Ok g /\ Forall2 (fun i a => nth_error c i = Some a) idx g /\ Permutation c g /\ length g = n).
  { intros c Hc. assert (Lc : length c = n) by (apply HP; auto). unfold rearrange.
    destruct (Nat.ltb_spec (length c) (length idx)); [lia|].
    destruct (gather_spec c idx) as [g [E F]]; [intros i Hi; rewrite Lc; auto|]. rewrite E. cbn [bind].
    exists g. rewrite skipn_all2 by lia. rewrite app_nil_r. split; auto. split; auto.
    assert (PG : Permutation c g) by (apply (gather_all c g idx); [rewrite Lc|]; assumption). split; auto.
    rewrite <- (Permutation_length PG). auto. }
  destruct (omaps_spec (rearrange idx) x) as [x' [EX FX]].
  { intros c Hc. destruct (HR c Hc) as [g [E _]]. eauto. }
  rewrite EX. cbn [bind]. exists x', (idx ++ skipn (length idx) perm). split; auto.
  split. { rewrite <- LI at 1. rewrite firstn_app, Nat.sub_diag, firstn_all. simpl. rewrite app_nil_r. auto. }
  split. { rewrite <- LI at 1. rewrite skipn_app, Nat.sub_diag, skipn_all. simpl. rewrite LI. reflexivity. }
  split. { rewrite app_length, skipn_length. lia. }
  assert (FX2 : Forall2 (fun c g => rearrange idx c = Ok g /\ Forall2 (fun i a => nth_error c i = Some a) idx g /\ Permutation c g /\ length g = n) x x').
  { clear -FX HR. induction FX as [|c g x x' E F IH]; constructor.
    - destruct (HR c) as [g' [E' R]]; [left; auto|]. rewrite E in E'. inversion E'; subst. auto.
    - apply IH. intros; apply HR; right; auto. }
  assert (HP' : points n x').
  { destruct HP as [HP1 HP2]. split.
    - intros ->. inversion FX2; subst. apply HP1. reflexivity.
    - intros g Hg. clear -FX2 Hg. induction FX2 as [|c g0 x x' [_ [_ [_ L]]] F IH]; [destruct Hg|].
      destruct Hg as [<-|Hg]; auto. }
  split; auto. split; [symmetry; eapply Forall2_length'; eauto|]. split.
  { intros k c i Hk Hi. destruct (Forall2_nth _ _ _ FX2 k c Hk) as [c' [Hc' [_ [F _]]]].
    exists c'. split; auto.
    assert (Hi' : nth_error idx i = Some (nth i idx 0)) by (apply nth_error_nth'; lia).
    destruct (Forall2_nth _ _ _ F i _ Hi') as [a [Ha1 Ha2]]. rewrite app_nth1 by lia. congruence. }
  (* box numbers of the rearranged points *)
  destruct (box_numbers_spec n x' level HP' Hn) as [b' [bmin' [bs' [EB0' [LB' [EB' [LBS' HB']]]]]]].
  exists bs'. split; auto. split; auto.
  assert (PX : permuted x x').
  { clear -FX2. induction FX2 as [|c g x x' [_ [_ [P _]]] F IH]; constructor; auto. }
  destruct (box_of_perm (1 # 2) x x' 0 0 b bmin b' bmin' (fun c => points_nonempty n x c HP Hn) PX (Qeq_refl 0) EB0 EB0') as [Eb Em].
  assert (LX : length x' = length x) by (symmetry; eapply Forall2_length'; eauto).
  (* number i afterwards is number (idx i) before *)
  assert (KEY : forall i, i < n -> nth_error bs' i = nth_error bs (nth i idx 0)).
  { intros i Hi. assert (Hii : nth i idx 0 < n) by (apply BI; apply nth_In; lia).
    destruct (HB (nth i idx 0) Hii) as [p [c [P1 [P2 [_ P3]]]]]. destruct (HB' i Hi) as [p' [c' [P1' [P2' [_ P3']]]]].
    rewrite P3, P3'. f_equal. f_equal.
    assert (FQ : Forall2 Qeq p' p).
    { clear -P1 P1' FX2 Em Eb LX LB LB' Hi LI. clearbody idx. clear s LX.
      revert bmin bmin' LB LB' Em p p' P1 P1'. induction FX2 as [|c g x x' [_ [F [_ _]]] FF IH]; intros bmin bmin' LB LB' Em p p' P1 P1'.
      - simpl in P1, P1'. inversion P1; inversion P1'; subst. constructor.
      - destruct bmin as [|m bmin]; [discriminate|]. destruct bmin' as [|m' bmin']; [discriminate|].
        inversion Em as [|? ? ? ? Em1 Em2]; subst. simpl in P1, P1'.
        rewrite nth_error_map in P1, P1'.
        assert (Hi' : nth_error idx i = Some (nth i idx 0)) by (apply nth_error_nth'; lia).
        destruct (Forall2_nth _ _ _ F i _ Hi') as [a [Ha1 Ha2]]. rewrite Ha1 in P1'. rewrite Ha2 in P1. simpl in P1, P1'.
        apply bind_Ok in P1. destruct P1 as [q [Q1 Q2]]. apply bind_Ok in P1'. destruct P1' as [q' [Q1' Q2']].
        inversion Q2; inversion Q2'; subst. constructor.
        + rewrite Em1, Eb. reflexivity.
        + apply (IH) with (bmin := bmin) (bmin' := bmin'); auto. }
    rewrite (cells_eq level p' p FQ) in P2'. congruence. }
  assert (EBS : bs' = map snd s).
  { apply nth_ext with (d := 0%N) (d' := 0%N).
    - rewrite map_length. unfold idx in LI. rewrite map_length in LI. lia.
    - intros i Hi. rewrite LBS' in Hi. assert (Hs : i < length s) by (unfold idx in LI; rewrite map_length in LI; lia).
      destruct (nth_error s i) as [[e v]|] eqn:Es; [|apply nth_error_None in Es; lia].
      assert (Hin : In (e, v) (combine (seq 0 n) bs)) by (eapply Permutation_in; [exact PS|eapply nth_error_In; eauto]).
      apply In_nth_error in Hin. destruct Hin as [j Hj]. apply combine_nth_error in Hj. destruct Hj as [J1 J2].
      assert (e = j). { assert (j < length (seq 0 n)) by (apply nth_error_Some; congruence). rewrite seq_length in H0. rewrite (nth_error_nth' _ 0), seq_nth in J1 by (rewrite ?seq_length; auto). simpl in J1. congruence. }
      subst j.
      assert (EI : nth i idx 0 = e). { unfold idx. apply nth_error_nth. rewrite nth_error_map, Es. reflexivity. }
      specialize (KEY i Hi). rewrite EI, J2 in KEY. rewrite (nth_error_nth bs' i 0%N KEY).
      symmetry. apply nth_error_nth. rewrite nth_error_map, Es. reflexivity. }
  rewrite EBS. clear -SS. induction SS as [|a l S IH F]; simpl; constructor; auto.
  apply Forall_map. exact F.
Qed.

Theorem sort_morton_main srt n (x : list (list Q)) level (perm : list nat) :
  (forall l, Permutation (srt l) l /\ StronglySorted (fun a b => (snd a <= snd b)%N) (srt l)) ->
  x <> [] -> (forall c, In c x -> length c = n) -> 0 < n -> n <= length perm ->
  exists x' perm', sort_morton srt x level perm = Ok (x', perm') /\
    Permutation (firstn n perm') (seq 0 n) /\ skipn n perm' = skipn n perm /\ length perm' = length perm /\
    length x' = length x /\ (forall c, In c x' -> length c = n) /\
    (forall k c i, nth_error x k = Some c -> i < n ->
       exists c', nth_error x' k = Some c' /\ nth_error c' i = nth_error c (nth i perm' 0)) /\
    exists bs, box_numbers x' level = Ok bs /\ length bs = n /\ StronglySorted N.le bs.
Proof.
  intros HS Hx Hl Hn Hp. destruct (sort_morton_spec srt n x level perm HS (conj Hx Hl) Hn Hp) as (x' & p' & H1 & H2 & H3 & H4 & [_ H5] & H6 & H7 & H8).
  exists x', p'. tauto.
Qed.
