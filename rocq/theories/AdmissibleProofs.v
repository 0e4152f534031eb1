From Coq Require Import List Arith ZArith QArith Qabs Lia Lqa Bool Permutation Setoid Morphisms Qfield.
From Verif Require Import Prelude IndexRange ClusterTree ClusterTreeProofs Admissible AdmissibleSpec.
Import ListNotations.
Local Open Scope Z_scope.

(** * Position based *)

Lemma is_admissible_position params admis nd :
  is_admissible PositionBased params admis nd = Ok true <->
  1 < ir_n (cn_rows nd) /\ 1 < ir_n (cn_cols nd) /\
  Qtrunc admis < Z.abs (cn_iabs nd - cn_jabs nd).
Proof.
  unfold is_admissible, position_admissible, dist_to_diag.
  split.
  - intros H. inversion H as [H1]. rewrite !andb_true_iff, !Z.gtb_lt in H1. lia.
  - intros H. f_equal. rewrite !andb_true_iff, !Z.gtb_lt. lia.
Qed.

Lemma position_total params admis nd :
  exists b, is_admissible PositionBased params admis nd = Ok b.
Proof. unfold is_admissible. eauto. Qed.

Lemma Qtrunc_nonneg q : (0 <= q)%Q -> 0 <= Qtrunc q.
Proof.
  intros H. unfold Qtrunc. unfold Qle in H. simpl in H. apply Z.quot_pos; lia.
Qed.

Lemma Qtrunc_mono p q : (p <= q)%Q -> Qtrunc p <= Qtrunc q.
Proof.
  unfold Qtrunc, Qle. intros H.
  destruct p as [a b], q as [c d]; simpl in *.
  destruct (Z_le_gt_dec 0 a); destruct (Z_le_gt_dec 0 c).
  - rewrite !Z.quot_div_nonneg by lia.
    apply Z.div_le_lower_bound; [lia|].
    pose proof (Z.mul_div_le a (Zpos b) ltac:(lia)).
    assert (Zpos b * (Zpos d * (a / Zpos b)) <= Zpos b * c) by nia.
    nia.
  - exfalso. assert (0 <= a * Zpos d) by nia. assert (c * Zpos b < 0) by nia. lia.
  - assert (Z.quot a (Zpos b) <= 0).
    { rewrite <- (Z.opp_involutive a). rewrite Z.quot_opp_l by lia.
      assert (0 <= Z.quot (- a) (Zpos b)) by (apply Z.quot_pos; lia). lia. }
    assert (0 <= Z.quot c (Zpos d)) by (apply Z.quot_pos; lia). lia.
  - assert (Ea : Z.quot a (Zpos b) = - Z.quot (- a) (Zpos b))
      by (rewrite Z.quot_opp_l by lia; lia).
    assert (Ec : Z.quot c (Zpos d) = - Z.quot (- c) (Zpos d))
      by (rewrite Z.quot_opp_l by lia; lia).
    rewrite Ea, Ec. apply -> Z.opp_le_mono.
    rewrite !Z.quot_div_nonneg by lia.
    apply Z.div_le_lower_bound; [lia|].
    pose proof (Z.mul_div_le (- c) (Zpos d) ltac:(lia)).
    assert (Zpos d * (Zpos b * (- c / Zpos d)) <= Zpos d * (- a)) by nia. nia.
Qed.

Lemma position_diagonal params admis nd :
  (0 <= admis)%Q -> cn_iabs nd = cn_jabs nd ->
  is_admissible PositionBased params admis nd = Ok false.
Proof.
  intros Ha E. destruct (position_total params admis nd) as [b Hb].
  destruct b; auto. apply is_admissible_position in Hb.
  pose proof (Qtrunc_nonneg _ Ha). rewrite E in Hb. lia.
Qed.

Lemma position_symmetric params params' admis nd :
  is_admissible PositionBased params admis (transpose_node nd) =
  is_admissible PositionBased params' admis nd.
Proof.
  unfold is_admissible, position_admissible, dist_to_diag; simpl.
  f_equal. rewrite (andb_comm (ir_n (cn_cols nd) >? 1)). f_equal.
  replace (cn_jabs nd - cn_iabs nd) with (- (cn_iabs nd - cn_jabs nd)) by lia.
  now rewrite Z.abs_opp.
Qed.

Lemma position_monotone params a b nd :
  (a <= b)%Q -> is_admissible PositionBased params b nd = Ok true ->
  is_admissible PositionBased params a nd = Ok true.
Proof.
  intros H Hb. apply is_admissible_position in Hb. apply is_admissible_position.
  pose proof (Qtrunc_mono _ _ H). lia.
Qed.

(** * Geometry based *)

Local Open Scope Q_scope.
Local Arguments Qabs : simpl never.
Local Arguments Qplus : simpl never.
Local Arguments Qmult : simpl never.
Local Arguments Qminus : simpl never.
Local Arguments Qdiv : simpl never.

Lemma Qlt_b_spec x y : Qlt_b x y = true <-> x < y.
Proof.
  unfold Qlt_b. rewrite negb_true_iff. split.
  - intros H. apply Qnot_le_lt. intros Hle. apply Qle_bool_iff in Hle. congruence.
  - intros H. destruct (Qle_bool y x) eqn:E; auto. apply Qle_bool_iff in E. lra.
Qed.

Lemma Qlt_b_false x y : Qlt_b x y = false <-> y <= x.
Proof.
  destruct (Qlt_b x y) eqn:E.
  - apply Qlt_b_spec in E. split; [discriminate|intros; lra].
  - split; auto. intros _. apply Qnot_lt_le. intros H. apply Qlt_b_spec in H. congruence.
Qed.

#[export] Instance Qlt_b_comp : Proper (Qeq ==> Qeq ==> eq) Qlt_b.
Proof.
  intros x x' Hx y y' Hy.
  destruct (Qlt_b x y) eqn:E1; destruct (Qlt_b x' y') eqn:E2; auto.
  - apply Qlt_b_spec in E1. apply Qlt_b_false in E2. lra.
  - apply Qlt_b_spec in E2. apply Qlt_b_false in E1. lra.
Qed.

#[export] Instance std_max_comp : Proper (Qeq ==> Qeq ==> Qeq) std_max.
Proof.
  intros x x' Hx y y' Hy. unfold std_max. rewrite Hx, Hy. destruct (Qlt_b x' y'); auto.
Qed.

Lemma std_max_spec a b : a <= std_max a b /\ b <= std_max a b /\ (std_max a b == a \/ std_max a b == b).
Proof.
  unfold std_max. destruct (Qlt_b a b) eqn:E.
  - apply Qlt_b_spec in E. repeat split; try lra; auto with qarith.
  - apply Qlt_b_false in E. repeat split; try lra; auto with qarith.
Qed.

Lemma std_max_comm a b : std_max a b == std_max b a.
Proof.
  destruct (std_max_spec a b) as [? [? [H1|H1]]]; destruct (std_max_spec b a) as [? [? [H2|H2]]]; lra.
Qed.

Lemma fold_min_spec l : forall a,
  let m := fold_left (fun m x => if Qlt_b x m then x else m) l a in
  m <= a /\ (forall x, In x l -> m <= x) /\ (m = a \/ In m l).
Proof.
  induction l as [|y l IH]; intros a; simpl.
  - split; [lra|]. split; [intros x []|auto].
  - specialize (IH (if Qlt_b y a then y else a)). simpl in IH.
    set (m := fold_left _ l _) in *. destruct IH as [H1 [H2 H3]].
    destruct (Qlt_b y a) eqn:E.
    + apply Qlt_b_spec in E. split; [lra|]. split.
      * intros x [->|Hx]; [exact H1|auto].
      * destruct H3 as [H3|H3]; [right; left; congruence|right; right; auto].
    + apply Qlt_b_false in E. split; [lra|]. split.
      * intros x [->|Hx]; [lra|auto].
      * destruct H3; auto.
Qed.

Lemma fold_max_spec l : forall a,
  let m := fold_left (fun m x => if Qlt_b m x then x else m) l a in
  a <= m /\ (forall x, In x l -> x <= m) /\ (m = a \/ In m l).
Proof.
  induction l as [|y l IH]; intros a; simpl.
  - split; [lra|]. split; [intros x []|auto].
  - specialize (IH (if Qlt_b a y then y else a)). simpl in IH.
    set (m := fold_left _ l _) in *. destruct IH as [H1 [H2 H3]].
    destruct (Qlt_b a y) eqn:E.
    + apply Qlt_b_spec in E. split; [lra|]. split.
      * intros x [->|Hx]; [exact H1|auto].
      * destruct H3 as [H3|H3]; [right; left; congruence|right; right; auto].
    + apply Qlt_b_false in E. split; [lra|]. split.
      * intros x [->|Hx]; [lra|auto].
      * destruct H3; auto.
Qed.

Lemma min_element_spec l : l <> [] ->
  exists m, min_element l = Ok m /\ In m l /\ forall x, In x l -> m <= x.
Proof.
  destruct l as [|a l]; [congruence|]. intros _. simpl.
  destruct (fold_min_spec l a) as [H1 [H2 H3]].
  eexists; split; [reflexivity|]. split.
  - destruct H3 as [H3|H3]; [left; auto|right; auto].
  - intros x [->|Hx]; auto.
Qed.

Lemma max_element_spec l : l <> [] ->
  exists m, max_element l = Ok m /\ In m l /\ forall x, In x l -> x <= m.
Proof.
  destruct l as [|a l]; [congruence|]. intros _. simpl.
  destruct (fold_max_spec l a) as [H1 [H2 H3]].
  eexists; split; [reflexivity|]. split.
  - destruct H3 as [H3|H3]; [left; auto|right; auto].
  - intros x [->|Hx]; auto.
Qed.

Lemma bounding_spec l : l <> [] ->
  exists b mn mx, bounding l = Ok b /\
    In mn l /\ (forall x, In x l -> mn <= x) /\
    In mx l /\ (forall x, In x l -> x <= mx) /\
    bb_min b == mn - (1#2) /\ bb_max b == mx + (1#2) /\ bb_center b == (mn + mx) / 2.
Proof.
  intros H. destruct (min_element_spec l H) as [mn [E1 [I1 M1]]].
  destruct (max_element_spec l H) as [mx [E2 [I2 M2]]].
  exists (BB (- (5 # 10) + mn) ((5#10) + mx)
     (- (5 # 10) + mn + ((5#10) + mx - (- (5 # 10) + mn)) / 2)), mn, mx.
  unfold bounding. rewrite E1. simpl bind. rewrite E2. simpl bind.
  repeat split; auto; simpl; try (setoid_replace (5#10) with (1#2) by reflexivity); field.
Qed.

(** Boxes of all directions of one cluster. *)
Definition boxes (params : list (list Q)) (r : irange) : outcome (list bbox) :=
  let* c := get_coords_range params r in mapM bounding c.

Definition ok_or_ub {A} (x : outcome A) : Prop :=
  match x with Ok _ | UB => True | _ => False end.

Lemma mapM_ok_or_ub {A B} (f : A -> outcome B) l :
  (forall a, ok_or_ub (f a)) -> ok_or_ub (mapM f l).
Proof.
  intros H. induction l as [|a l IH]; simpl; auto.
  specialize (H a). destruct (f a); simpl in *; auto.
  destruct (mapM f l); simpl in *; auto.
Qed.

Lemma coords_slice_okub r v : ok_or_ub (coords_slice r v).
Proof. unfold coords_slice. destruct (_ && _); simpl; auto. Qed.

Lemma bounding_okub l : ok_or_ub (bounding l).
Proof. unfold bounding. destruct l; simpl; auto. Qed.

Lemma boxes_okub params r : ok_or_ub (boxes params r).
Proof.
  unfold boxes, get_coords_range.
  pose proof (mapM_ok_or_ub (coords_slice r) params (coords_slice_okub r)) as H.
  destruct (mapM (coords_slice r) params); simpl in *; auto.
  apply mapM_ok_or_ub. apply bounding_okub.
Qed.

Lemma geometry_unfold params admis nd :
  geometry_admissible params admis nd =
  let* br := boxes params (cn_rows nd) in
  let* bc := boxes params (cn_cols nd) in
  let '(lr, lc, dist) := geo_accumulate (combine br bc) in
  let diam := std_max lr lc in
  Ok (Qlt_b (admis * admis * diam * diam) dist).
Proof.
  unfold geometry_admissible, boxes, get_coords_range.
  pose proof (mapM_ok_or_ub (coords_slice (cn_rows nd)) params (coords_slice_okub _)) as H1.
  pose proof (mapM_ok_or_ub (coords_slice (cn_cols nd)) params (coords_slice_okub _)) as H2.
  destruct (mapM (coords_slice (cn_rows nd)) params) as [rc| | | |]; simpl in *; try contradiction; auto.
  pose proof (mapM_ok_or_ub bounding rc bounding_okub) as H3.
  destruct (mapM (coords_slice (cn_cols nd)) params) as [cc| | | |]; simpl in *; try contradiction.
  - reflexivity.
  - destruct (mapM bounding rc); simpl in *; try contradiction; auto.
Qed.

(** What the decision depends on, per direction. *)
Definition side_eq (p q : bbox * bbox) : Prop :=
  bb_max (fst p) - bb_min (fst p) == bb_max (fst q) - bb_min (fst q) /\
  bb_max (snd p) - bb_min (snd p) == bb_max (snd q) - bb_min (snd q) /\
  (bb_center (fst p) - bb_center (snd p)) * (bb_center (fst p) - bb_center (snd p)) ==
  (bb_center (fst q) - bb_center (snd q)) * (bb_center (fst q) - bb_center (snd q)).

Definition tri_eq (a b : Q * Q * Q) : Prop :=
  fst (fst a) == fst (fst b) /\ snd (fst a) == snd (fst b) /\ snd a == snd b.

Lemma Qabs_sq x : Qabs x * Qabs x == x * x.
Proof.
  destruct (Qlt_le_dec x 0).
  - rewrite Qabs_neg by lra. ring.
  - rewrite Qabs_pos by lra. ring.
Qed.

Definition geo_step (acc : Q * Q * Q) (b : bbox * bbox) : Q * Q * Q :=
    let '(lr, lc, dist) := acc in
    let '(br, bc) := b in
    let d := Qabs (bb_center br - bb_center bc)%Q in
    (std_max lr (bb_max br - bb_min br)%Q,
     std_max lc (bb_max bc - bb_min bc)%Q,
     (dist + d * d)%Q).

Lemma geo_accumulate_unfold bs : geo_accumulate bs = fold_left geo_step bs (0, 0, 0).
Proof. reflexivity. Qed.

Lemma geo_step_eq a b p q : tri_eq a b -> side_eq p q -> tri_eq (geo_step a p) (geo_step b q).
Proof.
  destruct a as [[a1 a2] a3], b as [[b1 b2] b3], p as [p1 p2], q as [q1 q2].
  unfold tri_eq, side_eq; simpl. intros [H1 [H2 H3]] [S1 [S2 S3]].
  rewrite H1, H2, H3, S1, S2. split; [reflexivity|]. split; [reflexivity|].
  rewrite !Qabs_sq, S3. reflexivity.
Qed.

Lemma geo_fold_eq l1 l2 : Forall2 side_eq l1 l2 -> forall a b, tri_eq a b ->
  tri_eq (fold_left geo_step l1 a) (fold_left geo_step l2 b).
Proof.
  induction 1; intros a b Hab; simpl; auto.
  apply IHForall2. apply geo_step_eq; auto.
Qed.

Lemma tri_eq_refl a : tri_eq a a.
Proof. repeat split; reflexivity. Qed.

Definition boxes_decide (admis : Q) (br bc : list bbox) : bool :=
  let '(lr, lc, dist) := geo_accumulate (combine br bc) in
  let diam := std_max lr lc in Qlt_b (admis * admis * diam * diam) dist.

Lemma boxes_decide_eq admis br bc br' bc' :
  Forall2 side_eq (combine br bc) (combine br' bc') ->
  boxes_decide admis br bc = boxes_decide admis br' bc'.
Proof.
  intros H. unfold boxes_decide. rewrite !geo_accumulate_unfold.
  pose proof (geo_fold_eq _ _ H _ _ (tri_eq_refl (0,0,0))) as Ht.
  destruct (fold_left geo_step (combine br bc) (0,0,0)) as [[a1 a2] a3].
  destruct (fold_left geo_step (combine br' bc') (0,0,0)) as [[b1 b2] b3].
  unfold tri_eq in Ht; simpl in Ht. destruct Ht as [H1 [H2 H3]].
  rewrite H1, H2, H3. reflexivity.
Qed.

Lemma geometry_decide params admis nd :
  geometry_admissible params admis nd =
  let* br := boxes params (cn_rows nd) in
  let* bc := boxes params (cn_cols nd) in Ok (boxes_decide admis br bc).
Proof.
  rewrite geometry_unfold. destruct (boxes params (cn_rows nd)); simpl; auto.
  destruct (boxes params (cn_cols nd)); simpl; auto.
  unfold boxes_decide. destruct (geo_accumulate (combine a a0)) as [[x y] z]. reflexivity.
Qed.

(** ** Symmetry *)

Lemma geo_fold_swap br : forall bc a b,
  fst (fst a) == snd (fst b) -> snd (fst a) == fst (fst b) -> snd a == snd b ->
  let x := fold_left geo_step (combine br bc) a in
  let y := fold_left geo_step (combine bc br) b in
  fst (fst x) == snd (fst y) /\ snd (fst x) == fst (fst y) /\ snd x == snd y.
Proof.
  induction br as [|r br IH]; intros [|c bc] a b H1 H2 H3; simpl; auto.
  apply IH; destruct a as [[a1 a2] a3], b as [[b1 b2] b3]; simpl in *.
  - now rewrite H1.
  - now rewrite H2.
  - rewrite H3, !Qabs_sq. ring.
Qed.

Lemma boxes_decide_swap admis br bc : boxes_decide admis br bc = boxes_decide admis bc br.
Proof.
  unfold boxes_decide. rewrite !geo_accumulate_unfold.
  pose proof (geo_fold_swap br bc (0,0,0) (0,0,0) ltac:(reflexivity) ltac:(reflexivity) ltac:(reflexivity)) as H.
  simpl in H.
  destruct (fold_left geo_step (combine br bc) (0,0,0)) as [[a1 a2] a3].
  destruct (fold_left geo_step (combine bc br) (0,0,0)) as [[b1 b2] b3].
  simpl in H. destruct H as [H1 [H2 H3]]. rewrite H1, H2, H3.
  rewrite (std_max_comm b2 b1). reflexivity.
Qed.

Lemma geometry_symmetric params admis nd :
  is_admissible GeometryBased params admis (transpose_node nd) =
  is_admissible GeometryBased params admis nd.
Proof.
  unfold is_admissible. rewrite !geometry_decide. simpl.
  pose proof (boxes_okub params (cn_rows nd)) as O1.
  pose proof (boxes_okub params (cn_cols nd)) as O2.
  destruct (boxes params (cn_rows nd)); destruct (boxes params (cn_cols nd)); simpl in *; try contradiction; auto.
  rewrite boxes_decide_swap. rewrite (andb_comm (ir_n (cn_cols nd) >? 1)%Z). reflexivity.
Qed.

(** ** Identical clusters *)

Lemma geo_fold_diag br : forall a, snd (fold_left geo_step (combine br br) a) == snd a.
Proof.
  induction br as [|r br IH]; intros [[a1 a2] a3]; simpl; [reflexivity|].
  rewrite IH. simpl. rewrite Qabs_sq. ring.
Qed.

Lemma geometry_diagonal params admis nd :
  cn_rows nd = cn_cols nd ->
  is_admissible GeometryBased params admis nd <> Ok true.
Proof.
  intros E. unfold is_admissible. rewrite geometry_decide, E.
  destruct (boxes params (cn_cols nd)) as [b| | | |]; simpl; try discriminate.
  intros H. inversion H as [H1]. apply andb_true_iff in H1. destruct H1 as [_ H1].
  unfold boxes_decide in H1. rewrite geo_accumulate_unfold in H1.
  pose proof (geo_fold_diag b (0,0,0)) as Hd.
  destruct (fold_left geo_step (combine b b) (0,0,0)) as [[a1 a2] a3]. simpl in Hd.
  apply Qlt_b_spec in H1. rewrite Hd in H1.
  set (m := std_max a1 a2) in *.
  assert (Hsq : admis * admis * m * m == (admis * m) * (admis * m)) by ring.
  rewrite Hsq in H1. pose proof (Qabs_sq (admis * m)) as Ha.
  assert (0 <= Qabs (admis * m) * Qabs (admis * m))
    by (apply Qmult_le_0_compat; apply Qabs_nonneg).
  lra.
Qed.

(** ** Monotonicity *)

Lemma geometry_monotone params a b nd :
  0 <= a -> a <= b ->
  is_admissible GeometryBased params b nd = Ok true ->
  is_admissible GeometryBased params a nd = Ok true.
Proof.
  intros Ha Hab. unfold is_admissible. rewrite !geometry_decide.
  destruct (boxes params (cn_rows nd)) as [br| | | |]; simpl; try discriminate.
  destruct (boxes params (cn_cols nd)) as [bc| | | |]; simpl; try discriminate.
  intros H. inversion H as [H1]. rewrite H1.
  apply andb_true_iff in H1. destruct H1 as [H0 H1]. rewrite H0. simpl. f_equal.
  unfold boxes_decide in *. destruct (geo_accumulate (combine br bc)) as [[x y] z].
  apply Qlt_b_spec in H1. apply Qlt_b_spec.
  set (m := std_max x y) in *.
  assert (Hm : 0 <= m * m).
  { rewrite <- Qabs_sq. apply Qmult_le_0_compat; apply Qabs_nonneg. }
  assert (Hsq : a * a <= b * b) by nra.
  assert (a * a * (m * m) <= b * b * (m * m)) by (apply Qmult_le_compat_r; auto).
  assert (E1 : a * a * m * m == a * a * (m * m)) by ring.
  assert (E2 : b * b * m * m == b * b * (m * m)) by ring.
  rewrite E1. rewrite E2 in H1. lra.
Qed.

(** ** Reordering the points of a cluster *)

Definition bbox_eq (b c : bbox) : Prop :=
  bb_min b == bb_min c /\ bb_max b == bb_max c /\ bb_center b == bb_center c.

Lemma bounding_perm l l' : Permutation l l' ->
  match bounding l, bounding l' with
  | Ok b, Ok b' => bbox_eq b b'
  | UB, UB => True
  | _, _ => False
  end.
Proof.
  intros HP. destruct l as [|a l].
  - apply Permutation_nil in HP. subst. simpl. auto.
  - destruct (bounding_spec (a :: l)) as [b [mn [mx [E [I1 [M1 [I2 [M2 [H1 [H2 H3]]]]]]]]]]; [discriminate|].
    destruct (bounding_spec l') as [b' [mn' [mx' [E' [I1' [M1' [I2' [M2' [H1' [H2' H3']]]]]]]]]].
    { intros ->. apply Permutation_sym, Permutation_nil in HP. discriminate. }
    rewrite E, E'.
    assert (mn == mn').
    { pose proof (M1 mn' (Permutation_in _ (Permutation_sym HP) I1')).
      pose proof (M1' mn (Permutation_in _ HP I1)). lra. }
    assert (mx == mx').
    { pose proof (M2 mx' (Permutation_in _ (Permutation_sym HP) I2')).
      pose proof (M2' mx (Permutation_in _ HP I2)). lra. }
    unfold bbox_eq. rewrite H1, H2, H3, H1', H2', H3', H, H0. repeat split; reflexivity.
Qed.

Lemma boxes_same_points r p p' : same_points r p p' ->
  match boxes p r, boxes p' r with
  | Ok b, Ok b' => Forall2 bbox_eq b b'
  | UB, UB => True
  | _, _ => False
  end.
Proof.
  intros H. unfold boxes, get_coords_range.
  assert (Hs : match mapM (coords_slice r) p, mapM (coords_slice r) p' with
    | Ok c, Ok c' => Forall2 (@Permutation Q) c c'
    | UB, UB => True | _, _ => False end).
  { induction H as [|v v' p p' [Hl Hp] Hrest IH]; simpl; auto.
    assert (Hc : match coords_slice r v, coords_slice r v' with
      | Ok c, Ok c' => Permutation c c' | UB, UB => True | _, _ => False end).
    { unfold coords_slice. rewrite <- Hl. destruct (_ && _); auto. }
    destruct (coords_slice r v); destruct (coords_slice r v'); simpl in *; try contradiction; auto.
    destruct (mapM (coords_slice r) p); destruct (mapM (coords_slice r) p'); simpl in *; try contradiction; auto. }
  destruct (mapM (coords_slice r) p) as [c| | | |];
  destruct (mapM (coords_slice r) p') as [c'| | | |]; simpl in *; try contradiction; auto.
  clear H. induction Hs as [|l l' c c' Hl Hrest IH]; simpl; auto.
  pose proof (bounding_perm _ _ Hl) as Hb.
  destruct (bounding l); destruct (bounding l'); simpl in *; try contradiction; auto.
  destruct (mapM bounding c); destruct (mapM bounding c'); simpl in *; try contradiction; auto.
Qed.

Lemma bbox_eq_side br br' : Forall2 bbox_eq br br' -> forall bc bc', Forall2 bbox_eq bc bc' ->
  Forall2 side_eq (combine br bc) (combine br' bc').
Proof.
  induction 1 as [|r r' br br' [H1 [H2 H3]] Hrest IH]; intros bc bc' Hc; simpl; auto.
  destruct Hc as [|c c' bc bc' [C1 [C2 C3]] Hc]; constructor; auto.
  unfold side_eq; simpl. rewrite H1, H2, H3, C1, C2, C3. repeat split; reflexivity.
Qed.

Lemma geometry_reorder p p' admis nd :
  same_points (cn_rows nd) p p' -> same_points (cn_cols nd) p p' ->
  is_admissible GeometryBased p admis nd = is_admissible GeometryBased p' admis nd.
Proof.
  intros Hr Hc. unfold is_admissible. rewrite !geometry_decide.
  apply boxes_same_points in Hr. apply boxes_same_points in Hc.
  destruct (boxes p (cn_rows nd)); destruct (boxes p' (cn_rows nd)); try contradiction; simpl; auto.
  destruct (boxes p (cn_cols nd)); destruct (boxes p' (cn_cols nd)); try contradiction; simpl; auto.
  rewrite (boxes_decide_eq admis _ _ a0 a2); auto. apply bbox_eq_side; auto.
Qed.

(** ** Translation *)

Definition bbox_shift (t : Q) (b c : bbox) : Prop :=
  bb_min c == bb_min b + t /\ bb_max c == bb_max b + t /\ bb_center c == bb_center b + t.

Lemma bounding_shift t l :
  match bounding l, bounding (map (fun x => x + t) l) with
  | Ok b, Ok b' => bbox_shift t b b'
  | UB, UB => True
  | _, _ => False
  end.
Proof.
  destruct l as [|a l]; [simpl; auto|].
  destruct (bounding_spec (a :: l)) as [b [mn [mx [E [I1 [M1 [I2 [M2 [H1 [H2 H3]]]]]]]]]]; [discriminate|].
  destruct (bounding_spec (map (fun x => x + t) (a :: l)))
    as [b' [mn' [mx' [E' [I1' [M1' [I2' [M2' [H1' [H2' H3']]]]]]]]]]; [discriminate|].
  rewrite E, E'.
  assert (Hin : forall x, In x (a :: l) -> In (x + t) (map (fun x => x + t) (a :: l)))
    by (intros x Hx; apply (in_map (fun x => x + t)); exact Hx).
  apply in_map_iff in I1'. destruct I1' as [u [Eu Iu]].
  apply in_map_iff in I2'. destruct I2' as [w [Ew Iw]].
  assert (mn' == mn + t).
  { pose proof (M1' _ (Hin _ I1)). pose proof (M1 _ Iu). subst. lra. }
  assert (mx' == mx + t).
  { pose proof (M2' _ (Hin _ I2)). pose proof (M2 _ Iw). subst. lra. }
  unfold bbox_shift. rewrite H1, H2, H3, H1', H2', H3', H, H0. repeat split; field.
Qed.

Lemma coords_slice_map r v g :
  match coords_slice r v, coords_slice r (map g v) with
  | Ok c, Ok c' => c' = map g c
  | UB, UB => True
  | _, _ => False
  end.
Proof.
  unfold coords_slice. rewrite map_length. destruct (_ && _); auto.
  rewrite <- firstn_map, <- skipn_map. reflexivity.
Qed.

Inductive Forall3 {A B C} (P : A -> B -> C -> Prop) : list A -> list B -> list C -> Prop :=
| F3_nil : Forall3 P [] [] []
| F3_cons a b c la lb lc : P a b c -> Forall3 P la lb lc -> Forall3 P (a :: la) (b :: lb) (c :: lc).

Lemma boxes_shift r p : forall t, length t = length p ->
  match boxes p r, boxes (translate t p) r with
  | Ok b, Ok b' => Forall3 bbox_shift t b b'
  | UB, UB => True
  | _, _ => False
  end.
Proof.
  unfold boxes, get_coords_range.
  intros t Hlen.
  assert (Hs : match mapM (coords_slice r) p, mapM (coords_slice r) (translate t p) with
    | Ok c, Ok c' => Forall3 (fun tt v v' => v' = map (fun x => x + tt) v) t c c'
    | UB, UB => True | _, _ => False end).
  { revert t Hlen. induction p as [|v p IH]; intros [|tt t] Hlen; simpl in *; try discriminate.
    - constructor.
    - pose proof (coords_slice_map r v (fun x => x + tt)) as H.
      specialize (IH t ltac:(lia)). unfold translate in IH.
      destruct (coords_slice r v); destruct (coords_slice r (map (fun x => x + tt) v)); simpl in *; try contradiction; auto.
      destruct (mapM (coords_slice r) p); destruct (mapM (coords_slice r) (map _ (combine t p))); simpl in *; try contradiction; auto.
      constructor; auto. }
  destruct (mapM (coords_slice r) p) as [c| | | |];
  destruct (mapM (coords_slice r) (translate t p)) as [c'| | | |]; simpl in *; try contradiction; auto.
  clear Hlen. induction Hs as [|tt v v' t c c' Hv Hrest IH]; simpl; [constructor|].
  subst v'. pose proof (bounding_shift tt v) as Hb.
  destruct (bounding v); destruct (bounding (map (fun x => x + tt) v)); simpl in *; try contradiction; auto.
  destruct (mapM bounding c); destruct (mapM bounding c'); simpl in *; try contradiction; auto.
  constructor; auto.
Qed.

Lemma bbox_shift_side t br br' : Forall3 bbox_shift t br br' -> forall bc bc', Forall3 bbox_shift t bc bc' ->
  Forall2 side_eq (combine br bc) (combine br' bc').
Proof.
  induction 1 as [|tt r r' t br br' [H1 [H2 H3]] Hrest IH]; intros bc bc' Hc; simpl; auto.
  inversion Hc as [|? c c' ? bc0 bc0' [C1 [C2 C3]] Hc']; subst. constructor; auto.
  unfold side_eq; simpl. rewrite H1, H2, H3, C1, C2, C3. repeat split; ring.
Qed.

Lemma geometry_translate p t admis nd :
  length t = length p ->
  is_admissible GeometryBased (translate t p) admis nd = is_admissible GeometryBased p admis nd.
Proof.
  intros Hlen. unfold is_admissible. rewrite !geometry_decide.
  pose proof (boxes_shift (cn_rows nd) p t Hlen) as Hr.
  pose proof (boxes_shift (cn_cols nd) p t Hlen) as Hc.
  destruct (boxes p (cn_rows nd)); destruct (boxes (translate t p) (cn_rows nd)); try contradiction; simpl; auto.
  destruct (boxes p (cn_cols nd)); destruct (boxes (translate t p) (cn_cols nd)); try contradiction; simpl; auto.
  rewrite (boxes_decide_eq admis a a1 a0 a2); auto. eapply bbox_shift_side; eauto.
Qed.

(** ** Definedness *)

Lemma points_in_nonempty r v : range_fits r (length v) -> points_in r v <> [].
Proof.
  unfold range_fits, points_in. intros H E.
  assert (Hl : length (firstn (Z.to_nat (ir_n r)) (skipn (Z.to_nat (ir_start r)) v)) = 0%nat) by now rewrite E.
  rewrite firstn_length, skipn_length in Hl. lia.
Qed.

Lemma boxes_defined r p :
  (forall v, In v p -> range_fits r (length v)) ->
  exists bs, boxes p r = Ok bs /\
   Forall2 (fun v b => bounding (points_in r v) = Ok b) p bs.
Proof.
  unfold boxes, get_coords_range.
  induction p as [|v p IH]; intros H; simpl.
  - exists []. split; auto.
  - destruct IH as [bs [Hbs HF]]; [intros; apply H; right; auto|].
    assert (Hv : range_fits r (length v)) by (apply H; left; auto).
    assert (Es : coords_slice r v = Ok (points_in r v)).
    { unfold coords_slice. destruct Hv as [V1 [V2 V3]].
      replace ((0 <=? ir_start r) && (0 <=? ir_n r) && (ir_start r + ir_n r <=? Z.of_nat (length v)))%Z with true; auto.
      symmetry. rewrite !andb_true_iff, !Z.leb_le. lia. }
    rewrite Es. simpl.
    apply bind_Ok in Hbs. destruct Hbs as [c [Hc Hbs]]. rewrite Hc. simpl.
    destruct (bounding_spec (points_in r v) (points_in_nonempty _ _ Hv)) as [b [_ [_ [Eb _]]]].
    rewrite Eb. simpl. rewrite Hbs. simpl. eauto.
Qed.

Lemma geometry_defined params admis nd :
  (forall v, In v params -> range_fits (cn_rows nd) (length v) /\ range_fits (cn_cols nd) (length v)) ->
  exists b, is_admissible GeometryBased params admis nd = Ok b.
Proof.
  intros H. unfold is_admissible. rewrite geometry_decide.
  destruct (boxes_defined (cn_rows nd) params) as [br [E1 _]]; [intros; apply H; auto|].
  destruct (boxes_defined (cn_cols nd) params) as [bc [E2 _]]; [intros; apply H; auto|].
  rewrite E1, E2. simpl. eauto.
Qed.

(** ** Separation *)

Lemma Q_of_nat_S n : inject_Z (Z.of_nat (S n)) == inject_Z (Z.of_nat n) + 1.
Proof. rewrite Nat2Z.inj_succ. unfold Z.succ. rewrite inject_Z_plus. reflexivity. Qed.

Lemma geo_fold_lower l : forall a,
  fst (fst a) <= fst (fst (fold_left geo_step l a)) /\
  snd (fst a) <= snd (fst (fold_left geo_step l a)).
Proof.
  induction l as [|[br bc] l IH]; intros [[a1 a2] a3]; cbn [fold_left fst snd].
  - lra.
  - destruct (IH (geo_step (a1, a2, a3) (br, bc))) as [H1 H2]. cbn [geo_step fst snd] in H1, H2.
    destruct (std_max_spec a1 (bb_max br - bb_min br)) as [M1 _].
    destruct (std_max_spec a2 (bb_max bc - bb_min bc)) as [M2 _].
    cbn [geo_step]. split; lra.
Qed.

(** If no direction separates the boxes, the accumulated distance is bounded. *)
Lemma geo_fold_bound l : forall a diam,
  0 <= diam ->
  (forall br bc, In (br, bc) l ->
     Qabs (bb_center br - bb_center bc) * Qabs (bb_center br - bb_center bc) <= diam * diam) ->
  snd (fold_left geo_step l a) <= snd a + inject_Z (Z.of_nat (length l)) * (diam * diam).
Proof.
  induction l as [|[br bc] l IH]; intros [[a1 a2] a3] diam Hd H; cbn [fold_left length snd].
  - setoid_replace (inject_Z (Z.of_nat 0)) with 0 by reflexivity. lra.
  - rewrite Q_of_nat_S.
    specialize (IH (geo_step (a1, a2, a3) (br, bc)) diam Hd ltac:(intros; apply H; right; auto)).
    cbn [geo_step snd] in IH. cbn [geo_step].
    pose proof (H br bc (or_introl eq_refl)). lra.
Qed.

Lemma geo_fold_max l : forall a br bc, In (br, bc) l ->
  bb_max br - bb_min br <= fst (fst (fold_left geo_step l a)) /\
  bb_max bc - bb_min bc <= snd (fst (fold_left geo_step l a)).
Proof.
  induction l as [|[br' bc'] l IH]; intros [[a1 a2] a3] br bc Hin; [destruct Hin|].
  cbn [fold_left]. destruct Hin as [E|Hin]; [|apply IH; auto].
  inversion E; subst.
  destruct (geo_fold_lower l (geo_step (a1, a2, a3) (br, bc))) as [H1 H2].
  cbn [geo_step fst snd] in H1, H2.
  destruct (std_max_spec a1 (bb_max br - bb_min br)) as [_ [M1 _]].
  destruct (std_max_spec a2 (bb_max bc - bb_min bc)) as [_ [M2 _]].
  cbn [geo_step]. split; lra.
Qed.

Lemma list_search {A} (l : list A) (f g : A -> Q) :
  (exists a, In a l /\ f a < g a) \/ (forall a, In a l -> g a <= f a).
Proof.
  induction l as [|a l IH].
  - right. intros a [].
  - destruct (Qlt_le_dec (f a) (g a)) as [H|H].
    + left. exists a. split; auto. left; auto.
    + destruct IH as [[x [Hx Hx']]|IH].
      * left. exists x. split; auto. right; auto.
      * right. intros x [->|Hx]; auto.
Qed.

Lemma in_combine_Forall2 {A B C} (P : A -> B -> Prop) (Q : A -> C -> Prop) l l1 l2 b c :
  Forall2 P l l1 -> Forall2 Q l l2 -> In (b, c) (combine l1 l2) ->
  exists a, In a l /\ P a b /\ Q a c.
Proof.
  intros H1; revert l2; induction H1; intros l2 H2 Hin; inversion H2 as [|x9 c9 l9 l29 Hc Hl2]; subst; simpl in Hin; [destruct Hin|].
  destruct Hin as [E|Hin].
  - inversion E; subst. exists x. repeat split; auto. left; auto.
  - destruct (IHForall2 _ Hl2 Hin) as [a [Ha [HP HQ]]]. exists a. repeat split; auto. right; auto.
Qed.

Lemma combine_length_le {A B} (l1 : list A) (l2 : list B) :
  (length (combine l1 l2) <= length l1)%nat.
Proof. rewrite combine_length. lia. Qed.

Lemma geometry_separated params admis nd :
  (forall v, In v params -> range_fits (cn_rows nd) (length v) /\ range_fits (cn_cols nd) (length v)) ->
  inject_Z (Z.of_nat (length params)) <= admis * admis ->
  is_admissible GeometryBased params admis nd = Ok true ->
  separated params (cn_rows nd) (cn_cols nd).
Proof.
  intros Hfit Hadm H. unfold is_admissible in H. rewrite geometry_decide in H.
  destruct (boxes_defined (cn_rows nd) params) as [br [E1 F1]]; [intros; apply Hfit; auto|].
  destruct (boxes_defined (cn_cols nd) params) as [bc [E2 F2]]; [intros; apply Hfit; auto|].
  rewrite E1, E2 in H. simpl in H. inversion H as [H1]. clear H.
  apply andb_true_iff in H1. destruct H1 as [_ H1].
  unfold boxes_decide in H1. rewrite geo_accumulate_unfold in H1.
  destruct (fold_left geo_step (combine br bc) (0, 0, 0)) as [[lr lc] dist] eqn:Ef.
  apply Qlt_b_spec in H1.
  set (diam := std_max lr lc) in *.
  destruct (std_max_spec lr lc) as [Mr [Mc _]]. fold diam in Mr, Mc.
  pose proof (geo_fold_lower (combine br bc) (0,0,0)) as [L1 L2]. rewrite Ef in L1, L2. simpl in L1, L2.
  assert (Hd0 : 0 <= diam) by lra.
  destruct (list_search (combine br bc) (fun _ => diam * diam)
     (fun p => Qabs (bb_center (fst p) - bb_center (snd p)) * Qabs (bb_center (fst p) - bb_center (snd p))))
    as [[[b c] [Hin Hlt]]|Hall].
  2:{ exfalso. pose proof (geo_fold_bound (combine br bc) (0,0,0) diam Hd0) as Hb.
      rewrite Ef in Hb. simpl snd in Hb.
      assert (Hb' : dist <= 0 + inject_Z (Z.of_nat (length (combine br bc))) * (diam * diam)).
      { apply Hb. intros b c Hbc. apply (Hall (b, c) Hbc). }
      assert (Hlen : inject_Z (Z.of_nat (length (combine br bc))) <= inject_Z (Z.of_nat (length params))).
      { rewrite <- Zle_Qle. pose proof (combine_length_le br bc).
        apply Forall2_len in F1. lia. }
      assert (Hdd : 0 <= diam * diam) by (apply Qmult_le_0_compat; auto).
      assert (inject_Z (Z.of_nat (length (combine br bc))) * (diam * diam) <= admis * admis * (diam * diam)).
      { apply Qmult_le_compat_r; auto. lra. }
      assert (E : admis * admis * diam * diam == admis * admis * (diam * diam)) by ring.
      rewrite E in H1. lra. }
  simpl in Hlt.
  pose proof (geo_fold_max (combine br bc) (0,0,0) b c Hin) as [G1 G2]. rewrite Ef in G1, G2. simpl in G1, G2.
  destruct (in_combine_Forall2 _ _ _ _ _ _ _ F1 F2 Hin) as [v [Hv [Bb Bc]]].
  destruct (Hfit v Hv) as [Fr Fc].
  destruct (bounding_spec (points_in (cn_rows nd) v) (points_in_nonempty _ _ Fr))
    as [b' [mn [mx [Eb [I1 [M1 [I2 [M2 [P1 [P2 P3]]]]]]]]]].
  destruct (bounding_spec (points_in (cn_cols nd) v) (points_in_nonempty _ _ Fc))
    as [c' [mn' [mx' [Ec [I1' [M1' [I2' [M2' [P1' [P2' P3']]]]]]]]]].
  rewrite Bb in Eb. inversion Eb; subst b'. rewrite Bc in Ec. inversion Ec; subst c'.
  set (w := bb_center b - bb_center c) in *.
  assert (Hw : diam < Qabs w).
  { destruct (Qlt_le_dec diam (Qabs w)); auto. exfalso.
    assert (Qabs w * Qabs w <= diam * diam).
    { pose proof (Qabs_nonneg w). nra. }
    lra. }
  rewrite P1, P2 in G1. rewrite P1', P2' in G2.
  assert (Hc1 : bb_center b == (mn + mx) * (1#2)) by (rewrite P3; field).
  assert (Hc2 : bb_center c == (mn' + mx') * (1#2)) by (rewrite P3'; field).
  exists v. split; auto.
  destruct (Qlt_le_dec w 0) as [Hneg|Hpos].
  - left. intros x y Hx Hy. rewrite Qabs_neg in Hw by lra.
    pose proof (M2 x Hx). pose proof (M1' y Hy). unfold w in Hw. lra.
  - right. intros x y Hx Hy. rewrite Qabs_pos in Hw by lra.
    pose proof (M1 x Hx). pose proof (M2' y Hy). unfold w in Hw. lra.
Qed.
