(** Property C72: block LU of a matrix with diagonally dominant columns needs no row
    exchanges, although the exchanges LAPACK makes inside the diagonal blocks are thrown
    away. *)
From Coq Require Import List Arith ZArith QArith Lia Bool Reals Lra.
From Verif Require Import Prelude IndexRange ClusterTree Admissible Ring MatFun MatSetoid Matrix MatOps MatSpec MatOpsProofs Gemm GemmSpec
  GemmProofs GemmTheorems Triangular TriSpec LuCorrect ReflectSuccess GemmTerm TriTerm Construct ConstructProofs
  CommonTree GemmSucc LuSucc TreeSucc TreeFit UnevenTree SvdRank HouseReal Rrqr Spectral Dominant PartialPivot BlockDominant DominantTheorems
  Prop_Success.
Import ListNotations.
Local Open Scope nat_scope.

(** In every column the diagonal entry is larger than the others together. *)
Definition dominant_columns (n : nat) (F : nat -> nat -> R) : Prop :=
  forall j, j < n -> (rsum n (fun i => if i =? j then 0 else Rabs (F i j)) < Rabs (F j j))%R.

(** ** C72 *)

(** The modelled LAPACK routine does what C32 and C33 assume of it: for a square matrix
    its factors multiply to the matrix with the rows in the order it reports. *)
Theorem C72_lapack_contract : lu_contract dgetf2.
Proof. exact dgetf2_contract. Qed.
Print Assumptions C72_lapack_contract.

(** What getrf returns, with the pivoting LAPACK does inside the dense blocks, are unit
    lower and upper triangular factors of A, and no diagonal entry of U is zero. *)
Theorem C72_factors : forall Or, oracles_near exact Or -> forall gfuel fuel (A L U : matrix Rring), wf A -> lu_shape A ->
  dominant_columns (nrows A) (ent A) -> getrf inv_of Or gfuel dgetf2 fuel A = Ok (L, U) -> lu_factors A L U.
Proof.
  intros Or HO gfuel fuel A L U W HS HD H. apply (factors_of Or exact gfuel fuel A L U); auto. left. auto.
Qed.
Print Assumptions C72_factors.

(** Without LowRank blocks this does not depend on the low-rank arithmetic. *)
Theorem C72_factors_without_lowrank : forall Or, oracles_shape Or -> forall gfuel fuel (A L U : matrix Rring),
  no_lr A -> wf A -> lu_shape A -> dominant_columns (nrows A) (ent A) ->
  getrf inv_of Or gfuel dgetf2 fuel A = Ok (L, U) -> lu_factors A L U.
Proof.
  intros Or HO gfuel fuel A L U NL W HS HD H.
  apply (factors_of Or (upto (call_error Or)) gfuel fuel A L U); auto. apply shape_near_upto; auto. right. auto.
Qed.
Print Assumptions C72_factors_without_lowrank.

(** Factor and solve: all calls return, the factors multiply to A, and the result is the
    only solution of A x = b. *)
Theorem C72_solve : forall Or, sound_lr Or -> forall r c (A B : matrix Rring) gfuel fuel,
  oracles_near exact Or \/ no_lr A ->
  valid r -> valid c -> fit r r A -> lu_able Or A -> dominant_columns (nrows A) (ent A) ->
  fit r c B -> deg c = 1 -> below SLeft A B -> nh B \/ good B -> no_lr B ->
  120 * Nat.max (lv A) (lv B) + 33 <= gfuel -> lv A < fuel ->
  exists L U Y X, getrf inv_of Or gfuel dgetf2 fuel A = Ok (L, U) /\ trsm inv_of Or gfuel L B Lower SLeft = Ok Y /\
    trsm inv_of Or gfuel U Y Upper SLeft = Ok X /\ lu_factors A L U /\
    nrows X = nrows A /\ ncols X = ncols B /\
    feq (nrows A) (ncols B) (mmul (nrows A) (ent A) (ent X)) (ent B) /\
    forall Z : nat -> nat -> R, feq (nrows A) (ncols B) (mmul (R := Rring) (nrows A) (ent A) Z) (ent B) ->
      feq (R := Rring) (nrows A) (ncols B) Z (ent X).
Proof.
  intros Or HL r c A B gfuel fuel HE Vr Vc FA LA HD FB Dc BL NG NB G1 G2.
  destruct (C71_solve Rring Or HL inv_of dgetf2) with (r := r) (c := c) (A := A) (B := B) (gfuel := gfuel) (fuel := fuel)
    as [L [U [Y [X [E1 [E2 [E3 [FX SX]]]]]]]]; auto.
  { split; [discriminate|]. intros d _. unfold dgetf2. eauto. }
  destruct (fit_wf anysize r r A Vr Vr FA) as [WA _]. destruct (fit_wf anysize r c B Vr Vc FB) as [WB _].
  destruct (fit_dims anysize r r A Vr Vr FA) as [A1 A2]. destruct (fit_dims anysize r c B Vr Vc FB) as [B1 B2]. destruct (fit_dims anysize r c X Vr Vc FX) as [X1 X2].
  pose proof (fit_lu_shape anysize A r Vr FA) as SA. pose proof (fit_conf_left anysize A r c B FA FB) as CB.
  assert (Sol : lu_factors A L U /\ feq (nrows A) (ncols B) (mmul (nrows A) (ent A) (ent X)) (ent B)).
  { destruct HE as [HE|HE].
    - assert (T : tight exact A) by (left; auto). split; [eapply (factors_of Or exact); eauto|].
      apply (solution_of Or exact gfuel fuel A L U B Y X); auto. congruence.
    - assert (T : tight (upto (call_error Or)) A) by (right; auto).
      pose proof (shape_near_upto Or (sl_shape _ HL)) as HO. split; [eapply (factors_of Or _); eauto|].
      apply (solution_of Or _ gfuel fuel A L U B Y X HO); auto. congruence. }
  destruct Sol as [S1 S2].
  exists L, U, Y, X. repeat (split; [solve [assumption|congruence]|]).
  intros Z HZ i j Hi Hj.
  assert (K : (Z i j - ent X i j)%R = 0%R).
  { apply (dominant_kernel (nrows A) (ent A) (fun k => (Z k j - ent X k j)%R) HD); auto.
    intros k Hk. rewrite (rsum_ext _ _ (fun l => (ent A k l * Z l j - ent A k l * ent X l j)%R)) by (intros; simpl; ring).
    rewrite rsum_sub. pose proof (HZ k j Hk Hj) as H1. pose proof (S2 k j Hk Hj) as H2. unfold mmul in H1, H2.
    simpl in *. lra. }
  lra.
Qed.
Print Assumptions C72_solve.

(** From the constructor: k parts per level, sizes that divide evenly, diagonal blocks
    not admissible. *)
Theorem C72_constructed_solve : forall Or, sound_lr Or -> oracles_near exact Or ->
  forall (ini : initializer Rring), shapely ini -> (forall d l, in_comp ini d = Ok l -> use_eps l = true) ->
  (forall nd, cn_iabs nd = cn_jabs nd -> in_adm ini nd = Ok false) ->
  forall k nleaf s e f rows cols M b, (2 <= k)%Z -> (2 <= s <= nleaf)%Z ->
  ir_n rows = (s * k ^ Z.of_nat (S e))%Z -> ir_n cols = (s * k ^ Z.of_nat (S e))%Z ->
  hierarchical ini f rows cols k k nleaf = Ok M -> dominant_columns (nrows M) (ent M) -> d_r b = Z.to_nat s * Z.to_nat k ^ S e ->
  exists L U y x, getrf inv_of Or (120 * lv M + 33) dgetf2 (S (lv M)) M = Ok (L, U) /\
    trsm inv_of Or (120 * lv M + 33) L (MD b) Lower SLeft = Ok y /\
    trsm inv_of Or (120 * lv M + 33) U y Upper SLeft = Ok x /\
    feq (d_r b) (d_c b) (mmul (d_r b) (ent M) (ent x)) (d_e b).
Proof.
  intros Or HL HO ini SH HC HD k nleaf s e f rows cols M b Hk Hs Er Ec HM Dm Hb.
  pose proof (hierarchical_fit_level ini anysize SH (any_mids ini) k nleaf s e f rows cols M Hk Hs Er Ec HM) as F.
  pose proof (hierarchical_tower ini k nleaf s e f rows cols M Hk Hs Er Ec HD HM) as T.
  assert (G : good M) by (apply (hierarchical_good ini accurate accurate f rows cols k k nleaf M (fun d l E => conj (HC d l E) (HC d l E))); auto; lia).
  set (ax := uniform (Z.to_nat s * Z.to_nat k ^ S e) (Z.to_nat k) (S e)) in *.
  assert (Vx : valid ax) by (apply valid_uniform_pow; lia).
  destruct (fit_dims anysize ax ax M Vx Vx F) as [D1 D2]. assert (Ea : asize ax = d_r b) by (unfold ax; rewrite asize_uniform; auto).
  destruct (C72_solve Or HL ax (Leaf (d_c b)) M (MD b) (120 * lv M + 33) (S (lv M)))
    as [L [U [y [x [E1 [E2 [E3 [_ [_ [_ [E4 _]]]]]]]]]]]; auto.
  - exact I.
  - left. auto.
  - split; [auto|reflexivity].
  - apply below_nh. discriminate.
  - left. discriminate.
  - exact I.
  - cbn [lv]. lia.
  - exists L, U, y, x. rewrite D1, Ea in E4. cbn [ncols ent] in E4. auto.
Qed.
Print Assumptions C72_constructed_solve.

(** With the position-based condition and a parameter below 1, of any size with parts of at
    least two rows. *)
Theorem C72_constructed_any_size : forall Or, sound_lr Or -> oracles_total Or -> oracles_near exact Or ->
  forall (fill : irange -> irange -> outcome (dense Rring)) comp admis, (0 <= admis < 1)%Q ->
  let ini := Init (is_admissible PositionBased [] admis) fill comp in shapely ini ->
  forall k nleaf f rows cols M b, 2 <= k -> (k - 1) * (k - 1) + k <= nleaf ->
  ir_n cols = ir_n rows -> (Z.of_nat ((k - 1) * (k - 1) + k) < ir_n rows)%Z ->
  hierarchical ini f rows cols (Z.of_nat k) (Z.of_nat k) (Z.of_nat nleaf) = Ok M ->
  dominant_columns (nrows M) (ent M) -> d_r b = Z.to_nat (ir_n rows) ->
  exists L U y x, getrf inv_of Or (120 * lv M + 33) dgetf2 (S (lv M)) M = Ok (L, U) /\
    trsm inv_of Or (120 * lv M + 33) L (MD b) Lower SLeft = Ok y /\
    trsm inv_of Or (120 * lv M + 33) U y Upper SLeft = Ok x /\
    feq (d_r b) (d_c b) (mmul (d_r b) (ent M) (ent x)) (d_e b).
Proof.
  intros Or HL HT HO fill comp admis Ha ini SH k nleaf f rows cols M b Hk Hl Ec Hn HM Dm Hb.
  destruct f as [|f]; [discriminate|].
  assert (Rm : room k 2 = (k - 1) * (k - 1) + k) by (unfold room; lia).
  assert (Hl' : room k 2 <= nleaf) by lia.
  destruct (hierarchical_cuts k nleaf 2 Hk ltac:(lia) Hl' ini anysize
    (fun nd => position_diag admis nd (proj1 Ha)) (fun nd => position_off admis nd Ha) SH (any_mids ini) f rows cols M Ec ltac:(lia) HM) as [F T].
  set (ax := cuts f (ConstructProofs.len rows) k nleaf) in *.
  assert (Vx : valid ax) by (apply (valid_cuts k nleaf 2); auto; unfold ConstructProofs.len; lia).
  destruct (fit_dims anysize ax ax M Vx Vx F) as [D1 D2]. assert (Ea : asize ax = d_r b) by (rewrite Hb; reflexivity).
  destruct (C72_solve Or HL ax (Leaf (d_c b)) M (MD b) (120 * lv M + 33) (S (lv M)))
    as [L [U [y [x [E1 [E2 [E3 [_ [_ [_ [E4 _]]]]]]]]]]]; auto.
  - exact I.
  - right. auto.
  - split; [auto|reflexivity].
  - apply below_nh. discriminate.
  - left. discriminate.
  - exact I.
  - cbn [lv]. lia.
  - exists L, U, y, x. rewrite D1, Ea in E4. cbn [ncols ent] in E4. auto.
Qed.
Print Assumptions C72_constructed_any_size.

(** ** Example *)

(** 4 by 4 in blocks of 2 by 2, LowRank off the diagonal. *)
Definition dm (i j : nat) : R := if i =? j then 10%R else if i <? j then 2%R else (-3)%R.
Definition dblock (bi bj : nat) : dense Rring := @Dn Rring 2 2 (fun i j => dm (2 * bi + i) (2 * bj + j)).
Definition dA : matrix Rring := MH 2 2 (fun bi bj => if bi =? bj then MD (dblock bi bj) else ML (with_eps (1 # 100) (lr_of (dblock bi bj)))).
Definition db : matrix Rring := MD (@Dn Rring 4 1 (fun i _ => INR i)).
Definition dax : axis := uniform 4 2 1.


(** Exact low-rank arithmetic that keeps accuracies. *)
Definition exact_keep : oracles Rring := {|
  crank := fun d _ => Ok (lr_of d);
  ceps := fun d e => Ok (with_eps e (lr_of d));
  lr_add := fun a b => Ok (with_eps (l_eps a) (lr_of (Dn (l_r a) (l_c a) (madd (lr_ent a) (lr_ent b)))))
|}.

Lemma exact_keep_sound : sound_lr exact_keep.
Proof.
  split; split; try (intros; eexists; reflexivity); try (intros; discriminate).
  - intros a b c Wa Wb E1 E2 E. inversion E; subst. repeat split.
  - intros d r c E. inversion E; subst. repeat split.
  - intros d r c E. inversion E; subst. repeat split.
  - intros a b c E. inversion E; subst. auto.
  - intros d e c E. inversion E; subst. auto.
Qed.
Lemma exact_keep_near : oracles_near exact exact_keep.
Proof.
  split.
  - intros a b c Wa Wb E1 E2 E. inversion E; subst c. split; [repeat split|]. split; auto. split; auto.
    exact (lr_of_ent (Dn (l_r a) (l_c a) (madd (lr_ent a) (lr_ent b)))).
  - intros d r c E. inversion E; subst c. split; [repeat split|]. split; auto. split; auto. exact (lr_of_ent d).
  - intros d r c E. inversion E; subst c. split; [repeat split|]. split; auto. split; auto. exact (lr_of_ent d).
Qed.

Lemma dA_ent : feq (R := Rring) 4 4 (ent dA) dm.
Proof.
  intros i j Hi Hj.
  assert (LE : forall bi bj x y, x < 2 -> y < 2 -> lr_ent (with_eps (1 # 100) (lr_of (dblock bi bj))) x y = dm (2 * bi + x) (2 * bj + y)).
  { intros bi bj x y Hx Hy. exact (lr_of_ent (dblock bi bj) x y Hx Hy). }
  destruct i as [|[|[|[|i]]]]; try lia; destruct j as [|[|[|[|j]]]]; try lia;
    try reflexivity; cbn -[dm lr_of]; refine (LE _ _ _ _ _ _); lia.
Qed.

Lemma dm_dominant : dominant_columns 4 dm.
Proof.
  intros j Hj. destruct j as [|[|[|[|j]]]]; try lia; unfold dm; simpl; rewrite ?Rabs_Ropp, ?Rabs_R0; unfold Rabs; repeat destruct Rcase_abs; lra.
Qed.

(** All hypotheses are met: A x = (0, 1, 2, 3) is solved. *)
Example C72_ex : exists L U Y X, getrf inv_of exact_keep 273 dgetf2 3 dA = Ok (L, U) /\
  trsm inv_of exact_keep 273 L db Lower SLeft = Ok Y /\ trsm inv_of exact_keep 273 U Y Upper SLeft = Ok X /\
  feq (R := Rring) 4 4 (mmul 4 (ent L) (ent U)) dm /\ feq (R := Rring) 4 1 (mmul (R := Rring) 4 dm (ent X)) (fun i _ => INR i).
Proof.
  destruct (C72_solve exact_keep exact_keep_sound dax (Leaf 1) dA db 273 3) as [L [U [Y [X [E1 [E2 [E3 [E4 [_ [_ [E5 _]]]]]]]]]]].
  - left. exact exact_keep_near.
  - apply valid_uniform_2.
  - exact I.
  - split; [reflexivity|]. split; [reflexivity|]. intros [|[|i]] [|[|j]] Hi Hj; try lia; repeat split; reflexivity.
  - left. split.
    + split; [reflexivity|]. split; [intros [|[|i]] Hi; try lia; exact I|]. intros [|[|i]] [|[|j]] Hij Hj; try lia. split; apply below_nh; discriminate.
    + split; [lia|]. intros [|[|i]] [|[|j]] Hi Hj; try lia; try exact I; (split; reflexivity).
  - intros j Hj. change (nrows dA) with 4 in *. exact (cdom_ext 4 dm (ent dA) (fun a b Ha Hb => eq_sym (dA_ent a b Ha Hb)) dm_dominant j Hj).
  - repeat split.
  - reflexivity.
  - apply below_nh. discriminate.
  - left. discriminate.
  - exact I.
  - cbv. lia.
  - cbv. lia.
  - exists L, U, Y, X. split; auto. split; auto. split; auto. destruct E4 as [_ [_ [_ [_ [_ [_ E4]]]]]].
    change (nrows dA) with 4 in *. change (ncols dA) with 4 in *. split.
    + eapply feq_trans; [exact E4|exact dA_ent].
    + eapply feq_trans; [|exact E5]. apply feq_mmul with (k := 4); [|apply feq_refl]. apply feq_sym. exact dA_ent.
Qed.

(** Dominant rows are not enough: LAPACK exchanges the rows of (2 1; 3 4), and the code
    returns factors of (3 4; 2 1). *)
Theorem C72_dominant_rows_refuted :
  ~ forall (A L U : matrix Rring), wf A -> lu_shape A ->
      (forall i, i < nrows A -> (rsum (ncols A) (fun j => if j =? i then 0 else Rabs (ent A i j)) < Rabs (ent A i i))%R) ->
      getrf inv_of exact_keep 1 dgetf2 1 A = Ok (L, U) -> lu_factors A L U.
Proof.
  intros H.
  set (e := fun i j : nat => if i =? 0 then (if j =? 0 then 2%R else 1%R) else if j =? 0 then 3%R else 4%R).
  set (d := @Dn Rring 2 2 e).
  destruct (getrf inv_of exact_keep 1 dgetf2 1 (MD d)) as [[L U]| | | |] eqn:E; try discriminate E.
  assert (F : lu_factors (MD d) L U).
  { apply H; auto; try exact I; try reflexivity. intros i Hi. cbn [ent ncols nrows d d_r d_c d_e] in *.
    destruct i as [|[|i]]; try lia; unfold e; simpl; unfold Rabs; repeat destruct Rcase_abs; lra. }
  destruct F as [_ [_ [_ [_ [F1 [_ F2]]]]]]. cbn [nrows d d_r] in F1, F2.
  cbn [Triangular.getrf] in E. apply bind_Ok in E. destruct E as [[l u] [E1 E]]. inversion E; subst L U; clear E.
  destruct (d_getrf_ok dgetf2 d l u E1) as [X [p [EX [_ [_ [_ [_ [_ G]]]]]]]].
  specialize (F2 0 0 ltac:(lia)). unfold mmul in F2. cbn [d d_c ncols ent d_e sum] in F2. specialize (F2 ltac:(lia)).
  destruct (F1 0 0) as [_ L00]; try lia. specialize (L00 eq_refl). destruct (F1 0 1) as [L01 _]; try lia. specialize (L01 ltac:(lia)).
  cbn [ent] in L00, L01. pose proof (G 0 0) as G00. cbn [d d_r d_c] in G00. specialize (G00 ltac:(lia) ltac:(lia)). cbv [tri Nat.eqb] in G00.
  assert (X00 : d_e X 0 0 = 3%R).
  { unfold dgetf2 in EX. cbn [d d_r d_c d_e Nat.min] in EX. inversion EX; subst X p. cbn [d_e getf2_loop].
    assert (S0 : fst (getf2_step 2 0 (e, fun i => i)) 0 0 = 3%R /\ fst (getf2_step 2 0 (e, fun i => i)) 0 1 = 4%R).
    { unfold getf2_step. cbn [fst snd]. 
      assert (Ea : amax (fun i => Rabs (e i 0)) 0 (2 - 1 - 0) = 1).
      { cbn [Nat.sub amax Nat.add]. destruct (Rlt_dec _ _) as [|N]; auto. exfalso. apply N. unfold e. simpl. unfold Rabs. repeat destruct Rcase_abs; lra. }
      rewrite Ea. destruct (Req_EM_T (e 1 0) 0) as [Z|_]; [unfold e in Z; simpl in Z; lra|]. split; reflexivity. }
    set (s := getf2_step 2 0 (e, fun i => i)) in *. unfold getf2_step. cbn [Nat.sub amax].
    destruct (Req_EM_T _ _); cbn [fst]; [tauto|]. unfold eliminate, swap_rows, transp. simpl. apply S0. }
  change (car Rring) with R in *. simpl in F2, L00, L01, G00. rewrite L00, L01, G00, X00 in F2. unfold e in F2. simpl in F2. lra.
Qed.
Print Assumptions C72_dominant_rows_refuted.
