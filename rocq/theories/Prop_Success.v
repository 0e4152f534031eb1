(** Property C71: products, solves and factorizations of matrices on a common cluster
    tree succeed. *)
From Coq Require Import List Arith ZArith QArith Qcanon Lia Bool.
From Verif Require Import Prelude IndexRange ClusterTree Admissible Ring MatFun Matrix MatOps MatSpec Gemm GemmSpec
  GemmTheorems Triangular TriSpec ReflectSuccess GemmTerm TriTerm Construct ConstructProofs
  CommonTree GemmSucc LuSucc TreeSucc TreeFit UnevenTree Prop_Gemm Prop_Triangular.
Import ListNotations.
Local Open Scope nat_scope.

(** The middle factors of LowRank blocks may have any sizes here; the blocks to which is
    added are those that are truncated to an accuracy. *)
Definition anysize (_ _ : nat) : Prop := True.
Definition accurate {R : cring} (l : lowrank R) : Prop := use_eps l = true.
Notation fit := (CommonTree.fit anysize).
Notation tfit := (CommonTree.tfit anysize).
Notation good := (CommonTree.good accurate accurate).
Notation alleps := (CommonTree.allp accurate).
Notation ske := (CommonTree.ske anysize accurate accurate).

(** Truncation to an accuracy stays on in sums, and is on in what is compressed to an
    accuracy (addition.cpp:191-203, low_rank.cpp:60-69). *)
Record oracles_eps {R : cring} (O : oracles R) : Prop := {
  oe_add : forall a b c, lr_add O a b = Ok c -> use_eps a = true -> use_eps c = true;
  oe_eps : forall d e c, ceps O d e = Ok c -> negb (Qeq_bool e 0) = true -> use_eps c = true
}.

(** Low-rank arithmetic does not fail where an accuracy is given. *)
Record oracles_total_eps {R : cring} (O : oracles R) : Prop := {
  te_add : forall a b, use_eps a = true -> lr_wf a -> lr_wf b -> l_r a = l_r b -> l_c a = l_c b ->
     exists c, lr_add O a b = Ok c;
  te_eps : forall d e, negb (Qeq_bool e 0) = true -> exists c, ceps O d e = Ok c
}.

(** What is assumed of the low-rank routines: they keep shapes, they return, they keep
    the accuracy of their argument, and they do not fail where an accuracy is given. *)
Record sound_lr {R : cring} (Or : oracles R) : Prop := {
  sl_shape : oracles_shape Or;
  sl_halt : oracles_halt Or;
  sl_keep : oracles_eps Or;
  sl_total : oracles_total_eps Or
}.

Lemma same_eps {R : cring} (a b : lowrank R) : l_eps b = l_eps a -> use_eps a = true -> use_eps b = true.
Proof. unfold use_eps. intros ->. auto. Qed.
Lemma sound_policy {R : cring} (Or : oracles R) : sound_lr Or -> policy anysize accurate accurate Or.
Proof.
  intros [_ _ [K1 K2] [T1 T2]]. split; unfold accurate, mid, anysize; auto.
  - intros a b _ _ _ E _ _. split; apply same_eps; exact E.
  - intros a b Pa _ _ Wa Wb E1 E2. destruct (T1 a b Pa Wa Wb E1 E2) as [c Hc]. exists c. eauto 6.
  - intros l d Pl Ul _ _. split; auto. destruct (T2 d (l_eps l) Ul) as [c Hc]. exists c. eauto 6.
Qed.
Lemma total_policy {R : cring} (Or : oracles R) : sound_lr Or -> oracles_total Or -> policy anysize (fun _ => True) accurate Or.
Proof.
  intros [_ _ [K1 K2] [T1 T2]] [O1 O2 O3]. split; unfold accurate, mid, anysize; auto.
  - intros a b _ _ _ E _ _. split; auto. apply same_eps. exact E.
  - intros a b _ _ _ Wa Wb E1 E2. destruct (O1 a b Wa Wb E1 E2) as [c Hc]. exists c. eauto 6.
  - intros l d _ Ul _ _. split; auto. destruct (T2 d (l_eps l) Ul) as [c Hc]. exists c. eauto 6.
Qed.
Lemma allp_True {R : cring} (A : matrix R) : allp (fun _ => True) A.
Proof. induction A; simpl; auto. Qed.
Lemma good_True {R : cring} (A : matrix R) : good A -> CommonTree.good (fun _ => True) accurate A.
Proof. induction A; simpl; try tauto. intros [H1 H2]. auto. Qed.
Lemma ske_True {R : cring} (A : matrix R) : forall B, CommonTree.ske anysize (fun _ => True) accurate A B -> ske A B.
Proof.
  induction A as [d|l|m n b IH|er ec]; intros [d'|l'|m' n' b'|er' ec']; simpl; try tauto.
  intros [-> [-> H]]. auto.
Qed.
Lemma any_mids {R : cring} (ini : initializer R) : mids ini anysize.
Proof. intros d l _. exact I. Qed.

(** ** C71 *)

(** A product whose operands are divided along common axes, whatever mixture of Dense,
    LowRank and Hierarchical blocks they have: returns, and the result has the blocks of
    C.  [good C]: the LowRank blocks of C are truncated to an accuracy. *)
Theorem C71_gemm : forall (R : cring) (Or : oracles R), sound_lr Or ->
  forall r k s (A B C : matrix R) fuel alpha beta, valid r -> valid k -> valid s ->
  fit r k A -> fit k s B -> fit r s C -> good C ->
  120 * Nat.max (lv A) (Nat.max (lv B) (lv C)) + 33 <= fuel ->
  exists C', gemm Or fuel A B C alpha beta false false = Ok C' /\ fit r s C' /\ ske C C'.
Proof.
  exact (fun R Or H => gemm_succeeds Or (sl_shape _ H) _ _ _ (sound_policy Or H) (sl_halt _ H)).
Qed.
Print Assumptions C71_gemm.

Theorem C71_gemm_new : forall (R : cring) (Or : oracles R), sound_lr Or ->
  forall r k s (A B : matrix R) fuel alpha, valid r -> valid k -> valid s ->
  fit r k A -> fit k s B -> 120 * Nat.max (lv A) (lv B) + 33 <= fuel ->
  exists X, gemm_new Or fuel A B alpha false false = Ok X /\ fit r s X /\ good X.
Proof.
  exact (fun R Or H => gemm_new_succeeds Or (sl_shape _ H) _ _ _ (sound_policy Or H) (sl_halt _ H)).
Qed.
Print Assumptions C71_gemm_new.

(** Three matrices of the same weakly admissible form (all blocks off the diagonal
    LowRank): here LowRank blocks may be truncated to a rank, if that does not fail. *)
Theorem C71_hodlr_gemm : forall (R : cring) (Or : oracles R), sound_lr Or ->
  forall r (A B C : matrix R) fuel alpha beta, valid r -> fit r r A -> fit r r B -> fit r r C ->
  hodlr C -> oracles_total Or \/ alleps C -> skel C A -> skel C B -> 120 * lv C + 33 <= fuel ->
  exists C', gemm Or fuel A B C alpha beta false false = Ok C' /\ fit r r C' /\ hodlr C'.
Proof.
  intros R Or H r A B C fuel alpha beta Vr FA FB FC HC [T|T] SA SB Hf.
  - exact (hodlr_gemm_succeeds Or (sl_shape _ H) _ _ _ (total_policy Or H T) (sl_halt _ H) r A B C fuel alpha beta Vr FA FB FC HC (allp_True C) SA SB Hf).
  - exact (hodlr_gemm_succeeds Or (sl_shape _ H) _ _ _ (sound_policy Or H) (sl_halt _ H) r A B C fuel alpha beta Vr FA FB FC HC T SA SB Hf).
Qed.
Print Assumptions C71_hodlr_gemm.

(** Solves.  [below]: where the triangle is not divided any further, neither is B. *)
Theorem C71_trsm_left : forall (R : cring) (Or : oracles R), sound_lr Or ->
  forall rinv u r c (A B : matrix R) gfuel, valid r -> valid c -> wf A -> tfit u r A -> fit r c B ->
  below SLeft A B -> nh B \/ good B -> (u = Upper -> deg c = 1) ->
  120 * Nat.max (lv A) (lv B) + 33 <= gfuel ->
  exists X, trsm rinv Or gfuel A B u SLeft = Ok X /\ fit r c X /\ ske B X.
Proof.
  exact (fun R Or H rinv u r c A B g Vr Vc WA =>
    trsm_left_succeeds Or (sl_shape _ H) _ _ _ (sound_policy Or H) (sl_halt _ H) rinv u r c A B g Vr Vc (wf_pos A WA)).
Qed.
Print Assumptions C71_trsm_left.

Theorem C71_trsm_right : forall (R : cring) (Or : oracles R), sound_lr Or ->
  forall rinv r c (A B : matrix R) gfuel, valid r -> valid c -> wf A -> tfit Upper r A -> fit c r B ->
  below SRight A B -> nh B \/ good B -> 120 * Nat.max (lv A) (lv B) + 33 <= gfuel ->
  exists X, trsm rinv Or gfuel A B Upper SRight = Ok X /\ fit c r X /\ ske B X.
Proof.
  exact (fun R Or H rinv r c A B g Vr Vc WA =>
    trsm_right_succeeds Or (sl_shape _ H) _ _ _ (sound_policy Or H) (sl_halt _ H) rinv r c A B g Vr Vc (wf_pos A WA)).
Qed.
Print Assumptions C71_trsm_right.

(** LAPACK's dgetrf returns on square blocks. *)
Definition returns {R : cring} (dgetrf : dense R -> outcome (dense R * (nat -> nat))) : Prop :=
  (forall d, dgetrf d <> NoFuel) /\ forall d, d_r d = d_c d -> exists X p, dgetrf d = Ok (X, p).

(** Matrices that block LU can take: diagonal blocks Dense or Hierarchical and nowhere
    divided less than the other blocks of their block row and block column ([tower]),
    LowRank blocks truncated to an accuracy; or all blocks off the diagonal LowRank. *)
Definition lu_able {R : cring} (Or : oracles R) (A : matrix R) : Prop :=
  (tower A /\ good A) \/ (hodlr A /\ (oracles_total Or \/ alleps A)).

Lemma lu_able_ok {R : cring} (Or : oracles R) A : sound_lr Or -> lu_able Or A ->
  luok accurate accurate A \/ (oracles_total Or /\ luok (fun _ => True) accurate A).
Proof.
  intros H [[T G]|[K [T|T]]].
  - left. apply tower_luok; auto.
  - right. split; auto. apply hodlr_luok; auto. apply allp_True.
  - left. apply hodlr_luok; auto.
Qed.

Theorem C71_getrf : forall (R : cring) (Or : oracles R), sound_lr Or ->
  forall rinv dgetrf, returns dgetrf -> forall r (A : matrix R) gfuel fuel,
  valid r -> fit r r A -> lu_able Or A -> 120 * lv A + 33 <= gfuel -> lv A < fuel ->
  exists L U, getrf rinv Or gfuel dgetrf fuel A = Ok (L, U) /\ tfit Lower r L /\ tfit Upper r U.
Proof.
  intros R Or H rinv dgetrf [D1 D2] r A gfuel fuel Vr F T G1 G2.
  destruct (lu_able_ok Or A H T) as [K|[O K]].
  - destruct (getrf_succeeds Or (sl_shape _ H) _ _ _ (sound_policy Or H) (sl_halt _ H) rinv dgetrf D2 D1 r A gfuel fuel Vr F K G1 G2)
      as [L [U [E [[TL _] [TU _]]]]]. eauto.
  - destruct (getrf_succeeds Or (sl_shape _ H) _ _ _ (total_policy Or H O) (sl_halt _ H) rinv dgetrf D2 D1 r A gfuel fuel Vr F K G1 G2)
      as [L [U [E [[TL _] [TU _]]]]]. eauto.
Qed.
Print Assumptions C71_getrf.

(** Factor, then solve with L and with U: for a right-hand side of one block column. *)
Theorem C71_solve : forall (R : cring) (Or : oracles R), sound_lr Or ->
  forall rinv dgetrf, returns dgetrf -> forall r c (A B : matrix R) gfuel fuel,
  valid r -> valid c -> fit r r A -> lu_able Or A -> fit r c B -> deg c = 1 -> below SLeft A B -> nh B \/ good B ->
  120 * Nat.max (lv A) (lv B) + 33 <= gfuel -> lv A < fuel ->
  exists L U Y X, getrf rinv Or gfuel dgetrf fuel A = Ok (L, U) /\ trsm rinv Or gfuel L B Lower SLeft = Ok Y /\
    trsm rinv Or gfuel U Y Upper SLeft = Ok X /\ fit r c X /\ ske B X.
Proof.
  intros R Or H rinv dgetrf [D1 D2] r c A B gfuel fuel Vr Vc FA T FB Dc BL GB G1 G2.
  destruct (lu_able_ok Or A H T) as [K|[O K]].
  - exact (solve_succeeds Or (sl_shape _ H) _ _ _ (sound_policy Or H) (sl_halt _ H) rinv dgetrf D2 D1 r c A B gfuel fuel Vr Vc FA K FB Dc BL GB G1 G2).
  - destruct (solve_succeeds Or (sl_shape _ H) _ _ _ (total_policy Or H O) (sl_halt _ H) rinv dgetrf D2 D1 r c A B gfuel fuel Vr Vc FA K FB Dc BL)
      as [L [U [Y [X [E1 [E2 [E3 [FX SX]]]]]]]]; auto; [destruct GB; [left|right; apply good_True]; auto|].
    exists L, U, Y, X. pose proof (ske_True _ _ SX). auto 6.
Qed.
Print Assumptions C71_solve.

(** What the Hierarchical constructor builds is divided along common axes: with 2 parts per level for all sizes, and for
    all divisions that tile. *)
Theorem C71_constructed_fit : forall (R : cring) (ini : initializer R), shapely ini ->
  forall fuel rows cols bm bn nleaf M, (1 <= bm)%Z -> (1 <= bn)%Z -> (0 <= ir_n rows)%Z -> (0 <= ir_n cols)%Z ->
  valid (uniform (Z.to_nat (ir_n rows)) (Z.to_nat bm) fuel) -> valid (uniform (Z.to_nat (ir_n cols)) (Z.to_nat bn) fuel) ->
  hierarchical ini fuel rows cols bm bn nleaf = Ok M ->
  fit (uniform (Z.to_nat (ir_n rows)) (Z.to_nat bm) fuel) (uniform (Z.to_nat (ir_n cols)) (Z.to_nat bn) fuel) M.
Proof. exact (fun R ini SH => hierarchical_fit ini anysize SH (any_mids ini)). Qed.
Print Assumptions C71_constructed_fit.

Theorem C71_halving : forall n d, valid (uniform n 2 d).
Proof. exact (fun n d => valid_uniform_2 d n). Qed.
Print Assumptions C71_halving.

(** So three matrices over three ranges of any sizes, built by halving with any leaf
    sizes and any admissibility, can be multiplied. *)
Theorem C71_constructed_gemm : forall (R : cring) (Or : oracles R), sound_lr Or ->
  forall (ia ib ic : initializer R), shapely ia -> shapely ib -> shapely ic ->
  (forall d l, in_comp ic d = Ok l -> use_eps l = true) ->
  forall f rr rk rs la lb lc A B C alpha beta, (0 <= ir_n rr)%Z -> (0 <= ir_n rk)%Z -> (0 <= ir_n rs)%Z ->
  hierarchical ia f rr rk 2 2 la = Ok A -> hierarchical ib f rk rs 2 2 lb = Ok B -> hierarchical ic f rr rs 2 2 lc = Ok C ->
  exists C', gemm Or (120 * Nat.max (lv A) (Nat.max (lv B) (lv C)) + 33) A B C alpha beta false false = Ok C' /\ ske C C'.
Proof.
  intros R Or H ia ib ic Sa Sb Sc He f rr rk rs la lb lc A B C alpha beta Hr Hk Hs HA HB HC.
  pose proof (fun n => valid_uniform_2 f n) as V.
  destruct (gemm_succeeds Or (sl_shape _ H) _ _ _ (sound_policy Or H) (sl_halt _ H)
    (uniform (Z.to_nat (ir_n rr)) 2 f) (uniform (Z.to_nat (ir_n rk)) 2 f) (uniform (Z.to_nat (ir_n rs)) 2 f) A B C
    (120 * Nat.max (lv A) (Nat.max (lv B) (lv C)) + 33) alpha beta) as [C' [E [_ S]]]; auto.
  - exact (hierarchical_fit ia anysize Sa (any_mids ia) f rr rk 2 2 la A ltac:(lia) ltac:(lia) Hr Hk (V _) (V _) HA).
  - exact (hierarchical_fit ib anysize Sb (any_mids ib) f rk rs 2 2 lb B ltac:(lia) ltac:(lia) Hk Hs (V _) (V _) HB).
  - exact (hierarchical_fit ic anysize Sc (any_mids ic) f rr rs 2 2 lc C ltac:(lia) ltac:(lia) Hr Hs (V _) (V _) HC).
  - apply (hierarchical_good ic accurate accurate f rr rs 2 2 lc C (fun d l E => conj (He d l E) (He d l E))); auto. simpl. lia.
  - eauto.
Qed.
Print Assumptions C71_constructed_gemm.

(** With k parts per level and sizes that divide evenly down to the leaves, a matrix whose
    diagonal is not admissible can be factored and solved with. *)
Theorem C71_constructed_solve : forall (R : cring) (Or : oracles R), sound_lr Or ->
  forall (ini : initializer R), shapely ini -> (forall d l, in_comp ini d = Ok l -> use_eps l = true) ->
  (forall nd, cn_iabs nd = cn_jabs nd -> in_adm ini nd = Ok false) ->
  forall rinv dgetrf, returns dgetrf -> forall k nleaf s e f rows cols M b, (2 <= k)%Z -> (2 <= s <= nleaf)%Z ->
  ir_n rows = (s * k ^ Z.of_nat (S e))%Z -> ir_n cols = (s * k ^ Z.of_nat (S e))%Z ->
  hierarchical ini f rows cols k k nleaf = Ok M -> d_r b = Z.to_nat s * Z.to_nat k ^ S e ->
  exists L U y x, getrf rinv Or (120 * lv M + 33) dgetrf (S (lv M)) M = Ok (L, U) /\
    trsm rinv Or (120 * lv M + 33) L (MD b) Lower SLeft = Ok y /\
    trsm rinv Or (120 * lv M + 33) U y Upper SLeft = Ok (MD x) /\ d_r x = d_r b /\ d_c x = d_c b.
Proof.
  intros R Or H ini SH HC HD rinv dgetrf [D1 D2] k nleaf s e f rows cols M b Hk Hs Er Ec HM Hb.
  pose proof (hierarchical_fit_level ini anysize SH (any_mids ini) k nleaf s e f rows cols M Hk Hs Er Ec HM) as F.
  pose proof (hierarchical_tower ini k nleaf s e f rows cols M Hk Hs Er Ec HD HM) as T.
  assert (G : good M) by (apply (hierarchical_good ini accurate accurate f rows cols k k nleaf M (fun d l E => conj (HC d l E) (HC d l E))); auto; lia).
  destruct (solve_succeeds Or (sl_shape _ H) _ _ _ (sound_policy Or H) (sl_halt _ H) rinv dgetrf D2 D1
    (uniform (Z.to_nat s * Z.to_nat k ^ S e) (Z.to_nat k) (S e)) (Leaf (d_c b)) M (MD b) (120 * lv M + 33) (S (lv M)))
    as [L [U [Y [X [E1 [E2 [E3 [FX SX]]]]]]]]; auto.
  - apply valid_uniform_pow. lia.
  - exact I.
  - apply tower_luok; auto.
  - split; [rewrite asize_uniform; exact Hb|reflexivity].
  - apply below_nh. discriminate.
  - left. discriminate.
  - cbn [lv]. lia.
  - destruct X as [x|?|? ? ?|? ?]; try (exfalso; exact SX). destruct FX as [X1 X2]. rewrite asize_uniform in X1.
    exists L, U, Y, x. rewrite X1, Hb. auto 6.
Qed.
Print Assumptions C71_constructed_solve.

(** The position-based admissibility condition has that property; with a parameter below
    1 it makes all other blocks LowRank, and ranks may be used instead of accuracies. *)
Theorem C71_position_solve : forall (R : cring) (Or : oracles R), sound_lr Or -> oracles_total Or ->
  forall (fill : irange -> irange -> outcome (dense R)) comp admis, (0 <= admis < 1)%Q ->
  let ini := Init (is_admissible PositionBased [] admis) fill comp in shapely ini ->
  forall rinv dgetrf, returns dgetrf -> forall k nleaf s e f rows cols M b, (2 <= k)%Z -> (2 <= s <= nleaf)%Z ->
  ir_n rows = (s * k ^ Z.of_nat (S e))%Z -> ir_n cols = (s * k ^ Z.of_nat (S e))%Z ->
  hierarchical ini f rows cols k k nleaf = Ok M -> d_r b = Z.to_nat s * Z.to_nat k ^ S e ->
  exists L U y x, getrf rinv Or (120 * lv M + 33) dgetrf (S (lv M)) M = Ok (L, U) /\
    trsm rinv Or (120 * lv M + 33) L (MD b) Lower SLeft = Ok y /\
    trsm rinv Or (120 * lv M + 33) U y Upper SLeft = Ok (MD x) /\ d_r x = d_r b /\ d_c x = d_c b.
Proof.
  intros R Or H HT fill comp admis Ha ini SH rinv dgetrf [D1 D2] k nleaf s e f rows cols M b Hk Hs Er Ec HM Hb.
  pose proof (hierarchical_fit_level ini anysize SH (any_mids ini) k nleaf s e f rows cols M Hk Hs Er Ec HM) as F.
  pose proof (hierarchical_hodlr ini k nleaf s e f rows cols M Hk Hs Er Ec
    (fun nd => position_diag admis nd (proj1 Ha)) (fun nd => position_off admis nd Ha) HM) as T.
  destruct (solve_succeeds Or (sl_shape _ H) _ _ _ (total_policy Or H HT) (sl_halt _ H) rinv dgetrf D2 D1
    (uniform (Z.to_nat s * Z.to_nat k ^ S e) (Z.to_nat k) (S e)) (Leaf (d_c b)) M (MD b) (120 * lv M + 33) (S (lv M)))
    as [L [U [Y [X [E1 [E2 [E3 [FX SX]]]]]]]]; auto.
  - apply valid_uniform_pow. lia.
  - exact I.
  - apply hodlr_luok; auto. apply allp_True.
  - split; [rewrite asize_uniform; exact Hb|reflexivity].
  - apply below_nh. discriminate.
  - left. discriminate.
  - cbn [lv]. lia.
  - destruct X as [x|?|? ? ?|? ?]; try (exfalso; exact SX). destruct FX as [X1 X2]. rewrite asize_uniform in X1.
    exists L, U, Y, x. rewrite X1, Hb. auto 6.
Qed.
Print Assumptions C71_position_solve.

(** For that condition the sizes need not divide evenly; what is divided into k parts must be
    larger than (k-1)^2 + k, so that no part is a single row. *)
Theorem C71_position_any_size : forall (R : cring) (Or : oracles R), sound_lr Or -> oracles_total Or ->
  forall (fill : irange -> irange -> outcome (dense R)) comp admis, (0 <= admis < 1)%Q ->
  let ini := Init (is_admissible PositionBased [] admis) fill comp in shapely ini ->
  forall rinv dgetrf, returns dgetrf -> forall k nleaf f rows cols M b, 2 <= k -> (k - 1) * (k - 1) + k <= nleaf ->
  ir_n cols = ir_n rows -> (Z.of_nat ((k - 1) * (k - 1) + k) < ir_n rows)%Z ->
  hierarchical ini f rows cols (Z.of_nat k) (Z.of_nat k) (Z.of_nat nleaf) = Ok M -> d_r b = Z.to_nat (ir_n rows) ->
  exists L U y x, getrf rinv Or (120 * lv M + 33) dgetrf (S (lv M)) M = Ok (L, U) /\
    trsm rinv Or (120 * lv M + 33) L (MD b) Lower SLeft = Ok y /\
    trsm rinv Or (120 * lv M + 33) U y Upper SLeft = Ok (MD x) /\ d_r x = d_r b /\ d_c x = d_c b.
Proof.
  intros R Or H HT fill comp admis Ha ini SH rinv dgetrf [D1 D2] k nleaf f rows cols M b Hk Hl Ec Hn HM Hb.
  destruct f as [|f]; [discriminate|].
  assert (Rm : room k 2 = (k - 1) * (k - 1) + k) by (unfold room; lia).
  assert (Hl' : room k 2 <= nleaf) by lia.
  destruct (hierarchical_cuts k nleaf 2 Hk ltac:(lia) Hl' ini anysize
    (fun nd => position_diag admis nd (proj1 Ha)) (fun nd => position_off admis nd Ha) SH (any_mids ini) f rows cols M Ec ltac:(lia) HM) as [F T].
  assert (Vx : valid (cuts f (ConstructProofs.len rows) k nleaf)) by (apply (valid_cuts k nleaf 2); auto; unfold ConstructProofs.len; lia).
  destruct (solve_succeeds Or (sl_shape _ H) _ _ _ (total_policy Or H HT) (sl_halt _ H) rinv dgetrf D2 D1
    (cuts f (ConstructProofs.len rows) k nleaf) (Leaf (d_c b)) M (MD b) (120 * lv M + 33) (S (lv M)))
    as [L [U [Y [X [E1 [E2 [E3 [FX SX]]]]]]]]; auto.
  - exact I.
  - apply hodlr_luok; auto. apply allp_True.
  - split; [exact Hb|reflexivity].
  - apply below_nh. discriminate.
  - left. discriminate.
  - cbn [lv]. lia.
  - destruct X as [x|?|? ? ?|? ?]; try (exfalso; exact SX). destruct FX as [X1 X2].
    exists L, U, Y, x. rewrite X1, X2. auto 6.
Qed.
Print Assumptions C71_position_any_size.

(** ** Examples *)

(** Exact arithmetic that keeps the accuracy of its argument meets [sound_lr]. *)
Definition with_eps {R : cring} (e : Q) (l : lowrank R) : lowrank R :=
  Lr (l_r l) (l_c l) (l_rank l) e (l_U l) (l_S l) (l_V l).
Definition tabulated {R : cring} (r c : nat) (f : nat -> nat -> R) : dense R := Dn r c (d_e (of_rows (to_rows (Dn r c f)))).
Definition keep_oracles {R : cring} : oracles R := {|
  crank := fun d _ => Ok (lr_of d);
  ceps := fun d e => Ok (with_eps e (lr_of d));
  lr_add := fun a b => Ok (with_eps (l_eps a) (lr_of (tabulated (l_r a) (l_c a) (MatFun.madd (lr_ent a) (lr_ent b)))))
|}.

Lemma keep_sound {R : cring} : sound_lr (@keep_oracles R).
Proof.
  split; split; try (intros; eexists; reflexivity); try (intros; discriminate).
  - intros a b c Wa Wb E1 E2 E. inversion E; subst. repeat split.
  - intros d r c E. inversion E; subst. repeat split.
  - intros d r c E. inversion E; subst. repeat split.
  - intros a b c E. inversion E; subst. auto.
  - intros d e c E. inversion E; subst. auto.
Qed.

Definition plain_lu (A : dense Qcring) : outcome (dense Qcring * (nat -> nat)) :=
  Ok (@Dn Qcring (d_r A) (d_c A) (elim (d_r A) (d_e A)), fun i => i).
Lemma plain_returns : returns plain_lu.
Proof. split; [discriminate|]. intros d _. unfold plain_lu. eauto. Qed.

Definition sA : dense Qcring :=
  @of_rows Qcring (map (fun i => map (fun j => qc (if (i =? j)%nat then 20 else Z.of_nat (i + 2 * j) - 3)) (seq 0 4)) (seq 0 4)).
Definition scomp (e : Q) (d : dense Qcring) : outcome (lowrank Qcring) := Ok (with_eps e (lr_of d)).
Definition kind {R : cring} (A : matrix R) : nat := match A with MD _ => 0 | ML _ => 1 | MH _ _ _ => 2 | ME _ _ => 9 end.
Definition kinds {R : cring} (A : matrix R) : list (list nat) :=
  match A with MH m n b => map (fun i => map (fun j => kind (b i j)) (seq 0 n)) (seq 0 m) | _ => [[kind A]] end.
Definition srhs : dense Qcring := @of_rows Qcring (map (fun i => [qc (Z.of_nat i + 1)]) (seq 0 4)).

Definition ssolve (adm : cnode -> outcome bool) (nleaf : Z) : outcome (list (list nat) * list (list Q)) :=
  let* M := hierarchical_of_dense 9 sA adm (scomp (1 # 100)) 2 2 nleaf 0 0 in
  let* (L, U) := getrf qinv keep_oracles (120 * lv M + 33) plain_lu (S (lv M)) M in
  let* y := trsm qinv keep_oracles (120 * lv M + 33) L (MD srhs) Lower SLeft in
  let* x := trsm qinv keep_oracles (120 * lv M + 33) U y Upper SLeft in
  let* z := gemm keep_oracles (120 * lv M + 33) (MD sA) x (MD (Dn 4 1 (fun _ _ => qc 0))) (qc 1) (qc 0) false false in
  Ok (kinds M, showq z).

(** Factored, solved, multiplied back: one level with LowRank blocks, two levels
    without. *)
Example C71_ex : sound_lr (@keep_oracles Qcring) /\ returns plain_lu /\
  ssolve (is_admissible PositionBased [] 0) 2 = Ok ([[0; 1]; [1; 0]], [[1]; [2]; [3]; [4]]%Q) /\
  ssolve (fun _ => Ok false) 1 = Ok ([[2; 2]; [2; 2]], [[1]; [2]; [3]; [4]]%Q).
Proof.
  split; [exact keep_sound|]. split; [exact plain_returns|]. vm_compute. repeat split; reflexivity.
Qed.

(** Sizes that do not divide evenly: 10 rows are halved to 5 and 5, these to 3 and 2.
    is_leaf asks for few rows and few columns (cluster_tree.cpp:96-100), so the 2 by 2
    block on the diagonal is Dense and the 3 by 2 and 2 by 3 blocks beside it are
    Hierarchical; trsm has no case for that pair (trsm.cpp:34-131) and aborts. *)
Definition uA : dense Qcring :=
  @of_rows Qcring (map (fun i => map (fun j => qc (if (i =? j)%nat then 20 else 1)) (seq 0 10)) (seq 0 10)).

Definition ulu (A : dense Qcring) : outcome (dense Qcring * (nat -> nat)) := Ok (A, fun i => i).

Lemma reached {T V} (h : outcome T) (f : T -> outcome V) :
  (match h with Ok _ => true | _ => false end) = true -> (match (let* M := h in f M) with Abort => true | _ => false end) = true ->
  exists M, h = Ok M /\ f M = Abort.
Proof. destruct h as [M| | | |]; try discriminate. simpl. intros _ H. exists M. destruct (f M); try discriminate. auto. Qed.

Theorem C71_uneven_refuted :
  ~ forall (A : dense Qcring) nleaf dgetrf M, d_r A = d_c A -> (2 <= nleaf)%Z -> returns dgetrf ->
      hierarchical_of_dense 9 A (fun _ => Ok false) (scomp (1 # 100)) 2 2 nleaf 0 0 = Ok M ->
      exists L U, getrf qinv keep_oracles (120 * lv M + 33) dgetrf (S (lv M)) M = Ok (L, U).
Proof.
  intros H.
  destruct (reached (hierarchical_of_dense 9 uA (fun _ => Ok false) (scomp (1 # 100)) 2 2 2 0 0)
    (fun M => getrf qinv keep_oracles (120 * lv M + 33) ulu (S (lv M)) M)) as [M [E1 E2]];
    [vm_compute; reflexivity|vm_compute; reflexivity|].
  destruct (H uA 2%Z ulu M) as [L [U E]]; auto; try lia.
  - split; [discriminate|]. intros d _. unfold ulu. eauto.
  - rewrite E in E2. discriminate.
Qed.
Print Assumptions C71_uneven_refuted.
