(** LowRank += LowRank represents the sum up to the truncation. *)
From Coq Require Import List Arith ZArith QArith Lia Bool String Ring_theory Ring Setoid Morphisms.
From Verif Require Import Prelude Ring MatFun MatSetoid Matrix MatOps MatSpec MatOpsProofs Lapack Gemm GemmSpec GemmProofs GemmTheorems LowRankAdd.
Import ListNotations.
Local Open Scope nat_scope.

Section Proofs.
Context {R : cring}.
Add Ring Rr : (cr_th R).
Notation dense := (dense R).
Notation lowrank := (lowrank R).
Notation matrix := (matrix R).
Notation mat := (mat R).

Lemma mulF (A B : dense) alpha tA tB : dC tA A = dR tB B ->
  exists D, dd_mul A B alpha tA tB = Ok D /\ d_r D = dR tA A /\ d_c D = dC tB B /\
  meq (d_e D) (mscale alpha (mmul (dC tA A) (mop tA (d_e A)) (mop tB (d_e B)))).
Proof.
  intros H. destruct (dd_mul_ok A B alpha tA tB H) as [D E]. exists D. split; auto.
  destruct (mul_inv _ _ _ _ _ _ E) as [_ X]. exact X.
Qed.

Lemma gemmF (A B C : dense) alpha beta tA tB : dR tA A = d_r C -> dC tA A = dR tB B -> dC tB B = d_c C ->
  exists D, dd_gemm A B C alpha beta tA tB = Ok D /\ d_r D = d_r C /\ d_c D = d_c C /\
  meq (d_e D) (madd (mscale beta (d_e C)) (mscale alpha (mmul (dC tA A) (mop tA (d_e A)) (mop tB (d_e B))))).
Proof.
  intros H1 H2 H3. destruct (dd_gemm_ok A B C alpha beta tA tB H1 H2 H3) as [D E]. exists D. split; auto.
  destruct (gemm_inv _ _ _ _ _ _ _ _ E) as [_ [_ [_ X]]]. exact X.
Qed.

(** Products of concatenations. *)
Lemma cat_mul (x y u v : dense) i j : d_r u = d_c x ->
  mmul (d_c x + d_c y) (d_e (hcat x y)) (d_e (vcat u v)) i j =
  (mmul (d_c x) (d_e x) (d_e u) i j + mmul (d_c y) (d_e y) (d_e v) i j)%r.
Proof.
  intros E. rewrite mmul_split. f_equal.
  - apply mmul_ext; intros l Hl; simpl.
    + apply Nat.ltb_lt in Hl. now rewrite Hl.
    + rewrite E. apply Nat.ltb_lt in Hl. now rewrite Hl.
  - apply mmul_ext; intros l Hl; unfold mwin; simpl.
    + destruct (Nat.ltb_spec (d_c x + l) (d_c x)); [lia|]. f_equal. lia.
    + rewrite E. destruct (Nat.ltb_spec (d_c x + l) (d_c x)); [lia|]. f_equal. lia.
Qed.

(** Equality inside products. *)
Lemma mul_feq_l r k c (f f' g : mat) : feq r k f f' -> feq r c (mmul k f g) (mmul k f' g).
Proof. intros H. apply feq_mul; auto. apply feq_refl. Qed.
Lemma mul_feq_r r k c (f g g' : mat) : feq k c g g' -> feq r c (mmul k f g) (mmul k f g').
Proof. intros H. apply feq_mul; auto. apply feq_refl. Qed.

(** The result [c] of a rounded addition of [a] and [b]: a factorization of the sum
    with diagonal middle factor, cut off after [r] values. *)
Definition rounds (a b c : lowrank) (r k : nat) (U S V : mat) : Prop :=
  lr_wf c /\ l_r c = l_r a /\ l_c c = l_c a /\ l_rank c = r /\ l_eps c = l_eps a /\
  d_r (l_S c) = r /\ d_c (l_S c) = r /\
  r <= k /\ diagonal k S /\
  feq (l_r a) (l_c a) (mmul k U (mmul k S V)) (madd (lr_ent a) (lr_ent b)) /\
  feq (l_r a) r (d_e (l_U c)) U /\ feq r r (d_e (l_S c)) S /\ feq r (l_c a) (d_e (l_V c)) V /\
  feq (l_r a) (l_c a) (madd (lr_ent c) (dropped r k U S V)) (madd (lr_ent a) (lr_ent b)).

Lemma truncate_spec (a b : lowrank) r (Qu U Sm V QvT : dense) k :
  d_r Qu = l_r a -> d_c QvT = l_c a -> d_r U = d_c Qu -> d_c U = k -> d_r Sm = k -> d_c Sm = k ->
  d_r V = k -> d_c V = d_r QvT -> r <= k -> diagonal k (d_e Sm) ->
  feq (l_r a) (l_c a) (mmul (d_c Qu) (d_e Qu) (mmul (d_r QvT) (mmul k (d_e U) (mmul k (d_e Sm) (d_e V))) (d_e QvT)))
      (madd (lr_ent a) (lr_ent b)) ->
  exists c, truncate a r Qu U Sm V QvT = Ok c /\
    rounds a b c r k (mmul (d_c Qu) (d_e Qu) (d_e U)) (d_e Sm) (mmul (d_r QvT) (d_e V) (d_e QvT)).
Proof.
  intros E1 E2 E3 E4 E5 E6 E7 E8 Hr HS F. unfold truncate.
  destruct (d_resize_spec Sm r r) as [S' [RS [S1 [S2 SF]]]]; try lia. rewrite RS. cbn [bind].
  destruct (d_resize_spec U (d_r U) r) as [U1 [RU [U11 [U12 UF]]]]; try lia. rewrite RU. cbn [bind].
  destruct (mulF Qu U1 1%r false false) as [U' [MU [U21 [U22 U2F]]]]; [simpl; congruence|]. rewrite MU. cbn [bind].
  destruct (d_resize_spec V r (d_c V)) as [V1 [RV [V11 [V12 VF]]]]; try lia. rewrite RV. cbn [bind].
  destruct (mulF V1 QvT 1%r false false) as [V' [MV [V21 [V22 V2F]]]]; [simpl; congruence|]. rewrite MV. cbn [bind].
  eexists. split; [reflexivity|]. unfold rounds. cbn [l_r l_c l_rank l_eps l_U l_S l_V].
  unfold dR, dC in *. simpl mop in *.
  assert (FU : feq (l_r a) r (d_e U') (mmul (d_c Qu) (d_e Qu) (d_e U))).
  { intros i j Hi Hj. rewrite (U2F i j). rewrite (meq_scale_1 _ i j). apply mmul_ext; auto.
    intros x Hx. apply UF; auto. lia. }
  assert (FV : feq r (l_c a) (d_e V') (mmul (d_r QvT) (d_e V) (d_e QvT))).
  { intros i j Hi Hj. rewrite (V2F i j). rewrite (meq_scale_1 _ i j). rewrite V12, E8. apply mmul_ext; auto.
    intros x Hx. apply VF; auto. lia. }
  assert (FF : feq (l_r a) (l_c a)
     (mmul k (mmul (d_c Qu) (d_e Qu) (d_e U)) (mmul k (d_e Sm) (mmul (d_r QvT) (d_e V) (d_e QvT))))
     (madd (lr_ent a) (lr_ent b))).
  { intros i j Hi Hj. rewrite <- (F i j Hi Hj). rewrite (mmul_assoc (d_c Qu) k).
    apply mmul_ext; auto. intros x Hx. rewrite mmul_assoc. apply mmul_ext; auto. intros y Hy.
    rewrite mmul_assoc. reflexivity. }
  unfold lr_wf. cbn [l_r l_c l_U l_S l_V]. 
  repeat (split; [solve [congruence | lia | assumption | repeat split; congruence]|]).
  intros i j Hi Hj. rewrite <- (FF i j Hi Hj), (truncation r k) by auto. unfold madd. f_equal.
  unfold lr_ent. cbn [l_U l_S l_V]. rewrite U22, U12, S2. apply mmul_ext.
  - intros x Hx. apply FU; auto.
  - intros x Hx. apply mmul_ext; [intros y Hy; apply SF; auto|intros y Hy; apply FV; auto].
Qed.

(** The part of A outside of the range of Q. *)
Definition perp m k (Q A : mat) : mat := msub A (mmul k Q (mmul m (mtr Q) A)).

Lemma perp_zero m n k (Q A : mat) : orth_cols m k Q -> feq k n (mmul m (mtr Q) (perp m k Q A)) mzero.
Proof.
  intros HQ. unfold perp. rewrite meq_sub_r.
  assert (E : feq k n (mmul m (mtr Q) (mmul k Q (mmul m (mtr Q) A))) (mmul m (mtr Q) A)).
  { rewrite <- meq_assoc. eapply feq_trans; [apply mul_feq_l; exact HQ|].
    intros i j Hi Hj. apply mmul_id_l; auto. }
  intros i j Hi Hj. unfold msub. rewrite (E i j Hi Hj). unfold mzero. ring.
Qed.

Variable L : lapack R.
Hypothesis HL : lapack_ok L.

(** The product of two sums of factors. *)
Lemma rounded_full (a b : lowrank) : lr_wf a -> lr_wf b -> l_r a = l_r b -> l_c a = l_c b ->
  let kmax := Nat.min (Nat.min (l_r a) (d_c (l_S a) + d_c (l_S b))) (Nat.min (d_c (l_S a) + d_c (l_S b)) (l_c a)) in
  (if use_eps a then 0 < kmax else l_rank a <= kmax) ->
  exists c r U Sm V, rounded_addition L a b = Ok c /\ rounds a b c r kmax U Sm V /\
    (if use_eps a then 0 < r else r = l_rank a) /\
    (lapack_orth L -> orth_cols (l_r a) kmax U /\ orth_rows kmax (l_c a) V) /\
    exists M Um Sd Vm, lp_svd L M = Ok (Um, Sd, Vm) /\ d_r Sd = kmax /\ d_c Sd = kmax /\ d_e Sd = Sm /\
      (use_eps a = true -> r = lp_rank L Sd (l_eps a)).
Proof.
  intros [WA1 [WA2 [WA3 WA4]]] [WB1 [WB2 [WB3 WB4]]] Er Ec kmax Hk. unfold rounded_addition.
  destruct (gemmF (l_U a) (l_S a) (d_zeros (d_r (l_U a)) (d_c (l_S a))) 1%r 0%r false false) as [x [Ex [X1 [X2 X3]]]]; auto.
  rewrite Ex. cbn [bind]. simpl in X1, X2.
  destruct (gemmF (l_U b) (l_S b) (d_zeros (d_r (l_U a)) (d_c (l_S b))) 1%r 0%r false false) as [y [Ey [Y1 [Y2 Y3]]]]; auto.
  { simpl. congruence. }
  rewrite Ey. cbn [bind]. simpl in Y1, Y2.
  destruct (lo_qr _ HL (hcat x y)) as [Qu [Ru [Eq [Q1 [Q2 [Q3 [Q4 Q5]]]]]]]. rewrite Eq. cbn [bind].
  destruct (d_copy_to_spec (l_V a) (d_zeros (d_r (l_V a)) (d_c (l_V a))) 0 0) as [va [Eva [VA1 [VA2 VA3]]]]; simpl; try lia.
  rewrite Eva. cbn [bind]. simpl in VA1, VA2.
  destruct (d_copy_to_spec (l_V b) (d_zeros (d_r (l_V b)) (d_c (l_V a))) 0 0) as [vb [Evb [VB1 [VB2 VB3]]]]; simpl; try lia.
  rewrite Evb. cbn [bind]. simpl in VB1, VB2.
  destruct (lo_rq _ HL (vcat va vb)) as [RvT [QvT [Er' [P1 [P2 [P3 [P4 P5]]]]]]]. rewrite Er'. cbn [bind].
  cbn [hcat vcat d_r d_c] in Q1, Q2, Q3, Q4, Q5, P1, P2, P3, P4, P5.
  rewrite X1, X2, Y2 in *. rewrite VA1, VA2, VB1 in *.
  destruct (mulF Ru RvT 1%r false false) as [M [EM [M1 [M2 M3]]]].
  { simpl. rewrite Q4, P1. congruence. }
  rewrite EM. cbn [bind]. unfold dR, dC in M1, M2, M3. simpl mop in M3.
  destruct (lo_svd _ HL M) as [U [Sm [V [Es [S1 [S2 [S3 [S4 [S5 [S6 [S7 S8]]]]]]]]]]]. rewrite Es. cbn [bind].
  set (ku := Nat.min (d_r (l_U a)) (d_c (l_S a) + d_c (l_S b))) in *.
  set (kv := Nat.min (d_r (l_V a) + d_r (l_V b)) (d_c (l_V a))) in *.
  rewrite M1, M2, Q3, P2 in *.
  assert (K : Nat.min ku kv = kmax). { unfold ku, kv, kmax. rewrite WA1, WA4, WA3, WB3. reflexivity. }
  rewrite K in *.
  set (r := if use_eps a then lp_rank L Sm (l_eps a) else l_rank a).
  assert (Hr : r <= kmax).
  { unfold r. destruct (use_eps a); auto. destruct (lo_rank _ HL Sm (l_eps a)); lia. }
  assert (FX : feq (d_r (l_U a)) (d_c (l_S a)) (d_e x) (mmul (d_c (l_U a)) (d_e (l_U a)) (d_e (l_S a)))).
  { intros i j _ _. rewrite (X3 i j). unfold madd, mscale. simpl. unfold mzero, dC. ring. }
  assert (FY : feq (d_r (l_U a)) (d_c (l_S b)) (d_e y) (mmul (d_c (l_U b)) (d_e (l_U b)) (d_e (l_S b)))).
  { intros i j _ _. rewrite (Y3 i j). unfold madd, mscale. simpl. unfold mzero, dC. ring. }
  destruct (truncate_spec a b r Qu U Sm V QvT kmax) as [c [Ec' HR]]; try exact S7; try congruence.
  - assert (ES : feq (l_r a) (l_c a) (madd (lr_ent a) (lr_ent b))
       (mmul (d_c (l_S a) + d_c (l_S b)) (d_e (hcat x y)) (d_e (vcat va vb)))).
    { intros i j Hi Hj. pose proof (cat_mul x y va vb i j ltac:(congruence)) as CM.
      rewrite X2, Y2 in CM. etransitivity; [|symmetry; exact CM]. unfold madd. f_equal.
      - unfold lr_ent. rewrite <- mmul_assoc. apply mmul_ext.
        + intros l Hl. symmetry. apply FX; auto. congruence.
        + intros l Hl. symmetry. apply VA3; simpl; congruence.
      - unfold lr_ent. rewrite <- mmul_assoc. apply mmul_ext.
        + intros l Hl. symmetry. apply FY; auto. congruence.
        + intros l Hl. symmetry. apply VB3; simpl; congruence. }
    intros i j Hi Hj. rewrite (ES i j Hi Hj). rewrite Q2, P3.
    transitivity (mmul (d_c (l_S a) + d_c (l_S b)) (mmul ku (d_e Qu) (d_e Ru)) (mmul kv (d_e RvT) (d_e QvT)) i j).
    + rewrite mmul_assoc. apply mmul_ext; auto. intros p Hp. rewrite <- mmul_assoc. apply mmul_ext; auto.
      intros q Hq. rewrite (S8 p q) by auto. rewrite (M3 p q), (meq_scale_1 _ p q). rewrite Q4. reflexivity.
    + apply mmul_ext.
      * intros l Hl. apply Q5; auto. congruence.
      * intros l Hl. apply P5; congruence.
  - exists c, r, (mmul (d_c Qu) (d_e Qu) (d_e U)), (d_e Sm), (mmul (d_r QvT) (d_e V) (d_e QvT)).
    split; auto. split; auto. split.
    { unfold r. destruct (use_eps a); auto. apply (lo_rank _ HL Sm (l_eps a)); lia. }
    split.
    2:{ exists M, U, Sm, V. split; auto. split; [congruence|]. split; [congruence|]. split; auto.
        intros He. unfold r. rewrite He. reflexivity. }
    intros HO. split.
    + apply orth_cols_mul.
      * pose proof (lh_qr _ HO _ _ _ Eq) as O. rewrite Q1, WA1 in O. exact O.
      * pose proof (proj1 (lh_svd _ HO _ _ _ _ Es)) as O. rewrite S1, S2 in O. rewrite Q2. exact O.
    + apply orth_rows_mul.
      * pose proof (proj2 (lh_svd _ HO _ _ _ _ Es)) as O. rewrite S5, S6 in O. rewrite P3. exact O.
      * pose proof (lh_rq _ HO _ _ _ Er') as O. rewrite P4, WA4 in O. exact O.
Qed.


Lemma rounded_ok (a b : lowrank) : lr_wf a -> lr_wf b -> l_r a = l_r b -> l_c a = l_c b ->
  let kmax := Nat.min (Nat.min (l_r a) (d_c (l_S a) + d_c (l_S b))) (Nat.min (d_c (l_S a) + d_c (l_S b)) (l_c a)) in
  (if use_eps a then 0 < kmax else l_rank a <= kmax) ->
  exists c r U Sm V, rounded_addition L a b = Ok c /\ rounds a b c r kmax U Sm V /\
    (if use_eps a then 0 < r else r = l_rank a) /\
    (lapack_orth L -> orth_cols (l_r a) kmax U /\ orth_rows kmax (l_c a) V).
Proof.
  intros WA WB Er Ec kmax Hk. destruct (rounded_full a b WA WB Er Ec Hk) as [c [r [U [Sm [V [E1 [E2 [E3 [E4 _]]]]]]]]].
  exists c, r, U, Sm, V. auto.
Qed.

(** [Uc Qu] keeps the scalar products of the columns of M, whose lower part is a product with Ru,
    as Qu Ru = Yu is orthogonal to the first columns. *)
Lemma fast_iso m n p q q2 (Uc M Yu Ru W : mat) :
  orth_cols m p Uc -> orth_cols m q (mwin 0 p Uc) -> feq m q2 (mmul q (mwin 0 p Uc) Ru) Yu ->
  feq p q2 (mmul m (mtr Uc) Yu) mzero -> feq q n (mwin p 0 M) (mmul q2 Ru W) ->
  feq n n (mmul m (mtr (mmul (p + q) Uc M)) (mmul (p + q) Uc M)) (mmul (p + q) (mtr M) M).
Proof.
  intros HU HQ HY HZ HB. set (Qu := mwin 0 p Uc) in *. set (B := mwin p 0 M) in *.
  assert (X : meq (mmul (p + q) Uc M) (madd (mmul p Uc M) (mmul q Qu B))).
  { intros i j. apply mmul_split. }
  assert (G : meq (mmul (p + q) (mtr M) M) (madd (mmul p (mtr M) M) (mmul q (mtr B) B))).
  { intros i j. unfold madd, mmul. rewrite sum_split. reflexivity. }
  rewrite X, G. rewrite meq_tr_add, meq_add_l, !meq_add_r.
  assert (T : feq m n (mmul q Qu B) (mmul q2 Yu W)).
  { eapply feq_trans; [apply mul_feq_r; exact HB|]. rewrite <- meq_assoc. apply mul_feq_l. exact HY. }
  assert (Z : feq n n (mmul m (mtr (mmul p Uc M)) (mmul q Qu B)) mzero).
  { eapply feq_trans; [apply mul_feq_r; exact T|]. rewrite meq_tr, meq_assoc.
    rewrite <- (meq_assoc m q2 (mtr Uc)). eapply feq_trans; [apply mul_feq_r; apply mul_feq_l; exact HZ|].
    rewrite meq_zero_l, meq_zero_r. apply feq_refl. }
  assert (Z' : feq n n (mmul m (mtr (mmul q Qu B)) (mmul p Uc M)) mzero).
  { intros i j Hi Hj. pose proof (Z j i Hj Hi) as E. unfold mzero in *. rewrite <- E. unfold mmul at 1, mtr. unfold mmul at 3. apply sum_ext.
    intros. ring. }
  assert (K : forall k (U V : mat), orth_cols m k U -> feq n n (mmul m (mtr (mmul k U V)) (mmul k U V)) (mmul k (mtr V) V)).
  { intros k U V HO. rewrite meq_tr, meq_assoc. rewrite <- (meq_assoc m k (mtr U)).
    apply mul_feq_r. eapply feq_trans; [apply mul_feq_l; exact HO|]. intros i j Hi Hj. apply mmul_id_l; auto. }
  intros i j Hi Hj. unfold madd. rewrite (K p Uc M HU i j Hi Hj), (K q Qu B HQ i j Hi Hj), (Z i j Hi Hj), (Z' i j Hi Hj).
  unfold mzero. ring.
Qed.

Lemma fast_algebra m n ra0 ra1 rb0 rb1 (Ua Sa Va Ub Sb Vb Zu Qu Ru Zv Rv Qv : mat) :
  feq m rb0 (madd (mmul ra0 Ua Zu) (mmul rb0 Qu Ru)) Ub ->
  feq rb1 n (madd (mmul ra1 Zv Va) (mmul rb1 Rv Qv)) Vb ->
  feq m n
    (madd (mmul ra0 Ua (madd (mmul ra1 (madd Sa (mmul rb1 (mmul rb0 Zu Sb) Zv)) Va)
                             (mmul rb1 (mmul rb1 (mmul rb0 Zu Sb) Rv) Qv)))
          (mmul rb0 Qu (madd (mmul ra1 (mmul rb1 (mmul rb0 Ru Sb) Zv) Va)
                             (mmul rb1 (mmul rb1 (mmul rb0 Ru Sb) Rv) Qv))))
    (madd (mmul ra0 Ua (mmul ra1 Sa Va)) (mmul rb0 Ub (mmul rb1 Sb Vb))).
Proof.
  intros HU HV.
  assert (E : forall Z : mat, meq (madd (mmul ra1 (mmul rb1 (mmul rb0 Z Sb) Zv) Va) (mmul rb1 (mmul rb1 (mmul rb0 Z Sb) Rv) Qv))
                      (mmul rb0 Z (mmul rb1 Sb (madd (mmul ra1 Zv Va) (mmul rb1 Rv Qv))))).
  { intros Z. rewrite !meq_assoc. rewrite meq_add_r. rewrite meq_add_r. reflexivity. }
  rewrite meq_add_l. rewrite <- meq_add_assoc. rewrite (E Zu), (E Ru).
  rewrite meq_add_r. rewrite <- meq_add_assoc.
  apply feq_add; [apply feq_refl|].
  rewrite <- !meq_assoc. rewrite <- meq_add_l, <- meq_add_l.
  apply feq_mul; [|apply HV].
  apply mul_feq_l. exact HU.
Qed.

Lemma hcat_mul (x y : dense) (g : mat) i j :
  mmul (d_c x + d_c y) (d_e (hcat x y)) g i j =
  (mmul (d_c x) (d_e x) g i j + mmul (d_c y) (d_e y) (mwin (d_c x) 0 g) i j)%r.
Proof.
  rewrite mmul_split. f_equal.
  - apply mmul_ext; auto. intros l Hl. simpl. apply Nat.ltb_lt in Hl. now rewrite Hl.
  - apply mmul_ext; auto. intros l Hl; unfold mwin; simpl.
    destruct (Nat.ltb_spec (d_c x + l) (d_c x)); [lia|]. f_equal. lia.
Qed.

Lemma fast_full (a b : lowrank) : lr_wf a -> lr_wf b -> l_r a = l_r b -> l_c a = l_c b ->
  use_eps a = false -> d_r (l_S b) <= l_r a -> d_c (l_S b) <= l_c a ->
  let kmax := Nat.min (d_r (l_S a) + d_r (l_S b)) (d_c (l_S a) + d_c (l_S b)) in
  l_rank a <= kmax ->
  exists c M Um Sm Vm Uc Vc, fast_rounded_addition L a b = Ok c /\
    rounds a b c (l_rank a) kmax (mmul (d_r M) Uc (d_e Um)) (d_e Sm) (mmul (d_c M) (d_e Vm) Vc) /\
    lp_svd L M = Ok (Um, Sm, Vm) /\ is_svd M Um Sm Vm /\ d_r M = d_r (l_S a) + d_r (l_S b) /\ d_c M = d_c (l_S a) + d_c (l_S b) /\
    feq (l_r a) (l_c a) (mmul (d_r M) Uc (mmul (d_c M) (d_e M) Vc)) (madd (lr_ent a) (lr_ent b)) /\
    (lapack_orth L -> orth_cols (l_r a) (d_r (l_S a)) (d_e (l_U a)) ->
      feq (d_c M) (d_c M) (mmul (l_r a) (mtr (mmul (d_r M) Uc (d_e M))) (mmul (d_r M) Uc (d_e M))) (mmul (d_r M) (mtr (d_e M)) (d_e M))) /\
    (lapack_orth L -> orth_rows (d_c (l_S a)) (l_c a) (d_e (l_V a)) ->
      feq (d_r M) (d_r M) (mmul (l_c a) (mmul (d_c M) (d_e M) Vc) (mtr (mmul (d_c M) (d_e M) Vc))) (mmul (d_c M) (d_e M) (mtr (d_e M)))) /\
    (exists Yu Qu Ru, lp_qr L Yu = Ok (Qu, Ru) /\ d_r Yu = l_r a /\ d_c Yu = d_r (l_S b) /\
      feq (l_r a) (d_r (l_S b)) (d_e Yu) (perp (l_r a) (d_r (l_S a)) (d_e (l_U a)) (d_e (l_U b))) /\
      Uc = d_e (hcat (l_U a) Qu)) /\
    (exists Yv Rv Qv, lp_rq L Yv = Ok (Rv, Qv) /\ d_r Yv = d_c (l_S b) /\ d_c Yv = l_c a /\
      feq (d_c (l_S b)) (l_c a) (d_e Yv) (mtr (perp (l_c a) (d_c (l_S a)) (mtr (d_e (l_V a))) (mtr (d_e (l_V b))))) /\
      Vc = d_e (vcat (l_V a) Qv)).
Proof.
  intros [WA1 [WA2 [WA3 WA4]]] [WB1 [WB2 [WB3 WB4]]] Er Ec He Hb0 Hb1 kmax Hk. unfold fast_rounded_addition.
  rewrite He.
  destruct (mulF (l_U a) (l_U b) 1%r true false) as [Zu [E1 [Z1 [Z2 Z3]]]]; [simpl; congruence|].
  rewrite E1. cbn [bind]. unfold dR, dC in Z1, Z2, Z3.
  destruct (gemmF (l_U a) Zu (l_U b) (- (1))%r 1%r false false) as [Yu [E2 [Y1 [Y2 Y3]]]]; try (simpl; congruence).
  rewrite E2. cbn [bind]. unfold dR, dC in Y1, Y2, Y3.
  destruct (lo_qr _ HL Yu) as [Qu [Ru [E3 [Q1 [Q2 [Q3 [Q4 Q5]]]]]]]. rewrite E3. cbn [bind].
  destruct (mulF (l_V b) (l_V a) 1%r false true) as [ZvT [E4 [T1 [T2 T3]]]]; [simpl; congruence|].
  rewrite E4. cbn [bind]. unfold dR, dC in T1, T2, T3.
  destruct (gemmF ZvT (l_V a) (l_V b) (- (1))%r 1%r false false) as [YvT [E5 [W1 [W2 W3]]]]; try (simpl; congruence).
  rewrite E5. cbn [bind]. unfold dR, dC in W1, W2, W3.
  destruct (lo_rq _ HL YvT) as [RvT [QvT [E6 [P1 [P2 [P3 [P4 P5]]]]]]]. rewrite E6. cbn [bind].
  rewrite Y1, Y2 in *. rewrite W1, W2 in *.
  assert (KU : Nat.min (d_r (l_U b)) (d_c (l_U b)) = d_r (l_S b)) by lia.
  assert (KV : Nat.min (d_r (l_V b)) (d_c (l_V b)) = d_c (l_S b)) by lia.
  rewrite KU in *. rewrite KV in *.
  destruct (mulF Zu (l_S b) 1%r false false) as [ZuSb [E7 [A1 [A2 A3]]]]; [simpl; congruence|].
  rewrite E7. cbn [bind]. unfold dR, dC in A1, A2, A3.
  destruct (mulF Ru (l_S b) 1%r false false) as [RuSb [E8 [B1 [B2 B3]]]]; [simpl; congruence|].
  rewrite E8. cbn [bind]. unfold dR, dC in B1, B2, B3.
  destruct (d_copy_to_spec (l_S a) (d_zeros (d_r (l_S a)) (d_c (l_S a))) 0 0) as [m0 [E9 [C1 [C2 C3]]]]; simpl; try lia.
  rewrite E9. cbn [bind]. simpl in C1, C2.
  destruct (gemmF ZuSb ZvT m0 1%r 1%r false false) as [m00 [E10 [D1 [D2 D3]]]]; try (simpl; congruence).
  rewrite E10. cbn [bind]. unfold dR, dC in D1, D2, D3.
  destruct (gemmF ZuSb RvT (d_zeros (d_r (l_S a)) (d_c (l_S b))) 1%r 0%r false false) as [m01 [E11 [F1 [F2 F3]]]]; try (simpl; congruence).
  rewrite E11. cbn [bind]. unfold dR, dC in F1, F2, F3.
  destruct (gemmF RuSb ZvT (d_zeros (d_r (l_S b)) (d_c (l_S a))) 1%r 0%r false false) as [m10 [E12 [G1 [G2 G3]]]]; try (simpl; congruence).
  rewrite E12. cbn [bind]. unfold dR, dC in G1, G2, G3.
  destruct (gemmF RuSb RvT (d_zeros (d_r (l_S b)) (d_c (l_S b))) 1%r 0%r false false) as [m11 [E13 [H1 [H2 H3]]]]; try (simpl; congruence).
  rewrite E13. cbn [bind]. unfold dR, dC in H1, H2, H3.
  destruct (lo_svd _ HL (vcat (hcat m00 m01) (hcat m10 m11))) as [U [Sm [V [E14 [S1 [S2 [S3 [S4 [S5 [S6 [S7 S8]]]]]]]]]]].
  rewrite E14. cbn [bind].
  cbn [d_zeros d_r d_c] in F1, F2, G1, G2, H1, H2.
  cbn [hcat vcat d_r d_c] in S1, S2, S3, S4, S5, S6, S7, S8.
  rewrite C1 in D1. rewrite C2 in D2.
  assert (KM : Nat.min (d_r m00 + d_r m10) (d_c m00 + d_c m01) = kmax) by (unfold kmax; congruence).
  rewrite KM in S2, S3, S4, S5, S7, S8.
  assert (FS : feq (l_r a) (l_c a) (mmul (d_c (l_U a) + d_c Qu) (d_e (hcat (l_U a) Qu))
      (mmul (d_r (l_V a) + d_r QvT) (d_e (vcat (hcat m00 m01) (hcat m10 m11))) (d_e (vcat (l_V a) QvT))))
      (madd (lr_ent a) (lr_ent b))).
  { intros i j Hi Hj.
    rewrite hcat_mul.
    assert (QA : feq (l_r a) (d_r (l_S b)) (madd (mmul (d_r (l_S a)) (d_e (l_U a)) (d_e Zu)) (mmul (d_r (l_S b)) (d_e Qu) (d_e Ru))) (d_e (l_U b))).
    { intros p q Hp Hq. unfold madd. rewrite (Q5 p q) by congruence. rewrite (Y3 p q). unfold madd, mscale. simpl. rewrite WA2. ring. }
    assert (QB : feq (d_c (l_S b)) (l_c a) (madd (mmul (d_c (l_S a)) (d_e ZvT) (d_e (l_V a))) (mmul (d_c (l_S b)) (d_e RvT) (d_e QvT))) (d_e (l_V b))).
    { intros p q Hp Hq. unfold madd. rewrite (P5 p q) by congruence. rewrite (W3 p q). unfold madd, mscale. simpl. rewrite T2, WA3. ring. }
    pose proof (fast_algebra (l_r a) (l_c a) (d_r (l_S a)) (d_c (l_S a)) (d_r (l_S b)) (d_c (l_S b))
       (d_e (l_U a)) (d_e (l_S a)) (d_e (l_V a)) (d_e (l_U b)) (d_e (l_S b)) (d_e (l_V b)) (d_e Zu) (d_e Qu) (d_e Ru) (d_e ZvT) (d_e RvT) (d_e QvT) QA QB i j Hi Hj) as FA.
    unfold lr_ent. rewrite WA2, WB2. etransitivity; [|exact FA]. clear FA. unfold madd at 1.
    rewrite WA2 in *. rewrite <- WA3 in *. rewrite Q2, P3.
    assert (EA : forall p q, d_e ZuSb p q = mmul (d_r (l_S b)) (d_e Zu) (d_e (l_S b)) p q).
    { intros p q. rewrite (A3 p q), (meq_scale_1 _ p q). rewrite Z2, WB2. reflexivity. }
    assert (EB : forall p q, d_e RuSb p q = mmul (d_r (l_S b)) (d_e Ru) (d_e (l_S b)) p q).
    { intros p q. rewrite (B3 p q), (meq_scale_1 _ p q). rewrite Q4, WB2. reflexivity. }
    f_equal.
    - apply mmul_ext; auto. intros x Hx.
      transitivity (mmul (d_c m00 + d_c m01) (d_e (hcat m00 m01)) (d_e (vcat (l_V a) QvT)) x j).
      { rewrite D2, F2. apply mmul_ext; auto. intros y Hy. cbn [vcat d_e hcat d_r]. rewrite D1.
        apply Nat.ltb_lt in Hx. now rewrite Hx. }
      rewrite cat_mul by congruence. rewrite D2, F2. unfold madd at 1. f_equal.
      + apply mmul_ext; auto. intros y Hy. rewrite (D3 x y). unfold madd, mscale. rewrite C3 by (simpl; auto).
        simpl mop. unfold mwin. simpl. rewrite A2. rewrite (mmul_ext _ (d_e ZuSb) (mmul (d_r (l_S b)) (d_e Zu) (d_e (l_S b))) (d_e ZvT) (d_e ZvT)) by auto. ring.
      + apply mmul_ext; auto. intros y Hy. rewrite (F3 x y). unfold madd, mscale. simpl. unfold mzero. rewrite A2.
        rewrite (mmul_ext _ (d_e ZuSb) (mmul (d_r (l_S b)) (d_e Zu) (d_e (l_S b))) (d_e RvT) (d_e RvT)) by auto. ring.
    - apply mmul_ext; auto. intros x Hx. unfold mwin. cbn [Nat.add].
      transitivity (mmul (d_c m10 + d_c m11) (d_e (hcat m10 m11)) (d_e (vcat (l_V a) QvT)) x j).
      { rewrite G2, H2. apply sum_ext. intros y Hy. cbn [vcat d_e hcat d_r]. rewrite D1.
        destruct (Nat.ltb_spec (d_r (l_S a) + x) (d_r (l_S a))); [lia|].
        replace (d_r (l_S a) + x - d_r (l_S a)) with x by lia. rewrite ?Nat.add_0_l. reflexivity. }
      rewrite cat_mul by congruence. rewrite G2, H2. unfold madd. f_equal.
      + apply mmul_ext; auto. intros y Hy. rewrite (G3 x y). unfold madd, mscale. simpl. unfold mzero. rewrite B2.
        rewrite (mmul_ext _ (d_e RuSb) (mmul (d_r (l_S b)) (d_e Ru) (d_e (l_S b))) (d_e ZvT) (d_e ZvT)) by auto. ring.
      + apply mmul_ext; auto. intros y Hy. rewrite (H3 x y). unfold madd, mscale. simpl. unfold mzero. rewrite B2.
        rewrite (mmul_ext _ (d_e RuSb) (mmul (d_r (l_S b)) (d_e Ru) (d_e (l_S b))) (d_e RvT) (d_e RvT)) by auto. ring. }
  destruct (truncate_spec a b (l_rank a) (hcat (l_U a) Qu) U Sm V (vcat (l_V a) QvT) kmax) as [c [Et HR]];
    try exact S7; cbn [hcat vcat d_r d_c]; try congruence.
  { eapply feq_trans; [|exact FS].
    intros i j Hi Hj. apply mmul_ext; auto. intros x Hx. apply mmul_ext; auto. intros y Hy.
    apply S8; try congruence; rewrite ?WA2, ?Q2, <- ?WA3, ?P3 in *; auto. }
  set (M := vcat (hcat m00 m01) (hcat m10 m11)) in *.
  assert (MR : d_r M = d_c (l_U a) + d_c Qu) by (unfold M; simpl; congruence).
  assert (MC : d_c M = d_r (l_V a) + d_r QvT) by (unfold M; simpl; congruence).
  exists c, M, U, Sm, V, (d_e (hcat (l_U a) Qu)), (d_e (vcat (l_V a) QvT)).
  split; [exact Et|]. rewrite MR, MC. split; [exact HR|]. split; [exact E14|]. split.
  { unfold is_svd. rewrite MR, MC. unfold M in S1, S2, S3, S4, S5, S6, S7, S8. cbn [hcat vcat d_r d_c] in *.
    replace (Nat.min (d_c (l_U a) + d_c Qu) (d_r (l_V a) + d_r QvT)) with kmax by (unfold kmax; rewrite WA2, <- WA3, Q2, P3; reflexivity).
    do 6 (split; [congruence|]). split; [exact S7|]. intros i j Hi Hj. apply S8; congruence. }
  split; [congruence|]. split; [congruence|].
  split; [exact FS|].
  assert (EB : forall p q, d_e RuSb p q = mmul (d_r (l_S b)) (d_e Ru) (d_e (l_S b)) p q).
  { intros p q. rewrite (B3 p q), (meq_scale_1 _ p q). rewrite Q4, WB2. reflexivity. }
  assert (EY : forall x j, d_e Yu x j = perp (l_r a) (d_r (l_S a)) (d_e (l_U a)) (d_e (l_U b)) x j).
  { intros x j. rewrite (Y3 x j). unfold madd, mscale, perp, msub. cbn [mop]. rewrite WA2.
    rewrite (mmul_ext (d_r (l_S a)) (d_e (l_U a)) (d_e (l_U a)) (d_e Zu) (mmul (l_r a) (mtr (d_e (l_U a))) (d_e (l_U b))) x j); auto.
    { ring. }
    intros y Hy. rewrite (Z3 y j), (meq_scale_1 _ y j). cbn [mop]. rewrite WA1. reflexivity. }
  assert (EYv : forall j x, d_e YvT j x = perp (l_c a) (d_c (l_S a)) (mtr (d_e (l_V a))) (mtr (d_e (l_V b))) x j).
  { intros j x. rewrite (W3 j x). unfold madd, mscale, perp, msub. cbn [mop]. rewrite T2.
    unfold mmul at 1. rewrite <- WA3.
    rewrite (sum_ext (d_c (l_S a)) _ (fun y => (mtr (d_e (l_V a)) x y * mmul (l_c a) (mtr (mtr (d_e (l_V a)))) (mtr (d_e (l_V b))) y j)%r)).
    { unfold mmul. change (mtr (d_e (l_V b)) x j) with (d_e (l_V b) j x). ring. }
    intros y Hy. rewrite (T3 j y), (meq_scale_1 _ j y). cbn [mop]. rewrite WB4, <- Ec.
    unfold mtr at 2. match goal with |- (?u * ?v)%r = _ => transitivity (v * u)%r; [ring|] end. f_equal. unfold mmul, mtr. apply sum_ext. intros z Hz. ring. }
  split; [|split; [|split]].
  4:{ exists YvT, RvT, QvT. split; auto. split; [congruence|]. split; [congruence|]. split; auto. intros j x _ _. apply EYv. }
  3:{ exists Yu, Qu, Ru. split; auto. split; [congruence|]. split; [congruence|]. split; auto. intros x j _ _. apply EY. }
  - intros HO OA.
    apply (fast_iso _ _ _ _ (d_c (l_U b)) _ _ (d_e Yu) (d_e Ru)
      (mmul (d_c (l_S b)) (d_e (l_S b)) (fun i j => if j <? d_c (l_S a) then d_e ZvT i j else d_e RvT i (j - d_c (l_S a))))).
    + rewrite WA2. intros i j Hi Hj. rewrite <- (OA i j Hi Hj). unfold mmul, mtr. apply sum_ext. intros x Hx.
      cbn [hcat d_e]. rewrite WA2. apply Nat.ltb_lt in Hi, Hj. now rewrite Hi, Hj.
    + pose proof (lh_qr _ HO _ _ _ E3) as O. rewrite Q1, WB1, <- Er in O. intros i j Hi Hj. rewrite <- (O i j Hi Hj).
      unfold mmul, mtr. apply sum_ext. intros x Hx. unfold mwin. cbn [hcat d_e].
      destruct (Nat.ltb_spec (d_c (l_U a) + i) (d_c (l_U a))); [lia|]. destruct (Nat.ltb_spec (d_c (l_U a) + j) (d_c (l_U a))); [lia|].
      do 2 f_equal; lia.
    + rewrite Q2. intros i j Hi Hj. rewrite <- (Q5 i j) by congruence. apply mmul_ext; auto. intros x Hx.
      unfold mwin. cbn [hcat d_e]. destruct (Nat.ltb_spec (d_c (l_U a) + x) (d_c (l_U a))); [lia|]. f_equal; lia.
    + rewrite WA2. eapply feq_trans; [|apply (perp_zero (l_r a) _ _ (d_e (l_U a)) (d_e (l_U b)) OA)].
      intros i j Hi Hj. unfold mmul at 1. unfold mmul at 1. apply sum_ext. intros x Hx. unfold mtr. cbn [hcat d_e].
      rewrite WA2. apply Nat.ltb_lt in Hi. rewrite Hi. f_equal. apply EY.
    + intros i j Hi Hj. unfold mwin, M. cbn [vcat d_e hcat d_r]. rewrite D1, WA2.
      destruct (Nat.ltb_spec (d_r (l_S a) + i) (d_r (l_S a))); [lia|]. rewrite Nat.add_0_l, G2.
      replace (d_r (l_S a) + i - d_r (l_S a)) with i by lia.
      rewrite <- mmul_assoc. unfold mmul at 1.
      destruct (Nat.ltb_spec j (d_c (l_S a))).
      * rewrite (G3 i j). unfold madd, mscale. cbn [d_zeros d_e mop]. unfold mzero. rewrite B2. unfold mmul at 1.
        rewrite (sum_ext _ _ (fun l => (mmul (d_c (l_U b)) (d_e Ru) (d_e (l_S b)) i l * d_e ZvT l j)%r)); [ring|].
        intros l Hl. rewrite EB, WB2. reflexivity.
      * rewrite (H3 i (j - d_c (l_S a))). unfold madd, mscale. cbn [d_zeros d_e mop]. unfold mzero. rewrite B2. unfold mmul at 1.
        rewrite (sum_ext _ _ (fun l => (mmul (d_c (l_U b)) (d_e Ru) (d_e (l_S b)) i l * d_e RvT l (j - d_c (l_S a))%nat)%r)); [ring|].
        intros l Hl. rewrite EB, WB2. reflexivity.
  - intros HO OA. rewrite meq_tr.
    assert (T : meq (mmul (d_r (l_V a) + d_r QvT) (d_e M) (d_e (vcat (l_V a) QvT)))
                    (mtr (mmul (d_r (l_V a) + d_r QvT) (mtr (d_e (vcat (l_V a) QvT))) (mtr (d_e M))))).
    { rewrite meq_tr, !meq_tr_tr. reflexivity. }
    rewrite T.
    assert (TM : meq (mmul (d_r (l_V a) + d_r QvT) (d_e M) (mtr (d_e M))) (mmul (d_r (l_V a) + d_r QvT) (mtr (mtr (d_e M))) (mtr (d_e M)))).
    { rewrite meq_tr_tr. reflexivity. }
    rewrite TM.
    apply (fast_iso _ _ _ _ (d_r (l_V b)) _ _ (mtr (d_e YvT)) (mtr (d_e RvT))
      (fun l i => if i <? d_r (l_S a) then d_e ZuSb i l else d_e RuSb (i - d_r (l_S a)) l)).
    + rewrite <- WA3. intros i j Hi Hj. rewrite <- (OA i j Hi Hj). unfold mmul, mtr. apply sum_ext. intros x Hx.
      cbn [vcat d_e]. rewrite <- WA3. apply Nat.ltb_lt in Hi, Hj. now rewrite Hi, Hj.
    + pose proof (lh_rq _ HO _ _ _ E6) as O. rewrite P4, WB4, <- Ec in O. intros i j Hi Hj. rewrite <- (O i j Hi Hj).
      unfold mmul, mtr. apply sum_ext. intros x Hx. unfold mwin. cbn [vcat d_e].
      destruct (Nat.ltb_spec (d_r (l_V a) + i) (d_r (l_V a))); [lia|]. destruct (Nat.ltb_spec (d_r (l_V a) + j) (d_r (l_V a))); [lia|].
      do 2 f_equal; lia.
    + rewrite P3. intros i j Hi Hj. unfold mtr at 3. rewrite <- (P5 j i) by congruence. unfold mmul, mtr. apply sum_ext. intros x Hx.
      unfold mwin. cbn [vcat d_e]. destruct (Nat.ltb_spec (d_r (l_V a) + x) (d_r (l_V a))); [lia|].
      replace (d_r (l_V a) + x - d_r (l_V a)) with x by lia. rewrite Nat.add_0_l. ring.
    + rewrite <- WA3. apply orth_rows_cols in OA.
      eapply feq_trans; [|apply (perp_zero (l_c a) _ _ (mtr (d_e (l_V a))) (mtr (d_e (l_V b))) OA)].
      intros i j Hi Hj. unfold mmul at 1. unfold mmul at 1. apply sum_ext. intros x Hx. unfold mtr at 1 2 4 5. cbn [vcat d_e].
      rewrite <- WA3. apply Nat.ltb_lt in Hi. rewrite Hi. f_equal.
      unfold mtr at 1. apply EYv.
    + intros i j Hi Hj. unfold mwin, M, mtr. cbn [vcat d_e hcat d_r]. rewrite D1, D2, G2, <- WA3. rewrite !Nat.add_0_l.
      destruct (Nat.ltb_spec (d_c (l_S a) + i) (d_c (l_S a))); [lia|].
      replace (d_c (l_S a) + i - d_c (l_S a)) with i by lia. unfold mmul.
      destruct (Nat.ltb_spec j (d_r (l_S a))).
      * rewrite (F3 j i). unfold madd, mscale. cbn [d_zeros d_e mop]. unfold mzero. rewrite A2. unfold mmul.
        rewrite (sum_ext _ _ (fun l => (d_e RvT l i * d_e ZuSb j l)%r)); [rewrite <- WB3; ring|]. intros l Hl. ring.
      * rewrite (H3 (j - d_r (l_S a)) i). unfold madd, mscale. cbn [d_zeros d_e mop]. unfold mzero. rewrite B2. unfold mmul.
        rewrite (sum_ext _ _ (fun l => (d_e RvT l i * d_e RuSb (j - d_r (l_S a))%nat l)%r)); [rewrite <- WB3; ring|]. intros l Hl. ring.
Qed.



Lemma fast_ok (a b : lowrank) : lr_wf a -> lr_wf b -> l_r a = l_r b -> l_c a = l_c b ->
  use_eps a = false -> d_r (l_S b) <= l_r a -> d_c (l_S b) <= l_c a ->
  let kmax := Nat.min (d_r (l_S a) + d_r (l_S b)) (d_c (l_S a) + d_c (l_S b)) in
  l_rank a <= kmax ->
  exists c U Sm V, fast_rounded_addition L a b = Ok c /\ rounds a b c (l_rank a) kmax U Sm V.
Proof.
  intros WA WB Er Ec He Hb0 Hb1 kmax Hk.
  destruct (fast_full a b WA WB Er Ec He Hb0 Hb1 Hk) as [c [M [Um [Sm [Vm [Uc [Vc [E [HR _]]]]]]]]].
  exists c. do 3 eexists. split; [exact E|exact HR].
Qed.



(** * Naive addition *)

Lemma densify_hcat (x y : dense) : d_r x = d_r y ->
  exists d, densify (of_blocks [[MD x; MD y]]) = Ok d /\ d_r d = d_r x /\ d_c d = d_c x + d_c y /\
    feq (d_r d) (d_c d) (d_e d) (d_e (hcat x y)).
Proof.
  intros E. destruct (densify_spec (of_blocks [[MD x; MD y]])) as [d [E1 [E2 [E3 E4]]]].
  { simpl. split; [lia|]. split; [lia|]. intros i j Hi Hj.
    destruct i as [|i]; [|lia]. destruct j as [|[|j]]; [| |lia]; unfold bheight, bwidth; simpl; auto. }
  exists d. split; auto. simpl in E2, E3. split; auto. split; auto.
  rewrite E2, E3. intros i j Hi Hj. rewrite E4 by (simpl; lia). simpl.
  apply Nat.ltb_lt in Hi. rewrite Hi. simpl.
  destruct (Nat.ltb_spec j (d_c x)) as [Hj1|Hj1]; simpl; auto.
  destruct (Nat.ltb_spec (j - d_c x) (d_c y)); [|lia]. simpl. reflexivity.
Qed.

Lemma densify_vcat (x y : dense) : d_c x = d_c y ->
  exists d, densify (of_blocks [[MD x]; [MD y]]) = Ok d /\ d_r d = d_r x + d_r y /\ d_c d = d_c x /\
    feq (d_r d) (d_c d) (d_e d) (d_e (vcat x y)).
Proof.
  intros E. destruct (densify_spec (of_blocks [[MD x]; [MD y]])) as [d [E1 [E2 [E3 E4]]]].
  { simpl. split; [lia|]. split; [lia|]. intros i j Hi Hj.
    destruct j as [|j]; [|lia]. destruct i as [|[|i]]; [| |lia]; unfold bheight, bwidth; simpl; auto. }
  exists d. split; auto. simpl in E2, E3. split; auto. split; auto.
  rewrite E2, E3. intros i j Hi Hj. rewrite E4 by (simpl; lia). simpl.
  apply Nat.ltb_lt in Hj. rewrite Hj. simpl.
  destruct (Nat.ltb_spec i (d_r x)) as [Hj1|Hj1]; simpl; auto.
  destruct (Nat.ltb_spec (i - d_r x) (d_r y)); [|lia]. simpl. reflexivity.
Qed.

Lemma densify_diag2 (x y : dense) :
  exists d, densify (of_blocks [[MD x; MD (d_zeros (d_r x) (d_c y))]; [MD (d_zeros (d_r y) (d_c x)); MD y]]) = Ok d /\
    d_r d = d_r x + d_r y /\ d_c d = d_c x + d_c y /\
    feq (d_r d) (d_c d) (d_e d)
      (fun i j => if i <? d_r x then (if j <? d_c x then d_e x i j else 0%r)
                  else (if j <? d_c x then 0%r else d_e y (i - d_r x) (j - d_c x))).
Proof.
  set (A := of_blocks _). destruct (densify_spec A) as [d [E1 [E2 [E3 E4]]]].
  { simpl. split; [lia|]. split; [lia|]. intros i j Hi Hj.
    destruct i as [|[|i]]; [| |lia]; (destruct j as [|[|j]]; [| |lia]); unfold bheight, bwidth; simpl; auto. }
  exists d. split; auto. simpl in E2, E3. split; auto. split; auto.
  rewrite E2, E3. intros i j Hi Hj. rewrite E4 by (simpl; lia). simpl.
  destruct (Nat.ltb_spec i (d_r x)) as [Hi1|Hi1], (Nat.ltb_spec j (d_c x)) as [Hj1|Hj1]; simpl; auto.
  - destruct (Nat.ltb_spec (j - d_c x) (d_c y)); [|lia]. simpl. reflexivity.
  - destruct (Nat.ltb_spec (i - d_r x) (d_r y)); [|lia]. simpl. reflexivity.
  - destruct (Nat.ltb_spec (i - d_r x) (d_r y)); [|lia]. simpl. 
    destruct (Nat.ltb_spec (j - d_c x) (d_c y)); [|lia]. simpl. reflexivity.
Qed.

Variable compress : dense -> nat -> outcome lowrank.

(** The middle factor is square and of the stored rank. *)
Definition square_rank (a : lowrank) : Prop := d_r (l_S a) = l_rank a /\ d_c (l_S a) = l_rank a.

Lemma naive_below (a b : lowrank) : lr_wf a -> lr_wf b -> l_r a = l_r b -> l_c a = l_c b ->
  square_rank a -> square_rank b -> l_rank a + l_rank b < l_r a -> l_rank a + l_rank b < l_c a ->
  exists c, naive_addition compress a b = Ok c /\ lr_wf c /\ l_r c = l_r a /\ l_c c = l_c a /\
    l_rank c = l_rank a + l_rank b /\ square_rank c /\ l_eps c = l_eps a /\
    feq (l_r a) (l_c a) (lr_ent c) (madd (lr_ent a) (lr_ent b)).
Proof.
  intros [WA1 [WA2 [WA3 WA4]]] [WB1 [WB2 [WB3 WB4]]] Er Ec [QA1 QA2] [QB1 QB2] H1 H2. unfold naive_addition.
  destruct (Nat.leb_spec (Nat.min (l_r a) (l_c a)) (l_rank a + l_rank b)); [lia|].
  destruct (densify_hcat (l_U a) (l_U b)) as [U [EU [U1 [U2 U3]]]]; [congruence|].
  rewrite EU. cbn [bind].
  destruct (densify_diag2 (l_S a) (l_S b)) as [Sm [ES [S1 [S2 S3]]]].
  rewrite QA1, QB1, QA2, QB2 in ES.
  rewrite ES. cbn [bind].
  destruct (densify_vcat (l_V a) (l_V b)) as [V [EV [V1 [V2 V3]]]]; [congruence|].
  rewrite EV. cbn [bind].
  eexists. split; [reflexivity|]. unfold lr_wf, square_rank. cbn [l_r l_c l_rank l_eps l_U l_S l_V].
  repeat (split; [solve [congruence | lia | repeat split; congruence]|]).
  intros i j Hi Hj. unfold lr_ent. cbn [l_U l_S l_V]. rewrite U2, S2.
  transitivity (mmul (d_c (l_U a) + d_c (l_U b)) (d_e (hcat (l_U a) (l_U b)))
      (mmul (d_r (l_V a) + d_r (l_V b))
       (fun i j => if i <? d_r (l_S a) then (if j <? d_c (l_S a) then d_e (l_S a) i j else 0%r)
                  else (if j <? d_c (l_S a) then 0%r else d_e (l_S b) (i - d_r (l_S a)) (j - d_c (l_S a))))
       (d_e (vcat (l_V a) (l_V b)))) i j).
  { apply mmul_ext.
    - intros x Hx. apply U3; congruence.
    - intros x Hx. rewrite <- WA3, <- WB3. apply mmul_ext; intros y Hy.
      + apply S3; [|congruence]. rewrite S1. congruence.
      + apply V3; congruence. }
  rewrite hcat_mul. unfold madd. f_equal; apply mmul_ext; auto.
  - intros x Hx. rewrite mmul_split.
    rewrite WA2 in Hx. apply Nat.ltb_lt in Hx.
    transitivity (mmul (d_c (l_S a)) (d_e (l_S a)) (d_e (l_V a)) x j + 0)%r; [|ring]. f_equal.
    + rewrite <- WA3. apply mmul_ext; intros y Hy; cbn [vcat d_e]; rewrite ?Hx.
      * apply Nat.ltb_lt in Hy. now rewrite Hy.
      * rewrite <- WA3. apply Nat.ltb_lt in Hy. now rewrite Hy.
    + unfold mmul. apply sum_zero'. intros y Hy. unfold mwin. cbn [Nat.add]. rewrite Hx. rewrite <- WA3.
      destruct (Nat.ltb_spec (d_c (l_S a) + y) (d_c (l_S a))); [lia|]. ring.
  - intros x Hx. unfold mwin at 1. cbn [Nat.add]. rewrite mmul_split.
    assert (Hx' : d_c (l_U a) + x <? d_r (l_S a) = false) by (apply Nat.ltb_ge; lia).
    transitivity (0 + mmul (d_c (l_S b)) (d_e (l_S b)) (d_e (l_V b)) x j)%r; [|ring]. f_equal.
    + unfold mmul. apply sum_zero'. intros y Hy. cbv beta. rewrite Hx'. rewrite <- WA3 in Hy.
      apply Nat.ltb_lt in Hy. rewrite Hy. ring.
    + rewrite <- WB3. unfold mmul. apply sum_ext. intros y Hy. unfold mwin; cbn [vcat d_e Nat.add].
      rewrite Hx'. rewrite <- WA3. destruct (Nat.ltb_spec (d_c (l_S a) + y) (d_c (l_S a))); [lia|].
      f_equal; f_equal; lia.
Qed.

Lemma naive_full (a b : lowrank) : lr_wf a -> lr_wf b -> l_r a = l_r b -> l_c a = l_c b ->
  (l_r a <= l_rank a + l_rank b \/ l_c a <= l_rank a + l_rank b) ->
  exists s, d_r s = l_r a /\ d_c s = l_c a /\ feq (l_r a) (l_c a) (d_e s) (madd (lr_ent a) (lr_ent b)) /\
    naive_addition compress a b = compress s (l_rank a).
Proof.
  intros WA WB Er Ec H. unfold naive_addition.
  destruct (Nat.leb_spec (Nat.min (l_r a) (l_c a)) (l_rank a + l_rank b)); [|lia].
  destruct (densify_spec (ML a)) as [x [E1 [X1 [X2 X3]]]]; [exact WA|].
  destruct (densify_spec (ML b)) as [y [E2 [Y1 [Y2 Y3]]]]; [exact WB|].
  rewrite E1, E2. cbn [bind]. simpl in X1, X2, X3, Y1, Y2, Y3.
  destruct (d_plus_spec x y) as [s [E3 [S1 [S2 S3]]]]; try congruence.
  exists s. rewrite E3. cbn [bind]. repeat split; try congruence.
  intros i j Hi Hj. rewrite S3 by congruence. unfold madd. rewrite X3, Y3 by congruence. reflexivity.
Qed.


Lemma naive_rank (a b c : lowrank) : lr_wf a -> lr_wf b -> l_r a = l_r b -> l_c a = l_c b ->
  square_rank a -> square_rank b -> (forall d r x, compress d r = Ok x -> l_rank x = r) ->
  naive_addition compress a b = Ok c ->
  l_rank c = if l_rank a + l_rank b <? Nat.min (l_r a) (l_c a) then l_rank a + l_rank b else l_rank a.
Proof.
  intros WA WB Er Ec QA QB HC E. destruct (Nat.ltb_spec (l_rank a + l_rank b) (Nat.min (l_r a) (l_c a))).
  - destruct (naive_below a b) as [c' [E' [_ [_ [_ [E3 _]]]]]]; auto; try lia. rewrite E' in E. inversion E. congruence.
  - destruct (naive_full a b) as [s [_ [_ [_ E']]]]; auto; [lia|]. rewrite E' in E. eapply HC; eauto.
Qed.

(** * The rounded result, error part *)
Lemma rounded_error (a b : lowrank) : lr_wf a -> lr_wf b -> l_r a = l_r b -> l_c a = l_c b ->
  let kmax := Nat.min (Nat.min (l_r a) (d_c (l_S a) + d_c (l_S b))) (Nat.min (d_c (l_S a) + d_c (l_S b)) (l_c a)) in
  (if use_eps a then 0 < kmax else l_rank a <= kmax) -> lapack_orth L ->
  exists c Sm, rounded_addition L a b = Ok c /\ diagonal kmax Sm /\
    feq (l_rank c) (l_rank c) (d_e (l_S c)) Sm /\
    sumsq (l_r a) (l_c a) (msub (madd (lr_ent a) (lr_ent b)) (lr_ent c)) =
    sum (kmax - l_rank c) (fun i => (Sm (l_rank c + i)%nat (l_rank c + i)%nat * Sm (l_rank c + i)%nat (l_rank c + i)%nat)%r).
Proof.
  intros WA WB Er Ec kmax Hk HO.
  destruct (rounded_ok a b WA WB Er Ec Hk) as [c [r [U [Sm [V [E [HR [_ HO']]]]]]]]. fold kmax in HR, HO'.
  destruct (HO' HO) as [OU OV]. exists c, Sm. split; auto.
  destruct HR as [_ [_ [_ [Hr [_ [_ [_ [Hle [HD [_ [_ [FS [_ F]]]]]]]]]]]]].
  rewrite Hr. split; auto. split; auto.
  rewrite <- (dropped_norm (l_r a) (l_c a) r kmax U Sm V) by auto.
  apply sumsq_ext. intros i j Hi Hj. unfold msub. rewrite <- (F i j Hi Hj). unfold madd. ring.
Qed.

(** * The addition selected by the setting *)

(** What an addition may lose. *)
Definition loses (a b c : lowrank) (e : mat) : Prop :=
  feq (l_r a) (l_c a) e mzero \/
  (exists r k U Sm V, r = l_rank c /\ r <= k /\ diagonal k Sm /\ e = dropped r k U Sm V /\
     feq (l_r a) (l_c a) (mmul k U (mmul k Sm V)) (madd (lr_ent a) (lr_ent b))) \/
  (exists s, d_r s = l_r a /\ d_c s = l_c a /\ feq (l_r a) (l_c a) (d_e s) (madd (lr_ent a) (lr_ent b)) /\
     compress s (l_rank a) = Ok c /\ e = msub (d_e s) (lr_ent c)).

Definition adds (a b c : lowrank) : Prop :=
  lr_wf c /\ l_r c = l_r a /\ l_c c = l_c a /\
  exists e, loses a b c e /\ feq (l_r a) (l_c a) (madd (lr_ent c) e) (madd (lr_ent a) (lr_ent b)).

(** Ranks that fit the dimensions. *)
Definition fits (a : lowrank) : Prop := lr_wf a /\ square_rank a /\ 0 < l_rank a /\ l_rank a <= l_r a /\ l_rank a <= l_c a.

Lemma rounds_adds a b c r k U Sm V : rounds a b c r k U Sm V -> adds a b c.
Proof.
  intros [H1 [H2 [H3 [H4 [H5 [H6 [H7 [H8 [H9 [H10 [H11 [H12 [H13 H14]]]]]]]]]]]]].
  split; auto. split; auto. split; auto. exists (dropped r k U Sm V). split; auto.
  right; left. exists r, k, U, Sm, V. auto.
Qed.

Lemma lr_addition_adds setting (a b : lowrank) : fits a -> fits b -> l_r a = l_r b -> l_c a = l_c b ->
  (forall d r, r <= d_r d -> r <= d_c d -> exists c, compress d r = Ok c /\ lr_wf c /\ l_r c = d_r d /\ l_c c = d_c d) ->
  exists c, lr_addition L compress setting a b = Ok c /\ adds a b c.
Proof.
  intros [WA [[QA1 QA2] [PA [RA1 RA2]]]] [WB [[QB1 QB2] [PB [RB1 RB2]]]] Er Ec HC. unfold lr_addition.
  destruct (String.eqb setting "naive").
  - destruct (Nat.ltb_spec (l_rank a + l_rank b) (Nat.min (l_r a) (l_c a))).
    + destruct (naive_below a b) as [c [E [W [E1 [E2 [E3 [_ [_ F]]]]]]]]; auto; try (split; auto); try lia.
      exists c. split; auto. split; auto. split; auto. split; auto. exists mzero. split; [left; apply feq_refl|].
      intros i j Hi Hj. rewrite <- F by auto. unfold madd, mzero. ring.
    + destruct (naive_full a b) as [s [S1 [S2 [F E]]]]; auto; [lia|].
      destruct (HC s (l_rank a)) as [c [E' [W [E1 E2]]]]; try lia.
      exists c. rewrite E. split; auto. split; auto. split; [congruence|]. split; [congruence|].
      exists (msub (d_e s) (lr_ent c)). split.
      * right; right. exists s. auto.
      * intros i j Hi Hj. rewrite <- F by auto. unfold madd, msub. ring.
  - assert (HR : exists c, rounded_addition L a b = Ok c /\ adds a b c).
    { destruct (rounded_ok a b) as [c [r [U [Sm [V [E [HR _]]]]]]]; auto.
      - destruct (use_eps a); lia.
      - exists c. split; auto. eapply rounds_adds; eauto. }
    destruct (String.eqb setting "rounded_addition"); auto.
    destruct (use_eps a) eqn:He.
    + unfold fast_rounded_addition. rewrite He. exact HR.
    + destruct (fast_ok a b) as [c [U [Sm [V [E H]]]]]; auto; try lia.
      exists c. split; auto. eapply rounds_adds; eauto.
Qed.

(** If nothing is lost, the sum is represented. *)
Lemma adds_exact (a b c : lowrank) (e : mat) :
  feq (l_r a) (l_c a) (madd (lr_ent c) e) (madd (lr_ent a) (lr_ent b)) ->
  feq (l_r a) (l_c a) e mzero ->
  feq (l_r a) (l_c a) (lr_ent c) (madd (lr_ent a) (lr_ent b)).
Proof.
  intros F H i j Hi Hj. rewrite <- F by auto. unfold madd. rewrite (H i j Hi Hj). unfold mzero. ring.
Qed.

Lemma lr_addition_sum setting (a b : lowrank) : fits a -> fits b -> l_r a = l_r b -> l_c a = l_c b ->
  (forall d r, r <= d_r d -> r <= d_c d -> exists c, compress d r = Ok c /\ lr_wf c /\ l_r c = d_r d /\ l_c c = d_c d) ->
  exists c e, lr_addition L compress setting a b = Ok c /\ lr_wf c /\ l_r c = l_r a /\ l_c c = l_c a /\
    loses a b c e /\ feq (l_r a) (l_c a) (madd (lr_ent c) e) (madd (lr_ent a) (lr_ent b)) /\
    (feq (l_r a) (l_c a) e mzero -> feq (l_r a) (l_c a) (lr_ent c) (madd (lr_ent a) (lr_ent b))).
Proof.
  intros FA FB Er Ec HC. destruct (lr_addition_adds setting a b FA FB Er Ec HC) as [c [E [W [E1 [E2 [e [He F]]]]]]].
  exists c, e. repeat (split; [assumption|]). intros Hz. eapply adds_exact; eauto.
Qed.

End Proofs.
