(** Blocked Householder QR and the multiplication by its Q always return, if the tile
    kernels and the low-rank arithmetic do. *)
From Coq Require Import List Arith ZArith QArith Lia Bool Ring_theory Ring Setoid Morphisms.
From Verif Require Import Prelude Ring MatFun MatSetoid Matrix MatOps MatSpec MatOpsProofs Lapack Gemm GemmSpec GemmProofs
  GemmCorrect GemmTheorems Triangular TriAlgebra TriSpec TriProofs TriTheorems Reflect ReflectSpec ReflectProofs ReflectTile
  ReflectSuccess QrBig QrTiled QrStep QrApply QrTheorems QrSuccess Mgs MgsProofs Blocked BlockedProofs BlockedQr.
Import ListNotations.
Local Open Scope nat_scope.

Lemma collectv_all {A} (d : A) n f : (forall i, i < n -> exists a, f i = Ok a) -> exists v, collectv d n f = Ok v.
Proof. intros H. unfold collectv. rewrite check_ok_all by auto. simpl. eauto. Qed.

Section Success.
Context {R : cring}.
Notation dense := (dense R).
Notation lowrank := (lowrank R).
Notation matrix := (matrix R).
Notation mat := (mat R).
Notation grid := (grid R).
Variable Or : oracles R.
Hypothesis HS : oracles_shape Or.
Hypothesis HT : oracles_total Or.
Hypothesis HO : oracles_near exact Or.
Variable p : nat.
Variable h : nat -> nat.
Notation cblocks := (cblocks p h).
Notation bvectors := (bvectors p h).

Lemma right_factor_succ (A : matrix) : wf A -> flat A -> exists r, right_factor A = Ok r.
Proof.
  intros W F. destruct A as [d|l|? ? ?|? ?]; try destruct F; cbn [right_factor]; eauto.
  destruct W as [W1 [W2 [W3 W4]]]. apply (dd_mul_ok (l_S l) (l_V l) 1%r false false). exact W3.
Qed.
Lemma set_right_succ (A : matrix) s : flat A -> exists x, set_right_factor A s = Ok x.
Proof. intros F. destruct A; try destruct F; cbn [set_right_factor]; eauto. Qed.

Lemma apply_col_succ k n c tr y t (a : nat -> matrix) : bvectors k n y t -> cblocks False k c a ->
  exists a', apply_col Or p k tr y t a = Ok a'.
Proof.
  intros [Hk [Hn [[v EV] [[td ET] [T1 [T2 HY]]]]]] HA. unfold apply_col. rewrite (proj2 (Nat.ltb_lt k p) Hk).
  destruct (HA k (Nat.le_refl k) Hk) as [WK [FK [K1 [K2 _]]]].
  destruct (HY k (Nat.le_refl k) Hk) as [WYK [_ [YK1 [YK2 _]]]].
  assert (HTr : forall i, i < p - k -> exists B, transpose (y (k + i)) = Ok B /\ wf B /\ flat B /\ nrows B = n /\ ncols B = h (k + i)).
  { intros i Hi. destruct (HY (k + i) ltac:(lia) ltac:(lia)) as [WY [FY [Y1 [Y2 _]]]].
    destruct (transpose_spec (y (k + i)) WY) as [B [E [WT [NT [R1 [R2 RE]]]]]].
    { destruct (y (k + i)); simpl in *; tauto. }
    exists B. split; auto. split; auto. split; [|split; congruence].
    destruct (y (k + i)) as [d|l|? ? ?|? ?]; try destruct FY; injection E as <-; exact I. }
  destruct (collectv_all (ME 0 0) (p - k) (fun i => transpose (y (k + i)))) as [yt Hyt].
  { intros i Hi. destruct (HTr i Hi) as [B [E _]]. eauto. }
  rewrite Hyt. cbn [bind]. pose proof (collectv_spec _ _ _ _ Hyt) as EY. cbv beta in EY. rewrite EV in *. cbn [nrows ncols] in YK1, YK2.
  destruct (trmm_flat_ok Or v (a k) Lower true true 1%r FK WK) as [c1 H1]; try congruence. rewrite H1. cbn [bind].
  apply (trmm_exact Or 1 HO) in H1; auto; [|simpl; congruence|simpl; congruence].
  destruct H1 as [W1 [L1 _]]. destruct (layout_dims_flat _ _ FK L1) as [D1 D2]. assert (F1 := flat_layout _ _ L1 FK).
  destruct (for_loop_inv (p - S k) (fun i c => gemm Or 1 (yt (S i)) (a (S k + i)) c 1%r 1%r false false) c1
    (fun _ d => wf d /\ flat d /\ nrows d = n /\ ncols d = c)) as [c2 [H2 [W2 [F2 [D3 D4]]]]].
  { repeat split; auto; congruence. }
  { intros i d Hi [I1 [I2 [I3 I4]]]. assert (Hb : S k + i < p) by lia.
    destruct (HA (S k + i) ltac:(lia) Hb) as [WB [FB [B1 [B2 _]]]].
    destruct (HTr (S i) ltac:(lia)) as [B [E [WT [FT [R1 R2]]]]].
    rewrite (EY (S i) ltac:(lia)) in E. injection E as E. rewrite E. replace (k + S i) with (S k + i) in R2 by lia.
    destruct (gemm_flat_ok Or HS HT B (a (S k + i)) d 1%r 1%r false false) as [d' Hd]; auto; unfold opr, opc; try congruence.
    exists d'. split; auto. apply (gemm_exact Or HO) in Hd; auto; [|apply trans_ok_notrans].
    destruct Hd as [G1 [G2 _]]. destruct (layout_dims_flat _ _ I2 G2) as [G4 G5]. assert (G6 := flat_layout _ _ G2 I2).
    repeat split; auto; congruence. }
  rewrite H2. cbn [bind]. rewrite ET in *. cbn [nrows ncols] in T1, T2.
  destruct (trmm_flat_ok Or td c2 Upper tr false 1%r F2 W2) as [c3 H3]; try congruence. rewrite H3. cbn [bind].
  apply (trmm_exact Or 1 HO) in H3; auto; [|apply andb_false_r|simpl; congruence|simpl; congruence].
  destruct H3 as [W3 [L3 _]]. destruct (layout_dims_flat _ _ F2 L3) as [D5 D6]. assert (F3 := flat_layout _ _ L3 F2).
  destruct (for_loop_inv (p - k) (fun i a => if i =? 0 then
        let* c' := trmm Or 1 false 1 (MD v) c3 SLeft Lower false true 1%r in
        let* x := gemm Or 1 (MD (eye (nrows c'))) c' (a k) (- (1))%r 1%r false false in
        Ok (vupd a k x)
      else
        let* x := gemm Or 1 (y (k + i)) c3 (a (k + i)) (- (1))%r 1%r false false in
        Ok (vupd a (k + i) x)) a (fun u b => forall i, k + u <= i -> b i = a i)) as [a' [H4 _]].
  { auto. }
  { intros i b Hi HB. destruct (Nat.eqb_spec i 0) as [->|Ni].
    - rewrite Nat.add_0_r in HB. rewrite HB by lia.
      destruct (trmm_flat_ok Or v c3 Lower false true 1%r F3 W3) as [c4 H4]; try congruence. rewrite H4. cbn [bind].
      apply (trmm_exact Or 1 HO) in H4; auto; [|simpl; congruence|simpl; congruence].
      destruct H4 as [W4 [L4 _]]. destruct (layout_dims_flat _ _ F3 L4) as [D7 D8]. assert (F4 := flat_layout _ _ L4 F3).
      destruct (gemm_flat_ok Or HS HT (MD (eye (nrows c4))) c4 (a k) (- (1))%r 1%r false false) as [x Hx]; auto; try exact I;
        unfold opr, opc; cbn [nrows ncols eye d_r d_c]; try congruence.
      rewrite Hx. cbn [bind]. eexists. split; [reflexivity|]. intros i Hi'. unfold vupd. destruct (Nat.eqb_spec i k); [lia|]. apply HB. lia.
    - rewrite HB by lia. destruct (HY (k + i) ltac:(lia) ltac:(lia)) as [WY [FY [Y1 [Y2 _]]]].
      destruct (HA (k + i) ltac:(lia) ltac:(lia)) as [WB [FB [B1 [B2 _]]]].
      destruct (gemm_flat_ok Or HS HT (y (k + i)) c3 (a (k + i)) (- (1))%r 1%r false false) as [x Hx]; auto; unfold opr, opc; try congruence.
      rewrite Hx. cbn [bind]. eexists. split; [reflexivity|]. intros i' Hi'. unfold vupd. destruct (Nat.eqb_spec i' (k + i)); [lia|]. apply HB. lia. }
  exists a'. exact H4.
Qed.

Variable K : qrt R.
Hypothesis HK : qrt_ok K.
Hypothesis HKT : qrt_total K.

Lemma geqrt_succ' (a : dense) : exists x y, geqrt K (MD a) (MD (d_zeros (d_c a) (d_c a))) = Ok (MD x, MD y) /\ d_r x = d_r a /\ d_c x = d_c a.
Proof.
  destruct (Nat.le_gt_cases (d_c a) (d_r a)) as [L|L].
  - destruct (geqrt_succ K HK HKT a (d_zeros (d_c a) (d_c a))) as [x [y [H I]]]; auto. exists x, y. split; auto.
    destruct I as [I1 [I2 _]]. auto.
  - exists a, (d_zeros (d_c a) (d_c a)). split; auto. unfold geqrt. cbn [d_zeros d_r d_c]. rewrite !Nat.eqb_refl.
    rewrite (proj2 (Nat.ltb_lt _ _) L). reflexivity.
Qed.

Lemma tri_col_succ k n (a : nat -> matrix) : k < p -> cblocks True k n a -> exists a' t, tri_col K p k a = Ok (a', t).
Proof.
  intros Hk HA. unfold tri_col. rewrite (proj2 (Nat.ltb_lt k p) Hk). set (m := p - k) in *.
  assert (HB : forall i, i < m -> wf (a (k + i)) /\ flat (a (k + i)) /\ nrows (a (k + i)) = h (k + i) /\ ncols (a (k + i)) = n /\ orthU (a (k + i))).
  { intros i Hi. destruct (HA (k + i) ltac:(lia) ltac:(lia)) as [X1 [X2 [X3 [X4 X5]]]]. repeat (split; auto). }
  destruct (collectv_all (d_zeros 0 0) m (fun i => right_factor (a (k + i)))) as [r Hr].
  { intros i Hi. destruct (HB i Hi) as [X1 [X2 _]]. apply right_factor_succ; auto. }
  rewrite Hr. cbn [bind]. pose proof (collectv_spec _ _ _ _ Hr) as HF. cbv beta in HF.
  assert (RC : forall i, i < m -> d_c (r i) = n).
  { intros i Hi. destruct (HB i Hi) as [X1 [X2 [X3 [X4 X5]]]].
    destruct (block_factor _ _ X1 X5 (HF i Hi)) as [X6 _]. congruence. }
  assert (WD : wf (MH m 1 (fun i _ => MD (r i)))).
  { simpl. split; [lia|]. split; [lia|]. intros i j Hi Hj. split; [exact I|]. split; auto. rewrite !RC by lia. reflexivity. }
  destruct (densify_spec _ WD) as [D [ED [D1 [D2 _]]]]. rewrite ED. cbn [bind].
  assert (C1 : ncols (MH m 1 (fun i _ => MD (r i))) = n). { simpl. rewrite RC by lia. lia. }
  rewrite C1 in D2. change (nrows (MH m 1 (fun i _ => MD (r i)))) with (offs (fun b => d_r (r b)) m) in D1.
  destruct (geqrt_succ' D) as [x [t [HG [G1 G2]]]]. rewrite HG. cbn [bind].
  destruct (collectv_all (d_zeros 0 0) m (fun i => assert! d_c x =? d_c (r i) in
    d_copy_to x (d_zeros (d_r (r i)) (d_c (r i))) (offs (fun b => d_r (r b)) i) 0)) as [s Hs].
  { intros i Hi. rewrite RC by auto. rewrite G2, D2, Nat.eqb_refl.
    pose proof (offs_lt (fun b => d_r (r b)) i m Hi) as Q. cbv beta in Q.
    destruct (d_copy_to_spec x (d_zeros (d_r (r i)) n) (offs (fun b => d_r (r b)) i) 0) as [C [EC _]]; eauto;
      cbn [d_zeros d_r d_c]; lia. }
  rewrite Hs. cbn [bind].
  destruct (for_loop_inv m (fun i c => let* z := set_right_factor (c (k + i)) (s i) in Ok (vupd c (k + i) z)) a
    (fun u c => forall i, k + u <= i -> c i = a i)) as [a' [E _]]; auto.
  { intros i c Hi HC. rewrite HC by lia. destruct (HB i Hi) as [_ [X2 _]]. destruct (set_right_succ _ (s i) X2) as [z Hz].
    rewrite Hz. cbn [bind]. eexists. split; [reflexivity|]. intros i' Hi'. unfold vupd. destruct (Nat.eqb_spec i' (k + i)); [lia|]. apply HC. lia. }
  rewrite E. cbn [bind]. eauto.
Qed.

Variable q : nat.
Variable w : nat -> nat.
Hypothesis HU : keeps_orthU Or.
Notation btiles := (btiles p q h).
Notation ddiag := (ddiag p q).

Lemma block_apply_succ cw k tr (Y T C : grid) j : j < q -> bvectors k (w k) (fun i => Y i k) (T k 0) -> btiles False cw C ->
  exists C', block_apply Or p k tr Y T C j = Ok C'.
Proof.
  intros Hj HV HC. unfold block_apply.
  destruct (apply_col_succ k (w k) (cw j) tr (fun i => Y i k) (T k 0) (fun i => C i j) HV) as [a Ha]; [apply (btiles_col p q h); auto|].
  rewrite Ha. simpl. eauto.
Qed.

Theorem blocked_qr_succ (A T : grid) : q <= p -> (forall k, k < q -> k < p -> h k = w k) -> btiles True w A -> ddiag A ->
  exists A' T', blocked_qr Or K p q A q 1 T = Ok (A', T').
Proof.
  intros Hqp SQ HA HD. unfold blocked_qr. rewrite !Nat.eqb_refl.
  destruct (for_loop_inv q (fun k s =>
    let* s := block_tri K p k s in
    let* A := for_loop (q - S k) (fun t A => block_apply Or p k true A (snd s) A (S k + t)) (fst s) in
    Ok (A, snd s)) (A, T) (fun _ s => btiles True w (fst s) /\ ddiag (fst s))) as [[A' T'] [E _]].
  - cbn [fst]. auto.
  - intros n [B U] Hn [I1 I2]. cbn [fst snd] in *. assert (Hp : n < p) by lia. unfold block_tri. cbn [fst snd].
    destruct (tri_col_succ n (w n) (fun i => B i n) Hp) as [a [t Hta]]; [apply (btiles_col p q h); auto|].
    rewrite Hta. cbn [bind fst snd]. destruct (I2 n Hn Hp) as [d0 Ed].
    destruct (tri_col_ok K HK p h n (w n) (fun i => B i n) a t) as [T1 [T2 [T3 _]]]; eauto; [apply (btiles_col p q h); auto|].
    set (B1 := set_col B n a) in *. set (U1 := bupd U n 0 t) in *.
    assert (ES : forall i, B1 i n = a i) by (intros i; unfold B1, set_col; rewrite Nat.eqb_refl; reflexivity).
    assert (EO : forall i j, j <> n -> B1 i j = B i j).
    { intros i j Ne. unfold B1, set_col. destruct (Nat.eqb_spec j n); [congruence|reflexivity]. }
    assert (EU : U1 n 0 = t) by apply bupd_same.
    assert (BT1 : btiles True w B1).
    { intros i j Hi Hj. destruct (Nat.eq_dec j n) as [->|Ne]; [|rewrite EO by auto; apply I1; auto].
      rewrite ES. destruct (Nat.lt_ge_cases i n); [rewrite T3 by auto; apply I1; auto|]. apply T2; auto. }
    assert (BD1 : ddiag B1).
    { intros k Hk Hkp. destruct (Nat.eq_dec k n) as [->|Ne]; [|rewrite EO by auto; apply I2; auto].
      rewrite ES. destruct T1 as [_ [_ [T1 _]]]. exact T1. }
    destruct (for_loop_inv (q - S n) (fun t A => block_apply Or p n true A U1 A (S n + t)) B1
      (fun u D => btiles True w D /\ ddiag D /\ (forall i, D i n = B1 i n))) as [B2 [HL [J1 [J2 _]]]].
    + auto.
    + intros u D Hu [J1 [J2 J3]]. rewrite <- EU in T1.
      assert (VD : bvectors n (w n) (fun i => D i n) (U1 n 0)).
      { eapply bvectors_cong; [|exact T1]. intros i. cbv beta. rewrite J3. apply ES. }
      destruct (block_apply_succ w n true D U1 D (S n + u) ltac:(lia) VD) as [D' HD']; [eapply btiles_weaken; [|exact J1]; tauto|].
      exists D'. split; auto.
      apply (block_apply_ok Or HO p q h w True w n true) in HD'; auto; [|lia].
      destruct HD' as [L1 [L2 [L3 _]]]. split; auto. split.
      * intros k Hk Hkp. destruct (J2 k Hk Hkp) as [d Hd]. destruct (Nat.eq_dec k (S n + u)) as [E|Ne].
        -- rewrite <- E in L3. specialize (L3 k Hkp). rewrite Hd in L3. destruct (D' k k); simpl in L3; try tauto. eauto.
        -- rewrite L2 by auto. eauto.
      * intros i. rewrite L2 by lia. apply J3.
    + rewrite HL. cbn [bind]. eexists. split; [reflexivity|]. cbn [fst]. auto.
  - eauto.
Qed.

Theorem blocked_apply_succ cw (Y T C : grid) tr : (forall k, k < q -> bvectors k (w k) (fun i => Y i k) (T k 0)) ->
  btiles False cw C -> exists C', blocked_apply Or p q Y T p C tr = Ok C'.
Proof.
  intros HV HC. unfold blocked_apply.
  assert (CL : forall k D, k < q -> btiles False cw D ->
    exists D', for_loop (q - k) (fun t C => assert! p =? p in block_apply Or p k tr Y T C (k + t)) D = Ok D' /\ btiles False cw D').
  { intros k D Hk HD. apply (for_loop_inv _ _ _ (fun _ E => btiles False cw E)); auto.
    intros u E Hu HE. rewrite Nat.eqb_refl. destruct (block_apply_succ cw k tr Y T E (k + u) ltac:(lia) (HV k Hk) HE) as [E' X].
    exists E'. split; auto. apply (block_apply_ok Or HO p q h w False cw k tr) in X; auto; try lia; try tauto. }
  destruct tr.
  - destruct (for_loop_inv q (fun k C => for_loop (q - k) (fun t C => assert! p =? p in block_apply Or p k true Y T C (k + t)) C) C
      (fun _ D => btiles False cw D)) as [D [E _]]; auto. eauto.
  - destruct (for_loop_inv q (fun k' C => (fun k C => for_loop (q - k) (fun t C => assert! p =? p in block_apply Or p k false Y T C (k + t)) C) (q - 1 - k') C) C
      (fun _ D => btiles False cw D)) as [D [E _]]; auto.
    { intros k' D Hk HD. apply CL; auto. lia. }
    eauto.
Qed.
End Success.
