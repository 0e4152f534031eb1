(** Tiled and blocked Householder QR of Dense tiles do not use the low-rank arithmetic. *)
From Coq Require Import List Arith ZArith QArith Lia Bool.
From Verif Require Import Prelude Ring MatFun Matrix MatOps MatSpec MatOpsProofs Lapack Gemm GemmSpec GemmProofs Triangular Reflect ReflectSpec QrTiled Mgs MgsProofs Blocked.
Import ListNotations.
Local Open Scope nat_scope.

Lemma for_loop_same {St} n (f g : nat -> St -> outcome St) s (Inv : St -> Prop) : Inv s ->
  (forall i s, i < n -> Inv s -> f i s = g i s /\ forall s', f i s = Ok s' -> Inv s') ->
  for_loop n f s = for_loop n g s /\ forall s', for_loop n f s = Ok s' -> Inv s'.
Proof.
  intros H0 H. induction n as [|n IH]; simpl.
  - split; auto. intros s' E. injection E as <-. exact H0.
  - destruct IH as [E I]; [intros; apply H; auto|]. rewrite <- E. destruct (for_loop n f s) as [s1| | | |] eqn:E1; simpl; try (split; [reflexivity|discriminate]).
    apply H; auto.
Qed.

Section Dense.
Context {R : cring}.
Notation dense := (dense R).
Notation matrix := (matrix R).
Notation grid := (grid R).
Variables Or Or' : oracles R.
Variable K : qrt R.
Variables p q : nat.

Definition is_dense (A : matrix) : Prop := exists d, A = MD d.
Definition all_dense (A : grid) : Prop := forall i j, i < p -> j < q -> is_dense (A i j).

(** From the diagonal down. *)
Definition low_dense (A : grid) : Prop := forall i j, i < p -> j < q -> j <= i -> is_dense (A i j).

Lemma low_dense_upd A i j x : low_dense A -> is_dense x -> low_dense (bupd A i j x).
Proof.
  intros H Hx a b Ha Hb. destruct (Nat.eq_dec a i) as [->|]; [destruct (Nat.eq_dec b j) as [->|]|].
  - rewrite bupd_same. auto.
  - rewrite bupd_other by auto. auto.
  - rewrite bupd_other by auto. auto.
Qed.

Lemma all_dense_upd A i j x : all_dense A -> is_dense x -> all_dense (bupd A i j x).
Proof.
  intros H Hx a b Ha Hb. destruct (Nat.eq_dec a i) as [->|]; [destruct (Nat.eq_dec b j) as [->|]|].
  - rewrite bupd_same. exact Hx.
  - rewrite bupd_other by auto. auto.
  - rewrite bupd_other by auto. auto.
Qed.

Lemma larfb_dense V T C tr x : is_dense C -> larfb V T C tr = Ok x -> is_dense x.
Proof.
  intros [c ->] H. destruct V, T; try discriminate. simpl in H. apply bind_Ok in H. destruct H as [y [_ H]]. injection H as <-.
  eexists. reflexivity.
Qed.
Lemma tiled_larfb_dense k tr from Y T C C' : k < p -> all_dense C -> tiled_larfb q k tr from Y T C = Ok C' -> all_dense C'.
Proof.
  intros Hk HC H. unfold tiled_larfb in H. apply (for_loop_inv_out _ _ _ _ (fun _ D => all_dense D)) in H; auto.
  intros t D D' Ht HD E. apply bind_Ok in E. destruct E as [x [Hx E]]. injection E as <-. apply all_dense_upd; auto.
  apply larfb_dense in Hx; auto. apply HD; auto. lia.
Qed.

Lemma tiled_tpmqrt_dense k i tr from (Y T C : grid) : k < p -> i < p -> is_dense (Y i k) -> is_dense (T i k) -> all_dense C ->
  tiled_tpmqrt Or q k i tr from Y T C = tiled_tpmqrt Or' q k i tr from Y T C /\
  forall C', tiled_tpmqrt Or q k i tr from Y T C = Ok C' -> all_dense C'.
Proof.
  intros Hk Hi [v EV] [t ET] HC. unfold tiled_tpmqrt. apply (for_loop_same _ _ _ _ all_dense); auto.
  intros u D Hu HD. destruct (HD k (from + u) Hk ltac:(lia)) as [a EA]. destruct (HD i (from + u) Hi ltac:(lia)) as [b EB].
  rewrite EV, ET, EA, EB. split; [reflexivity|]. intros D' E. apply bind_Ok in E. destruct E as [[x y] [Hx E]]. injection E as <-.
  unfold tpmqrt in Hx. apply bind_Ok in Hx. destruct Hx as [[x' y'] [_ Hx]]. injection Hx as <- <-.
  apply all_dense_upd; [apply all_dense_upd; auto|]; eexists; reflexivity.
Qed.

Lemma geqrt_dense A T x y : is_dense A -> is_dense T -> geqrt K A T = Ok (x, y) -> is_dense x /\ is_dense y.
Proof.
  intros [a ->] [t ->] H. unfold geqrt in H. apply assert_Ok in H. destruct H as [_ H]. apply assert_Ok in H. destruct H as [_ H].
  destruct (d_r a <? d_c a).
  - injection H as <- <-. split; eexists; reflexivity.
  - apply bind_Ok in H. destruct H as [[x' y'] [_ H]]. injection H as <- <-. split; eexists; reflexivity.
Qed.
Lemma tpqrt_dense A B T x v y : is_dense A -> is_dense B -> is_dense T -> tpqrt K A B T = Ok (x, v, y) -> is_dense x /\ is_dense v /\ is_dense y.
Proof.
  intros [a ->] [b ->] [t ->] H. unfold tpqrt in H. apply bind_Ok in H. destruct H as [[[x' v'] y'] [_ H]]. injection H as <- <- <-.
  repeat split; eexists; reflexivity.
Qed.

Lemma tiled_step_dense k s : k < q -> all_dense (fst s) -> low_dense (snd s) ->
  tiled_step Or K p q k s = tiled_step Or' K p q k s /\
  forall s', tiled_step Or K p q k s = Ok s' -> all_dense (fst s') /\ low_dense (snd s').
Proof.
  intros Hq HA HT. unfold tiled_step. destruct (Nat.ltb_spec k p) as [Hk|]; [|split; [reflexivity|discriminate]].
  destruct (geqrt K (fst s k k) (snd s k k)) as [[x y]| | | |] eqn:EG; cbn [bind]; try (split; [reflexivity|discriminate]).
  apply geqrt_dense in EG; auto. destruct EG as [Dx Dy].
  destruct (tiled_larfb q k true (S k) (bupd (fst s) k k x) (bupd (snd s) k k y) (bupd (fst s) k k x)) as [A1| | | |] eqn:EL;
    cbn [bind]; try (split; [reflexivity|discriminate]).
  apply tiled_larfb_dense in EL; auto; [|apply all_dense_upd; auto].
  apply (for_loop_same _ _ _ _ (fun s => all_dense (fst s) /\ low_dense (snd s))).
  - cbn [fst snd]. split; auto. apply low_dense_upd; auto.
  - intros t [B U] Ht [HB HU]. cbn [fst snd] in *. cbv zeta. set (i := S k + t) in *. assert (Hi : i < p) by lia.
    destruct (tpqrt K (B k k) (B i k) (U i k)) as [[[x1 v1] y1]| | | |] eqn:EP; cbn [bind]; try (split; [reflexivity|discriminate]).
    apply tpqrt_dense in EP; auto; [|apply HU; lia]. destruct EP as [D1 [D2 D3]].
    assert (DB : all_dense (bupd (bupd B k k x1) i k v1)) by (apply all_dense_upd; [apply all_dense_upd; auto|auto]).
    assert (DU : low_dense (bupd U i k y1)) by (apply low_dense_upd; auto).
    destruct (tiled_tpmqrt_dense k i true (S k) (bupd (bupd B k k x1) i k v1) (bupd U i k y1) (bupd (bupd B k k x1) i k v1)) as [E I]; auto; [apply DU; lia|].
    rewrite <- E. split; [reflexivity|]. intros s' H. apply bind_Ok in H. destruct H as [A2 [H2 H]]. injection H as <-. cbn [fst snd]. auto.
Qed.

Theorem tiled_qr_dense A T pt qt : all_dense A -> low_dense T ->
  tiled_qr Or K p q A pt qt T = tiled_qr Or' K p q A pt qt T /\
  forall s, tiled_qr Or K p q A pt qt T = Ok s -> all_dense (fst s) /\ low_dense (snd s).
Proof.
  intros HA HT. unfold tiled_qr. destruct (pt =? p); [|split; [reflexivity|discriminate]].
  destruct (qt =? q); [|split; [reflexivity|discriminate]].
  apply (for_loop_same _ _ _ _ (fun s => all_dense (fst s) /\ low_dense (snd s))); [auto|].
  intros k s Hk [H1 H2]. apply tiled_step_dense; auto.
Qed.

Theorem tiled_apply_dense Y T C tr : all_dense Y -> low_dense T -> all_dense C ->
  tiled_apply Or p q Y T C tr = tiled_apply Or' p q Y T C tr.
Proof.
  intros HY HT HC. unfold tiled_apply. destruct (Nat.leb_spec q p) as [L|]; auto. destruct tr.
  - apply (for_loop_same _ _ _ _ all_dense); auto. intros k D Hk HD. assert (Hp : k < p) by lia.
    destruct (tiled_larfb q k true k Y T D) as [D1| | | |] eqn:EL; cbn [bind]; try (split; [reflexivity|discriminate]).
    apply tiled_larfb_dense in EL; auto. apply (for_loop_same _ _ _ _ all_dense); auto.
    intros t E Ht HE. apply tiled_tpmqrt_dense; auto; try lia; [apply HY|apply HT]; lia.
  - apply (for_loop_same _ _ _ _ all_dense); auto. intros k' D Hk HD. set (k := q - 1 - k') in *. assert (Hp : k < p) by lia.
    assert (Hkq : k < q) by lia.
    destruct (for_loop_same (p - S k) (fun t C => tiled_tpmqrt Or q k (p - 1 - t) false k Y T C)
      (fun t C => tiled_tpmqrt Or' q k (p - 1 - t) false k Y T C) D all_dense) as [E I]; auto.
    { intros t E Ht HE. apply tiled_tpmqrt_dense; auto; try lia; [apply HY|apply HT]; lia. }
    rewrite <- E. split; [reflexivity|]. intros D' H. apply bind_Ok in H. destruct H as [D1 [H1 H]].
    apply tiled_larfb_dense in H; auto.
Qed.

(** ** Blocked *)

Definition col_dense (a : nat -> matrix) : Prop := forall i, i < p -> is_dense (a i).

Lemma col_dense_upd a i x : col_dense a -> is_dense x -> col_dense (vupd a i x).
Proof. intros H Hx j Hj. unfold vupd. destruct (j =? i); auto. Qed.

Lemma gemm_dense a b c alpha beta tA tB : gemm Or 1 (MD a) (MD b) (MD c) alpha beta tA tB = gemm Or' 1 (MD a) (MD b) (MD c) alpha beta tA tB.
Proof. reflexivity. Qed.
Lemma gemm_out a b c alpha beta tA tB x : gemm Or 1 (MD a) (MD b) (MD c) alpha beta tA tB = Ok x -> is_dense x.
Proof.
  intros H. unfold gemm in H. cbn [gemm_pair fst] in H. unfold gemm_step in H.
  repeat (apply assert_Ok in H; destruct H as [_ H]). unfold opr, opc in *. cbv beta iota in H.
  apply bind_Ok in H. destruct H as [y [_ H]]. injection H as <-. eexists. reflexivity.
Qed.
Lemma trmm_out a c u tr un alpha x : trmm Or 1 false 1 (MD a) (MD c) SLeft u tr un alpha = Ok x -> is_dense x.
Proof.
  intros H. cbn [trmm] in H. repeat (apply assert_Ok in H; destruct H as [_ H]). apply bind_Ok in H. destruct H as [y [_ H]]. injection H as <-.
  eexists. reflexivity.
Qed.

Lemma apply_col_dense k tr y t a : is_dense t -> col_dense y -> col_dense a ->
  apply_col Or p k tr y t a = apply_col Or' p k tr y t a /\
  forall a', apply_col Or p k tr y t a = Ok a' -> col_dense a'.
Proof.
  intros [td ->] HY HA. unfold apply_col. destruct (Nat.ltb_spec k p) as [Hk|]; [|split; [reflexivity|discriminate]].
  destruct (collectv (ME 0 0) (p - k) (fun i => transpose (y (k + i)))) as [yt| | | |] eqn:EY; cbn [bind]; try (split; [reflexivity|discriminate]).
  pose proof (collectv_spec _ _ _ _ EY) as HT. cbv beta in HT.
  assert (DT : forall i, i < p - k -> is_dense (yt i)).
  { intros i Hi. specialize (HT i Hi). destruct (HY (k + i) ltac:(lia)) as [d Ed]. rewrite Ed in HT. injection HT as <-. eexists. reflexivity. }
  destruct (HY k Hk) as [v EV]. destruct (HA k Hk) as [ak EA]. rewrite EV, EA.
  change (trmm Or' 1 false 1 (MD v) (MD ak) SLeft Lower true true 1%r) with (trmm Or 1 false 1 (MD v) (MD ak) SLeft Lower true true 1%r).
  destruct (trmm Or 1 false 1 (MD v) (MD ak) SLeft Lower true true 1%r) as [c1| | | |] eqn:E1; cbn [bind]; try (split; [reflexivity|discriminate]).
  apply trmm_out in E1.
  destruct (for_loop_same (p - S k) (fun i c => gemm Or 1 (yt (S i)) (a (S k + i)) c 1%r 1%r false false)
    (fun i c => gemm Or' 1 (yt (S i)) (a (S k + i)) c 1%r 1%r false false) c1 is_dense) as [E I]; auto.
  { intros i c Hi [d ->]. destruct (DT (S i) ltac:(lia)) as [u ->]. destruct (HA (S k + i) ltac:(lia)) as [b ->].
    split; [reflexivity|]. intros s'. apply gemm_out. }
  rewrite <- E. destruct (for_loop (p - S k) (fun i c => gemm Or 1 (yt (S i)) (a (S k + i)) c 1%r 1%r false false) c1) as [c2| | | |];
    cbn [bind]; try (split; [reflexivity|discriminate]).
  destruct (I c2 eq_refl) as [d2 ->].
  change (trmm Or' 1 false 1 (MD td) (MD d2) SLeft Upper tr false 1%r) with (trmm Or 1 false 1 (MD td) (MD d2) SLeft Upper tr false 1%r).
  destruct (trmm Or 1 false 1 (MD td) (MD d2) SLeft Upper tr false 1%r) as [c3| | | |] eqn:E3; cbn [bind]; try (split; [reflexivity|discriminate]).
  apply trmm_out in E3. destruct E3 as [d3 ->].
  apply (for_loop_same _ _ _ _ col_dense); auto.
  intros i b Hi HB. destruct (i =? 0).
  - change (trmm Or' 1 false 1 (MD v) (MD d3) SLeft Lower false true 1%r) with (trmm Or 1 false 1 (MD v) (MD d3) SLeft Lower false true 1%r).
    destruct (trmm Or 1 false 1 (MD v) (MD d3) SLeft Lower false true 1%r) as [c4| | | |] eqn:E4; cbn [bind]; try (split; [reflexivity|discriminate]).
    apply trmm_out in E4. destruct E4 as [d4 ->]. destruct (HB k Hk) as [bk ->]. split; [reflexivity|].
    intros a' H. apply bind_Ok in H. destruct H as [x [Hx H]]. injection H as <-. apply col_dense_upd; auto. eapply gemm_out; exact Hx.
  - destruct (HY (k + i) ltac:(lia)) as [yi ->]. destruct (HB (k + i) ltac:(lia)) as [bi ->]. split; [reflexivity|].
    intros a' H. apply bind_Ok in H. destruct H as [x [Hx H]]. injection H as <-. apply col_dense_upd; auto. eapply gemm_out; exact Hx.
Qed.

Lemma tri_col_dense k a a' t : col_dense a -> tri_col K p k a = Ok (a', t) -> col_dense a' /\ is_dense t.
Proof.
  intros HA H. unfold tri_col in H. destruct (Nat.ltb_spec k p) as [Hk|]; [|discriminate].
  apply bind_Ok in H. destruct H as [r [Hr H]]. apply bind_Ok in H. destruct H as [D [HD H]].
  apply bind_Ok in H. destruct H as [[x t'] [HG H]]. apply geqrt_dense in HG; try (eexists; reflexivity). destruct HG as [[x' ->] Dt].
  apply bind_Ok in H. destruct H as [s [Hs H]]. apply bind_Ok in H. destruct H as [b [Hb H]]. injection H as -> ->. split; auto.
  apply (for_loop_inv_out _ _ _ _ (fun _ c => col_dense c)) in Hb; auto.
  intros i c c' Hi HC E. apply bind_Ok in E. destruct E as [m [Hm E]]. injection E as <-. apply col_dense_upd; auto.
  destruct (HC (k + i) ltac:(lia)) as [d Ed]. rewrite Ed in Hm. injection Hm as <-. eexists. reflexivity.
Qed.

Lemma set_col_dense A j c : all_dense A -> col_dense c -> all_dense (set_col A j c).
Proof. intros HA HC a b Ha Hb. unfold set_col. destruct (b =? j); auto. Qed.

Lemma block_apply_dense k tr (Y T C : grid) j : is_dense (T k 0) -> k < q -> j < q -> all_dense Y -> all_dense C ->
  block_apply Or p k tr Y T C j = block_apply Or' p k tr Y T C j /\
  forall C', block_apply Or p k tr Y T C j = Ok C' -> all_dense C'.
Proof.
  intros DT Hk Hj HY HC. unfold block_apply.
  destruct (apply_col_dense k tr (fun i => Y i k) (T k 0) (fun i => C i j)) as [E I]; auto; try (intros i Hi; auto).
  rewrite <- E. split; [reflexivity|]. intros C' H. apply bind_Ok in H. destruct H as [a [Ha H]]. injection H as <-.
  apply set_col_dense; auto.
Qed.

Theorem blocked_qr_dense A pt qt T : all_dense A ->
  blocked_qr Or K p q A pt qt T = blocked_qr Or' K p q A pt qt T /\
  forall s, blocked_qr Or K p q A pt qt T = Ok s -> all_dense (fst s).
Proof.
  intros HA. unfold blocked_qr. destruct (pt =? q); [|split; [reflexivity|discriminate]].
  destruct (qt =? 1); [|split; [reflexivity|discriminate]].
  apply (for_loop_same _ _ _ _ (fun s => all_dense (fst s))); [auto|].
  intros k [B U] Hk HB. cbn [fst snd] in *. unfold block_tri. cbn [fst snd].
  destruct (tri_col K p k (fun i => B i k)) as [[a t]| | | |] eqn:ET; cbn [bind fst snd]; try (split; [reflexivity|discriminate]).
  apply tri_col_dense in ET; [|intros i Hi; auto]. destruct ET as [Da Dt].
  destruct (for_loop_same (q - S k) (fun u A => block_apply Or p k true A (bupd U k 0 t) A (S k + u))
    (fun u A => block_apply Or' p k true A (bupd U k 0 t) A (S k + u)) (set_col B k a) all_dense) as [E I].
  - apply set_col_dense; auto.
  - intros u D Hu HD. apply block_apply_dense; auto; try lia. rewrite bupd_same. exact Dt.
  - rewrite <- E. split; [reflexivity|]. intros s' H. apply bind_Ok in H. destruct H as [A1 [H1 H]]. injection H as <-. cbn [fst]. auto.
Qed.

Theorem blocked_apply_dense Y T pc C tr : all_dense Y -> (forall k, k < q -> is_dense (T k 0)) -> all_dense C ->
  blocked_apply Or p q Y T pc C tr = blocked_apply Or' p q Y T pc C tr.
Proof.
  intros HY HT HC. unfold blocked_apply.
  assert (CL : forall k D, k < q -> all_dense D ->
    for_loop (q - k) (fun t C => assert! pc =? p in block_apply Or p k tr Y T C (k + t)) D =
    for_loop (q - k) (fun t C => assert! pc =? p in block_apply Or' p k tr Y T C (k + t)) D /\
    forall D', for_loop (q - k) (fun t C => assert! pc =? p in block_apply Or p k tr Y T C (k + t)) D = Ok D' -> all_dense D').
  { intros k D Hk HD. apply (for_loop_same _ _ _ _ all_dense); auto. intros u E Hu HE.
    destruct (pc =? p); [|split; [reflexivity|discriminate]]. apply block_apply_dense; auto. lia. }
  destruct tr; (apply (for_loop_same _ _ _ _ all_dense); [auto|]; intros k D Hk HD; apply CL; auto; lia).
Qed.
End Dense.
