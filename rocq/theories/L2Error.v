(** Relative error: src/util/l2_error.cpp. *)
From Coq Require Import List Arith ZArith QArith Lia Bool Ring_theory Ring.
From Verif Require Import Prelude IndexRange IndexRangeSpec Ring MatFun Matrix MatOps MatSpec MatOpsProofs.
Import ListNotations.
Local Open Scope nat_scope.

Section L2.
Context {R : cring}.
Notation matrix := (matrix R).
Notation dense := (dense R).
Notation mat := (mat R).
Add Ring Rr : (cr_th R).

(** collect_diff_norm_omm, l2_error.cpp:45-110.  Result: (diff, norm of A). *)
Fixpoint cdn (fuel : nat) (A B : matrix) : outcome (R * R) :=
  match fuel with
  | O => NoFuel
  | S f =>
      match A, B with
      | MD a, MD b =>
          let* d := subtraction (MD a) (MD b) in
          let* diff := norm d in
          let* nrm := norm (MD a) in
          Ok (diff, nrm)
      | MD a, ML _ => let* b := densify B in cdn f (MD a) (MD b)
      | ML _, MD b => let* a := densify A in cdn f (MD a) (MD b)
      | ML _, ML _ => let* a := densify A in let* b := densify B in cdn f (MD a) (MD b)
      | MH m n a, MH m' n' b =>
          if (m =? m') && (n =? n') then
            accum m (fun i acc => accum n (fun j acc =>
              let* (d, x) := cdn f (a i j) (b i j) in Ok ((fst acc + d)%r, (snd acc + x)%r)) acc) (0%r, 0%r)
          else let* a := densify A in let* b := densify B in cdn f (MD a) (MD b)
      | MH m n _, _ => let* BH := split B m n in cdn f A BH
      | _, MH m n _ => let* AH := split A m n in cdn f AH B
      | _, _ => Abort
      end
  end.

(** l2_error, l2_error.cpp:36-43, without the final square root. *)
Definition l2_parts (fuel : nat) (A B : matrix) : outcome (R * R) :=
  assert! nrows A =? nrows B in
  assert! ncols A =? ncols B in
  cdn fuel A B.

(** Squares of the entries of A - B. *)
Definition diffsq (A B : matrix) : R := sumsq (nrows A) (ncols A) (msub (ent A) (ent B)).

Lemma feq_sub r c (f f' g g' : mat) : feq r c f f' -> feq r c g g' -> feq r c (msub f g) (msub f' g').
Proof. intros H1 H2 i j Hi Hj. unfold msub. rewrite H1, H2; auto. Qed.

Lemma cdn_dense fuel a b d x : cdn (S fuel) (MD a) (MD b) = Ok (d, x) ->
  d_r a = d_r b /\ d_c a = d_c b /\ d = sumsq (d_r a) (d_c a) (msub (d_e a) (d_e b)) /\ x = sumsq (d_r a) (d_c a) (d_e a).
Proof.
  cbn [cdn]. intros H. apply bind_Ok in H. destruct H as [s [Hs H]]. unfold subtraction in Hs. simpl in Hs.
  destruct (Nat.eqb_spec (d_r a) (d_r b)) as [E1|]; [|discriminate].
  destruct (Nat.eqb_spec (d_c a) (d_c b)) as [E2|]; [|discriminate]. inversion Hs; subst s. simpl in H.
  inversion H; subst. rewrite !d_norm_spec. split; auto. split; auto. split; auto.
  simpl. apply sumsq_ext. exact (d_sub_ent a b).
Qed.

Lemma accum_inv2 m n (f : nat -> nat -> outcome (R * R)) r :
  accum m (fun i acc => accum n (fun j acc =>
    let* (d, x) := f i j in Ok ((fst acc + d)%r, (snd acc + x)%r)) acc) (0%r, 0%r) = Ok r ->
  exists v, (forall i j, i < m -> j < n -> f i j = Ok (v i j)) /\
    r = (sum m (fun i => sum n (fun j => fst (v i j))), sum m (fun i => sum n (fun j => snd (v i j)))).
Proof.
  intros H. set (v := fun i j => get_ok (0%r, 0%r) (f i j)). exists v.
  assert (IN : forall i k a r, accum k (fun j acc => let* (d, x) := f i j in Ok ((fst acc + d)%r, (snd acc + x)%r)) a = Ok r ->
     (forall j, j < k -> f i j = Ok (v i j)) /\ fst r = (fst a + sum k (fun j => fst (v i j)))%r /\ snd r = (snd a + sum k (fun j => snd (v i j)))%r).
  { intros i. induction k as [|k IHk]; intros a q Hq; simpl in Hq.
    - inversion Hq; subst. split; [intros; lia|]. simpl. split; ring.
    - apply bind_Ok in Hq. destruct Hq as [q1 [Hq1 Hq]]. apply bind_Ok in Hq. destruct Hq as [[d x] [Hf Hq]].
      destruct (IHk a q1 Hq1) as [I1 [I2 I3]]. inversion Hq; subst q.
      assert (Ev : v i k = (d, x)) by (unfold v; rewrite Hf; reflexivity). split; [|split].
      + intros j Hj. destruct (Nat.eq_dec j k) as [->|]; [rewrite Ev; auto|apply I1; lia].
      + simpl. rewrite I2, Ev. simpl. ring.
      + simpl. rewrite I3, Ev. simpl. ring. }
  assert (OUT : forall k a q, accum k (fun i acc => accum n (fun j acc =>
      let* (d, x) := f i j in Ok ((fst acc + d)%r, (snd acc + x)%r)) acc) a = Ok q ->
     (forall i j, i < k -> j < n -> f i j = Ok (v i j)) /\
     fst q = (fst a + sum k (fun i => sum n (fun j => fst (v i j))))%r /\ snd q = (snd a + sum k (fun i => sum n (fun j => snd (v i j))))%r).
  { induction k as [|k IHk]; intros a q Hq; simpl in Hq.
    - inversion Hq; subst. split; [intros; lia|]. simpl. split; ring.
    - apply bind_Ok in Hq. destruct Hq as [q1 [Hq1 Hq]].
      destruct (IHk a q1 Hq1) as [I1 [I2 I3]]. destruct (IN _ _ _ _ Hq) as [J1 [J2 J3]]. split; [|split].
      + intros i j Hi Hj. destruct (Nat.eq_dec i k) as [->|]; [apply J1; auto|apply I1; lia].
      + simpl. rewrite J2, I2. ring.
      + simpl. rewrite J3, I3. ring. }
  destruct (OUT _ _ _ H) as [O1 [O2 O3]]. split; auto.
  destruct r as [r1 r2]. simpl in O2, O3. f_equal; [rewrite O2|rewrite O3]; ring.
Qed.

Lemma diffsq_blocks m n (a b : nat -> nat -> matrix) : wf (MH m n a) -> wf (MH m n b) ->
  (forall i j, i < m -> j < n -> nrows (a i j) = nrows (b i j) /\ ncols (a i j) = ncols (b i j)) ->
  nrows (MH m n a) = nrows (MH m n b) /\ ncols (MH m n a) = ncols (MH m n b) /\
  diffsq (MH m n a) (MH m n b) = sum m (fun i => sum n (fun j => diffsq (a i j) (b i j))).
Proof.
  intros Wa Wb HD. pose proof Wa as [Hm [Hn Ha]]. pose proof Wb as [_ [_ Hb]].
  assert (EH : forall i, i < m -> bheight a i = bheight b i) by (intros i Hi; apply HD; auto).
  assert (EW : forall j, j < n -> bwidth a j = bwidth b j) by (intros j Hj; apply HD; auto).
  split; [rewrite !nrows_MH; apply offs_ext; auto|]. split; [rewrite !ncols_MH; apply offs_ext; auto|].
  unfold diffsq at 1. rewrite nrows_MH, ncols_MH, sumsq_offs. apply sum_ext. intros i Hi. apply sum_ext. intros j Hj.
  unfold diffsq. destruct (Ha i j Hi Hj) as [_ [E1 E2]]. rewrite E1, E2. apply sumsq_ext.
  intros x y Hx Hy. unfold mwin, msub. rewrite (ent_block m n a i j x y Hi Hj Hx Hy).
  rewrite (offs_ext (bheight a) (bheight b)) by (intros; apply EH; lia).
  rewrite (offs_ext (bwidth a) (bwidth b)) by (intros; apply EW; lia).
  rewrite (ent_block m n b i j x y Hi Hj); auto; [rewrite <- EH|rewrite <- EW]; auto.
Qed.

Lemma sumsq_blocks m n (a : nat -> nat -> matrix) : wf (MH m n a) ->
  sumsq (nrows (MH m n a)) (ncols (MH m n a)) (ent (MH m n a)) =
  sum m (fun i => sum n (fun j => sumsq (nrows (a i j)) (ncols (a i j)) (ent (a i j)))).
Proof.
  intros Wa. pose proof Wa as [Hm [Hn Ha]].
  rewrite nrows_MH, ncols_MH, sumsq_offs. apply sum_ext. intros i Hi. apply sum_ext. intros j Hj.
  destruct (Ha i j Hi Hj) as [_ [E1 E2]]. rewrite E1, E2. apply sumsq_ext.
  intros x y Hx Hy. unfold mwin. apply ent_block; auto.
Qed.

(** Whatever the structures, a result is the Frobenius norm of the difference. *)
Theorem cdn_spec fuel : forall (A B : matrix) d x, wf A -> wf B -> cdn fuel A B = Ok (d, x) ->
  nrows A = nrows B /\ ncols A = ncols B /\ d = diffsq A B /\ x = sumsq (nrows A) (ncols A) (ent A).
Proof.
  induction fuel as [|f IH]; intros A B d x WA WB H; [discriminate|].
  assert (DD : forall a b, densify A = Ok a -> densify B = Ok b -> cdn f (MD a) (MD b) = Ok (d, x) ->
     nrows A = nrows B /\ ncols A = ncols B /\ d = diffsq A B /\ x = sumsq (nrows A) (ncols A) (ent A)).
  { intros a b Ea Eb Hc. destruct (densify_spec A WA) as [a' [Ea' [A1 [A2 A3]]]]. rewrite Ea in Ea'. inversion Ea'; subst a'.
    destruct (densify_spec B WB) as [b' [Eb' [B1 [B2 B3]]]]. rewrite Eb in Eb'. inversion Eb'; subst b'.
    destruct f as [|f]; [discriminate|]. destruct (cdn_dense f a b d x Hc) as [C1 [C2 [C3 C4]]].
    assert (N1 : nrows A = nrows B) by congruence. assert (N2 : ncols A = ncols B) by congruence.
    split; auto. split; auto. rewrite A1, A2 in C3, C4. split.
    - rewrite C3. unfold diffsq. apply sumsq_ext. apply feq_sub; auto. rewrite N1, N2. auto.
    - rewrite C4. apply sumsq_ext. auto. }
  assert (SL : forall m n AH, split A m n = Ok AH -> 0 < m -> 0 < n -> cdn f AH B = Ok (d, x) ->
     nrows A = nrows B /\ ncols A = ncols B /\ d = diffsq A B /\ x = sumsq (nrows A) (ncols A) (ent A)).
  { intros m n AH HS Hm Hn Hc. destruct (split_spec A m n AH WA Hm Hn HS) as [h [w [[b [E [W [_ [N1 [N2 F]]]]]] _]]].
    destruct (IH AH B d x W WB Hc) as [I1 [I2 [I3 I4]]]. split; [congruence|]. split; [congruence|]. split.
    - rewrite I3. unfold diffsq. rewrite N1, N2. apply sumsq_ext. apply feq_sub; auto. intros i j _ _. reflexivity.
    - rewrite I4, N1, N2. apply sumsq_ext. auto. }
  assert (SR : forall m n BH, split B m n = Ok BH -> 0 < m -> 0 < n -> cdn f A BH = Ok (d, x) ->
     nrows A = nrows B /\ ncols A = ncols B /\ d = diffsq A B /\ x = sumsq (nrows A) (ncols A) (ent A)).
  { intros m n BH HS Hm Hn Hc. destruct (split_spec B m n BH WB Hm Hn HS) as [h [w [[b [E [W [_ [N1 [N2 F]]]]]] _]]].
    destruct (IH A BH d x WA W Hc) as [I1 [I2 [I3 I4]]]. split; [congruence|]. split; [congruence|]. split; auto.
    rewrite I3. unfold diffsq. apply sumsq_ext. apply feq_sub; [intros i j _ _; reflexivity|].
    rewrite I1, I2, N1, N2. auto. }
  destruct A as [a|la|m n a|ra ca], B as [b|lb|m' n' b|rb cb]; cbn [cdn] in H; try discriminate.
  - exact (cdn_dense f a b d x H).
  - apply bind_Ok in H. destruct H as [b [Eb H]]. 
    destruct (densify_spec (ML lb) WB) as [b' [Eb' [B1 [B2 B3]]]]. rewrite Eb in Eb'. inversion Eb'; subst b'.
    destruct f as [|f']; [discriminate|]. destruct (cdn_dense f' a b d x H) as [C1 [C2 [C3 C4]]].
    split; [simpl in *; congruence|]. split; [simpl in *; congruence|]. split; [|exact C4].
    rewrite C3. unfold diffsq. apply sumsq_ext. apply feq_sub; [intros i j _ _; reflexivity|].
    cbn [nrows ncols]. rewrite C1, C2, B1, B2. exact B3.
  - destruct WB as [H1 [H2 _]]. apply bind_Ok in H. destruct H as [AH [HS H]]. apply (SL m' n' AH); auto.
  - apply bind_Ok in H. destruct H as [a [Ea H]]. 
    destruct (densify_spec (ML la) WA) as [a' [Ea' [A1 [A2 A3]]]]. rewrite Ea in Ea'. inversion Ea'; subst a'.
    destruct f as [|f']; [discriminate|]. destruct (cdn_dense f' a b d x H) as [C1 [C2 [C3 C4]]].
    split; [simpl in *; congruence|]. split; [simpl in *; congruence|]. rewrite A1, A2 in C3, C4. split.
    + rewrite C3. unfold diffsq. apply sumsq_ext. apply feq_sub; [exact A3|intros i j _ _; reflexivity].
    + rewrite C4. apply sumsq_ext. exact A3.
  - apply bind_Ok in H. destruct H as [a [Ea H]]. apply bind_Ok in H. destruct H as [b [Eb H]]. eauto.
  - destruct WB as [H1 [H2 _]]. apply bind_Ok in H. destruct H as [AH [HS H]]. apply (SL m' n' AH); auto.
  - destruct WA as [H1 [H2 _]]. apply bind_Ok in H. destruct H as [BH [HS H]]. apply (SR m n BH); auto.
  - destruct WA as [H1 [H2 _]]. apply bind_Ok in H. destruct H as [BH [HS H]]. apply (SR m n BH); auto.
  - destruct (Nat.eqb_spec m m') as [<-|Hm]; [destruct (Nat.eqb_spec n n') as [<-|Hn]|]; cbn [andb] in H.
    + apply accum_inv2 in H. destruct H as [v [Hv E]]. inversion E; subst d x. clear E.
      assert (K : forall i j, i < m -> j < n -> nrows (a i j) = nrows (b i j) /\ ncols (a i j) = ncols (b i j) /\
         fst (v i j) = diffsq (a i j) (b i j) /\ snd (v i j) = sumsq (nrows (a i j)) (ncols (a i j)) (ent (a i j))).
      { intros i j Hi Hj. specialize (Hv i j Hi Hj). destruct (v i j) as [dv xv]. apply (IH _ _ dv xv) in Hv; auto; [apply WA|apply WB]; auto. }
      destruct (diffsq_blocks m n a b WA WB) as [N1 [N2 N3]]. { intros i j Hi Hj. destruct (K i j Hi Hj) as [? [? _]]; auto. }
      split; auto. split; auto. split.
      * rewrite N3. apply sum_ext. intros i Hi. apply sum_ext. intros j Hj. apply K; auto.
      * rewrite sumsq_blocks by auto. apply sum_ext. intros i Hi. apply sum_ext. intros j Hj. apply K; auto.
    + apply bind_Ok in H. destruct H as [a' [Ea H]]. apply bind_Ok in H. destruct H as [b' [Eb H]]. eauto.
    + apply bind_Ok in H. destruct H as [a' [Ea H]]. apply bind_Ok in H. destruct H as [b' [Eb H]]. eauto.
  - destruct WA as [H1 [H2 _]]. apply bind_Ok in H. destruct H as [BH [HS H]]. apply (SR m n BH); auto.
  - destruct WB as [H1 [H2 _]]. apply bind_Ok in H. destruct H as [AH [HS H]]. apply (SL m' n' AH); auto.
Qed.

(** ** When there is a result *)
Definition leaf (A : matrix) : Prop := match A with MD _ | ML _ => True | _ => False end.

(** The blocks are those of the equal splitting, at every level. *)
Fixpoint even (A : matrix) : Prop :=
  match A with
  | MH m n a =>
      let rr := IR 0 (Z.of_nat (nrows A)) in
      let cr := IR 0 (Z.of_nat (ncols A)) in
      tiles rr (ir_split rr (Z.of_nat m)) /\ tiles cr (ir_split cr (Z.of_nat n)) /\
      (forall i, i < m -> Z.of_nat (bheight a i) = ir_n (ir_split_child rr (Z.of_nat m) (Z.of_nat i))) /\
      (forall j, j < n -> Z.of_nat (bwidth a j) = ir_n (ir_split_child cr (Z.of_nat n) (Z.of_nat j))) /\
      (forall i j, i < m -> j < n -> even (a i j))
  | _ => True
  end.

Definition same_dims (A B : matrix) : Prop := nrows A = nrows B /\ ncols A = ncols B.

Inductive comparable : matrix -> matrix -> Prop :=
| cmp_leaf A B : even A -> leaf B -> same_dims A B -> comparable A B
| cmp_leaf' A B : leaf A -> even B -> same_dims A B -> comparable A B
| cmp_blocks m n a b : (forall i j, i < m -> j < n -> comparable (a i j) (b i j)) -> comparable (MH m n a) (MH m n b)
| cmp_other m n a m' n' b : (m <> m' \/ n <> n') -> same_dims (MH m n a) (MH m' n' b) -> comparable (MH m n a) (MH m' n' b).

Lemma common_fuel n (P : nat -> nat -> Prop) : (forall i, i < n -> exists F, forall f, F <= f -> P i f) ->
  exists F, forall i, i < n -> forall f, F <= f -> P i f.
Proof.
  induction n as [|n IH]; intros H.
  - exists 0. intros; lia.
  - destruct IH as [F1 H1]; [intros; apply H; lia|]. destruct (H n) as [F2 H2]; [lia|].
    exists (Nat.max F1 F2). intros i Hi f Hf. destruct (Nat.eq_dec i n) as [->|]; [apply H2; lia|apply H1; lia].
Qed.
Lemma common_fuel2 m n (P : nat -> nat -> nat -> Prop) : (forall i j, i < m -> j < n -> exists F, forall f, F <= f -> P i j f) ->
  exists F, forall i j, i < m -> j < n -> forall f, F <= f -> P i j f.
Proof.
  intros H. destruct (common_fuel m (fun i f => forall j, j < n -> P i j f)) as [F HF].
  - intros i Hi. destruct (common_fuel n (fun j f => P i j f)) as [F HF]; [intros; apply H; auto|]. exists F. intros; apply HF; auto.
  - exists F. intros i j Hi Hj f Hf. apply (HF i Hi f Hf j Hj).
Qed.

Lemma accum_ok2 m n (f : nat -> nat -> outcome (R * R)) : (forall i j, i < m -> j < n -> exists r, f i j = Ok r) ->
  exists r, accum m (fun i acc => accum n (fun j acc =>
    let* (d, x) := f i j in Ok ((fst acc + d)%r, (snd acc + x)%r)) acc) (0%r, 0%r) = Ok r.
Proof.
  intros H.
  assert (IN : forall i k a, i < m -> k <= n -> exists r, accum k (fun j acc => let* (d, x) := f i j in Ok ((fst acc + d)%r, (snd acc + x)%r)) a = Ok r).
  { intros i k a Hi. induction k as [|k IHk]; intros Hk; simpl; eauto.
    destruct IHk as [r E]; [lia|]. rewrite E. cbn [bind]. destruct (H i k Hi) as [[d x] E2]; [lia|]. rewrite E2. cbn [bind]. eauto. }
  assert (OUT : forall k a, k <= m -> exists r, accum k (fun i acc => accum n (fun j acc =>
    let* (d, x) := f i j in Ok ((fst acc + d)%r, (snd acc + x)%r)) acc) a = Ok r).
  { induction k as [|k IHk]; intros a Hk; simpl; eauto. destruct (IHk a) as [r E]; [lia|]. rewrite E. cbn [bind]. apply IN; lia. }
  apply OUT. lia.
Qed.

Lemma dd_ok a b : d_r a = d_r b -> d_c a = d_c b -> exists r, forall f, cdn (S f) (MD a) (MD b) = Ok r.
Proof.
  intros E1 E2. eexists. intros f. cbn [cdn]. unfold subtraction. simpl. rewrite E1, E2, !Nat.eqb_refl. simpl. reflexivity.
Qed.

Lemma densified_ok (A B : matrix) : wf A -> wf B -> same_dims A B ->
  exists a b, densify A = Ok a /\ densify B = Ok b /\ forall f, exists r, cdn (S f) (MD a) (MD b) = Ok r.
Proof.
  intros WA WB [E1 E2]. destruct (densify_spec A WA) as [a [Ea [A1 [A2 _]]]]. destruct (densify_spec B WB) as [b [Eb [B1 [B2 _]]]].
  exists a, b. split; auto. split; auto. intros f. destruct (dd_ok a b) as [r H]; [congruence|congruence|]. eauto.
Qed.

Lemma leaves_ok (A B : matrix) : leaf A -> leaf B -> wf A -> wf B -> same_dims A B ->
  exists F, forall f, F <= f -> exists r, cdn f A B = Ok r.
Proof.
  intros LA LB WA WB SD. exists 2. intros [|[|f]] Hf; [lia|lia|].
  destruct (densified_ok A B WA WB SD) as [a [b [Ea [Eb H]]]].
  destruct A as [da|la| |], B as [db|lb| |]; simpl in LA, LB; try contradiction.
  - destruct SD as [E1 E2]. destruct (dd_ok da db E1 E2) as [r K]. eauto.
  - cbn [cdn]. fold (@cdn (S f)). rewrite Eb. cbn [bind].
    destruct (densify_spec (ML lb) WB) as [b' [Eb' [B1 [B2 _]]]]. rewrite Eb in Eb'. inversion Eb'; subst.
    destruct SD as [E1 E2]. destruct (dd_ok da b') as [r K]; [simpl in *; congruence|simpl in *; congruence|]. exists r. exact (K f).
  - cbn [cdn]. fold (@cdn (S f)). rewrite Ea. cbn [bind].
    destruct (densify_spec (ML la) WA) as [a' [Ea' [A1 [A2 _]]]]. rewrite Ea in Ea'. inversion Ea'; subst.
    destruct SD as [E1 E2]. destruct (dd_ok a' db) as [r K]; [simpl in *; congruence|simpl in *; congruence|]. exists r. exact (K f).
  - cbn [cdn]. fold (@cdn (S f)). rewrite Ea, Eb. cbn [bind]. exact (H f).
Qed.

Lemma split_leaf (B : matrix) m n H : leaf B -> split B m n = Ok H ->
  exists k l b, H = MH k l b /\ forall i j, leaf (b i j).
Proof.
  intros LB HS. unfold split in HS. apply bind_Ok in HS. destruct HS as [rs [_ HS]]. apply bind_Ok in HS. destruct HS as [cs [_ HS]].
  destruct B as [d|l| |]; simpl in LB; try contradiction; simpl in HS.
  - unfold split_dense in HS. destruct (ranges_fit rs (d_r d) && ranges_fit cs (d_c d)); [|discriminate]. inversion HS.
    eexists _, _, _. split; [reflexivity|]. simpl. auto.
  - unfold split_lr in HS. apply bind_Ok in HS. destruct HS as [U [_ HS]]. apply bind_Ok in HS. destruct HS as [V [_ HS]]. inversion HS.
    eexists _, _, _. split; [reflexivity|]. simpl. auto.
Qed.

Lemma leaf_no_empty (B : matrix) : leaf B -> no_empty B /\ forall m n b, B <> MH m n b.
Proof. destruct B; simpl; intros H; try contradiction; split; auto; intros; discriminate. Qed.

(** One step of splitting a leaf like an evenly divided tree. *)
Lemma split_even m n (a : nat -> nat -> matrix) (B : matrix) : wf (MH m n a) -> even (MH m n a) -> leaf B -> wf B -> same_dims (MH m n a) B ->
  exists b, split B m n = Ok (MH m n b) /\ wf (MH m n b) /\
    forall i j, i < m -> j < n -> leaf (b i j) /\ same_dims (a i j) (b i j).
Proof.
  intros WA [T1 [T2 [EH [EW _]]]] LB WB [D1 D2]. pose proof WA as [Hm [Hn Ha]]. destruct (leaf_no_empty B LB) as [NE NH].
  rewrite D1 in T1, EH. rewrite D2 in T2, EW.
  destruct (split_uniform_ok B m n WB NE NH Hm Hn T1 T2) as [H HS].
  destruct (split_spec B m n H WB Hm Hn HS) as [h [w [[b [E [W [HB [_ [_ _]]]]]] [SH SW]]]].
  destruct (split_leaf B m n H LB HS) as [k [l [b' [E' LV]]]]. rewrite E in E'. inversion E'; subst k l b'. subst H.
  exists b. split; auto. split; auto. intros i j Hi Hj. split; auto.
  destruct (HB i j Hi Hj) as [X1 X2]. destruct (Ha i j Hi Hj) as [_ [Y1 Y2]].
  specialize (EH i Hi). specialize (EW j Hj). specialize (SH i Hi). specialize (SW j Hj). unfold bheight, bwidth in *.
  split; lia.
Qed.

Lemma even_leaf_ok (A : matrix) : forall B, wf A -> no_empty A -> even A -> leaf B -> wf B -> same_dims A B ->
  (exists F, forall f, F <= f -> exists r, cdn f A B = Ok r) /\ (exists F, forall f, F <= f -> exists r, cdn f B A = Ok r).
Proof.
  induction A as [d|l|m n a IH|r c]; intros B WA NA EA LB WB SD.
  - split; apply leaves_ok; simpl; auto. destruct SD; split; auto.
  - split; apply leaves_ok; simpl; auto. destruct SD; split; auto.
  - destruct (split_even m n a B WA EA LB WB SD) as [b [HS [WH HB]]].
    pose proof EA as [_ [_ [_ [_ EC]]]]. pose proof WA as [Hm [Hn Ha]]. pose proof WH as [_ [_ Hb]].
    assert (K : forall i j, i < m -> j < n ->
       (exists F, forall f, F <= f -> exists r, cdn f (a i j) (b i j) = Ok r) /\ (exists F, forall f, F <= f -> exists r, cdn f (b i j) (a i j) = Ok r)).
    { intros i j Hi Hj. destruct (HB i j Hi Hj) as [L1 S1]. apply IH; auto; solve [apply Ha; auto|apply (NA i j); auto|apply Hb; auto]. }
    destruct (common_fuel2 m n (fun i j f => exists r, cdn f (a i j) (b i j) = Ok r)) as [F1 H1]; [intros; apply K; auto|].
    destruct (common_fuel2 m n (fun i j f => exists r, cdn f (b i j) (a i j) = Ok r)) as [F2 H2]; [intros; apply K; auto|].
    split.
    + exists (S (S F1)). intros [|[|f]] Hf; [lia|lia|].
      assert (E : cdn (S (S f)) (MH m n a) B = let* BH := split B m n in cdn (S f) (MH m n a) BH) by (destruct B; try contradiction LB; reflexivity).
      rewrite E, HS. cbn [bind]. cbn [cdn]. rewrite !Nat.eqb_refl. cbn [andb].
      apply (accum_ok2 m n (fun i j => cdn f (a i j) (b i j))). intros i j Hi Hj. apply H1; auto. lia.
    + exists (S (S F2)). intros [|[|f]] Hf; [lia|lia|].
      assert (E : cdn (S (S f)) B (MH m n a) = let* BH := split B m n in cdn (S f) BH (MH m n a)) by (destruct B; try contradiction LB; reflexivity).
      rewrite E, HS. cbn [bind]. cbn [cdn]. rewrite !Nat.eqb_refl. cbn [andb].
      apply (accum_ok2 m n (fun i j => cdn f (b i j) (a i j))). intros i j Hi Hj. apply H2; auto. lia.
  - destruct NA.
Qed.

Theorem cdn_ok (A B : matrix) : comparable A B -> wf A -> wf B -> no_empty A -> no_empty B ->
  exists F, forall f, F <= f -> exists r, cdn f A B = Ok r.
Proof.
  intros C. induction C as [A B EA LB SD|A B LA EB SD|m n a b HC IH|m n a m' n' b Hne SD]; intros WA WB NA NB.
  - apply (even_leaf_ok A B); auto.
  - apply (even_leaf_ok B A); auto. destruct SD; split; auto.
  - destruct (common_fuel2 m n (fun i j f => exists r, cdn f (a i j) (b i j) = Ok r)) as [F H].
    { intros i j Hi Hj. apply (IH i j Hi Hj); [apply WA|apply WB|apply (NA i j)|apply (NB i j)]; auto. }
    exists (S F). intros [|f] Hf; [lia|]. cbn [cdn]. rewrite !Nat.eqb_refl. cbn [andb].
    apply (accum_ok2 m n (fun i j => cdn f (a i j) (b i j))). intros i j Hi Hj. apply H; auto. lia.
  - exists 2. intros [|[|f]] Hf; [lia|lia|].
    destruct (densified_ok _ _ WA WB SD) as [x [y [Ea [Eb H]]]].
    assert (E : (m =? m') && (n =? n') = false).
    { apply andb_false_iff. destruct Hne; [left|right]; apply Nat.eqb_neq; auto. }
    change (exists r, (if (m =? m') && (n =? n') then
            accum m (fun i acc => accum n (fun j acc =>
              let* (d, x) := cdn (S f) (a i j) (b i j) in Ok ((fst acc + d)%r, (snd acc + x)%r)) acc) (0%r, 0%r)
          else let* a := densify (MH m n a) in let* b := densify (MH m' n' b) in cdn (S f) (MD a) (MD b)) = Ok r).
    rewrite E, Ea. cbn [bind]. rewrite Eb. cbn [bind]. exact (H f).
Qed.
End L2.
