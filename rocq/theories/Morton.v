(** Morton indices: src/operations/misc/morton_index.cpp:24-45.
    Indices are non-negative, [<<], [>>], [& 1] and [%] are those of N; the bit widths of
    int (1 << level, line 28) and int64_t (line 40) are in MachineMorton.v. *)
From Coq Require Import List Arith NArith Lia Bool.
From Verif Require Import Prelude Heap HeapProofs.
Import ListNotations.
Local Open Scope nat_scope.

Definition bit (n : N) : N := N.land n 1.

(** getCartesianIndex (24-34): while (mortonIndex != 0), with the components in [idx]. *)
Fixpoint cart_loop (fuel : nat) (dim : nat) (m : N) (idx : list N) (d level : nat) : list N :=
  match fuel with
  | O => idx
  | S f =>
      if (m =? 0)%N then idx
      else
        let idx1 := lupd idx d (nth d idx 0 + (m mod 2) * N.shiftl 1 (N.of_nat level))%N in
        let d1 := (d + 1) mod dim in
        cart_loop f dim (N.shiftr m 1) idx1 d1 (if d1 =? 0 then level + 1 else level)
  end.
Definition cartesian (dim : nat) (m : N) : list N :=
  cart_loop (N.size_nat m) dim m (repeat 0%N dim) 0 0.

(** getMortonIndex (36-45); the components are shifted in place. *)
Fixpoint morton_row (k : nat) (dim lev d : nat) (s : N * list N) : N * list N :=
  match k with
  | O => s
  | S k' =>
      let '(m, iX) := s in
      let x := nth d iX 0%N in
      morton_row k' dim lev (d + 1)
        ((m + N.shiftl (bit x) (N.of_nat (dim * lev + d)))%N, lupd iX d (N.shiftr x 1))
  end.
Fixpoint morton_levels (k : nat) (lev : nat) (s : N * list N) : N * list N :=
  match k with
  | O => s
  | S k' => let dim := length (snd s) in morton_levels k' (lev + 1) (morton_row dim dim lev 0 s)
  end.
Definition morton (iX : list N) (level : nat) : N := fst (morton_levels level 0 (0%N, iX)).

Example morton_ex : morton [5; 3]%N 3 = 27%N /\ cartesian 2 27 = [5; 3]%N.
Proof. vm_compute. auto. Qed.

Lemma nth_lupd {A} (l : list A) k a j d : k < length l -> nth j (lupd l k a) d = if j =? k then a else nth j l d.
Proof.
  revert k j. induction l as [|x l IH]; intros k j H; [simpl in H; lia|].
  destruct k as [|k], j as [|j]; simpl; auto. apply IH. simpl in H. lia.
Qed.

(** ** Bits *)
Local Open Scope N_scope.

Lemma add_bit_above (m b : N) (k i : N) : m < 2 ^ k -> b < 2 ->
  N.testbit (m + N.shiftl b k) i = if i =? k then N.testbit b 0 else N.testbit m i.
Proof.
  intros Hm Hb. rewrite N.shiftl_mul_pow2.
  assert (HB : b = 0 \/ b = 1) by lia.
  destruct HB as [->| ->].
  - rewrite N.mul_0_l, N.add_0_r. rewrite N.bits_0. destruct (N.eqb_spec i k) as [->|]; auto.
    destruct (N.eq_dec m 0) as [->|Hz]; [apply N.bits_0|].
    apply N.bits_above_log2. apply N.log2_lt_pow2; lia.
  - rewrite N.mul_1_l.
    assert (E : N.land m (2 ^ k) = 0).
    { apply N.bits_inj_0. intros n. rewrite N.land_spec, N.pow2_bits_eqb.
      destruct (N.eqb_spec k n) as [->|]; [|apply andb_false_r].
      rewrite andb_true_r. destruct (N.eq_dec m 0) as [->|Hz]; [apply N.bits_0|].
      apply N.bits_above_log2. apply N.log2_lt_pow2; lia. }
    rewrite N.add_nocarry_lxor by auto. rewrite N.lxor_spec, N.pow2_bits_eqb.
    assert (E2 : N.testbit (N.land m (2 ^ k)) i = false) by (rewrite E; apply N.bits_0).
    rewrite N.land_spec, N.pow2_bits_eqb in E2. rewrite (N.eqb_sym i k).
    destruct (N.eqb_spec k i) as [->|].
    + rewrite andb_true_r in E2. rewrite E2. reflexivity.
    + apply xorb_false_r.
Qed.

Lemma add_bit_lt (m b k : N) : m < 2 ^ k -> b < 2 -> m + N.shiftl b k < 2 ^ (k + 1).
Proof.
  intros Hm Hb. rewrite N.shiftl_mul_pow2, N.add_1_r, N.pow_succ_r'.
  assert (b * 2 ^ k <= 1 * 2 ^ k) by (apply N.mul_le_mono_r; lia). lia.
Qed.

Lemma bit_lt x : bit x < 2.
Proof. unfold bit. change 1 with (N.ones 1). rewrite N.land_ones. apply N.mod_lt. discriminate. Qed.
Lemma bit_testbit x : N.testbit (bit x) 0 = N.testbit x 0.
Proof. unfold bit. rewrite N.land_spec. rewrite andb_true_r. reflexivity. Qed.

Local Open Scope nat_scope.

(** ** Encoding *)
(** Bit (dim*lev + d) of the result is bit lev of component d. *)
Definition spread (iX : list N) (m : N) (done : nat) : Prop :=
  (m < 2 ^ N.of_nat done)%N /\
  forall lev d, d < length iX -> length iX * lev + d < done ->
    N.testbit m (N.of_nat (length iX * lev + d)) = N.testbit (nth d iX 0%N) (N.of_nat lev).

Lemma divmod_unique dim a b c d : b < dim -> d < dim -> dim * a + b = dim * c + d -> a = c /\ b = d.
Proof.
  intros Hb Hd E. destruct (lt_eq_lt_dec a c) as [[H|H]|H].
  - exfalso. assert (dim * (a + 1) <= dim * c) by (apply Nat.mul_le_mono_l; lia). lia.
  - subst. split; auto. lia.
  - exfalso. assert (dim * (c + 1) <= dim * a) by (apply Nat.mul_le_mono_l; lia). lia.
Qed.

Lemma morton_row_spec (iX : list N) lev : forall k d m cur, d + k = length iX -> length cur = length iX ->
  spread iX m (length iX * lev + d) ->
  (forall e, e < length iX -> nth e cur 0%N = N.shiftr (nth e iX 0%N) (N.of_nat (if e <? d then lev + 1 else lev))) ->
  let '(m', cur') := morton_row k (length iX) lev d (m, cur) in
  spread iX m' (length iX * (lev + 1)) /\ length cur' = length iX /\
  forall e, e < length iX -> nth e cur' 0%N = N.shiftr (nth e iX 0%N) (N.of_nat (lev + 1)).
Proof.
  induction k as [|k IH]; intros d m cur Hk HL HS HC.
  - simpl. assert (d = length iX) by lia. subst d. split; [replace (length iX * (lev + 1)) with (length iX * lev + length iX) by lia; auto|].
    split; auto. intros e He. rewrite HC by auto. destruct (Nat.ltb_spec e (length iX)); [reflexivity|lia].
  - cbn [morton_row].
    assert (Hd : d < length iX) by lia.
    assert (Hx : nth d cur 0%N = N.shiftr (nth d iX 0%N) (N.of_nat lev)).
    { rewrite HC by auto. rewrite Nat.ltb_irrefl. reflexivity. }
    apply IH; try lia.
    + rewrite lupd_length. auto.
    + destruct HS as [S1 S2]. split.
      * replace (N.of_nat (length iX * lev + (d + 1))) with (N.of_nat (length iX * lev + d) + 1)%N by lia.
        apply add_bit_lt; auto. apply bit_lt.
      * intros l e He Hle. rewrite add_bit_above by (auto; apply bit_lt).
        destruct (N.eqb_spec (N.of_nat (length iX * l + e)) (N.of_nat (length iX * lev + d))) as [E|E].
        -- apply Nat2N.inj in E. apply divmod_unique in E; auto. destruct E as [-> ->].
           rewrite bit_testbit, Hx, N.shiftr_spec by lia. f_equal.
        -- apply S2; auto. assert (length iX * l + e <> length iX * lev + d) by congruence. lia.
    + intros e He. rewrite nth_lupd by lia.
      destruct (Nat.eqb_spec e d) as [->|Hne].
      * rewrite Hx. destruct (Nat.ltb_spec d (d + 1)); [|lia]. rewrite N.shiftr_shiftr. f_equal. lia.
      * rewrite HC by auto. destruct (Nat.ltb_spec e d), (Nat.ltb_spec e (d + 1)); auto; lia.
Qed.

Lemma morton_levels_spec (iX : list N) : forall k lev m cur, length cur = length iX ->
  spread iX m (length iX * lev) ->
  (forall e, e < length iX -> nth e cur 0%N = N.shiftr (nth e iX 0%N) (N.of_nat lev)) ->
  let s' := morton_levels k lev (m, cur) in
  spread iX (fst s') (length iX * (lev + k)) /\
  forall e, e < length iX -> nth e (snd s') 0%N = N.shiftr (nth e iX 0%N) (N.of_nat (lev + k)).
Proof.
  induction k as [|k IH]; intros lev m cur HL HS HC.
  - cbv zeta. simpl. rewrite Nat.add_0_r. auto.
  - cbv zeta. cbn [morton_levels snd]. rewrite HL.
    pose proof (morton_row_spec iX lev (length iX) 0 m cur eq_refl HL) as HR. rewrite Nat.add_0_r in HR.
    specialize (HR HS). destruct (morton_row (length iX) (length iX) lev 0 (m, cur)) as [m' cur'].
    destruct HR as [R1 [R2 R3]].
    { intros e He. rewrite HC by auto. reflexivity. }
    specialize (IH (lev + 1) m' cur' R2 R1 R3). cbv zeta in IH.
    replace (lev + S k) with (lev + 1 + k) by lia. exact IH.
Qed.

Lemma morton_spread iX level : spread iX (morton iX level) (length iX * level).
Proof.
  destruct (morton_levels_spec iX level 0 0%N iX) as [H _]; auto.
  - split; [|intros; lia]. rewrite Nat.mul_0_r. reflexivity.
Qed.

(** ** Decoding *)
Definition gathers (dim : nat) (m : N) (idx : list N) (k : nat) : Prop :=
  length idx = dim /\
  forall e, e < dim ->
   (forall lev, dim * lev + e < k -> N.testbit (nth e idx 0%N) (N.of_nat lev) = N.testbit m (N.of_nat (dim * lev + e))) /\
   (forall lev, k <= dim * lev + e -> (nth e idx 0 < 2 ^ N.of_nat lev)%N).

Lemma lt_pow_bit (n : N) l : (n < 2 ^ l)%N -> N.testbit n l = false.
Proof.
  intros H. destruct (N.eq_dec n 0) as [->|Hz]; [apply N.bits_0|]. apply N.bits_above_log2. apply N.log2_lt_pow2; lia.
Qed.

Lemma size_lt_pow (m : N) : (m < 2 ^ N.of_nat (N.size_nat m))%N.
Proof.
  destruct m as [|p]; [reflexivity|]. simpl N.size_nat.
  induction p as [p IH|p IH|]; [| |reflexivity].
  - cbn [Pos.size_nat]. rewrite Nat2N.inj_succ, N.pow_succ_r'. lia.
  - cbn [Pos.size_nat]. rewrite Nat2N.inj_succ, N.pow_succ_r'. lia.
Qed.

Lemma cart_loop_spec (dim : nat) (m : N) : 0 < dim -> forall fuel idx d level k,
  d < dim -> k = dim * level + d -> N.size_nat m <= k + fuel -> gathers dim m idx k ->
  exists k', N.size_nat m <= k' /\ gathers dim m (cart_loop fuel dim (N.shiftr m (N.of_nat k)) idx d level) k' \/
    (N.shiftr m (N.of_nat k') = 0%N /\ gathers dim m (cart_loop fuel dim (N.shiftr m (N.of_nat k)) idx d level) k').
Proof.
  intros Hdim. induction fuel as [|fuel IH]; intros idx d level k Hd Hk Hf HG.
  - exists k. left. simpl. split; [lia|auto].
  - cbn [cart_loop]. destruct (N.eqb_spec (N.shiftr m (N.of_nat k)) 0) as [E|E].
    + exists k. right. auto.
    + rewrite N.shiftr_shiftr. replace (N.of_nat k + 1)%N with (N.of_nat (k + 1)) by lia.
      apply IH.
      * apply Nat.mod_upper_bound. lia.
      * destruct (Nat.eq_dec (d + 1) dim) as [Ed|Ed].
        -- rewrite Ed, Nat.mod_same by lia. simpl. nia.
        -- rewrite Nat.mod_small by lia. destruct (Nat.eqb_spec (d + 1) 0); lia.
      * lia.
      * destruct HG as [GL GB]. split; [rewrite lupd_length; auto|]. intros e He. rewrite nth_lupd by lia.
        destruct (GB e He) as [G1 G2].
        destruct (Nat.eqb_spec e d) as [->|Hne].
        -- assert (Hb : (N.shiftr m (N.of_nat k) mod 2 < 2)%N) by (apply N.mod_lt; discriminate).
           replace (N.shiftr m (N.of_nat k) mod 2 * N.shiftl 1 (N.of_nat level))%N
             with (N.shiftl (N.shiftr m (N.of_nat k) mod 2) (N.of_nat level)) by (rewrite !N.shiftl_mul_pow2; lia).
           assert (HL : (nth d idx 0 < 2 ^ N.of_nat level)%N) by (apply G2; lia).
           split.
           ++ intros lev Hlev. rewrite add_bit_above by auto.
              destruct (N.eqb_spec (N.of_nat lev) (N.of_nat level)) as [El|El].
              ** apply Nat2N.inj in El. subst lev. rewrite <- N.bit0_mod, N.b2n_bit0.
                 rewrite N.shiftr_spec by lia. f_equal. lia.
              ** apply G1. assert (lev <> level) by congruence. destruct (lt_eq_lt_dec lev level) as [[H1|H1]|H1]; [|lia|].
                 --- assert (dim * (lev + 1) <= dim * level) by (apply Nat.mul_le_mono_l; lia). lia.
                 --- assert (dim * (level + 1) <= dim * lev) by (apply Nat.mul_le_mono_l; lia). lia.
           ++ intros lev Hlev. assert (Hll : level < lev).
              { destruct (le_lt_dec lev level) as [H1|H1]; auto. assert (dim * lev <= dim * level) by (apply Nat.mul_le_mono_l; lia). lia. }
              eapply N.lt_le_trans; [apply add_bit_lt; auto|]. apply N.pow_le_mono_r; lia.
        -- split.
           ++ intros lev Hlev. apply G1. assert (dim * lev + e <> k); [|lia].
              intros H. rewrite Hk in H. apply divmod_unique in H; auto. lia.
           ++ intros lev Hlev. apply G2. lia.
Qed.

Lemma cartesian_spec dim m : 0 < dim -> length (cartesian dim m) = dim /\
  forall e lev, e < dim -> N.testbit (nth e (cartesian dim m) 0%N) (N.of_nat lev) = N.testbit m (N.of_nat (dim * lev + e)).
Proof.
  intros Hdim.
  assert (G0 : gathers dim m (repeat 0%N dim) 0).
  { split; [apply repeat_length|]. intros e He. split; [intros; lia|]. intros lev _.
    rewrite nth_repeat. apply N.neq_0_lt_0. apply N.pow_nonzero. discriminate. }
  destruct (cart_loop_spec dim m Hdim (N.size_nat m) (repeat 0%N dim) 0 0 0 Hdim) as [k' H]; auto; [lia|].
  rewrite N.shiftr_0_r in H. fold (cartesian dim m) in H.
  assert (Z : forall i, k' <= i -> N.testbit m (N.of_nat i) = false).
  { intros i Hi. destruct H as [[H _]|[H _]].
    - pose proof (size_lt_pow m). apply lt_pow_bit. eapply N.lt_le_trans; eauto. apply N.pow_le_mono_r; lia.
    - assert (E : N.testbit (N.shiftr m (N.of_nat k')) (N.of_nat i - N.of_nat k') = false) by (rewrite H; apply N.bits_0).
      rewrite N.shiftr_spec in E by lia. replace (N.of_nat i - N.of_nat k' + N.of_nat k')%N with (N.of_nat i) in E by lia. exact E. }
  assert (G : gathers dim m (cartesian dim m) k') by tauto. destruct G as [GL GB]. split; auto.
  intros e lev He. destruct (GB e He) as [G1 G2]. destruct (le_lt_dec k' (dim * lev + e)) as [Hle|Hlt].
  - rewrite Z by lia. apply lt_pow_bit. apply G2. auto.
  - apply G1. auto.
Qed.

(** ** Round trips *)
(** Coordinates of a box of the given level. *)
Definition box (dim level : nat) (iX : list N) : Prop :=
  length iX = dim /\ forall x, In x iX -> (x < 2 ^ N.of_nat level)%N.

Lemma N_bits_inj (a b : N) : (forall i : nat, N.testbit a (N.of_nat i) = N.testbit b (N.of_nat i)) -> a = b.
Proof. intros H. apply N.bits_inj. intros n. rewrite <- (N2Nat.id n). apply H. Qed.

Lemma testbit_above (n : N) (k i : nat) : (n < 2 ^ N.of_nat k)%N -> k <= i -> N.testbit n (N.of_nat i) = false.
Proof.
  intros H Hi. apply lt_pow_bit. eapply N.lt_le_trans; eauto. apply N.pow_le_mono_r; lia.
Qed.

Lemma decode_encode dim level iX : 0 < dim -> box dim level iX -> cartesian dim (morton iX level) = iX.
Proof.
  intros Hdim [HL HB]. destruct (cartesian_spec dim (morton iX level) Hdim) as [CL CB].
  destruct (morton_spread iX level) as [S1 S2]. rewrite HL in *.
  apply nth_ext with (d := 0%N) (d' := 0%N); [congruence|]. rewrite CL. intros e He.
  apply N_bits_inj. intros lev. rewrite CB by auto. destruct (le_lt_dec level lev) as [Hl|Hl].
  - rewrite (testbit_above (nth e iX 0%N) level lev); auto.
    + apply (testbit_above _ (dim * level)); auto. assert (dim * level <= dim * lev) by (apply Nat.mul_le_mono_l; lia). lia.
    + apply HB. apply nth_In. lia.
  - apply S2; auto. assert (dim * (lev + 1) <= dim * level) by (apply Nat.mul_le_mono_l; lia). lia.
Qed.

Lemma encode_decode dim level m : 0 < dim -> (m < 2 ^ N.of_nat (dim * level))%N ->
  box dim level (cartesian dim m) /\ morton (cartesian dim m) level = m.
Proof.
  intros Hdim Hm. destruct (cartesian_spec dim m Hdim) as [CL CB]. split.
  - split; auto. intros x Hx. apply (In_nth _ _ 0%N) in Hx. destruct Hx as [e [He <-]]. rewrite CL in He.
    destruct (N.lt_ge_cases (nth e (cartesian dim m) 0%N) (2 ^ N.of_nat level)) as [H|H]; auto. exfalso.
    set (y := nth e (cartesian dim m) 0%N) in *.
    assert (Hy : y <> 0%N). { intros Q. rewrite Q in H. apply (N.pow_nonzero 2 (N.of_nat level)); [discriminate|lia]. }
    assert (HT : N.testbit y (N.log2 y) = true) by (apply N.bit_log2; auto).
    assert (HG : (N.of_nat level <= N.log2 y)%N). { apply N.log2_le_pow2; lia. }
    rewrite <- (N2Nat.id (N.log2 y)) in HT. unfold y in HT at 1. rewrite CB in HT by auto.
    rewrite (testbit_above m (dim * level)) in HT; [discriminate|auto|].
    assert (dim * level <= dim * N.to_nat (N.log2 y)) by (apply Nat.mul_le_mono_l; lia). lia.
  - destruct (morton_spread (cartesian dim m) level) as [S1 S2]. rewrite CL in *.
    apply N_bits_inj. intros i. destruct (le_lt_dec (dim * level) i) as [Hi|Hi].
    + rewrite !(testbit_above _ (dim * level)); auto.
    + pose proof (Nat.div_mod i dim) as HD. pose proof (Nat.mod_upper_bound i dim) as HM.
      lapply HD; [clear HD; intros HD|lia]. lapply HM; [clear HM; intros HM|lia]. rewrite HD at 1. rewrite HD in Hi at 1.
      rewrite S2 by auto. rewrite CB by auto. rewrite <- HD. reflexivity.
Qed.

Lemma morton_range iX level : (morton iX level < 2 ^ N.of_nat (length iX * level))%N.
Proof. apply morton_spread. Qed.

Lemma morton_injective dim level iX iY : 0 < dim -> box dim level iX -> box dim level iY ->
  morton iX level = morton iY level -> iX = iY.
Proof.
  intros Hd HX HY E. rewrite <- (decode_encode dim level iX), <- (decode_encode dim level iY), E; auto.
Qed.
