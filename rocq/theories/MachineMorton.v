(** Morton indices with the integer widths of the code:
    src/operations/misc/morton_index.cpp:24-54.  [1 << level] is a shift of the type int,
    the components and the index are int64_t, shift counts of line 40 are size_t. *)
From Coq Require Import List Arith ZArith NArith QArith Qround Lia Bool.
From Verif Require Import Prelude Heap HeapProofs Morton MortonSort Machine.
Import ListNotations.
Local Open Scope Z_scope.

(** a << s of a non-negative int ([expr.shift] of C++17: the value must fit the unsigned
    type of the same width and is then converted). *)
Definition shl32 (a s : Z) : outcome Z :=
  if (s <? 0) || (32 <=? s) || (a <? 0) then UB
  else if a * 2 ^ s <? 2 * (max32 + 1) then Ok (wrap32 (a * 2 ^ s)) else UB.
Definition shl64 (a s : Z) : outcome Z :=
  if (s <? 0) || (64 <=? s) || (a <? 0) then UB
  else if a * 2 ^ s <? 2 * (max64 + 1) then Ok (wrap64 (a * 2 ^ s)) else UB.

(** getCartesianIndex (24-34) *)
Fixpoint mc_loop (fuel : nat) (dim : nat) (m : Z) (idx : list Z) (d : nat) (level : Z) : outcome (list Z) :=
  match fuel with
  | O => NoFuel
  | S f =>
      if m =? 0 then Ok idx
      else
        match nth_error idx d with
        | None => UB
        | Some v =>
            let* one := shl32 1 level in
            let* p := i64 (Z.rem m 2 * one) in
            let* v' := i64 (v + p) in
            let d1 := ((d + 1) mod dim)%nat in
            let* level1 := if (d1 =? 0)%nat then i64 (level + 1) else Ok level in
            mc_loop f dim (Z.shiftr m 1) (lupd idx d v') d1 level1
        end
  end.
Definition m_cartesian (fuel dim : nat) (m : Z) : outcome (list Z) := mc_loop fuel dim m (repeat 0 dim) 0 0.

(** getMortonIndex (36-45) *)
Fixpoint mm_row (k : nat) (dim lev d : nat) (s : Z * list Z) : outcome (Z * list Z) :=
  match k with
  | O => Ok s
  | S k' =>
      let '(m, iX) := s in
      let x := nth d iX 0 in
      let* t := shl64 (Z.land x 1) (Z.of_nat (dim * lev + d)) in
      let* m' := i64 (m + t) in
      mm_row k' dim lev (d + 1) (m', lupd iX d (Z.shiftr x 1))
  end.
Fixpoint mm_levels (k : nat) (lev : nat) (s : Z * list Z) : outcome (Z * list Z) :=
  match k with
  | O => Ok s
  | S k' => let dim := length (snd s) in let* s' := mm_row dim dim lev 0 s in mm_levels k' (lev + 1) s'
  end.
Definition m_morton (iX : list Z) (level : nat) : outcome Z :=
  let* s := mm_levels level 0 (0, iX) in Ok (fst s).

(** getBoxNumber (47-54); the conversion of a double to int64_t truncates. *)
Definition truncate (q : Q) : Z := Z.quot (Qnum q) (Zpos (Qden q)).
Fixpoint m_cells (p : list Q) (nx : Z) : outcome (list Z) :=
  match p with
  | [] => Ok []
  | v :: t =>
      let* z := i64 (truncate (Qmult v (inject_Z nx))) in
      let* r := m_cells t nx in Ok (z :: r)
  end.
Definition m_box_number (p : list Q) (level : nat) : outcome Z :=
  let* nx := shl32 1 (Z.of_nat level) in
  let* c := m_cells p nx in m_morton c level.
Definition m_box_numbers (x : list (list Q)) (level : nat) : outcome (list Z) :=
  let* xn := normalize x (1 # 2) in
  match xn with
  | [] => UB
  | c :: _ => omaps (fun i => let* p := point xn i in m_box_number p level) (seq 0 (length c))
  end.

(** ** Shifts *)
Lemma wrap32_small z : - max32 - 1 <= z <= max32 -> wrap32 z = z.
Proof. intros H. unfold wrap32. rewrite Z.mod_small by lia. lia. Qed.
Lemma wrap64_small z : - max64 - 1 <= z <= max64 -> wrap64 z = z.
Proof. intros H. unfold wrap64. rewrite Z.mod_small by lia. lia. Qed.

Lemma pow2_31 s : 0 <= s <= 30 -> 0 < 2 ^ s <= max32.
Proof.
  intros H. split; [apply Z.pow_pos_nonneg; lia|]. transitivity (2 ^ 30); [apply Z.pow_le_mono_r; lia|]. reflexivity || (unfold max32; lia).
Qed.
Lemma pow2_63 s : 0 <= s <= 62 -> 0 < 2 ^ s <= 2 ^ 62.
Proof. intros H. split; [apply Z.pow_pos_nonneg; lia|apply Z.pow_le_mono_r; lia]. Qed.

Lemma shl32_one s : 0 <= s <= 30 -> shl32 1 s = Ok (2 ^ s).
Proof.
  intros H. pose proof (pow2_31 s H) as P. unfold shl32. destruct (Z.ltb_spec s 0); [lia|]. destruct (Z.leb_spec 32 s); [lia|].
  cbn [orb]. destruct (Z.ltb_spec 1 0); [lia|]. rewrite Z.mul_1_l.
  destruct (Z.ltb_spec (2 ^ s) (2 * (max32 + 1))); [|lia]. rewrite wrap32_small by lia. reflexivity.
Qed.

Lemma shl64_bit b s : 0 <= b <= 1 -> 0 <= s <= 62 -> shl64 b s = Ok (b * 2 ^ s).
Proof.
  intros Hb H. pose proof (pow2_63 s H) as P. assert (E : 2 ^ 62 = 4611686018427387904) by reflexivity.
  assert (0 <= b * 2 ^ s <= 2 ^ 62) by nia.
  unfold shl64. destruct (Z.ltb_spec s 0); [lia|]. destruct (Z.leb_spec 64 s); [lia|].
  cbn [orb]. destruct (Z.ltb_spec b 0); [lia|].
  unfold max64 in *. destruct (Z.ltb_spec (b * 2 ^ s) (2 * (9223372036854775807 + 1))); [|lia]. rewrite wrap64_small by (unfold max64; lia). reflexivity.
Qed.

Lemma shl64_UB a s : 64 <= s -> shl64 a s = UB.
Proof. intros H. unfold shl64. destruct (Z.ltb_spec s 0); [lia|]. destruct (Z.leb_spec 64 s); [|lia]. reflexivity. Qed.

(** ** Encoding *)
Lemma map_lupd {A B} (f : A -> B) l k a : map f (lupd l k a) = lupd (map f l) k (f a).
Proof. revert k. induction l as [|x l IH]; intros [|k]; simpl; auto. rewrite IH. reflexivity. Qed.

Lemma bit_Z x : Z.land (Z.of_N x) 1 = Z.of_N (bit x).
Proof.
  unfold bit. change 1 with (Z.ones 1). change 1%N with (N.ones 1). rewrite Z.land_ones, N.land_ones by lia.
  rewrite N2Z.inj_mod. reflexivity.
Qed.
Lemma shiftr_Z x : Z.shiftr (Z.of_N x) 1 = Z.of_N (N.shiftr x 1).
Proof. rewrite Z.shiftr_div_pow2, N.shiftr_div_pow2 by lia. rewrite N2Z.inj_div. reflexivity. Qed.

Lemma mm_row_exact dim lev : forall k d (m : N) (iX : list N), (dim * lev + d + k <= 63)%nat ->
  (m < 2 ^ N.of_nat (dim * lev + d))%N ->
  mm_row k dim lev d (Z.of_N m, map Z.of_N iX) =
  Ok (Z.of_N (fst (morton_row k dim lev d (m, iX))), map Z.of_N (snd (morton_row k dim lev d (m, iX)))) /\
  (fst (morton_row k dim lev d (m, iX)) < 2 ^ N.of_nat (dim * lev + d + k))%N.
Proof.
  induction k as [|k IH]; intros d m iX Hk Hm.
  - cbn [mm_row morton_row fst snd]. rewrite Nat.add_0_r. auto.
  - cbn [mm_row morton_row].
    replace (nth d (map Z.of_N iX) 0) with (Z.of_N (nth d iX 0%N)) by (change 0 with (Z.of_N 0); rewrite map_nth; reflexivity).
    rewrite bit_Z, shiftr_Z. set (x := nth d iX 0%N). pose proof (bit_lt x) as Hb.
    rewrite shl64_bit by lia. cbn [bind].
    assert (E : (Z.of_N m + Z.of_N (bit x) * 2 ^ Z.of_nat (dim * lev + d))%Z =
                Z.of_N (m + N.shiftl (bit x) (N.of_nat (dim * lev + d)))%N).
    { rewrite N.shiftl_mul_pow2, N2Z.inj_add, N2Z.inj_mul, N2Z.inj_pow, nat_N_Z. reflexivity. }
    rewrite E.
    pose proof (add_bit_lt m (bit x) (N.of_nat (dim * lev + d)) Hm Hb) as H2.
    replace (N.of_nat (dim * lev + d) + 1)%N with (N.of_nat (dim * lev + (d + 1))) in H2 by lia.
    set (m1 := (m + N.shiftl (bit x) (N.of_nat (dim * lev + d)))%N) in *.
    assert (H3 : (2 ^ N.of_nat (dim * lev + (d + 1)) <= 2 ^ 63)%N) by (apply N.pow_le_mono_r; lia).
    assert (H4 : Z.of_N m1 < 2 ^ 63).
    { change (2 ^ 63) with (Z.of_N (2 ^ 63)). lia. }
    change (2 ^ 63) with (max64 + 1) in H4.
    rewrite i64_Ok by (unfold max64, max32 in *; lia). cbn [bind].
    rewrite <- map_lupd. destruct (IH (d + 1)%nat m1 (lupd iX d (N.shiftr x 1))) as [I1 I2]; [lia|auto|].
    replace (dim * lev + d + S k)%nat with (dim * lev + (d + 1) + k)%nat by lia. auto.
Qed.

Lemma morton_row_length : forall k dim lev d s, length (snd (morton_row k dim lev d s)) = length (snd s).
Proof.
  induction k as [|k IH]; intros dim lev d [m iX]; auto. cbn [morton_row]. rewrite IH. cbn [snd]. apply lupd_length.
Qed.

Lemma mm_levels_exact dim : forall k lev (m : N) (iX : list N), length iX = dim -> (dim * (lev + k) <= 63)%nat ->
  (m < 2 ^ N.of_nat (dim * lev))%N ->
  mm_levels k lev (Z.of_N m, map Z.of_N iX) =
  Ok (Z.of_N (fst (morton_levels k lev (m, iX))), map Z.of_N (snd (morton_levels k lev (m, iX)))).
Proof.
  induction k as [|k IH]; intros lev m iX HL Hk Hm; auto.
  cbn [mm_levels morton_levels snd]. rewrite map_length, HL.
  destruct (mm_row_exact dim lev dim 0 m iX) as [E1 E2]; [nia|rewrite Nat.add_0_r; auto|].
  rewrite E1. cbn [bind].
  pose proof (morton_row_length dim dim lev 0 (m, iX)) as HL2. cbn [snd] in HL2.
  destruct (morton_row dim dim lev 0 (m, iX)) as [m1 iX1]. cbn [fst snd] in *.
  apply IH; [congruence|nia|]. replace (dim * (lev + 1))%nat with (dim * lev + 0 + dim)%nat by lia. auto.
Qed.

Lemma m_morton_exact (iX : list N) level : (length iX * level <= 63)%nat ->
  m_morton (map Z.of_N iX) level = Ok (Z.of_N (morton iX level)).
Proof.
  intros H. unfold m_morton, morton. change 0 with (Z.of_N 0).
  rewrite (mm_levels_exact (length iX)); auto. rewrite Nat.mul_0_r. reflexivity.
Qed.

(** With more than 64 bits the shift count leaves the type. *)
Definition ok_or_ub {A} (o : outcome A) : Prop := (exists a, o = Ok a) \/ o = UB.
Lemma i64_ok_or_ub z : ok_or_ub (i64 z).
Proof. unfold ok_or_ub, i64. destruct (_ && _); eauto. Qed.
Lemma shl64_ok_or_ub a s : ok_or_ub (shl64 a s).
Proof. unfold ok_or_ub, shl64. destruct (_ || _ || _); eauto. destruct (_ <? _); eauto. Qed.

Lemma mm_row_cases dim lev : forall k d s,
  (exists s', mm_row k dim lev d s = Ok s' /\ length (snd s') = length (snd s) /\ (k = 0%nat \/ (dim * lev + d + k <= 64)%nat)) \/
  mm_row k dim lev d s = UB.
Proof.
  induction k as [|k IH]; intros d s.
  - left. exists s. auto.
  - cbn [mm_row]. destruct s as [m iX].
    destruct (le_lt_dec 64 (dim * lev + d)) as [Hs|Hs].
    { right. rewrite shl64_UB by lia. reflexivity. }
    destruct (shl64_ok_or_ub (Z.land (nth d iX 0) 1) (Z.of_nat (dim * lev + d))) as [[t ->]| ->]; [cbn [bind]|right; reflexivity].
    destruct (i64_ok_or_ub (m + t)) as [[m' ->]| ->]; [cbn [bind]|right; reflexivity].
    destruct (IH (d + 1)%nat (m', lupd iX d (Z.shiftr (nth d iX 0) 1))) as [(s' & E & L & C)|E]; [left|right; auto].
    exists s'. split; auto. cbn [snd] in *. rewrite lupd_length in L. split; auto. right. lia.
Qed.

Lemma mm_levels_UB : forall k lev s, (0 < length (snd s))%nat -> (0 < k)%nat -> (64 < length (snd s) * (lev + k))%nat ->
  mm_levels k lev s = UB.
Proof.
  induction k as [|k IH]; intros lev s Hd Hk H; [lia|]. cbn [mm_levels].
  destruct (mm_row_cases (length (snd s)) lev (length (snd s)) 0 s) as [(s' & E & L & C)|E]; rewrite E; [cbn [bind]|reflexivity].
  destruct C as [C|C]; [lia|].
  destruct k as [|k]; [lia|]. apply IH; rewrite ?L; lia.
Qed.

Lemma m_morton_UB (iX : list Z) level : iX <> [] -> (64 < length iX * level)%nat -> m_morton iX level = UB.
Proof.
  intros Hne H. unfold m_morton. rewrite mm_levels_UB; auto.
  - destruct iX; [congruence|simpl; lia].
  - destruct level; [lia|lia].
Qed.

(** ** Decoding *)
Lemma rem_Z m : Z.rem (Z.of_N m) 2 = Z.of_N (m mod 2).
Proof. rewrite Z.rem_mod_nonneg by lia. rewrite N2Z.inj_mod. reflexivity. Qed.

Lemma mc_loop_exact (dim : nat) : (0 < dim)%nat -> forall k f (m : N) (idx : list N) d level,
  (m < 2 ^ N.of_nat k)%N -> (k < f)%nat -> (d < dim)%nat -> length idx = dim -> (dim * level + d + k <= 31 * dim)%nat ->
  (forall e, (e < dim)%nat -> (nth e idx 0 < 2 ^ N.of_nat (if e <? d then level + 1 else level)%nat)%N) ->
  mc_loop f dim (Z.of_N m) (map Z.of_N idx) d (Z.of_nat level) =
  Ok (map Z.of_N (cart_loop k dim m idx d level)).
Proof.
  intros Hdim. induction k as [|k IH]; intros f m idx d level Hm Hf Hd HL Hlev HB; (destruct f as [|f]; [lia|]).
  - change (2 ^ N.of_nat 0)%N with 1%N in Hm. assert (m = 0%N) by lia. subst m. reflexivity.
  - cbn [mc_loop cart_loop]. destruct (N.eqb_spec m 0) as [->|Hz]; [reflexivity|].
    destruct (Z.eqb_spec (Z.of_N m) 0); [lia|].
    rewrite nth_error_map. rewrite (nth_error_nth' idx 0%N) by lia. cbn [option_map].
    assert (Hl : (level <= 30)%nat) by nia.
    rewrite shl32_one by lia. cbn [bind]. rewrite rem_Z, shiftr_Z.
    assert (Hb : (m mod 2 < 2)%N) by (apply N.mod_lt; discriminate).
    pose proof (pow2_31 (Z.of_nat level) ltac:(lia)) as P.
    assert (0 <= Z.of_N (m mod 2) * 2 ^ Z.of_nat level <= max32).
    { clear - Hb P. set (u := (m mod 2)%N) in *. clearbody u. assert (u = 0%N \/ u = 1%N) as [-> | ->] by lia.
      - rewrite Z.mul_0_l. lia.
      - rewrite Z.mul_1_l. lia. }
    rewrite i64_Ok by (unfold max64, max32 in *; lia). cbn [bind].
    pose proof (HB d Hd) as Hv. rewrite Nat.ltb_irrefl in Hv.
    assert (Hv' : Z.of_N (nth d idx 0%N) < 2 ^ Z.of_nat level).
    { rewrite <- nat_N_Z. change 2 with (Z.of_N 2). rewrite <- N2Z.inj_pow. lia. }
    rewrite i64_Ok by (unfold max64, max32 in *; lia). cbn [bind].
    set (v1 := (nth d idx 0 + m mod 2 * N.shiftl 1 (N.of_nat level))%N).
    assert (E : Z.of_N (nth d idx 0%N) + Z.of_N (m mod 2) * 2 ^ Z.of_nat level = Z.of_N v1).
    { unfold v1. rewrite N.shiftl_mul_pow2, N.mul_1_l, N2Z.inj_add, N2Z.inj_mul, N2Z.inj_pow, nat_N_Z. reflexivity. }
    rewrite E, <- map_lupd.
    assert (Hv1 : (v1 < 2 ^ N.of_nat (level + 1))%N).
    { unfold v1. replace (m mod 2 * N.shiftl 1 (N.of_nat level))%N with (N.shiftl (m mod 2) (N.of_nat level)) by (rewrite !N.shiftl_mul_pow2; lia).
      replace (N.of_nat (level + 1)) with (N.of_nat level + 1)%N by lia. apply add_bit_lt; auto. }
    assert (Hm1 : (N.shiftr m 1 < 2 ^ N.of_nat k)%N).
    { rewrite N.shiftr_div_pow2. apply N.div_lt_upper_bound; [discriminate|]. rewrite Nat2N.inj_succ, N.pow_succ_r' in Hm. exact Hm. }
    destruct (Nat.eq_dec (d + 1) dim) as [Ed|Ed].
    + rewrite Ed, Nat.mod_same by lia. cbn [Nat.eqb]. rewrite i64_Ok by (unfold max64, max32 in *; lia). cbn [bind].
      replace (Z.of_nat level + 1) with (Z.of_nat (level + 1)) by lia.
      apply IH; auto; try lia.
      * rewrite lupd_length. auto.
      * intros e He. rewrite nth_lupd by lia. destruct (Nat.ltb_spec e 0); [lia|].
        destruct (Nat.eqb_spec e d); auto. specialize (HB e He). destruct (Nat.ltb_spec e d); [auto|lia].
    + rewrite Nat.mod_small by lia. destruct (Nat.eqb_spec (d + 1) 0); [lia|]. cbn [bind].
      apply IH; auto; try lia.
      * rewrite lupd_length. auto.
      * intros e He. rewrite nth_lupd by lia. specialize (HB e He).
        destruct (Nat.eqb_spec e d) as [->|Hne].
        -- destruct (Nat.ltb_spec d (d + 1)); [auto|lia].
        -- destruct (Nat.ltb_spec e d), (Nat.ltb_spec e (d + 1)); auto; lia.
Qed.

Lemma size_nat_le (m : N) k : (m < 2 ^ N.of_nat k)%N -> (N.size_nat m <= k)%nat.
Proof.
  destruct m as [|p]; [simpl; lia|]. simpl N.size_nat. revert k.
  induction p as [p IH|p IH|]; intros [|k] H; cbn [Pos.size_nat]; try (simpl in H; lia).
  - rewrite Nat2N.inj_succ, N.pow_succ_r' in H. specialize (IH k). lia.
  - rewrite Nat2N.inj_succ, N.pow_succ_r' in H. specialize (IH k). lia.
Qed.

Lemma m_cartesian_exact (dim fuel : nat) (m : N) : (0 < dim)%nat -> (m < 2 ^ N.of_nat (31 * dim))%N -> (N.size_nat m < fuel)%nat ->
  m_cartesian fuel dim (Z.of_N m) = Ok (map Z.of_N (cartesian dim m)).
Proof.
  intros Hd Hm Hf. unfold m_cartesian, cartesian.
  assert (E : map Z.of_N (repeat 0%N dim) = repeat 0 dim) by (clear; induction dim; simpl; congruence).
  rewrite <- E. apply (mc_loop_exact dim Hd (N.size_nat m) fuel m (repeat 0%N dim) 0 0); auto.
  - apply size_lt_pow.
  - apply repeat_length.
  - pose proof (size_nat_le m _ Hm). lia.
  - intros e He. rewrite nth_repeat. apply N.neq_0_lt_0. apply N.pow_nonzero. discriminate.
Qed.

(** ** Boxes of points *)
Lemma truncate_floor q : (0 <= q)%Q -> truncate q = Qfloor q.
Proof.
  destruct q as [a b]. unfold truncate, Qle, Qfloor. cbn [Qnum Qden]. intros H. apply Z.quot_div_nonneg; lia.
Qed.

Lemma m_cells_exact level p : (level <= 30)%nat -> forall c, cells p level = Ok c -> 
  (forall x, In x c -> (x < 2 ^ N.of_nat level)%N) -> m_cells p (2 ^ Z.of_nat level) = Ok (map Z.of_N c).
Proof.
  intros Hl. induction p as [|v p IH]; intros c E H.
  - cbn in *. injection E as <-. reflexivity.
  - cbn [cells m_cells] in *.
    pose proof (pow2_31 (Z.of_nat level) ltac:(lia)) as [P P'].
    set (z := Qfloor (v * inject_Z (2 ^ Z.of_nat level))) in *.
    destruct (Z.ltb_spec z 0) as [Hz|Hz]; [discriminate|].
    rewrite truncate_floor.
    2:{ rewrite Zle_Qle in Hz. eapply Qle_trans; [exact Hz|apply Qfloor_le]. }
    fold z. apply bind_Ok in E. destruct E as [r [Er E]]. injection E as <-.
    assert (Z1 : (Z.to_N z < 2 ^ N.of_nat level)%N) by (apply H; left; auto).
    apply N2Z.inj_lt in Z1. rewrite N2Z.inj_pow, Z2N.id, nat_N_Z in Z1 by auto.
    rewrite i64_Ok by (unfold max64, max32 in *; lia). cbn [bind].
    rewrite (IH r Er (fun x Hx => H x (or_intror Hx))). cbn [bind map].
    rewrite Z2N.id by auto. reflexivity.
Qed.

Lemma m_box_number_exact level p c : (level <= 30)%nat -> cells p level = Ok c -> box (length c) level c ->
  (length c * level <= 63)%nat -> m_box_number p level = Ok (Z.of_N (morton c level)).
Proof.
  intros Hl Ec [_ HB] Hd. unfold m_box_number. rewrite shl32_one by lia. cbn [bind].
  rewrite (m_cells_exact level p Hl c Ec HB). cbn [bind]. apply m_morton_exact. auto.
Qed.

(** The box numbers sortByMortonIndex compares (77-86). *)
Lemma m_box_numbers_exact n x level : points n x -> (0 < n)%nat -> (level <= 30)%nat -> (length x * level <= 63)%nat ->
  exists bs, box_numbers x level = Ok bs /\ m_box_numbers x level = Ok (map Z.of_N bs).
Proof.
  intros HP Hn Hl Hd. destruct (box_numbers_spec n x level HP Hn) as (b & bmin & bs & EB & LB & EN & LN & HN).
  exists bs. split; auto. unfold m_box_numbers. unfold box_numbers in EN.
  destruct (normalize_spec x (fun c => points_nonempty n x c HP Hn)) as (b' & bmin' & EB' & _ & _ & EQ & _).
  rewrite EB in EB'. injection EB' as <- <-. rewrite EQ in EN |- *. cbn [bind] in EN |- *.
  set (xn := scale_all x bmin (b + 2 * (1 # 2))) in *. destruct xn as [|c0 xt] eqn:EX; [discriminate|].
  set (k := length c0) in *. rewrite <- EX in *. clear EX.
  assert (L : forall f : nat -> outcome N, forall l r, omaps f l = Ok r -> length r = length l).
  { clear. intros f. induction l as [|a l IH]; intros r H; simpl in H; [injection H as <-; auto|].
    apply bind_Ok in H. destruct H as [y [_ H]]. apply bind_Ok in H. destruct H as [ys [Hy H]]. injection H as <-. simpl. f_equal. auto. }
  pose proof (L _ _ _ EN) as Lk. rewrite seq_length, LN in Lk. rewrite <- Lk in *. clear L Lk k.
  assert (G : forall l r, omaps (fun i => let* p := point xn i in box_number p level) l = Ok r -> (forall i, In i l -> (i < n)%nat) ->
    omaps (fun i => let* p := point xn i in m_box_number p level) l = Ok (map Z.of_N r)).
  { clear EN. induction l as [|i l IH]; intros r H Hi; simpl in H |- *; [injection H as <-; auto|].
    apply bind_Ok in H. destruct H as [y [H1 H]]. apply bind_Ok in H. destruct H as [ys [H2 H]]. injection H as <-.
    destruct (HN i (Hi i (or_introl eq_refl))) as (p & c & P1 & P2 & P3 & _). rewrite P1 in H1 |- *. cbn [bind] in H1 |- *.
    unfold box_number in H1. rewrite P2 in H1. cbn [bind] in H1. injection H1 as <-.
    pose proof P3 as [Lc _].
    rewrite (m_box_number_exact level p c) by (auto; rewrite Lc; auto). cbn [bind].
    rewrite (IH ys H2) by (intros; apply Hi; right; auto). reflexivity. }
  apply G; auto. intros i Hi. apply in_seq in Hi. lia.
Qed.
