(** LAPACK's factorizations of tiles: dgeqrt3 and dtpqrt2 (called in
    src/operations/LAPACK/geqrt.cpp:40-45 and tpqrt.cpp:36-42) as products of the reflectors of
    dlarfg, with the triangular factor of their compact form.

    dgeqrt3 computes the same reflectors and the same factor by halving the columns;
    modelled is the loop over the columns (dgeqr2, then dlarft). *)
From Coq Require Import List Arith ZArith Lia Bool Ring_theory Ring Setoid Morphisms.
From Verif Require Import Prelude Ring MatFun MatSetoid Matrix MatOps Lapack Triangular Reflect ReflectSpec Householder.
Import ListNotations.
Local Open Scope nat_scope.

Section Tile.
Context {R : cring}.
Add Ring Rr : (cr_th R).
Notation dense := (dense R).
Notation mat := (mat R).
Notation vec := (nat -> R).

(** dlarft, forward, columnwise: column k of T is -tau_k T (Y^T y_k), with tau_k below. *)
Fixpoint dlarft (m : nat) (Y : mat) (tau : vec) (k : nat) : mat :=
  match k with
  | O => mzero
  | S k' => fun i j =>
      if j =? k' then
        if i =? k' then tau k'
        else if i <? k' then (- (tau k') * sum k' (fun l => dlarft m Y tau k' i l * dot m (fun x => Y x l) (fun x => Y x k')))%r
        else 0%r
      else if i <? k' then dlarft m Y tau k' i j else 0%r
  end.

(** Product of the reflectors with vectors in the columns of Y. *)
Fixpoint wprod (m : nat) (Y : mat) (tau : vec) (k : nat) : mat :=
  match k with
  | O => mid
  | S k' => mmul m (wprod m Y tau k') (elem (fun i => Y i k') (tau k'))
  end.

Lemma dlarft_upper m Y tau k i j : j < i -> dlarft m Y tau k i j = 0%r.
Proof.
  revert i j. induction k as [|k IH]; intros i j H; simpl; [reflexivity|].
  destruct (Nat.eqb_spec j k).
  - destruct (Nat.eqb_spec i k); [lia|]. destruct (Nat.ltb_spec i k); [lia|reflexivity].
  - destruct (i <? k); auto.
Qed.

Lemma tri_dlarft m Y tau k i j : tri Upper false (dlarft m Y tau k) i j = dlarft m Y tau k i j.
Proof.
  unfold tri. destruct (Nat.eqb_spec i j); auto. destruct (Nat.ltb_spec i j); auto.
  symmetry. apply dlarft_upper. lia.
Qed.

Lemma dlarft_old m Y tau k i j : i < k -> j < k -> dlarft m Y tau (S k) i j = dlarft m Y tau k i j.
Proof.
  intros Hi Hj. simpl. destruct (Nat.eqb_spec j k); [lia|]. destruct (Nat.ltb_spec i k); [reflexivity|lia].
Qed.

(** H_0 ... H_{k-1} = I - Y T Y^T *)
Lemma wy_product m Y tau k : feq m m (wprod m Y tau k) (refl k Y (dlarft m Y tau k)).
Proof.
  induction k as [|k IH].
  - intros i j Hi Hj. simpl. unfold refl, msub, mmul. simpl. ring.
  - cbn [wprod]. eapply feq_trans; [apply feq_mmul; [exact IH|apply feq_refl]|].
    set (v := fun i => Y i k). set (t := tau k). set (T := dlarft m Y tau k).
    (* (Y^T y_k) *)
    set (w := fun l => dot m (fun x => Y x l) v).
    intros i j Hi Hj.
    transitivity (refl k Y T i j - t * (v i - sum k (fun l => Y i l * sum k (fun x => T l x * w x))) * v j)%r.
    + transitivity (mmul m (refl k Y T) mid i j - t * v j * sum m (fun x => refl k Y T i x * v x))%r.
      * unfold mmul, elem. rewrite <- sum_mul_l, <- sum_sub. apply sum_ext. intros x _. ring.
      * rewrite mmul_id_r by auto.
        assert (E : sum m (fun x => refl k Y T i x * v x)%r = (v i - sum k (fun l => Y i l * sum k (fun x => T l x * w x)))%r).
        { transitivity (mmul m (refl k Y T) (fun x _ => v x) i 0); [reflexivity|].
          rewrite (refl_apply m k Y T (fun x _ => v x) 1 i 0 Hi ltac:(lia)). reflexivity. }
        rewrite E. ring.
    + unfold refl, msub. 
      assert (E : mmul (S k) Y (mmul (S k) (dlarft m Y tau (S k)) (mtr Y)) i j =
        (mmul k Y (mmul k T (mtr Y)) i j + t * (v i - sum k (fun l => Y i l * sum k (fun x => T l x * w x))) * v j)%r).
      { unfold mmul at 1. rewrite sum_S.
        assert (E1 : forall l, l < k -> mmul (S k) (dlarft m Y tau (S k)) (mtr Y) l j =
          (mmul k T (mtr Y) l j - t * sum k (fun x => T l x * w x) * v j)%r).
        { intros l Hl. unfold mmul. rewrite sum_S.
          rewrite (sum_ext k _ (fun x => T l x * mtr Y x j)%r) by (intros x Hx; rewrite dlarft_old by auto; reflexivity).
          cbn [dlarft]. rewrite Nat.eqb_refl. destruct (Nat.eqb_spec l k); [lia|]. destruct (Nat.ltb_spec l k); [|lia].
          fold T t. unfold w, mtr, v. ring. }
        assert (E2 : mmul (S k) (dlarft m Y tau (S k)) (mtr Y) k j = (t * v j)%r).
        { unfold mmul. rewrite sum_S. rewrite sum_zero'.
          - cbn [dlarft]. rewrite !Nat.eqb_refl. unfold mtr. fold t v. unfold v. ring.
          - intros x Hx. rewrite dlarft_upper by lia. ring. }
        rewrite E2. rewrite (sum_ext k _ (fun l => Y i l * mmul k T (mtr Y) l j - t * v j * (Y i l * sum k (fun x => T l x * w x)))%r)
          by (intros l Hl; rewrite E1 by auto; ring).
        rewrite sum_sub, sum_mul_l. unfold mmul, v. ring. }
      rewrite E. ring.
Qed.

Lemma wprod_orthogonal m Y tau k : (forall s, s < k -> bal m (fun i => Y i s) (tau s)) -> orthogonal m (wprod m Y tau k).
Proof.
  induction k as [|k IH]; intros HB; simpl; [apply orthogonal_id|].
  apply orthogonal_mmul; [apply IH; intros; apply HB; lia|apply elem_orthogonal; apply HB; lia].
Qed.

Lemma wprod_ext m Y Y' tau tau' k :
  (forall s i, s < k -> i < m -> Y i s = Y' i s) -> (forall s, s < k -> tau s = tau' s) ->
  feq m m (wprod m Y tau k) (wprod m Y' tau' k).
Proof.
  induction k as [|k IH]; intros HY HT; simpl; [apply feq_refl|].
  apply feq_mmul; [apply IH; auto|]. intros i j Hi Hj. unfold elem. rewrite !HY, HT by auto. reflexivity.
Qed.

Lemma hprod_wprod m A tau k : feq m m (hprod m A tau k) (wprod m (tri Lower true A) tau k).
Proof.
  assert (E : forall s i, rv A s i = tri Lower true A i s).
  { intros s i. unfold rv, tri, hv. destruct (Nat.ltb_spec i s).
    - destruct (Nat.eqb_spec i s); [lia|]. destruct (Nat.ltb_spec s i); [lia|reflexivity].
    - destruct (Nat.eqb_spec (i - s) 0); destruct (Nat.eqb_spec i s); try lia; [reflexivity|].
      destruct (Nat.ltb_spec s i); [|lia]. f_equal. lia. }
  induction k as [|k IH]; simpl; [apply feq_refl|].
  apply feq_mmul; auto. intros i j Hi Hj. unfold elem. rewrite !E. reflexivity.
Qed.

Variable h : larfg (R := R).
Hypothesis Hh : larfg_ok h.

(** ** dgeqrt3 *)

Definition dgeqrt3 (a : dense) : outcome (dense * dense) :=
  let m := d_r a in
  let n := d_c a in
  let s := dgeqrf h m n n (d_e a, fun _ => 0%r) in
  Ok (Dn m n (fst s), Dn n n (dlarft m (tri Lower true (fst s)) (snd s) n)).

Lemma dgeqrt3_ok a x t : dgeqrt3 a = Ok (x, t) -> d_c a <= d_r a -> is_geqrt a x t.
Proof.
  intros E H. unfold dgeqrt3 in E. inversion E; subst x t; clear E. unfold is_geqrt. cbn [d_r d_c d_e].
  set (m := d_r a) in *. set (n := d_c a) in *.
  destruct (dgeqrf_inv h Hh m n (d_e a) (fun _ => 0%r) n H (le_n n)) as [HB HE].
  set (A := fst (dgeqrf h m n n (d_e a, fun _ => 0%r))) in *. set (tau := snd (dgeqrf h m n n (d_e a, fun _ => 0%r))) in *.
  assert (W : feq m m (hprod m A tau n) (tile_refl n A (dlarft m (tri Lower true A) tau n))).
  { eapply feq_trans; [apply hprod_wprod|]. eapply feq_trans; [apply wy_product|]. unfold tile_refl.
    intros i j _ _. unfold refl, msub. f_equal. apply mmul_ext; auto. intros l Hl. apply mmul_ext; auto.
    intros y _. symmetry. apply tri_dlarft. }
  do 4 (split; [reflexivity|]). split.
  - pose proof (hprod_orthogonal m A tau n HB) as [O1 O2]. split.
    + eapply feq_trans; [|exact O1]. apply feq_mmul; [apply feq_sym; exact W|]. apply feq_tr. apply feq_sym. exact W.
    + eapply feq_trans; [|exact O2]. apply feq_mmul; [|apply feq_sym; exact W]. apply feq_tr. apply feq_sym. exact W.
  - eapply feq_trans; [exact HE|]. apply feq_mul; [exact W|].
    intros i j Hi Hj. unfold work, tri. destruct (Nat.ltb_spec j n); [|lia].
    destruct (Nat.ltb_spec j i); destruct (Nat.eqb_spec i j); try lia; simpl; auto.
    + destruct (Nat.ltb_spec i j); [lia|reflexivity].
    + destruct (Nat.ltb_spec i j); [reflexivity|lia].
Qed.

(** ** dtpqrt2 *)

(** Step s of the loop: dlarfg of A(s,s) on top of column s of B, then the columns behind of
    row s of A and of B.  C(i,j) - t v_i w_j with w_j = A(s,j) + sum_l v_l B(l,j). *)
Definition tp_step (m n s : nat) (st : mat * mat * vec) : mat * mat * vec :=
  let '(A, B, tau) := st in
  let '(y, t) := h (S m) (fun i => if i =? 0 then A s s else B (i - 1) s) in
  let w := fun j => (A s j + sum m (fun l => y (S l) * B l j))%r in
  (fun i j => if i =? s then if j =? s then y 0 else if (s <? j) && (j <? n) then (A s j - t * w j)%r else A i j else A i j,
   fun i j => if j =? s then y (S i) else if (s <? j) && (j <? n) then (B i j - t * y (S i) * w j)%r else B i j,
   upd tau s t).
Fixpoint tp_loop (m n k : nat) (st : mat * mat * vec) : mat * mat * vec :=
  match k with
  | O => st
  | S k' => tp_step m n k' (tp_loop m n k' st)
  end.
Definition dtpqrt2 (a b : dense) : outcome (dense * dense * dense) :=
  let m := d_r b in
  let n := d_c b in
  let '(A, B, tau) := tp_loop m n n (d_e a, d_e b, fun _ => 0%r) in
  Ok (Dn (d_r a) (d_c a) A, Dn m n B, Dn n n (dlarft (n + m) (vst n mid B) tau n)).

(** The working matrix after k steps. *)
Definition tp_work (n k : nat) (A B : mat) : mat :=
  vst n (tri Upper false A) (fun i j => if j <? k then 0%r else B i j).

Definition tp_inv (m n k : nat) (A0 B0 A B : mat) (tau : vec) : Prop :=
  (forall s, s < k -> bal (n + m) (fun i => vst n mid B i s) (tau s)) /\
  feq (n + m) n (vst n (tri Upper false A0) B0) (mmul (n + m) (wprod (n + m) (vst n mid B) tau k) (tp_work n k A B)) /\
  (forall i j, ~ (i <= j /\ j < n) -> A i j = A0 i j).

Lemma dot_stack m n s (y : vec) (f g : mat) j : s < n ->
  dot (n + m) (fun i => vst n mid (fun l _ => y l) i s) (fun i => vst n f g i j) = (f s j + sum m (fun l => y l * g l j))%r.
Proof.
  intros Hs. unfold dot. rewrite sum_split. f_equal.
  - rewrite (sum_single n s _ Hs).
    + unfold vst. destruct (Nat.ltb_spec s n); [|lia]. unfold mid. rewrite Nat.eqb_refl. ring.
    + intros i Hi Hn. unfold vst. destruct (Nat.ltb_spec i n); [|lia]. unfold mid. destruct (Nat.eqb_spec i s); [contradiction|ring].
  - apply sum_ext. intros l _. rewrite !vst_bot. reflexivity.
Qed.

Lemma tp_step_inv m n k A0 B0 A B tau : k < n -> tp_inv m n k A0 B0 A B tau ->
  let '(A', B', tau') := tp_step m n k (A, B, tau) in tp_inv m n (S k) A0 B0 A' B' tau'.
Proof.
  intros Hk [HB [HE HU]]. unfold tp_step.
  set (x := fun i => if i =? 0 then A k k else B (i - 1) k).
  pose proof (lg_bal h Hh (S m) x) as G1. pose proof (lg_ann h Hh (S m) x) as G2.
  destruct (h (S m) x) as [y t]. cbn [fst snd] in G1, G2.
  set (w := fun j => (A k j + sum m (fun l => y (S l) * B l j))%r).
  set (A' := fun i j => if i =? k then _ else A i j).
  set (B' := fun i j => if j =? k then y (S i) else _).
  set (v := fun i => vst n mid B' i k).
  assert (V : forall i, v i = vst n mid (fun l _ => y (S l)) i k).
  { intros i. unfold v, vst. destruct (i <? n); auto. unfold B'. rewrite Nat.eqb_refl. reflexivity. }
  assert (Dv : forall f g j, dot (n + m) v (fun i => vst n f g i j) = (f k j + sum m (fun l => y (S l) * g l j))%r).
  { intros f g j. rewrite <- (dot_stack m n k (fun l => y (S l)) f g j Hk). apply dot_ext; auto. }
  assert (Dxx : dot (S m) (hv y) (hv y) = dot (n + m) v v).
  { rewrite (dot_ext (n + m) v v v (fun i => vst n mid (fun l _ => y (S l)) i k)); auto. rewrite Dv.
    unfold dot. rewrite sum_first. unfold hv at 1 2. simpl. unfold mid. rewrite Nat.eqb_refl.
    unfold hv. simpl. ring. }
  assert (BL : bal (n + m) v t) by (unfold bal in *; rewrite <- Dxx; exact G1).
  assert (Dx : dot (S m) (hv y) x = w k).
  { unfold dot. rewrite sum_first. unfold w, hv, x. simpl.
    rewrite (sum_ext m _ (fun l => y (S l) * B l k)%r) by (intros l _; rewrite Nat.sub_0_r; reflexivity). ring. }
  rewrite Dx in G2.
  assert (YB : forall s i, s < k -> vst n mid B i s = vst n mid B' i s).
  { intros s i Hs. unfold vst. destruct (i <? n); auto. unfold B'. destruct (Nat.eqb_spec s k); [lia|].
    destruct (Nat.ltb_spec k s); [lia|reflexivity]. }
  assert (Tk : upd tau k t k = t) by (unfold upd; rewrite Nat.eqb_refl; reflexivity).
  assert (Ts : forall s, s < k -> upd tau k t s = tau s) by (intros s Hs; unfold upd; destruct (Nat.eqb_spec s k); [lia|reflexivity]).
  split; [|split].
  - intros s Hs. destruct (Nat.eq_dec s k) as [->|Hne]; [rewrite Tk; exact BL|].
    rewrite Ts by lia. pose proof (HB s ltac:(lia)) as Q. unfold bal in *.
    rewrite <- (dot_ext (n + m) (fun i => vst n mid B i s) _ (fun i => vst n mid B i s) (fun i => vst n mid B' i s)); auto;
      intros i _; apply YB; lia.
  - assert (W : feq (n + m) n (tp_work n (S k) A' B') (mmul (n + m) (elem v t) (tp_work n k A B))).
    { intros i j Hi Hj. rewrite elem_mul by auto. unfold tp_work at 3. rewrite Dv.
      destruct (lt_dec j k) as [Lj|Lj].
      - (* columns done *)
        assert (E0 : (tri Upper false A k j + sum m (fun l => y (S l) * (if j <? k then 0 else B l j)))%r = 0%r).
        { unfold tri. destruct (Nat.eqb_spec k j); [lia|]. destruct (Nat.ltb_spec k j); [lia|].
          rewrite sum_zero'; [ring|]. intros l _. destruct (Nat.ltb_spec j k); [ring|lia]. }
        rewrite E0. unfold tp_work, vst. destruct (Nat.ltb_spec i n).
        + unfold tri, A'. destruct (Nat.eqb_spec i k).
          * subst i. destruct (Nat.eqb_spec k j); [lia|]. destruct (Nat.ltb_spec k j); [lia|]. ring.
          * ring.
        + destruct (Nat.ltb_spec j (S k)); [|lia]. destruct (Nat.ltb_spec j k); [|lia]. ring.
      - assert (E0 : (tri Upper false A k j + sum m (fun l => y (S l) * (if j <? k then 0 else B l j)))%r = w j).
        { unfold w. f_equal.
          - unfold tri. destruct (Nat.eqb_spec k j); auto. destruct (Nat.ltb_spec k j); [reflexivity|lia].
          - apply sum_ext. intros l _. destruct (Nat.ltb_spec j k); [lia|reflexivity]. }
        rewrite E0, V. unfold tp_work, vst. destruct (Nat.ltb_spec i n).
        + (* rows of the triangle *)
          unfold mid. destruct (Nat.eqb_spec i k) as [->|Hik].
          * destruct (Nat.eq_dec j k) as [->|Hjk].
            -- specialize (G2 0 ltac:(lia)). unfold x in G2. cbn in G2. unfold hv in G2. cbn in G2.
               unfold tri, A'. rewrite !Nat.eqb_refl. rewrite <- G2. ring.
            -- unfold tri, A'. rewrite Nat.eqb_refl. destruct (Nat.eqb_spec k j); [lia|]. destruct (Nat.eqb_spec j k); [lia|].
               destruct (Nat.ltb_spec k j); [|lia]. destruct (Nat.ltb_spec j n); [|lia]. simpl. fold (w j). ring.
          * unfold tri, A'. destruct (Nat.eqb_spec i k); [contradiction|]. ring.
        + destruct (Nat.eq_dec j k) as [->|Hjk].
          * specialize (G2 (S (i - n)) ltac:(lia)). unfold x in G2. cbn in G2. unfold hv in G2. cbn in G2.
            rewrite Nat.sub_0_r in G2. destruct (Nat.ltb_spec k (S k)); [|lia]. rewrite Nat.ltb_irrefl. rewrite <- G2. ring.
          * destruct (Nat.ltb_spec j (S k)); [lia|]. destruct (Nat.ltb_spec j k); [lia|].
            unfold B'. destruct (Nat.eqb_spec j k); [lia|]. destruct (Nat.ltb_spec k j); [|lia]. destruct (Nat.ltb_spec j n); [|lia].
            simpl. fold (w j). ring. }
    eapply feq_trans; [exact HE|]. cbn [wprod]. rewrite Tk. fold v. rewrite meq_assoc.
    apply feq_mmul.
    + apply wprod_ext; [intros; apply YB; auto|intros; symmetry; apply Ts; auto].
    + eapply feq_trans; [|apply feq_mmul; [apply feq_refl|apply feq_sym; exact W]].
      rewrite <- meq_assoc. apply feq_sym.
      eapply feq_trans; [apply feq_mmul; [apply elem_sq; exact BL|apply feq_refl]|].
      intros i j Hi Hj. apply mmul_id_l. auto.
  - intros i j Hn. rewrite <- (HU i j Hn). unfold A'. destruct (Nat.eqb_spec i k); auto. subst i.
    destruct (Nat.eqb_spec j k); [subst; exfalso; apply Hn; lia|].
    destruct (Nat.ltb_spec k j); auto. destruct (Nat.ltb_spec j n); auto. exfalso. apply Hn. lia.
Qed.

Lemma tp_loop_inv m n k A0 B0 : k <= n ->
  let '(A, B, tau) := tp_loop m n k (A0, B0, fun _ => 0%r) in tp_inv m n k A0 B0 A B tau.
Proof.
  induction k as [|k IH]; intros Hk; cbn [tp_loop].
  - split; [intros; lia|]. split; auto. intros i j Hi Hj. cbn [wprod]. rewrite mmul_id_l by auto. reflexivity.
  - specialize (IH ltac:(lia)). destruct (tp_loop m n k (A0, B0, fun _ => 0%r)) as [[A B] tau].
    apply (tp_step_inv m n k A0 B0 A B tau); auto; lia.
Qed.

Lemma dtpqrt2_ok a b a' v t : dtpqrt2 a b = Ok (a', v, t) -> is_tpqrt a b a' v t.
Proof.
  unfold dtpqrt2. pose proof (tp_loop_inv (d_r b) (d_c b) (d_c b) (d_e a) (d_e b) (le_n _)) as HI.
  destruct (tp_loop _ _ _ _) as [[A B] tau]. intros E. inversion E; subst a' v t; clear E.
  unfold is_tpqrt. cbn [d_r d_c d_e]. set (m := d_r b) in *. set (n := d_c b) in *.
  destruct HI as [HB [HE HU]].
  assert (W : feq (n + m) (n + m) (wprod (n + m) (vst n mid B) tau n) (pair_refl n B (dlarft (n + m) (vst n mid B) tau n))).
  { eapply feq_trans; [apply wy_product|]. unfold pair_refl.
    intros i j _ _. unfold refl, msub. f_equal. apply mmul_ext; auto. intros l Hl. apply mmul_ext; auto.
    intros y _. symmetry. apply tri_dlarft. }
  do 4 (split; [reflexivity|]). split; [intros; apply HU; auto|]. split.
  - pose proof (wprod_orthogonal (n + m) _ tau n HB) as [O1 O2]. split.
    + eapply feq_trans; [|exact O1]. apply feq_mmul; [apply feq_sym; exact W|]. apply feq_tr. apply feq_sym. exact W.
    + eapply feq_trans; [|exact O2]. apply feq_mmul; [|apply feq_sym; exact W]. apply feq_tr. apply feq_sym. exact W.
  - eapply feq_trans; [exact HE|]. apply feq_mul; [exact W|].
    unfold tp_work. apply feq_vst; [apply feq_refl|]. intros i j Hi Hj. destruct (Nat.ltb_spec j n); [reflexivity|lia].
Qed.

(** The two kernels meet the contract, and always return. *)
Definition wy_qrt : qrt R := Qrt dgeqrt3 dtpqrt2.

Lemma wy_qrt_ok : qrt_ok wy_qrt.
Proof.
  split.
  - intros a x t E H. apply dgeqrt3_ok; auto.
  - intros a b a' v t E _ _. apply dtpqrt2_ok; auto.
Qed.
End Tile.
