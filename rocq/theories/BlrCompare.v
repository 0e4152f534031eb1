(** l2_error on matrices of tiles that are leaves: it returns with a fuel that does not
    depend on the tiles, and bounds the difference. *)
From Coq Require Import List Arith ZArith Lia Bool Reals Lra.
From Verif Require Import Prelude Ring MatFun Matrix MatOps MatSpec MatOpsProofs L2Error L2Real SvdRank HouseReal Kernels FroNorm.
Import ListNotations.
Local Open Scope nat_scope.

Section Leaves.
Context {R : cring}.
Notation matrix := (matrix R).
Notation cdn := (cdn (R := R)).

Lemma cdn_leaves (A B : matrix) f : leaf A -> leaf B -> wf A -> wf B -> same_dims A B -> exists r, cdn (S (S f)) A B = Ok r.
Proof.
  intros LA LB WA WB SD.
  destruct (densified_ok A B WA WB SD) as [a [b [Ea [Eb H]]]].
  destruct A as [da|la| |], B as [db|lb| |]; simpl in LA, LB; try contradiction.
  - destruct SD as [E1 E2]. destruct (dd_ok da db E1 E2) as [r K]. eauto.
  - cbn [L2Error.cdn]. fold (@L2Error.cdn R (S f)). rewrite Eb. cbn [bind].
    destruct (densify_spec (ML lb) WB) as [b' [Eb' [B1 [B2 _]]]]. rewrite Eb in Eb'. inversion Eb'; subst.
    destruct SD as [E1 E2]. destruct (dd_ok da b') as [r K]; [simpl in *; congruence|simpl in *; congruence|]. exists r. exact (K f).
  - cbn [L2Error.cdn]. fold (@L2Error.cdn R (S f)). rewrite Ea. cbn [bind].
    destruct (densify_spec (ML la) WA) as [a' [Ea' [A1 [A2 _]]]]. rewrite Ea in Ea'. inversion Ea'; subst.
    destruct SD as [E1 E2]. destruct (dd_ok a' db) as [r K]; [simpl in *; congruence|simpl in *; congruence|]. exists r. exact (K f).
  - cbn [L2Error.cdn]. fold (@L2Error.cdn R (S f)). rewrite Ea, Eb. cbn [bind]. exact (H f).
Qed.

Lemma cdn_tiles m n (a b : nat -> nat -> matrix) f : (forall i j, i < m -> j < n ->
    leaf (a i j) /\ leaf (b i j) /\ wf (a i j) /\ wf (b i j) /\ same_dims (a i j) (b i j)) ->
  exists r, cdn (S (S (S f))) (MH m n a) (MH m n b) = Ok r.
Proof.
  intros H. cbn [L2Error.cdn]. rewrite !Nat.eqb_refl. cbn [andb].
  apply (accum_ok2 m n (fun i j => cdn (S (S f)) (a i j) (b i j))). intros i j Hi Hj. destruct (H i j Hi Hj) as [H1 [H2 [H3 [H4 H5]]]].
  apply cdn_leaves; auto.
Qed.

Lemma cdn_dense_tiles m n d (a : nat -> nat -> matrix) f : wf (MH m n a) -> even (MH m n a) -> same_dims (MD d) (MH m n a) ->
  (forall i j, i < m -> j < n -> leaf (a i j)) ->
  exists r, cdn (S (S (S (S f)))) (MD d) (MH m n a) = Ok r.
Proof.
  intros WA EA SD LA. destruct (split_even m n a (MD d) WA EA I I) as [b [HS [WH HB]]]. { destruct SD; split; auto. }
  change (exists r, (let* BH := split (MD d) m n in cdn (S (S (S f))) BH (MH m n a)) = Ok r). rewrite HS. cbn [bind].
  apply cdn_tiles. intros i j Hi Hj. destruct (HB i j Hi Hj) as [L1 S1]. split; auto. split; auto. split; [apply WH; auto|]. split; [apply WA; auto|].
  destruct S1; split; auto.
Qed.
End Leaves.

Local Open Scope R_scope.

Lemma l2_from_cdn fuel (A B : matrix Rring) : nrows A = nrows B -> ncols A = ncols B -> (exists r, cdn (R := Rring) fuel A B = Ok r) ->
  exists e, l2_error fuel A B = Ok e.
Proof.
  intros E1 E2 [[d x] E]. unfold l2_error, l2_parts. rewrite E1, E2, !Nat.eqb_refl, E. cbn [bind]. eauto.
Qed.

Lemma l2_bound fuel (A B : matrix Rring) e : wf A -> wf B -> l2_error fuel A B = Ok e ->
  0 <= e /\ e * fro (nrows A) (ncols A) (ent A) <= fro (nrows A) (ncols A) (msub (R := Rring) (ent A) (ent B)).
Proof.
  intros WA WB H. rewrite (l2_value fuel A B e WA WB H). split; [apply sqrt_pos|]. unfold fro.
  set (N := sumsq (R := Rring) (nrows A) (ncols A) (ent A)).
  change (sumsq (R := Rring) (nrows A) (ncols A) (msub (R := Rring) (ent A) (ent B))) with (sumsq (R := Rring) (nrows A) (ncols A) (fun i j => (ent A i j - ent B i j)%R)).
  set (D := sumsq (R := Rring) (nrows A) (ncols A) (fun i j => (ent A i j - ent B i j)%R)).
  assert (HD : 0 <= D) by apply sumsq_nonneg. assert (HN : 0 <= N) by apply sumsq_nonneg. pose proof dbl_eps_pos as HE.
  assert (P : 0 < N + dbl_eps) by lra.
  assert (HQ : 0 <= D / (N + dbl_eps)) by (apply Rmult_le_pos; [auto|left; apply Rinv_0_lt_compat; auto]).
  rewrite <- sqrt_mult by auto. apply sqrt_le_1_alt.
  apply Rmult_le_reg_r with (N + dbl_eps); auto. unfold Rdiv. 
  replace (D * / (N + dbl_eps) * N * (N + dbl_eps)) with (D * N) by (field; lra).
  apply Rmult_le_compat_l; auto. lra.
Qed.
