(** qr, rq, svd and the choice of the rank over the real numbers: the contracts of Lapack.v
    are met by src/operations/LAPACK/qr.cpp:65-90, rq.cpp:43-70 with the unblocked algorithms
    of LAPACK, and by a singular value decomposition. *)
From Coq Require Import List Arith ZArith Lia Bool QArith Reals Qreals Lra Ring_theory Ring.
From Verif Require Import Prelude Ring MatFun MatSetoid Matrix MatOps Lapack Reflect ReflectSpec SvdRank Householder HouseQr HouseReal Rrqr RrqrRank RrqrLr Spectral RealSvd.
Import ListNotations.
Local Open Scope nat_scope.

(** A call of qr as in addition.cpp:101-103: Q and R have min(rows, cols) columns and rows. *)
Definition real_qr (A : rdense) : outcome (rdense * rdense) :=
  let k := Nat.min (d_r A) (d_c A) in
  let* (_, Q, Rf) := qr_dense (R := Rring) dlarfg A (Dn (d_r A) k rzero) (Dn k (d_c A) rzero) in Ok (Q, Rf).

(** A call of rq as in addition.cpp:112-114. *)
Definition real_rq (A : rdense) : outcome (rdense * rdense) :=
  let k := Nat.min (d_r A) (d_c A) in
  let* (_, Rf, Q) := rq_dense (R := Rring) dlarfg A (Dn (d_r A) k rzero) (Dn k (d_c A) rzero) in Ok (Rf, Q).

(** svd.cpp:23-43: U, the singular values on a diagonal, V transposed. *)
Definition real_svd_dense (A : rdense) : outcome (rdense * rdense * rdense) :=
  let k := Nat.min (d_r A) (d_c A) in
  let x := proj1_sig (real_svd (d_r A) (d_c A) (d_e A)) in
  Ok (Dn (d_r A) k (fst (fst x)), Dn k k (dg (snd (fst x))), Dn k (d_c A) (snd x)).

Definition real_lapack : lapack Rring :=
  Lapack (R := Rring) real_qr real_rq real_svd_dense (fun S e => svd_rank S (Q2R e)).

(** What is known of the singular values beyond Lapack.v, and the rank as in misc.cpp:134-147. *)
Record lapack_sorted (L : lapack Rring) : Prop := {
  ls_svd : forall A U S1 V, lp_svd L A = Ok (U, S1, V) -> singular S1;
  ls_rank : forall S1 e, lp_rank L S1 e = svd_rank S1 (Q2R e)
}.

Lemma real_qr_ok A : exists Q Rf, real_qr A = Ok (Q, Rf) /\ is_qr A Q Rf /\ orth_cols (R := Rring) (d_r Q) (d_c Q) (d_e Q) /\
  forall i j, i < d_r Rf -> j < d_c Rf -> j < i -> d_e Rf i j = 0%R.
Proof.
  set (k := Nat.min (d_r A) (d_c A)).
  destruct (qr_dense_ok (R := Rring) dlarfg dlarfg_ok A (Dn (d_r A) k rzero) (Dn k (d_c A) rzero))
    as [X [Q [Rf [E [E1 [E2 [E3 [E4 [E5 [E6 E7]]]]]]]]]].
  { unfold qr_shapes. cbn [d_r d_c d_e]. repeat (split; [solve [auto | unfold k; lia]|]). reflexivity. }
  cbn [d_c] in *. exists Q, Rf. unfold real_qr. fold k. rewrite E. split; [reflexivity|].
  split; [|split; [|exact E7]].
  - unfold is_qr. fold k. auto.
  - rewrite E1, E2. exact E6.
Qed.

Lemma real_rq_ok A : exists Rf Q, real_rq A = Ok (Rf, Q) /\ is_rq A Rf Q /\ orth_rows (R := Rring) (d_r Q) (d_c Q) (d_e Q) /\
  forall i j, i < d_r Rf -> j < d_c Rf -> j + d_r Rf < i + d_c Rf -> d_e Rf i j = 0%R.
Proof.
  set (k := Nat.min (d_r A) (d_c A)).
  destruct (rq_dense_ok (R := Rring) dlarfg dlarfg_ok A (Dn (d_r A) k rzero) (Dn k (d_c A) rzero))
    as [X [Rf [Q [E [E1 [E2 [E3 [E4 [E5 [E6 E7]]]]]]]]]].
  { unfold rq_shapes. cbn [d_r d_c d_e]. repeat (split; [solve [auto | unfold k; lia]|]). reflexivity. }
  cbn [d_r] in *. exists Rf, Q. unfold real_rq. fold k. rewrite E. split; [reflexivity|].
  split; [|split; [|exact E7]].
  - unfold is_rq. fold k. auto.
  - rewrite E3, E4. exact E6.
Qed.

Lemma dg_diagonal k s : diagonal (R := Rring) k (dg s).
Proof. intros i j _ _ H. unfold dg. destruct (Nat.eqb_spec i j); [contradiction|reflexivity]. Qed.

Lemma dg_singular k s : (forall i, i < k -> (0 <= s i)%R) -> (forall i j, i <= j -> j < k -> (s j <= s i)%R) ->
  singular (Dn k k (dg s)).
Proof.
  intros H1 H2. split; [|split]; cbn [d_r d_c d_e]; rewrite ?Nat.min_id.
  - intros i j _ _ H. exact (dg_diagonal (S (i + j)) s i j ltac:(lia) ltac:(lia) H).
  - intros i Hi. unfold dg. rewrite Nat.eqb_refl. auto.
  - intros i j Hij Hj. unfold dg. rewrite !Nat.eqb_refl. auto.
Qed.

Lemma real_svd_dense_ok A : exists U S1 V, real_svd_dense A = Ok (U, S1, V) /\ is_svd A U S1 V /\
  orth_cols (R := Rring) (d_r U) (d_c U) (d_e U) /\ orth_rows (R := Rring) (d_r V) (d_c V) (d_e V) /\ singular S1.
Proof.
  unfold real_svd_dense. destruct (real_svd (d_r A) (d_c A) (d_e A)) as [x [X1 X2 X3 X4 X5 X6]].
  cbn [proj1_sig]. do 3 eexists. split; [reflexivity|]. cbn [d_r d_c d_e].
  split; [|split; [|split]]; auto.
  - unfold is_svd. cbn [d_r d_c d_e]. repeat (split; [solve [auto | apply dg_diagonal]|]). exact X3.
  - apply dg_singular; auto.
Qed.

Lemma real_lapack_ok : lapack_ok real_lapack.
Proof.
  split; cbn [real_lapack lp_qr lp_rq lp_svd lp_rank].
  - intros A. destruct (real_qr_ok A) as [Q [Rf [E [H _]]]]. eauto.
  - intros A. destruct (real_rq_ok A) as [Rf [Q [E [H _]]]]. eauto.
  - intros A. destruct (real_svd_dense_ok A) as [U [S1 [V [E [H _]]]]]. eauto 6.
  - intros S1 e H1 H2. pose proof (svd_rank_range S1 (Q2R e)). lia.
Qed.

Lemma real_lapack_orth : lapack_orth real_lapack.
Proof.
  split; cbn [real_lapack lp_qr lp_rq lp_svd lp_rank].
  - intros A Q Rf H. destruct (real_qr_ok A) as [Q' [Rf' [E [_ [HO _]]]]]. rewrite E in H. inversion H; subst. exact HO.
  - intros A Rf Q H. destruct (real_rq_ok A) as [Rf' [Q' [E [_ [HO _]]]]]. rewrite E in H. inversion H; subst. exact HO.
  - intros A U S1 V H. destruct (real_svd_dense_ok A) as [U' [S' [V' [E [_ [HU [HV _]]]]]]]. rewrite E in H. inversion H; subst. auto.
Qed.

Lemma real_lapack_sorted : lapack_sorted real_lapack.
Proof.
  split; cbn [real_lapack lp_qr lp_rq lp_svd lp_rank].
  - intros A U S1 V H. destruct (real_svd_dense_ok A) as [U' [S' [V' [E [_ [_ [_ HS]]]]]]]. rewrite E in H. inversion H; subst. auto.
  - reflexivity.
Qed.
