(** Properties C39, C41, C42: interpolative decompositions, randomized factorizations,
    compression to a fixed rank. *)
From Coq Require Import List Arith ZArith QArith Qcanon Lia Bool.
From Verif Require Import Prelude Ring MatFun Matrix MatOps MatSpec MatOpsProofs Lapack Gemm GemmSpec
  GemmTheorems Triangular TriAlgebra TriSpec TriTheorems Sampled SampledProofs SampledTheorems
  Prop_Gemm Prop_Triangular Prop_Qr.
Import ListNotations.
Local Open Scope nat_scope.

(** ** C39 *)

(** Column P[j] of the result is column j of [I X], each exactly once. *)
Theorem C39_interleave : forall (R : cring) (X W : dense R) P,
  NoDup P /\ (forall c, In c P -> c < length P) ->
  interleave_id X P = Ok W ->
  d_c X <= length P /\ d_r W = d_r X /\ d_c W = length P /\
  forall i j, i < d_r X -> j < length P ->
    d_e W i (nth j P 0) =
    if j <? length P - d_c X then (if i =? j then rI else rO) else d_e X i (j - (length P - d_c X)).
Proof. exact (fun R X W P H => interleave_spec X W P (conj eq_refl H)). Qed.
Print Assumptions C39_interleave.

(** k different existing columns are selected and W is the identity on them. *)
Theorem C39_selects_columns : forall (R : cring) (dgeqp3 : dense R -> outcome (dense R * list nat)),
  pivot_ok dgeqp3 -> forall rinv (A : dense R) k (W : dense R) sel,
  one_sided_id dgeqp3 rinv A k = Ok (W, sel) ->
  d_r W = k /\ d_c W = d_c A /\ length sel = k /\ NoDup sel /\ (forall c, In c sel -> c < d_c A) /\
  forall a b, a < k -> b < k -> d_e W a (nth b sel 0) = if a =? b then rI else rO.
Proof. exact (fun R => @one_sided_interpolates R). Qed.
Print Assumptions C39_selects_columns.

(** A(:,sel)*W = A if the part of R beyond its first k rows is zero. *)
Theorem C39_exact : forall (R : cring) (dgeqp3 : dense R -> outcome (dense R * list nat)),
  pivot_ok dgeqp3 -> forall rinv (A : dense R) k (W : dense R) sel (Rf : dense R) P,
  one_sided_id dgeqp3 rinv A k = Ok (W, sel) -> geqp3 dgeqp3 A = Ok (Rf, P) ->
  diag_ok rinv Upper k (d_e Rf) ->
  (forall i j, k <= i -> i < Nat.min (d_r A) (d_c A) -> k <= j -> j < d_c A -> d_e Rf i j = rO) ->
  feq (d_r A) (d_c A) (mmul k (fun i b => d_e A i (nth b sel 0)) (d_e W)) (d_e A).
Proof. exact (fun R => @one_sided_exact R). Qed.
Print Assumptions C39_exact.

(** Otherwise the squared Frobenius error is the squared norm of that part. *)
Theorem C39_error : forall (R : cring) (dgeqp3 : dense R -> outcome (dense R * list nat)),
  pivot_ok dgeqp3 -> forall rinv (A : dense R) k (W : dense R) sel (Rf : dense R) P,
  one_sided_id dgeqp3 rinv A k = Ok (W, sel) -> geqp3 dgeqp3 A = Ok (Rf, P) ->
  diag_ok rinv Upper k (d_e Rf) ->
  sumsq (d_r A) (d_c A) (msub (d_e A) (mmul k (fun i b => d_e A i (nth b sel 0)) (d_e W))) =
  sumsq (Nat.min (d_r A) (d_c A) - k) (d_c A - k) (fun i j => d_e Rf (k + i) (k + j)).
Proof. exact (fun R => @one_sided_error R). Qed.
Print Assumptions C39_error.

(** id: A is approximated by U*A(rows,cols)*V, with U and V interpolating; the rows cost
    no accuracy. *)
Theorem C39_two_sided : forall (R : cring) (dgeqp3 : dense R -> outcome (dense R * list nat)),
  pivot_ok dgeqp3 -> forall rinv (A : dense R) k (U D V : dense R), id dgeqp3 rinv A k = Ok (U, D, V) ->
  let m := d_r A in
  let n := d_c A in
  exists cols rows AC, one_sided_id dgeqp3 rinv A k = Ok (V, cols) /\ get_cols A cols = Ok AC /\
    length cols = k /\ length rows = k /\ NoDup cols /\ NoDup rows /\
    (forall c, In c cols -> c < n) /\ (forall r, In r rows -> r < m) /\
    d_r U = m /\ d_c U = k /\ d_r D = k /\ d_c D = k /\ d_r V = k /\ d_c V = n /\
    (forall a b, a < k -> b < k -> d_e D a b = d_e A (nth a rows 0) (nth b cols 0)) /\
    (forall a b, a < k -> b < k -> d_e U (nth a rows 0) b = if a =? b then rI else rO) /\
    (forall Rf P, geqp3 dgeqp3 (d_transpose AC) = Ok (Rf, P) -> diag_ok rinv Upper k (d_e Rf) ->
       feq m n (mmul k (d_e U) (mmul k (d_e D) (d_e V)))
               (mmul k (fun i b => d_e A i (nth b cols 0)) (d_e V))).
Proof. exact (fun R => @id_ok R). Qed.
Print Assumptions C39_two_sided.

(** The randomized one sided decompositions, exact whenever the sample loses nothing. *)
Theorem C39_sampled_columns : forall (R : cring) (dgeqp3 : dense R -> outcome (dense R * list nat)),
  pivot_ok dgeqp3 -> forall rinv (rn : mat R) (A : dense R) s k (W : dense R) sel,
  one_sided_rid dgeqp3 rinv rn A s k true = Ok (W, sel) ->
  let m := d_r A in
  let n := d_c A in
  interpolates n k W sel /\
  exists Y : dense R, d_r Y = s /\ d_c Y = n /\ feq s n (d_e Y) (mmul m (mtr rn) (d_e A)) /\
    (drops_nothing dgeqp3 rinv Y k ->
     forall Z : mat R, feq m n (d_e A) (mmul s Z (mmul m (mtr rn) (d_e A))) ->
     feq m n (mmul k (pick sel (d_e A)) (d_e W)) (d_e A)).
Proof. exact (fun R => @one_sided_rid_col R). Qed.
Print Assumptions C39_sampled_columns.

Theorem C39_sampled_rows : forall (R : cring) (dgeqp3 : dense R -> outcome (dense R * list nat)),
  pivot_ok dgeqp3 -> forall rinv (rn : mat R) (A : dense R) s k (W : dense R) sel,
  one_sided_rid dgeqp3 rinv rn A s k false = Ok (W, sel) ->
  let m := d_r A in
  let n := d_c A in
  interpolates m k W sel /\
  exists Y : dense R, d_r Y = s /\ d_c Y = m /\ feq s m (d_e Y) (mtr (mmul n (d_e A) rn)) /\
    (drops_nothing dgeqp3 rinv Y k ->
     forall Z : mat R, feq m n (d_e A) (mmul s (mmul n (d_e A) rn) Z) ->
     feq m n (mmul k (mtr (d_e W)) (fun i j => d_e A (nth i sel 0) j)) (d_e A)).
Proof. exact (fun R => @one_sided_rid_row R). Qed.
Print Assumptions C39_sampled_rows.

(** A checked dgeqp3: answers are looked up and verified. *)
Definition mat_of (l : list (list Qc)) : mat Qcring := d_e (qd1 l).
Definition orthcb (m k : nat) (Q : mat Qcring) : bool := feqb k k (mmul m (mtr Q) Q) mid.
Definition orthrb (k n : nat) (Q : mat Qcring) : bool := feqb k k (mmul n Q (mtr Q)) mid.
Definition orderb (n : nat) (P : list nat) : bool :=
  (length P =? n) && forallb (fun c => c <? n) P && forallb (fun j => negb (existsb (Nat.eqb (nth j P 0)) (skipn (S j) P))) (seq 0 n).

Lemma nodupb (P : list nat) :
  forallb (fun j => negb (existsb (Nat.eqb (nth j P 0)) (skipn (S j) P))) (seq 0 (length P)) = true -> NoDup P.
Proof.
  intros H. induction P as [|x P IH]; constructor.
  - intros I. rewrite forallb_forall in H. specialize (H 0). cbn [nth skipn] in H.
    assert (E : existsb (Nat.eqb x) P = true) by (apply existsb_exists; exists x; split; auto; apply Nat.eqb_refl).
    rewrite E in H. discriminate H. apply in_seq. simpl. lia.
  - apply IH. rewrite forallb_forall in *. intros j Hj. apply (H (S j)). apply in_seq in Hj. apply in_seq. simpl. lia.
Qed.
Lemma orderb_order n P : orderb n P = true -> order n P.
Proof.
  unfold orderb. intros H. apply andb_prop in H. destruct H as [H H3]. apply andb_prop in H. destruct H as [H1 H2].
  apply Nat.eqb_eq in H1. subst n. split; auto. split; [apply nodupb; auto|].
  intros c Hc. rewrite forallb_forall in H2. apply Nat.ltb_lt. auto.
Qed.

Definition checked_geqp3 (answers : list (list (list Qc) * list (list Qc) * list nat)) (A : dense Qcring)
  : outcome (dense Qcring * list nat) :=
  match find (fun x => let '(Q, a, jpvt) := x in
    orderb (d_c A) (map (fun j => j - 1) jpvt) && orthcb (d_r A) (Nat.min (d_r A) (d_c A)) (mat_of Q) &&
    feqb (d_r A) (d_c A) (pick (map (fun j => j - 1) jpvt) (d_e A))
      (mmul (Nat.min (d_r A) (d_c A)) (mat_of Q) (tri Upper false (mat_of a)))) answers with
  | Some (Q, a, jpvt) => Ok (Dn (d_r A) (d_c A) (mat_of a), jpvt)
  | None => Abort
  end.

Lemma checked_geqp3_ok answers : pivot_ok (checked_geqp3 answers).
Proof.
  intros A a jpvt H. unfold checked_geqp3 in H. destruct (find _ answers) as [[[Q a'] j']|] eqn:E; [|discriminate].
  inversion H; subst a jpvt; clear H. apply find_some in E. destruct E as [_ E].
  apply andb_prop in E. destruct E as [E E3]. apply andb_prop in E. destruct E as [E1 E2].
  split; [apply orderb_order; exact E1|]. exists (mat_of Q). split; [apply feqb_feq; exact E2|].
  apply feqb_feq. exact E3.
Qed.

Definition z2 : list (list Z) -> list (list Qc) := map (map qc).
Definition idA : dense Qcring := qd1 (z2 [[0; 2; 2; 0]; [1; 0; 1; 0]; [0; 0; 0; 3]])%Z.
Definition id_qp := checked_geqp3
  [(z2 [[1; 0; 0]; [0; 0; 1]; [0; 1; 0]]%Z, z2 [[2; 0; 0; 2]; [0; 3; 0; 0]; [0; 0; 1; 1]]%Z, [2; 4; 1; 3]);
   (z2 [[1; 0; 0]; [0; 1; 0]; [0; 0; 1]]%Z, z2 [[2; 0; 0]; [0; 3; 0]; [0; 0; 1]]%Z, [1; 3; 2])].

(** All three columns are needed; with k = 2 the error is the last row of R, 1^2 + 1^2. *)
Example C39_example : pivot_ok id_qp /\
  (let* (W, sel) := one_sided_id id_qp qinv idA 3 in Ok (showq (MD W), sel)) =
    Ok ([[0; 1; 1; 0]; [0; 0; 0; 1]; [1; 0; 1; 0]]%Q, [1; 3; 0]) /\
  (let* (W, sel) := one_sided_id id_qp qinv idA 2 in Ok (showq (MD W), sel)) =
    Ok ([[0; 1; 1; 0]; [0; 0; 0; 1]]%Q, [1; 3]) /\
  (let* (U, D, V) := id id_qp qinv idA 3 in Ok (showq (MD U), showq (MD D), showq (MD V))) =
    Ok ([[1; 0; 0]; [0; 0; 1]; [0; 1; 0]]%Q, [[2; 0; 0]; [0; 3; 0]; [0; 0; 1]]%Q,
        [[0; 1; 1; 0]; [0; 0; 0; 1]; [1; 0; 1; 0]]%Q).
Proof. split; [apply checked_geqp3_ok|]. vm_compute. auto. Qed.

(** ** C41 *)

(** U has orthonormal columns, V orthonormal rows, D is diagonal and U*D*V = Q*Q^T*A for an
    orthonormal basis Q of the sample. *)
Theorem C41_rsvd : forall (R : cring) (L : lapack R), lapack_sound L ->
  forall (rn : mat R) (A : dense R) s (U D V : dense R), rsvd L rn A s = Ok (U, D, V) ->
  let m := d_r A in
  let n := d_c A in
  let k := Nat.min s n in
  d_r U = m /\ d_c U = k /\ d_r D = k /\ d_c D = k /\ d_r V = k /\ d_c V = n /\
  orth_cols m k (d_e U) /\ orth_rows k n (d_e V) /\ diagonal k (d_e D) /\
  exists Q : mat R, samples rn A s Q /\
    feq m n (mmul k (d_e U) (mmul k (d_e D) (d_e V))) (mmul s Q (mmul m (mtr Q) (d_e A))).
Proof. exact (fun R => @rsvd_ok R). Qed.
Print Assumptions C41_rsvd.

(** The product is A if the sample A*RN generates the columns of A. *)
Theorem C41_exact : forall (R : cring) (L : lapack R), lapack_sound L ->
  forall (rn : mat R) (A : dense R) s (U D V : dense R) (W : mat R), rsvd L rn A s = Ok (U, D, V) ->
  feq (d_r A) (d_c A) (mmul s (mmul (d_c A) (d_e A) rn) W) (d_e A) ->
  feq (d_r A) (d_c A) (mmul (Nat.min s (d_c A)) (d_e U) (mmul (Nat.min s (d_c A)) (d_e D) (d_e V))) (d_e A).
Proof. exact (fun R => @rsvd_exact R). Qed.
Print Assumptions C41_exact.

(** LowRank(A, rank): the squared error is that of the sampling plus the squares of the
    singular values left out. *)
Theorem C41_compression : forall (R : cring) (L : lapack R), lapack_sound L ->
  forall (rn : mat R) (A : dense R) rank (l : lowrank R), lr_of_dense L rn A rank = Ok l ->
  let m := d_r A in
  let n := d_c A in
  let s := Nat.min (Nat.min (rank + 5) m) n in
  lr_wf l /\ l_r l = m /\ l_c l = n /\ l_rank l = rank /\ rank <= s /\
  d_c (l_U l) = rank /\ d_r (l_S l) = rank /\ d_c (l_S l) = rank /\ d_r (l_V l) = rank /\
  orth_cols m rank (d_e (l_U l)) /\ orth_rows rank n (d_e (l_V l)) /\
  exists (U D V : dense R) (Q : mat R), rsvd L rn A s = Ok (U, D, V) /\ samples rn A s Q /\
    feq m n (mmul s (d_e U) (mmul s (d_e D) (d_e V))) (project A s Q) /\
    (forall i, i < rank -> d_e (l_S l) i i = d_e D i i) /\
    sumsq m n (msub (d_e A) (lr_ent l)) =
      (sumsq m n (msub (d_e A) (project A s Q)) +
       sum (s - rank) (fun i => d_e D (rank + i)%nat (rank + i)%nat * d_e D (rank + i)%nat (rank + i)%nat))%r.
Proof. exact (fun R => @lr_of_dense_ok R). Qed.
Print Assumptions C41_compression.

(** It succeeds for every rank up to the smaller dimension, and for no other. *)
Theorem C41_compression_succeeds : forall (R : cring) (L : lapack R), lapack_sound L ->
  forall (rn : mat R) (A : dense R) rank, lapack_ok L ->
  0 < rank -> rank <= d_r A -> rank <= d_c A -> exists l, lr_of_dense L rn A rank = Ok l.
Proof. exact (fun R => @lr_of_dense_succ R). Qed.
Print Assumptions C41_compression_succeeds.

Theorem C41_compression_rank_bound : forall (R : cring) (L : lapack R), lapack_sound L ->
  forall (rn : mat R) (A : dense R) rank (l : lowrank R), lr_of_dense L rn A rank = Ok l ->
  rank <= d_r A /\ rank <= d_c A.
Proof. exact (fun R => @lr_of_dense_rank R). Qed.
Print Assumptions C41_compression_rank_bound.

Theorem C41_rid : forall (R : cring) (L : lapack R), lapack_sound L ->
  forall dgeqp3 : dense R -> outcome (dense R * list nat), pivot_ok dgeqp3 ->
  forall rinv (rn : mat R) (A : dense R) s k (U D V : dense R), rid dgeqp3 rinv L rn A s k = Ok (U, D, V) ->
  let m := d_r A in
  let n := d_c A in
  exists (Q : mat R) (B : dense R) (cols : list nat), samples rn A s Q /\ interpolates n k V cols /\
    d_r U = m /\ d_c U = k /\ d_r D = k /\ d_c D = k /\
    d_r B = s /\ d_c B = n /\ feq s n (d_e B) (mmul m (mtr Q) (d_e A)) /\
    (drops_nothing dgeqp3 rinv B k ->
     (forall AC, get_cols B cols = Ok AC -> drops_nothing dgeqp3 rinv (d_transpose AC) k) ->
     feq m n (mmul k (d_e U) (mmul k (d_e D) (d_e V))) (mmul s Q (mmul m (mtr Q) (d_e A)))).
Proof. exact (fun R => @rid_ok R). Qed.
Print Assumptions C41_rid.

(** Factorizations looked up and verified. *)
Definition checked_lapack (qrs : list (list (list Qc) * list (list Qc)))
  (svds : list (list (list Qc) * list (list Qc) * list (list Qc))) : lapack Qcring :=
  Lapack
   (fun A => let k := Nat.min (d_r A) (d_c A) in
    match find (fun x => orthcb (d_r A) k (mat_of (fst x)) &&
                         feqb (d_r A) (d_c A) (mmul k (mat_of (fst x)) (mat_of (snd x))) (d_e A)) qrs with
    | Some (Q, Rf) => Ok (Dn (d_r A) k (mat_of Q), Dn k (d_c A) (mat_of Rf))
    | None => Abort
    end)
   (fun _ => Abort)
   (fun A => let k := Nat.min (d_r A) (d_c A) in
    match find (fun x => let '(U, D, V) := x in
                 orthcb (d_r A) k (mat_of U) && orthrb k (d_c A) (mat_of V) &&
                 feqb k k (mat_of D) (fun i j => if i =? j then mat_of D i i else 0%r) &&
                 feqb (d_r A) (d_c A) (mmul k (mat_of U) (mmul k (mat_of D) (mat_of V))) (d_e A)) svds with
    | Some (U, D, V) => Ok (Dn (d_r A) k (mat_of U), Dn k k (mat_of D), Dn k (d_c A) (mat_of V))
    | None => Abort
    end)
   (fun S _ => d_r S).

Lemma checked_lapack_sound qrs svds : lapack_sound (checked_lapack qrs svds).
Proof.
  split.
  - intros A Q Rf H. simpl in H. destruct (find _ qrs) as [[q r]|] eqn:E; [|discriminate].
    inversion H; subst Q Rf; clear H. apply find_some in E. destruct E as [_ E]. apply andb_prop in E. destruct E as [E1 E2].
    split; [unfold is_qr; cbn [d_r d_c d_e]; do 4 (split; [reflexivity|])|]; apply feqb_feq; auto.
  - intros A U D V H. simpl in H. destruct (find _ svds) as [[[u d] v]|] eqn:E; [|discriminate].
    inversion H; subst U D V; clear H. apply find_some in E. destruct E as [_ E]. apply andb_prop in E. destruct E as [E E4].
    apply andb_prop in E. destruct E as [E E3]. apply andb_prop in E. destruct E as [E1 E2].
    split; [|split; apply feqb_feq; auto].
    unfold is_svd. cbn [d_r d_c d_e]. do 6 (split; [reflexivity|]). split; [|apply feqb_feq; auto].
    intros i j Hi Hj Hn. apply feqb_feq in E3. rewrite (E3 i j Hi Hj). destruct (Nat.eqb_spec i j); [contradiction|reflexivity].
Qed.

Definition qf (a b : Z) : Qc := (qc a / qc b)%Qc.
Definition rsA : dense Qcring := qd1 (z2 [[9; 12]; [12; 16]; [0; 0]])%Z.
Definition rsL := checked_lapack
  [([[qf 3 5]; [qf 4 5]; [qc 0]], [[qc 15]]);
   ([[qf 3 5; qf (-4) 5]; [qf 4 5; qf 3 5]; [qc 0; qc 0]], [[qc 15; qc 20]; [qc 0; qc 0]])]
  [([[qc 1]], [[qc 25]], [[qf 3 5; qf 4 5]]);
   ([[qc 1; qc 0]; [qc 0; qc 1]], [[qc 25; qc 0]; [qc 0; qc 0]], [[qf 3 5; qf 4 5]; [qf (-4) 5; qf 3 5]])].

Example C41_example : lapack_sound rsL /\
  (let* (U, D, V) := rsvd rsL (mat_of (z2 [[1]; [0]]%Z)) rsA 1 in Ok (showq (MD U), showq (MD D), showq (MD V))) =
    Ok ([[3 # 5]; [4 # 5]; [0]]%Q, [[25]]%Q, [[3 # 5; 4 # 5]]%Q) /\
  (let* l := lr_of_dense rsL (mat_of (z2 [[1; 0]; [0; 1]]%Z)) rsA 1 in Ok (showq (ML l), l_rank l)) =
    Ok (showq (MD rsA), 1) /\
  lr_of_dense rsL (mat_of (z2 [[1; 0]; [0; 1]]%Z)) rsA 3 = AssertFail.
Proof. split; [apply checked_lapack_sound|]. vm_compute. auto. Qed.

(** old_rsvd takes the transposes of the wrong factors: here it returns -A although the
    sample is A itself. *)
Definition oldL := checked_lapack [(z2 [[1; 0]; [0; 1]]%Z, z2 [[1; 0]; [0; -2]]%Z)]
    [(z2 [[0; 1]; [1; 0]]%Z, z2 [[2; 0]; [0; 1]]%Z, z2 [[0; -1]; [1; 0]]%Z)].
Definition oldA : dense Qcring := qd1 (z2 [[1; 0]; [0; -2]]%Z).

Lemma got {T} (x : outcome T) (p : T -> bool) : match x with Ok t => p t | _ => false end = true ->
  exists t, x = Ok t /\ p t = true.
Proof. destruct x; try discriminate. eauto. Qed.

Theorem C41_old_rsvd_refuted : exists (L : lapack Qcring) (rn : mat Qcring) (A : dense Qcring) (s : nat) (W : mat Qcring)
    (U D V : dense Qcring),
  lapack_sound L /\ feq (d_r A) (d_c A) (mmul s (mmul (d_c A) (d_e A) rn) W) (d_e A) /\
  old_rsvd L rn A s = Ok (U, D, V) /\
  ~ feq (d_r A) (d_c A) (mmul (d_c U) (d_e U) (mmul (d_c D) (d_e D) (d_e V))) (d_e A).
Proof.
  destruct (got (old_rsvd oldL mid oldA 2) (fun x => let '(U, D, V) := x in
    Qeq_bool (this (mmul (d_c U) (d_e U) (mmul (d_c D) (d_e D) (d_e V)) 0 0)) (-1)%Q)) as [[[U D] V] [E1 E2]];
    [vm_compute; reflexivity|].
  exists oldL, mid, oldA, 2, mid, U, D, V. split; [apply checked_lapack_sound|].
  split; [apply feqb_feq; vm_compute; reflexivity|]. split; [exact E1|]. clear E1.
  intros F. specialize (F 0 0 (le_S _ _ (le_n 1)) (le_S _ _ (le_n 1))). rewrite F in E2. vm_compute in E2. discriminate E2.
Qed.
Print Assumptions C41_old_rsvd_refuted.

(** ** C42 *)

(** The result has as many rows and columns as H has block rows and block columns; if a
    block column is wider than 1 the asserts already fail. *)
Theorem C42_dimensions_are_block_counts : forall (R : cring) (L : lapack R) (Or : oracles R)
  fuel (rn : mat R) m n (a : nat -> nat -> matrix R) rank (l : lowrank R),
  lr_of_h L Or fuel rn m n a rank = Ok l -> l_r l = m /\ l_c l = n /\ ncols (MH m n a) = n.
Proof. exact (fun R => @lr_of_h_dims R). Qed.
Print Assumptions C42_dimensions_are_block_counts.

Theorem C42_refused : forall (R : cring) (L : lapack R) (Or : oracles R)
  fuel (rn : mat R) m n (a : nat -> nat -> matrix R) rank, ncols (MH m n a) <> n ->
  lr_of_h L Or (S fuel) rn m n a rank = AssertFail.
Proof. exact (fun R => @lr_of_h_refused R). Qed.
Print Assumptions C42_refused.

(** Whenever some block is not a single number no result has the dimensions of H. *)
Theorem C42_general_refuted : forall (R : cring) (L : lapack R) (Or : oracles R)
  fuel (rn : mat R) m n (a : nat -> nat -> matrix R) rank (l : lowrank R),
  nrows (MH m n a) <> m \/ ncols (MH m n a) <> n -> lr_of_h L Or fuel rn m n a rank = Ok l ->
  ncols (MH m n a) = n /\ l_r l <> nrows (MH m n a).
Proof. exact (fun R => @lr_of_h_wrong R). Qed.
Print Assumptions C42_general_refuted.

(** Two blocks of two rows: a LowRank matrix with 2 rows in place of 4. *)
Definition hbk (i _ : nat) : matrix Qcring := MD (qd1 (z2 (if (i =? 0)%nat then [[3]; [0]] else [[0]; [4]])%Z)).
Definition hbL := checked_lapack [([[qf 3 5]; [qc 0]; [qc 0]; [qf 4 5]], [[qc 5]])] [([[qc 1]], [[qc 5]], [[qc 1]])].
Example C42_example : lapack_sound hbL /\ nrows (MH 2 1 hbk) = 4 /\
  (let* l := lr_of_h hbL exact_oracles 10 (mat_of (z2 [[1]]%Z)) 2 1 hbk 1 in
   Ok (l_r l, l_c l, showq (MD (l_U l)), showq (ML l))) = Ok (2, 1, [[3 # 5]; [0]]%Q, [[3]; [0]]%Q).
Proof. split; [apply checked_lapack_sound|]. vm_compute. auto. Qed.
