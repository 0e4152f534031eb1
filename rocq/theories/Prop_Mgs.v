(** Property C37: block modified Gram-Schmidt QR. *)
From Coq Require Import List Arith ZArith QArith Qcanon Lia Bool.
From Verif Require Import Prelude IndexRange Ring MatFun Matrix MatOps MatSpec MatOpsProofs Lapack Gemm GemmSpec
  GemmTheorems Triangular TriSpec Reflect ReflectSpec ReflectProofs ReflectSuccess Sampled SampledTheorems
  Mgs MgsProofs MgsOrtho MgsNested MgsTheorems MgsFlat Prop_Gemm Prop_Triangular Prop_Qr Prop_Sampled.
Import ListNotations.
Local Open Scope nat_scope.

(** ** C37 *)

(** Q*R is the input, for all grids of Dense, LowRank and Hierarchical blocks of any
    depth; [mgs_pre] says that the block structures of A, Q and R match and that R is zero
    below its diagonal blocks. *)
Theorem C37_reconstructs : forall (R : cring) (L : lapack R), lapack_sound L ->
  forall Or : oracles R, oracles_near exact Or ->
  forall gfuel fuel p q (a b r : nat -> nat -> matrix R) A' Q' R', mgs_pre p q a b r ->
  mgs_qr L Or gfuel fuel (MH p q a) (MH p q b) (MH q q r) = Ok (A', Q', R') ->
  let A := MH p q a in
  wf Q' /\ wf R' /\ nrows Q' = nrows A /\ ncols Q' = ncols A /\ nrows R' = ncols A /\ ncols R' = ncols A /\
  feq (nrows A) (ncols A) (mmul (ncols A) (ent Q') (ent R')) (ent A).
Proof. exact (fun R => @mgs_reconstructs R). Qed.
Print Assumptions C37_reconstructs.

(** R is block upper triangular. *)
Theorem C37_upper : forall (R : cring) (L : lapack R), lapack_sound L ->
  forall Or : oracles R, oracles_near exact Or ->
  forall gfuel fuel p q (a b r : nat -> nat -> matrix R) A' Q' R', mgs_pre p q a b r ->
  mgs_qr L Or gfuel fuel (MH p q a) (MH p q b) (MH q q r) = Ok (A', Q', R') ->
  forall i j x y, i < q -> j < i -> x < ncols (a 0 i) -> y < ncols (a 0 j) ->
  ent R' (offs (fun k => ncols (a 0 k)) i + x) (offs (fun k => ncols (a 0 k)) j + y) = rO.
Proof. exact (fun R => @mgs_upper R). Qed.
Print Assumptions C37_upper.

(** If each block column comes out orthonormal and the diagonal blocks of R are
    invertible, all columns of Q are orthonormal. *)
Theorem C37_orthogonal : forall (R : cring) (L : lapack R), lapack_sound L ->
  forall Or : oracles R, oracles_near exact Or ->
  forall gfuel fuel p q (a b r : nat -> nat -> matrix R) A' Q' R', mgs_pre p q a b r ->
  mgs_qr L Or gfuel fuel (MH p q a) (MH p q b) (MH q q r) = Ok (A', Q', R') ->
  let N := nrows (MH p q a) in
  (forall j, j < q -> orth_cols N (ncols (a 0 j)) (block_col a j (ent Q'))) ->
  (forall j, j < q -> has_inverse (ncols (a 0 j)) (diag_block a j (ent R'))) ->
  orth_cols N (ncols (MH p q a)) (ent Q').
Proof. exact (fun R => @mgs_orthogonal R). Qed.
Print Assumptions C37_orthogonal.

(** With Dense tiles and LowRank tiles whose U is orthonormal the block columns do come
    out orthonormal. *)
Theorem C37_flat_orthonormal : forall (R : cring) (L : lapack R), lapack_sound L ->
  forall Or : oracles R, oracles_near exact Or -> keeps_orthU Or ->
  forall gfuel fuel p q (a b r : nat -> nat -> matrix R) A' Q' R', mgs_pre p q a b r ->
  (forall i j, i < p -> j < q -> flat (a i j)) -> (forall i j, i < p -> j < q -> flat (b i j)) ->
  (forall i j, i <= j -> j < q -> flat (r i j)) -> (forall i j, i < p -> j < q -> orthU (a i j)) ->
  mgs_qr L Or gfuel fuel (MH p q a) (MH p q b) (MH q q r) = Ok (A', Q', R') ->
  (forall j, j < q -> orth_cols (nrows (MH p q a)) (ncols (a 0 j)) (block_col a j (ent Q'))) /\
  ((forall j, j < q -> has_inverse (ncols (a 0 j)) (diag_block a j (ent R'))) ->
   orth_cols (nrows (MH p q a)) (ncols (MH p q a)) (ent Q')).
Proof. exact (fun R L HL Or H1 H2 => @mgs_flat_orthonormal R L HL Or H1 H2). Qed.
Print Assumptions C37_flat_orthonormal.

(** A nested case: the first block column has a Hierarchical and a LowRank tile and a
    Hierarchical R(0,0). *)
Definition grid2 (l : list (list (matrix Qcring))) : nat -> nat -> matrix Qcring := fun i j => nth j (nth i l []) (ME 0 0).
Definition mA : nat -> nat -> matrix Qcring := grid2
  [[MH 1 2 (grid2 [[MD (qd1 [[qc 3]; [qc 4]]); MD (qd1 [[qf 6 5]; [qf 8 5]])]]); MD (qd1 [[qc (-1)]; [qc 7]])];
   [ML (lr_make (qd1 [[qf 3 5]; [qf 4 5]]) (qd1 [[qc 1]]) (qd1 [[qc 0; qc 5]])); MD (qd1 [[qc 6]; [qc 8]])]].
Definition mR : nat -> nat -> matrix Qcring := grid2
  [[MH 2 2 (grid2 [[qd [[0]]; qd [[0]]]; [qd [[0]]; qd [[0]]]]); qd [[0]; [0]]]; [qd [[0; 0]]; qd [[0]]]]%Z.
Definition mL := checked_lapack
  [([[qf 3 5]; [qf 4 5]; [qc 0]; [qc 0]], [[qc 5]]); ([[qc 0]; [qc 0]; [qc 1]], [[qc 5]]);
   ([[qf (-4) 5]; [qf 3 5]; [qc 0]; [qc 0]], [[qc 5]])] [].

Lemma two (P : nat -> Prop) : P 0 -> P 1 -> forall i, i < 2 -> P i.
Proof. intros H0 H1 i Hi. destruct i as [|[|i]]; auto. lia. Qed.

Lemma mgs_example_pre : mgs_pre 2 2 mA mA mR.
Proof.
  assert (Z : forall i j, i < 2 -> j < i -> feq (nrows (mR i j)) (ncols (mR i j)) (ent (mR i j)) mzero).
  { intros i j Hi Hj. assert (i = 1) by lia. assert (j = 0) by lia. subst i j. apply feqb_feq. vm_compute. reflexivity. }
  split; [apply wfb_wf; vm_compute; reflexivity|]. split; [apply wfb_wf; vm_compute; reflexivity|].
  split; [auto|]. split; [auto|].
  assert (HI : rshape (mR 0 0)).
  { split; [reflexivity|]. split; [auto|]. split.
    - intros i j Hi Hj. destruct i as [|[|i]], j as [|[|j]]; try lia;
        (split; [exact I|]; split; [reflexivity|]; split; [reflexivity|]; intros; try lia).
      apply feqb_feq. vm_compute. reflexivity.
    - apply two; reflexivity. }
  split; [|split].
  - split; [reflexivity|]. split; [auto|]. split.
    + intros i j Hi Hj. split; [|split; [|split; [|intros; apply Z; auto]]].
      * destruct i as [|[|i]], j as [|[|j]]; try (exfalso; lia); try exact I.
        apply wfb_wf. vm_compute. reflexivity.
      * destruct i as [|[|i]], j as [|[|j]]; try (exfalso; lia); reflexivity.
      * destruct i as [|[|i]], j as [|[|j]]; try (exfalso; lia); reflexivity.
    + refine (two _ _ _); [exact HI|reflexivity].
  - refine (two _ _ _); reflexivity.
  - refine (two _ _ _).
    + split; [exact HI|]. refine (two _ _ _); (split; [|reflexivity || exact I]).
      * intros _. refine (two _ _ _); (split; [reflexivity|]); intros; exact I.
      * refine (two _ _ _); (split; [reflexivity|exact I]).
    + split; [reflexivity|exact I].
Qed.

Example C37_example : lapack_sound mL /\ oracles_near exact (@left_oracles Qcring) /\ mgs_pre 2 2 mA mA mR /\
  (let* (_, Q, R) := mgs_qr mL left_oracles 5 5 (MH 2 2 mA) (MH 2 2 mA) (MH 2 2 mR) in Ok (showq Q, showq R)) =
  Ok ([[3 # 5; 0; -4 # 5]; [4 # 5; 0; 3 # 5]; [0; 3 # 5; 0]; [0; 4 # 5; 0]]%Q,
      [[5; 2; 5]; [0; 5; 10]; [0; 0; 5]]%Q).
Proof.
  split; [apply checked_lapack_sound|]. split; [apply left_oracles_near|]. split; [apply mgs_example_pre|].
  vm_compute. reflexivity.
Qed.

(** A singular diagonal block of R: every block column of Q is orthonormal, but the two
    are equal.  The input is zero. *)
Definition zA : nat -> nat -> matrix Qcring := fun _ _ => qd [[0]; [0]]%Z.
Definition zR : nat -> nat -> matrix Qcring := fun _ _ => qd [[0]]%Z.
Definition zL := checked_lapack [([[qc 1]; [qc 0]], [[qc 0]])] [].
Definition zrun := mgs_qr zL left_oracles 5 5 (MH 1 2 zA) (MH 1 2 zA) (MH 2 2 zR).

Theorem C37_singular_refuted : exists (L : lapack Qcring) (Or : oracles Qcring) p q a b r A' Q' R',
  lapack_sound L /\ oracles_near exact Or /\ keeps_orthU Or /\ mgs_pre p q a b r /\
  (forall i j, i < p -> j < q -> flat (a i j)) /\
  mgs_qr L Or 5 5 (MH p q a) (MH p q b) (MH q q r) = Ok (A', Q', R') /\
  (forall j, j < q -> orth_cols (nrows (MH p q a)) (ncols (a 0 j)) (block_col a j (ent Q'))) /\
  ~ orth_cols (nrows (MH p q a)) (ncols (MH p q a)) (ent Q').
Proof.
  destruct (got zrun (fun x => let '(_, Q, _) := x in orthcb 2 1 (block_col zA 0 (ent Q)) && orthcb 2 1 (block_col zA 1 (ent Q))
     && negb (Qc_eq_bool (mmul 2 (mtr (ent Q)) (ent Q) 0 1) (qc 0))))
    as [[[A' Q'] R'] [E H]]; [vm_compute; reflexivity|].
  apply andb_prop in H. destruct H as [H H3]. apply andb_prop in H. destruct H as [H1 H2].
  exists zL, left_oracles, 1, 2, zA, zA, zR, A', Q', R'.
  split; [apply checked_lapack_sound|]. split; [apply left_oracles_near|]. split; [apply left_oracles_orthU|].
  split; [|split; [|split; [exact E|split]]].
  - split; [apply wfb_wf; vm_compute; reflexivity|]. split; [apply wfb_wf; vm_compute; reflexivity|].
    split; [reflexivity|]. split; [reflexivity|]. split; [|split; [reflexivity|]].
    + split; [reflexivity|]. split; [auto|]. split; [|reflexivity].
      intros i j Hi Hj. split; [exact I|]. split; [reflexivity|]. split; [reflexivity|]. intros _.
      apply feqb_feq. vm_compute. reflexivity.
    + intros j Hj. split; [reflexivity|exact I].
  - intros i j _ _. exact I.
  - refine (two _ _ _); apply feqb_feq; auto.
  - intros O. specialize (O 0 1 ltac:(vm_compute; lia) ltac:(vm_compute; lia)).
    assert (X : Qc_eq_bool (mmul 2 (mtr (ent Q')) (ent Q') 0 1) (qc 0) = true).
    { change (nrows (MH 1 2 zA)) with 2 in O. rewrite O. vm_compute. reflexivity. }
    rewrite X in H3. discriminate.
Qed.
Print Assumptions C37_singular_refuted.
