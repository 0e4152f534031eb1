(** Properties C30-C33: products and solves with triangles, block LU, linear systems. *)
From Coq Require Import List Arith ZArith QArith Qcanon Lia Bool.
From Verif Require Import Prelude Ring MatFun Matrix MatOps MatSpec MatOpsProofs Gemm GemmSpec
  GemmTheorems Triangular TriAlgebra TriSpec LuCorrect TriTheorems.
Import ListNotations.
Local Open Scope nat_scope.

(** ** C30 *)

(** In place multiplication by a triangle; exact low-rank arithmetic.  [nd] says that
    asserts are compiled out. *)
Theorem C30_trmm_exact : forall (R : cring) (Or : oracles R) gfuel, oracles_near exact Or ->
  forall nd fuel A B s u t un alpha X,
  t && nd = false -> wf A -> wf B -> tri_shape A -> nrows A = along s (nrows B) (ncols B) ->
  trmm Or gfuel nd fuel A B s u t un alpha = Ok X ->
  wf X /\ same_layout B X /\
  feq (nrows B) (ncols B) (ent X) (mscale alpha (tri_prod s (nrows A) (mop t (tri u un (ent A))) (ent B))).
Proof. exact (fun R => @trmm_exact R). Qed.
Print Assumptions C30_trmm_exact.

(** Any low-rank arithmetic: exact for B without LowRank blocks, otherwise up to the
    errors of the low-rank operations. *)
Theorem C30_trmm_up_to_rounding : forall (R : cring) (Or : oracles R) gfuel, oracles_shape Or ->
  forall nd fuel A B s u t un alpha X,
  t && nd = false -> wf A -> wf B -> tri_shape A -> nrows A = along s (nrows B) (ncols B) ->
  trmm Or gfuel nd fuel A B s u t un alpha = Ok X ->
  wf X /\ same_layout B X /\
  err_sum (call_error Or) (nrows B) (ncols B)
    (msub (ent X) (mscale alpha (tri_prod s (nrows A) (mop t (tri u un (ent A))) (ent B)))) /\
  (no_lr B ->
   feq (nrows B) (ncols B) (ent X) (mscale alpha (tri_prod s (nrows A) (mop t (tri u un (ent A))) (ent B)))).
Proof. exact (fun R => @trmm_upto R). Qed.
Print Assumptions C30_trmm_up_to_rounding.

Theorem C30_trmm_operands : forall (R : cring) (Or : oracles R) gfuel nd fuel A B s u t un alpha X,
  trmm Or gfuel nd fuel A B s u t un alpha = Ok X ->
  match A, B with
  | ML _, _ | ME _ _, _ | _, ME _ _ => False
  | _, _ => True
  end.
Proof. exact (fun R => @trmm_unsupported R). Qed.
Print Assumptions C30_trmm_operands.

Definition zb (l : list (list Z)) : matrix Zring := MD (zd l).
Definition tA : matrix Zring :=
  of_blocks [[zb [[1; 2]; [3; 4]]; zb [[5]; [6]]]; [zb [[7; 8]]; zb [[9]]]]%Z.
Definition tB : matrix Zring :=
  of_blocks [[zb [[1; 0]; [2; 1]]; ML (lr_make (zd [[1]; [2]]) (zd [[3]]) (zd [[1; 1]]))];
             [zb [[1; 1]]; zb [[2; 0]]]]%Z.

Example C30_ex : wf tA /\ wf tB /\ tri_shape tA /\
  show tB = Ok [[1; 0; 3; 3]; [2; 1; 6; 6]; [1; 1; 2; 0]]%Z /\
  (let* x := trmm exact_oracles 20 false 9 tA tB SLeft Upper false false 1%Z in show x) =
    Ok [[10; 7; 25; 15]; [14; 10; 36; 24]; [9; 9; 18; 0]]%Z /\
  (let* x := trmm exact_oracles 20 false 9 tA tB SLeft Lower false true 2%Z in show x) =
    Ok [[2; 0; 6; 6]; [10; 2; 30; 30]; [48; 18; 142; 138]]%Z /\
  (let* x := trmm exact_oracles 20 false 9 tA (zb [[1; 2; 3]]%Z) SRight Upper false false 1%Z in show x) =
    Ok [[1; 10; 44]]%Z.
Proof.
  split; [apply wfb_wf; reflexivity|]. split; [apply wfb_wf; reflexivity|]. split.
  - simpl. split; auto. split; intros [|[|i]] Hi; try lia; reflexivity.
  - vm_compute. auto.
Qed.

(** Transposition with two Hierarchical operands: the assert stops it, and without
    asserts the off-diagonal blocks are those of the triangle that was not transposed. *)
Theorem C30_transposed_hierarchical_refuted : exists A B : matrix Zring,
  wf A /\ wf B /\ tri_shape A /\ nrows A = nrows B /\
  forall Or,
  trmm Or 20 false 9 A B SLeft Upper true false 1%Z = AssertFail /\
  (let* x := trmm Or 20 true 9 A B SLeft Upper true false 1%Z in show x) = Ok [[3]; [3]]%Z /\
  tri_prod SLeft (nrows A) (mop true (tri Upper false (ent A))) (ent B) 0 0 = 1%Z /\
  tri_prod SLeft (nrows A) (mop true (tri Upper false (ent A))) (ent B) 1 0 = 5%Z.
Proof.
  exists (of_blocks [[zb [[1]]; zb [[2]]]; [zb [[5]]; zb [[3]]]]%Z), (of_blocks [[zb [[1]]]; [zb [[1]]]]%Z).
  split; [apply wfb_wf; reflexivity|]. split; [apply wfb_wf; reflexivity|]. split.
  - simpl. split; auto. split; intros [|[|i]] Hi; try lia; reflexivity.
  - split; [reflexivity|]. intros Or. vm_compute. auto.
Qed.
Print Assumptions C30_transposed_hierarchical_refuted.

(** ** C31 *)
Theorem C31_trsm_exact : forall (R : cring) (Or : oracles R) rinv gfuel, oracles_near exact Or ->
  forall A B u s X,
  wf A -> wf B -> tri_shape A -> conf s A B -> nrows A = along s (nrows B) (ncols B) ->
  diag_ok rinv u (nrows A) (ent A) -> trsm rinv Or gfuel A B u s = Ok X ->
  wf X /\ same_layout B X /\
  feq (nrows B) (ncols B) (tri_prod s (nrows A) (tri u (unit_of u) (ent A)) (ent X)) (ent B).
Proof. exact (fun R => @trsm_exact R). Qed.
Print Assumptions C31_trsm_exact.

Theorem C31_trsm_up_to_rounding : forall (R : cring) (Or : oracles R) rinv gfuel, oracles_shape Or ->
  forall A B u s X,
  wf A -> wf B -> tri_shape A -> conf s A B -> nrows A = along s (nrows B) (ncols B) ->
  diag_ok rinv u (nrows A) (ent A) -> trsm rinv Or gfuel A B u s = Ok X ->
  wf X /\ same_layout B X /\
  err_sum (call_error Or) (nrows B) (ncols B)
    (msub (tri_prod s (nrows A) (tri u (unit_of u) (ent A)) (ent X)) (ent B)) /\
  (no_lr B -> feq (nrows B) (ncols B) (tri_prod s (nrows A) (tri u (unit_of u) (ent A)) (ent X)) (ent B)).
Proof. exact (fun R => @trsm_upto R). Qed.
Print Assumptions C31_trsm_up_to_rounding.

(** LowRank or Empty A, Empty B, a Hierarchical B with a Dense A, Lower from the right,
    and Upper from the left with more than one block column. *)
Theorem C31_unsupported_aborts : forall (R : cring) (Or : oracles R) rinv gfuel A B u s,
  trsm_missing A B u s -> trsm rinv Or gfuel A B u s = Abort.
Proof. exact (fun R => @trsm_aborts R). Qed.
Print Assumptions C31_unsupported_aborts.

Theorem C31_lower_right_never : forall (R : cring) (Or : oracles R) rinv gfuel m n a B X,
  trsm rinv Or gfuel (MH m n a) B Lower SRight <> Ok X.
Proof. exact (fun R => @trsm_right_lower R). Qed.
Print Assumptions C31_lower_right_never.

(** Rational matrices for concrete instances. *)
Definition qc (z : Z) : Qcring := Q2Qc (inject_Z z).
Definition qd (l : list (list Z)) : matrix Qcring := MD (@of_rows Qcring (map (map qc) l)).
Definition showq (A : matrix Qcring) : list (list Q) :=
  map (fun i => map (fun j => this (ent A i j)) (seq 0 (ncols A))) (seq 0 (nrows A)).
Definition qinv : Qcring -> Qcring := Qcinv.

Definition qT : matrix Qcring :=
  of_blocks [[qd [[2; 1]; [3; 4]]; qd [[5]; [6]]]; [qd [[7; 8]]; qd [[10]]]]%Z.
Definition qB : matrix Qcring := of_blocks [[qd [[1; 0]; [2; 1]]]; [qd [[1; 1]]]]%Z.
Definition qBr : matrix Qcring := of_blocks [[qd [[1; 0]; [2; 1]]; qd [[1]; [1]]]]%Z.

Example C31_ex :
  (let* x := trsm qinv exact_oracles 20 qT qB Lower SLeft in Ok (showq x)) =
    Ok [[1; 0]; [-1; 1]; [2; -7]]%Q /\
  (let* x := trsm qinv exact_oracles 20 qT qB Upper SLeft in Ok (showq x)) =
    Ok [[3 # 40; -3 # 10]; [7 # 20; 1 # 10]; [1 # 10; 1 # 10]]%Q /\
  (let* x := trsm qinv exact_oracles 20 qT qBr Upper SRight in Ok (showq x)) =
    Ok [[1 # 2; -1 # 8; -3 # 40]; [1; 0; -2 # 5]]%Q.
Proof. vm_compute. auto. Qed.

(** ** C32 *)

(** [no_exchange dgetrf] aborts where the LAPACK routine would exchange rows: the
    hypothesis says that the run never did. *)
Theorem C32_getrf_exact : forall (R : cring) (Or : oracles R) rinv gfuel dgetrf, oracles_near exact Or ->
  lu_contract dgetrf -> forall fuel A L U,
  wf A -> lu_shape A -> udiag rinv U -> getrf rinv Or gfuel (no_exchange dgetrf) fuel A = Ok (L, U) ->
  getrf rinv Or gfuel dgetrf fuel A = Ok (L, U) /\ wf L /\ wf U /\
  (nrows L = nrows A /\ ncols L = nrows A /\ nrows U = nrows A /\ ncols U = nrows A) /\
  feq (nrows A) (nrows A) (ent L) (tri Lower true (ent L)) /\
  feq (nrows A) (nrows A) (ent U) (tri Upper false (ent U)) /\
  feq (nrows A) (ncols A) (mmul (nrows A) (ent L) (ent U)) (ent A).
Proof. exact (fun R => @getrf_exact R). Qed.
Print Assumptions C32_getrf_exact.

Theorem C32_getrf_up_to_rounding : forall (R : cring) (Or : oracles R) rinv gfuel dgetrf, oracles_shape Or ->
  lu_contract dgetrf -> forall fuel A L U,
  wf A -> lu_shape A -> udiag rinv U -> getrf rinv Or gfuel (no_exchange dgetrf) fuel A = Ok (L, U) ->
  getrf rinv Or gfuel dgetrf fuel A = Ok (L, U) /\ wf L /\ wf U /\
  (nrows L = nrows A /\ ncols L = nrows A /\ nrows U = nrows A /\ ncols U = nrows A) /\
  feq (nrows A) (nrows A) (ent L) (tri Lower true (ent L)) /\
  feq (nrows A) (nrows A) (ent U) (tri Upper false (ent U)) /\
  err_sum (call_error Or) (nrows A) (ncols A) (msub (mmul (nrows A) (ent L) (ent U)) (ent A)) /\
  (no_lr A -> feq (nrows A) (ncols A) (mmul (nrows A) (ent L) (ent U)) (ent A)).
Proof. exact (fun R => @getrf_upto R). Qed.
Print Assumptions C32_getrf_up_to_rounding.

(** Dense: the product has the rows of the input in exchanged order. *)
Theorem C32_dense_row_permutation : forall (R : cring) (Or : oracles R) rinv gfuel dgetrf,
  lu_contract dgetrf -> forall fuel (A : dense R) L U, d_r A = d_c A ->
  getrf rinv Or gfuel dgetrf (S fuel) (MD A) = Ok (L, U) ->
  exists X p, dgetrf A = Ok (X, p) /\ (forall i, i < d_r A -> p i < d_r A) /\
  feq (d_r A) (d_c A) (mmul (d_r A) (ent L) (ent U)) (fun i j => d_e A (p i) j).
Proof. exact (fun R => @getrf_dense R). Qed.
Print Assumptions C32_dense_row_permutation.

(** Elimination without exchanges, and a routine that tries the row orders given to it
    and checks the product: it meets [lu_contract] because it checks. *)
Definition elim_col (n k : nat) (f : nat -> nat -> Qc) : nat -> nat -> Qc :=
  let a := fun i => (f i k * / f k k)%Qc in
  fun i j => if (k <? i) && (i <? n)
             then if j =? k then a i else if k <? j then (f i j - a i * f k j)%Qc else f i j
             else f i j.
Definition freeze (n : nat) (f : nat -> nat -> Qc) : nat -> nat -> Qc :=
  d_e (@of_rows Qcring (to_rows (@Dn Qcring n n f))).
Definition elim (n : nat) (f : nat -> nat -> Qc) : nat -> nat -> Qc :=
  fold_left (fun f k => freeze n (elim_col n k f)) (seq 0 n) f.
Definition checked_lu (orders : list (nat -> nat)) (A : dense Qcring)
  : outcome (dense Qcring * (nat -> nat)) :=
  let n := d_r A in
  let fits := fun p =>
    let f : mat Qcring := elim n (fun i j => d_e A (p i) j) in
    forallb (fun i => (p i <? n) && forallb (fun j =>
      Qc_eq_bool (mmul (R := Qcring) n (tri Lower true f) (tri Upper false f) i j) (d_e A (p i) j))
      (seq 0 (d_c A))) (seq 0 n) in
  match find fits orders with
  | Some p => Ok (@Dn Qcring n (d_c A) (elim n (fun i j => d_e A (p i) j)), p)
  | None => Abort
  end.

Lemma checked_lu_contract orders : lu_contract (checked_lu orders).
Proof.
  intros A X p H Esq. unfold checked_lu in H.
  destruct (find _ orders) as [q|] eqn:E; [|discriminate]. inversion H; subst X q; clear H.
  apply find_some in E. destruct E as [_ E]. rewrite forallb_forall in E.
  assert (F : forall i, i < d_r A -> p i < d_r A /\ forall j, j < d_c A ->
     mmul (R := Qcring) (d_r A) (tri Lower true (elim (d_r A) (fun i j => d_e A (p i) j) : mat Qcring))
       (tri Upper false (elim (d_r A) (fun i j => d_e A (p i) j) : mat Qcring)) i j = d_e A (p i) j).
  { intros i Hi. assert (Hs : In i (seq 0 (d_r A))) by (apply in_seq; lia).
    specialize (E i Hs). apply andb_prop in E. destruct E as [E1 E2]. apply Nat.ltb_lt in E1.
    split; auto. intros j Hj. rewrite forallb_forall in E2.
    apply Qc_eq_bool_correct. apply E2. apply in_seq. lia. }
  split; [intros i Hi; apply F; auto|]. intros i j Hi Hj. cbn [d_e]. apply F; auto.
Qed.

Definition swap01 (i : nat) : nat := match i with 0 => 1 | 1 => 0 | _ => i end.
Definition lapack_like : dense Qcring -> outcome (dense Qcring * (nat -> nat)) :=
  checked_lu [fun i => i; swap01].

Definition luA : matrix Qcring :=
  of_blocks [[of_blocks [[qd [[2]]; qd [[1]]]; [qd [[4]]; qd [[5]]]]; qd [[1; 0]; [3; 1]]];
             [qd [[2; 1]; [6; 3]]; qd [[4; 1]; [1; 7]]]]%Z.

Example C32_ex : wf luA /\ lu_shape luA /\
  (let* (l, u) := getrf qinv exact_oracles 20 (no_exchange lapack_like) 9 luA in Ok (showq l, showq u)) =
  Ok ([[1; 0; 0; 0]; [2; 1; 0; 0]; [1; 0; 1; 0]; [3; 0; -2 # 3; 1]]%Q,
      [[2; 1; 1; 0]; [0; 3; 1; 1]; [0; 0; 3; 1]; [0; 0; 0; 23 # 3]]%Q).
Proof.
  split; [apply wfb_wf; reflexivity|]. split.
  - simpl. split; auto. split; [intros [|[|i]] Hi; try lia; reflexivity|]. split.
    + intros [|[|i]] Hi; try lia; simpl; auto. split; auto.
      split; [intros [|[|i]] Hi'; try lia; reflexivity|]. split.
      * intros [|[|i]] Hi'; try lia; reflexivity.
      * intros [|[|i]] [|[|j]] Hij Hj; try lia; simpl; auto.
    + intros [|[|i]] [|[|j]] Hij Hj; try lia; simpl; auto.
  - vm_compute. reflexivity.
Qed.

Add Ring qring : (cr_th Qcring).

(** With LAPACK's partial pivoting, which keeps the multipliers at most 1 in size, even
    a matrix with a factorization of its own is not reproduced. *)
Definition pivA : dense Qcring := @of_rows Qcring (map (map qc) [[1; 2]; [3; 4]]%Z).
Definition pivL : dense Qcring := @of_rows Qcring (map (map qc) [[1; 0]; [3; 1]]%Z).
Definition pivU : dense Qcring := @of_rows Qcring (map (map qc) [[1; 2]; [0; -2]]%Z).

Theorem C32_dense_pivoting_refuted :
  feq 2 2 (mmul 2 (d_e pivL) (d_e pivU)) (d_e pivA) /\
  forall Or gfuel (dgetrf : dense Qcring -> outcome (dense Qcring * (nat -> nat))),
  (forall A X p, dgetrf A = Ok (X, p) -> forall i j, j < i -> i < d_r A -> Qcle (d_e X i j) 1%Qc) ->
  forall fuel L U, getrf qinv Or gfuel dgetrf (S fuel) (MD pivA) = Ok (L, U) ->
  ~ feq 2 2 (mmul 2 (ent L) (ent U)) (d_e pivA).
Proof.
  split.
  - intros [|[|i]] [|[|j]] Hi Hj; try lia; apply Qc_is_canon; vm_compute; reflexivity.
  - intros Or gfuel dgetrf Hm fuel L U H F. cbn [getrf] in H. apply bind_Ok in H.
    destruct H as [[l u] [H1 H]]. inversion H; subst L U; clear H.
    destruct (d_getrf_ok dgetrf pivA l u H1) as [X [p [HX [_ [_ [_ [_ [F1 F2]]]]]]]].
    assert (E0 : d_e X 0 0 = @rI Qcring).
    { transitivity (mmul (R:=Qcring) 2 (d_e l) (d_e u) 0 0); [|exact (F 0 0 ltac:(lia) ltac:(lia))].
      unfold mmul. cbn [sum ent]. rewrite !(F1 0), !F2 by (simpl; lia). unfold tri. cbn [Nat.eqb Nat.ltb Nat.leb]. ring. }
    assert (E1 : d_e X 1 0 = qc 3).
    { transitivity (mmul (R:=Qcring) 2 (d_e l) (d_e u) 1 0); [|exact (F 1 0 ltac:(lia) ltac:(lia))].
      unfold mmul. cbn [sum ent]. rewrite !(F1 1), !F2 by (simpl; lia). unfold tri. cbn [Nat.eqb Nat.ltb Nat.leb].
      rewrite E0. ring. }
    specialize (Hm pivA X p HX 1 0 ltac:(lia) ltac:(simpl; lia)). rewrite E1 in Hm.
    revert Hm. vm_compute. intros Hm. apply Hm. reflexivity.
Qed.
Print Assumptions C32_dense_pivoting_refuted.

(** Without that, a matrix that needs an exchange. *)
Example C32_exchange : lu_contract lapack_like /\
  (let* (l, u) := getrf qinv exact_oracles 20 lapack_like 9 (qd [[0; 1]; [2; 3]]%Z) in Ok (showq l, showq u)) =
    Ok ([[1; 0]; [0; 1]], [[2; 3]; [0; 1]])%Q /\
  getrf qinv exact_oracles 20 (no_exchange lapack_like) 9 (qd [[0; 1]; [2; 3]]%Z) = Abort.
Proof. split; [apply checked_lu_contract|]. vm_compute. auto. Qed.

(** ** C33 *)
Theorem C33_solve_exact : forall (R : cring) (Or : oracles R) rinv gfuel dgetrf, oracles_near exact Or ->
  lu_contract dgetrf -> forall fuel A L U b y x,
  wf A -> lu_shape A -> wf b -> conf SLeft A b -> nrows b = nrows A -> no_lr b -> udiag rinv U ->
  getrf rinv Or gfuel (no_exchange dgetrf) fuel A = Ok (L, U) ->
  trsm rinv Or gfuel L b Lower SLeft = Ok y -> trsm rinv Or gfuel U y Upper SLeft = Ok x ->
  same_layout b x /\ feq (nrows A) (ncols b) (mmul (nrows A) (ent A) (ent x)) (ent b).
Proof. exact (fun R => @solve_exact R). Qed.
Print Assumptions C33_solve_exact.

(** Any low-rank arithmetic: x solves a system whose matrix differs from A by errors of
    low-rank operations; A x = b if A has no LowRank blocks. *)
Theorem C33_solve_up_to_rounding : forall (R : cring) (Or : oracles R) rinv gfuel dgetrf, oracles_shape Or ->
  lu_contract dgetrf -> forall fuel A L U b y x,
  wf A -> lu_shape A -> wf b -> conf SLeft A b -> nrows b = nrows A -> no_lr b -> udiag rinv U ->
  getrf rinv Or gfuel (no_exchange dgetrf) fuel A = Ok (L, U) ->
  trsm rinv Or gfuel L b Lower SLeft = Ok y -> trsm rinv Or gfuel U y Upper SLeft = Ok x ->
  same_layout b x /\
  (exists E, err_sum (call_error Or) (nrows A) (ncols A) E /\
     feq (nrows A) (ncols b) (mmul (nrows A) (madd (ent A) E) (ent x)) (ent b)) /\
  (no_lr A -> feq (nrows A) (ncols b) (mmul (nrows A) (ent A) (ent x)) (ent b)).
Proof. exact (fun R => @solve_upto R). Qed.
Print Assumptions C33_solve_up_to_rounding.

Definition luB : matrix Qcring := of_blocks [[qd [[4]; [13]]]; [qd [[8]; [17]]]]%Z.
Example C33_ex :
  (let* (l, u) := getrf qinv exact_oracles 20 (no_exchange lapack_like) 9 luA in
   let* y := trsm qinv exact_oracles 20 l luB Lower SLeft in
   let* x := trsm qinv exact_oracles 20 u y Upper SLeft in Ok (showq x)) =
  Ok [[1]; [1]; [1]; [1]]%Q.
Proof. vm_compute. reflexivity. Qed.
