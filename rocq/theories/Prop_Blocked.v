(** Property C59: blocked Householder QR of BLR matrices. *)
From Coq Require Import List Arith ZArith QArith Qcanon Lia Bool.
From Verif Require Import Prelude Ring MatFun Matrix MatOps MatSpec MatOpsProofs Lapack Gemm GemmSpec
  GemmTheorems Triangular TriSpec TriTheorems Reflect ReflectSpec ReflectProofs ReflectTile
  QrBig QrTiled QrStep QrApply ReflectSuccess QrTheorems Mgs Blocked BlockedProofs BlockedQr BlockedMore
  Prop_Gemm Prop_Triangular Prop_Qr.
Import ListNotations.
Local Open Scope nat_scope.

(** For square diagonal blocks, tile kernels that meet their contracts and exact low-rank
    arithmetic that keeps the left bases orthonormal: A = Q R with Q orthogonal and R block
    upper triangular, and left_multiply_blocked_reflector with the stored reflectors
    multiplies block upper triangular matrices by Q and takes A to R. *)
Theorem C59_blocked_qr : forall (R : cring) (Or : oracles R), oracles_near exact Or ->
  forall p q h w, keeps_orthU Or -> forall K : qrt R, qrt_ok K ->
  (forall k, k < q -> k < p -> h k = w k) ->
  forall A T pt qt A' T', bqr_input p q h w A ->
  blocked_qr Or K p q A pt qt T = Ok (A', T') ->
  exists Q : mat R,
    orthogonal (offs h p) Q /\
    feq (offs h p) (offs w q) (ent (MH p q A)) (mmul (offs h p) Q (ent (MH p q (Rgrid h w A')))) /\
    (forall cw pc C C', btiles p q h False cw C -> block_upper p q C ->
       blocked_apply Or p q A' T' pc C false = Ok C' ->
       feq (offs h p) (offs cw q) (ent (MH p q C')) (mmul (offs h p) Q (ent (MH p q C)))) /\
    (forall pc C', blocked_apply Or p q A' T' pc A true = Ok C' ->
       feq (offs h p) (offs w q) (ent (MH p q C')) (ent (MH p q (Rgrid h w A')))) /\
    q <= p /\ btiles p q h True w A' /\ ddiag p q A'.
Proof. exact (fun R => @blocked_qr_correct R). Qed.
Print Assumptions C59_blocked_qr.

(** R is upper triangular entry by entry. *)
Theorem C59_upper_triangular : forall (R : cring) p q h w (A : grid R), 0 < p -> 0 < q -> q <= p ->
  (forall k, k < q -> k < p -> h k = w k) ->
  forall r s, r < offs h p -> s < offs w q -> s < r -> ent (MH p q (Rgrid h w A)) r s = 0%r.
Proof. exact (fun R => @blocked_upper R). Qed.
Print Assumptions C59_upper_triangular.

(** One block column: Q_k is orthogonal, takes the column to a triangle, and the same
    T(k,0) and vectors are what apply_block_col_householder multiplies with. *)
Theorem C59_block_column : forall (R : cring) (K : qrt R), qrt_ok K -> forall p h k n a a' t,
  h k = n -> (exists d, a k = MD d) -> cblocks p h True k n a -> tri_col K p k a = Ok (a', t) ->
  bvectors p h k n a' t /\ cblocks p h True k n a' /\ (forall i, i < k \/ p <= i -> a' i = a i) /\
  orthogonal (offs h p) (GB p h k n a' t) /\
  feq (offs h p) n (stack p h (fun i => ent (a i))) (mmul (offs h p) (GB p h k n a' t) (stack p h (Rcol k a a'))).
Proof. exact (fun R => @tri_col_ok R). Qed.
Print Assumptions C59_block_column.

Theorem C59_apply_column : forall (R : cring) (Or : oracles R), oracles_near exact Or ->
  forall p h (o : Prop) k n c tr y t a a', (o -> keeps_orthU Or) ->
  bvectors p h k n y t -> cblocks p h o k c a -> apply_col Or p k tr y t a = Ok a' ->
  cblocks p h o k c a' /\ (forall i, i < k \/ p <= i -> a' i = a i) /\
  (forall i, k <= i -> i < p -> same_layout (a i) (a' i)) /\
  feq (offs h p) c (stack p h (fun i => ent (a' i)))
    (mmul (offs h p) (mop tr (GB p h k n y t)) (stack p h (fun i => ent (a i)))).
Proof. exact (fun R => @apply_col_ok R). Qed.
Print Assumptions C59_apply_column.

(** Which product left_multiply_blocked_reflector computes for any C. *)
Theorem C59_columns : forall (R : cring) (Or : oracles R), oracles_near exact Or -> forall p q h w cw Y T,
  (forall k, k < q -> bvectors p h k (w k) (fun i => Y i k) (T k 0)) ->
  forall pc C C' tr, btiles p q h False cw C -> blocked_apply Or p q Y T pc C tr = Ok C' ->
  btiles p q h False cw C' /\
  forall j, j < q -> feq (offs h p) (cw j) (column p h C' j)
    (mmul (offs h p) (mop tr (Qblk p h w Y T (S j))) (column p h C j)).
Proof. exact (fun R => @blocked_apply_ok R). Qed.
Print Assumptions C59_columns.

(** As for the tiled version it is not Q C in general. *)
Definition bT : grid Zring := fun i _ => cell (if i =? 1 then 2%Z else 0%Z).
Theorem C59_general_refuted : exists (Y T C : grid Zring),
  (forall k, k < 2 -> bvectors 2 one k 1 (fun i => Y i k) (T k 0)) /\ btiles 2 2 one False one C /\
  orthogonal 2 (Qblk 2 one one Y T 2) /\
  forall Or tr, exists C', blocked_apply Or 2 2 Y T 2 C tr = Ok C' /\
    show (MH 2 2 C') = Ok [[1; 0]; [1; -1]]%Z /\
    mmul 2 (mop tr (Qblk 2 one one Y T 2)) (ent (MH 2 2 C)) 1 0 = (-1)%Z.
Proof.
  exists mY, bT, mC.
  split; [|split; [|split]].
  - intros k Hk. split; auto. split; [reflexivity|]. split; [eexists; reflexivity|]. split; [eexists; reflexivity|].
    split; [reflexivity|]. split; [reflexivity|]. intros i _ Hi. split; [exact I|]. split; [exact I|].
    split; [reflexivity|]. split; [reflexivity|tauto].
  - intros i j Hi Hj. split; [exact I|]. split; [exact I|]. split; [reflexivity|]. split; [reflexivity|tauto].
  - split; intros [|[|i]] [|[|j]] Hi Hj; try lia; vm_compute; reflexivity.
  - intros Or tr. destruct tr; (eexists; split; [reflexivity|]; split; vm_compute; reflexivity).
Qed.
Print Assumptions C59_general_refuted.

(** A LowRank block on the diagonal stops the program as soon as the reflectors of its
    column are applied. *)
Theorem C59_lowrank_diagonal : forall (R : cring) (Or : oracles R) (K : qrt R) p k a a' t l,
  a k = ML l -> tri_col K p k a = Ok (a', t) -> forall tr b b', apply_col Or p k tr a' t b <> Ok b'.
Proof. exact (fun R => @lowrank_diagonal R). Qed.
Print Assumptions C59_lowrank_diagonal.

(** A 4 x 2 matrix in 3 x 2 blocks, one of them LowRank. *)
Definition fh (i : nat) : nat := if i =? 2 then 2 else 1.
Definition fA : grid Qcring := fun i j =>
  match i, j with
  | 2, 0 => ML (lr_make (@of_rows Qcring (map (map qc) [[0; 1]; [1; 0]]%Z)) (eye 2)
                        (@of_rows Qcring (map (map qc) [[5]; [3]]%Z)))
  | 2, _ => qd [[4]; [4]]%Z
  | _, 0 => qd [[1]]%Z
  | _, _ => qd [[2]]%Z
  end.
Definition fT : grid Qcring := fun _ _ => ME 0 0.

Lemma fA_input : bqr_input 3 2 fh ew fA.
Proof.
  split; [lia|]. split.
  - intros i j Hi Hj. destruct i as [|[|[|i]]]; try lia; destruct j as [|[|j]]; try lia;
      (split; [apply wfb_wf; reflexivity|]; split; [exact I|]; split; [reflexivity|]; split; [reflexivity|]; intros _); try exact I.
    split; [reflexivity|]. apply feqb_feq. vm_compute. reflexivity.
  - intros k Hk _. destruct k as [|[|k]]; try lia; eexists; reflexivity.
Qed.

Example C59_ex :
  qrt_ok house_qrt /\ keeps_orthU (@left_oracles Qcring) /\ oracles_near exact (@left_oracles Qcring) /\
  bqr_input 3 2 fh ew fA /\ (forall k, k < 2 -> k < 3 -> fh k = ew k) /\
  showq (MH 3 2 fA) = [[1; 2]; [1; 2]; [3; 4]; [5; 4]]%Q /\
  (let* (A', T') := blocked_qr left_oracles house_qrt 3 2 fA 2 1 fT in
   let* C := blocked_apply left_oracles 3 2 A' T' 3 fA true in
   let* D := blocked_apply left_oracles 3 2 A' T' 3 (Rgrid fh ew A') false in
   Ok (match A' 2 0 with ML _ => true | _ => false end,
       showq (MH 3 2 (Rgrid fh ew A')), showq (MH 3 2 C), showq (MH 3 2 D))) =
  Ok (true, [[-6; -6]; [0; -2]; [0; 0]; [0; 0]]%Q, [[-6; -6]; [0; -2]; [0; 0]; [0; 0]]%Q,
      [[1; 2]; [1; 2]; [3; 4]; [5; 4]]%Q).
Proof.
  split; [apply house_qrt_ok|]. split; [apply left_oracles_orthU|]. split; [apply left_oracles_near|].
  split; [apply fA_input|]. split; [intros k Hk _; destruct k as [|[|k]]; try lia; reflexivity|]. vm_compute. auto.
Qed.
