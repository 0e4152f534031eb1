(** Properties C34-C36: reflector kernels, tiled Householder QR, the implicit Q. *)
From Coq Require Import List Arith ZArith QArith Qcanon Lia Bool.
From Verif Require Import Prelude Ring MatFun Matrix MatOps MatSpec MatOpsProofs Lapack Gemm GemmSpec
  GemmTheorems Triangular TriSpec TriTheorems Reflect ReflectSpec ReflectProofs ReflectTile
  QrBig QrTiled QrStep QrApply ReflectSuccess QrTheorems Prop_Gemm Prop_Triangular.
Import ListNotations.
Local Open Scope nat_scope.

(** ** C34 *)

(** tpmqrt multiplies (A; B) by op(I - (I; V) T (I; V)^T), T taken upper triangular;
    the rows of A below the first ncols V are left alone. *)
Theorem C34_tpmqrt : forall (R : cring) (Or : oracles R), oracles_near exact Or ->
  forall V T A B tr A' B', tpm_fit V T A B -> tpmqrt Or V T A B tr = Ok (A', B') ->
  wf A' /\ wf B' /\ same_layout A A' /\ same_layout B B' /\
  feq (ncols V + nrows B) (ncols B) (vst (ncols V) (ent A') (ent B'))
    (mmul (ncols V + nrows B)
       (mop tr (refl (ncols V) (vst (ncols V) mid (ent V)) (tri Upper false (ent T))))
       (vst (ncols V) (ent A) (ent B))) /\
  (forall i j, ncols V <= i -> i < nrows A -> j < ncols A -> ent A' i j = ent A i j).
Proof. exact (fun R => @tpmqrt_exact R). Qed.
Print Assumptions C34_tpmqrt.

(** With Dense A and B the low-rank arithmetic does not matter. *)
Theorem C34_tpmqrt_dense : forall (R : cring) (Or : oracles R) V T a b tr A' B',
  tpm_fit V T (MD a) (MD b) -> tpmqrt Or V T (MD a) (MD b) tr = Ok (A', B') ->
  tpm_spec V T (MD a) (MD b) tr A' B'.
Proof. exact (fun R => @tpmqrt_dense R). Qed.
Print Assumptions C34_tpmqrt_dense.

Theorem C34_same_for_all_structures : forall (R : cring) (Or : oracles R), oracles_near exact Or ->
  forall V T A B V2 T2 A2 B2 tr A' B' A2' B2', tpm_fit V T A B -> tpm_fit V2 T2 A2 B2 ->
  nrows V2 = nrows V -> ncols V2 = ncols V -> nrows A2 = nrows A -> ncols B2 = ncols B ->
  feq (nrows V) (ncols V) (ent V2) (ent V) -> feq (ncols V) (ncols V) (ent T2) (ent T) ->
  feq (nrows A) (ncols A) (ent A2) (ent A) -> feq (nrows B) (ncols B) (ent B2) (ent B) ->
  tpmqrt Or V T A B tr = Ok (A', B') -> tpmqrt Or V2 T2 A2 B2 tr = Ok (A2', B2') ->
  feq (nrows A) (ncols A) (ent A2') (ent A') /\ feq (nrows B) (ncols B) (ent B2') (ent B').
Proof. exact (fun R => @tpmqrt_same R). Qed.
Print Assumptions C34_same_for_all_structures.

Theorem C34_round_trip : forall (R : cring) (Or : oracles R), oracles_near exact Or ->
  forall V T A B tr A1 B1 A2 B2, tpm_fit V T A B ->
  orthogonal (ncols V + nrows B) (pair_refl (ncols V) (ent V) (ent T)) ->
  tpmqrt Or V T A B tr = Ok (A1, B1) -> tpmqrt Or V T A1 B1 (negb tr) = Ok (A2, B2) ->
  feq (nrows A) (ncols A) (ent A2) (ent A) /\ feq (nrows B) (ncols B) (ent B2) (ent B).
Proof. exact (fun R => @tpmqrt_round_trip R). Qed.
Print Assumptions C34_round_trip.

(** All eight combinations of Dense and LowRank V, A and B go through. *)
Theorem C34_all_combinations_succeed : forall (R : cring) (Or : oracles R),
  oracles_shape Or -> oracles_total Or -> oracles_near exact Or ->
  forall (V A B : matrix R) (t : dense R) tr,
  wf V -> wf A -> wf B -> flat V -> flat A -> flat B ->
  nrows V = nrows B -> d_r t = ncols V -> d_c t = ncols V -> nrows A = ncols V -> ncols A = ncols B ->
  exists x, tpmqrt Or V (MD t) A B tr = Ok x.
Proof. exact (fun R => @tpmqrt_succ R). Qed.
Print Assumptions C34_all_combinations_succeed.

(** larfb multiplies C by op(I - Y T Y^T), Y the unit lower trapezoid of V. *)
Theorem C34_larfb : forall (R : cring) (V T C : matrix R) tr C', wf C -> larfb V T C tr = Ok C' ->
  wf C' /\ same_layout C C' /\
  feq (nrows C) (ncols C) (ent C')
    (mmul (nrows C) (mop tr (refl (ncols T) (tri Lower true (ent V)) (tri Upper false (ent T)))) (ent C)).
Proof. exact (fun R => @larfb_exact R). Qed.
Print Assumptions C34_larfb.

Theorem C34_larfb_round_trip : forall (R : cring) (V T C : matrix R) tr C1 C2, wf C ->
  orthogonal (nrows C) (tile_refl (ncols T) (ent V) (ent T)) ->
  larfb V T C tr = Ok C1 -> larfb V T C1 (negb tr) = Ok C2 -> feq (nrows C) (ncols C) (ent C2) (ent C).
Proof. exact (fun R => @larfb_round_trip R). Qed.
Print Assumptions C34_larfb_round_trip.

(** V a permutation and T the identity: (A; B) becomes (-V^T B; -V A). *)
Definition pV : list (matrix Zring) :=
  [MD (zd [[0; 1]; [1; 0]]); zlr [[0; 1]; [1; 0]] [[1; 0]; [0; 1]] [[1; 0]; [0; 1]]]%Z.
Definition pA : list (matrix Zring) :=
  [MD (zd [[1; 2; 3]; [2; 4; 6]]); zlr [[1]; [2]] [[1]] [[1; 2; 3]]]%Z.
Definition pB : list (matrix Zring) :=
  [MD (zd [[4; 0; 1]; [8; 0; 2]]); zlr [[1]; [2]] [[1]] [[4; 0; 1]]]%Z.
Definition pT : matrix Zring := MD (zd [[1; 0]; [0; 1]])%Z.
Definition combos : list (matrix Zring * (matrix Zring * matrix Zring)) := list_prod pV (list_prod pA pB).

Example C34_ex :
  length combos = 8 /\
  Forall (fun c => let '(v, (a, b)) := c in tpm_fit v pT a b) combos /\
  map (fun c => let '(v, (a, b)) := c in
    let* (x, y) := tpmqrt left_oracles v pT a b true in
    let* x := show x in let* y := show y in Ok (x, y)) combos =
  repeat (Ok ([[-8; 0; -2]; [-4; 0; -1]], [[-2; -4; -6]; [-1; -2; -3]])%Z) 8 /\
  orthogonal 4 (pair_refl (R := Zring) 2 (ent (hd pT pV)) (ent pT)).
Proof.
  split; [reflexivity|]. split.
  { repeat (constructor; [repeat split; apply wfb_wf; reflexivity|]). constructor. }
  split; [vm_compute; reflexivity|].
  split; intros [|[|[|[|i]]]] [|[|[|[|j]]]] Hi Hj; try lia; vm_compute; reflexivity.
Qed.

(** ** C35 *)

(** For tile kernels that meet their contracts and exact low-rank arithmetic that keeps
    the left bases orthonormal: A = Q R with Q orthogonal and R block upper triangular
    (its blocks are the tiles above the diagonal, the upper triangles of the diagonal
    tiles and zero), and the stored reflectors are those of Q. *)
Theorem C35_tiled_qr : forall (R : cring) p q h w (Or : oracles R), oracles_near exact Or -> keeps_orthU Or ->
  forall K : qrt R, qrt_ok K -> forall A T pt qt A' T', qr_input p q h w A T ->
  tiled_qr Or K p q A pt qt T = Ok (A', T') ->
  exists Q : mat R,
    orthogonal (offs h p) Q /\
    feq (offs h p) (offs w q) (ent (MH p q A)) (mmul (offs h p) Q (ent (MH p q (Rgrid h w A')))) /\
    (forall cw C C', tiles False p q h cw C -> block_upper p q C -> tiled_apply Or p q A' T' C false = Ok C' ->
       feq (offs h p) (offs cw q) (ent (MH p q C')) (mmul (offs h p) Q (ent (MH p q C)))) /\
    (forall C', tiled_apply Or p q A' T' A true = Ok C' ->
       feq (offs h p) (offs w q) (ent (MH p q C')) (ent (MH p q (Rgrid h w A')))).
Proof. exact (fun R => @tiled_qr_correct R). Qed.
Print Assumptions C35_tiled_qr.

(** The factor is triangular entry by entry when the tiles on the diagonal are square,
    the last one possibly higher. *)
Theorem C35_upper_triangular : forall (R : cring) p q h w (A : grid R), 0 < p -> 0 < q ->
  (forall k, k < q -> k < p -> h k = w k \/ (k = q - 1 /\ w k <= h k)) -> q <= p ->
  forall r s, r < offs h p -> s < offs w q -> s < r -> ent (MH p q (Rgrid h w A)) r s = 0%r.
Proof. exact (fun R => @Rgrid_upper R). Qed.
Print Assumptions C35_upper_triangular.

(** A triangle on top of a Dense or LowRank tile: the tile is annihilated. *)
Theorem C35_tpqrt : forall (R : cring) (K : qrt R), qrt_ok K -> forall A B T A' V T' : matrix R,
  tpqrt K A B T = Ok (A', V, T') -> wf B -> orthU B -> nrows T = ncols B -> ncols T = ncols B ->
  let n := ncols B in
  let m := nrows B in
  exists a a' t t', A = MD a /\ A' = MD a' /\ T = MD t /\ T' = MD t' /\
    n <= d_r a /\ n <= d_c a /\ d_r a' = d_r a /\ d_c a' = d_c a /\ d_r t' = n /\ d_c t' = n /\
    (forall i j, i < d_r a -> j < d_c a -> ~ (i <= j /\ j < n) -> d_e a' i j = d_e a i j) /\
    flat B /\ wf V /\ same_layout B V /\ orthU V /\
    orthogonal (n + m) (pair_refl n (ent V) (d_e t')) /\
    feq (n + m) n (vst n (tri Upper false (d_e a)) (ent B))
        (mmul (n + m) (pair_refl n (ent V) (d_e t')) (vst n (tri Upper false (d_e a')) mzero)).
Proof. exact (fun R => @tpqrt_ok R). Qed.
Print Assumptions C35_tpqrt.

(** A diagonal tile with fewer rows than columns is silently not factored. *)
Theorem C35_wide_tile_not_factored : forall (R : cring) (K : qrt R) a t,
  d_r t = d_c a -> d_c t = d_c a -> d_r a < d_c a -> geqrt K (MD a) (MD t) = Ok (MD a, MD t).
Proof. exact (fun R => @geqrt_wide R). Qed.
Print Assumptions C35_wide_tile_not_factored.

(** Householder reflectors of one column, over the rationals; they are returned only if
    they meet the contract, so that norms without a rational root are refused. *)
Definition feqb (m n : nat) (f g : mat Qcring) : bool :=
  forallb (fun i => forallb (fun j => Qc_eq_bool (f i j) (g i j)) (seq 0 n)) (seq 0 m).
Lemma feqb_feq m n (f g : mat Qcring) : feqb m n f g = true -> feq m n f g.
Proof.
  intros H i j Hi Hj. unfold feqb in H. rewrite forallb_forall in H.
  assert (Hs : In i (seq 0 m)) by (apply in_seq; lia). specialize (H i Hs). rewrite forallb_forall in H.
  apply Qc_eq_bool_correct. apply H. apply in_seq. lia.
Qed.
Definition orthb (N : nat) (Q : mat Qcring) : bool :=
  feqb N N (mmul N Q (mtr Q)) mid && feqb N N (mmul N (mtr Q) Q) mid.
Lemma orthb_orth N Q : orthb N Q = true -> orthogonal N Q.
Proof. intros H. apply andb_prop in H. destruct H. split; apply feqb_feq; auto. Qed.

Definition qcroot (x : Qc) : Qc := Q2Qc (Qmake (Z.sqrt (Qnum (this x))) (Z.to_pos (Z.sqrt (Zpos (Qden (this x)))))).
(** beta, tau and the scaled rest for the column (x; f 0 .. f (m-1)). *)
Definition house (x : Qc) (m : nat) (f : nat -> Qc) : Qc * Qc * (nat -> Qc) :=
  let s := sum (R := Qcring) m (fun i => (f i * f i)%Qc) in
  if Qc_eq_bool s (Q2Qc 0) then (x, Q2Qc 0, fun _ => Q2Qc 0) else
  let r := qcroot (x * x + s)%Qc in
  let beta := if Qle_bool 0 (this x) then (- r)%Qc else r in
  (beta, ((beta - x) / beta)%Qc, fun i => (f i / (x - beta))%Qc).
Definition qd1 (l : list (list Qc)) : dense Qcring := @of_rows Qcring l.
Definition house_geqrt (a : dense Qcring) : outcome (dense Qcring * dense Qcring) :=
  let m := d_r a - 1 in
  let '(beta, tau, v) := house (d_e a 0 0) m (fun i => d_e a (S i) 0) in
  let x := qd1 ([beta] :: map (fun i => [v i]) (seq 0 m)) in
  let t := qd1 [[tau]] in
  if (d_c a =? 1) && (d_r x =? d_r a) && (d_c x =? d_c a) && (d_r t =? d_c a) && (d_c t =? d_c a) &&
     orthb (d_r a) (tile_refl (d_c a) (d_e x) (d_e t)) &&
     feqb (d_r a) (d_c a) (d_e a) (mmul (d_r a) (tile_refl (d_c a) (d_e x) (d_e t)) (tri Upper false (d_e x)))
  then Ok (x, t) else Abort.
Definition house_tpqrt (a b : dense Qcring) : outcome (dense Qcring * dense Qcring * dense Qcring) :=
  let m := d_r b in
  let '(beta, tau, v) := house (d_e a 0 0) m (fun i => d_e b i 0) in
  let a' := @Dn Qcring (d_r a) (d_c a) (fun i j => if (i =? 0) && (j =? 0) then beta else d_e a i j) in
  let y := qd1 (map (fun i => [v i]) (seq 0 m)) in
  let t := qd1 [[tau]] in
  if (d_c b =? 1) && (d_r y =? m) && (d_c y =? d_c b) &&
     orthb (d_c b + m) (pair_refl (d_c b) (d_e y) (d_e t)) &&
     feqb (d_c b + m) (d_c b) (vst (d_c b) (tri Upper false (d_e a)) (d_e b))
       (mmul (d_c b + m) (pair_refl (d_c b) (d_e y) (d_e t)) (vst (d_c b) (tri Upper false (d_e a')) mzero))
  then Ok (a', y, t) else Abort.
Definition house_qrt : qrt Qcring := Qrt house_geqrt house_tpqrt.

Lemma house_qrt_ok : qrt_ok house_qrt.
Proof.
  split.
  - intros a x t H _. cbn [geqrt3 house_qrt] in H. unfold house_geqrt in H.
    destruct (house _ _ _) as [[beta tau] v]. cbv zeta in H.
    match type of H with (if ?c then _ else _) = _ => destruct c eqn:E; [|discriminate] end.
    injection H as H1 H2. rewrite H1, H2 in E. 
    repeat (apply andb_prop in E; destruct E as [E ?]).
    repeat match goal with H : (_ =? _) = true |- _ => apply Nat.eqb_eq in H end.
    unfold is_geqrt. cbv zeta. do 4 (split; auto). split; [apply orthb_orth; auto|apply feqb_feq; auto].
  - intros a b a' y t H _ _. cbn [tpqrt2 house_qrt] in H. unfold house_tpqrt in H.
    destruct (house _ _ _) as [[beta tau] v]. cbv zeta in H.
    match type of H with (if ?c then _ else _) = _ => destruct c eqn:E; [|discriminate] end.
    injection H as H1 H2 H3. rewrite H2, H3 in E.
    repeat (apply andb_prop in E; destruct E as [E ?]).
    repeat match goal with H : (_ =? _) = true |- _ => apply Nat.eqb_eq in H end.
    unfold is_tpqrt. cbv zeta. subst a'. cbn [d_r d_c d_e]. do 2 (split; [reflexivity|]). do 2 (split; auto). split.
    + intros i j Hi Hj Hn. destruct (Nat.eqb_spec i 0); [|reflexivity]. destruct (Nat.eqb_spec j 0); [|reflexivity]. lia.
    + split; [apply orthb_orth; auto|apply feqb_feq; auto].
Qed.

(** A 3 x 2 matrix in 2 x 2 tiles, one of them LowRank. *)
Definition eh (i : nat) : nat := S i.
Definition ew (i : nat) : nat := 1.
Definition eA : grid Qcring := fun i j =>
  match i, j with
  | 0, 0 => qd [[3]]%Z
  | 0, _ => qd [[-3]]%Z
  | _, 0 => ML (lr_make (@of_rows Qcring (map (map qc) [[0; 1]; [1; 0]]%Z)) (eye 2)
                        (@of_rows Qcring (map (map qc) [[12]; [4]]%Z)))
  | _, _ => qd [[4]; [7]]%Z
  end.
Definition eT : grid Qcring := fun _ _ => qd [[0]]%Z.

Lemma eA_input : qr_input 2 2 eh ew eA eT.
Proof.
  split; [lia|]. split; [intros; unfold ew, eh; lia|]. split.
  - intros i j Hi Hj. destruct i as [|[|i]]; try lia; destruct j as [|[|j]]; try lia;
      (split; [apply wfb_wf; reflexivity|]; split; [reflexivity|]; split; [reflexivity|]; intros _); try exact I.
    split; [reflexivity|]. apply feqb_feq. vm_compute. reflexivity.
  - intros i j Hi Hj. split; reflexivity.
Qed.

Example C35_ex :
  qrt_ok house_qrt /\ keeps_orthU (@left_oracles Qcring) /\ oracles_near exact (@left_oracles Qcring) /\
  qr_input 2 2 eh ew eA eT /\
  showq (MH 2 2 eA) = [[3; -3]; [4; 4]; [12; 7]]%Q /\
  (let* (A', T') := tiled_qr left_oracles house_qrt 2 2 eA 2 2 eT in
   let* C := tiled_apply left_oracles 2 2 A' T' eA true in
   let* D := tiled_apply left_oracles 2 2 A' T' (Rgrid eh ew A') false in
   Ok (showq (MH 2 2 (Rgrid eh ew A')), showq (MH 2 2 C), showq (MH 2 2 D))) =
  Ok ([[-13; -7]; [0; -5]; [0; 0]]%Q, [[-13; -7]; [0; -5]; [0; 0]]%Q, [[3; -3]; [4; 4]; [12; 7]]%Q).
Proof.
  split; [apply house_qrt_ok|]. split; [apply left_oracles_orthU|]. split; [apply left_oracles_near|].
  split; [apply eA_input|]. vm_compute. auto.
Qed.

(** ** C36 *)

(** What is computed: block column j is multiplied by (the transpose of) the product of
    the reflectors of columns 0..j only. *)
Theorem C36_columns : forall (R : cring) (Or : oracles R), oracles_near exact Or ->
  forall p q h w cw Y T C C' tr, reflectors p q h w Y T -> tiles False p q h cw C ->
  tiled_apply Or p q Y T C tr = Ok C' ->
  tiles False p q h cw C' /\
  forall j, j < q ->
    feq (offs h p) (cw j) (column p h C' j) (mmul (offs h p) (mop tr (Qfac p h w Y T (S j))) (column p h C j)).
Proof. exact (fun R => @apply_columns R). Qed.
Print Assumptions C36_columns.

(** Hence Q C for block upper triangular C. *)
Theorem C36_block_upper : forall (R : cring) (Or : oracles R), oracles_near exact Or ->
  forall p q h w cw Y T C C', 0 < q -> reflectors p q h w Y T -> tiles False p q h cw C -> block_upper p q C ->
  tiled_apply Or p q Y T C false = Ok C' ->
  feq (offs h p) (offs cw q) (ent (MH p q C')) (mmul (offs h p) (Qfac p h w Y T q) (ent (MH p q C))).
Proof. exact (fun R => @apply_block_upper R). Qed.
Print Assumptions C36_block_upper.

(** For other C it is not the product: Q = diag(1, -1) and C with a nonzero block below
    the diagonal. *)
Definition cell (z : Z) : matrix Zring := zrow [z].
Definition mY : grid Zring := fun _ _ => cell 0%Z.
Definition mT : grid Zring := fun i j => cell (if (i =? 1) && (j =? 1) then 2%Z else 0%Z).
Definition mC : grid Zring := fun i j => cell (if (i =? 0) && (j =? 1) then 0%Z else 1%Z).
Definition one (_ : nat) : nat := 1.

Theorem C36_general_refuted : exists (Y T C : grid Zring),
  reflectors 2 2 one one Y T /\ tiles False 2 2 one one C /\
  orthogonal 2 (Qfac 2 one one Y T 2) /\
  forall Or tr, exists C', tiled_apply Or 2 2 Y T C tr = Ok C' /\
    show (MH 2 2 C') = Ok [[1; 0]; [1; -1]]%Z /\
    mmul 2 (mop tr (Qfac 2 one one Y T 2)) (ent (MH 2 2 C)) 1 0 = (-1)%Z.
Proof.
  exists mY, mT, mC.
  split; [|split; [|split]].
  - split; [|split].
    + intros i j Hi Hj. split; [exact I|]. split; [reflexivity|]. split; [reflexivity|]. tauto.
    + intros i j Hi Hj. split; reflexivity.
    + intros. unfold one. lia.
  - intros i j Hi Hj. split; [exact I|]. split; [reflexivity|]. split; [reflexivity|]. tauto.
  - split; intros [|[|i]] [|[|j]] Hi Hj; try lia; vm_compute; reflexivity.
  - intros Or tr. destruct tr; (eexists; split; [reflexivity|]; split; vm_compute; reflexivity).
Qed.
Print Assumptions C36_general_refuted.

(** For block upper triangular C the same reflectors do multiply by Q. *)
Example C36_ex :
  (let* C' := tiled_apply left_oracles 2 2 mY mT (fun i j => if j <? i then cell 0%Z else cell 1%Z) false in
   show (MH 2 2 C')) = Ok [[1; 1]; [0; -1]]%Z.
Proof. vm_compute. reflexivity. Qed.
