(** Properties C16, C17, C19-C22, C54: operations on single matrices. *)
From Coq Require Import List Arith ZArith Lia Bool.
From Verif Require Import Prelude IndexRange IndexRangeSpec Ring MatFun Matrix MatOps MatSpec MatOpsProofs MatTheorems.
Import ListNotations.
Local Open Scope nat_scope.

(** A concrete tree: blocks of sizes (1,2) x (2,1), with a nested Hierarchical, a LowRank and a Dense. *)
Definition exM : matrix Zring :=
  of_blocks [[MD (zd [[1; 2]]%Z); MD (zd [[3]]%Z)];
             [ML (Lr 2 2 1 Q0 (zd [[4]; [5]]%Z) (zd [[2]]%Z) (zd [[6; 7]]%Z));
              of_blocks [[MD (zd [[8]]%Z)]; [MD (zd [[9]]%Z)]]]].

Example exM_wf : wf exM /\ no_empty exM.
Proof. split; [apply wfb_wf|apply no_emptyb_spec]; reflexivity. Qed.

Example exM_show : show exM = Ok [[1; 2; 3]; [48; 56; 8]; [60; 70; 9]]%Z.
Proof. vm_compute. reflexivity. Qed.

(** ** C16 *)
Theorem C16_dense_of_dense : forall (R : cring) (d : dense R),
  exists D, densify (MD d) = Ok D /\ d_r D = d_r d /\ d_c D = d_c d /\
  forall i j, i < d_r d -> j < d_c d -> d_e D i j = d_e d i j.
Proof. exact (fun R => @densify_dense R). Qed.
Print Assumptions C16_dense_of_dense.

Theorem C16_dense_of_lowrank : forall (R : cring) (l : lowrank R), lr_wf l ->
  exists D, densify (ML l) = Ok D /\ d_r D = l_r l /\ d_c D = l_c l /\
  forall i j, i < l_r l -> j < l_c l ->
    d_e D i j = sum (d_c (l_U l)) (fun x => (d_e (l_U l) i x *
                  sum (d_c (l_S l)) (fun y => d_e (l_S l) x y * d_e (l_V l) y j))%r).
Proof. exact (fun R => @densify_lowrank R). Qed.
Print Assumptions C16_dense_of_lowrank.

Theorem C16_dense_of_empty : forall (R : cring) r c,
  exists D : dense R, densify (ME r c) = Ok D /\ d_r D = r /\ d_c D = c /\
  forall i j, i < r -> j < c -> d_e D i j = 0%r.
Proof. exact (fun R => @densify_empty R). Qed.
Print Assumptions C16_dense_of_empty.

Theorem C16_dense_of_hierarchical : forall (R : cring) m n (b : nat -> nat -> matrix R), wf (MH m n b) ->
  exists D, densify (MH m n b) = Ok D /\ d_r D = nrows (MH m n b) /\ d_c D = ncols (MH m n b) /\
  forall bi bj, bi < m -> bj < n ->
  exists Db, densify (b bi bj) = Ok Db /\
    d_r Db = bheight b bi /\ d_c Db = bwidth b bj /\
    forall i j, i < d_r Db -> j < d_c Db ->
      d_e D (offs (bheight b) bi + i) (offs (bwidth b) bj + j) = d_e Db i j.
Proof. exact (fun R => @densify_blocks R). Qed.
Print Assumptions C16_dense_of_hierarchical.

(** Every position belongs to exactly one block, so the theorems above determine every entry. *)
Theorem C16_positions : forall (R : cring) m n (b : nat -> nat -> matrix R) i j,
  i < nrows (MH m n b) -> j < ncols (MH m n b) ->
  exists bi bj i' j', (bi < m /\ bj < n /\ i' < bheight b bi /\ j' < bwidth b bj /\
    i = offs (bheight b) bi + i' /\ j = offs (bwidth b) bj + j') /\
  forall ci cj k l, ci < m -> cj < n -> k < bheight b ci -> l < bwidth b cj ->
    i = offs (bheight b) ci + k -> j = offs (bwidth b) cj + l -> ci = bi /\ cj = bj /\ k = i' /\ l = j'.
Proof. exact (fun R => @position_unique R). Qed.
Print Assumptions C16_positions.

(** ** C17 *)
Theorem C17_split_uniform : forall (R : cring) (A : matrix R) nr nc H,
  wf A -> 0 < nr -> 0 < nc -> split A nr nc = Ok H ->
  exists h w, split_of A H nr nc h w /\
   (forall i, i < nr -> Z.of_nat (h i) =
      ir_n (ir_split_child (IR 0 (Z.of_nat (nrows A))) (Z.of_nat nr) (Z.of_nat i))) /\
   (forall j, j < nc -> Z.of_nat (w j) =
      ir_n (ir_split_child (IR 0 (Z.of_nat (ncols A))) (Z.of_nat nc) (Z.of_nat j))).
Proof. exact (fun R => @split_spec R). Qed.
Print Assumptions C17_split_uniform.

Theorem C17_split_uniform_succeeds : forall (R : cring) (A : matrix R) nr nc,
  wf A -> no_empty A -> (forall m n b, A <> MH m n b) -> 0 < nr -> 0 < nc ->
  tiles (IR 0 (Z.of_nat (nrows A))) (ir_split (IR 0 (Z.of_nat (nrows A))) (Z.of_nat nr)) ->
  tiles (IR 0 (Z.of_nat (ncols A))) (ir_split (IR 0 (Z.of_nat (ncols A))) (Z.of_nat nc)) ->
  exists H, split A nr nc = Ok H.
Proof. exact (fun R => @split_uniform_ok R). Qed.
Print Assumptions C17_split_uniform_succeeds.

(** The dense conversion of a split is that of the original. *)
Theorem C17_split_dense : forall (R : cring) (A : matrix R) nr nc H,
  wf A -> 0 < nr -> 0 < nc -> split A nr nc = Ok H ->
  exists D DH, densify A = Ok D /\ densify H = Ok DH /\ d_r DH = d_r D /\ d_c DH = d_c D /\
    forall i j, i < d_r D -> j < d_c D -> d_e DH i j = d_e D i j.
Proof. exact (fun R => @split_densify R). Qed.
Print Assumptions C17_split_dense.

Theorem C17_split_like : forall (R : cring) (A : matrix R) m n b H,
  wf A -> 0 < m -> 0 < n -> split_like A m n b = Ok H ->
  split_of A H m n (bheight b) (bwidth b).
Proof. exact (fun R => @split_like_spec R). Qed.
Print Assumptions C17_split_like.

Theorem C17_split_like_succeeds : forall (R : cring) (A : matrix R) m n b,
  wf A -> no_empty A -> 0 < m -> 0 < n ->
  nrows A = offs (bheight b) m -> ncols A = offs (bwidth b) n ->
  (forall m' n' b', A = MH m' n' b' -> m' = m /\ n' = n /\
     (forall i, i < m -> bheight b i = bheight b' i) /\ (forall j, j < n -> bwidth b j = bwidth b' j)) ->
  exists H, split_like A m n b = Ok H.
Proof. exact (fun R => @split_like_ok R). Qed.
Print Assumptions C17_split_like_succeeds.

(** Splitting a Hierarchical returns its own blocks or aborts. *)
Theorem C17_split_hierarchical : forall (R : cring) m n (b : nat -> nat -> matrix R) nr nc H,
  wf (MH m n b) -> 0 < nr -> 0 < nc -> split (MH m n b) nr nc = Ok H ->
  nr = m /\ nc = n /\ exists b', H = MH m n b' /\ forall i j, i < m -> j < n -> b' i j = b i j.
Proof. exact (fun R => @split_h_blocks R). Qed.
Print Assumptions C17_split_hierarchical.

Definition exD : dense Zring := zd [[1; 2; 3; 4]; [5; 6; 7; 8]; [9; 10; 11; 12]]%Z.
Definition exL : lowrank Zring :=
  Lr 3 4 2 Q0 (zd [[1; 0]; [0; 1]; [1; 1]]%Z) (zd [[2; 0]; [0; 3]]%Z)
     (zd [[1; 2; 3; 4]; [5; 6; 7; 8]]%Z).

(** Uneven 2 x 3 split of a 3 x 4 Dense and of a 3 x 4 LowRank. *)
Example C17_ex_dense :
  (let* h := split (MD exD) 2 2 in show h) = Ok (to_rows exD) /\
  (let* h := split (ML exL) 2 2 in show h) = show (ML exL) /\
  (let* h := split (MD exD) 2 2 in match h with MH _ _ b => show (b 0 1) | _ => UB end) = Ok [[3; 4]; [7; 8]]%Z.
Proof. vm_compute. auto. Qed.

(** ** C19 *)
Theorem C19_dims_dense : forall (R : cring) (A : matrix R), wf A ->
  exists D, densify A = Ok D /\ nrows A = d_r D /\ ncols A = d_c D.
Proof. exact (fun R => @dims_densify R). Qed.
Print Assumptions C19_dims_dense.

Theorem C19_dims_transpose : forall (R : cring) (A : matrix R), wf A -> no_empty A ->
  exists B, transpose A = Ok B /\ wf B /\ nrows B = ncols A /\ ncols B = nrows A.
Proof.
  exact (fun R A W N => match transpose_spec A W N with
    ex_intro _ B (conj E (conj WB (conj _ (conj E1 (conj E2 _))))) =>
      ex_intro _ B (conj E (conj WB (conj E1 E2))) end).
Qed.
Print Assumptions C19_dims_transpose.

Theorem C19_dims_scale : forall (R : cring) (A : matrix R) a, wf A -> no_empty A ->
  exists B, scale A a = Ok B /\ wf B /\ nrows B = nrows A /\ ncols B = ncols A.
Proof.
  exact (fun R A a W N => match scale_spec A a W N with
    ex_intro _ B (conj E (conj WB (conj _ (conj E1 (conj E2 _))))) =>
      ex_intro _ B (conj E (conj WB (conj E1 E2))) end).
Qed.
Print Assumptions C19_dims_scale.

Theorem C19_dims_zero_all : forall (R : cring) (A : matrix R), wf A -> no_empty A ->
  exists B, zero_all A = Ok B /\ wf B /\ nrows B = nrows A /\ ncols B = ncols A.
Proof.
  exact (fun R A W N => match zero_all_spec A W N with
    ex_intro _ B (conj E (conj WB (conj _ (conj E1 (conj E2 _))))) =>
      ex_intro _ B (conj E (conj WB (conj E1 E2))) end).
Qed.
Print Assumptions C19_dims_zero_all.

Example C19_ex : nrows exM = 3 /\ ncols exM = 3. Proof. vm_compute. auto. Qed.

(** ** C20 *)
Theorem C20_transpose : forall (R : cring) (A : matrix R), wf A -> no_empty A ->
  exists B D DT, transpose A = Ok B /\ densify A = Ok D /\ densify B = Ok DT /\
    d_r DT = d_c D /\ d_c DT = d_r D /\
    forall i j, i < d_c D -> j < d_r D -> d_e DT i j = d_e D j i.
Proof. exact (fun R => @densify_transpose R). Qed.
Print Assumptions C20_transpose.

Theorem C20_transpose_twice : forall (R : cring) (A : matrix R), wf A -> no_empty A ->
  exists B C, transpose A = Ok B /\ transpose B = Ok C /\
    nrows C = nrows A /\ ncols C = ncols A /\ feq (nrows A) (ncols A) (ent C) (ent A).
Proof. exact (fun R => @transpose_twice R). Qed.
Print Assumptions C20_transpose_twice.

Example C20_ex : (let* t := transpose exM in show t) = Ok [[1; 48; 60]; [2; 56; 70]; [3; 8; 9]]%Z.
Proof. vm_compute. reflexivity. Qed.

(** ** C21 *)
Theorem C21_norm : forall (R : cring) (A : matrix R), wf A -> no_empty A ->
  exists D, densify A = Ok D /\
    norm A = Ok (sum (d_r D) (fun i => sum (d_c D) (fun j => d_e D i j * d_e D i j)))%r.
Proof. exact (fun R => @norm_densify R). Qed.
Print Assumptions C21_norm.

Theorem C21_norm_structure_independent : forall (R : cring) (A B : matrix R),
  wf A -> wf B -> no_empty A -> no_empty B ->
  nrows A = nrows B -> ncols A = ncols B -> feq (nrows A) (ncols A) (ent A) (ent B) -> norm A = norm B.
Proof. exact (fun R => @norm_same R). Qed.
Print Assumptions C21_norm_structure_independent.

Theorem C21_norm_scale : forall (R : cring) (A : matrix R) a, wf A -> no_empty A ->
  exists B x, scale A a = Ok B /\ norm A = Ok x /\ norm B = Ok (a * a * x)%r.
Proof. exact (fun R => @norm_scale R). Qed.
Print Assumptions C21_norm_scale.

Theorem C21_norm_transpose : forall (R : cring) (A : matrix R), wf A -> no_empty A ->
  exists B, transpose A = Ok B /\ norm B = norm A.
Proof. exact (fun R => @norm_transpose R). Qed.
Print Assumptions C21_norm_transpose.

Example C21_ex : norm exM = Ok (14 + 48*48 + 56*56 + 64 + 3600 + 4900 + 81)%Z.
Proof. vm_compute. reflexivity. Qed.

(** ** C22 *)
Theorem C22_zero_all : forall (R : cring) (A : matrix R), wf A -> no_empty A ->
  exists B, zero_all A = Ok B /\ wf B /\ no_empty B /\ nrows B = nrows A /\ ncols B = ncols A /\
    feq (nrows A) (ncols A) (ent B) mzero.
Proof. exact (fun R => @zero_all_spec R). Qed.
Print Assumptions C22_zero_all.

Theorem C22_zero_lower : forall (R : cring) (A : matrix R), wf A -> tri_ok A ->
  exists B, zero_lower A = Ok B /\ wf B /\ nrows B = nrows A /\ ncols B = ncols A /\
    feq (nrows A) (ncols A) (ent B) (upper (ent A)).
Proof. exact (fun R => @zero_lower_spec R). Qed.
Print Assumptions C22_zero_lower.

Theorem C22_zero_upper : forall (R : cring) (A : matrix R), wf A -> tri_ok A ->
  exists B, zero_upper A = Ok B /\ wf B /\ nrows B = nrows A /\ ncols B = ncols A /\
    feq (nrows A) (ncols A) (ent B) (lower (ent A)).
Proof. exact (fun R => @zero_upper_spec R). Qed.
Print Assumptions C22_zero_upper.

Definition exT : matrix Zring :=
  of_blocks [[MD (zd [[1; 2]; [3; 4]]%Z); MD (zd [[5]; [6]]%Z)];
             [ML (Lr 1 2 1 Q0 (zd [[4]]%Z) (zd [[2]]%Z) (zd [[6; 7]]%Z));
              MD (zd [[9]]%Z)]].
Example exT_ok : wf exT /\ tri_ok exT.
Proof.
  split; [apply wfb_wf; reflexivity|]. split.
  - intros [|[|i]] Hi Hj; simpl; auto; simpl in Hi; lia.
  - intros [|[|i]] [|[|j]] Hi Hj H; simpl in *; auto; try lia.
Qed.
Example C22_ex :
  (let* t := zero_lower exT in show t) = Ok [[1; 2; 5]; [0; 4; 6]; [0; 0; 9]]%Z /\
  (let* t := zero_upper exT in show t) = Ok [[1; 0; 0]; [3; 4; 0]; [48; 56; 9]]%Z /\
  (let* t := zero_all exM in show t) = Ok [[0; 0; 0]; [0; 0; 0]; [0; 0; 0]]%Z.
Proof. vm_compute. auto. Qed.

(** ** C54 *)
Theorem C54_resize : forall (R : cring) (A : dense R) r c, r <= d_r A -> c <= d_c A ->
  exists C, d_resize A r c = Ok C /\ d_r C = r /\ d_c C = c /\ feq r c (d_e C) (d_e A).
Proof. exact (fun R => @d_resize_spec R). Qed.
Print Assumptions C54_resize.

Example C54_ex : (let* d := d_resize exD 2 3 in Ok (to_rows d)) = Ok [[1; 2; 3]; [5; 6; 7]]%Z.
Proof. vm_compute. reflexivity. Qed.
