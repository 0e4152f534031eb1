(** Properties C23, C25, C29, C57: matrix products, sums, differences, scaling, dispatch. *)
From Coq Require Import List Arith ZArith QArith Lia Bool.
From Verif Require Import Prelude Ring MatFun Matrix MatOps MatSpec MatOpsProofs MatTheorems
  Gemm GemmSpec GemmProofs GemmCorrect GemmTheorems Dispatch.
Import ListNotations.
Local Open Scope nat_scope.

(** ** C23 *)

(** With exact low-rank arithmetic gemm leaves beta*C + alpha*op(A)*op(B) in C. *)
Theorem C23_gemm_exact : forall (R : cring) (Or : oracles R), oracles_near exact Or ->
  forall fuel A B C alpha beta tA tB C',
  wf A -> wf B -> wf C -> trans_ok tA tB A B C -> gemm Or fuel A B C alpha beta tA tB = Ok C' ->
  wf C' /\ same_layout C C' /\
  feq (nrows C) (ncols C) (ent C') (gemm_value (opc tA A) (ent A) (ent B) (ent C) alpha beta tA tB).
Proof. exact (fun R => @gemm_exact R). Qed.
Print Assumptions C23_gemm_exact.

(** With any low-rank arithmetic (of the right shapes) the deviation is made up of the
    errors of the individual low-rank additions and compressions. *)
Theorem C23_gemm_up_to_rounding : forall (R : cring) (Or : oracles R), oracles_shape Or ->
  forall fuel A B C alpha beta tA tB C',
  wf A -> wf B -> wf C -> trans_ok tA tB A B C -> gemm Or fuel A B C alpha beta tA tB = Ok C' ->
  wf C' /\ same_layout C C' /\
  err_sum (call_error Or) (nrows C) (ncols C)
    (msub (ent C') (gemm_value (opc tA A) (ent A) (ent B) (ent C) alpha beta tA tB)).
Proof. exact (fun R => @gemm_upto R). Qed.
Print Assumptions C23_gemm_up_to_rounding.

(** If C has no LowRank block, gemm is exact whatever low-rank arithmetic does. *)
Theorem C23_gemm_without_lowrank_result : forall (R : cring) (Or : oracles R), oracles_shape Or ->
  forall fuel A B C alpha beta tA tB C',
  wf A -> wf B -> wf C -> no_lr C -> trans_ok tA tB A B C -> gemm Or fuel A B C alpha beta tA tB = Ok C' ->
  wf C' /\ same_layout C C' /\
  feq (nrows C) (ncols C) (ent C') (gemm_value (opc tA A) (ent A) (ent B) (ent C) alpha beta tA tB).
Proof. exact (fun R => @gemm_no_lr R). Qed.
Print Assumptions C23_gemm_without_lowrank_result.

(** The restriction on transposition is void without transposition ... *)
Theorem C23_no_transposition : forall (R : cring) (A B C : matrix R), trans_ok false false A B C.
Proof. exact (fun R => @trans_ok_notrans R). Qed.
Print Assumptions C23_no_transposition.

(** ... and without LowRank blocks in the factors. *)
Theorem C23_transposition_without_lowrank : forall (R : cring) tA tB (A : matrix R), wf A -> no_lr A ->
  forall B C, no_lr B -> trans_ok tA tB A B C.
Proof. exact (fun R => @trans_ok_no_lr R). Qed.
Print Assumptions C23_transposition_without_lowrank.

(** There is an exact low-rank arithmetic. *)
Theorem C23_exact_arithmetic_exists : forall R : cring, oracles_near exact (exact_oracles (R:=R)).
Proof. exact (fun R => @exact_oracles_near R). Qed.
Print Assumptions C23_exact_arithmetic_exists.

Definition zrow (l : list Z) : matrix Zring := MD (zd [l]).
Definition zlr (u s v : list (list Z)) : matrix Zring := ML (lr_make (zd u) (zd s) (zd v)).

(** A nested product: A has a Dense, two LowRank blocks and a Hierarchical one. *)
Definition gA : matrix Zring :=
  of_blocks [[MD (zd [[1; 2]; [3; 4]]%Z); zlr [[1]; [2]]%Z [[3]]%Z [[1; 1]]%Z];
             [zlr [[2]; [1]]%Z [[1]]%Z [[0; 1]]%Z;
              of_blocks [[MD (zd [[5]]%Z); MD (zd [[6]]%Z)]; [MD (zd [[7]]%Z); MD (zd [[8]]%Z)]]]].
Definition gC : matrix Zring :=
  of_blocks [[MD (zd [[1; 0]; [0; 1]]%Z); zlr [[1]; [1]]%Z [[1]]%Z [[1; 2]]%Z];
             [MD (zd [[1; 1]; [1; 1]]%Z);
              of_blocks [[MD (zd [[1]]%Z); MD (zd [[1]]%Z)]; [MD (zd [[1]]%Z); MD (zd [[1]]%Z)]]]].

Example C23_ex : wf gA /\ wf gC /\
  show gA = Ok [[1; 2; 3; 3]; [3; 4; 6; 6]; [0; 2; 5; 6]; [0; 1; 7; 8]]%Z /\
  show gC = Ok [[1; 0; 1; 2]; [0; 1; 1; 2]; [1; 1; 1; 1]; [1; 1; 1; 1]]%Z /\
  (let* x := gemm exact_oracles 20 gA gA gC 2%Z 10%Z false false in show x) =
    Ok [[24; 38; 112; 134]; [30; 90; 220; 254]; [22; 58; 168; 190]; [16; 62; 204; 234]]%Z.
Proof. split; [apply wfb_wf; reflexivity|]. split; [apply wfb_wf; reflexivity|]. vm_compute. auto. Qed.

(** With transposition a LowRank times a Hierarchical, into a Hierarchical, is wrong
    for every low-rank arithmetic: the transposition flag of the LowRank is ignored. *)
Definition tL : matrix Zring := zlr [[1]; [2]]%Z [[1]]%Z [[1; 3]]%Z.
Definition tH : matrix Zring := of_blocks [[zrow [1%Z]]; [zrow [0%Z]]].
Definition tC : matrix Zring := of_blocks [[MD (zd [[0]; [0]]%Z)]].

Theorem C23_lowrank_hierarchical_transposed_refuted : exists A B C : matrix Zring,
  wf A /\ wf B /\ wf C /\
  forall Or, (let* C' := gemm Or 9 A B C 1%Z 1%Z true false in show C') = Ok [[1]; [2]]%Z /\
    gemm_value (R:=Zring) (opc true A) (ent A) (ent B) (ent C) 1%Z 1%Z true false 1 0 = 3%Z.
Proof.
  exists tL, tH, tC. split; [apply wfb_wf; reflexivity|]. split; [apply wfb_wf; reflexivity|].
  split; [apply wfb_wf; reflexivity|]. intros Or. split; vm_compute; reflexivity.
Qed.
Print Assumptions C23_lowrank_hierarchical_transposed_refuted.

(** Likewise a Hierarchical times a LowRank. *)
Definition tH2 : matrix Zring := of_blocks [[zrow [1%Z]; zrow [2%Z]]; [zrow [3%Z]; zrow [4%Z]]].
Definition tC2 : matrix Zring := of_blocks [[zrow [0%Z]; zrow [0%Z]]; [zrow [0%Z]; zrow [0%Z]]].

Theorem C23_hierarchical_lowrank_transposed_refuted : exists A B C : matrix Zring,
  wf A /\ wf B /\ wf C /\
  forall Or, (let* C' := gemm Or 9 A B C 1%Z 1%Z true false in show C') = Ok [[5; 15]; [11; 33]]%Z /\
    gemm_value (R:=Zring) (opc true A) (ent A) (ent B) (ent C) 1%Z 1%Z true false 0 0 = 7%Z.
Proof.
  exists tH2, tL, tC2. split; [apply wfb_wf; reflexivity|]. split; [apply wfb_wf; reflexivity|].
  split; [apply wfb_wf; reflexivity|]. intros Or. split; vm_compute; reflexivity.
Qed.
Print Assumptions C23_hierarchical_lowrank_transposed_refuted.

(** ** C25 *)
Theorem C25_product : forall (R : cring) (Or : oracles R), oracles_shape Or ->
  forall fuel A B alpha tA tB C',
  wf A -> wf B -> trans_ok tA tB A B (MD (d_zeros 0 0)) -> gemm_new Or fuel A B alpha tA tB = Ok C' ->
  wf C' /\ nrows C' = opr tA A /\ ncols C' = opc tB B /\
  feq (opr tA A) (opc tB B) (ent C') (mscale alpha (mmul (opc tA A) (mop tA (ent A)) (mop tB (ent B)))).
Proof. exact (fun R => @gemm_new_spec R). Qed.
Print Assumptions C25_product.

Example C25_ex : (let* x := gemm_new exact_oracles 20 gA gA 1%Z false false in show x) =
    Ok [[7; 19; 51; 57]; [15; 40; 105; 117]; [6; 24; 79; 90]; [3; 26; 97; 112]]%Z.
Proof. vm_compute. auto. Qed.

(** ** C29 *)
Theorem C29_addition_exact : forall (R : cring) (Or : oracles R), oracles_near exact Or ->
  forall A B C, wf A -> wf B -> nrows A = nrows B -> ncols A = ncols B -> madd_to Or A B = Ok C ->
  wf C /\ same_layout A C /\ feq (nrows A) (ncols A) (ent C) (madd (ent A) (ent B)).
Proof. exact (fun R => @madd_exact R). Qed.
Print Assumptions C29_addition_exact.

Theorem C29_addition_up_to_rounding : forall (R : cring) (Or : oracles R), oracles_shape Or ->
  forall A B C, wf A -> wf B -> nrows A = nrows B -> ncols A = ncols B -> madd_to Or A B = Ok C ->
  wf C /\ same_layout A C /\
  err_sum (call_error Or) (nrows A) (ncols A) (msub (ent C) (madd (ent A) (ent B))) /\
  (no_lr A -> feq (nrows A) (ncols A) (ent C) (madd (ent A) (ent B))).
Proof. exact (fun R => @madd_upto R). Qed.
Print Assumptions C29_addition_up_to_rounding.

Theorem C29_addition_unsupported_aborts : forall (R : cring) (Or : oracles R) (A B : matrix R),
  ~ add_supported A B -> madd_to Or A B = Abort.
Proof. exact (fun R => @madd_unsupported R). Qed.
Print Assumptions C29_addition_unsupported_aborts.

Theorem C29_subtraction : forall (R : cring) (a b : dense R), d_r a = d_r b -> d_c a = d_c b ->
  exists c, subtraction (MD a) (MD b) = Ok (MD c) /\ d_r c = d_r a /\ d_c c = d_c a /\
    forall i j, i < d_r a -> j < d_c a -> d_e c i j = (d_e a i j - d_e b i j)%r.
Proof. exact (fun R => @sub_spec R). Qed.
Print Assumptions C29_subtraction.

Theorem C29_subtraction_unsupported : forall (R : cring) (A B C : matrix R),
  subtraction A B = Ok C -> exists a b, A = MD a /\ B = MD b.
Proof. exact (fun R => @sub_unsupported R). Qed.
Print Assumptions C29_subtraction_unsupported.

Theorem C29_scaling : forall (R : cring) (A : matrix R) a, wf A -> no_empty A ->
  exists B, scale A a = Ok B /\ wf B /\ no_empty B /\ nrows B = nrows A /\ ncols B = ncols A /\
    feq (nrows A) (ncols A) (ent B) (mscale a (ent A)).
Proof. exact (fun R => @scale_spec R). Qed.
Print Assumptions C29_scaling.

Example C29_ex :
  (let* x := madd_to exact_oracles gC gA in show x) =
    Ok [[2; 2; 4; 5]; [3; 5; 7; 8]; [1; 3; 6; 7]; [1; 2; 8; 9]]%Z /\
  (let* x := madd_to exact_oracles gC (zlr [[1]; [2]; [3]; [4]]%Z [[1]]%Z [[1; 2; 0; 1]]%Z) in show x) =
    Ok [[2; 2; 1; 3]; [2; 5; 1; 4]; [4; 7; 1; 4]; [5; 9; 1; 5]]%Z /\
  (let* x := scale gA 2%Z in show x) =
    Ok [[2; 4; 6; 6]; [6; 8; 12; 12]; [0; 4; 10; 12]; [0; 2; 14; 16]]%Z.
Proof. vm_compute. auto. Qed.

(** ** C57 *)

(** The dynamic type of a matrix. *)
Definition class_of {R} (A : matrix R) : cls :=
  match A with MD _ => KDense | ML _ => KLowRank | MH _ _ _ => KHierarchical | ME _ _ => KEmpty end.

(** No call is ambiguous, and a specialised definition is selected whenever there is one. *)
Theorem C57_dispatch_total : forall t args, In t all_tables -> length args = arity t -> Forall concrete args ->
  select t args <> Ambiguous /\
  (implemented t args <-> exists d, select t args = Selected d /\ d_body d = Impl).
Proof. exact dispatch_total. Qed.
Print Assumptions C57_dispatch_total.

(** The selected definition fits the arguments and no fitting one is more specific. *)
Theorem C57_most_specific : forall t args d, select t args = Selected d ->
  In d t /\ applicable args d = true /\
  forall e, In e t -> applicable args e = true -> more_specific e d = false.
Proof. exact select_sound. Qed.
Print Assumptions C57_most_specific.

(** Without a definition for the arguments the call aborts, except for print and to_json. *)
Theorem C57_abort_otherwise : forall t args, In t all_tables -> t <> to_json_table -> t <> print_table ->
  length args = arity t -> Forall concrete args -> ~ implemented t args ->
  select t args = NoDefinition \/ exists d, select t args = Selected d /\ d_body d = Aborts.
Proof. exact dispatch_abort. Qed.
Print Assumptions C57_abort_otherwise.

(** print and to_json only report an error for an Empty matrix and go on. *)
Theorem C57_print_empty_refuted : exists t args, In t all_tables /\ length args = arity t /\ Forall concrete args /\
  ~ implemented t args /\ exists d, select t args = Selected d /\ d_body d = Reports.
Proof.
  exists to_json_table, [KEmpty]. split; [vm_compute; tauto|]. split; [reflexivity|].
  split; [constructor; [intros H; discriminate|constructor]|]. split.
  - rewrite <- implementedb_spec. discriminate.
  - eexists. split; [vm_compute; reflexivity|reflexivity].
Qed.
Print Assumptions C57_print_empty_refuted.

Theorem C57_gemm_all_combinations : forall a b c,
  a <> KMatrix -> a <> KEmpty -> b <> KMatrix -> b <> KEmpty -> c <> KMatrix -> c <> KEmpty ->
  implemented gemm_table [a; b; c].
Proof. exact gemm_implemented. Qed.
Print Assumptions C57_gemm_all_combinations.

(** The gemm model follows the table: where the table selects the aborting fallback
    the model aborts (or a dimension assert fails first). *)
Theorem C57_gemm_fallback : forall (R : cring) (Or : oracles R) g gn (A B C : matrix R) alpha beta tA tB,
  ~ implemented gemm_table [class_of A; class_of B; class_of C] ->
  gemm_step Or g gn A B C alpha beta tA tB = Abort \/ gemm_step Or g gn A B C alpha beta tA tB = AssertFail.
Proof.
  intros R Or g gn A B C alpha beta tA tB H. rewrite <- implementedb_spec in H.
  unfold gemm_step.
  destruct (opr tA A =? nrows C); auto. destruct (opc tA A =? opr tB B); auto.
  destruct (opc tB B =? ncols C); auto.
  destruct A, B, C; simpl class_of in H; auto; exfalso; apply H; reflexivity.
Qed.
Print Assumptions C57_gemm_fallback.

(** Which combinations the binary operations support. *)
Definition supported (t : table) (l : list (cls * cls)) : Prop :=
  forall a b, a <> KMatrix -> b <> KMatrix -> (implemented t [a; b] <-> In (a, b) l).

Ltac supp := intros a b Ha Hb; rewrite <- implementedb_spec; destruct a, b; try congruence;
  (split; [intros X; vm_compute in X; try discriminate X; simpl; tauto
          |intros X; simpl in X; try reflexivity; exfalso; intuition discriminate]).

Theorem C57_supported :
  supported addition_table [(KDense, KDense); (KDense, KLowRank); (KHierarchical, KHierarchical);
                            (KHierarchical, KLowRank); (KLowRank, KLowRank)] /\
  supported subtraction_table [(KDense, KDense)] /\
  supported trmm_table [(KDense, KDense); (KDense, KLowRank); (KDense, KHierarchical);
                        (KHierarchical, KDense); (KHierarchical, KLowRank); (KHierarchical, KHierarchical)] /\
  supported trsm_table [(KHierarchical, KHierarchical); (KDense, KDense); (KHierarchical, KDense);
                        (KDense, KLowRank); (KLowRank, KLowRank); (KHierarchical, KLowRank); (KEmpty, KLowRank)].
Proof. split; [|split; [|split]]; supp. Qed.
Print Assumptions C57_supported.

Example C57_ex : select gemm_table [KLowRank; KHierarchical; KDense] = Selected (Def [KMatrix; KHierarchical; KDense] Impl) /\
  select gemm_table [KHierarchical; KHierarchical; KDense] = Selected (Def [KHierarchical; KHierarchical; KDense] Impl) /\
  select gemm_table [KDense; KDense; KEmpty] = Selected (Def [KMatrix; KMatrix; KMatrix] Aborts) /\
  select rq_table [KLowRank; KDense; KDense] = NoDefinition.
Proof. vm_compute. auto. Qed.
