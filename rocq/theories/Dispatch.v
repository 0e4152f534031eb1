(** Open multi-method dispatch (yomm2): the table of definitions of every method
    in src/, and the selection rule of the library: among the applicable
    definitions the one that is more specific than all others; without an
    applicable definition, or without a best one, yomm2's error handler aborts. *)
From Coq Require Import List Arith Lia Bool.
Import ListNotations.

(** Classes registered in src/util/initialize.cpp:9-13. *)
Inductive cls := KMatrix | KDense | KLowRank | KHierarchical | KEmpty.

Definition cls_eqb (a b : cls) : bool :=
  match a, b with
  | KMatrix, KMatrix | KDense, KDense | KLowRank, KLowRank | KHierarchical, KHierarchical | KEmpty, KEmpty => true
  | _, _ => false
  end.

(** [c] is [p] or derived from it. *)
Definition isa (c p : cls) : bool := cls_eqb c p || cls_eqb p KMatrix.

(** What the body of a definition does: its job; print an error and abort;
    print an error and return. *)
Inductive body := Impl | Aborts | Reports.
Record def := Def { d_pat : list cls; d_body : body }.
Definition table := list def.

Fixpoint all2 (p : cls -> cls -> bool) (l m : list cls) : bool :=
  match l, m with
  | [], [] => true
  | a :: l', b :: m' => p a b && all2 p l' m'
  | _, _ => false
  end.

Definition applicable (args : list cls) (d : def) : bool := all2 isa args (d_pat d).

(** Every parameter class equal or derived, and not the same definition. *)
Definition more_specific (d e : def) : bool :=
  all2 isa (d_pat d) (d_pat e) && negb (all2 cls_eqb (d_pat d) (d_pat e)).

Inductive selection := Selected (d : def) | NoDefinition | Ambiguous.

Definition select (t : table) (args : list cls) : selection :=
  match filter (applicable args) t with
  | [] => NoDefinition
  | cands =>
      match filter (fun d => forallb (fun e => negb (more_specific e d)) cands) cands with
      | [d] => Selected d
      | _ => Ambiguous
      end
  end.

(** src/classes/dense.cpp:31 *)
Definition fill_dense_from_table : table := [
  Def [KHierarchical; KDense] Impl (* 64-71 *);
  Def [KLowRank; KDense] Impl (* 73-75 *);
  Def [KDense; KDense] Impl (* 77-81 *);
  Def [KEmpty; KDense] Impl (* 83-87 *);
  Def [KMatrix; KMatrix] Aborts (* 89-92 *)
].
(** src/classes/dense.cpp:94 *)
Definition move_from_dense_table : table := [
  Def [KDense] Impl (* 99-101 *);
  Def [KMatrix] Aborts (* 103-106 *)
].
(** src/classes/hierarchical.cpp:32 *)
Definition move_from_hierarchical_table : table := [
  Def [KHierarchical] Impl (* 37-39 *);
  Def [KMatrix] Aborts (* 41-44 *)
].
(** src/classes/low_rank.cpp:26 *)
Definition move_from_low_rank_table : table := [
  Def [KLowRank] Impl (* 31-33 *);
  Def [KMatrix] Aborts (* 35-38 *)
].
(** src/classes/matrix_proxy.cpp:22 *)
Definition clone_table : table := [
  Def [KDense] Impl (* 24-26 *);
  Def [KEmpty] Impl (* 28-30 *);
  Def [KLowRank] Impl (* 32-34 *);
  Def [KHierarchical] Impl (* 35-37 *);
  Def [KMatrix] Aborts (* 39-42 *)
].
(** src/classes/matrix_proxy.cpp:44 *)
Definition move_clone_table : table := [
  Def [KDense] Impl (* 46-48 *);
  Def [KEmpty] Impl (* 50-52 *);
  Def [KLowRank] Impl (* 54-56 *);
  Def [KHierarchical] Impl (* 58-60 *);
  Def [KMatrix] Aborts (* 62-65 *)
].
(** src/operations/BLAS/gemm.cpp:31 *)
Definition gemm_table : table := [
  Def [KDense; KDense; KDense] Impl (* 126-146 *);
  Def [KLowRank; KDense; KDense] Impl (* 148-162 *);
  Def [KDense; KLowRank; KDense] Impl (* 164-178 *);
  Def [KLowRank; KLowRank; KDense] Impl (* 180-200 *);
  Def [KDense; KDense; KLowRank] Impl (* 202-218 *);
  Def [KLowRank; KDense; KLowRank] Impl (* 220-235 *);
  Def [KDense; KLowRank; KLowRank] Impl (* 237-252 *);
  Def [KLowRank; KLowRank; KLowRank] Impl (* 254-273 *);
  Def [KHierarchical; KLowRank; KLowRank] Impl (* 275-290 *);
  Def [KDense; KHierarchical; KLowRank] Impl (* 292-306 *);
  Def [KHierarchical; KDense; KLowRank] Impl (* 308-322 *);
  Def [KLowRank; KHierarchical; KLowRank] Impl (* 324-339 *);
  Def [KDense; KLowRank; KHierarchical] Impl (* 341-356 *);
  Def [KLowRank; KDense; KHierarchical] Impl (* 358-373 *);
  Def [KLowRank; KLowRank; KHierarchical] Impl (* 375-394 *);
  Def [KHierarchical; KHierarchical; KLowRank] Impl (* 396-418 *);
  Def [KHierarchical; KHierarchical; KHierarchical] Impl (* 420-442 *);
  Def [KDense; KDense; KHierarchical] Impl (* 444-466 *);
  Def [KLowRank; KHierarchical; KHierarchical] Impl (* 468-492 *);
  Def [KDense; KHierarchical; KHierarchical] Impl (* 494-520 *);
  Def [KHierarchical; KLowRank; KHierarchical] Impl (* 522-545 *);
  Def [KHierarchical; KDense; KHierarchical] Impl (* 547-572 *);
  Def [KHierarchical; KHierarchical; KDense] Impl (* 574-592 *);
  Def [KMatrix; KHierarchical; KDense] Impl (* 594-610 *);
  Def [KHierarchical; KMatrix; KDense] Impl (* 612-628 *);
  Def [KMatrix; KMatrix; KMatrix] Aborts (* 631-638 *)
].
(** src/operations/BLAS/gemm.cpp:53 *)
Definition gemm_new_table : table := [
  Def [KHierarchical; KHierarchical] Impl (* 72-108 *);
  Def [KMatrix; KMatrix] Impl (* 110-124 *)
].
(** src/operations/BLAS/trmm.cpp:29 *)
Definition trmm_table : table := [
  Def [KDense; KDense] Impl (* 53-72 *);
  Def [KDense; KLowRank] Impl (* 74-89 *);
  Def [KDense; KHierarchical] Impl (* 91-107 *);
  Def [KHierarchical; KDense] Impl (* 109-125 *);
  Def [KHierarchical; KLowRank] Impl (* 127-144 *);
  Def [KHierarchical; KHierarchical] Impl (* 146-217 *);
  Def [KMatrix; KMatrix] Aborts (* 220-229 *)
].
(** src/operations/BLAS/trsm.cpp:29 *)
Definition trsm_table : table := [
  Def [KHierarchical; KHierarchical] Impl (* 40-90 *);
  Def [KDense; KDense] Impl (* 92-104 *);
  Def [KMatrix; KLowRank] Impl (* 106-115 *);
  Def [KHierarchical; KDense] Impl (* 117-125 *);
  Def [KMatrix; KMatrix] Aborts (* 128-131 *)
].
(** src/operations/LAPACK/geqp3.cpp:31 *)
Definition geqp3_table : table := [
  Def [KDense] Impl (* 38-61 *);
  Def [KMatrix] Aborts (* 64-67 *)
].
(** src/operations/LAPACK/geqrt.cpp:27 *)
Definition geqrt_table : table := [
  Def [KDense; KDense] Impl (* 34-43 *);
  Def [KMatrix; KMatrix] Aborts (* 46-49 *)
].
(** src/operations/LAPACK/getrf.cpp:35 *)
Definition getrf_table : table := [
  Def [KHierarchical] Impl (* 45-65 *);
  Def [KDense] Impl (* 67-84 *);
  Def [KMatrix] Aborts (* 86-89 *)
].
(** src/operations/LAPACK/id.cpp:41 *)
Definition one_sided_id_table : table := [
  Def [KDense] Impl (* 49-71 *);
  Def [KMatrix] Aborts (* 74-77 *)
].
(** src/operations/LAPACK/id.cpp:79 *)
Definition id_table : table := [
  Def [KDense] Impl (* 105-116 *);
  Def [KMatrix] Aborts (* 119-122 *)
].
(** src/operations/LAPACK/larfb.cpp:28 *)
Definition larfb_table : table := [
  Def [KDense; KDense; KDense] Impl (* 37-49 *);
  Def [KDense; KDense; KLowRank] Impl (* 51-56 *);
  Def [KMatrix; KMatrix; KMatrix] Aborts (* 59-64 *)
].
(** src/operations/LAPACK/mgs_qr.cpp:37 *)
Definition make_left_orthogonal_table : table := [
  Def [KDense] Impl (* 46-49 *);
  Def [KLowRank] Impl (* 51-57 *);
  Def [KMatrix] Aborts (* 59-62 *)
].
(** src/operations/LAPACK/mgs_qr.cpp:65 *)
Definition split_by_column_table : table := [
  Def [KDense; KHierarchical] Impl (* 76-85 *);
  Def [KLowRank; KHierarchical] Impl (* 87-100 *);
  Def [KHierarchical; KHierarchical] Impl (* 102-113 *);
  Def [KMatrix; KMatrix] Aborts (* 115-120 *)
].
(** src/operations/LAPACK/mgs_qr.cpp:123 *)
Definition concat_columns_table : table := [
  Def [KDense; KHierarchical; KDense] Impl (* 137-154 *);
  Def [KLowRank; KHierarchical; KDense] Impl (* 156-178 *);
  Def [KHierarchical; KHierarchical; KDense] Impl (* 180-197 *);
  Def [KMatrix; KMatrix; KMatrix] Aborts (* 199-205 *)
].
(** src/operations/LAPACK/mgs_qr.cpp:208 *)
Definition update_splitted_size_table : table := [
  Def [KHierarchical] Impl (* 217-223 *);
  Def [KMatrix] Impl (* 225-229 *)
].
(** src/operations/LAPACK/mgs_qr.cpp:261 *)
Definition mgs_qr_table : table := [
  Def [KDense; KDense; KDense] Impl (* 320-338 *);
  Def [KHierarchical; KHierarchical; KHierarchical] Impl (* 340-360 *);
  Def [KMatrix; KMatrix; KMatrix] Aborts (* 362-365 *)
].
(** src/operations/LAPACK/mgs_qr.cpp:270 *)
Definition orthogonalize_block_col_table : table := [
  Def [KHierarchical; KHierarchical; KDense] Impl (* 279-306 *);
  Def [KHierarchical; KHierarchical; KHierarchical] Impl (* 308-318 *)
].
(** src/operations/LAPACK/qr.cpp:36 *)
Definition qr_table : table := [
  Def [KDense; KDense; KDense] Impl (* 65-90 *);
  Def [KMatrix; KMatrix; KMatrix] Aborts (* 92-95 *)
].
(** src/operations/LAPACK/qr.cpp:46 *)
Definition get_right_factor_table : table := [
  Def [KDense] Impl (* 97-99 *);
  Def [KLowRank] Impl (* 101-104 *)
].
(** src/operations/LAPACK/qr.cpp:55 *)
Definition update_right_factor_table : table := [
  Def [KDense; KDense] Impl (* 106-111 *);
  Def [KLowRank; KDense] Impl (* 113-122 *)
].
(** src/operations/LAPACK/rq.cpp:36 *)
Definition rq_table : table := [
  Def [KDense; KDense; KDense] Impl (* 43-70 *)
].
(** src/operations/LAPACK/tpmqrt.cpp:30 *)
Definition tpmqrt_table : table := [
  Def [KDense; KDense; KDense; KDense] Impl (* 45-59 *);
  Def [KLowRank; KDense; KDense; KDense] Impl (* 61-75 *);
  Def [KDense; KDense; KLowRank; KDense] Impl (* 77-90 *);
  Def [KDense; KDense; KDense; KLowRank] Impl (* 92-106 *);
  Def [KLowRank; KDense; KLowRank; KDense] Impl (* 108-122 *);
  Def [KLowRank; KDense; KDense; KLowRank] Impl (* 124-138 *);
  Def [KDense; KDense; KLowRank; KLowRank] Impl (* 140-154 *);
  Def [KLowRank; KDense; KLowRank; KLowRank] Impl (* 156-170 *);
  Def [KMatrix; KMatrix; KMatrix; KMatrix] Aborts (* 173-179 *)
].
(** src/operations/LAPACK/tpqrt.cpp:28 *)
Definition tpqrt_table : table := [
  Def [KDense; KDense; KDense] Impl (* 35-43 *);
  Def [KDense; KLowRank; KDense] Impl (* 45-53 *);
  Def [KMatrix; KMatrix; KMatrix] Aborts (* 56-59 *)
].
(** src/operations/arithmetic/addition.cpp:32 *)
Definition addition_table : table := [
  Def [KDense; KDense] Impl (* 39-46 *);
  Def [KDense; KLowRank] Impl (* 48-51 *);
  Def [KHierarchical; KHierarchical] Impl (* 53-60 *);
  Def [KHierarchical; KLowRank] Impl (* 62-66 *);
  Def [KLowRank; KLowRank] Impl (* 191-203 *);
  Def [KMatrix; KMatrix] Aborts (* 205-208 *)
].
(** src/operations/arithmetic/multiplication.cpp:19 *)
Definition multiplication_table : table := [
  Def [KDense] Impl (* 28-37 *);
  Def [KLowRank] Impl (* 39-44 *);
  Def [KHierarchical] Impl (* 46-55 *);
  Def [KMatrix] Aborts (* 57-60 *)
].
(** src/operations/arithmetic/subtraction.cpp:21 *)
Definition subtraction_table : table := [
  Def [KDense; KDense] Impl (* 32-40 *);
  Def [KMatrix; KMatrix] Aborts (* 42-47 *)
].
(** src/operations/misc/get_dim.cpp:20 *)
Definition get_n_rows_table : table := [
  Def [KDense] Impl (* 24-24 *);
  Def [KEmpty] Impl (* 26-26 *);
  Def [KLowRank] Impl (* 28-28 *);
  Def [KHierarchical] Impl (* 30-36 *);
  Def [KMatrix] Aborts (* 38-41 *)
].
(** src/operations/misc/get_dim.cpp:44 *)
Definition get_n_cols_table : table := [
  Def [KDense] Impl (* 48-48 *);
  Def [KEmpty] Impl (* 50-50 *);
  Def [KLowRank] Impl (* 52-52 *);
  Def [KHierarchical] Impl (* 54-60 *);
  Def [KMatrix] Aborts (* 62-65 *)
].
(** src/operations/misc/misc.cpp:28 *)
Definition zero_all_table : table := [
  Def [KDense] Impl (* 34-36 *);
  Def [KLowRank] Impl (* 38-48 *);
  Def [KHierarchical] Impl (* 50-55 *);
  Def [KMatrix] Aborts (* 57-60 *)
].
(** src/operations/misc/misc.cpp:63 *)
Definition zero_lower_table : table := [
  Def [KDense] Impl (* 69-73 *);
  Def [KHierarchical] Impl (* 75-83 *);
  Def [KMatrix] Aborts (* 85-88 *)
].
(** src/operations/misc/misc.cpp:91 *)
Definition zero_upper_table : table := [
  Def [KDense] Impl (* 97-101 *);
  Def [KHierarchical] Impl (* 103-111 *);
  Def [KMatrix] Aborts (* 113-116 *)
].
(** src/operations/misc/misc.cpp:149 *)
Definition split_table : table := [
  Def [KDense] Impl (* 180-197 *);
  Def [KLowRank] Impl (* 199-241 *);
  Def [KHierarchical] Impl (* 243-273 *);
  Def [KMatrix] Aborts (* 275-284 *)
].
(** src/operations/misc/misc.cpp:286 *)
Definition shallow_copy_table : table := [
  Def [KDense] Impl (* 292-295 *);
  Def [KLowRank] Impl (* 297-301 *);
  Def [KHierarchical] Impl (* 303-311 *);
  Def [KMatrix] Aborts (* 313-316 *)
].
(** src/operations/misc/norm.cpp:20 *)
Definition norm_table : table := [
  Def [KDense] Impl (* 24-32 *);
  Def [KLowRank] Impl (* 34-34 *);
  Def [KHierarchical] Impl (* 36-44 *);
  Def [KMatrix] Aborts (* 46-49 *)
].
(** src/operations/misc/resize.cpp:19 *)
Definition resize_table : table := [
  Def [KDense] Impl (* 27-35 *);
  Def [KMatrix] Aborts (* 37-40 *)
].
(** src/operations/misc/transpose.cpp:20 *)
Definition transpose_table : table := [
  Def [KDense] Impl (* 24-32 *);
  Def [KLowRank] Impl (* 34-37 *);
  Def [KHierarchical] Impl (* 39-47 *);
  Def [KMatrix] Aborts (* 49-52 *)
].
(** src/util/get_memory_usage.cpp:22 *)
Definition get_memory_usage_table : table := [
  Def [KDense] Impl (* 31-41 *);
  Def [KLowRank] Impl (* 43-55 *);
  Def [KHierarchical] Impl (* 57-72 *);
  Def [KMatrix] Aborts (* 74-77 *)
].
(** src/util/l2_error.cpp:26 *)
Definition collect_diff_norm_table : table := [
  Def [KDense; KDense] Impl (* 43-49 *);
  Def [KDense; KLowRank] Impl (* 51-55 *);
  Def [KLowRank; KDense] Impl (* 57-61 *);
  Def [KLowRank; KLowRank] Impl (* 63-67 *);
  Def [KHierarchical; KMatrix] Impl (* 69-74 *);
  Def [KMatrix; KHierarchical] Impl (* 76-81 *);
  Def [KHierarchical; KHierarchical] Impl (* 83-101 *);
  Def [KMatrix; KMatrix] Aborts (* 103-108 *)
].
(** src/util/print.cpp:30 *)
Definition type_table : table := [
  Def [KDense] Impl (* 34-36 *);
  Def [KEmpty] Impl (* 38-40 *);
  Def [KLowRank] Impl (* 42-44 *);
  Def [KHierarchical] Impl (* 46-48 *);
  Def [KMatrix] Impl (* 50-52 *)
].
(** src/util/print.cpp:54 *)
Definition to_json_table : table := [
  Def [KHierarchical] Impl (* 68-88 *);
  Def [KLowRank] Impl (* 90-102 *);
  Def [KDense] Impl (* 104-115 *);
  Def [KMatrix] Reports (* 117-122 *)
].
(** src/util/print.cpp:130 *)
Definition print_table : table := [
  Def [KMatrix] Reports (* 142-144 *);
  Def [KDense] Impl (* 146-154 *);
  Def [KLowRank] Impl (* 156-164 *);
  Def [KHierarchical] Impl (* 166-175 *)
].
Definition all_tables : list table := [
  fill_dense_from_table;
  move_from_dense_table;
  move_from_hierarchical_table;
  move_from_low_rank_table;
  clone_table;
  move_clone_table;
  gemm_table;
  gemm_new_table;
  trmm_table;
  trsm_table;
  geqp3_table;
  geqrt_table;
  getrf_table;
  one_sided_id_table;
  id_table;
  larfb_table;
  make_left_orthogonal_table;
  split_by_column_table;
  concat_columns_table;
  update_splitted_size_table;
  mgs_qr_table;
  orthogonalize_block_col_table;
  qr_table;
  get_right_factor_table;
  update_right_factor_table;
  rq_table;
  tpmqrt_table;
  tpqrt_table;
  addition_table;
  multiplication_table;
  subtraction_table;
  get_n_rows_table;
  get_n_cols_table;
  zero_all_table;
  zero_lower_table;
  zero_upper_table;
  split_table;
  shallow_copy_table;
  norm_table;
  resize_table;
  transpose_table;
  get_memory_usage_table;
  collect_diff_norm_table;
  type_table;
  to_json_table;
  print_table
].

(** ** Specification side *)

(** Number of virtual parameters. *)
Definition arity (t : table) : nat := match t with [] => 0 | d :: _ => length (d_pat d) end.

(** Dynamic types of actual objects. *)
Definition concrete (c : cls) : Prop := c <> KMatrix.

(** There is a definition for these types other than the fallback on the base class. *)
Definition implemented (t : table) (args : list cls) : Prop :=
  exists d, In d t /\ applicable args d = true /\ d_body d = Impl.

(** ** Proofs *)

Fixpoint tuples (n : nat) : list (list cls) :=
  match n with
  | O => [[]]
  | S m => flat_map (fun l => map (fun c => c :: l) [KDense; KLowRank; KHierarchical; KEmpty]) (tuples m)
  end.

Lemma tuples_complete n : forall l, length l = n -> Forall concrete l -> In l (tuples n).
Proof.
  induction n as [|n IH]; intros [|c l] HL HF; simpl in *; try discriminate; auto.
  inversion HF; subst. apply in_flat_map. exists l. split; [apply IH; auto|].
  destruct c; simpl; auto. exfalso. apply H1. reflexivity.
Qed.

Lemma for_all_tables (P : table -> list cls -> bool) :
  forallb (fun t => forallb (P t) (tuples (arity t))) all_tables = true ->
  forall t args, In t all_tables -> length args = arity t -> Forall concrete args -> P t args = true.
Proof.
  intros H t args Ht HL HF. rewrite forallb_forall in H. specialize (H t Ht).
  rewrite forallb_forall in H. apply H. apply tuples_complete; auto.
Qed.

Definition implementedb (t : table) (args : list cls) : bool :=
  existsb (fun d => applicable args d && match d_body d with Impl => true | _ => false end) t.

Lemma implementedb_spec t args : implementedb t args = true <-> implemented t args.
Proof.
  unfold implementedb, implemented. rewrite existsb_exists. split; intros [d H]; exists d.
  - destruct H as [H1 H2]. apply andb_true_iff in H2. destruct H2 as [H2 H3].
    split; auto. split; auto. destruct (d_body d); auto; discriminate.
  - destruct H as [H1 [H2 H3]]. rewrite H2, H3. auto.
Qed.

(** The selected definition is applicable and at least as specific as any other applicable one. *)
Lemma select_sound t args d : select t args = Selected d ->
  In d t /\ applicable args d = true /\
  forall e, In e t -> applicable args e = true -> more_specific e d = false.
Proof.
  unfold select. intros H.
  destruct (filter (applicable args) t) as [|c0 cs] eqn:E; [discriminate|].
  remember (c0 :: cs) as l. clear Heql c0 cs.
  destruct (filter (fun d0 => forallb (fun e => negb (more_specific e d0)) l) l) as [|x [|y r]] eqn:F; try discriminate.
  inversion H; subst x. assert (I : In d [d]) by (simpl; auto). rewrite <- F in I.
  apply filter_In in I. destruct I as [I1 I2]. rewrite <- E in I1. apply filter_In in I1.
  destruct I1 as [I1 I3]. split; auto. split; auto.
  intros e He Ha. rewrite forallb_forall in I2. apply negb_true_iff, I2. rewrite <- E. apply filter_In. auto.
Qed.

Definition body_eqb (a b : body) : bool :=
  match a, b with Impl, Impl | Aborts, Aborts | Reports, Reports => true | _, _ => false end.

Definition check_total (t : table) (args : list cls) : bool :=
  match select t args with
  | Selected d => eqb (implementedb t args) (body_eqb (d_body d) Impl)
  | NoDefinition => negb (implementedb t args)
  | Ambiguous => false
  end.

Lemma dispatch_total t args : In t all_tables -> length args = arity t -> Forall concrete args ->
  select t args <> Ambiguous /\
  (implemented t args <-> exists d, select t args = Selected d /\ d_body d = Impl).
Proof.
  intros Ht HL HF.
  pose proof (for_all_tables check_total ltac:(vm_compute; reflexivity) t args Ht HL HF) as H.
  unfold check_total in H. rewrite <- implementedb_spec.
  destruct (select t args) as [d| |]; [|split; [congruence|]|discriminate].
  - split; [congruence|]. apply eqb_prop in H. rewrite H. split.
    + intros E. exists d. split; auto. destruct (d_body d); auto; discriminate.
    + intros [d' [E1 E2]]. inversion E1; subst. rewrite E2. reflexivity.
  - apply negb_true_iff in H. rewrite H. split; [discriminate|]. intros [d [E _]]. discriminate.
Qed.

(** Without an implementation the call aborts (through the fallback or through
    yomm2's handler), except for print and to_json, which only report. *)
Lemma dispatch_abort t args : In t all_tables -> t <> to_json_table -> t <> print_table ->
  length args = arity t -> Forall concrete args -> ~ implemented t args ->
  select t args = NoDefinition \/ exists d, select t args = Selected d /\ d_body d = Aborts.
Proof.
  intros Ht N1 N2 HL HF NI.
  destruct (dispatch_total t args Ht HL HF) as [A B].
  destruct (select t args) as [d| |] eqn:E; auto; [|congruence].
  right. exists d. split; auto. destruct (d_body d) eqn:Eb; auto.
  - exfalso. apply NI. apply B. eauto.
  - exfalso. apply select_sound in E. destruct E as [E _].
    assert (K : forallb (fun t => forallb (fun d => negb (body_eqb (d_body d) Reports)) t || 
               (match t with Def [KHierarchical] Impl :: Def [KLowRank] Impl :: Def [KDense] Impl :: Def [KMatrix] Reports :: [] => true
                           | Def [KMatrix] Reports :: Def [KDense] Impl :: Def [KLowRank] Impl :: Def [KHierarchical] Impl :: [] => true
                           | _ => false end)) all_tables = true) by (vm_compute; reflexivity).
    rewrite forallb_forall in K. specialize (K t Ht). apply orb_true_iff in K. destruct K as [K|K].
    + rewrite forallb_forall in K. specialize (K d E). rewrite Eb in K. discriminate.
    + repeat match type of K with
        | (match ?x with _ => _ end) = true => destruct x; try discriminate
        end; unfold to_json_table, print_table in *; congruence.
Qed.

(** gemm has an implementation for all combinations of the three kinds. *)
Lemma gemm_implemented a b c : a <> KMatrix -> a <> KEmpty -> b <> KMatrix -> b <> KEmpty -> c <> KMatrix -> c <> KEmpty ->
  implemented gemm_table [a; b; c].
Proof.
  intros. apply implementedb_spec. destruct a, b, c; try congruence; reflexivity.
Qed.
