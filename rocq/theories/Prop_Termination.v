(** Property C70: products, solves and factorizations of nested matrices end. *)
From Coq Require Import List Arith ZArith QArith Qcanon Lia Bool.
From Verif Require Import Prelude Osim Ring MatFun Matrix MatOps MatSpec MatOpsProofs Lapack Gemm GemmSpec
  GemmTheorems Triangular TriSpec Reflect ReflectSuccess Sampled Mgs L2Error Heap HeapProofs HeapViews Tree TreeProofs TreeSim Proxy HGemm HGemmAdd HGemmTheorems
  GemmTerm TriTerm MgsTerm Prop_Gemm Prop_Triangular Prop_Qr Prop_Mgs.
Import ListNotations.
Local Open Scope nat_scope.

(** ** C70 *)

(** [lv] counts the levels of nesting: 0 for a Dense, 1 for a LowRank, one more than its
    blocks for a Hierarchical.  A budget that depends on nothing else is never used up:
    for all kinds and nestings of the three operands, equal or not, for all sizes, fitting
    or not, and for all transpositions.  [oracles_halt]: the low-rank routines return. *)
Theorem C70_gemm : forall (R : cring) (Or : oracles R), oracles_halt Or ->
  forall A B C : matrix R, wf A -> wf B -> wf C -> forall fuel alpha beta tA tB,
  120 * Nat.max (lv A) (Nat.max (lv B) (lv C)) + 33 <= fuel ->
  gemm Or fuel A B C alpha beta tA tB <> NoFuel.
Proof.
  exact (fun R Or HO A B C WA WB WC fuel alpha beta tA tB H =>
    gemm_halts Or HO _ fuel A B C alpha beta tA tB (wf_pos A WA) (wf_pos B WB) (wf_pos C WC)
      (Nat.le_max_l _ _) (Nat.le_trans _ _ _ (Nat.le_max_l _ _) (Nat.le_max_r _ _))
      (Nat.le_trans _ _ _ (Nat.le_max_r _ _) (Nat.le_max_r _ _)) H).
Qed.
Print Assumptions C70_gemm.

Theorem C70_gemm_new : forall (R : cring) (Or : oracles R), oracles_halt Or ->
  forall A B : matrix R, wf A -> wf B -> forall fuel alpha tA tB,
  120 * Nat.max (lv A) (lv B) + 33 <= fuel -> gemm_new Or fuel A B alpha tA tB <> NoFuel.
Proof.
  exact (fun R Or HO A B WA WB fuel alpha tA tB H =>
    gemm_new_halts Or HO _ fuel A B alpha tA tB (wf_pos A WA) (wf_pos B WB) (Nat.le_max_l _ _) (Nat.le_max_r _ _) H).
Qed.
Print Assumptions C70_gemm_new.

(** A finished product has kept the nesting of C. *)
Theorem C70_nesting : forall (R : cring) (Or : oracles R) fuel (A B C : matrix R) alpha beta tA tB C',
  gemm Or fuel A B C alpha beta tA tB = Ok C' -> lv C' = lv C.
Proof.
  exact (fun R Or fuel A B C alpha beta tA tB C' E => eq_sym (skel_lv _ _ (gemm_skel Or fuel A B C alpha beta tA tB C' E))).
Qed.
Print Assumptions C70_nesting.

(** The same over shared storage, if C shares no element with A or B. *)
Theorem C70_shared_storage : forall (R : cring) (Or : oracles R), oracles_halt Or -> or_cong Or ->
  forall fuel A B C (alpha beta : R) tA tB h,
  nonnull A -> nonnull B -> nonnull C -> (forall d, tleaf A d \/ tleaf B d \/ tleaf C d -> good h d) ->
  wf (tread h A) -> wf (tread h B) -> wf (tread h C) -> separate C -> tapart A C -> tapart B C ->
  120 * Nat.max (lv (tread h A)) (Nat.max (lv (tread h B)) (lv (tread h C))) + 33 <= fuel ->
  hgemm Or fuel A B C alpha beta tA tB h <> NoFuel.
Proof.
  intros R Or HO HC fuel A B C alpha beta tA tB h NA NB NC G WA WB WC S TA TB H E.
  pose proof (gemm_same Or HC fuel A B C alpha beta tA tB h NA NB NC G WA WB WC S TA TB) as Q. rewrite E in Q.
  pose proof (C70_gemm R Or HO _ _ _ WA WB WC fuel alpha beta tA tB H) as T.
  destruct (gemm Or fuel (tread h A) (tread h B) (tread h C) alpha beta tA tB); auto.
Qed.
Print Assumptions C70_shared_storage.

(** Solves and products with triangles, for all kinds of operands. *)
Theorem C70_trsm : forall (R : cring) (Or : oracles R), oracles_halt Or ->
  forall A B : matrix R, wf A -> wf B -> forall rinv gfuel u s,
  120 * Nat.max (lv A) (lv B) + 33 <= gfuel -> trsm rinv Or gfuel A B u s <> NoFuel.
Proof.
  exact (fun R Or HO A B WA WB rinv gfuel u s H =>
    proj1 (trsm_halts Or HO rinv gfuel _ H A B u s (conj (wf_pos A WA) (Nat.le_max_l _ _)) (conj (wf_pos B WB) (Nat.le_max_r _ _)))).
Qed.
Print Assumptions C70_trsm.

Theorem C70_trmm : forall (R : cring) (Or : oracles R), oracles_halt Or ->
  forall A B : matrix R, wf A -> wf B -> forall gfuel nd fuel s u t un alpha,
  120 * Nat.max (lv A) (lv B) + 33 <= gfuel -> lv A + lv B < fuel ->
  trmm Or gfuel nd fuel A B s u t un alpha <> NoFuel.
Proof.
  exact (fun R Or HO A B WA WB gfuel nd fuel s u t un alpha H H2 =>
    proj1 (trmm_halts Or HO gfuel _ H nd fuel A B s u t un alpha (conj (wf_pos A WA) (Nat.le_max_l _ _)) (conj (wf_pos B WB) (Nat.le_max_r _ _)) H2)).
Qed.
Print Assumptions C70_trmm.

(** Block LU. *)
Theorem C70_getrf : forall (R : cring) (Or : oracles R), oracles_halt Or ->
  forall dgetrf, (forall d, dgetrf d <> NoFuel) -> forall A : matrix R, wf A -> forall rinv gfuel fuel,
  120 * lv A + 33 <= gfuel -> lv A < fuel -> getrf rinv Or gfuel dgetrf fuel A <> NoFuel.
Proof.
  exact (fun R Or HO dgetrf HD A WA rinv gfuel fuel H H2 =>
    proj1 (getrf_halts Or HO rinv gfuel _ H dgetrf HD fuel A (conj (wf_pos A WA) (le_n _)) H2)).
Qed.
Print Assumptions C70_getrf.

(** Block Gram-Schmidt QR, nested through the diagonal blocks of R. *)
Theorem C70_mgs_qr : forall (R : cring) (L : lapack R), (forall d, lp_qr L d <> NoFuel) ->
  forall (Or : oracles R), oracles_halt Or -> forall A Q Rm : matrix R, wf A -> wf Q -> wf Rm -> forall gfuel fuel,
  120 * Nat.max (lv A) (Nat.max (lv Q) (lv Rm)) + 33 <= gfuel -> lv Rm < fuel ->
  mgs_qr L Or gfuel fuel A Q Rm <> NoFuel.
Proof.
  exact (fun R L HL Or HO A Q Rm WA WQ WR gfuel fuel H H2 =>
    mgs_halts L HL Or HO gfuel fuel _ A Q Rm H H2 (conj (wf_pos A WA) (Nat.le_max_l _ _))
      (conj (wf_pos Q WQ) (Nat.le_trans _ _ _ (Nat.le_max_l _ _) (Nat.le_max_r _ _)))
      (conj (wf_pos Rm WR) (Nat.le_trans _ _ _ (Nat.le_max_r _ _) (Nat.le_max_r _ _)))).
Qed.
Print Assumptions C70_mgs_qr.

(** The sums behind l2_error. *)
Theorem C70_l2_error : forall (R : cring) (A B : matrix R) fuel,
  2 * Nat.max (lv A) (lv B) + 1 < fuel -> l2_parts fuel A B <> NoFuel.
Proof.
  intros R A B fuel H. unfold l2_parts. apply halts_assert. intros _. apply halts_assert. intros _. apply cdn_halts.
  pose proof (hv_lv A). pose proof (hv_lv B). assert (odd_pair A B <= 1) by (destruct A, B; simpl; lia). lia.
Qed.
Print Assumptions C70_l2_error.

(** The hypotheses hold of exact arithmetic, and the runs of C23, C32 and C37 end within
    these budgets. *)
Example C70_ex : oracles_halt (@exact_oracles Zring) /\ lv gA = 2 /\ lv gC = 2 /\
  (let* x := gemm exact_oracles 273 gA gA gC 2%Z 10%Z false false in show x) =
    Ok [[24; 38; 112; 134]; [30; 90; 220; 254]; [22; 58; 168; 190]; [16; 62; 204; 234]]%Z /\
  gemm exact_oracles 2 gA gA gC 2%Z 10%Z false false = NoFuel /\
  lv luA = 2 /\
  (let* (l, u) := getrf qinv exact_oracles 273 (no_exchange lapack_like) 3 luA in Ok (showq l, showq u)) =
  Ok ([[1; 0; 0; 0]; [2; 1; 0; 0]; [1; 0; 1; 0]; [3; 0; -2 # 3; 1]]%Q,
      [[2; 1; 1; 0]; [0; 3; 1; 1]; [0; 0; 3; 1]; [0; 0; 0; 23 # 3]]%Q).
Proof.
  split; [constructor; intros; cbn; discriminate|]. vm_compute. repeat split; reflexivity.
Qed.
