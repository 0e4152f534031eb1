(** Property C74: with ranks instead of accuracies, weakly admissible matrices are built,
    multiplied, factored and solved with. *)
From Coq Require Import List Arith ZArith QArith Lia Bool String Reals Qreals Lra.
From Verif Require Import Prelude IndexRange IndexRangeProofs ClusterTree Admissible Ring MatFun Matrix MatOps MatSpec MatOpsProofs Lapack Gemm GemmSpec
  GemmTheorems Triangular TriSpec ReflectSuccess GemmTerm TriTerm Construct ConstructProofs
  CommonTree GemmSucc LuSucc TreeSucc TreeFit LowRankAdd LowRankAddProofs Sampled SampledTheorems SvdRank HouseReal Rrqr RrqrLr
  RealLapack Kernels ConstructKernel ConstructError L2Error L2Real Dominant PartialPivot BlockDominant FixedRank UnevenTree
  Prop_Real Prop_RealAdd Prop_Success.
Import ListNotations.
Local Open Scope nat_scope.

(** What is assumed of low-rank arithmetic Or on top of a library L: compression to a
    rank is LowRank(Dense, rank) with some random samples each time, sums are what
    FRANK_LRA selects, but not "naive"; compression to an accuracy returns and keeps
    dimensions. *)
Record fixed_arith {R : cring} (L : lapack R) (Or : oracles R) : Prop := {
  fa_rank : forall d r, exists rn, crank Or d r = lr_of_dense L rn d r;
  fa_add : exists setting, setting <> "naive"%string /\ lr_add Or = lr_addition L (crank Or) setting;
  fa_eps : forall d e, ceps Or d e <> NoFuel;
  fa_eps_shape : forall d e c, ceps Or d e = Ok c -> lr_wf c /\ l_r c = d_r d /\ l_c c = d_c d
}.

Lemma fixed_ranked {R : cring} (L : lapack R) (Or : oracles R) : lapack_ok L -> lapack_orth L -> fixed_arith L Or ->
  oracles_shape Or /\ oracles_halt Or /\ forall rho, 0 < rho -> policy (within rho) (of_rank rho) (fun _ => False) Or.
Proof.
  intros HL HH [H1 [st [N E]] H3 H4]. destruct Or as [cr ce add]. cbn [crank ceps lr_add] in *. subst add.
  apply String.eqb_neq in N.
  split; [exact (ranked_shape L HL HH cr H1 ce H4 st N)|].
  split; [exact (ranked_halt L HL cr H1 ce H3 st N)|].
  intros rho Hr. exact (ranked_policy L HL cr ce st N rho Hr).
Qed.

(** ** C74 *)

(** The additions to blocks of rank rho: they succeed, and the rank stays. *)
Theorem C74_addition : forall (R : cring) (L : lapack R) (Or : oracles R), lapack_ok L -> lapack_orth L -> fixed_arith L Or ->
  forall rho (a b : lowrank R), 0 < rho -> lr_wf a -> lr_wf b -> l_r a = l_r b -> l_c a = l_c b ->
  l_eps a = 0%Q -> l_rank a = rho -> d_r (l_S a) = rho -> d_c (l_S a) = rho -> rho <= l_r a -> rho <= l_c a ->
  d_r (l_S b) <= rho -> d_c (l_S b) <= rho ->
  exists c, lr_add Or a b = Ok c /\ lr_wf c /\ l_r c = l_r a /\ l_c c = l_c a /\
    l_rank c = rho /\ d_r (l_S c) = rho /\ d_c (l_S c) = rho.
Proof.
  intros R L Or HL HH HF rho a b Hr WA WB E1 E2 A0 A1 A2 A3 A4 A5 B1 B2.
  destruct (fixed_ranked L Or HL HH HF) as [S [_ P]].
  destruct (po_add _ _ _ _ (P rho Hr) a b) as [c [E [[_ [C1 [C2 [C3 _]]]] _]]]; auto.
  - unfold of_rank, use_eps. rewrite A0. auto 6.
  - unfold CommonTree.mid, within. lia.
  - unfold CommonTree.mid, within. auto.
  - exists c. destruct (os_add _ S a b c WA WB E1 E2 E) as [W [D1 D2]]. auto 8.
Qed.
Print Assumptions C74_addition.

(** Weakly admissible matrices of rank rho on a common axis: product, factorization, solve. *)
Definition rank_blocks {R : cring} (rho : nat) (ax : axis) (A : matrix R) : Prop :=
  CommonTree.fit (within rho) ax ax A /\ hodlr A /\ allp (of_rank rho) A.

Theorem C74_gemm : forall (R : cring) (L : lapack R) (Or : oracles R), lapack_ok L -> lapack_orth L -> fixed_arith L Or ->
  forall rho ax (A B C : matrix R) fuel alpha beta, 0 < rho -> valid ax ->
  rank_blocks rho ax A -> rank_blocks rho ax B -> rank_blocks rho ax C -> skel C A -> skel C B ->
  120 * lv C + 33 <= fuel ->
  exists C', gemm Or fuel A B C alpha beta false false = Ok C' /\ CommonTree.fit (within rho) ax ax C' /\ hodlr C'.
Proof.
  intros R L Or HL HH HF rho ax A B C fuel alpha beta Hr Vx [FA _] [FB _] [FC [HC PC]] SA SB Hf.
  destruct (fixed_ranked L Or HL HH HF) as [S [H P]].
  exact (hodlr_gemm_succeeds Or S _ _ _ (P rho Hr) H ax A B C fuel alpha beta Vx FA FB FC HC PC SA SB Hf).
Qed.
Print Assumptions C74_gemm.

Theorem C74_solve : forall (R : cring) (L : lapack R) (Or : oracles R), lapack_ok L -> lapack_orth L -> fixed_arith L Or ->
  forall rinv dgetrf, returns dgetrf -> forall rho ax (A : matrix R) (b : dense R) gfuel fuel, 0 < rho -> valid ax ->
  rank_blocks rho ax A -> d_r b = asize ax -> 120 * lv A + 33 <= gfuel -> lv A < fuel ->
  exists Lo U y x, getrf rinv Or gfuel dgetrf fuel A = Ok (Lo, U) /\ trsm rinv Or gfuel Lo (MD b) Lower SLeft = Ok y /\
    trsm rinv Or gfuel U y Upper SLeft = Ok (MD x) /\ d_r x = d_r b /\ d_c x = d_c b.
Proof.
  intros R L Or HL HH HF rinv dgetrf [D1 D2] rho ax A b gfuel fuel Hr Vx [FA [HA PA]] Hb Hf Hg.
  destruct (fixed_ranked L Or HL HH HF) as [S [H P]].
  destruct (solve_succeeds Or S _ _ _ (P rho Hr) H rinv dgetrf D2 D1 ax (Leaf (d_c b)) A (MD b) gfuel fuel)
    as [Lo [U [Y [X [E1 [E2 [E3 [FX SX]]]]]]]]; auto.
  - exact I.
  - apply hodlr_luok; auto.
  - split; [exact Hb|reflexivity].
  - apply below_nh. discriminate.
  - left. discriminate.
  - cbn [lv]. lia.
  - destruct X as [x|?|? ? ?|? ?]; try (exfalso; exact SX). destruct FX as [X1 X2].
    exists Lo, U, Y, x. rewrite X1, Hb. auto 6.
Qed.
Print Assumptions C74_solve.

(** The constructor makes such matrices: with the position-based admissibility condition
    and a parameter below 1, in k parts per level down to s by s blocks, provided the rank
    fits them. *)
Definition by_rank {R : cring} (L : lapack R) (rank : nat) (admis : Q) (ini : initializer R) : Prop :=
  in_adm ini = is_admissible PositionBased [] admis /\ (forall d, exists rn, in_comp ini d = lr_of_dense L rn d rank) /\
  (forall r c D, in_fill ini r c = Ok D -> d_r D = Z.to_nat (ir_n r) /\ d_c D = Z.to_nat (ir_n c)).

Theorem C74_constructed : forall (R : cring) (L : lapack R), lapack_ok L -> lapack_orth L ->
  forall rank admis (ini : initializer R), 0 < rank -> (0 <= admis < 1)%Q -> by_rank L rank admis ini ->
  forall k nleaf s e rows cols, (2 <= k)%Z -> (2 <= s <= nleaf)%Z ->
  ir_n rows = (s * k ^ Z.of_nat (S e))%Z -> ir_n cols = (s * k ^ Z.of_nat (S e))%Z ->
  (forall r c, inside r rows -> inside c cols -> exists D, in_fill ini r c = Ok D) ->
  rank <= Z.to_nat s ->
  forall f, (ir_n rows <= 2 ^ Z.of_nat f)%Z ->
  exists M, hierarchical ini (S (S f)) rows cols k k nleaf = Ok M /\
    rank_blocks rank (uniform (Z.to_nat s * Z.to_nat k ^ S e) (Z.to_nat k) (S e)) M.
Proof.
  intros R L HL HH rank admis ini H0 Ha [A1 [A2 A3]] k nleaf s e rows cols Hk Hs Er Ec HF Hr f Hf.
  assert (CC : forall d l, in_comp ini d = Ok l -> lr_wf l /\ l_r l = d_r d /\ l_c l = d_c d /\ of_rank rank l /\ CommonTree.mid (within rank) l).
  { intros d l E. destruct (A2 d) as [rn E']. rewrite E' in E. exact (compressed_rank L HL HH rank H0 rn d l E). }
  assert (SH : shapely ini).
  { split; auto. intros d l E. destruct (CC d l E) as [W [E1 [E2 _]]]. auto. }
  destruct (hierarchical_total ini k nleaf s e f rows cols Hk Hs Er Ec Hf) as [M HM].
  - intros nd L1 L2 I1 I2. destruct (HF _ _ I1 I2) as [D HD]. destruct (A3 _ _ _ HD) as [D1 D2].
    unfold buildable. rewrite A1. unfold is_admissible. eexists _, D. split; [reflexivity|]. split; [lia|]. split; [lia|]. split; auto.
    intros _. destruct (A2 D) as [rn ->].
    apply (lr_of_dense_succ L (lapack_ok_sound L HL HH)); auto; rewrite ?D1, ?D2; lia.
  - exists M. split; auto. split; [|split].
    + exact (hierarchical_fit_level ini (within rank) SH (fun d l E => proj2 (proj2 (proj2 (proj2 (CC d l E))))) k nleaf s e _ rows cols M Hk Hs Er Ec HM).
    + refine (hierarchical_hodlr ini k nleaf s e _ rows cols M Hk Hs Er Ec _ _ HM); intros nd; rewrite A1.
      * apply position_diag. apply Ha.
      * apply position_off. exact Ha.
    + apply (hierarchical_allp ini (of_rank rank) (S (S f)) rows cols k k nleaf M); auto. intros d l E. apply (CC d l E).
Qed.
Print Assumptions C74_constructed.

(** Any other size: what is divided into k parts must be larger than (k-1)^2 + k(r-1), r the
    rank but at least 2; then all parts have at least r rows. *)
Theorem C74_constructed_any_size : forall (R : cring) (L : lapack R), lapack_ok L -> lapack_orth L ->
  forall rank admis (ini : initializer R), 0 < rank -> (0 <= admis < 1)%Q -> by_rank L rank admis ini ->
  forall k nleaf rows cols, 2 <= k -> ir_n cols = ir_n rows ->
  let least := (k - 1) * (k - 1) + k * (Nat.max rank 2 - 1) in
  least <= nleaf -> (Z.of_nat least < ir_n rows)%Z ->
  (forall r c, inside r rows -> inside c cols -> exists D, in_fill ini r c = Ok D) ->
  forall f, (ir_n rows <= 2 ^ Z.of_nat f)%Z ->
  exists M ax, hierarchical ini (S (S f)) rows cols (Z.of_nat k) (Z.of_nat k) (Z.of_nat nleaf) = Ok M /\
    valid ax /\ asize ax = Z.to_nat (ir_n rows) /\ rank_blocks rank ax M.
Proof.
  intros R L HL HH rank admis ini H0 Ha [A1 [A2 A3]] k nleaf rows cols Hk Ec least Hl Hn HF f Hf.
  assert (CC : forall d l, in_comp ini d = Ok l -> lr_wf l /\ l_r l = d_r d /\ l_c l = d_c d /\ of_rank rank l /\ CommonTree.mid (within rank) l).
  { intros d l E. destruct (A2 d) as [rn E']. rewrite E' in E. exact (compressed_rank L HL HH rank H0 rn d l E). }
  assert (SH : shapely ini).
  { split; auto. intros d l E. destruct (CC d l E) as [W [E1 [E2 _]]]. auto. }
  set (q := Nat.max rank 2) in *. assert (Hq : 2 <= q) by lia. assert (Hr : rank <= q) by lia.
  assert (HD : forall nd, cn_iabs nd = cn_jabs nd -> in_adm ini nd = Ok false) by (intros nd; rewrite A1; apply position_diag, Ha).
  assert (HO : forall nd, cn_iabs nd <> cn_jabs nd -> (2 <= ir_n (cn_rows nd))%Z -> (2 <= ir_n (cn_cols nd))%Z -> in_adm ini nd = Ok true)
    by (intros nd; rewrite A1; apply position_off; exact Ha).
  destruct (hierarchical_uneven k nleaf q Hk Hq Hl ini HD HO f rows cols Ec Hn Hf) as [M HM].
  - intros nd L1 L2 I1 I2. destruct (HF _ _ I1 I2) as [D HDf]. destruct (A3 _ _ _ HDf) as [D1 D2].
    unfold buildable. rewrite A1. unfold is_admissible. eexists _, D. split; [reflexivity|]. split; [lia|]. split; [lia|]. split; auto.
    intros _. destruct (A2 D) as [rn ->].
    apply (lr_of_dense_succ L (lapack_ok_sound L HL HH)); auto; rewrite ?D1, ?D2; lia.
  - destruct (hierarchical_cuts k nleaf q Hk Hq Hl ini (within rank) HD HO SH (fun d l E => proj2 (proj2 (proj2 (proj2 (CC d l E))))) (S f) rows cols M Ec Hn HM)
      as [FM HM'].
    exists M, (cuts (S f) (ConstructProofs.len rows) k nleaf). split; auto. split.
    + apply (valid_cuts k nleaf q); auto. unfold ConstructProofs.len. unfold room. fold least. lia.
    + split; [reflexivity|]. split; auto. split; auto.
      apply (hierarchical_allp ini (of_rank rank) (S (S f)) rows cols (Z.of_nat k) (Z.of_nat k) (Z.of_nat nleaf) M); auto. intros d l E. apply (CC d l E).
Qed.
Print Assumptions C74_constructed_any_size.

(** For two parts the bound is sharp: 2r-1 rows or fewer cannot be divided. *)
Theorem C74_any_size_sharp : forall (R : cring) (L : lapack R), lapack_ok L -> lapack_orth L ->
  forall rank admis (ini : initializer R), (0 <= admis < 1)%Q -> by_rank L rank admis ini ->
  forall nleaf rows cols, ir_n cols = ir_n rows -> (4 <= ir_n rows <= 2 * Z.of_nat rank - 1)%Z ->
  forall f M, hierarchical ini f rows cols 2 2 nleaf <> Ok M.
Proof.
  intros R L HL HH rank admis ini Ha [A1 [A2 A3]] nleaf rows cols Ec Hn f M H.
  destruct (hierarchical_inv _ _ _ _ _ _ _ _ H) as [t [Ht HM]].
  destruct (TreeFit.hier_children ini _ _ _ _ _ Ht eq_refl HM) as [f' [b [_ [_ CH]]]].
  destruct (CH 0 1) as [c [Hc [Ecn HB]]]; [cbn; lia|cbn; lia|].
  set (rt := root_node rows cols 2 2 nleaf) in *.
  assert (R1 : (2 <= ir_n (cn_rows (child_node rt (0%nat, 1%nat))))%Z).
  { unfold rt. cbn [child_node root_node cn_rows cn_bm fst]. rewrite ir_split_nth by lia. unfold ir_split_child. cbn [ir_n].
    rewrite Z.quot_div_nonneg by lia. change (Z.of_nat 0 =? 2 - 1)%Z with false. cbv iota.
    pose proof (Z.div_mod (ir_n rows + 2 - 1) 2 ltac:(lia)). pose proof (Z.mod_pos_bound (ir_n rows + 2 - 1) 2 ltac:(lia)). lia. }
  assert (R2 : (2 <= ir_n (cn_cols (child_node rt (0%nat, 1%nat))) < Z.of_nat rank)%Z).
  { unfold rt. cbn [child_node root_node cn_cols cn_bn snd]. rewrite ir_split_nth by lia. unfold ir_split_child. cbn [ir_n].
    rewrite Z.quot_div_nonneg by lia. change (Z.of_nat 1 =? 2 - 1)%Z with true. cbv iota. rewrite Ec.
    pose proof (Z.div_mod (ir_n rows + 2 - 1) 2 ltac:(lia)). pose proof (Z.mod_pos_bound (ir_n rows + 2 - 1) 2 ltac:(lia)). lia. }
  assert (A : in_adm ini (child_node rt (0%nat, 1%nat)) = Ok true).
  { rewrite A1. apply position_off; auto; try lia. cbn. discriminate. }
  destruct (TreeFit.hblock_inv ini _ _ HB) as [[_ [d [l [Fd [Cl _]]]]]|[[A' _]|[A' _]]]; rewrite Ecn in *; [|congruence..].
  destruct (A2 d) as [rn E]. rewrite E in Cl. destruct (A3 _ _ _ Fd) as [D1 D2].
  destruct (lr_of_dense_rank L (lapack_ok_sound L HL HH) rn d rank l Cl) as [B1 B2]. rewrite D2 in B2. lia.
Qed.
Print Assumptions C74_any_size_sharp.

(** A rank larger than the smallest compressed blocks: the construction fails. *)
Theorem C74_rank_too_large : forall (R : cring) (L : lapack R), lapack_ok L -> lapack_orth L ->
  forall rank admis (ini : initializer R), (0 <= admis < 1)%Q -> by_rank L rank admis ini ->
  forall k nleaf s e rows cols, (2 <= k)%Z -> (2 <= s <= nleaf)%Z -> (nleaf < s * k)%Z ->
  ir_n rows = (s * k ^ Z.of_nat (S e))%Z -> ir_n cols = (s * k ^ Z.of_nat (S e))%Z ->
  Z.to_nat s < rank -> forall f M, hierarchical ini f rows cols k k nleaf <> Ok M.
Proof.
  intros R L HL HH rank admis ini Ha [A1 [A2 A3]] k nleaf s e rows cols Hk Hs Hn Er Ec Hr f M H.
  destruct (hierarchical_inv _ _ _ _ _ _ _ _ H) as [t [Ht HM]].
  refine (hier_refused ini k nleaf s f Hk Hs Hn _ _ _ e (root_node rows cols k k nleaf) true t M Ht eq_refl _ eq_refl HM).
  - intros nd. rewrite A1. apply position_diag. apply Ha.
  - intros nd. rewrite A1. apply position_off. exact Ha.
  - intros r c d l E1 E2 HF E. destruct (A2 d) as [rn E']. rewrite E' in E. destruct (A3 _ _ _ HF) as [D1 D2].
    destruct (lr_of_dense_rank L (lapack_ok_sound L HL HH) rn d rank l E) as [B1 B2]. rewrite D1, E1 in B1. lia.
  - unfold level. cbn [root_node cn_bm cn_bn cn_nleaf cn_rows cn_cols]. auto.
Qed.
Print Assumptions C74_rank_too_large.

(** ** The program examples/h_lu.cpp *)

(** Lines 13-47: build A from a kernel, b = b + A x with b = 0, compare A with the dense
    kernel matrix, factor, solve, compare with x.  The parameters of the program are N = n,
    nleaf, rank (in [comp]), nblocks = k and admis; x stands for the random vector. *)
Definition h_lu (Or : oracles Rring) (comp : dense Rring -> outcome (lowrank Rring)) (dgetrf : dense Rring -> outcome (dense Rring * (nat -> nat)))
  (fuel : nat) (K : kernel) (pts : list (list R)) (n : nat) (nleaf k : Z) (admis : Q) (x : dense Rring)
  : outcome (R * R * matrix Rring) :=
  let* D := kernel_fill K pts n n 0 0 in
  let* A := hierarchical (kernel_init K pts (is_admissible PositionBased [] admis) comp) fuel
              (IR 0 (Z.of_nat n)) (IR 0 (Z.of_nat n)) k k nleaf in
  let* b := gemm Or fuel A (MD x) (MD (d_zeros n 1)) (1 : Rring)%R (1 : Rring)%R false false in
  let* comp_error := l2_error fuel (MD D) A in
  let* (L, U) := getrf inv_of Or fuel dgetrf fuel A in
  let* y := trsm inv_of Or fuel L b Lower SLeft in
  let* z := trsm inv_of Or fuel U y Upper SLeft in
  let* solve_error := l2_error fuel (MD x) z in
  Ok (comp_error, solve_error, z).

(** It runs to its end if the constructor does, all blocks off the diagonal are LowRank and
    the low-rank arithmetic does not fail on them. *)
Lemma h_lu_returns (Or : oracles Rring) QS PL EL : oracles_shape Or -> oracles_halt Or -> policy QS PL EL Or ->
  forall dgetrf, returns dgetrf ->
  forall comp K pts n k nleaf admis x ax (M : matrix Rring) f0,
  enough pts n -> (K = KCauchy2d -> 2 <= List.length pts) -> d_r x = n -> d_c x = 1 ->
  hierarchical (kernel_init K pts (is_admissible PositionBased [] admis) comp) f0
     (IR 0 (Z.of_nat n)) (IR 0 (Z.of_nat n)) k k nleaf = Ok M ->
  valid ax -> asize ax = n -> CommonTree.fit QS ax ax M -> hodlr M -> allp PL M ->
  exists F, forall fuel, F <= fuel -> exists e1 e2 z,
    h_lu Or comp dgetrf fuel K pts n nleaf k admis x = Ok (e1, e2, MD z) /\ d_r z = n /\ d_c z = 1.
Proof.
  intros SO HO PO dgetrf [G1 G2] comp K pts n k nleaf admis x ax M f0 HP HK Hx1 Hx2 HM Vx Ax FM HodM PM.
  destruct (fill_succeeds K pts n n 0 0 n HP ltac:(lia) ltac:(lia) HK) as [D HD].
  set (ini := kernel_init K pts (is_admissible PositionBased [] admis) comp) in *.
  destruct (kernel_fill_inv _ _ _ _ _ _ _ HD) as [D1 [D2 _]].
  destruct (fit_dims QS ax ax M Vx Vx FM) as [M1 M2]. destruct (fit_wf QS ax ax M Vx Vx FM) as [WM NM].
  destruct (l2_ok (MD D) M) as [F1 HF1].
  { apply cmp_leaf'; [exact I|exact (fit_even QS M ax ax Vx Vx FM)|]. unfold same_dims. cbn [nrows ncols]. lia. }
  { exact I. } { exact WM. } { exact I. } { exact NM. } { cbn [nrows]. lia. } { cbn [ncols]. lia. }
  assert (LD : exists F2, forall f, F2 <= f -> forall z : dense Rring, d_r z = n -> d_c z = 1 -> exists e2, l2_error f (MD x) (MD z) = Ok e2).
  { exists 1. intros f Hf z Z1 Z2. destruct f as [|f]; [lia|]. unfold l2_error, l2_parts. cbn [nrows ncols].
    rewrite Hx1, Hx2, Z1, Z2, !Nat.eqb_refl. cbn [andb]. 
    destruct (l2_ok (MD x) (MD z)) as [F HFz].
    { apply cmp_leaf; [exact I|exact I|]. unfold same_dims. cbn [nrows ncols]. lia. }
    { exact I. } { exact I. } { exact I. } { exact I. } { cbn [nrows]. lia. } { cbn [ncols]. lia. }
    destruct (HFz (S F) ltac:(lia)) as [v Hv]. unfold l2_error, l2_parts in Hv. cbn [nrows ncols] in Hv.
    rewrite Hx1, Hx2, Z1, Z2, !Nat.eqb_refl in Hv. cbn [andb cdn] in Hv |- *. eauto. }
  destruct LD as [F2 HF2].
  exists (f0 + (120 * lv M + 33) + F1 + F2). intros fuel Hfu. unfold h_lu.
  rewrite HD. cbn [bind]. fold ini. rewrite (hierarchical_mono ini (f0) fuel _ _ _ _ _ M ltac:(lia) HM). cbn [bind].
  destruct (gemm_succeeds Or SO _ _ _ PO HO ax ax (Leaf 1) M (MD x) (MD (d_zeros n 1)) fuel (1 : Rring)%R (1 : Rring)%R) as [b [Eb [Fb Sb]]]; auto.
  { exact I. } { split; [congruence|exact Hx2]. } { split; [symmetry; exact Ax|reflexivity]. } { exact I. } { cbn [lv]. lia. }
  rewrite Eb. cbn [bind]. destruct (HF1 fuel ltac:(lia)) as [e1 He1]. rewrite He1. cbn [bind].
  destruct b as [b|?|? ? ?|? ?]; try (exfalso; exact Sb). destruct Fb as [B1 B2]. cbn [asize] in B2.
  destruct (solve_succeeds Or SO _ _ _ PO HO inv_of dgetrf G2 G1 ax (Leaf (d_c b)) M (MD b) fuel fuel)
    as [Lo [U [y [z [E1 [E2 [E3 [FZ SZ]]]]]]]]; auto; try lia.
  { apply hodlr_luok; auto. } { split; [exact B1|reflexivity]. } { apply below_nh. discriminate. } { cbn [lv]. lia. }
  destruct z as [z|?|? ? ?|? ?]; try (exfalso; exact SZ). destruct FZ as [Z1 Z2]. cbn [asize] in Z2.
  rewrite E1. cbn [bind]. rewrite E2. cbn [bind]. rewrite E3. cbn [bind].
  destruct (HF2 fuel ltac:(lia) z ltac:(congruence) ltac:(congruence)) as [e2 He2]. rewrite He2. cbn [bind].
  exists e1, e2, z. split; auto. split; congruence.
Qed.

Lemma h_lu_runs (L : lapack Rring) (Or : oracles Rring) : lapack_ok L -> lapack_orth L -> fixed_arith L Or ->
  forall dgetrf, returns dgetrf -> forall comp rank, 0 < rank ->
  forall K pts n k nleaf admis x ax (M : matrix Rring) f0,
  enough pts n -> (K = KCauchy2d -> 2 <= List.length pts) -> d_r x = n -> d_c x = 1 ->
  hierarchical (kernel_init K pts (is_admissible PositionBased [] admis) comp) f0
     (IR 0 (Z.of_nat n)) (IR 0 (Z.of_nat n)) k k nleaf = Ok M ->
  valid ax -> asize ax = n -> rank_blocks rank ax M ->
  exists F, forall fuel, F <= fuel -> exists e1 e2 z,
    h_lu Or comp dgetrf fuel K pts n nleaf k admis x = Ok (e1, e2, MD z) /\ d_r z = n /\ d_c z = 1.
Proof.
  intros HL HH HF dgetrf HG comp rank H0 K pts n k nleaf admis x ax M f0 HP HK Hx1 Hx2 HM Vx Ax [FM [HodM PM]].
  destruct (fixed_ranked L Or HL HH HF) as [SO [HO PO]].
  apply (h_lu_returns Or _ _ _ SO HO (PO rank H0) dgetrf HG comp K pts n k nleaf admis x ax M f0); auto.
Qed.

(** What the initializer of the program does. *)
Lemma kernel_by_rank (L : lapack Rring) K pts admis comp rank : (forall d, exists rn, comp d = lr_of_dense L rn d rank) ->
  by_rank L rank admis (kernel_init K pts (is_admissible PositionBased [] admis) comp).
Proof.
  intros HC. split; [reflexivity|]. split; [exact HC|].
  intros r c B HB. cbn [kernel_init in_fill] in HB. unfold kernel_block in HB. destruct (_ && _); [|discriminate].
  destruct (kernel_fill_inv _ _ _ _ _ _ _ HB) as [B1 [B2 _]]. auto.
Qed.
Lemma kernel_fills K pts adm comp n r c : enough pts n -> (K = KCauchy2d -> 2 <= List.length pts) ->
  inside r (IR 0 (Z.of_nat n)) -> inside c (IR 0 (Z.of_nat n)) -> exists D, in_fill (kernel_init K pts adm comp) r c = Ok D.
Proof.
  intros HP HK [I1 I2] [J1 J2]. cbn [ir_start ir_n] in I1, I2, J1, J2. cbn [kernel_init in_fill]. unfold kernel_block.
  replace (_ && _)%bool with true by (symmetry; apply andb_true_iff; split; apply Z.leb_le; lia).
  destruct (Z.le_gt_cases 0 (ir_n r)) as [Nr|Nr].
  - destruct (Z.le_gt_cases 0 (ir_n c)) as [Nc|Nc].
    + apply (fill_succeeds K pts _ _ _ _ n); auto; unfold len; lia.
    + apply kernel_fill_intro. unfold len. intros i j Hi Hj. lia.
  - apply kernel_fill_intro. unfold len. intros i j Hi Hj. lia.
Qed.
Lemma some_power n : exists f, (Z.of_nat n <= 2 ^ Z.of_nat f)%Z.
Proof.
  exists n. pose proof (Nat.pow_gt_lin_r 2 n ltac:(lia)). apply inj_lt in H. rewrite Nat2Z.inj_pow in H. simpl Z.of_nat in H at 2. lia.
Qed.

(** It runs to its end: for N = s*k^(e+1), leaves of at least 2, ranks that fit, enough
    points, and all kernels. *)
Theorem C74_program : forall (L : lapack Rring) (Or : oracles Rring), lapack_ok L -> lapack_orth L -> fixed_arith L Or ->
  forall dgetrf, returns dgetrf -> forall comp rank, 0 < rank -> (forall d, exists rn, comp d = lr_of_dense L rn d rank) ->
  forall K pts s k nleaf e admis x, (2 <= k)%Z -> (2 <= s <= nleaf)%Z -> rank <= Z.to_nat s -> (0 <= admis < 1)%Q ->
  let n := Z.to_nat s * Z.to_nat k ^ S e in
  enough pts n -> (K = KCauchy2d -> 2 <= List.length pts) -> d_r x = n -> d_c x = 1 ->
  exists F, forall fuel, F <= fuel -> exists e1 e2 z,
    h_lu Or comp dgetrf fuel K pts n nleaf k admis x = Ok (e1, e2, MD z) /\ d_r z = n /\ d_c z = 1.
Proof.
  intros L Or HL HH HF dgetrf HG comp rank H0 HC K pts s k nleaf e admis x Hk Hs Hr Ha n HP HK Hx1 Hx2.
  assert (En : Z.of_nat n = (s * k ^ Z.of_nat (S e))%Z).
  { unfold n. rewrite Nat2Z.inj_mul, Nat2Z.inj_pow, !Z2Nat.id by lia. reflexivity. }
  destruct (some_power n) as [f0 Hf0].
  destruct (C74_constructed Rring L HL HH rank admis _ H0 Ha (kernel_by_rank L K pts admis comp rank HC) k nleaf s e
    (IR 0 (Z.of_nat n)) (IR 0 (Z.of_nat n)) Hk Hs En En) with (f := f0) as [M [HM RM]]; auto.
  { intros r c. apply kernel_fills; auto. }
  apply (h_lu_runs L Or HL HH HF dgetrf HG comp rank H0 K pts n k nleaf admis x
    (uniform (Z.to_nat s * Z.to_nat k ^ S e) (Z.to_nat k) (S e)) M (S (S f0))); auto.
  - apply valid_uniform_pow; lia.
  - apply asize_uniform.
Qed.
Print Assumptions C74_program.

(** And for all other N, under the condition of [C74_constructed_any_size]. *)
Theorem C74_program_any_size : forall (L : lapack Rring) (Or : oracles Rring), lapack_ok L -> lapack_orth L -> fixed_arith L Or ->
  forall dgetrf, returns dgetrf -> forall comp rank, 0 < rank -> (forall d, exists rn, comp d = lr_of_dense L rn d rank) ->
  forall K pts n k nleaf admis x, 2 <= k -> (0 <= admis < 1)%Q ->
  let least := (k - 1) * (k - 1) + k * (Nat.max rank 2 - 1) in least <= nleaf -> least < n ->
  enough pts n -> (K = KCauchy2d -> 2 <= List.length pts) -> d_r x = n -> d_c x = 1 ->
  exists F, forall fuel, F <= fuel -> exists e1 e2 z,
    h_lu Or comp dgetrf fuel K pts n (Z.of_nat nleaf) (Z.of_nat k) admis x = Ok (e1, e2, MD z) /\ d_r z = n /\ d_c z = 1.
Proof.
  intros L Or HL HH HF dgetrf HG comp rank H0 HC K pts n k nleaf admis x Hk Ha least Hl Hn HP HK Hx1 Hx2.
  destruct (some_power n) as [f0 Hf0].
  destruct (C74_constructed_any_size Rring L HL HH rank admis _ H0 Ha (kernel_by_rank L K pts admis comp rank HC) k nleaf
    (IR 0 (Z.of_nat n)) (IR 0 (Z.of_nat n)) Hk eq_refl Hl) with (f := f0) as [M [ax [HM [Vx [Ax RM]]]]]; auto.
  { cbn [ir_n]. lia. }
  { intros r c. apply kernel_fills; auto. }
  apply (h_lu_runs L Or HL HH HF dgetrf HG comp rank H0 K pts n (Z.of_nat k) (Z.of_nat nleaf) admis x ax M (S (S f0))); auto.
  rewrite Ax. cbn [ir_n]. apply Nat2Z.id.
Qed.
Print Assumptions C74_program_any_size.

(** With the routines of LAPACK that exist over the real numbers (C66) and the dgetrf of
    C72 nothing is assumed any more: [rn] are the random samples, which in the code depend
    on the dimensions only (functions.cpp:52-68 seeds the generator anew), [tol] the machine
    epsilon in truncated_geqp3. *)
Definition real_arith (setting : string) (rn : nat -> nat -> rmat) (tol : R) : oracles Rring :=
  let comp := fun d r => lr_of_dense real_lapack (rn (d_c d) (Nat.min (Nat.min (r + 5) (d_r d)) (d_c d))) d r in
  {| crank := comp; ceps := fun d e => lowrank_eps tol e d; lr_add := lr_addition real_lapack comp setting |}.

Lemma piv_loop_halts f tol thr m n : forall r mx s, piv_loop f tol thr m n r mx s <> NoFuel.
Proof.
  induction f as [|f IH]; intros r mx s; [discriminate|]. cbn [piv_loop].
  destruct (Rlt_dec _ _); [|discriminate]. unfold max_from. destruct (_ <? _); cbn [bind]; [apply IH|discriminate].
Qed.
Lemma rq_dense_halts (A B C : rdense) : HouseQr.rq_dense (R := Rring) dlarfg A B C <> NoFuel.
Proof.
  unfold HouseQr.rq_dense. do 3 (destruct (_ =? _); [|discriminate]).
  destruct (HouseQr.dgerqf _ _ _ _ _) as [X tau]. do 2 (destruct (_ <=? _); [|discriminate]). discriminate.
Qed.
Lemma lowrank_eps_halts tol e (d : rdense) : lowrank_eps tol e d <> NoFuel.
Proof.
  unfold lowrank_eps. intros H.
  assert (T : truncated_geqp3 tol (Q2R e) d <> NoFuel).
  { clear H. unfold truncated_geqp3, max_from. destruct (0 <? d_c d); [|discriminate]. cbn [bind].
    destruct (Rle_dec _ _); [destruct (d_r d =? 0); discriminate|].
    match goal with |- bind ?p _ <> _ => assert (PL : p <> NoFuel); [apply piv_loop_halts|destruct p as [[? ?]| | | |]; cbn [bind]; try discriminate; congruence] end. }
  destruct (truncated_geqp3 tol (Q2R e) d) as [[U P]| | | |]; cbn [bind] in H; try discriminate; try congruence.
  apply (rq_dense_halts P (Dn (d_c U) (d_c U) rzero) (Dn (d_c U) (d_c d) rzero)).
  destruct (HouseQr.rq_dense (R := Rring) dlarfg P _ _) as [[[? ?] ?]| | | |]; cbn [bind] in H; try discriminate; auto.
Qed.

Lemma real_fixed setting rn tol : setting <> "naive"%string -> fixed_arith real_lapack (real_arith setting rn tol).
Proof.
  intros N. split; cbn [real_arith crank ceps lr_add].
  - intros d r. eauto.
  - exists setting. auto.
  - intros d e. apply lowrank_eps_halts.
  - intros d e c H. destruct (lowrank_eps_any tol e d c H) as [W [E1 [E2 _]]]. auto.
Qed.

Lemma dgetf2_returns : returns dgetf2.
Proof. split; [discriminate|]. intros d _. unfold dgetf2. eauto. Qed.

Theorem C74_real_program : forall setting rn tol, setting <> "naive"%string ->
  forall K pts rank s k nleaf e admis x, (2 <= k)%Z -> (2 <= s <= nleaf)%Z -> 0 < rank <= Z.to_nat s -> (0 <= admis < 1)%Q ->
  let n := Z.to_nat s * Z.to_nat k ^ S e in
  enough pts n -> (K = KCauchy2d -> 2 <= List.length pts) -> d_r x = n -> d_c x = 1 ->
  let Or := real_arith setting rn tol in
  exists F, forall fuel, F <= fuel -> exists e1 e2 z,
    h_lu Or (fun d => crank Or d rank) dgetf2 fuel K pts n nleaf k admis x = Ok (e1, e2, MD z) /\ d_r z = n /\ d_c z = 1.
Proof.
  intros setting rn tol N K pts rank s k nleaf e admis x Hk Hs Hr Ha n HP HK Hx1 Hx2 Or.
  apply (C74_program real_lapack Or real_lapack_ok real_lapack_orth (real_fixed setting rn tol N) dgetf2 dgetf2_returns
    (fun d => crank Or d rank) rank); auto; try lia.
  intros d. exact (fa_rank _ _ (real_fixed setting rn tol N) d rank).
Qed.
Print Assumptions C74_real_program.

Theorem C74_real_program_any_size : forall setting rn tol, setting <> "naive"%string ->
  forall K pts rank n k nleaf admis x, 2 <= k -> 0 < rank -> (0 <= admis < 1)%Q ->
  let least := (k - 1) * (k - 1) + k * (Nat.max rank 2 - 1) in least <= nleaf -> least < n ->
  enough pts n -> (K = KCauchy2d -> 2 <= List.length pts) -> d_r x = n -> d_c x = 1 ->
  let Or := real_arith setting rn tol in
  exists F, forall fuel, F <= fuel -> exists e1 e2 z,
    h_lu Or (fun d => crank Or d rank) dgetf2 fuel K pts n (Z.of_nat nleaf) (Z.of_nat k) admis x = Ok (e1, e2, MD z) /\
    d_r z = n /\ d_c z = 1.
Proof.
  intros setting rn tol N K pts rank n k nleaf admis x Hk Hr Ha least Hl Hn HP HK Hx1 Hx2 Or.
  apply (C74_program_any_size real_lapack Or real_lapack_ok real_lapack_orth (real_fixed setting rn tol N) dgetf2 dgetf2_returns
    (fun d => crank Or d rank) rank); auto.
  intros d. exact (fa_rank _ _ (real_fixed setting rn tol N) d rank).
Qed.
Print Assumptions C74_real_program_any_size.

(** With the default leaves of 16, rank 8 and 2 parts: all N from 16 on. *)
Example C74_ex_any_size : forall rn x pts n, 16 <= n -> enough pts n -> d_r x = n -> d_c x = 1 ->
  let Or := real_arith "" rn (/ 2 ^ 52)%R in
  exists F, forall fuel, F <= fuel -> exists e1 e2 z,
    h_lu Or (fun d => crank Or d 8) dgetf2 fuel KLaplace pts n 16 2 0 x = Ok (e1, e2, MD z).
Proof.
  intros rn x pts n Hn HP H1 H2 Or.
  destruct (C74_real_program_any_size "" rn (/ 2 ^ 52)%R ltac:(discriminate) KLaplace pts 8 n 2 16 0 x) as [F HF]; auto; try (cbn; lia).
  - split; [apply Qle_refl|reflexivity].
  - discriminate.
  - exists F. intros fuel Hf. destruct (HF fuel Hf) as [e1 [e2 [z [E _]]]]. exists e1, e2, z. exact E.
Qed.

(** The default parameters of the program: N = 256, leaves of 16, rank 8, 2 parts, admis 0;
    laplacend, as the code is built. *)
Example C74_ex : forall rn x pts, enough pts (Z.to_nat 16 * Z.to_nat 2 ^ 4) -> d_r x = Z.to_nat 16 * Z.to_nat 2 ^ 4 -> d_c x = 1 ->
  let Or := real_arith "" rn (/ 2 ^ 52)%R in
  exists F, forall fuel, F <= fuel -> exists e1 e2 z,
    h_lu Or (fun d => crank Or d 8) dgetf2 fuel KLaplace pts (Z.to_nat 16 * Z.to_nat 2 ^ 4) 16 2 0 x = Ok (e1, e2, MD z).
Proof.
  intros rn x pts HP H1 H2 Or.
  destruct (C74_real_program "" rn (/ 2 ^ 52)%R ltac:(discriminate) KLaplace pts 8 16 2 16 3 0 x) as [F HF]; auto; try lia.
  - split; [apply Qle_refl|reflexivity].
  - discriminate.
  - exists F. intros fuel Hf. destruct (HF fuel Hf) as [e1 [e2 [z [E _]]]]. exists e1, e2, z. exact E.
Qed.

(** rank 17 with leaves of 16 does not work. *)
Example C74_ex_too_large : forall rn pts f M, let Or := real_arith "" rn (/ 2 ^ 52)%R in
  hierarchical (kernel_init KLaplace pts (is_admissible PositionBased [] 0) (fun d => crank Or d 17)) f (IR 0 256) (IR 0 256) 2 2 16 <> Ok M.
Proof.
  intros rn pts f M Or.
  apply (C74_rank_too_large Rring real_lapack real_lapack_ok real_lapack_orth 17 0
    (kernel_init KLaplace pts (is_admissible PositionBased [] 0) (fun d => crank Or d 17))) with (s := 16%Z) (e := 3); try lia; try reflexivity.
  - split; [apply Qle_refl|reflexivity].
  - split; [reflexivity|]. split.
    + intros d. exact (fa_rank _ _ (real_fixed "" rn (/ 2 ^ 52)%R ltac:(discriminate)) d 17).
    + intros r c B HB. cbn [kernel_init in_fill] in HB. unfold kernel_block in HB. destruct (_ && _); [|discriminate].
      destruct (kernel_fill_inv _ _ _ _ _ _ _ HB) as [B1 [B2 _]]. auto.
Qed.
