(** Property C85: the JSON document written for a constructed matrix, and the program
    examples/Hmatrix_to_json.cpp. *)
From Coq Require Import String List Arith ZArith QArith Lia Bool Reals.
From Verif Require Import Prelude Ring MatFun Matrix MatOps MatSpec MatOpsProofs IndexRange IndexRangeSpec
  IndexRangeProofs ClusterTree ClusterTreeSpec ClusterTreeProofs ClusterTreeRegular ClusterTreeTermination Admissible Triangular TriProofs
  SvdRank Kernels Construct ConstructProofs ConstructKernel Json JsonTree Prop_Construct.
Import ListNotations.
Local Open Scope nat_scope.
Local Open Scope list_scope.

Definition j_rank '(J _ _ _ _ k _) := k.

(** What an entry of the document says of the node [nd] of the cluster tree, l levels
    below the root. *)
Definition describes {R : cring} (ini : initializer R) (x : json) (nd : cnode) (l : nat) : Prop :=
  j_pos x = Some (Z.to_nat (cn_iabs nd), Z.to_nat (cn_jabs nd), l) /\
  j_dim x = (Z.to_nat (ir_n (cn_rows nd)), Z.to_nat (ir_n (cn_cols nd))) /\
  ((j_type x = "LowRank"%string /\ in_adm ini nd = Ok true /\
      exists D a, in_fill ini (cn_rows nd) (cn_cols nd) = Ok D /\ in_comp ini D = Ok a /\ j_rank x = Some (l_rank a)) \/
   (j_type x = "Dense"%string /\ in_adm ini nd = Ok false /\ is_leaf nd = true /\ j_children x = []) \/
   (j_type x = "Hierarchical"%string /\ in_adm ini nd = Ok false /\ is_leaf nd = false /\
      map (@length json) (j_children x) = repeat (Z.to_nat (cn_bn nd)) (Z.to_nat (cn_bm nd)))).

Section Document.
Context {R : cring}.
Variable ini : initializer R.
Hypothesis SH : shapely ini.
Variables (fuel : nat) (rows cols : irange) (bm bn nleaf : Z) (t : ctree) (A : matrix R).
Hypothesis Hm : (1 <= bm)%Z.
Hypothesis Hn : (1 <= bn)%Z.
Hypothesis Ht : cluster_tree fuel rows cols bm bn nleaf = Ok t.
Hypothesis Hr : regular t.
Hypothesis HA : hierarchical ini fuel rows cols bm bn nleaf = Ok A.
Notation root := (root_node rows cols bm bn nleaf).

Lemma hier_A : hier ini t = Ok A.
Proof using Ht HA.
  destruct (hierarchical_inv _ _ _ _ _ _ _ _ HA) as [t' [Ht' H]]. rewrite Ht in Ht'. injection Ht' as E. rewrite E. exact H.
Qed.

Lemma doc_entry p x : p <> [] -> json_at (to_json A 0 0 0) p = Some x -> describes ini x (node_at root p) (length p).
Proof using SH Hm Hn Ht Hr HA.
  intros Hp Hx. rewrite json_at_spec in Hx. destruct (block_at A p) as [B|] eqn:EB; [|discriminate].
  destruct (blocks_below ini SH fuel root true t A Ht eq_refl Hm Hn Hr hier_A p B Hp EB) as [_ [S0 [D1 [D2 P]]]].
  destruct (P 0 0 eq_refl eq_refl) as [P1 P2]. injection Hx as Hx. subst x.
  set (nd := node_at root p) in *.
  destruct (refine A p (0, 0)) as [u v]. cbn [fst snd] in *.
  assert (E1 : Z.to_nat (cn_iabs nd) = u) by lia. assert (E2 : Z.to_nat (cn_jabs nd) = v) by lia.
  destruct (to_json_facts B u v (length p)) as [T1 [T2 [T3 T4]]].
  unfold describes. rewrite E1, E2, T1, T2, T3, D1, D2.
  destruct B as [d|l|m n b|r c]; cbn [stored type_of] in *.
  - destruct S0 as [S1 [S2 S3]]. split; auto. split; auto. right; left. auto.
  - destruct S0 as [S1 S2]. split; auto. split; auto. left. split; auto. split; auto.
    unfold get_compressed in S2. apply bind_Ok in S2. destruct S2 as [D [S2 S3]]. exists D, l. split; auto.
    unfold get_dense in S2. destruct ((0 <=? _)%Z && (0 <=? _)%Z); [exact S2|discriminate].
  - destruct S0 as [S1 [S2 [S3 S4]]]. split; auto. split; auto. right; right. split; auto. split; auto. split; auto.
    rewrite T4, S3, S4. reflexivity.
  - destruct S0.
Qed.

Lemma doc_paths p : (exists x, json_at (to_json A 0 0 0) p = Some x) <->
  (Forall (fun ij => fst ij < Z.to_nat bm /\ snd ij < Z.to_nat bn) p /\
   forall q ij r, p = q ++ ij :: r -> q <> [] ->
     in_adm ini (node_at root q) = Ok false /\ is_leaf (node_at root q) = false).
Proof using SH Hm Hn Ht Hr HA.
  rewrite <- (path_iff ini SH fuel root true t A Ht eq_refl Hm Hn Hr hier_A p). rewrite json_at_spec.
  destruct (block_at A p) as [B|]; split; intros [x E]; eauto; discriminate.
Qed.

Lemma leaf_type (B : matrix R) x y l : j_type (to_json B x y l) <> "Hierarchical"%string <-> (forall m n b, B <> MH m n b).
Proof using.
  destruct B; cbn; split; intros H; try discriminate; try congruence.
  exfalso. eapply H. reflexivity.
Qed.

Lemma doc_tiling x y : ir_mem x rows -> ir_mem y cols ->
  exists p, (exists e, json_at (to_json A 0 0 0) p = Some e /\ j_type e <> "Hierarchical"%string /\
               in_node x y (node_at root p)) /\
  forall q e, json_at (to_json A 0 0 0) q = Some e -> j_type e <> "Hierarchical"%string ->
               in_node x y (node_at root q) -> q = p.
Proof using SH Hm Hn Ht Hr HA.
  intros Hx Hy. destruct (leaf_exists ini SH fuel root true t A Ht eq_refl Hm Hn Hr hier_A x y (conj Hx Hy))
    as [p [B [Hp [HB [NB IB]]]]].
  exists p. split.
  - eexists. rewrite json_at_spec, HB. split; [reflexivity|]. split; [apply leaf_type; exact NB|exact IB].
  - intros q e He Te Ie. rewrite json_at_spec in He. destruct (block_at A q) as [C|] eqn:EC; [|discriminate].
    injection He as He. subst e. pose proof (proj1 (leaf_type C _ _ _) Te) as TC.
    exact (leaf_unique ini SH fuel root true t A Ht eq_refl Hm Hn Hr hier_A q p C B x y EC HB TC NB Ie IB).
Qed.

Lemma doc_distinct p q x y : json_at (to_json A 0 0 0) p = Some x -> json_at (to_json A 0 0 0) q = Some y ->
  j_pos x = j_pos y -> p = q.
Proof using SH Hm Hn Ht Hr HA.
  rewrite !json_at_spec. destruct (block_at A p) as [B|] eqn:EB; [|discriminate].
  destruct (block_at A q) as [C|] eqn:EC; [|discriminate].
  intros Hx Hy E. injection Hx as Hx. injection Hy as Hy. subst x y.
  assert (NE : forall p B, block_at A p = Some B -> match B with ME _ _ => False | _ => True end).
  { intros p' B' E'. destruct p' as [|a p'].
    - rewrite block_nil in E'. injection E' as <-. destruct (kernel_shape _ _ _ _ _ _ _ _ HA) as [b ->]. exact Logic.I.
    - destruct (blocks_below ini SH fuel root true t A Ht eq_refl Hm Hn Hr hier_A (a :: p') B' ltac:(discriminate) E') as [_ [S0 _]].
      destruct B'; auto. }
  pose proof (NE p B EB) as NB. pose proof (NE q C EC) as NC.
  destruct (to_json_facts B (fst (refine A p (0, 0))) (snd (refine A p (0, 0))) (length p)) as [_ [_ [T1 _]]].
  destruct (to_json_facts C (fst (refine A q (0, 0))) (snd (refine A q (0, 0))) (length q)) as [_ [_ [T2 _]]].
  rewrite T1, T2 in E.
  assert (E' : (fst (refine A p (0, 0)), snd (refine A p (0, 0)), length p) =
               (fst (refine A q (0, 0)), snd (refine A q (0, 0)), length q)).
  { destruct B; try destruct NB; destruct C; try destruct NC; congruence. }
  injection E' as E1 E2 E3.
  apply (positions_distinct _ A p q B C (hier_uniform ini SH fuel root true t A Ht eq_refl Hm Hn Hr hier_A) E3 EB EC).
  destruct (refine A p (0, 0)), (refine A q (0, 0)). cbn [fst snd] in *. congruence.
Qed.
End Document.

(** Every entry of the document but the first describes the node of the cluster tree
    reached by the same children. *)
Theorem C85_entries : forall (R : cring) (ini : initializer R), shapely ini ->
  forall fuel rows cols bm bn nleaf t A, (1 <= bm)%Z -> (1 <= bn)%Z ->
  cluster_tree fuel rows cols bm bn nleaf = Ok t -> regular t ->
  hierarchical ini fuel rows cols bm bn nleaf = Ok A ->
  forall p x, p <> [] -> json_at (to_json A 0 0 0) p = Some x ->
  describes ini x (node_at (root_node rows cols bm bn nleaf) p) (length p).
Proof. exact (fun R => @doc_entry R). Qed.
Print Assumptions C85_entries.

(** Which entries there are: the children of the nodes that are neither admissible nor
    leaves, and those of the root. *)
Theorem C85_paths : forall (R : cring) (ini : initializer R), shapely ini ->
  forall fuel rows cols bm bn nleaf t A, (1 <= bm)%Z -> (1 <= bn)%Z ->
  cluster_tree fuel rows cols bm bn nleaf = Ok t -> regular t ->
  hierarchical ini fuel rows cols bm bn nleaf = Ok A ->
  forall p, (exists x, json_at (to_json A 0 0 0) p = Some x) <->
  (Forall (fun ij => fst ij < Z.to_nat bm /\ snd ij < Z.to_nat bn) p /\
   forall q ij r, p = q ++ ij :: r -> q <> [] ->
     in_adm ini (node_at (root_node rows cols bm bn nleaf) q) = Ok false /\
     is_leaf (node_at (root_node rows cols bm bn nleaf) q) = false).
Proof. exact (fun R => @doc_paths R). Qed.
Print Assumptions C85_paths.

(** The entries that are not Hierarchical tile the matrix. *)
Theorem C85_tiling : forall (R : cring) (ini : initializer R), shapely ini ->
  forall fuel rows cols bm bn nleaf t A, (1 <= bm)%Z -> (1 <= bn)%Z ->
  cluster_tree fuel rows cols bm bn nleaf = Ok t -> regular t ->
  hierarchical ini fuel rows cols bm bn nleaf = Ok A ->
  forall x y, ir_mem x rows -> ir_mem y cols ->
  exists p, (exists e, json_at (to_json A 0 0 0) p = Some e /\ j_type e <> "Hierarchical"%string /\
               in_node x y (node_at (root_node rows cols bm bn nleaf) p)) /\
  forall q e, json_at (to_json A 0 0 0) q = Some e -> j_type e <> "Hierarchical"%string ->
               in_node x y (node_at (root_node rows cols bm bn nleaf) q) -> q = p.
Proof. exact (fun R => @doc_tiling R). Qed.
Print Assumptions C85_tiling.

(** No two entries have the same position and level. *)
Theorem C85_distinct : forall (R : cring) (ini : initializer R), shapely ini ->
  forall fuel rows cols bm bn nleaf t A, (1 <= bm)%Z -> (1 <= bn)%Z ->
  cluster_tree fuel rows cols bm bn nleaf = Ok t -> regular t ->
  hierarchical ini fuel rows cols bm bn nleaf = Ok A ->
  forall p q x y, json_at (to_json A 0 0 0) p = Some x -> json_at (to_json A 0 0 0) q = Some y ->
  j_pos x = j_pos y -> p = q.
Proof. exact (fun R => @doc_distinct R). Qed.
Print Assumptions C85_distinct.

(** ** The program *)

(** Hmatrix_to_json.cpp:18-31.  pts is the sorted random vector, comp the LowRank
    constructor with the accuracy eps; the name of the file and the timers are left out. *)
Definition hmatrix_to_json (comp : dense Rring -> outcome (lowrank Rring)) (fuel : nat) (pts : list (list R))
  (n : nat) (nleaf admis : Z) : outcome json :=
  let* A := hierarchical (kernel_init KLaplace pts (is_admissible PositionBased [] (inject_Z admis)) comp) fuel
              (IR 0 (Z.of_nat n)) (IR 0 (Z.of_nat n)) 2 2 nleaf in
  Ok (to_json A 0 0 0).

Definition keeps_dims (comp : dense Rring -> outcome (lowrank Rring)) : Prop :=
  forall D l, comp D = Ok l -> lr_wf l /\ l_r l = d_r D /\ l_c l = d_c D.

Lemma Qtrunc_Z z : Qtrunc (inject_Z z) = z.
Proof. unfold Qtrunc. cbn [Qnum Qden inject_Z]. apply Z.quot_1_r. Qed.

(** Positions and levels stay inside of the grid of the level. *)
Lemma abs_bound p : forall nd k, (1 <= cn_bm nd)%Z -> (1 <= cn_bn nd)%Z -> bounded nd p ->
  (0 <= cn_iabs nd < cn_bm nd ^ Z.of_nat k)%Z -> (0 <= cn_jabs nd < cn_bn nd ^ Z.of_nat k)%Z ->
  (0 <= cn_iabs (node_at nd p) < cn_bm nd ^ Z.of_nat (k + length p))%Z /\
  (0 <= cn_jabs (node_at nd p) < cn_bn nd ^ Z.of_nat (k + length p))%Z.
Proof.
  induction p as [|[i j] p IH]; intros nd k Hm Hn HB Hi Hj.
  - cbn [length node_at fold_left]. rewrite Nat.add_0_r. auto.
  - unfold node_at. cbn [fold_left length]. fold (node_at (child_node nd (i, j)) p).
    inversion HB as [|? ? [L1 L2] HB']; subst. cbn [fst snd] in L1, L2.
    replace (k + S (length p)) with (S k + length p) by lia.
    apply (IH (child_node nd (i, j)) (S k)); auto; cbn [child_node cn_bm cn_bn cn_iabs cn_jabs fst snd];
      rewrite Nat2Z.inj_succ, Z.pow_succ_r by lia; nia.
Qed.

Section Program.
Variables (comp : dense Rring -> outcome (lowrank Rring)) (fuel : nat) (pts : list (list R)) (n : nat) (nleaf admis : Z).
Hypothesis HC : keeps_dims comp.
Notation rng := (IR 0 (Z.of_nat n)).
Notation root := (root_node rng rng 2 2 nleaf).
Notation ini := (kernel_init KLaplace pts (is_admissible PositionBased [] (inject_Z admis)) comp).
Variable doc : json.
Hypothesis HD : hmatrix_to_json comp fuel pts n nleaf admis = Ok doc.

Lemma program_inv : exists A t, cluster_tree fuel rng rng 2 2 nleaf = Ok t /\ regular t /\
  hierarchical ini fuel rng rng 2 2 nleaf = Ok A /\ doc = to_json A 0 0 0.
Proof using HD.
  unfold hmatrix_to_json in HD. apply bind_Ok in HD. destruct HD as [A [H E]]. injection E as E.
  destruct (hierarchical_inv _ _ _ _ _ _ _ _ H) as [t [Ht _]]. exists A, t. split; auto. split; [|auto].
  apply (regular_two fuel rng rng 2 2 nleaf t); cbn [ir_n]; lia || auto.
Qed.

Lemma program_adm nd : in_adm ini nd = Ok ((ir_n (cn_rows nd) >? 1)%Z && (ir_n (cn_cols nd) >? 1)%Z &&
  (Z.abs (cn_iabs nd - cn_jabs nd) >? admis)%Z).
Proof using.
  cbn [kernel_init in_adm is_admissible]. unfold position_admissible, dist_to_diag. rewrite Qtrunc_Z. reflexivity.
Qed.

(** The root, and every other entry read on its own. *)
Lemma program_root : j_type doc = "Hierarchical"%string /\ j_dim doc = (n, n) /\ j_pos doc = Some (0, 0, 0) /\
  map (@length json) (j_children doc) = [2; 2].
Proof using HC HD.
  destruct program_inv as [A [t [Ht [Hr [HA ->]]]]].
  destruct (hierarchical_good ini (kernel_init_shapely _ _ _ _ HC) fuel rng rng 2 2 nleaf t A ltac:(lia) ltac:(lia) Ht Hr HA)
    as [_ [D1 [D2 _]]].
  destruct (kernel_shape _ _ _ _ _ _ _ _ HA) as [b E].
  destruct (to_json_facts A 0 0 0) as [T1 [T2 [T3 T4]]]. rewrite T1, T2, T3, T4, D1, D2. rewrite E. unfold len. cbn [ir_n].
  rewrite Nat2Z.id. auto.
Qed.

Lemma program_entry p x : p <> [] -> json_at doc p = Some x ->
  exists i j, j_pos x = Some (i, j, length p) /\ i < 2 ^ length p /\ j < 2 ^ length p /\
  let r := fst (j_dim x) in let c := snd (j_dim x) in
  let far := ((1 <? r) && (1 <? c) && (Z.abs (Z.of_nat i - Z.of_nat j) >? admis)%Z)%bool in
  let small := ((Z.of_nat r <=? nleaf)%Z && (Z.of_nat c <=? nleaf)%Z || (nleaf =? 0)%Z)%bool in
  j_type x = (if far then "LowRank" else if small then "Dense" else "Hierarchical")%string.
Proof using HC HD.
  intros Hp Hx. destruct program_inv as [A [t [Ht [Hr [HA ->]]]]].
  pose proof (kernel_init_shapely KLaplace pts (is_admissible PositionBased [] (inject_Z admis)) comp HC) as SH.
  pose proof (doc_entry ini SH fuel rng rng 2 2 nleaf t A ltac:(lia) ltac:(lia) Ht Hr HA p x Hp Hx) as D.
  destruct (proj1 (doc_paths ini SH fuel rng rng 2 2 nleaf t A ltac:(lia) ltac:(lia) Ht Hr HA p) (ex_intro _ x Hx)) as [Bd _].
  assert (Bd' : bounded root p) by exact Bd.
  destruct (abs_bound p root 0 ltac:(cbn; lia) ltac:(cbn; lia) Bd' ltac:(cbn; lia) ltac:(cbn; lia)) as [B1 B2].
  cbn [Nat.add cn_bm cn_bn root_node] in B1, B2.
  set (nd := node_at root p) in *. destruct D as [D1 [D2 D3]].
  assert (PW : Z.of_nat (2 ^ length p) = (2 ^ Z.of_nat (length p))%Z) by apply Nat2Z.inj_pow.
  exists (Z.to_nat (cn_iabs nd)), (Z.to_nat (cn_jabs nd)). split; auto. split; [lia|]. split; [lia|].
  rewrite D2. cbn [fst snd]. rewrite !Z2Nat.id by lia.
  assert (NN : (0 <= ir_n (cn_rows nd))%Z /\ (0 <= ir_n (cn_cols nd))%Z).
  { unfold nd. clear - Bd'. revert Bd'. 
    assert (G : forall p nd, cn_bm nd = 2%Z -> cn_bn nd = 2%Z -> bounded nd p -> (0 <= ir_n (cn_rows nd))%Z -> (0 <= ir_n (cn_cols nd))%Z ->
       (0 <= ir_n (cn_rows (node_at nd p)))%Z /\ (0 <= ir_n (cn_cols (node_at nd p)))%Z).
    { clear. induction p as [|[i j] p IH]; intros nd Em En HB H1 H2; [auto|].
      unfold node_at. cbn [fold_left]. fold (node_at (child_node nd (i, j)) p).
      inversion HB as [|? ? [L1 L2] HB']; subst. cbn [fst snd] in L1, L2.
      apply IH; auto; cbn [child_node cn_rows cn_cols fst snd]; rewrite ir_split_nth by auto; apply split_child_two_nonneg; lia. }
    intros Bd'. apply G; cbn; auto; lia. }
  assert (F : ((1 <? Z.to_nat (ir_n (cn_rows nd))) && (1 <? Z.to_nat (ir_n (cn_cols nd))) &&
     (Z.abs (cn_iabs nd - cn_jabs nd) >? admis)%Z)%bool =
     ((ir_n (cn_rows nd) >? 1)%Z && (ir_n (cn_cols nd) >? 1)%Z && (Z.abs (cn_iabs nd - cn_jabs nd) >? admis)%Z)%bool).
  { f_equal. f_equal.
    - rewrite Z.gtb_ltb. destruct (Nat.ltb_spec 1 (Z.to_nat (ir_n (cn_rows nd)))), (Z.ltb_spec 1 (ir_n (cn_rows nd))); auto; lia.
    - rewrite Z.gtb_ltb. destruct (Nat.ltb_spec 1 (Z.to_nat (ir_n (cn_cols nd)))), (Z.ltb_spec 1 (ir_n (cn_cols nd))); auto; lia. }
  rewrite F. rewrite (Z2Nat.id (ir_n (cn_rows nd))), (Z2Nat.id (ir_n (cn_cols nd))) by lia. rewrite program_adm in D3.
  assert (LF : is_leaf nd = ((ir_n (cn_rows nd) <=? nleaf)%Z && (ir_n (cn_cols nd) <=? nleaf)%Z || (nleaf =? 0)%Z)%bool).
  { unfold is_leaf. unfold nd. destruct (node_bm p root) as [_ [_ ->]]. reflexivity. }
  rewrite LF in D3.
  destruct D3 as [[T [E _]]|[[T [E [El _]]]|[T [E [El _]]]]]; injection E as E; rewrite E; try rewrite El; exact T.
Qed.
End Program.

(** The document of the program, for all N, leaf sizes, admissibility constants and
    compressions that keep dimensions: the first entry is the whole matrix, and the type of
    every other entry follows from its own position and size. *)
Theorem C85_program : forall comp fuel pts n nleaf admis doc, keeps_dims comp ->
  hmatrix_to_json comp fuel pts n nleaf admis = Ok doc ->
  (j_type doc = "Hierarchical"%string /\ j_dim doc = (n, n) /\ j_pos doc = Some (0, 0, 0) /\
   map (@length json) (j_children doc) = [2; 2]) /\
  forall p x, p <> [] -> json_at doc p = Some x ->
  exists i j, j_pos x = Some (i, j, length p) /\ i < 2 ^ length p /\ j < 2 ^ length p /\
  let r := fst (j_dim x) in let c := snd (j_dim x) in
  let far := ((1 <? r) && (1 <? c) && (Z.abs (Z.of_nat i - Z.of_nat j) >? admis)%Z)%bool in
  let small := ((Z.of_nat r <=? nleaf)%Z && (Z.of_nat c <=? nleaf)%Z || (nleaf =? 0)%Z)%bool in
  j_type x = (if far then "LowRank" else if small then "Dense" else "Hierarchical")%string.
Proof.
  intros comp fuel pts n nleaf admis doc HC HD. split; [exact (program_root comp fuel pts n nleaf admis HC doc HD)|].
  exact (program_entry comp fuel pts n nleaf admis HC doc HD).
Qed.
Print Assumptions C85_program.

(** *** Sizes that are a multiple of a power of 2 *)

Lemma half_range s a k i : (0 <= s)%Z -> i < 2 ->
  nth i (ir_split (IR (a * (s * 2 ^ Z.of_nat (S k))) (s * 2 ^ Z.of_nat (S k))) 2) (IR 0 0) =
  IR ((a * 2 + Z.of_nat i) * (s * 2 ^ Z.of_nat k)) (s * 2 ^ Z.of_nat k).
Proof.
  intros Hs Hi. rewrite ir_split_nth by (cbn; lia).
  set (w := (s * 2 ^ Z.of_nat k)%Z). assert (W : (0 <= w)%Z) by (unfold w; pose proof (Z.pow_nonneg 2 (Z.of_nat k)); nia).
  replace (s * 2 ^ Z.of_nat (S k))%Z with (w * 2)%Z by (unfold w; rewrite Nat2Z.inj_succ, Z.pow_succ_r by lia; ring).
  pose proof (split_child_div (IR (a * (w * 2)) (w * 2)) 2 w (Z.of_nat i) ltac:(lia) W eq_refl ltac:(lia)) as E.
  unfold ir_split_child in *. cbn [ir_n ir_start] in *. rewrite E. f_equal.
  rewrite Z.quot_div_nonneg by lia. replace (w * 2 + 2 - 1)%Z with (1 + w * 2)%Z by lia. rewrite Z.div_add by lia.
  change (1 / 2)%Z with 0%Z. ring.
Qed.

Lemma node_square s p : forall nd k, (0 <= s)%Z -> cn_bm nd = 2%Z -> cn_bn nd = 2%Z -> bounded nd p -> length p <= k ->
  cn_rows nd = IR (cn_iabs nd * (s * 2 ^ Z.of_nat k)) (s * 2 ^ Z.of_nat k) ->
  cn_cols nd = IR (cn_jabs nd * (s * 2 ^ Z.of_nat k)) (s * 2 ^ Z.of_nat k) ->
  let w := (s * 2 ^ Z.of_nat (k - length p))%Z in
  cn_rows (node_at nd p) = IR (cn_iabs (node_at nd p) * w) w /\
  cn_cols (node_at nd p) = IR (cn_jabs (node_at nd p) * w) w.
Proof.
  induction p as [|[i j] p IH]; intros nd k Hs Em En HB L E1 E2.
  - cbn [length node_at fold_left]. rewrite Nat.sub_0_r. auto.
  - unfold node_at. cbn [fold_left length] in *. fold (node_at (child_node nd (i, j)) p).
    inversion HB as [|? ? [L1 L2] HB']; subst. cbn [fst snd] in L1, L2. rewrite Em in L1. rewrite En in L2.
    destruct k as [|k]; [lia|]. replace (S k - S (length p)) with (k - length p) by lia.
    apply (IH (child_node nd (i, j)) k); auto; try lia; cbn [child_node cn_rows cn_cols cn_iabs cn_jabs fst snd].
    + rewrite Em, E1. apply half_range; auto.
    + rewrite En, E2. apply half_range; auto.
Qed.

(** With N = s * 2^e and leaves of at least s, the entry of level l at (i,j) is the block
    (i,j) of the matrix cut into 2^l x 2^l equal blocks, l <= e, and every position of the
    matrix is in exactly one entry that is not Hierarchical. *)
Theorem C85_grid : forall comp fuel pts s e nleaf admis doc, keeps_dims comp -> (1 <= Z.of_nat s <= nleaf)%Z -> 1 <= e ->
  hmatrix_to_json comp fuel pts (s * 2 ^ e) nleaf admis = Ok doc ->
  (forall p x, json_at doc p = Some x -> length p <= e /\ j_dim x = (s * 2 ^ (e - length p), s * 2 ^ (e - length p))) /\
  forall r c, r < s * 2 ^ e -> c < s * 2 ^ e ->
  exists p, (exists x, json_at doc p = Some x /\ j_type x <> "Hierarchical"%string /\
     j_pos x = Some (r / (s * 2 ^ (e - length p)), c / (s * 2 ^ (e - length p)), length p)) /\
  forall q x, json_at doc q = Some x -> j_type x <> "Hierarchical"%string ->
     j_pos x = Some (r / (s * 2 ^ (e - length q)), c / (s * 2 ^ (e - length q)), length q) -> q = p.
Proof.
  intros comp fuel pts s e nleaf admis doc HC Hs He HD. set (n := s * 2 ^ e) in *.
  destruct (program_inv comp fuel pts n nleaf admis doc HD) as [A [t [Ht [Hr [HA Ed]]]]].
  pose proof (kernel_init_shapely KLaplace pts (is_admissible PositionBased [] (inject_Z admis)) comp HC) as SH.
  set (ini := kernel_init KLaplace pts (is_admissible PositionBased [] (inject_Z admis)) comp) in *.
  set (rng := IR 0 (Z.of_nat n)) in *. set (root := root_node rng rng 2 2 nleaf).
  assert (En : Z.of_nat n = (Z.of_nat s * 2 ^ Z.of_nat e)%Z) by (unfold n; rewrite Nat2Z.inj_mul, Nat2Z.inj_pow; reflexivity).
  assert (PATH : forall p, (exists x, json_at doc p = Some x) -> bounded root p /\
     forall q ij r, p = q ++ ij :: r -> q <> [] -> in_adm ini (node_at root q) = Ok false /\ is_leaf (node_at root q) = false).
  { intros p Hp. rewrite Ed in Hp. exact (proj1 (doc_paths ini SH fuel rng rng 2 2 nleaf t A ltac:(lia) ltac:(lia) Ht Hr HA p) Hp). }
  assert (SQ : forall p, bounded root p -> length p <= e -> let w := (Z.of_nat s * 2 ^ Z.of_nat (e - length p))%Z in
     cn_rows (node_at root p) = IR (cn_iabs (node_at root p) * w) w /\ cn_cols (node_at root p) = IR (cn_jabs (node_at root p) * w) w).
  { intros p HB L. apply (node_square (Z.of_nat s) p root e); auto; try lia; unfold root, rng; cbn [root_node cn_rows cn_cols cn_iabs cn_jabs]; rewrite <- En; reflexivity. }
  assert (LEN : forall p x, json_at doc p = Some x -> length p <= e).
  { intros p x Hx. destruct (PATH p (ex_intro _ x Hx)) as [HB HQ]. destruct (Nat.le_gt_cases (length p) e) as [L|L]; auto. exfalso.
    destruct (skipn e p) as [|ij rest] eqn:Es. { apply (f_equal (@length _)) in Es. rewrite skipn_length in Es. cbn in Es. lia. }
    pose proof (firstn_skipn e p) as FS. rewrite Es in FS.
    assert (LF : length (firstn e p) = e) by (rewrite firstn_length; lia).
    assert (BF : bounded root (firstn e p)). { unfold bounded in *. rewrite <- FS in HB. apply Forall_app in HB. tauto. }
    destruct (HQ (firstn e p) ij rest (eq_sym FS)) as [_ NL]. { intros E0. rewrite E0 in LF. cbn in LF. lia. }
    destruct (SQ (firstn e p) BF ltac:(lia)) as [R1 R2]. rewrite LF, Nat.sub_diag in R1, R2. change (2 ^ Z.of_nat 0)%Z with 1%Z in R1, R2. rewrite Z.mul_1_r in R1, R2.
    unfold is_leaf in NL. rewrite R1, R2 in NL. cbn [ir_n] in NL. destruct (node_bm (firstn e p) root) as [_ [_ E3]]. rewrite E3 in NL.
    cbn [root root_node cn_nleaf] in NL. apply orb_false_iff in NL. destruct NL as [NL _]. apply andb_false_iff in NL.
    destruct NL as [NL|NL]; apply Z.leb_gt in NL; lia. }
  assert (W : forall l, Z.of_nat (s * 2 ^ l) = (Z.of_nat s * 2 ^ Z.of_nat l)%Z) by (intros l; rewrite Nat2Z.inj_mul, Nat2Z.inj_pow; reflexivity).
  assert (POS : forall l, 0 < s * 2 ^ l) by (intros l; pose proof (Nat.pow_nonzero 2 l); nia).
  assert (DESC : forall p x, p <> [] -> json_at doc p = Some x -> describes ini x (node_at root p) (length p)).
  { intros p x Hp Hx. rewrite Ed in Hx. exact (doc_entry ini SH fuel rng rng 2 2 nleaf t A ltac:(lia) ltac:(lia) Ht Hr HA p x Hp Hx). }
  assert (TOP : forall x, json_at doc [] = Some x -> x = doc) by (intros x Hx; cbn [json_at] in Hx; congruence).
  destruct (program_root comp fuel pts n nleaf admis HC doc HD) as [T1 [T2 [T3 _]]].
  split.
  { intros p x Hx. pose proof (LEN p x Hx) as L. split; auto. destruct p as [|a p].
    - rewrite (TOP x Hx), T2. cbn [length]. rewrite Nat.sub_0_r. reflexivity.
    - destruct (DESC (a :: p) x ltac:(discriminate) Hx) as [_ [D2 _]]. destruct (PATH (a :: p) (ex_intro _ x Hx)) as [HB _].
      destruct (SQ (a :: p) HB L) as [R1 R2]. rewrite D2, R1, R2. cbn [ir_n]. rewrite <- W, Nat2Z.id. reflexivity. }
  (* the region of an entry *)
  assert (REG : forall p x r c, p <> [] -> json_at doc p = Some x -> 
     in_node (Z.of_nat r) (Z.of_nat c) (node_at root p) <->
     j_pos x = Some (r / (s * 2 ^ (e - length p)), c / (s * 2 ^ (e - length p)), length p)).
  { intros p x r c Hp Hx. destruct (DESC p x Hp Hx) as [D1 _]. destruct (PATH p (ex_intro _ x Hx)) as [HB _].
    destruct (SQ p HB (LEN p x Hx)) as [R1 R2].
    destruct (abs_bound p root 0 ltac:(cbn; lia) ltac:(cbn; lia) HB ltac:(cbn; lia) ltac:(cbn; lia)) as [[B1 _] [B2 _]].
    unfold in_node, ir_mem. rewrite D1, R1, R2. cbn [ir_start ir_n]. rewrite <- W.
    set (w := s * 2 ^ (e - length p)) in *. pose proof (POS (e - length p)) as Pw. fold w in Pw.
    assert (AX : forall a (v : nat), (0 <= a)%Z -> ((a * Z.of_nat w <= Z.of_nat v < a * Z.of_nat w + Z.of_nat w)%Z <-> Z.to_nat a = v / w)).
    { intros a v Ha. pose proof (Nat.div_mod v w ltac:(lia)) as DM. pose proof (Nat.mod_upper_bound v w ltac:(lia)) as MB. split.
      - intros I. apply (Nat.div_unique v w (Z.to_nat a) (v - w * Z.to_nat a)); nia.
      - intros E0. assert (E1 : a = Z.of_nat (v / w)) by lia. nia. }
    rewrite (AX _ r B1), (AX _ c B2). split; [intros [-> ->]; reflexivity|]. intros E0. injection E0 as -> ->. auto. }
  intros r c Lr Lc.
  destruct (doc_tiling ini SH fuel rng rng 2 2 nleaf t A ltac:(lia) ltac:(lia) Ht Hr HA (Z.of_nat r) (Z.of_nat c)) as [p [[x [Hx [Tx Ix]]] U]].
  { unfold ir_mem, rng. cbn [ir_start ir_n]. lia. } { unfold ir_mem, rng. cbn [ir_start ir_n]. lia. }
  rewrite <- Ed in Hx, U.
  assert (NT : forall p x, json_at doc p = Some x -> j_type x <> "Hierarchical"%string -> p <> []).
  { intros p' x' Hx' Tx' ->. rewrite (TOP x' Hx') in Tx'. contradiction. }
  exists p. split.
  - exists x. split; auto. split; auto. apply (REG p x r c (NT p x Hx Tx) Hx). exact Ix.
  - intros q y Hy Ty Py. apply (U q y Hy Ty). apply (REG q y r c (NT q y Hy Ty) Hy). exact Py.
Qed.
Print Assumptions C85_grid.

(** It runs to its end for all N and leaf sizes from 1 on, with enough points, if the
    compression of blocks does. *)
Theorem C85_runs : forall comp pts n nleaf admis, (forall D, exists l, comp D = Ok l) -> enough pts n -> (1 <= nleaf)%Z ->
  exists fuel doc, hmatrix_to_json comp fuel pts n nleaf admis = Ok doc.
Proof.
  intros comp pts n nleaf admis HC HP Hl. set (rng := IR 0 (Z.of_nat n)).
  destruct (cluster_tree_terminates rng rng 2 2 nleaf (S n)) as [t Ht]; try lia.
  { cbn [rng ir_n]. rewrite Nat2Z.inj_succ, Z.pow_succ_r by lia. pose proof (Nat.pow_gt_lin_r 2 n ltac:(lia)) as H. apply inj_lt in H.
    rewrite Nat2Z.inj_pow in H. change (Z.of_nat 2) with 2%Z in H. lia. }
  assert (Hr : regular t) by (apply (regular_two (S (S (S n))) rng rng 2 2 nleaf t); cbn [rng ir_n]; lia || auto).
  set (ini := kernel_init KLaplace pts (is_admissible PositionBased [] (inject_Z admis)) comp).
  destruct (C08_succeeds Rring ini (S (S (S n))) (root_node rng rng 2 2 nleaf) true t Ht Hr) as [A HA].
  - intros x _. eexists. apply program_adm.
  - intros x Hx _.
    pose (P := fun nd => cn_bm nd = 2%Z /\ cn_bn nd = 2%Z /\
      (0 <= ir_start (cn_rows nd) /\ 0 <= ir_n (cn_rows nd) /\ ir_start (cn_rows nd) + ir_n (cn_rows nd) <= Z.of_nat n)%Z /\
      (0 <= ir_start (cn_cols nd) /\ 0 <= ir_n (cn_cols nd) /\ ir_start (cn_cols nd) + ir_n (cn_cols nd) <= Z.of_nat n)%Z).
    assert (HV : forall q i, i < 2 -> (0 <= ir_start q /\ 0 <= ir_n q /\ ir_start q + ir_n q <= Z.of_nat n)%Z ->
      let h := nth i (ir_split q 2) (IR 0 0) in (0 <= ir_start h /\ 0 <= ir_n h /\ ir_start h + ir_n h <= Z.of_nat n)%Z).
    { intros q i Hi Hq. cbv zeta. rewrite ir_split_nth by (cbn; lia). 
      pose proof (split_child_two_nonneg q 2 (Z.of_nat i) ltac:(lia) ltac:(lia) ltac:(lia)) as NN.
      unfold ir_split_child in *. cbn [ir_start ir_n] in *. rewrite Z.quot_div_nonneg in * by lia.
      pose proof (Z.div_mod (ir_n q + 2 - 1) 2 ltac:(lia)). pose proof (Z.mod_pos_bound (ir_n q + 2 - 1) 2 ltac:(lia)).
      destruct i as [|[|i]]; [| |lia].
      - change (Z.of_nat 0 =? 2 - 1)%Z with false in *. cbv iota in *. lia.
      - change (Z.of_nat 1 =? 2 - 1)%Z with true in *. cbv iota in *. lia. }
    assert (PX : P (ct_node x)).
    { apply (ct_nodes_inv P true _ _ t Ht); [|intros nd i j [E1 [E2 [H1 H2]]] _ Hi Hj|exact Hx].
      - unfold P. cbn. lia.
      - rewrite E1 in Hi. rewrite E2 in Hj. unfold P. cbn [child_node cn_bm cn_bn cn_rows cn_cols fst snd]. rewrite E1, E2.
        split; [reflexivity|]. split; [reflexivity|]. split; apply HV; auto. }
    destruct PX as [_ [_ [H1 H2]]].
    destruct (fill_succeeds KLaplace pts (len (cn_rows (ct_node x))) (len (cn_cols (ct_node x)))
      (Z.to_nat (ir_start (cn_rows (ct_node x)))) (Z.to_nat (ir_start (cn_cols (ct_node x)))) n HP) as [D HD];
      [unfold len; lia|unfold len; lia|discriminate|].
    exists D. split; [|apply HC]. cbn [ini kernel_init in_fill]. unfold kernel_block.
    replace (_ && _)%bool with true by (symmetry; apply andb_true_iff; split; apply Z.leb_le; lia). exact HD.
  - exists (S (S (S n))). eexists. unfold hmatrix_to_json, hierarchical. fold rng. rewrite Ht. cbn [bind]. fold ini. rewrite HA. reflexivity.
Qed.
Print Assumptions C85_runs.

(** A 7 x 6 matrix, two levels; and the program on 6 points. *)
Definition says (o : outcome json) (p : list (nat * nat)) :=
  match o with
  | Ok d => match json_at d p with Some x => Some (j_type x, j_dim x, j_pos x, j_rank x) | None => None end
  | _ => None
  end.

Definition comp1 (d : dense Rring) : outcome (lowrank Rring) :=
  Ok (lr_make (@Dn Rring (d_r d) 1 (fun i _ => d_e d i 0)) (@Dn Rring 1 1 (fun _ _ => R1))
              (@Dn Rring 1 (d_c d) (fun _ j => d_e d 0 j))).
Definition pts6 : list (list R) := [[R0; R1; (R1 + R1)%R; (R1 + R1 + R1)%R; (R1 + R1 + R1 + R1)%R; (R1 + R1 + R1 + R1 + R1)%R]].

Example C85_ex :
  (let d := let* M := hierarchical zini 9 (IR 1 7) (IR 1 6) 2 2 2 in Ok (to_json M 0 0 0) in
   says d [] = Some ("Hierarchical"%string, (7, 6), Some (0, 0, 0), None) /\
   says d [(0, 1)] = Some ("Hierarchical"%string, (4, 3), Some (0, 1, 1), None) /\
   says d [(0, 1); (0, 0)] = Some ("LowRank"%string, (2, 2), Some (0, 2, 2), Some 1) /\
   says d [(0, 1); (0, 1)] = Some ("Dense"%string, (2, 1), Some (0, 3, 2), None) /\
   says d [(1, 1); (1, 1)] = Some ("Dense"%string, (1, 1), Some (3, 3, 2), None) /\
   says d [(1, 1); (1, 1); (0, 0)] = None) /\
  (let d := hmatrix_to_json comp1 9 pts6 6 2 0 in
   says d [] = Some ("Hierarchical"%string, (6, 6), Some (0, 0, 0), None) /\
   says d [(1, 0)] = Some ("LowRank"%string, (3, 3), Some (1, 0, 1), Some 1) /\
   says d [(1, 1)] = Some ("Hierarchical"%string, (3, 3), Some (1, 1, 1), None) /\
   says d [(1, 1); (0, 0)] = Some ("Dense"%string, (2, 2), Some (2, 2, 2), None) /\
   says d [(1, 1); (1, 0)] = Some ("Dense"%string, (1, 2), Some (3, 2, 2), None)) /\
  keeps_dims comp1 /\ (forall D, exists l, comp1 D = Ok l) /\ enough pts6 6.
Proof.
  split; [vm_compute; auto 10|]. split; [vm_compute; auto 10|].
  split. { intros D l H. injection H as <-. unfold lr_wf. cbn. auto 10. }
  split. { intros D. eexists. reflexivity. }
  intros l [<-|[]]. cbn. auto.
Qed.
