(** Derived statements used by Prop_Matrix.v. *)
From Coq Require Import List Arith ZArith Lia Bool Ring_theory Ring.
From Verif Require Import Prelude IndexRange IndexRangeSpec IndexRangeProofs ClusterTree ClusterTreeProofs
  Ring MatFun Matrix MatOps MatSpec MatOpsProofs.
Import ListNotations.
Local Open Scope nat_scope.

Section T.
Context {R : cring}.
Add Ring Rr : (cr_th R).
Notation dense := (dense R).
Notation lowrank := (lowrank R).
Notation matrix := (matrix R).
Notation mat := (mat R).

Lemma densify_dense (d : dense) : exists D, densify (MD d) = Ok D /\ d_r D = d_r d /\ d_c D = d_c d /\
  forall i j, i < d_r d -> j < d_c d -> d_e D i j = d_e d i j.
Proof. exact (densify_spec (MD d) I). Qed.

Lemma densify_lowrank (l : lowrank) : lr_wf l ->
  exists D, densify (ML l) = Ok D /\ d_r D = l_r l /\ d_c D = l_c l /\
  forall i j, i < l_r l -> j < l_c l ->
    d_e D i j = sum (d_c (l_U l)) (fun x => (d_e (l_U l) i x *
                  sum (d_c (l_S l)) (fun y => d_e (l_S l) x y * d_e (l_V l) y j))%r).
Proof. exact (fun H => densify_spec (ML l) H). Qed.

Lemma densify_empty r c : exists D : dense, densify (ME r c) = Ok D /\ d_r D = r /\ d_c D = c /\
  forall i j, i < r -> j < c -> d_e D i j = 0%r.
Proof. exact (densify_spec (ME r c) I). Qed.

Lemma densify_blocks m n (b : nat -> nat -> matrix) : wf (MH m n b) ->
  exists D, densify (MH m n b) = Ok D /\ d_r D = nrows (MH m n b) /\ d_c D = ncols (MH m n b) /\
  forall bi bj, bi < m -> bj < n ->
  exists Db, densify (b bi bj) = Ok Db /\
    d_r Db = bheight b bi /\ d_c Db = bwidth b bj /\
    forall i j, i < d_r Db -> j < d_c Db ->
      d_e D (offs (bheight b) bi + i) (offs (bwidth b) bj + j) = d_e Db i j.
Proof.
  intros Hwf. destruct (densify_spec _ Hwf) as [D [E [E1 [E2 F]]]].
  exists D. repeat (split; auto). intros bi bj Hbi Hbj.
  destruct (wf_block _ _ _ bi bj Hwf Hbi Hbj) as [W [B1 B2]].
  destruct (densify_spec _ W) as [Db [G [G1 [G2 H]]]].
  exists Db. rewrite G1, G2. repeat (split; auto). intros i j Hi Hj.
  rewrite H by auto. rewrite F.
  - apply ent_block; auto; [rewrite <- B1|rewrite <- B2]; auto.
  - rewrite nrows_MH. pose proof (offs_lt (bheight b) bi m Hbi). lia.
  - rewrite ncols_MH. pose proof (offs_lt (bwidth b) bj n Hbj). lia.
Qed.

(** Every position of a block matrix is a position of exactly one block. *)
Lemma position_unique m n (b : nat -> nat -> matrix) i j :
  i < nrows (MH m n b) -> j < ncols (MH m n b) ->
  exists bi bj i' j', (bi < m /\ bj < n /\ i' < bheight b bi /\ j' < bwidth b bj /\
    i = offs (bheight b) bi + i' /\ j = offs (bwidth b) bj + j') /\
  forall ci cj k l, ci < m -> cj < n -> k < bheight b ci -> l < bwidth b cj ->
    i = offs (bheight b) ci + k -> j = offs (bwidth b) cj + l -> ci = bi /\ cj = bj /\ k = i' /\ l = j'.
Proof.
  rewrite nrows_MH, ncols_MH. intros Hi Hj.
  destruct (locate_in _ _ _ Hi) as [bi [i' [_ [B1 [B2 B3]]]]].
  destruct (locate_in _ _ _ Hj) as [bj [j' [_ [C1 [C2 C3]]]]].
  exists bi, bj, i', j'. split; [tauto|].
  intros ci cj k l H1 H2 H3 H4 H5 H6.
  destruct (offs_unique (bheight b) ci k bi i'); auto; [congruence|].
  destruct (offs_unique (bwidth b) cj l bj j'); auto; congruence.
Qed.

Lemma densify_transpose (A : matrix) : wf A -> no_empty A ->
  exists B D DT, transpose A = Ok B /\ densify A = Ok D /\ densify B = Ok DT /\
    d_r DT = d_c D /\ d_c DT = d_r D /\
    forall i j, i < d_c D -> j < d_r D -> d_e DT i j = d_e D j i.
Proof.
  intros Hwf Hne. destruct (transpose_spec A Hwf Hne) as [B [HB [W [_ [E1 [E2 F]]]]]].
  destruct (densify_spec A Hwf) as [D [HD [D1 [D2 D3]]]].
  destruct (densify_spec B W) as [DT [HDT [T1 [T2 T3]]]].
  exists B, D, DT. repeat (split; auto); try congruence.
  intros i j Hi Hj. rewrite T3, F, D3; auto; try congruence.
Qed.

Lemma transpose_twice (A : matrix) : wf A -> no_empty A ->
  exists B C, transpose A = Ok B /\ transpose B = Ok C /\
    nrows C = nrows A /\ ncols C = ncols A /\ feq (nrows A) (ncols A) (ent C) (ent A).
Proof.
  intros Hwf Hne. destruct (transpose_spec A Hwf Hne) as [B [HB [W [N [E1 [E2 F]]]]]].
  destruct (transpose_spec B W N) as [C [HC [W' [_ [G1 [G2 G]]]]]].
  exists B, C. repeat (split; auto); try congruence.
  intros i j Hi Hj. rewrite G; [|congruence|congruence]. unfold mtr. rewrite F; auto.
Qed.

Lemma norm_same (A B : matrix) : wf A -> wf B -> no_empty A -> no_empty B ->
  nrows A = nrows B -> ncols A = ncols B -> feq (nrows A) (ncols A) (ent A) (ent B) -> norm A = norm B.
Proof.
  intros WA WB NA NB E1 E2 F. rewrite !norm_spec by auto. rewrite <- E1, <- E2. f_equal.
  apply sumsq_ext. auto.
Qed.

Lemma norm_scale (A : matrix) a : wf A -> no_empty A ->
  exists B x, scale A a = Ok B /\ norm A = Ok x /\ norm B = Ok (a * a * x)%r.
Proof.
  intros W N. destruct (scale_spec A a W N) as [B [E [WB [NB [E1 [E2 F]]]]]].
  exists B, (sumsq (nrows A) (ncols A) (ent A)). split; auto. rewrite !norm_spec by auto.
  split; auto. f_equal. rewrite E1, E2. rewrite (sumsq_ext _ _ _ _ F).
  unfold sumsq. rewrite <- sum_mul_l. apply sum_ext. intros i _.
  rewrite <- sum_mul_l. apply sum_ext. intros j _. unfold mscale. ring.
Qed.

Lemma norm_densify (A : matrix) : wf A -> no_empty A ->
  exists D, densify A = Ok D /\ norm A = Ok (sum (d_r D) (fun i => sum (d_c D) (fun j => d_e D i j * d_e D i j)))%r.
Proof.
  intros W N. destruct (densify_spec A W) as [D [E [E1 [E2 F]]]]. exists D. split; auto.
  rewrite norm_spec by auto. f_equal. rewrite E1, E2. symmetry. apply sumsq_ext. auto.
Qed.

Lemma norm_transpose (A : matrix) : wf A -> no_empty A ->
  exists B, transpose A = Ok B /\ norm B = norm A.
Proof.
  intros W N. destruct (transpose_spec A W N) as [B [HB [WB [NB [E1 [E2 F]]]]]].
  exists B. split; auto. rewrite !norm_spec by auto. f_equal. rewrite E1, E2.
  rewrite (sumsq_ext _ _ _ _ F). unfold sumsq, mtr. apply sum_swap.
Qed.

(** Copies made through get_n_rows/get_n_cols. *)
Lemma dims_densify (A : matrix) : wf A -> exists D, densify A = Ok D /\ nrows A = d_r D /\ ncols A = d_c D.
Proof. intros W. destruct (densify_spec A W) as [D [E [E1 [E2 _]]]]. exists D. auto. Qed.

Lemma split_densify (A : matrix) nr nc H : wf A -> 0 < nr -> 0 < nc -> split A nr nc = Ok H ->
  exists D DH, densify A = Ok D /\ densify H = Ok DH /\ d_r DH = d_r D /\ d_c DH = d_c D /\
    forall i j, i < d_r D -> j < d_c D -> d_e DH i j = d_e D i j.
Proof.
  intros W Hr Hc HS. destruct (split_spec A nr nc H W Hr Hc HS) as [h [w [[b [E [WH [Hb [E1 [E2 F]]]]]] _]]].
  destruct (densify_spec A W) as [D [HD [D1 [D2 D3]]]].
  destruct (densify_spec H WH) as [DH [HDH [T1 [T2 T3]]]].
  exists D, DH. repeat (split; auto); try congruence.
  intros i j Hi Hj. rewrite D1 in Hi. rewrite D2 in Hj. rewrite T3, F, D3; auto; congruence.
Qed.

End T.
