(** Block LU: the factors multiply to the input. *)
From Coq Require Import List Arith ZArith QArith Lia Bool Ring_theory Ring Setoid Morphisms.
From Verif Require Import Prelude Ring MatFun MatSetoid Matrix MatOps MatSpec MatOpsProofs Gemm GemmSpec
  GemmProofs GemmCorrect Triangular TriAlgebra TriSpec TriProofs.
Import ListNotations.
Local Open Scope nat_scope.

Section Loops.
(** The states a loop goes through. *)
Lemma for_loop_trace {S'} K (f : nat -> S' -> outcome S') s s' : for_loop K f s = Ok s' ->
  exists st, st 0 = s /\ st K = s' /\ forall i, i < K -> f i (st i) = Ok (st (S i)).
Proof.
  revert s'. induction K as [|K IH]; intros s' H.
  - simpl in H. exists (fun _ => s). inversion H. split; auto. split; auto. intros; lia.
  - simpl in H. apply bind_Ok in H. destruct H as [s1 [H1 H2]].
    destruct (IH s1 H1) as [st [E0 [E1 E2]]].
    exists (fun i => if i =? S K then s' else st i). split; [exact E0|].
    split; [rewrite Nat.eqb_refl; auto|].
    intros i Hi. destruct (Nat.eq_dec i K) as [->|].
    + replace (K =? S K) with false by (symmetry; apply Nat.eqb_neq; lia). rewrite Nat.eqb_refl.
      rewrite E1. exact H2.
    + replace (i =? S K) with false by (symmetry; apply Nat.eqb_neq; lia).
      replace (S i =? S K) with false by (symmetry; apply Nat.eqb_neq; lia). apply E2. lia.
Qed.

(** Conversely. *)
Lemma for_loop_of_trace {S'} K (f : nat -> S' -> outcome S') (st : nat -> S') :
  (forall i, i < K -> f i (st i) = Ok (st (S i))) -> for_loop K f (st 0) = Ok (st K).
Proof.
  induction K as [|K IH]; intros H; simpl; auto.
  rewrite IH by (intros; apply H; lia). simpl. apply H. lia.
Qed.
End Loops.

Section Char.
Context {R : cring}.
Notation dense := (dense R).
Notation matrix := (matrix R).
Variable rinv : R -> R.
Variable Or : oracles R.
Variable gfuel : nat.
Notation trsm := (trsm rinv Or gfuel).
Notation acc_gemm := (acc_gemm Or gfuel).
Implicit Types L A : nat -> nat -> matrix.

Ltac bn := let E := fresh in intros E; inversion E; lia.
Ltac bne := rewrite bupd_ne by (let E := fresh in intros E; inversion E; lia).

(** What one step does to the blocks. *)
Lemma lu_step_spec rec m n i L A L' A' : lu_step rinv Or gfuel rec m n i (L, A) = Ok (L', A') ->
  i < m -> i < n ->
  rec (A i i) = Ok (L' i i, A' i i) /\
  (forall p, i < p < m -> trsm (A' i i) (A p i) Upper SRight = Ok (L' p i) /\
                          A' p i = ME (nrows (A p i)) (ncols (A p i))) /\
  (forall q, i < q < n -> trsm (L' i i) (A i q) Lower SLeft = Ok (A' i q) /\
                          L' i q = ME (nrows (A i q)) (ncols (A i q))) /\
  (forall p q, i < p < m -> i < q < n -> acc_gemm rm1 (L' p i) (A' i q) (A p q) = Ok (A' p q)) /\
  (forall p q, p < i \/ q < i -> L' p q = L p q /\ A' p q = A p q).
Proof.
  intros H Him Hin. unfold lu_step in H. cbn [fst snd] in H.
  apply bind_Ok in H. destruct H as [[Li Ui] [Hrec H]].
  apply bind_Ok in H. destruct H as [[L1 A1] [H1 H]].
  apply bind_Ok in H. destruct H as [[L2 A2] [H2 H]].
  apply bind_Ok in H. destruct H as [A3 [H3 H]]. inversion H; subst L' A'; clear H.
  (* the column of L *)
  set (Inv1 := fun (t : nat) (s : pair_t (R:=R)) =>
     (forall p, S i <= p < S i + t -> trsm Ui (A p i) Upper SRight = Ok (fst s p i) /\
                                      snd s p i = ME (nrows (A p i)) (ncols (A p i))) /\
     (forall p q, q <> i \/ p < S i \/ S i + t <= p -> fst s p q = bupd L i i Li p q /\ snd s p q = bupd A i i Ui p q)).
  assert (I1 : Inv1 (m - S i) (L1, A1)).
  { apply (for_loop_inv_out _ _ _ _ Inv1 H1).
    - unfold Inv1. cbn [fst snd]. split; [intros; lia|auto].
    - intros t [L0 A0] [L0' A0'] Ht [J1 J2] Hb. cbn [fst snd] in *.
      apply bind_Ok in Hb. destruct Hb as [y [Hy Hb]]. inversion Hb; subst L0' A0'; clear Hb.
      assert (Ex : A0 (S i + t) i = A (S i + t) i).
      { destruct (J2 (S i + t) i) as [_ E]; [right; right; lia|]. rewrite E. bne. reflexivity. }
      assert (Ei : bupd A0 (S i + t) i (ME (nrows (A0 (S i + t) i)) (ncols (A0 (S i + t) i))) i i = Ui).
      { bne. destruct (J2 i i) as [_ E]; [right; left; lia|]. rewrite E. apply bupd_eq. }
      unfold Inv1. cbn [fst snd]. change (S (i + t)) with (S i + t). split.
      + intros p Hp. destruct (Nat.eq_dec p (S i + t)) as [->|Hn].
        * rewrite !bupd_eq. rewrite Ei, Ex in Hy. rewrite Ex. auto.
        * bne. bne. apply J1. lia.
      + intros p q Hpq. rewrite (bupd_ne L0), (bupd_ne A0) by bn. apply J2. lia. }
  destruct I1 as [C1 C2]. cbn [fst snd] in C1, C2.
  (* the row of U *)
  set (Inv2 := fun (t : nat) (s : pair_t (R:=R)) =>
     (forall q, S i <= q < S i + t -> trsm Li (A i q) Lower SLeft = Ok (snd s i q) /\
                                      fst s i q = ME (nrows (A i q)) (ncols (A i q))) /\
     (forall p q, p <> i \/ q < S i \/ S i + t <= q -> fst s p q = L1 p q /\ snd s p q = A1 p q)).
  assert (I2 : Inv2 (n - S i) (L2, A2)).
  { apply (for_loop_inv_out _ _ _ _ Inv2 H2).
    - unfold Inv2. cbn [fst snd]. split; [intros; lia|auto].
    - intros t [L0 A0] [L0' A0'] Ht [J1 J2] Hb. cbn [fst snd] in *.
      apply bind_Ok in Hb. destruct Hb as [y [Hy Hb]]. inversion Hb; subst L0' A0'; clear Hb.
      assert (Ex : A0 i (S i + t) = A i (S i + t)).
      { destruct (J2 i (S i + t)) as [_ E]; [right; right; lia|]. rewrite E.
        destruct (C2 i (S i + t)) as [_ E']; [left; lia|]. rewrite E'. bne. reflexivity. }
      assert (Ei : bupd L0 i (S i + t) (ME (nrows (A0 i (S i + t))) (ncols (A0 i (S i + t)))) i i = Li).
      { bne. destruct (J2 i i) as [E _]; [right; left; lia|]. rewrite E.
        destruct (C2 i i) as [E' _]; [right; left; lia|]. rewrite E'. apply bupd_eq. }
      unfold Inv2. cbn [fst snd]. change (S (i + t)) with (S i + t). split.
      + intros q Hq. destruct (Nat.eq_dec q (S i + t)) as [->|Hn].
        * rewrite !bupd_eq. rewrite Ei, Ex in Hy. rewrite Ex. auto.
        * bne. bne. apply J1. lia.
      + intros p q Hpq. rewrite (bupd_ne L0), (bupd_ne A0) by bn. apply J2. lia. }
  destruct I2 as [D1 D2]. cbn [fst snd] in D1, D2.
  (* the trailing update *)
  set (Inv3 := fun (t : nat) (B : nat -> nat -> matrix) =>
     (forall p q, S i <= p < S i + t -> S i <= q < n -> acc_gemm rm1 (L2 p i) (A2 i q) (A2 p q) = Ok (B p q)) /\
     (forall p q, p < S i \/ S i + t <= p \/ q < S i -> B p q = A2 p q)).
  assert (I3 : Inv3 (m - S i) A3).
  { apply (for_loop_inv_out _ _ _ _ Inv3 H3).
    - unfold Inv3. split; [intros; lia|auto].
    - intros t B B' Ht [J1 J2] Hb.
      set (Inv4 := fun (v : nat) (C : nat -> nat -> matrix) =>
        (forall q, S i <= q < S i + v -> acc_gemm rm1 (L2 (S i + t) i) (A2 i q) (A2 (S i + t) q) = Ok (C (S i + t) q)) /\
        (forall p q, p <> S i + t \/ q < S i \/ S i + v <= q -> C p q = B p q)).
      assert (I4 : Inv4 (n - S i) B').
      { apply (for_loop_inv_out _ _ _ _ Inv4 Hb).
        - unfold Inv4. split; [intros; lia|auto].
        - intros v C C' Hv [K1 K2] Hc. apply bind_Ok in Hc. destruct Hc as [y [Hy Hc]]. inversion Hc; subst C'; clear Hc.
          assert (E1 : C i (S i + v) = A2 i (S i + v)).
          { rewrite K2 by lia. apply J2. lia. }
          assert (E2 : C (S i + t) (S i + v) = A2 (S i + t) (S i + v)).
          { rewrite K2 by lia. apply J2. lia. }
          rewrite E1, E2 in Hy. unfold Inv4. change (S (i + t)) with (S i + t). change (S (i + v)) with (S i + v). split.
          + intros q Hq. destruct (Nat.eq_dec q (S i + v)) as [->|Hn].
            * rewrite bupd_eq. exact Hy.
            * bne. apply K1. lia.
          + intros p q Hpq. bne. apply K2. lia. }
      destruct I4 as [K1 K2]. unfold Inv3. split.
      + intros p q Hp Hq. destruct (Nat.eq_dec p (S i + t)) as [->|Hn].
        * apply K1. lia.
        * rewrite K2 by lia. apply J1; lia.
      + intros p q Hpq. rewrite K2 by lia. apply J2. lia. }
  destruct I3 as [F1 F2].
  (* collect *)
  assert (Eii : L2 i i = Li /\ A3 i i = Ui).
  { rewrite F2 by lia. destruct (D2 i i) as [-> ->]; [lia|]. destruct (C2 i i) as [-> ->]; [lia|].
    rewrite !bupd_eq. auto. }
  destruct Eii as [EL EU]. rewrite EL, EU.
  split; [exact Hrec|]. split; [|split; [|split]].
  - intros p Hp. rewrite F2 by lia. destruct (D2 p i) as [-> ->]; [lia|].
    apply C1. lia.
  - intros q Hq. rewrite F2 by lia. apply D1. lia.
  - intros p q Hp Hq. rewrite (F2 i q) by lia. rewrite <- (F1 p q) by lia.
    f_equal. destruct (D2 p q) as [_ ->]; [lia|]. destruct (C2 p q) as [_ ->]; [lia|]. bne. reflexivity.
  - intros p q Hpq. rewrite F2 by lia. destruct (D2 p q) as [-> ->]; [lia|].
    destruct (C2 p q) as [-> ->]; [lia|]. bne. bne. auto.
Qed.

(** The blocks of the result, each from its own block of the input and from finished
    blocks of the result. *)
Lemma lu_trace rec m (a : nat -> nat -> matrix) (L U : nat -> nat -> matrix) L0 :
  for_loop m (fun i s => lu_step rinv Or gfuel rec m m i s) (L0, a) = Ok (L, U) ->
  exists st, st 0 = (L0, a) /\ st m = (L, U) /\
  (forall i, i < m -> lu_step rinv Or gfuel rec m m i (st i) = Ok (st (S i))) /\
  forall p q, p < m -> q < m -> let c := snd (st (Nat.min p q)) p q in
    for_loop (Nat.min p q) (fun k c => acc_gemm rm1 (L p k) (U k q) c) (a p q) = Ok c /\
    (p = q -> rec c = Ok (L p p, U p p)) /\
    (q < p -> trsm (U q q) c Upper SRight = Ok (L p q) /\ U p q = ME (nrows c) (ncols c)) /\
    (p < q -> trsm (L p p) c Lower SLeft = Ok (U p q) /\ L p q = ME (nrows c) (ncols c)).
Proof.
  intros H. apply for_loop_trace in H. destruct H as [st [E0 [Em Hst]]].
  exists st. split; [exact E0|]. split; [exact Em|]. split; [exact Hst|]. intros p q Hp Hq.
  assert (Hs : forall i, i < m ->
     let L := fst (st i) in let A := snd (st i) in let L' := fst (st (S i)) in let A' := snd (st (S i)) in
     rec (A i i) = Ok (L' i i, A' i i) /\
     (forall p, i < p < m -> trsm (A' i i) (A p i) Upper SRight = Ok (L' p i) /\
                             A' p i = ME (nrows (A p i)) (ncols (A p i))) /\
     (forall q, i < q < m -> trsm (L' i i) (A i q) Lower SLeft = Ok (A' i q) /\
                             L' i q = ME (nrows (A i q)) (ncols (A i q))) /\
     (forall p q, i < p < m -> i < q < m -> acc_gemm rm1 (L' p i) (A' i q) (A p q) = Ok (A' p q)) /\
     (forall p q, p < i \/ q < i -> L' p q = L p q /\ A' p q = A p q)).
  { intros i Hi. cbv zeta. specialize (Hst i Hi). destruct (st i) as [L1 A1], (st (S i)) as [L2 A2].
    apply lu_step_spec in Hst; auto. }
  assert (Hfin : forall k i p q, i + k = m -> p < i \/ q < i -> fst (st i) p q = L p q /\ snd (st i) p q = U p q).
  { intros k. induction k as [|k IH]; intros i p' q' Hk Hpq.
    - replace i with m by lia. rewrite Em. auto.
    - destruct (IH (S i) p' q') as [I1 I2]; [lia|lia|].
      destruct (Hs i) as [_ [_ [_ [_ H5]]]]; [lia|]. destruct (H5 p' q' Hpq) as [J1 J2].
      rewrite <- J1, <- J2. auto. }
  assert (Hf : forall i p q, i <= m -> p < i \/ q < i -> fst (st i) p q = L p q /\ snd (st i) p q = U p q).
  { intros i p' q' Hi Hpq. apply (Hfin (m - i)); auto. lia. }
  set (r := Nat.min p q). assert (Hr : r < m) by (unfold r; lia).
  cbv zeta. split.
  - assert (Ha : a p q = snd (st 0) p q) by (rewrite E0; reflexivity). rewrite Ha.
    apply (for_loop_of_trace r (fun k c => acc_gemm rm1 (L p k) (U k q) c) (fun k => snd (st k) p q)).
    intros k Hk. assert (Hk' : k < m) by lia. destruct (Hs k Hk') as [_ [_ [_ [H4 _]]]].
    destruct (Hf (S k) p k) as [E1 _]; [lia|lia|]. destruct (Hf (S k) k q) as [_ E2]; [lia|lia|].
    rewrite <- E1, <- E2. apply H4; unfold r in Hk; lia.
  - destruct (Hs r Hr) as [H1 [H2 [H3 [_ _]]]]. split; [|split].
    + intros <-. unfold r in *. rewrite Nat.min_id in *.
      destruct (Hf (S p) p p) as [E1 E2]; [lia|lia|]. rewrite <- E1, <- E2. exact H1.
    + intros Hlt. assert (Er : r = q) by (unfold r; lia). rewrite Er in *.
      destruct (Hf (S q) q q) as [_ E2]; [lia|lia|]. destruct (Hf (S q) p q) as [E1 E3]; [lia|lia|].
      rewrite <- E1, <- E2, <- E3. apply H2. lia.
    + intros Hlt. assert (Er : r = p) by (unfold r; lia). rewrite Er in *.
      destruct (Hf (S p) p p) as [E1 _]; [lia|lia|]. destruct (Hf (S p) p q) as [E2 E3]; [lia|lia|].
      rewrite <- E1, <- E2, <- E3. apply H3. lia.
Qed.
Lemma lu_char rec m (a : nat -> nat -> matrix) (L U : nat -> nat -> matrix) L0 :
  for_loop m (fun i s => lu_step rinv Or gfuel rec m m i s) (L0, a) = Ok (L, U) ->
  forall p q, p < m -> q < m ->
  exists c, for_loop (Nat.min p q) (fun k c => acc_gemm rm1 (L p k) (U k q) c) (a p q) = Ok c /\
    (p = q -> rec c = Ok (L p p, U p p)) /\
    (q < p -> trsm (U q q) c Upper SRight = Ok (L p q) /\ U p q = ME (nrows c) (ncols c)) /\
    (p < q -> trsm (L p p) c Lower SLeft = Ok (U p q) /\ L p q = ME (nrows c) (ncols c)).
Proof.
  intros H p q Hp Hq. destruct (lu_trace rec m a L U L0 H) as [st [_ [_ [_ T]]]]. eexists. exact (T p q Hp Hq).
Qed.
End Char.
