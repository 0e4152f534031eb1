(** Property C53: the parallel loops of the fork-join QR examples. *)
From Coq Require Import List Arith ZArith QArith Qcanon Lia Bool Permutation.
From Verif Require Import Prelude Ring MatFun Matrix MatOps MatSpec Lapack Gemm GemmSpec Triangular Reflect ReflectSpec
  ReflectSuccess Sampled SampledTheorems Mgs MgsTheorems Blocked Tasks TaskQr ForkJoin FjTiled FjBlocked FjMgs FjMgsCorrect
  Prop_Gemm Prop_Triangular Prop_Qr Prop_Sampled Prop_Mgs.
Import ListNotations.
Local Open Scope nat_scope.

(** Each program is a list of phases, one for each statement outside of a parallel loop and
    one for all the iterations of a parallel loop. *)
Definition programs_independent (p q : nat) : Prop :=
  let ok {T} (rd wr : T -> list blk) ph :=
    NoDup ph /\ forall a b, In a ph -> In b ph -> a <> b -> forall x, In x (wr a) -> ~ In x (rd b) /\ ~ In x (wr b) in
  (* forkjoin_tiled_householder_blr_qr.cpp *)
  Forall (ok fj_rd fj_wr) (factor_phases p q) /\ Forall (ok fjq_rd fjq_wr) (form_phases p q) /\
  Forall (ok fjq_rd fjq_wr) (check_phases p q) /\
  (* forkjoin_blocked_householder_blr_qr.cpp *)
  Forall (ok (fb_rd p) (fb_wr p)) (bfactor_phases q) /\ Forall (ok (fbq_rd p) (fbq_wr p)) (bform_phases q) /\
  Forall (ok (fbq_rd p) (fbq_wr p)) (bcheck_phases q) /\
  (* forkjoin_blocked_mgs_blr_qr.cpp *)
  Forall (ok (fm_rd p) (fm_wr p)) (mphases p q).

(** The iterations of every parallel loop write disjoint blocks, and none reads a block
    another one writes. *)
Theorem C53_independent : forall p q, programs_independent p q.
Proof.
  exact (fun p q => conj (factor_independent p q) (conj (form_independent p q) (conj (check_independent p q)
    (conj (bfactor_independent p q) (conj (bform_independent p q) (conj (bcheck_independent p q) (mgs_independent p q))))))).
Qed.
Print Assumptions C53_independent.

(** Every order of the iterations gives the blocks of the sequential program.  [held] is the
    memory with the blocks of A, T, Q, R and of the temporary QjT; [padded] says that there
    are no blocks past the last row. *)
Theorem C53_tiled : forall (R : cring) (Or : oracles R) (K : qrt R) Rg W p q,
  (forall Q A T A' T' sched, tiled_qr Or K p q A p q T = Ok (A', T') -> orders (factor_phases p q) sched ->
     same (exec (fj_run Or K) sched (held A T Q Rg W)) (held A' T' Q Rg W)) /\
  (forall Y T C C' sched, tiled_apply Or p q Y T C false = Ok C' -> orders (form_phases p q) sched ->
     same (exec (fjq_run Or false) sched (held Y T C Rg W)) (held Y T C' Rg W)) /\
  (forall Y T C C' sched, tiled_apply Or p q Y T C true = Ok C' -> orders (check_phases p q) sched ->
     same (exec (fjq_run Or true) sched (held Y T C Rg W)) (held Y T C' Rg W)).
Proof.
  exact (fun R Or K Rg W p q => conj (fj_tiled_factor Or K Rg W p q) (conj (fj_tiled_form Or Rg W p q) (fj_tiled_check Or Rg W p q))).
Qed.
Print Assumptions C53_tiled.

Theorem C53_blocked : forall (R : cring) (Or : oracles R) (K : qrt R) Rg W p q,
  (forall Q A T A' T' sched, padded p A -> blocked_qr Or K p q A q 1 T = Ok (A', T') -> orders (bfactor_phases q) sched ->
     same (exec (fb_run Or K p) sched (held A T Q Rg W)) (held A' T' Q Rg W)) /\
  (forall Y T C C' sched, padded p Y -> padded p C -> blocked_apply Or p q Y T p C false = Ok C' -> orders (bform_phases q) sched ->
     same (exec (fbq_run Or p false) sched (held Y T C Rg W)) (held Y T C' Rg W)) /\
  (forall Y T C C' sched, padded p Y -> padded p C -> blocked_apply Or p q Y T p C true = Ok C' -> orders (bcheck_phases q) sched ->
     same (exec (fbq_run Or p true) sched (held Y T C Rg W)) (held Y T C' Rg W)).
Proof.
  exact (fun R Or K Rg W p q => conj (fj_blocked_factor Or K Rg W p q) (conj (fj_blocked_form Or Rg W p q) (fj_blocked_check Or Rg W p q))).
Qed.
Print Assumptions C53_blocked.

Theorem C53_mgs : forall (R : cring) (L : lapack R) (Or : oracles R) gfuel fuel p q T s s' sched, mpadded p s ->
  fj_mgs L Or gfuel fuel p q s = Ok s' -> orders (mphases p q) sched ->
  same (exec (fm_run L Or gfuel fuel p) sched (mheld T s)) (mheld T s').
Proof. exact (fun R => @fj_mgs_orders R). Qed.
Print Assumptions C53_mgs.

(** The sequential form of the last one factors A if R starts with zeros. *)
Theorem C53_mgs_factors : forall (R : cring) (L : lapack R), lapack_sound L -> forall Or : oracles R, oracles_near exact Or ->
  forall gfuel fuel p q (a b r : nat -> nat -> matrix R) W A' Q' R' W', mgs_pre p q a b r ->
  (forall i j, i < j -> j < q -> feq (nrows (r i j)) (ncols (r i j)) (ent (r i j)) mzero) ->
  fj_mgs L Or gfuel fuel p q (a, b, r, W) = Ok (A', Q', R', W') ->
  let A := MH p q a in let Q' := MH p q Q' in let R' := MH q q R' in
  wf Q' /\ wf R' /\ nrows Q' = nrows A /\ ncols Q' = ncols A /\ nrows R' = ncols A /\ ncols R' = ncols A /\
  feq (nrows A) (ncols A) (mmul (ncols A) (ent Q') (ent R')) (ent A).
Proof. exact (fun R => @fj_mgs_reconstructs R). Qed.
Print Assumptions C53_mgs_factors.

(** The same if iterations overlap in time: each is any number of steps on the blocks it
    reads and writes and on memory of its own. *)
Definition any_interleaving {T} (rd wr : T -> list blk) (prog : list (list T)) : Prop :=
  forall (V : Type) (steps : T -> nat) (step : T * nat -> (blk + T -> V) -> blk + T -> V), (forall t, 0 < steps t) ->
  respects step (sreads (fun t x => In x (rd t)) (fun t x => In x (wr t))) (swrites (fun t x => In x (wr t))) ->
  forall sched s, interleaved steps prog sched -> same (exec step sched s) (exec step (events steps (concat prog)) s).
Lemma interleave {T} (rd wr : T -> list blk) prog : (forall t u : T, {t = u} + {t <> u}) ->
  Forall (independent (fun t x => In x (rd t)) (fun t x => In x (wr t))) prog -> any_interleaving rd wr prog.
Proof.
  intros D I V steps step Hs HR sched s H.
  apply (fork_join_steps (fun t x => In x (rd t)) (fun t x => In x (wr t)) steps step); auto.
  - intros t x. apply (wdec_in blk_eq wr).
  - intros t u. destruct (D t u); auto.
Qed.
Lemma task_dec (t u : task) : {t = u} + {t <> u}. Proof. decide equality; apply Nat.eq_dec. Qed.
Lemma btask_dec (t u : btask) : {t = u} + {t <> u}. Proof. decide equality; apply Nat.eq_dec. Qed.
Lemma mtask_dec (t u : mtask) : {t = u} + {t <> u}. Proof. decide equality; apply Nat.eq_dec. Qed.
Lemma all_interleave p q :
  any_interleaving fj_rd fj_wr (factor_phases p q) /\ any_interleaving fjq_rd fjq_wr (form_phases p q) /\
  any_interleaving fjq_rd fjq_wr (check_phases p q) /\
  any_interleaving (fb_rd p) (fb_wr p) (bfactor_phases q) /\ any_interleaving (fbq_rd p) (fbq_wr p) (bform_phases q) /\
  any_interleaving (fbq_rd p) (fbq_wr p) (bcheck_phases q) /\
  any_interleaving (fm_rd p) (fm_wr p) (mphases p q).
Proof.
  split; [exact (interleave _ _ _ task_dec (factor_independent p q))|].
  split; [exact (interleave _ _ _ task_dec (form_independent p q))|].
  split; [exact (interleave _ _ _ task_dec (check_independent p q))|].
  split; [exact (interleave _ _ _ btask_dec (bfactor_independent p q))|].
  split; [exact (interleave _ _ _ btask_dec (bform_independent p q))|].
  split; [exact (interleave _ _ _ btask_dec (bcheck_independent p q))|].
  exact (interleave _ _ _ mtask_dec (mgs_independent p q)).
Qed.
Theorem C53_interleaved : forall p q,
  any_interleaving fj_rd fj_wr (factor_phases p q) /\ any_interleaving fjq_rd fjq_wr (form_phases p q) /\
  any_interleaving fjq_rd fjq_wr (check_phases p q) /\
  any_interleaving (fb_rd p) (fb_wr p) (bfactor_phases q) /\ any_interleaving (fbq_rd p) (fbq_wr p) (bform_phases q) /\
  any_interleaving (fbq_rd p) (fbq_wr p) (bcheck_phases q) /\
  any_interleaving (fm_rd p) (fm_wr p) (mphases p q).
Proof. exact all_interleave. Qed.
Print Assumptions C53_interleaved.

(** The nested 4 x 3 matrix of C37, with the updates of the two blocks of A exchanged. *)
Definition swapped : list mtask :=
  [Ort 0; Trq 0; Rup 0 1; Aup 0 1 1; Aup 0 1 0; Ort 1; Trq 1].
Definition mem_run : (nat -> blk -> option (matrix Qcring)) :=
  fun fuel => exec (fm_run mL left_oracles 5 fuel 2) swapped (held mA mA mA mR (fun _ => ME 0 0)).
Example C53_ex :
  mphases 2 2 = [[Ort 0]; [Trq 0]; [Rup 0 1]; [Aup 0 1 0; Aup 0 1 1]; [Ort 1]; [Trq 1]; []; []] /\
  orders (mphases 2 2) swapped /\
  (forall i j, i < j -> j < 2 -> feq (nrows (mR i j)) (ncols (mR i j)) (ent (mR i j)) mzero) /\
  (let* (_, Q, R, _) := fj_mgs mL left_oracles 5 5 2 2 (mA, mA, mR, fun _ => ME 0 0) in Ok (showq (MH 2 2 Q), showq (MH 2 2 R))) =
  Ok ([[3 # 5; 0; -4 # 5]; [4 # 5; 0; 3 # 5]; [0; 3 # 5; 0]; [0; 4 # 5; 0]]%Q,
      [[5; 2; 5]; [0; 5; 10]; [0; 0; 5]]%Q) /\
  (option_map showq (mem_run 5 (BR 0 0)), option_map showq (mem_run 5 (BR 0 1)), option_map showq (mem_run 5 (BR 1 1))) =
  (Some [[5; 2]; [0; 5]], Some [[5]; [10]], Some [[5]])%Q.
Proof.
  split; [reflexivity|]. split.
  { exists [[Ort 0]; [Trq 0]; [Rup 0 1]; [Aup 0 1 1; Aup 0 1 0]; [Ort 1]; [Trq 1]; []; []]. split; [reflexivity|].
    change (mphases 2 2) with [[Ort 0]; [Trq 0]; [Rup 0 1]; [Aup 0 1 0; Aup 0 1 1]; [Ort 1]; [Trq 1]; []; []].
    repeat (constructor; [try apply Permutation_refl; try apply perm_swap|]). constructor. }
  split.
  { intros i j Hij Hj. assert (i = 0) by lia. assert (j = 1) by lia. subst. apply feqb_feq. vm_compute. reflexivity. }
  split; vm_compute; reflexivity.
Qed.
