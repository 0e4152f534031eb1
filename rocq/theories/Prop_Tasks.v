(** Property C52: task-based QR. *)
From Coq Require Import List Arith ZArith QArith Qcanon Lia Bool Permutation Relation_Operators.
From Verif Require Import Prelude Ring MatFun Matrix MatOps MatSpec Lapack Gemm GemmSpec Triangular Reflect ReflectSpec
  ReflectSuccess Tasks TaskQr TaskRun Prop_Triangular Prop_Qr.
Import ListNotations.
Local Open Scope nat_scope.

(** ** C52 *)

(** Whatever order the tasks of the factorization are run in, as long as it respects the
    declared dependencies: the tiles are those of the sequential program qr.cpp:213-228.
    The tasks get at the strict lower part of A(k,k) and at the rest of it separately;
    [writes_upper] says that LAPACKE_dtpqrt2 leaves the strict lower part alone. *)
Theorem C52_factorization : forall (R : cring) (Or : oracles R) (K : qrt R) p q Q A T A' T' sched, writes_upper K ->
  tiled_qr Or K p q A p q T = Ok (A', T') ->
  allowed (factor_tasks p q) (waits (factor_tasks p q) factor_in factor_out) sched ->
  forall i j, let s := exec (factor_run Or K) sched (enc A T Q) in
  tget s i j = Some (A' i j) /\ s (LT i j) = Some (T' i j) /\ s (LQ i j) = Some (Q i j).
Proof. exact (fun R => @any_order_factor R). Qed.
Print Assumptions C52_factorization.

(** Multiplication of Q by the reflectors, and by their transposes: qr.cpp:230-257. *)
Theorem C52_forming_Q : forall (R : cring) (Or : oracles R) p q Y T Q Q' sched,
  tiled_apply Or p q Y T Q false = Ok Q' ->
  allowed (form_tasks p q) (waits (form_tasks p q) form_inout form_inout) sched ->
  forall i j, let s := exec (q_run Or false) sched (enc Y T Q) in
  s (LQ i j) = Some (Q' i j) /\ tget s i j = Some (Y i j) /\ s (LT i j) = Some (T i j).
Proof. exact (fun R => @any_order_form R). Qed.
Print Assumptions C52_forming_Q.
Theorem C52_checking_Q : forall (R : cring) (Or : oracles R) p q Y T Q Q' sched,
  tiled_apply Or p q Y T Q true = Ok Q' ->
  allowed (check_tasks p q) (waits (check_tasks p q) check_in check_out) sched ->
  forall i j, let s := exec (q_run Or true) sched (enc Y T Q) in
  s (LQ i j) = Some (Q' i j) /\ tget s i j = Some (Y i j) /\ s (LT i j) = Some (T i j).
Proof. exact (fun R => @any_order_check R). Qed.
Print Assumptions C52_checking_Q.

(** Tasks that may run at the same time do not write what the other accesses. *)
Theorem C52_no_interference : forall p q a b, q <= p ->
  (concurrent (factor_tasks p q) factor_in factor_out a b -> ~ interferes factor_reads factor_writes a b) /\
  (concurrent (form_tasks p q) form_inout form_inout a b -> ~ interferes q_reads q_writes a b) /\
  (concurrent (check_tasks p q) check_in check_out a b -> ~ interferes q_reads q_writes a b).
Proof. exact (fun p q a b H => conj (factor_concurrent p q a b H) (conj (form_concurrent p q a b) (check_concurrent p q a b H))). Qed.
Print Assumptions C52_no_interference.

(** Also if tasks overlap in time: each is any number of steps on what it may read and
    write and on memory of its own, the steps of different tasks are interleaved. *)
Theorem C52_interleaved : forall (V : Type) (steps : task -> nat) (step : task * nat -> (loc + task -> V) -> loc + task -> V),
  (forall t, 0 < steps t) -> forall p q sched s, q <= p ->
  respects step (sreads (fun t x => In x (factor_reads t)) (fun t x => In x (factor_writes t))) (swrites (fun t x => In x (factor_writes t))) ->
  interleaving steps (factor_tasks p q) (waits (factor_tasks p q) factor_in factor_out) sched ->
  same (exec step sched s) (exec step (events steps (factor_tasks p q)) s).
Proof. exact (fun V => @factor_schedule V). Qed.
Print Assumptions C52_interleaved.
Theorem C52_interleaved_Q : forall (V : Type) (steps : task -> nat) (step : task * nat -> (loc + task -> V) -> loc + task -> V),
  (forall t, 0 < steps t) -> forall p q sched s,
  respects step (sreads (fun t x => In x (q_reads t)) (fun t x => In x (q_writes t))) (swrites (fun t x => In x (q_writes t))) ->
  (interleaving steps (form_tasks p q) (waits (form_tasks p q) form_inout form_inout) sched ->
   same (exec step sched s) (exec step (events steps (form_tasks p q)) s)) /\
  (q <= p -> interleaving steps (check_tasks p q) (waits (check_tasks p q) check_in check_out) sched ->
   same (exec step sched s) (exec step (events steps (check_tasks p q)) s)).
Proof.
  exact (fun V steps step H p q sched s HR => conj (form_schedule steps step H p q sched s HR)
          (fun HPQ => check_schedule steps step H p q sched s HPQ HR)).
Qed.
Print Assumptions C52_interleaved_Q.

(** By whole tiles it is false: in every step with a column to update, the update of the
    row and the first coupling may run at the same time, the one reads A(k,k), the other
    writes it. *)
Theorem C52_whole_tiles_race : forall p q k j, q <= p -> k < j -> j < q ->
  concurrent (factor_tasks p q) factor_in factor_out (Larfb k j) (Tpqrt k (S k)) /\
  (exists h, In (LA k k h) (factor_reads (Larfb k j))) /\ (exists h, In (LA k k h) (factor_writes (Tpqrt k (S k)))).
Proof. exact tile_race. Qed.
Print Assumptions C52_whole_tiles_race.

(** Kernels that use whole tiles give different results in different orders. *)
Definition tile_writes (t : task) : list loc := match t with Tpqrt k i => LT i k :: tile k k ++ tile i k | _ => factor_writes t end.
Definition tile_reads (t : task) : list loc := match t with Larfb k j => LT k k :: tile k k | _ => factor_reads t end.
Definition loc_eqb (x y : loc) : bool :=
  match x, y with
  | LA i j Lo, LA i' j' Lo | LA i j Up, LA i' j' Up | LT i j, LT i' j' | LQ i j, LQ i' j' => (i =? i') && (j =? j')
  | _, _ => false
  end.
Lemma loc_eqb_eq x y : loc_eqb x y = true -> x = y.
Proof. destruct x as [i j [|]|i j|i j], y as [i' j' [|]|i' j'|i' j']; simpl; try discriminate; rewrite andb_true_iff, !Nat.eqb_eq; intros [-> ->]; auto. Qed.
Lemma loc_eqb_refl x : loc_eqb x x = true.
Proof. destruct x as [i j [|]|i j|i j]; simpl; rewrite !Nat.eqb_refl; auto. Qed.
Definition sum_run (t : task) (s : loc -> nat) (x : loc) : nat :=
  if existsb (loc_eqb x) (tile_writes t) then S (list_sum (map s (tile_reads t ++ tile_writes t))) else s x.
Lemma sum_run_respects : respects sum_run (fun t x => In x (tile_reads t) \/ In x (tile_writes t)) (fun t x => In x (tile_writes t)).
Proof.
  split; intros t s.
  - intros x H. unfold sum_run. destruct (existsb (loc_eqb x) (tile_writes t)) eqn:E; auto.
    apply existsb_exists in E. destruct E as [y [Hy E]]. apply loc_eqb_eq in E. subst. tauto.
  - intros u H x Hx. unfold sum_run. destruct (existsb (loc_eqb x) (tile_writes t)) eqn:E.
    + f_equal. f_equal. apply map_ext_in. intros y Hy. apply H. apply in_app_iff. auto.
    + exfalso. assert (E' : existsb (loc_eqb x) (tile_writes t) = true) by (apply existsb_exists; exists x; split; [auto|apply loc_eqb_refl]). congruence.
Qed.
Definition late : list task := [Geqrt 0; Tpqrt 0 1; Larfb 0 1; Tpmqrt 0 1 1; Geqrt 1].
Lemma late_allowed : allowed (factor_tasks 2 2) (waits (factor_tasks 2 2) factor_in factor_out) late.
Proof.
  split.
  - simpl. constructor. apply perm_swap.
  - intros a b [B C]. change (factor_tasks 2 2) with [Geqrt 0; Larfb 0 1; Tpqrt 0 1; Tpmqrt 0 1 1; Geqrt 1] in B.
    unfold late. rewrite !before_cons in B |- *.
    assert (N : ~ (a = Larfb 0 1 /\ b = Tpqrt 0 1)) by (intros [-> ->]; destruct C as [d C]; simpl in C; intuition congruence).
    pose proof (before_nil a b). simpl in *. intuition congruence.
Qed.
Theorem C52_whole_tiles_refuted : exists (run : task -> (loc -> nat) -> loc -> nat) p q sched s, q <= p /\
  respects run (fun t x => In x (tile_reads t) \/ In x (tile_writes t)) (fun t x => In x (tile_writes t)) /\
  allowed (factor_tasks p q) (waits (factor_tasks p q) factor_in factor_out) sched /\
  ~ same (exec run sched s) (exec run (factor_tasks p q) s).
Proof.
  exists sum_run, 2, 2, late, (fun _ => 0). split; [lia|]. split; [exact sum_run_respects|]. split; [exact late_allowed|].
  intros H. specialize (H (LA 0 1 Up)). vm_compute in H. discriminate.
Qed.
Print Assumptions C52_whole_tiles_refuted.

(** The 3 x 2 matrix of C35 in that order. *)
Example C52_ex :
  writes_upper house_qrt /\
  allowed (factor_tasks 2 2) (waits (factor_tasks 2 2) factor_in factor_out) late /\ late <> factor_tasks 2 2 /\
  factor_tasks 2 2 = [Geqrt 0; Larfb 0 1; Tpqrt 0 1; Tpmqrt 0 1 1; Geqrt 1] /\
  (let s := exec (factor_run left_oracles house_qrt) late (enc eA eT eA) in
   map (fun ij => option_map (fun m => showq m) (tget s (fst ij) (snd ij))) [(0, 0); (0, 1); (1, 1)]) =
  (match tiled_qr left_oracles house_qrt 2 2 eA 2 2 eT with
   | Ok (A', _) => [Some (showq (A' 0 0)); Some (showq (A' 0 1)); Some (showq (A' 1 1))]
   | _ => []
   end).
Proof.
  split; [|split; [exact late_allowed|split; [discriminate|split; [reflexivity|vm_compute; reflexivity]]]].
  intros a b a' v t H. cbn [tpqrt2 house_qrt] in H. unfold house_tpqrt in H.
  destruct (house _ _ _) as [[beta tau] w]. cbv zeta in H.
  match type of H with (if ?c then _ else _) = _ => destruct c eqn:E; [|discriminate] end.
  injection H as H1 H2 H3. subst a'. cbn [d_r d_c d_e]. split; auto. split; auto. intros i j L.
  destruct (Nat.eqb_spec i 0); [lia|]. reflexivity.
Qed.
