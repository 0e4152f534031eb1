(** Properties C43-C46, C48-C50, C56, C58: points, files, settings, timers, accounting
    and output. *)
From Coq Require Import String List Arith NArith ZArith QArith Lia Bool Permutation Sorted.
From Verif Require Import Prelude Ring MatFun Matrix MatOps MatSpec Spaced Morton MortonSort KeyValue Timer Memory Json FileRead.
Import ListNotations.
Local Open Scope nat_scope.
Local Open Scope list_scope.

(** ** C43 *)

(** N values, the first at lo, and constant spacing - of 1/(hi-lo). *)
Theorem C43_spacing : forall N (lo hi : Q), (lo < hi)%Q ->
  length (spaced N lo hi) = N /\
  (0 < N -> forall d, (nth 0 (spaced N lo hi) d == lo)%Q) /\
  forall i d, S i < N -> (nth (S i) (spaced N lo hi) d - nth i (spaced N lo hi) d == 1 / (hi - lo))%Q.
Proof. exact spaced_facts. Qed.
Print Assumptions C43_spacing.

(** The values stay in the interval exactly if N - 1 <= (hi-lo)^2. *)
Theorem C43_inside_iff : forall N (lo hi : Q), (lo < hi)%Q ->
  (forall x, In x (spaced N lo hi) -> (lo <= x /\ x <= hi)%Q) <->
  (N = 0 \/ (inject_Z (Z.of_nat (N - 1)) <= (hi - lo) * (hi - lo))%Q).
Proof. exact spaced_inside. Qed.
Print Assumptions C43_inside_iff.

Theorem C43_interval_refuted : exists N lo hi, (lo < hi)%Q /\ exists x, In x (spaced N lo hi) /\ (hi < x)%Q.
Proof. exact spaced_leaves. Qed.
Print Assumptions C43_interval_refuted.

Example spaced_example : map Qred (spaced 4 1 3) = [1; 3 # 2; 2; 5 # 2]%Q.
Proof. vm_compute. reflexivity. Qed.

(** ** C44 *)

Theorem C44_decode_encode : forall dim level (iX : list N), 0 < dim -> box dim level iX ->
  cartesian dim (morton iX level) = iX.
Proof. exact decode_encode. Qed.
Print Assumptions C44_decode_encode.

Theorem C44_encode_decode : forall dim level (m : N), 0 < dim -> (m < 2 ^ N.of_nat (dim * level))%N ->
  box dim level (cartesian dim m) /\ morton (cartesian dim m) level = m.
Proof. exact encode_decode. Qed.
Print Assumptions C44_encode_decode.

Theorem C44_range : forall (iX : list N) level, (morton iX level < 2 ^ N.of_nat (length iX * level))%N.
Proof. exact morton_range. Qed.
Print Assumptions C44_range.

Theorem C44_injective : forall dim level (iX iY : list N), 0 < dim -> box dim level iX -> box dim level iY ->
  morton iX level = morton iY level -> iX = iY.
Proof. exact morton_injective. Qed.
Print Assumptions C44_injective.

Example morton_example : morton [5; 2; 7]%N 3 = 373%N /\ cartesian 3 373 = [5; 2; 7]%N /\ box 3 3 [5; 2; 7]%N.
Proof. split; [vm_compute; reflexivity|]. split; [vm_compute; reflexivity|]. split; auto. intros x H. simpl in H. decompose [or] H; subst; try lia; reflexivity. Qed.

(** ** C45 *)

(** The sort is any function returning a sorted permutation of its argument. *)
Theorem C45_sort_morton : forall srt n (x : list (list Q)) level (perm : list nat),
  (forall l, Permutation (srt l) l /\ StronglySorted (fun a b => (snd a <= snd b)%N) (srt l)) ->
  x <> [] -> (forall c, In c x -> length c = n) -> 0 < n -> n <= length perm ->
  exists x' perm', sort_morton srt x level perm = Ok (x', perm') /\
    Permutation (firstn n perm') (seq 0 n) /\ skipn n perm' = skipn n perm /\ length perm' = length perm /\
    length x' = length x /\ (forall c, In c x' -> length c = n) /\
    (forall k c i, nth_error x k = Some c -> i < n ->
       exists c', nth_error x' k = Some c' /\ nth_error c' i = nth_error c (nth i perm' 0)) /\
    exists bs, box_numbers x' level = Ok bs /\ length bs = n /\ StronglySorted N.le bs.
Proof. exact sort_morton_main. Qed.
Print Assumptions C45_sort_morton.

Fixpoint insert (a : nat * N) (l : list (nat * N)) : list (nat * N) :=
  match l with [] => [a] | b :: t => if (snd a <=? snd b)%N then a :: l else b :: insert a t end.
Definition isort (l : list (nat * N)) := fold_right insert [] l.

(** Four points of the plane. *)
Example sort_example : sort_morton isort [[3; 0; 2; 0]; [3; 3; 0; 0]]%Q 1 [9; 9; 9; 9; 9] =
  Ok ([[0; 2; 0; 3]; [0; 0; 3; 3]]%Q, [3; 2; 1; 0; 9]).
Proof. vm_compute. reflexivity. Qed.

(** ** C46 *)

Theorem C46_fill_from_file : forall (word V : Type) (as_int : word -> nat) (as_dbl : word -> V) (show_int : nat -> word),
  (forall n, as_int (show_int n) = n) ->
  forall ord dim0 dim1 (M : nat -> nat -> word) (A : vmat V) row_start col_start,
  row_start + v_r V A <= dim0 -> col_start + v_c V A <= dim1 ->
  exists B, fill_from_file word V as_int as_dbl (Some (written word show_int ord dim0 dim1 M)) ord A row_start col_start = Ok B /\
    v_r V B = v_r V A /\ v_c V B = v_c V A /\
    forall i j, i < v_r V A -> j < v_c V A -> v_e V B i j = as_dbl (M (row_start + i) (col_start + j)).
Proof. exact fill_from_file_spec. Qed.
Print Assumptions C46_fill_from_file.

Theorem C46_outside_asserts : forall (word V : Type) (as_int : word -> nat) (as_dbl : word -> V) (show_int : nat -> word),
  (forall n, as_int (show_int n) = n) ->
  forall ord dim0 dim1 (M : nat -> nat -> word) (A : vmat V) row_start col_start,
  dim0 < row_start + v_r V A \/ dim1 < col_start + v_c V A ->
  fill_from_file word V as_int as_dbl (Some (written word show_int ord dim0 dim1 M)) ord A row_start col_start = AssertFail.
Proof. exact fill_from_file_outside. Qed.
Print Assumptions C46_outside_asserts.

Theorem C46_missing_file : forall (word V : Type) (as_int : word -> nat) (as_dbl : word -> V) ord (A : vmat V) row_start col_start,
  fill_from_file word V as_int as_dbl None ord A row_start col_start = Ok A.
Proof. exact (fun _ _ _ _ _ _ _ _ => eq_refl). Qed.
Print Assumptions C46_missing_file.

(** Words that are numbers themselves. *)
Definition read_nat file ord A := fill_from_file nat nat (fun n => n) (fun n => n) file ord A.
Definition show_vm (x : outcome (vmat nat)) : outcome (list (list nat)) :=
  let* A := x in Ok (map (fun i => map (v_e nat A i) (seq 0 (v_c nat A))) (seq 0 (v_r nat A))).
Definition vm0 r c := VM nat r c (fun _ _ => 0).
Definition w34 ord := written nat (fun n => n) ord 3 4 (fun i j => 10 * i + j).

(** The lower middle block, from both layouts. *)
Example file_example : show_vm (read_nat (Some (w34 RowMajor)) RowMajor (vm0 2 2) 1 1) = Ok [[11; 12]; [21; 22]] /\
  show_vm (read_nat (Some (w34 ColumnMajor)) ColumnMajor (vm0 2 2) 1 1) = Ok [[11; 12]; [21; 22]].
Proof. split; vm_compute; reflexivity. Qed.

(** With a blank at the end of every line the last column is misread:
    "2 2\n1 2 \n3 4 \n" gives 2 and 3 instead of 2 and 4. *)
Theorem C46_trailing_blanks_refuted : exists file,
  words nat file = words nat (written nat (fun n => n) RowMajor 2 2 (fun i j => 1 + 2 * i + j)) /\
  show_vm (read_nat (Some file) RowMajor (vm0 2 1) 0 1) = Ok [[2]; [3]] /\
  show_vm (read_nat (Some (written nat (fun n => n) RowMajor 2 2 (fun i j => 1 + 2 * i + j))) RowMajor (vm0 2 1) 0 1) = Ok [[2]; [4]].
Proof.
  exists [W _ 2; Sp _; W _ 2; Nl _; W _ 1; Sp _; W _ 2; Sp _; Nl _; W _ 3; Sp _; W _ 4; Sp _; Nl _].
  split; [vm_compute; reflexivity|]. split; vm_compute; reflexivity.
Qed.
Print Assumptions C46_trailing_blanks_refuted.

(** ** C58 *)

(** Whatever the white space: coordinate j of point i is word i*dim+j behind the header. *)
Theorem C58_read_geometry : forall (word V : Type) (as_int : word -> nat) (as_dbl : word -> V) (show_int : nat -> word),
  (forall n, as_int (show_int n) = n) ->
  forall (s : stream word) n dim (rest : list word),
  words word s = show_int n :: show_int dim :: rest -> n * dim <= length rest ->
  exists r, read_geometry word V as_int as_dbl (Some s) = Ok r /\ length r = dim /\
    (forall j, j < dim -> length (nth j r []) = n) /\
    forall i j d d0, i < n -> j < dim -> nth i (nth j r []) d = as_dbl (nth (i * dim + j) rest d0).
Proof. exact read_geometry_spec. Qed.
Print Assumptions C58_read_geometry.

(** Without the file the number of points is read from uninitialised variables. *)
Theorem C58_missing_file_undefined : forall (word V : Type) (as_int : word -> nat) (as_dbl : word -> V),
  read_geometry word V as_int as_dbl None = UB.
Proof. exact (fun _ _ _ _ => eq_refl). Qed.
Print Assumptions C58_missing_file_undefined.

(** So does a file that ends before the first coordinate of a nonempty point set. *)
Theorem C58_no_points_undefined : forall (word V : Type) (as_int : word -> nat) (as_dbl : word -> V) (show_int : nat -> word),
  (forall n, as_int (show_int n) = n) ->
  forall (s : stream word) n dim, words word s = [show_int n; show_int dim] -> 0 < n -> 0 < dim ->
  read_geometry word V as_int as_dbl (Some s) = UB.
Proof. exact read_geometry_short. Qed.
Print Assumptions C58_no_points_undefined.

Example geometry_example : read_geometry nat nat (fun n => n) (fun n => n)
    (Some [W _ 3; Sp _; W _ 2; Nl _; W _ 1; Sp _; W _ 2; Nl _; W _ 3; W _ 4; Nl _; Nl _; W _ 5; Sp _; W _ 6]) = Ok [[1; 3; 5]; [2; 4; 6]].
Proof. vm_compute. reflexivity. Qed.

(** ** C48 *)

(** After any history of settings (l, oldest first). *)
Theorem C48_get_after : forall (env : string -> option string) (l : list (string * string)) k,
  get_global env (fold_left (fun m kv => set_global m (fst kv) (snd kv)) l []) k =
  match last_set l k with Some v => v | None => match env k with Some v => v | None => EmptyString end end.
Proof. exact get_after. Qed.
Print Assumptions C48_get_after.

Theorem C48_last_set : forall (l : list (string * string)) k v, last_set l k = Some v <->
  exists l1 l2, l = l1 ++ (k, v) :: l2 /\ ~ In k (map fst l2).
Proof. exact last_set_spec. Qed.
Print Assumptions C48_last_set.

Theorem C48_never_set : forall (l : list (string * string)) k, last_set l k = None <-> ~ In k (map fst l).
Proof. exact last_set_none. Qed.
Print Assumptions C48_never_set.

(** One more setting changes the value of its key only. *)
Theorem C48_set_frame : forall (env : string -> option string) (m : kvmap) k v k',
  get_global env (set_global m k v) k' = if String.eqb k k' then v else get_global env m k'.
Proof. exact get_global_set. Qed.
Print Assumptions C48_set_frame.

Example settings_example :
  let env := fun k => if String.eqb k "HOME" then Some "/root"%string else None in
  let m := fold_left (fun m kv => set_global m (fst kv) (snd kv)) [("a", "1"); ("b", "2"); ("a", "3")]%string [] in
  map (get_global env m) ["a"; "b"; "HOME"; "c"]%string = ["3"; "2"; "/root"; ""]%string.
Proof. vm_compute. reflexivity. Qed.

(** ** C49 *)

(** Properly nested calls, started while nothing below the current timer is running:
    every call succeeds, the current timer and everything not below it stay as they
    were, and the timer at every path q below it gets one run, lasting from start to
    stop, for every call nested in this way; no other timer is created. *)
Theorem C49_nested_calls : forall (env : string -> option string) (l : list call) s,
  ready s -> enabled env s = true ->
  exists s', trun env s (events l) = Ok s' /\ ready s' /\
    ts_cur s' = ts_cur s /\ ts_kv s' = ts_kv s /\
    (forall p, (forall q, q <> [] -> p <> ts_cur s ++ q) -> info_at (ts_root s') p = info_at (ts_root s) p) /\
    (forall q, q <> [] -> stat s' (ts_cur s ++ q) = add_runs (stat s (ts_cur s ++ q)) (durations q l)).
Proof. exact calls_main. Qed.
Print Assumptions C49_nested_calls.

(** From the start. *)
Theorem C49_from_start : forall (env : string -> option string) (l : list call) kv,
  enabled env (TS (new_timer "") [] kv) = true ->
  exists s, trun env (TS (new_timer "") [] kv) (events l) = Ok s /\ ts_cur s = [] /\
    forall q, q <> [] -> stat s q =
      match durations q l with [] => None | ds => Some (false, ds, fold_left Qplus ds 0%Q) end.
Proof. exact calls_from_start. Qed.
Print Assumptions C49_from_start.

(** getTotalTime and getNRuns. *)
Theorem C49_queries : forall (env : string -> option string) (l : list call) kv e,
  enabled env (TS (new_timer "") [] kv) = true -> durations [e] l <> [] ->
  exists s, trun env (TS (new_timer "") [] kv) (events l) = Ok s /\
    total_time s e = Ok (fold_left Qplus (durations [e] l) 0%Q) /\ n_runs s e = Ok (length (durations [e] l)).
Proof. exact queries. Qed.
Print Assumptions C49_queries.

(** Switched off, start and stop do nothing. *)
Theorem C49_disabled : forall (env : string -> option string) (l : list event) s, enabled env s = false ->
  (forall ev, In ev l -> exists e now, ev = EStart e now \/ ev = EStop e now) -> trun env s l = Ok s.
Proof. exact disabled_noop. Qed.
Print Assumptions C49_disabled.

(** Clearing while some timer is current leaves current_timer dangling. *)
Theorem C49_clear_undefined : forall (env : string -> option string) s s1 e now,
  ts_cur s <> [] -> enabled env s = true -> tstep env s EClear = Ok s1 ->
  tstep env s1 (EStart e now) = UB /\ tstep env s1 (EStop e now) = UB.
Proof. exact clear_dangling. Qed.
Print Assumptions C49_clear_undefined.

Example timer_example :
  let l := [Call "f" 0 10 [Call "g" 1 3 []; Call "g" 4 5 []]; Call "g" 11 12 []; Call "f" 20 21 []]%Q%string in
  (let* s := trun (fun _ => None) init_state (events l) in
   Ok (map (fun p => match stat s p with Some (r, ts, t) => Some (r, map Qred ts, Qred t) | None => None end)
         [["f"]; ["f"; "g"]; ["g"]; ["h"]]%string)) =
  Ok [Some (false, [10; 1], 11); Some (false, [2; 1], 3); Some (false, [1], 1); None]%Q.
Proof. vm_compute. reflexivity. Qed.

(** ** C50 *)

Theorem C50_elements : forall (R : cring) (sE sD sL sP sH : nat) (A : matrix R), no_empty A ->
  memory sE sD sL sP sH false A = Ok (sE * elements A).
Proof. exact (fun R sE sD sL sP sH => @memory_plain R sE sD sL sP sH). Qed.
Print Assumptions C50_elements.

Theorem C50_structure : forall (R : cring) (sE sD sL sP sH : nat) (A : matrix R), sD <= sL -> no_empty A ->
  memory sE sD sL sP sH true A = Ok (sE * elements A + objects sD sL sP sH A + 2 * sD * lowranks A).
Proof. exact (fun R sE sD sL sP sH => @memory_structure R sE sD sL sP sH). Qed.
Print Assumptions C50_structure.

Theorem C50_additive : forall (R : cring) (sE sD sL sP sH : nat) incl m n (b : nat -> nat -> matrix R) (v : nat -> nat -> nat),
  (forall i j, i < m -> j < n -> memory sE sD sL sP sH incl (b i j) = Ok (v i j)) ->
  memory sE sD sL sP sH incl (MH m n b) =
  Ok (offs (fun i => offs (v i) n) m + if incl then m * n * sP + sH else 0).
Proof. exact (fun R sE sD sL sP sH => @memory_blocks R sE sD sL sP sH). Qed.
Print Assumptions C50_additive.

Theorem C50_shape_only : forall (R : cring) (sE sD sL sP sH : nat) incl (A B : matrix R), same_shape A B ->
  memory sE sD sL sP sH incl A = memory sE sD sL sP sH incl B.
Proof. exact (fun R sE sD sL sP sH => @memory_shape R sE sD sL sP sH). Qed.
Print Assumptions C50_shape_only.

Definition zD r c : dense Zring := @Dn Zring r c (fun _ _ => 0%Z).
Definition mD r c : matrix Zring := MD (zD r c).
Definition mL r c k : matrix Zring := ML (Lr r c k 0%Q (zD r k) (zD k k) (zD k c)).
Definition mT : matrix Zring := of_blocks [[mD 4 3; mL 4 5 2]; [mL 6 3 1; of_blocks [[mD 2 5]; [mD 4 5]]]].
(** 12 + (8+4+10) + (6+1+3) + 10 + 20 elements. *)
Example memory_example : memory 8 100 350 16 120 false mT = Ok 592 /\
  memory 8 100 350 16 120 true mT = Ok (592 + 3 * 100 + 2 * 350 + 6 * 16 + 2 * 120 + 2 * 2 * 100).
Proof. split; vm_compute; reflexivity. Qed.

(** ** C56 *)

(** The object found by descending along p is that of the block at p, at the position
    reached by refining; its level is the depth. *)
Theorem C56_positions : forall (R : cring) (p : list (nat * nat)) (A : matrix R) x y l,
  json_at (to_json A x y l) p =
  match block_at A p with
  | Some B => Some (to_json B (fst (refine A p (x, y))) (snd (refine A p (x, y))) (l + length p))
  | None => None
  end.
Proof. exact (fun R => @json_at_spec R). Qed.
Print Assumptions C56_positions.

(** What one object says. *)
Theorem C56_object : forall (R : cring) (A : matrix R) x y l,
  j_type (to_json A x y l) = type_of A /\ j_dim (to_json A x y l) = (nrows A, ncols A) /\
  j_pos (to_json A x y l) = match A with ME _ _ => None | _ => Some (x, y, l) end /\
  map (@length json) (j_children (to_json A x y l)) = match A with MH m n _ => repeat n m | _ => [] end.
Proof. exact (fun R => @to_json_facts R). Qed.
Print Assumptions C56_object.

(** Blocks of one level have different positions if all nodes of a level are divided in
    the same way. *)
Theorem C56_distinct : forall (R : cring) (d : list (nat * nat)) (A : matrix R) p q B C, uniform d A ->
  length p = length q -> block_at A p = Some B -> block_at A q = Some C ->
  refine A p (0, 0) = refine A q (0, 0) -> p = q.
Proof. exact (fun R => @positions_distinct R). Qed.
Print Assumptions C56_distinct.

(** Otherwise two blocks of one level may be given the same position. *)
Definition jT : matrix Zring := of_blocks [[of_blocks [[mD 1 1]; [mD 1 1]]]; [of_blocks [[mD 2 1]]]].
Theorem C56_distinct_refuted : exists (A : matrix Zring) p q x y, p <> q /\ length p = length q /\
  json_at (to_json A 0 0 0) p = Some x /\ json_at (to_json A 0 0 0) q = Some y /\ j_pos x = j_pos y /\ j_pos x <> None.
Proof.
  exists jT, [(0, 0); (1, 0)], [(1, 0); (0, 0)]. eexists. eexists. split; [discriminate|]. split; [reflexivity|].
  split; [vm_compute; reflexivity|]. split; [vm_compute; reflexivity|]. split; vm_compute; [reflexivity|discriminate].
Qed.
Print Assumptions C56_distinct_refuted.

Example json_example : match json_at (to_json mT 0 0 0) [(1, 1); (1, 0)] with Some x => (j_type x, j_dim x, j_pos x) | None => (EmptyString, (0, 0), None) end =
  ("Dense"%string, (4, 5), Some (3, 1, 2)) /\ uniform [(2, 2); (2, 1)] mT.
Proof.
  split; [vm_compute; reflexivity|]. cbn. split; auto. split; auto.
  intros i j Hi Hj. destruct i as [|[|i]]; [| |lia]; (destruct j as [|[|j]]; [| |lia]); cbn; auto.
  split; auto. split; auto. clear Hi Hj; intros i j Hi Hj. destruct i as [|[|i]]; [| |lia]; (destruct j as [|j]; [|lia]); cbn; auto.
Qed.
