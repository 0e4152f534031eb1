(** Reading matrices and point sets from text files:
    src/classes/initialization_helpers/matrix_initializer_file.cpp and
    src/util/geometry_file.cpp.

    A file is a sequence of words, blanks and line ends.  How words are read as
    integers and doubles is left open. *)
From Coq Require Import List Arith ZArith Lia Bool.
From Verif Require Import Prelude.
Import ListNotations.
Local Open Scope nat_scope.

Section File.
Variables word V : Type.
Variable as_int : word -> nat.   (* file >> int64_t *)
Variable as_dbl : word -> V.     (* file >> double *)

Inductive tok := W (x : word) | Sp | Nl.
Definition stream := list tok.

(** Leading white space is skipped by >>. *)
Fixpoint skip_ws (s : stream) : stream :=
  match s with Sp :: t | Nl :: t => skip_ws t | _ => s end.

(** file >> a: at the end of the file, or after a failure, nothing changes; the empty
    stream stands for both. *)
Definition get {X} (conv : word -> X) (s : stream) (a : option X) : stream * option X :=
  match skip_ws s with W x :: t => (t, Some (conv x)) | _ => ([], a) end.

(** file.ignore(max, delim) *)
Fixpoint ignore_sp (s : stream) : stream :=
  match s with [] => [] | Sp :: t => t | _ :: t => ignore_sp t end.
Fixpoint ignore_nl (s : stream) : stream :=
  match s with [] => [] | Nl :: t => t | _ :: t => ignore_nl t end.

Fixpoint repeat_op (n : nat) (f : stream -> stream) (s : stream) : stream :=
  match n with O => s | S m => repeat_op m f (f s) end.

(** for (k<w) { file >> a; A(.,.) = a; }  *)
Fixpoint read_words (w : nat) (s : stream) (a : option V) : outcome (list V * stream * option V) :=
  match w with
  | O => Ok ([], s, a)
  | S w' =>
      let (s1, a1) := get as_dbl s a in
      match a1 with
      | None => UB   (* the variable was never given a value *)
      | Some v => let* (l, s2, a2) := read_words w' s1 a1 in Ok (v :: l, s2, a2)
      end
  end.

(** The loop over lines, matrix_initializer_file.cpp:45-56 and 63-74; [more] says
    whether the line goes on behind the block. *)
Fixpoint read_lines (n skip w : nat) (more : bool) (s : stream) (a : option V) : outcome (list (list V)) :=
  match n with
  | O => Ok []
  | S n' =>
      let s1 := repeat_op skip ignore_sp s in
      let* (l, s2, a2) := read_words w s1 a in
      let s3 := if more then ignore_nl s2 else s2 in
      let* r := read_lines n' skip w more s3 a2 in
      Ok (l :: r)
  end.

(** Matrices of entries V. *)
Record vmat := VM { v_r : nat; v_c : nat; v_e : nat -> nat -> V }.

Inductive layout := RowMajor | ColumnMajor.

(** MatrixInitializerFile::fill_dense_representation (25-80); file = None if it cannot
    be opened; the block is that of A at (row_start, col_start). *)
Definition fill_from_file (file : option stream) (ord : layout) (A : vmat) (row_start col_start : nat) : outcome vmat :=
  match file with
  | None => Ok A
  | Some s =>
      let (s1, d0) := get as_int s None in
      let (s2, d1) := get as_int s1 None in
      match d0, d1 with
      | Some dim0, Some dim1 =>
          let s3 := tl s2 in   (* ignore(1, '\n') *)
          assert! row_start + v_r A <=? dim0 in
          assert! col_start + v_c A <=? dim1 in
          match ord with
          | RowMajor =>
              let* l := read_lines (v_r A) col_start (v_c A) (col_start + v_c A <? dim1)
                                   (repeat_op row_start ignore_nl s3) None in
              Ok (VM (v_r A) (v_c A) (fun i j => nth j (nth i l []) (v_e A i j)))
          | ColumnMajor =>
              let* l := read_lines (v_c A) row_start (v_r A) (row_start + v_r A <? dim0)
                                   (repeat_op col_start ignore_nl s3) None in
              Ok (VM (v_r A) (v_c A) (fun i j => nth i (nth j l []) (v_e A i j)))
          end
      | _, _ => UB
      end
  end.

(** ** Well formed files *)
Variable show_int : nat -> word.
Hypothesis show_int_ok : forall n, as_int (show_int n) = n.

(** Words separated by single blanks. *)
Fixpoint line (l : list word) : stream :=
  match l with
  | [] => []
  | x :: t => W x :: match t with [] => [] | _ => Sp :: line t end
  end.
Definition lines (ls : list (list word)) : stream := flat_map (fun l => line l ++ [Nl]) ls.

Definition render (dim0 dim1 : nat) (ls : list (list word)) : stream :=
  [W (show_int dim0); Sp; W (show_int dim1); Nl] ++ lines ls.

(** The lines of a dim0 x dim1 matrix. *)
Definition written (ord : layout) (dim0 dim1 : nat) (M : nat -> nat -> word) : stream :=
  render dim0 dim1
    match ord with
    | RowMajor => map (fun i => map (fun j => M i j) (seq 0 dim1)) (seq 0 dim0)
    | ColumnMajor => map (fun j => map (fun i => M i j) (seq 0 dim0)) (seq 0 dim1)
    end.

(** ** Proofs *)
Lemma line_cons2 x y t : line (x :: y :: t) = W x :: Sp :: line (y :: t).
Proof. reflexivity. Qed.

Lemma ignore_nl_line l rest : ignore_nl (line l ++ Nl :: rest) = rest.
Proof.
  induction l as [|x [|y t] IH]; try reflexivity. rewrite line_cons2. simpl. simpl in IH. exact IH.
Qed.

Lemma lines_cons l ls : lines (l :: ls) = line l ++ Nl :: lines ls.
Proof. unfold lines. simpl. rewrite <- app_assoc. reflexivity. Qed.

Lemma skip_lines k : forall ls, repeat_op k ignore_nl (lines ls) = lines (skipn k ls).
Proof.
  induction k as [|k IH]; intros ls; simpl; auto.
  destruct ls as [|l ls].
  - simpl. specialize (IH []). rewrite skipn_nil in IH. exact IH.
  - rewrite lines_cons, ignore_nl_line. apply IH.
Qed.

(** The position at which a line is entered: at its first character, or still in front of the previous line end. *)
Definition entering (pre : stream) : Prop := pre = [] \/ pre = [Nl].

Lemma ignore_sp_step x y t pre rest : entering pre ->
  ignore_sp (pre ++ line (x :: y :: t) ++ rest) = line (y :: t) ++ rest.
Proof. intros [->| ->]; reflexivity. Qed.

Lemma skip_words k : forall l pre rest, entering pre -> k < length l ->
  exists pre', entering pre' /\ repeat_op k ignore_sp (pre ++ line l ++ rest) = pre' ++ line (skipn k l) ++ rest.
Proof.
  induction k as [|k IH]; intros l pre rest Hp Hk.
  - exists pre. simpl. auto.
  - destruct l as [|x [|y t]]; simpl in Hk; try lia.
    cbn [repeat_op]. rewrite ignore_sp_step by auto.
    destruct (IH (y :: t) [] rest (or_introl eq_refl)) as [pre' [H1 H2]]; [simpl; lia|].
    exists pre'. split; auto.
Qed.

Definition left_over (t : list word) (rest : stream) : stream :=
  match t with [] => Nl :: rest | _ => Sp :: line t ++ Nl :: rest end.

Lemma read_words_line w : forall l s a rest, w <= length l -> 0 < w ->
  (exists ws, (ws = [] \/ ws = [Sp] \/ ws = [Nl]) /\ s = ws ++ line l ++ Nl :: rest) ->
  exists a', read_words w s a = Ok (map as_dbl (firstn w l), left_over (skipn w l) rest, a').
Proof.
  induction w as [|w IH]; intros l s a rest Hw H0 Hs; [lia|].
  destruct l as [|x t]; [simpl in Hw; lia|].
  destruct Hs as [ws [Hws ->]].
  assert (G : get as_dbl (ws ++ line (x :: t) ++ Nl :: rest) a = (match t with [] => [] | _ => Sp :: line t end ++ Nl :: rest, Some (as_dbl x))).
  { destruct Hws as [->|[->| ->]]; unfold get; simpl; destruct t; reflexivity. }
  cbn [read_words]. rewrite G. destruct w as [|w].
  - cbn [read_words bind]. exists (Some (as_dbl x)). cbn [firstn map skipn]. destruct t; reflexivity.
  - destruct t as [|y t]; [simpl in Hw; lia|].
    destruct (IH (y :: t) ((Sp :: line (y :: t)) ++ Nl :: rest) (Some (as_dbl x)) rest) as [a' E]; [simpl in *; lia|lia| |].
    { exists [Sp]. split; auto. }
    rewrite E. cbn [bind]. exists a'. reflexivity.
Qed.

Lemma read_lines_spec n : forall ls pre skip w len a, entering pre -> n <= length ls ->
  (forall l, In l ls -> length l = len) -> skip + w <= len -> 0 < w ->
  read_lines n skip w (skip + w <? len) (pre ++ lines ls) a =
  Ok (map (fun l => map as_dbl (firstn w (skipn skip l))) (firstn n ls)).
Proof.
  induction n as [|n IH]; intros ls pre skip w len a Hp Hn HL Hs Hw; [reflexivity|].
  destruct ls as [|l ls]; [simpl in Hn; lia|].
  assert (Ll : length l = len) by (apply HL; left; auto).
  cbn [read_lines]. rewrite lines_cons.
  destruct (skip_words skip l pre (Nl :: lines ls) Hp) as [pre' [Hp' E]]; [lia|]. rewrite E.
  destruct (read_words_line w (skipn skip l) (pre' ++ line (skipn skip l) ++ Nl :: lines ls) a (lines ls)) as [a' E2].
  { rewrite skipn_length. lia. } { auto. }
  { exists pre'. split; auto. destruct Hp' as [->| ->]; auto. }
  rewrite E2. cbn [bind]. cbn [firstn map].
  assert (LL : length (skipn w (skipn skip l)) = len - skip - w) by (rewrite !skipn_length; lia).
  assert (NEXT : exists pre2, entering pre2 /\
    (if skip + w <? len then ignore_nl (left_over (skipn w (skipn skip l)) (lines ls))
     else (left_over (skipn w (skipn skip l)) (lines ls))) = pre2 ++ lines ls).
  { destruct (Nat.ltb_spec (skip + w) len) as [Hm|Hm].
    - exists []. split; [left; auto|]. destruct (skipn w (skipn skip l)) as [|x t]; [reflexivity|].
      change (ignore_nl (left_over (x :: t) (lines ls))) with (ignore_nl (line (x :: t) ++ Nl :: lines ls)).
      apply ignore_nl_line.
    - exists [Nl]. split; [right; auto|]. destruct (skipn w (skipn skip l)) as [|x t]; [reflexivity|simpl in LL; lia]. }
  destruct NEXT as [pre2 [Hp2 E3]]. rewrite E3.
  rewrite (IH ls pre2 skip w len a' Hp2); auto; [simpl in Hn; lia|]. intros l' Hl'. apply HL. right; auto.
Qed.

(** No words: nothing is read. *)
Lemma read_lines_none n : forall s skip more a, read_lines n skip 0 more s a = Ok (repeat [] n).
Proof. induction n as [|n IH]; intros; simpl; auto. rewrite IH. reflexivity. Qed.

Lemma nth_map_seq {X} (f : nat -> X) n i d : i < n -> nth i (map f (seq 0 n)) d = f i.
Proof.
  intros H. rewrite nth_indep with (d' := f 0) by (rewrite map_length, seq_length; auto).
  rewrite map_nth, seq_nth by auto. reflexivity.
Qed.

Lemma nth_window {X Y} (f : X -> Y) w k l i d d0 : i < w -> k + w <= length l ->
  nth i (map f (firstn w (skipn k l))) d = f (nth (k + i) l d0).
Proof.
  intros Hi Hl.
  assert (L : length (firstn w (skipn k l)) = w) by (rewrite firstn_length, skipn_length; lia).
  rewrite nth_indep with (d' := f d0) by (rewrite map_length; lia). rewrite map_nth. f_equal.
  assert (E : nth i (firstn w (skipn k l)) d0 = nth i (skipn k l) d0).
  { rewrite <- (firstn_skipn w (skipn k l)) at 2. rewrite app_nth1 by lia. reflexivity. }
  rewrite E. clear. revert l. induction k as [|k IH]; intros l; simpl; auto. destruct l; [destruct i; reflexivity|]. apply IH.
Qed.

(** A window of the written lines. *)
Lemma read_window n w skipl skipw N M (f : nat -> nat -> word) : skipl + n <= N -> skipw + w <= M ->
  exists l, read_lines n skipw w (skipw + w <? M) (repeat_op skipl ignore_nl (lines (map (fun i => map (fun j => f i j) (seq 0 M)) (seq 0 N)))) None = Ok l /\
   forall i j d, i < n -> j < w -> nth j (nth i l []) d = as_dbl (f (skipl + i) (skipw + j)).
Proof.
  intros Hn Hw. set (ls := map (fun i => map (fun j => f i j) (seq 0 M)) (seq 0 N)).
  assert (LS : length ls = N) by (unfold ls; rewrite map_length, seq_length; auto).
  rewrite skip_lines. destruct w as [|w].
  - exists (repeat [] n). split; [apply read_lines_none|]. intros; lia.
  - change (lines (skipn skipl ls)) with ([] ++ lines (skipn skipl ls)).
    rewrite (read_lines_spec n (skipn skipl ls) [] skipw (S w) M None (or_introl eq_refl)); [|rewrite skipn_length; lia| |lia|lia].
    + eexists. split; [reflexivity|]. intros i j d Hi Hj.
      rewrite (nth_window (fun l => map as_dbl (firstn (S w) (skipn skipw l))) n skipl ls i [] []) by lia.
      assert (E : nth (skipl + i) ls [] = map (f (skipl + i)) (seq 0 M)).
      { unfold ls. rewrite (nth_map_seq (fun i => map (fun j => f i j) (seq 0 M))) by lia. reflexivity. }
      rewrite E. rewrite (nth_window as_dbl (S w) skipw (map (f (skipl + i)) (seq 0 M)) j d (f 0 0)) by (auto; rewrite map_length, seq_length; lia).
      f_equal. apply nth_map_seq. lia.
    + intros l Hl. assert (In l ls). { rewrite <- (firstn_skipn skipl ls). apply in_or_app. auto. }
      unfold ls in H. apply in_map_iff in H. destruct H as [i [<- _]]. rewrite map_length, seq_length. auto.
Qed.

Theorem fill_from_file_spec ord dim0 dim1 M A row_start col_start :
  row_start + v_r A <= dim0 -> col_start + v_c A <= dim1 ->
  exists B, fill_from_file (Some (written ord dim0 dim1 M)) ord A row_start col_start = Ok B /\
    v_r B = v_r A /\ v_c B = v_c A /\
    forall i j, i < v_r A -> j < v_c A -> v_e B i j = as_dbl (M (row_start + i) (col_start + j)).
Proof.
  intros Hr Hc. unfold fill_from_file, written, render.
  replace (get as_int ([W (show_int dim0); Sp; W (show_int dim1); Nl] ++ _) None) with
    (Sp :: W (show_int dim1) :: Nl :: lines match ord with
    | RowMajor => map (fun i => map (fun j => M i j) (seq 0 dim1)) (seq 0 dim0)
    | ColumnMajor => map (fun j => map (fun i => M i j) (seq 0 dim0)) (seq 0 dim1)
    end, Some dim0) by (unfold get; simpl; rewrite show_int_ok; reflexivity).
  cbv iota beta. unfold get. cbn [skip_ws app]. rewrite show_int_ok. cbn [tl].
  rewrite (proj2 (Nat.leb_le _ _) Hr), (proj2 (Nat.leb_le _ _) Hc).
  destruct ord.
  - destruct (read_window (v_r A) (v_c A) row_start col_start dim0 dim1 M Hr Hc) as [l [E H]].
    cbv beta in E. rewrite E. cbn [bind]. eexists. split; [reflexivity|]. simpl. split; auto.
  - destruct (read_window (v_c A) (v_r A) col_start row_start dim1 dim0 (fun j i => M i j) Hc Hr) as [l [E H]].
    cbv beta in E. rewrite E. cbn [bind]. eexists. split; [reflexivity|]. simpl. split; auto.
Qed.

(** A block that does not fit is refused. *)
Theorem fill_from_file_outside ord dim0 dim1 M A row_start col_start :
  dim0 < row_start + v_r A \/ dim1 < col_start + v_c A ->
  fill_from_file (Some (written ord dim0 dim1 M)) ord A row_start col_start = AssertFail.
Proof.
  intros H. unfold fill_from_file, written, render, get. cbn [skip_ws app]. cbv iota beta. cbn [skip_ws]. rewrite !show_int_ok.
  destruct (Nat.leb_spec (row_start + v_r A) dim0), (Nat.leb_spec (col_start + v_c A) dim1); auto; lia.
Qed.

(** ** Point sets: read_geometry_file, src/util/geometry_file.cpp:11-27 *)
Fixpoint read_points (n dim : nat) (s : stream) (a : option V) : outcome (list (list V)) :=
  match n with
  | O => Ok (repeat [] dim)
  | S n' =>
      let* (l, s1, a1) := read_words dim s a in
      let* r := read_points n' dim s1 a1 in
      Ok (map (fun p => fst p :: snd p) (combine l r))
  end.

Definition read_geometry (file : option stream) : outcome (list (list V)) :=
  match file with
  | None => UB   (* n and dim stay indeterminate *)
  | Some s =>
      let (s1, n) := get as_int s None in
      let (s2, dim) := get as_int s1 None in
      match n, dim with
      | Some n, Some dim => read_points n dim s2 None
      | _, _ => UB
      end
  end.

(** The words of a file, whatever the white space. *)
Definition words (s : stream) : list word := flat_map (fun t => match t with W x => [x] | _ => [] end) s.

Lemma get_words {X} (conv : word -> X) s a x t : words s = x :: t -> exists s', get conv s a = (s', Some (conv x)) /\ words s' = t.
Proof.
  unfold get. induction s as [|[y| |] s IH]; simpl; intros H; try discriminate; auto.
  inversion H; subst. exists s. auto.
Qed.

Lemma read_words_words w : forall s a, w <= length (words s) ->
  exists s' a', read_words w s a = Ok (map as_dbl (firstn w (words s)), s', a') /\ words s' = skipn w (words s).
Proof.
  induction w as [|w IH]; intros s a H.
  - simpl. eauto.
  - destruct (words s) as [|x t] eqn:E; [simpl in H; lia|].
    destruct (get_words as_dbl s a x t E) as [s1 [G E1]]. cbn [read_words]. rewrite G.
    destruct (IH s1 (Some (as_dbl x))) as [s2 [a2 [E2 W2]]]; [rewrite E1; simpl in H; lia|].
    rewrite E2. cbn [bind]. rewrite E1 in *. exists s2, a2. split; auto.
Qed.

Lemma combine_cons_nth (l : list V) : forall r j d, length r = length l -> j < length l ->
  nth j (map (fun p => fst p :: snd p) (combine l r)) [] = nth j l d :: nth j r [].
Proof.
  induction l as [|x l IH]; intros [|y r] j d E H; simpl in *; try lia.
  destruct j as [|j]; auto. apply IH; lia.
Qed.

Lemma firstn_nth (l : list word) k i d : i < k -> nth i (firstn k l) d = nth i l d.
Proof.
  revert l i. induction k as [|k IH]; intros [|x l] [|i] H; simpl; auto; try lia. apply IH. lia.
Qed.
Lemma skipn_nth (l : list word) k i d : nth i (skipn k l) d = nth (k + i) l d.
Proof.
  revert l. induction k as [|k IH]; intros l; simpl; auto. destruct l; [destruct i; reflexivity|]. apply IH.
Qed.

Lemma read_points_spec n dim : forall s a, n * dim <= length (words s) ->
  exists r, read_points n dim s a = Ok r /\ length r = dim /\
   (forall j, j < dim -> length (nth j r []) = n) /\
   forall i j d d0, i < n -> j < dim -> nth i (nth j r []) d = as_dbl (nth (i * dim + j) (words s) d0).
Proof.
  induction n as [|n IH]; intros s a H.
  - exists (repeat [] dim). split; auto. split; [apply repeat_length|]. split; [|intros; lia].
    intros j Hj. rewrite nth_repeat. reflexivity.
  - destruct (read_words_words dim s a) as [s1 [a1 [E1 W1]]]; [nia|].
    destruct (IH s1 a1) as [r [E2 [L2 [K2 V2]]]]; [rewrite W1, skipn_length; nia|].
    cbn [read_points]. rewrite E1. cbn [bind]. rewrite E2. cbn [bind].
    set (l := map as_dbl (firstn dim (words s))).
    assert (Ll : length l = dim) by (unfold l; rewrite map_length, firstn_length; nia).
    eexists. split; [reflexivity|]. split; [rewrite map_length, combine_length; lia|]. split.
    + intros j Hj. destruct l as [|v l'] eqn:El; [simpl in Ll; lia|]. rewrite <- El in *.
      rewrite (combine_cons_nth l r j v) by lia. simpl. rewrite K2; auto.
    + intros i j d d0 Hi Hj. rewrite (combine_cons_nth l r j d) by lia. destruct i as [|i].
      * simpl. unfold l. rewrite nth_indep with (d' := as_dbl d0) by (rewrite map_length, firstn_length; nia).
        rewrite map_nth, firstn_nth by auto. reflexivity.
      * simpl nth at 1. rewrite (V2 i j d d0) by lia. rewrite W1, skipn_nth. f_equal. f_equal. lia.
Qed.

Theorem read_geometry_spec s n dim rest : words s = show_int n :: show_int dim :: rest -> n * dim <= length rest ->
  exists r, read_geometry (Some s) = Ok r /\ length r = dim /\
   (forall j, j < dim -> length (nth j r []) = n) /\
   forall i j d d0, i < n -> j < dim -> nth i (nth j r []) d = as_dbl (nth (i * dim + j) rest d0).
Proof.
  intros E H. unfold read_geometry.
  destruct (get_words as_int s None _ _ E) as [s1 [G1 E1]]. rewrite G1.
  destruct (get_words as_int s1 None _ _ E1) as [s2 [G2 E2]]. rewrite G2. rewrite !show_int_ok.
  destruct (read_points_spec n dim s2 None) as [r R]; [rewrite E2; auto|]. rewrite E2 in R. eauto.
Qed.

Lemma get_no_words {X} (conv : word -> X) s a : words s = [] -> get conv s a = ([], a).
Proof.
  intros H. unfold get. assert (E : skip_ws s = []).
  { induction s as [|[x| |] s IH]; simpl in *; auto. discriminate. }
  rewrite E. reflexivity.
Qed.

Theorem read_geometry_short s n dim : words s = [show_int n; show_int dim] -> 0 < n -> 0 < dim ->
  read_geometry (Some s) = UB.
Proof.
  intros H Hn Hd. unfold read_geometry.
  destruct (get_words as_int s None _ _ H) as [s1 [-> H1]]. destruct (get_words as_int s1 None _ _ H1) as [s2 [-> H2]].
  rewrite !show_int_ok. destruct n as [|n]; [lia|]. destruct dim as [|dim]; [lia|]. cbn [read_points read_words].
  rewrite (get_no_words as_dbl s2 None H2). reflexivity.
Qed.
End File.
