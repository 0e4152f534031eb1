(** Properties C18 and C55: sharing and copying of matrix objects. *)
From Coq Require Import List Arith ZArith QArith Lia Bool.
From Verif Require Import Prelude Osim Ring MatFun Matrix MatOps Heap HeapProofs HeapViews Tree TreeProofs TreeScale Proxy ProxyProofs.
Import ListNotations.
Local Open Scope nat_scope.

(** ** C55 *)

(** Any program that builds Dense, LowRank, Hierarchical and Empty objects, copies and
    moves them, assigns them to blocks and writes single elements ends like the same
    program run on plain values (where objects cannot share anything): with the same
    failure, or with every object holding its value and no two objects, and no two parts
    of an object, having an element in common. *)
Theorem C55_value_semantics : forall (R : cring) (cs : list (vcmd R)),
  match vrun (empty_heap, []) cs, arun [] cs with
  | Ok (h, ts), Ok ms =>
      length ts = length ms /\
      (forall k T M, nth_error ts k = Some T -> nth_error ms k = Some M ->
         match M with
         | None => T = TN
         | Some v => tgood h T /\ separate T /\ mateq (tread h T) v
         end) /\
      (forall k l T T', k <> l -> nth_error ts k = Some T -> nth_error ts l = Some T' ->
         forall b x, tcell T b x -> ~ tcell T' b x)
  | Abort, Abort | AssertFail, AssertFail | UB, UB | NoFuel, NoFuel => True
  | _, _ => False
  end.
Proof.
  exact (fun R cs =>
    match vrun (empty_heap, []) cs as x, arun [] cs as y return osim (fun s ms => srel (fst s) (snd s) ms) x y -> match x, y with
      | Ok (h, ts), Ok ms => srel h ts ms
      | Abort, Abort | AssertFail, AssertFail | UB, UB | NoFuel, NoFuel => True
      | _, _ => False
      end with
    | Ok (h, ts), Ok ms => fun H => H
    | Abort, Abort | AssertFail, AssertFail | UB, UB | NoFuel, NoFuel => fun H => H
    | _, _ => fun H => H
    end (run_sim cs empty_heap [] [] init_srel)).
Qed.
Print Assumptions C55_value_semantics.

(** Copying one object, whatever it is made of (views into other objects included):
    it succeeds, changes nothing that existed, and gives the same value in new arrays. *)
Theorem C55_copy : forall (R : cring) (h : heap R) T, nonnull T -> (forall d, tleaf T d -> good h d) ->
  exists h' T', clone T h = Ok (h', T') /\ extends h h' /\
    mateq (tread h' T') (tread h T) /\ mateq (tread h' T) (tread h T) /\
    (forall d, tleaf T' d -> good h' d /\ nbufs h <= h_buf d) /\ separate T' /\
    (forall b k, tcell T' b k -> ~ tcell T b k).
Proof. exact (fun R => @copy_spec R). Qed.
Print Assumptions C55_copy.

(** Afterwards writing to elements of one does not change the other. *)
Theorem C55_copy_independent : forall (R : cring) (h : heap R) T h' T' (w : list (hdense * nat * nat * R)) h2,
  nonnull T -> (forall d, tleaf T d -> good h d) -> clone T h = Ok (h', T') -> writes w h' = Ok h2 ->
  ((forall d i j v, In (d, i, j, v) w -> tleaf T' d) -> mateq (tread h2 T) (tread h T)) /\
  ((forall d i j v, In (d, i, j, v) w -> tleaf T d) -> mateq (tread h2 T') (tread h T)).
Proof. exact (fun R => @copy_independent R). Qed.
Print Assumptions C55_copy_independent.

(** Copying an empty proxy, or anything with one inside, is not allowed. *)
Theorem C55_empty : forall (R : cring) T (h h' : heap R) T', clone T h = Ok (h', T') -> nonnull T.
Proof. exact (fun R => @clone_Ok_nonnull R). Qed.
Print Assumptions C55_empty.

(** A 1x2 grid of a Dense and a LowRank, copied; then one element of each is overwritten. *)
Definition zvals (s : outcome (heap Zring * list htree)) : outcome (list (option (list (list (list (list Z)))))) :=
  let* (h, ts) := s in
  Ok (map (fun T => match T with
     | TH m n f => Some (map (fun i => map (fun j => map (fun x => map (fun y => ent (tread h (f i j)) x y) (seq 0 (tcols (f i j)))) (seq 0 (trows (f i j)))) (seq 0 n)) (seq 0 m))
     | _ => None end) ts).
Definition proxy_prog : list (vcmd Zring) :=
  [VDense 1 2; VSet 0 [] cD 0 0 (5%Z : Zring); VSet 0 [] cD 0 1 (6%Z : Zring);
   VDense 1 1; VDense 1 1; VDense 1 2; VSet 1 [] cD 0 0 (1%Z : Zring); VSet 2 [] cD 0 0 (2%Z : Zring);
   VSet 3 [] cD 0 0 (3%Z : Zring); VSet 3 [] cD 0 1 (4%Z : Zring); VLow; VGrid 1 2;
   VCopy 0 []; VSet 1 [(0, 0)] cD 0 1 (100%Z : Zring); VSet 0 [(0, 1)] cS 0 0 (10%Z : Zring)].
Example C55_ex : zvals (vrun (empty_heap, []) proxy_prog) =
  Ok [Some [[[[5; 6]]; [[30; 40]]]]; Some [[[[5; 100]]; [[6; 8]]]]]%Z.
Proof. vm_compute. reflexivity. Qed.
(** Moving leaves an empty proxy behind, which can be assigned to but not copied. *)
Example C55_moved_ex : vrun (R := Zring) (empty_heap, []) [VDense 1 1; VMove 0; VCopy 0 []] = AssertFail /\
  exists s, vrun (R := Zring) (empty_heap, []) [VDense 1 1; VMove 0; VAssign 0 [] 1 []; VCopy 0 []] = Ok s.
Proof. split; [reflexivity|]. eexists. vm_compute. reflexivity. Qed.

(** ** C18 *)

(** The blocks show the right entries whatever happens to the storage later, but they all
    refer to the same S. *)
Theorem C18_blocks : forall (R : cring) (h : heap R) l rs cs, lgood h l -> covers (h_r (q_U l)) rs -> covers (h_c (q_V l)) cs ->
  exists h' f, tsplit (TL l) rs cs false h = Ok (h', TH (length rs) (length cs) f) /\ h_bufs h' = h_bufs h /\
    forall i j rr cr, nth_error rs i = Some rr -> nth_error cs j = Some cr -> exists l', f i j = TL l' /\ q_S l' = q_S l /\
      forall h2 : heap R, q_r l' = snd rr /\ q_c l' = snd cr /\
       (lr_wf (lread h2 l) -> feq (snd rr) (snd cr) (lr_ent (lread h2 l')) (mwin (fst rr) (fst cr) (lr_ent (lread h2 l)))).
Proof. exact (fun R => @split_shared_windows R). Qed.
Print Assumptions C18_blocks.

(** So scaling any one block scales the whole matrix and every other block. *)
Theorem C18_one_block_refuted : forall (R : cring) (h : heap R) l rs cs h' f i j (a : R),
  lgood h l -> lsep l -> lr_wf (lread h l) -> covers (h_r (q_U l)) rs -> covers (h_c (q_V l)) cs ->
  tsplit (TL l) rs cs false h = Ok (h', TH (length rs) (length cs) f) ->
  i < length rs -> j < length cs ->
  exists h2, tscale (f i j) a h' = Ok h2 /\
    feq (q_r l) (q_c l) (ent (tread h2 (TL l))) (mscale a (ent (tread h (TL l)))) /\
    forall i' j', i' < length rs -> j' < length cs ->
      feq (trows (f i' j')) (tcols (f i' j')) (ent (tread h2 (f i' j'))) (mscale a (ent (tread h' (f i' j')))).
Proof. exact (fun R => @scale_one_block R). Qed.
Print Assumptions C18_one_block_refuted.

(** And operator*= on the Hierarchical of p*q blocks multiplies the matrix by a^(p*q). *)
Theorem C18_all_blocks_refuted : forall (R : cring) (h : heap R) l rs cs h' f (a : R),
  lgood h l -> lsep l -> lr_wf (lread h l) -> covers (h_r (q_U l)) rs -> covers (h_c (q_V l)) cs ->
  tsplit (TL l) rs cs false h = Ok (h', TH (length rs) (length cs) f) ->
  exists h2, tscale (TH (length rs) (length cs) f) a h' = Ok h2 /\
    feq (q_r l) (q_c l) (ent (tread h2 (TL l))) (mscale (rpow a (length rs * length cs)) (ent (tread h (TL l)))).
Proof. exact (fun R => @scale_all_blocks R). Qed.
Print Assumptions C18_all_blocks_refuted.

(** With copying, scaling a block changes neither the matrix nor another block. *)
Theorem C18_copied : forall (R : cring) (h : heap R) l rs cs h' f i j (a : R),
  lgood h l -> covers (h_r (q_U l)) rs -> covers (h_c (q_V l)) cs ->
  tsplit (TL l) rs cs true h = Ok (h', TH (length rs) (length cs) f) -> i < length rs -> j < length cs ->
  exists h2, tscale (f i j) a h' = Ok h2 /\ mateq (tread h2 (TL l)) (tread h (TL l)) /\
    forall i' j', i' < length rs -> j' < length cs -> (i', j') <> (i, j) -> mateq (tread h2 (f i' j')) (tread h' (f i' j')).
Proof. exact (fun R => @scale_copied_block R). Qed.
Print Assumptions C18_copied.

(** A 2x2 LowRank of rank 1 split into 1x2 blocks; *= 3 on the blocks gives factor 9. *)
Definition low_prog : list (vcmd Zring) :=
  [VDense 2 1; VDense 1 1; VDense 1 2; VSet 0 [] cD 0 0 (1%Z : Zring); VSet 0 [] cD 1 0 (2%Z : Zring);
   VSet 1 [] cD 0 0 (1%Z : Zring); VSet 2 [] cD 0 0 (1%Z : Zring); VSet 2 [] cD 0 1 (5%Z : Zring); VLow].
Definition split_scaled (copy : bool) : outcome (list (list Z)) :=
  let* (h, ts) := vrun (empty_heap, []) low_prog in
  match ts with
  | [TL l] => let* (h1, T) := tsplit (R := Zring) (TL l) [(0, 2)] [(0, 1); (1, 1)] copy h in
              let* h2 := tscale T (3%Z : Zring) h1 in
              Ok (map (fun x => map (fun y => ent (tread h2 (TL l)) x y) [0; 1]) [0; 1])
  | _ => Abort
  end.
Example C18_ex : split_scaled false = Ok [[9; 45]; [18; 90]]%Z /\ split_scaled true = Ok [[1; 5]; [2; 10]]%Z.
Proof. vm_compute. auto. Qed.
