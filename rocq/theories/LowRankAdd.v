(** Model of LowRank += LowRank: src/operations/arithmetic/addition.cpp:68-203. *)
From Coq Require Import List Arith ZArith QArith Lia Bool String.
From Verif Require Import Prelude Ring MatFun Matrix MatOps MatSpec Lapack Gemm.
Import ListNotations.
Local Open Scope nat_scope.

Section LowRankAdd.
Context {R : cring}.
Notation dense := (dense R).
Notation lowrank := (lowrank R).
Notation matrix := (matrix R).

Variable L : lapack R.
(** LowRank(Dense, rank), low_rank.cpp:40-48. *)
Variable compress : dense -> nat -> outcome lowrank.

(** A Dense split into views left|right (top/bottom) that are written separately;
    that views write through to their windows is C13. *)
Definition hcat (x y : dense) : dense :=
  Dn (d_r x) (d_c x + d_c y) (fun i j => if j <? d_c x then d_e x i j else d_e y i (j - d_c x)).
Definition vcat (x y : dense) : dense :=
  Dn (d_r x + d_r y) (d_c x) (fun i j => if i <? d_r x then d_e x i j else d_e y (i - d_r x) j).

(** addition.cpp:68-89 *)
Definition naive_addition (a b : lowrank) : outcome lowrank :=
  if Nat.min (l_r a) (l_c a) <=? l_rank a + l_rank b then
    let* da := densify (ML a) in
    let* db := densify (ML b) in
    let* s := d_plus da db in
    compress s (l_rank a)
  else
    let* U := densify (of_blocks [[MD (l_U a); MD (l_U b)]]) in
    let* Sm := densify (of_blocks [[MD (l_S a); MD (d_zeros (l_rank a) (l_rank b))];
                                  [MD (d_zeros (l_rank b) (l_rank a)); MD (l_S b)]]) in
    let* V := densify (of_blocks [[MD (l_V a)]; [MD (l_V b)]]) in
    Ok (Lr (l_r a) (l_c a) (l_rank a + l_rank b) (l_eps a) U Sm V).

(** The common end: resize to rank r and combine with the bases Qu and QvT,
    addition.cpp:123-127 and 184-188. *)
Definition truncate (a : lowrank) (r : nat) (Qu U Sm V QvT : dense) : outcome lowrank :=
  let* S' := d_resize Sm r r in
  let* U1 := d_resize U (d_r U) r in
  let* U' := dd_mul Qu U1 1%r false false in
  let* V1 := d_resize V r (d_c V) in
  let* V' := dd_mul V1 QvT 1%r false false in
  Ok (Lr (l_r a) (l_c a) r (l_eps a) U' S' V').

(** addition.cpp:93-127 *)
Definition rounded_addition (a b : lowrank) : outcome lowrank :=
  let* x := dd_gemm (l_U a) (l_S a) (d_zeros (d_r (l_U a)) (d_c (l_S a))) 1%r 0%r false false in
  let* y := dd_gemm (l_U b) (l_S b) (d_zeros (d_r (l_U a)) (d_c (l_S b))) 1%r 0%r false false in
  let* (Qu, Ru) := lp_qr L (hcat x y) in
  let* va := d_copy_to (l_V a) (d_zeros (d_r (l_V a)) (d_c (l_V a))) 0 0 in
  let* vb := d_copy_to (l_V b) (d_zeros (d_r (l_V b)) (d_c (l_V a))) 0 0 in
  let* (RvT, QvT) := lp_rq L (vcat va vb) in
  let* M := dd_mul Ru RvT 1%r false false in
  let* (U, Sm, V) := lp_svd L M in
  let r := if use_eps a then lp_rank L Sm (l_eps a) else l_rank a in
  truncate a r Qu U Sm V QvT.

(** addition.cpp:133-189 *)
Definition fast_rounded_addition (a b : lowrank) : outcome lowrank :=
  if use_eps a then rounded_addition a b else
  let* Zu := dd_mul (l_U a) (l_U b) 1%r true false in
  let* Yu := dd_gemm (l_U a) Zu (l_U b) (- (1))%r 1%r false false in
  let* (Qu, Ru) := lp_qr L Yu in
  let Uc := hcat (l_U a) Qu in
  let* ZvT := dd_mul (l_V b) (l_V a) 1%r false true in
  let* YvT := dd_gemm ZvT (l_V a) (l_V b) (- (1))%r 1%r false false in
  let* (RvT, QvT) := lp_rq L YvT in
  let VcT := vcat (l_V a) QvT in
  let* ZuSb := dd_mul Zu (l_S b) 1%r false false in
  let* RuSb := dd_mul Ru (l_S b) 1%r false false in
  let* m00 := d_copy_to (l_S a) (d_zeros (d_r (l_S a)) (d_c (l_S a))) 0 0 in
  let* m00 := dd_gemm ZuSb ZvT m00 1%r 1%r false false in
  let* m01 := dd_gemm ZuSb RvT (d_zeros (d_r (l_S a)) (d_c (l_S b))) 1%r 0%r false false in
  let* m10 := dd_gemm RuSb ZvT (d_zeros (d_r (l_S b)) (d_c (l_S a))) 1%r 0%r false false in
  let* m11 := dd_gemm RuSb RvT (d_zeros (d_r (l_S b)) (d_c (l_S b))) 1%r 0%r false false in
  let* (U, Sm, V) := lp_svd L (vcat (hcat m00 m01) (hcat m10 m11)) in
  truncate a (l_rank a) Uc U Sm V VcT.

(** The choice by the setting FRANK_LRA, addition.cpp:194-201. *)
Definition lr_addition (setting : string) (a b : lowrank) : outcome lowrank :=
  if String.eqb setting "naive" then naive_addition a b
  else if String.eqb setting "rounded_addition" then rounded_addition a b
  else fast_rounded_addition a b.

End LowRankAdd.
