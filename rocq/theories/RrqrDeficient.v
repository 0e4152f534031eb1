(** truncated_geqp3 (src/operations/LAPACK/geqp3.cpp:69-191) of a matrix without full column
    rank: it stops before the columns are used up. *)
From Coq Require Import List Arith Lia Bool Reals Lra Ring_theory Ring.
From Verif Require Import Prelude Ring MatFun MatSetoid Matrix MatOps Lapack Reflect ReflectSpec SvdRank Householder HouseQr HouseReal Rrqr RrqrRank.
Import ListNotations.
Local Open Scope nat_scope.

Lemma piv_loop_UB tol thr m n B : (0 <= thr)%R -> forall fuel r mx s,
  piv_loop fuel tol thr m n r mx s = UB -> fuel = Nat.min m n - r -> r < n ->
  mx = p_cn s (amax (p_cn s) r (n - 1 - r)) ->
  piv_inv m n r B s -> (forall i, i < r -> p_A s i i <> 0%R) ->
  exists s', piv_inv m n n B s' /\ n <= m /\ forall i, i < n -> p_A s' i i <> 0%R.
Proof.
  intros HT. induction fuel as [|fuel IH]; intros r mx s H HF HN HM HI HD; simpl in H; [discriminate|].
  destruct (Rlt_dec thr mx) as [L|L]; [|discriminate].
  assert (ND : forall i, i < r + 1 -> p_A (piv_step tol m n r s) i i <> 0%R).
  { intros i Hi. destruct (Nat.eq_dec i r) as [->|Hne]; [|rewrite piv_step_low by lia; apply HD; lia].
    intros E. pose proof (refl_step_diag m n r _ _ _ _ ltac:(lia) ltac:(lia) (piv_step_refl tol m n r s ltac:(lia))) as G.
    rewrite E in G. destruct (amax_spec (p_cn s) r (n - 1 - r)) as [K _].
    rewrite (pi_cn _ _ _ _ _ HI) in HM by lia.
    assert (G' : colsq (p_A s) m r (amax (p_cn s) r (n - 1 - r)) = 0%R).
    { transitivity (colsq (fun i j => p_A s i (transp r (amax (p_cn s) r (n - 1 - r)) j)) m r r).
      - unfold colsq, transp. rewrite Nat.eqb_refl. reflexivity.
      - rewrite <- G. rring. }
    rewrite <- colnorm_sq in G'. rewrite <- HM in G'. apply Rmult_integral in G'. lra. }
  assert (SI : piv_inv m n (r + 1) B (piv_step tol m n r s)) by (apply piv_step_inv; auto; lia).
  unfold max_from in H. destruct (Nat.ltb_spec (r + 1) n) as [N'|N'].
  - cbn [bind] in H. eapply IH; [exact H|lia|lia|reflexivity|exact SI|exact ND].
  - assert (En : r + 1 = n) by lia. assert (Hnm : n <= m) by lia. rewrite En in SI, ND. exists (piv_step tol m n r s). split; auto.
Qed.

Theorem truncated_geqp3_deficient tol eps (A : rdense) k (X Y : rmat) : 0 < d_r A -> (0 <= eps)%R -> k < d_c A ->
  feq (d_r A) (d_c A) (d_e A) (mmul k X Y) -> exists x, truncated_geqp3 tol eps A = Ok x.
Proof.
  intros Hm He Hk HA. destruct (truncated_geqp3_total tol eps A Hm ltac:(lia)) as [|[U _]]; auto. exfalso.
  unfold truncated_geqp3 in U. cbv zeta in U. set (m := d_r A) in *. set (n := d_c A) in *.
  unfold max_from in U at 1. destruct (Nat.ltb_spec 0 n); [|lia]. cbn [bind] in U.
  destruct (Rle_dec _ tol) as [L|L]. { destruct (Nat.eqb_spec m 0); [lia|discriminate]. }
  set (s0 := PState (d_e A) (fun _ => 0%R) (fun j => j) (fun j => colnorm (d_e A) m 0 j) (fun j => colnorm (d_e A) m 0 j)) in *.
  match type of U with bind ?x _ = _ => destruct x as [[r s]| | | |] eqn:HL end; try discriminate.
  assert (I0 : piv_inv m n 0 (d_e A) s0).
  { split; cbn [s0 p_piv p_A p_tau p_cn]; auto.
    - split; auto.
    - apply (qr_inv_0 (R := Rring)). }
  destruct (piv_loop_UB tol _ m n (d_e A) ltac:(apply Rmult_le_pos; [exact He|apply sqrt_pos]) _ 0 _ s0 HL ltac:(lia) ltac:(lia) eq_refl I0 ltac:(intros; lia))
    as [s [[[P1 P2] [HB HF] _] [Hnm HD]]].
  set (p := p_piv s) in *. set (H1 := hprod (R := Rring) m (p_A s) (p_tau s) n) in *. set (W := work (R := Rring) n (p_A s)) in *.
  assert (HO : orthogonal (R := Rring) m H1) by (apply (hprod_orthogonal (R := Rring)); exact HB).
  destruct (kernel_exists k n (fun i j => Y i (p j)) Hk) as [z [[j [J1 J2]] J3]].
  assert (AZ : forall i, i < m -> rsum n (fun x => (d_e A i (p x) * z x)%R) = 0%R).
  { intros i Hi. rewrite (sum_ext (R := Rring) n _ (fun x => rsum k (fun l => (X i l * Y l (p x) * z x)%r))).
    2:{ intros x Hx. rewrite HA by (auto; apply P1; auto). unfold mmul. rewrite (sum_mul_r (R := Rring)). reflexivity. }
    rewrite (sum_swap (R := Rring)). apply (sum_zero' (R := Rring)). intros l Hl.
    rewrite (sum_ext (R := Rring) n _ (fun x => (X i l * (Y l (p x) * z x)%R)%R)) by (intros; rring).
    rewrite rsum_mul_l. rewrite J3 by auto. rring. }
  apply J2. apply (triangle_kernel n W z); auto.
  - intros i Hi. unfold W, work. destruct (Nat.ltb_spec i i); [lia|]. rewrite andb_false_r. apply HD; auto.
  - intros i x Hi Hx. unfold W, work. destruct (Nat.ltb_spec x n); [|lia]. destruct (Nat.ltb_spec x i); [reflexivity|lia].
  - intros i Hi.
    assert (EW : forall x, x < n -> W i x = mmul (R := Rring) m (mtr H1) (fun a b => d_e A a (p b)) i x).
    { intros x Hx. rewrite (mmul_ext (R := Rring) m (mtr H1) (mtr H1) _ (mmul (R := Rring) m H1 W) i x); auto.
      rewrite <- (mmul_assoc (R := Rring)).
      rewrite (mmul_ext (R := Rring) m _ (mid (R := Rring)) W W i x); auto.
      - rewrite (mmul_id_l (R := Rring)) by lia. reflexivity.
      - intros l Hl. apply HO; auto; lia. }
    rewrite (sum_ext (R := Rring) n _ (fun x => rsum m (fun l => (H1 l i * d_e A l (p x) * z x)%r))).
    2:{ intros x Hx. rewrite EW by auto. unfold mmul, mtr. rewrite (sum_mul_r (R := Rring)). reflexivity. }
    rewrite (sum_swap (R := Rring)). apply (sum_zero' (R := Rring)). intros l Hl.
    rewrite (sum_ext (R := Rring) n _ (fun x => (H1 l i * (d_e A l (p x) * z x)%R)%R)) by (intros; rring).
    rewrite rsum_mul_l. rewrite AZ by auto. rring.
Qed.
