(** equallySpacedVector, src/operations/misc/misc.cpp:125-132, over the rationals. *)
From Coq Require Import List Arith ZArith QArith Lia Lqa.
From Verif Require Import Prelude.
Import ListNotations.
Local Open Scope Q_scope.

Definition Qn (i : nat) : Q := inject_Z (Z.of_nat i).

(** res[i] = minVal + i / (maxVal - minVal) *)
Definition spaced (N : nat) (lo hi : Q) : list Q :=
  map (fun i => lo + Qn i / (hi - lo)) (seq 0 N).

Lemma spaced_length N lo hi : length (spaced N lo hi) = N.
Proof. unfold spaced. rewrite map_length, seq_length. reflexivity. Qed.

Lemma spaced_nth N lo hi i d : (i < N)%nat -> nth i (spaced N lo hi) d = lo + Qn i / (hi - lo).
Proof.
  intros H. unfold spaced.
  rewrite nth_indep with (d' := lo + Qn 0 / (hi - lo)) by (rewrite map_length, seq_length; auto).
  change (lo + Qn 0 / (hi - lo)) with ((fun i => lo + Qn i / (hi - lo)) 0%nat).
  rewrite map_nth, seq_nth by auto. reflexivity.
Qed.

Lemma Qn_S i : Qn (S i) == Qn i + 1.
Proof. unfold Qn. rewrite Nat2Z.inj_succ, <- Z.add_1_r, inject_Z_plus. reflexivity. Qed.
Lemma Qn_le i j : (i <= j)%nat -> Qn i <= Qn j.
Proof. intros H. unfold Qn. rewrite <- Zle_Qle. lia. Qed.
Lemma Qn_nonneg i : 0 <= Qn i.
Proof. apply (Qn_le 0 i). lia. Qed.

(** Constant spacing, of 1 / (maxVal - minVal). *)
Lemma spaced_step N lo hi i d : lo < hi -> (S i < N)%nat ->
  nth (S i) (spaced N lo hi) d - nth i (spaced N lo hi) d == 1 / (hi - lo).
Proof.
  intros H Hi. rewrite !spaced_nth by lia. rewrite Qn_S. field. lra.
Qed.

(** The points are in the interval exactly if N - 1 <= (maxVal - minVal)^2. *)
Lemma spaced_inside N lo hi : lo < hi ->
  ((forall x, In x (spaced N lo hi) -> lo <= x <= hi) <-> (N = 0%nat \/ Qn (N - 1) <= (hi - lo) * (hi - lo))).
Proof.
  intros H. assert (D : 0 < hi - lo) by lra.
  assert (B : forall i, lo + Qn i / (hi - lo) <= hi <-> Qn i <= (hi - lo) * (hi - lo)).
  { intros i. split; intros H1.
    - assert (H2 : Qn i / (hi - lo) <= hi - lo) by lra.
      assert (H3 : Qn i == (Qn i / (hi - lo)) * (hi - lo)) by (field; lra). rewrite H3.
      apply Qmult_le_compat_r; lra.
    - assert (H2 : Qn i / (hi - lo) <= hi - lo) by (apply Qle_shift_div_r; auto). lra. }
  assert (P : forall i, 0 <= Qn i / (hi - lo)).
  { intros i. apply Qle_shift_div_l; auto. rewrite Qmult_0_l. apply Qn_nonneg. }
  unfold spaced. split.
  - intros HA. destruct N as [|N]; auto. right. apply B. replace (S N - 1)%nat with N by lia.
    apply HA. apply in_map_iff. exists N. split; auto. apply in_seq. lia.
  - intros HN x Hx. apply in_map_iff in Hx. destruct Hx as [i [<- Hi]]. apply in_seq in Hi.
    split; [pose proof (P i); lra|]. apply B. destruct HN as [->|HN]; [lia|].
    eapply Qle_trans; [apply Qn_le|exact HN]. lia.
Qed.

Lemma spaced_leaves : exists N lo hi, lo < hi /\ exists x, In x (spaced N lo hi) /\ hi < x.
Proof. exists 3%nat, 0, 1. split; [reflexivity|]. exists (0 + Qn 2 / (1 - 0)). split; [right; right; left; reflexivity|reflexivity]. Qed.

Theorem spaced_facts N lo hi : lo < hi ->
  length (spaced N lo hi) = N /\
  ((0 < N)%nat -> forall d, nth 0 (spaced N lo hi) d == lo) /\
  forall i d, (S i < N)%nat -> nth (S i) (spaced N lo hi) d - nth i (spaced N lo hi) d == 1 / (hi - lo).
Proof.
  intros H. split; [apply spaced_length|]. split; [|intros; apply spaced_step; auto].
  intros HN d. rewrite spaced_nth by auto. unfold Qdiv, Qn. simpl. ring.
Qed.
