(** Blocked Householder QR: shape of the factor, and diagonal blocks that are not Dense. *)
From Coq Require Import List Arith ZArith QArith Lia Bool.
From Verif Require Import Prelude Ring MatFun Matrix MatOps MatSpec MatOpsProofs Lapack Gemm Triangular Reflect QrBig
  QrTiled QrStep QrApply QrTheorems Mgs MgsProofs Blocked.
Import ListNotations.
Local Open Scope nat_scope.

Section More.
Context {R : cring}.
Notation matrix := (matrix R).
Notation grid := (grid R).

Lemma blocked_upper p q h w (A : grid) : 0 < p -> 0 < q -> q <= p -> (forall k, k < q -> k < p -> h k = w k) ->
  forall r s, r < offs h p -> s < offs w q -> s < r -> ent (MH p q (Rgrid h w A)) r s = 0%r.
Proof. intros Hp Hq L H. apply Rgrid_upper; auto. Qed.

Lemma tri_col_lowrank (K : qrt R) p k (a a' : nat -> matrix) t l : a k = ML l -> tri_col K p k a = Ok (a', t) ->
  exists l', a' k = ML l'.
Proof.
  intros E H. unfold tri_col in H. destruct (Nat.ltb_spec k p) as [Hk|]; [|discriminate].
  apply bind_Ok in H. destruct H as [r [Hr H]].
  apply bind_Ok in H. destruct H as [D [HD H]].
  apply bind_Ok in H. destruct H as [[x t'] [HG H]].
  destruct x as [x|?|? ? ?|? ?]; try discriminate.
  apply bind_Ok in H. destruct H as [s [Hs H]].
  apply bind_Ok in H. destruct H as [b [Hb H]]. injection H as -> ->.
  apply (for_loop_inv_out _ _ _ _ (fun u c => exists l', c k = ML l')) in Hb; eauto.
  clear Hb. intros u c c' Hu [l' El] Hb. apply bind_Ok in Hb. destruct Hb as [m [Hm Hb]]. injection Hb as <-.
  unfold vupd. destruct (Nat.eqb_spec k (k + u)) as [Ek|Ne]; [|eauto].
  rewrite <- Ek, El in Hm. injection Hm as <-. eauto.
Qed.

Lemma apply_col_lowrank (Or : oracles R) p k tr (y : nat -> matrix) t (a a' : nat -> matrix) l : y k = ML l ->
  apply_col Or p k tr y t a <> Ok a'.
Proof.
  intros E H. unfold apply_col in H. destruct (k <? p); [|discriminate].
  apply bind_Ok in H. destruct H as [yt [_ H]]. apply bind_Ok in H. destruct H as [c [H _]].
  rewrite E in H. cbn in H. destruct (a k); cbn in H; try discriminate.
Qed.

Lemma lowrank_diagonal (Or : oracles R) (K : qrt R) p k (a a' : nat -> matrix) t l :
  a k = ML l -> tri_col K p k a = Ok (a', t) -> forall tr b b', apply_col Or p k tr a' t b <> Ok b'.
Proof.
  intros E H tr b b'. destruct (tri_col_lowrank _ _ _ _ _ _ _ E H) as [l' E']. eapply apply_col_lowrank; eauto.
Qed.
End More.
