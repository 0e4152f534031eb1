(** Two pieces of modelled code that do the same: same outcome, related results. *)
From Coq Require Import List Arith Lia Bool.
From Verif Require Import Prelude.
Import ListNotations.

Definition osim {A B} (P : A -> B -> Prop) (x : outcome A) (y : outcome B) : Prop :=
  match x, y with
  | Ok a, Ok b => P a b
  | Abort, Abort | AssertFail, AssertFail | UB, UB | NoFuel, NoFuel => True
  | _, _ => False
  end.

Lemma osim_bind {A B C D} (P : A -> B -> Prop) (Q : C -> D -> Prop) x y f g :
  osim P x y -> (forall a b, x = Ok a -> y = Ok b -> P a b -> osim Q (f a) (g b)) -> osim Q (bind x f) (bind y g).
Proof. destruct x, y; simpl; try tauto. intros H K. apply K; auto. Qed.

(** The same with a step that cannot fail on one side. *)
Lemma osim_left {A C D} (P : A -> Prop) (Q : C -> D -> Prop) x f y :
  (exists a, x = Ok a /\ P a) -> (forall a, x = Ok a -> P a -> osim Q (f a) y) -> osim Q (bind x f) y.
Proof. intros [a [-> H]] K. simpl. apply K; auto. Qed.

Lemma osim_right {B C D} (P : B -> Prop) (Q : C -> D -> Prop) x g y :
  (exists b, y = Ok b /\ P b) -> (forall b, y = Ok b -> P b -> osim Q x (g b)) -> osim Q x (bind y g).
Proof. intros [a [-> H]] K. simpl. apply K; auto. Qed.

Lemma osim_weaken {A B} (P Q : A -> B -> Prop) x y : osim P x y -> (forall a b, P a b -> Q a b) -> osim Q x y.
Proof. destruct x, y; simpl; auto. Qed.

Lemma osim_assert {A B} (Q : A -> B -> Prop) b b' x y : b = b' -> (b = true -> osim Q x y) ->
  osim Q (assert! b in x) (assert! b' in y).
Proof. intros <-. destruct b; simpl; auto. Qed.

Lemma osim_if {A B} (Q : A -> B -> Prop) b b' x y x' y' : b = b' -> (b = true -> osim Q x y) -> (b = false -> osim Q x' y') ->
  osim Q (if b then x else x') (if b' then y else y').
Proof. intros <-. destruct b; simpl; auto. Qed.

Lemma osim_Ok {A B} (P : A -> B -> Prop) x y a : osim P x y -> x = Ok a -> exists b, y = Ok b /\ P a b.
Proof. intros H ->. destruct y; simpl in H; try tauto. eauto. Qed.

Lemma osim_Ok_r {A B} (P : A -> B -> Prop) x y b : osim P x y -> y = Ok b -> exists a, x = Ok a /\ P a b.
Proof. intros H ->. destruct x; simpl in H; try tauto. eauto. Qed.
