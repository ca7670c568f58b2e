(** What sorting means. *)
From Coq Require Import List Bool Sorting.Permutation Sorting.Sorted.
From Verif Require Import Base.
Import ListNotations.

(** strict weak order as a boolean relation *)
Record strict_weak {A} (lt : A -> A -> bool) : Prop := {
  sw_irrefl : forall a, lt a a = false;
  sw_trans : forall a b c, lt a b = true -> lt b c = true -> lt a c = true;
  sw_incomp : forall a b c, lt a b = false -> lt b c = false -> lt a c = false }.

(** no later element is smaller than an earlier one *)
Definition sorted {A} (lt : A -> A -> bool) (l : list A) : Prop :=
  StronglySorted (fun a b => lt b a = false) l.

(** a possibly failing comparison that, when it answers, answers according to [lt] *)
Definition answers {A} (less : A -> A -> res bool) (lt : A -> A -> bool) : Prop :=
  forall a b x, less a b = Ok x -> x = lt a b.
