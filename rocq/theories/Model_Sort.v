(** Model of detail::swap and detail::sort, public/gal/algorithm.hpp. Ranges are index
    intervals [first, last) of an array modelled as a list; every dereference is bounds
    checked. *)
From Coq Require Import List Bool Arith.
From Verif Require Import Base.
Import ListNotations.

Section Sort.
Context {A : Type}.
(** The comparator. It may fail: operator< on rationals can overflow. The overload without a
    comparator (algorithm.hpp:46-122) has the same body with operator< for [less]. *)
Variable less : A -> A -> res bool.

(** swap, algorithm.hpp:32-43 (nothing happens when both references are the same object) *)
Definition swap (l : list A) (i j : nat) : res (list A) :=
  if i =? j then Ok l
  else a <- get l i;; b <- get l j;; l1 <- set l i b;; set l1 j a.

(** the partition loop of sort, algorithm.hpp:108-115 / 187-194; [n] = last - 1 - it iterations
    remain. Returns the array and the cursor. *)
Fixpoint part (n : nat) (l : list A) (cursor it : nat) (pivot : A) : res (list A * nat) :=
  match n with
  | O => Ok (l, cursor)
  | S n' =>
    x <- get l it;;
    b <- less x pivot;;
    if (b : bool) then l' <- swap l cursor it;; part n' l' (S cursor) (S it) pivot
    else part n' l cursor (S it) pivot
  end.

(** [less] applied to two array cells, e.g. algorithm.hpp:52, 60 *)
Definition less_at (l : list A) (i j : nat) : res bool :=
  x <- get l i;; y <- get l j;; less x y.

(** the three-element branch, algorithm.hpp:60-98 / 139-177 *)
Definition sort3 (l : list A) (f : nat) : res (list A) :=
  b10 <- less_at l (f + 1) f;;
  if (b10 : bool) then
    b20 <- less_at l (f + 2) f;;
    if (b20 : bool) then
      b21 <- less_at l (f + 2) (f + 1);;
      if (b21 : bool) then swap l f (f + 2)
      else l1 <- swap l f (f + 1);; swap l1 (f + 1) (f + 2)
    else swap l f (f + 1)
  else
    b20 <- less_at l (f + 2) f;;
    if (b20 : bool) then l1 <- swap l f (f + 1);; swap l1 f (f + 2)
    else
      b21 <- less_at l (f + 2) (f + 1);;
      if (b21 : bool) then swap l (f + 1) (f + 2) else Ok l.

(** sort, algorithm.hpp:46-122 and 125-201. [fuel] bounds the recursion depth;
    S (last - first) always suffices (Proof_Sort.v); running out reports [IllFormed]. *)
Fixpoint sort (fuel : nat) (l : list A) (first last : nat) : res (list A) :=
  match fuel with
  | O => Err IllFormed
  | S fu =>
    if last - first <? 2 then Ok l
    else if last - first <? 3 then
      b <- less_at l (first + 1) first;;
      if (b : bool) then swap l first (first + 1) else Ok l
    else if last - first <? 4 then sort3 l first
    else
      pivot <- get l (last - 1);;
      ' (l1, cursor) <- part (last - 1 - first) l first first pivot;;
      l2 <- swap l1 (last - 1) cursor;;
      l3 <- sort fu l2 first cursor;;
      sort fu l3 (cursor + 1) last
  end.

(** sort(first, last) on a whole array or a prefix of it, algorithm.hpp:46-48 *)
Definition sort_range (l : list A) (first last : nat) : res (list A) :=
  sort (S (last - first)) l first last.
End Sort.
