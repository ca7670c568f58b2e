(** Model of public/gal/stack.hpp. *)
From Coq Require Import NArith List Bool.
From Verif Require Import Base.
Import ListNotations.
Local Open Scope N_scope.

Section Stack.
Context {A : Type}.

(** stack<T, C>, stack.hpp:10-15: the capacity C is the length of [data]; [count] is a size_t *)
Record stack := mk_stack { data : list A; count : N }.

(** size_t subtraction wraps (used by stack.hpp:44, 49, 55, 60, 65) *)
Definition sub64 (a b : N) : N := (a + 2 ^ 64 - b) mod 2 ^ 64.

(** data[i], bounds checked (stack.hpp:29, 34, 39, 44, 50, 55, 60, 65) *)
Definition at_ (d : list A) (i : N) : res A := get d (N.to_nat i).

(** empty, stack.hpp:17-20 *)
Definition s_empty (s : stack) : bool := count s =? 0.
(** clear, stack.hpp:22-25 *)
Definition s_clear (s : stack) : stack := mk_stack (data s) 0.
(** operator[], stack.hpp:27-35 *)
Definition s_index (s : stack) (i : N) : res A := at_ (data s) i.
(** push, stack.hpp:37-40 *)
Definition s_push (s : stack) (x : A) : res stack :=
  d <- set (data s) (N.to_nat (count s)) x;; Ok (mk_stack d (count s + 1)).
(** pop(), stack.hpp:42-45 *)
Definition s_pop0 (s : stack) : res (A * stack) :=
  x <- at_ (data s) (count s);; Ok (x, mk_stack (data s) (sub64 (count s) 1)).
(** pop(n), stack.hpp:47-51 *)
Definition s_pop (s : stack) (n : N) : res (A * stack) :=
  let c := sub64 (count s) n in
  x <- at_ (data s) c;; Ok (x, mk_stack (data s) c).
(** peek(), stack.hpp:53-61 *)
Definition s_peek0 (s : stack) : res A := at_ (data s) (sub64 (count s) 1).
(** peek(i), stack.hpp:63-66 *)
Definition s_peek (s : stack) (i : N) : res A := at_ (data s) (sub64 (count s) i).
End Stack.
Arguments stack A : clear implicits.
