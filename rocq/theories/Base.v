(** Outcome type and small utilities shared by the model files.
    Nothing here models a particular function of /repo; the outcome type makes
    the undefined behaviour of the C++ explicit. *)
From Coq Require Import ZArith NArith List Bool.
Import ListNotations.

(** The ways an evaluation can fail.
    [Overflow]    : signed 32-bit overflow (numeric.hpp:162-170 says the types are ints
                    "so the compiler can help detect overflows": in a constant
                    expression this is a compile error).
    [OutOfBounds] : access outside a [std::array] (capacity I, M, T of mv,
                    algebra.hpp:472-500) or outside a container.
    [DivZero]     : integer division by zero.
    [Rounded]     : only produced in [Exact] mode, where the model stops instead of
                    letting numeric.hpp:273-371 round a rational.
    [IllFormed]   : the template instantiation would not compile. *)
Inductive err := Overflow | OutOfBounds | DivZero | Rounded | IllFormed.

(** the outcome of a constant expression: a value, or undefined behaviour (e.g. numeric.hpp:162-170,
    algebra.hpp:472-500) *)
Inductive res (A : Type) := Ok (a : A) | Err (e : err).
Arguments Ok {A} a.
Arguments Err {A} e.

(** sequencing; replaces statement sequences throughout, e.g. algebra.hpp:742-766 *)
Definition bind {A B} (x : res A) (f : A -> res B) : res B :=
  match x with Ok a => f a | Err e => Err e end.

Notation "x <- e ;; f" := (bind e (fun x => f))
  (at level 61, e at next level, right associativity).
Notation "' p <- e ;; f" := (bind e (fun p => f))
  (at level 61, p pattern, e at next level, right associativity).

(** stop with [e] unless [b], e.g. where a std::array would be left, algebra.hpp:472-500 *)
Definition guard (b : bool) (e : err) : res unit := if b then Ok tt else Err e.

(** Monadic map over a list, left to right: a for loop over an array, e.g. algebra.hpp:506-511. *)
Fixpoint mapM {A B} (f : A -> res B) (l : list A) : res (list B) :=
  match l with
  | [] => Ok []
  | a :: t => b <- f a;; bs <- mapM f t;; Ok (b :: bs)
  end.

(** Array read with bounds check, arrays of algebra.hpp:493-495. *)
Definition get {A} (l : list A) (i : nat) : res A :=
  match nth_error l i with Some a => Ok a | None => Err OutOfBounds end.

(** Array write without bounds check, arrays of algebra.hpp:493-495. *)
Fixpoint upd {A} (l : list A) (i : nat) (a : A) : list A :=
  match l, i with
  | [], _ => []
  | _ :: t, O => a :: t
  | x :: t, S j => x :: upd t j a
  end.
(** Array write with bounds check, arrays of algebra.hpp:493-495. *)
Definition set {A} (l : list A) (i : nat) (a : A) : res (list A) :=
  if (i <? length l)%nat then Ok (upd l i a) else Err OutOfBounds.

(** The [cnt] elements starting at [off], with bounds check, e.g. algebra.hpp:719-732. *)
Definition slice {A} (l : list A) (off cnt : nat) : res (list A) :=
  if (off + cnt <=? length l)%nat then Ok (firstn cnt (skipn off l)) else Err OutOfBounds.

(** Whether rational rounding (numeric.hpp:273-371) is performed ([Code], what the
    library does) or reported ([Exact]). *)
Inductive mode := Code | Exact.
