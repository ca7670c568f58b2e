(** What floating-point normalization should compute: closeness of lists of numbers, and ranges. *)
From Coq Require Import ZArith List Reals.
Require Import Flocq.Core.Core.
From Verif Require Import Base.
Import ListNotations.
Local Open Scope R_scope.

(** each number of [l] is that of [l0] with a relative error of at most [g] *)
Definition within (g : R) (l l0 : list R) : Prop := Forall2 (fun a b => Rabs (a - b) <= g * Rabs b) l l0.
(** a finite number of the format *)
Definition representable (fl : R -> res R) (x : R) : Prop := fl x = Ok x.
(** zero, or of an absolute value between 2^a and 2^b *)
Definition sized (a b : Z) (x : R) : Prop := x = 0 \/ bpow radix2 a <= Rabs x <= bpow radix2 b.
