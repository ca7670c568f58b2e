(** The regressive product of Grassmann: the meet of two blades that together span the space. *)
From Coq Require Import ZArith NArith List Bool Reals.
From Verif Require Import Base Model_Numeric Model_Blade Spec_Clifford Spec_MV Spec_Expr.
Import ListNotations.
Local Open Scope nat_scope.

(** the rule of the common factor: if c is the part common to a = a' ^ c and b = c ^ b', and
    a' ^ c ^ b' is s times the pseudoscalar, then the meet of a and b is s c; for blades of
    generators s is the sign of the exchanges that sort a' followed by b' *)
Definition meet (n : nat) (a b : N) : N * Z :=
  if (N.lor a b =? 2 ^ N.of_nat n - 1)%N
  then (N.land a b, neg1_pow (inversions (gens (N.ldiff a b)) (gens (N.ldiff b a)))) else (0%N, 0%Z).
Definition vmeet (n : nat) (v w : V) : V := bilinear (meet n) n v w.
(** the sign (-1)^(g (n - g)) on grade g *)
Definition vtwist (n : nat) (v : V) : V := fun b => (IZR (neg1_pow (grade b * (n - grade b))) * v b)%R.
(** no components outside of the algebra *)
Definition v_in (n : nat) (v : V) : Prop := forall b, (2 ^ N.of_nat n <= b)%N -> v b = 0%R.
(** the sign (-1)^g on grade g *)
Definition vinvolute (v : V) : V := fun b => (IZR (neg1_pow (grade b)) * v b)%R.
(** of grade g only *)
Definition homogeneous (g : nat) (v : V) : Prop := forall b, grade b <> g -> v b = 0%R.
