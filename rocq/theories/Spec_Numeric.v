(** Mathematical meaning of rationals, powers and bit tricks. *)
From Coq Require Import ZArith NArith QArith Reals.
From Verif Require Import Model_Numeric.

(** The rational number a [rat] stands for (total: x / 0 = 0 in [Q]). *)
Definition qval (r : rat) : Q := (inject_Z (num r) / inject_Z (den r))%Q.
(** The same as a real number. *)
Definition rv (r : rat) : R := (IZR (num r) / IZR (den r))%R.

(** n/d is in lowest terms. *)
Definition lowest (r : rat) : Prop := Z.gcd (num r) (den r) = 1%Z.
(** numerator and denominator fit 32 bits *)
Definition fits (r : rat) : Prop := in_int32 (num r) = true /\ in_int32 (den r) = true.

(** [p] is the least power of two that is >= [s] *)
Definition least_pow2 (s p : N) : Prop :=
  (exists k, p = 2 ^ k)%N /\ (s <= p)%N /\ forall k, (s <= 2 ^ k)%N -> (p <= 2 ^ k)%N.
