(** What rounding may do to the results: error bounds in units of the roundoff [u]. *)
From Coq Require Import ZArith NArith List Bool Arith Reals.
Require Import Flocq.Core.Core.
From Verif Require Import Base Model_Numeric Model_MV Model_Product Model_Expr Model_Dfa Model_Engine Spec_Numeric Spec_Clifford Spec_MV Spec_Expr Spec_Dfa Spec_Engine.
Import ListNotations.
Local Open Scope nat_scope.

(** every result of [fl] is the argument with a relative error of at most [u] *)
Definition rounds (u : R) (fl : R -> res R) : Prop :=
  forall x y, fl x = Ok y -> exists d, (Rabs d <= u)%R /\ y = (x * (1 + d))%R.
(** the unit roundoff of a format with [prec] bits *)
Definition roundoff (prec : Z) : R := bpow radix2 (- prec).
(** the relative error that [n] roundings may build up, if n u < 1 *)
Definition gamma (u : R) (n : nat) : R := (INR n * u / (1 - INR n * u))%R.

(** ** The number of roundings *)

(** of a power of a number: multiplications, and a division for negative exponents *)
Definition pow_roundings (n : Z) : nat :=
  (if (Z.abs n <=? 8)%Z then Z.to_nat (Z.abs n) - 1 else Z.to_nat (Z.abs n)) + (if (n <? 0)%Z then 1 else 0).
(** of an indeterminate: each occurrence of a constant is rounded *)
Definition ind_roundings (i : ind) : nat :=
  (if (ind_constant_start <=? id i)%N then Z.to_nat (Z.abs (num (ideg i))) else 0) + pow_roundings (num (ideg i)).
(** of the multiplication with p/q: p and q are rounded, divided, and multiplied with *)
Definition coefficient_roundings (q : rat) : nat :=
  if (den q =? 1)%Z then if (num q =? 1)%Z then 0 else 2
  else if (num q =? 1)%Z then 2 else 4.
(** of a monomial with n indeterminates: n - 1 multiplications *)
Definition mon_roundings (s : smon) : nat :=
  match sinds s with
  | [] => 3
  | _ => list_sum (map ind_roundings (sinds s)) + (length (sinds s) - 1) + coefficient_roundings (sq s)
  end.
(** of a sum of n monomials: n - 1 additions *)
Definition sum_roundings (ms : list smon) : nat := list_max (map mon_roundings ms) + (length ms - 1).
(** of a component of the result, with the outermost factor *)
Definition roundings (q : rat) (ms : list smon) : nat := sum_roundings ms + coefficient_roundings q.

(** ** The size of a sum of monomials: without the signs *)
Definition mons_size (rho : N -> R) (ms : list smon) : R := Rsum (map (fun s => Rabs (mon_val rho s)) ms).
(** [v] is computed for the sum of monomials [ms] times [q] *)
Definition computed_for (u : R) (rho : N -> R) (q : rat) (ms : list smon) (v : R) : Prop :=
  (Rabs (v - rv q * mons_val rho ms) <= gamma u (roundings q ms) * (Rabs (rv q) * mons_size rho ms))%R.
(** no relative error bound makes sense beyond this number of roundings *)
Definition few_roundings (u : R) (q : rat) (ms : list smon) : Prop := (INR (roundings q ms) * u < 1)%R.

(** ** Entities *)

(** the multivector [y] has the terms [tx] *)
Definition shows (y : mv) (tx : list sterm) : Prop := exists y', sim y y' /\ packed y' tx.
(** the components of [e] are computed for the terms of [y] times [q] *)
Definition entity_computed (u : R) (rho : N -> R) (q : rat) (e : entity) (tx : list sterm) : Prop :=
  Forall2 (fun (p : N * R) (t : sterm) => fst p = fst t /\ computed_for u rho q (snd t) (snd p)) e tx.
(** the error allowed for the coefficient of blade [b] *)
Definition error_at (u : R) (rho : N -> R) (q : rat) (tx : list sterm) (b : N) : R :=
  Rsum (map (fun t : sterm => if (fst t =? b)%N then gamma u (roundings q (snd t)) * (Rabs (rv q) * mons_size rho (snd t)) else 0) tx)%R.

(** ** Integers *)

(** [fl] does not round integers up to [B] *)
Definition keeps_integers (B : R) (fl : R -> res R) : Prop := forall z, (Rabs (IZR z) <= B)%R -> fl (IZR z) = Ok (IZR z).
Definition is_integer (x : R) : Prop := exists z, x = IZR z.
(** the size of a monomial with values raised to at least one *)
Definition mon_bound (data : list R) (s : smon) : R :=
  (IZR (Z.abs (num (sq s))) * Rprod (map (fun i => Rmax 1 (Rabs (nth (N.to_nat (id i)) data 0)) ^ Z.to_nat (num (ideg i))) (sinds s)))%R.
(** an integer times a product of positive powers of cells *)
Definition integer_mon (data : list R) (s : smon) : Prop :=
  den (sq s) = 1%Z /\ num (sq s) <> 0%Z /\
  Forall (fun i => den (ideg i) = 1%Z /\ (0 < num (ideg i) <= int_max)%Z /\ (N.to_nat (id i) < length data) /\ (id i < ind_constant_start)%N) (sinds s).
(** sums of such monomials that are not too large *)
Definition integer_terms (B : R) (data : list R) (q : rat) (tx : list sterm) : Prop :=
  Forall (fun t : sterm => snd t <> [] /\ Forall (integer_mon data) (snd t) /\
    (IZR (Z.abs (num q)) * Rsum (map (mon_bound data) (snd t)) <= B)%R) tx.

(** ** Temporaries *)

(** each cell of the temporary is computed for its term from the values of the cells before *)
Definition temp_computed (u : R) (rho : N -> R) (p : mv * N) : Prop :=
  exists tx, shows (fst p) tx /\ (mop (fst p) = mop_id -> forall k t, nth_error tx k = Some t -> few_roundings u one (snd t) ->
    computed_for u rho one (snd t) (rho (snd p + N.of_nat k)%N)).
