(** How the rounding errors of stored subexpressions enter the results. *)
From Coq Require Import ZArith NArith List Bool Arith Reals.
From Verif Require Import Base Model_Numeric Model_MV Model_Engine Spec_Numeric Spec_MV Spec_Dfa Spec_Engine Spec_Float.
Import ListNotations.
Local Open Scope nat_scope.

(** the greatest size of the power [n] of [x] if [x] may be wrong by [d] *)
Definition pow_up (x d : R) (n : Z) : R :=
  if (n <? 0)%Z then (/ (Rabs x - d) ^ Z.to_nat (- n))%R else ((Rabs x + d) ^ Z.to_nat n)%R.
(** the greatest size of a monomial if each value [rho i] may be wrong by [del i] *)
Definition mon_up (rho del : N -> R) (s : smon) : R :=
  (Rabs (rv (sq s)) * Rprod (map (fun i => pow_up (rho (id i)) (del (id i)) (num (ideg i))) (sinds s)))%R.
Definition mons_up (rho del : N -> R) (ms : list smon) : R := Rsum (map (mon_up rho del) ms).
(** the values that are divided by are not so wrong that they could be 0 *)
Definition apart (rho del : N -> R) (ms : list smon) : Prop :=
  Forall (fun s => Forall (fun i => (0 <= num (ideg i))%Z \/ (del (id i) < Rabs (rho (id i)))%R) (sinds s)) ms.
(** the error allowed for [q] times a sum of monomials: the values that are used may be wrong, and the sum is rounded *)
Definition allowed (u : R) (rho del : N -> R) (q : rat) (ms : list smon) : R :=
  (Rabs (rv q) * ((1 + gamma u (roundings q ms)) * mons_up rho del ms - mons_size rho ms))%R.

(** ** Functions *)

(** how much the value of a function may change if its argument [x] is wrong by [a] *)
Definition change (o : mv_op) (x a : R) : R :=
  match o with
  | mop_id | mop_sin | mop_cos => a
  | mop_tan => Rmax (tan x - tan (x - a)) (tan (x + a) - tan x)
  | mop_sqrt => Rmax (sqrt x - sqrt (x - a)) (sqrt (x + a) - sqrt x)
  end.
(** no pole of the tangent is near; the other functions are continuous *)
Definition calm (o : mv_op) (x a : R) : Prop :=
  match o with mop_tan => (- (PI / 2) < x - a /\ x + a < PI / 2)%R | _ => True end.
(** the error allowed for a function of a sum of monomials: the argument is wrong, and the result is rounded *)
Definition allowed_fn (u : R) (rho del : N -> R) (o : mv_op) (ms : list smon) : R :=
  let a := allowed u rho del one ms in
  match o with
  | mop_id => a
  | _ => ((1 + u) * change o (mons_val rho ms) a + u * Rabs (op_fun o (mons_val rho ms)))%R
  end.

(** ** Stored subexpressions *)

(** the components with the given terms, each under a function, are stored from a cell on *)
Record cells := mkcells { c_from : N; c_fun : mv_op; c_terms : list sterm }.
Definition stored_like (p : mv * N) (w : cells) : Prop := snd p = c_from w /\ mop (fst p) = c_fun w /\ shows (fst p) (c_terms w).
(** the values of the cells without rounding *)
Definition exactly (rho : N -> R) (w : cells) : Prop :=
  forall k t, nth_error (c_terms w) k = Some t -> rho (c_from w + N.of_nat k)%N = op_fun (c_fun w) (mons_val rho (snd t)).
(** few roundings, and functions of single monomials *)
Definition tame (u : R) (w : cells) : Prop :=
  Forall (fun t : sterm => few_roundings u one (snd t) /\ (c_fun w = mop_id \/ length (snd t) = 1)) (c_terms w).
(** the errors [del] are too small to reach poles *)
Definition steady (u : R) (rho del : N -> R) (w : cells) : Prop :=
  Forall (fun t : sterm => apart rho del (snd t) /\ calm (c_fun w) (mons_val rho (snd t)) (allowed u rho del one (snd t))) (c_terms w).
(** [del] takes account of the errors of these cells *)
Definition covered (u : R) (rho del : N -> R) (w : cells) : Prop :=
  forall k t, nth_error (c_terms w) k = Some t -> (allowed_fn u rho del (c_fun w) (snd t) <= del (c_from w + N.of_nat k)%N)%R.
(** [del] is the error that is allowed for these cells *)
Definition cells_allowed (u : R) (rho del : N -> R) (w : cells) : Prop :=
  forall k t, nth_error (c_terms w) k = Some t -> del (c_from w + N.of_nat k)%N = allowed_fn u rho del (c_fun w) (snd t).

(** ** Results *)

(** the components of [e] are those of [tx] times [q] up to the errors that are allowed *)
Definition entity_near (u : R) (rho del : N -> R) (q : rat) (e : entity) (tx : list sterm) : Prop :=
  Forall2 (fun (p : N * R) (t : sterm) => fst p = fst t /\ (Rabs (snd p - rv q * mons_val rho (snd t)) <= allowed u rho del q (snd t))%R) e tx.
(** the error allowed for the coefficient of blade [b] *)
Definition allowed_at (u : R) (rho del : N -> R) (q : rat) (tx : list sterm) (b : N) : R :=
  Rsum (map (fun t : sterm => if (fst t =? b)%N then allowed u rho del q (snd t) else 0%R) tx).
