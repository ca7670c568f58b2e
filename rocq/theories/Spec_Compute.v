(** When compute as a whole is right. *)
From Coq Require Import ZArith NArith List Bool Arith Reals.
From Verif Require Import Base Model_Numeric Model_Blade Model_MV Model_Expr Model_Dfa Model_Reshape Model_Engine
  Spec_Numeric Spec_Clifford Spec_MV Spec_Basis Spec_Expr Spec_Build Spec_Dfa Spec_Engine Spec_Reshape.
Import ListNotations.
Local Open Scope nat_scope.

(** expressions without division by expressions, functions and grade selection; divisors are
    positive, blades are blades of the algebra *)
Fixpoint algebraic (dim : nat) (u : uexpr) : bool :=
  match u with
  | UIn _ | UPi => true
  | UBlade e _ => (e <? 2 ^ N.of_nat dim)%N
  | UE | UZDiv _ _ | UDiv _ _ | UFn _ _ | UGrade _ _ => false
  | UNeg a | UScale _ a | UAddZ _ a | UZSub _ a | USubZ a _ | URev a | UDual a | UComp a _ => algebraic dim a
  | UDivZ a d => (0 <? d)%Z && algebraic dim a
  | UAdd a b | USub a b | UGp a b | ULc a b | USip a b | UEp a b | UVee a b | USandwich a b | UScalarProduct a b =>
    algebraic dim a && algebraic dim b
  end.
(** any expression: divisors are positive, and the scales of divisors are not zero *)
Section Regular.
Variable ins : list rpne.
Fixpoint regular (u : uexpr) : Prop :=
  match u with
  | UIn _ | UPi | UE | UBlade _ _ => True
  | UNeg a | UScale _ a | UAddZ _ a | UZSub _ a | USubZ a _ | URev a | UDual a | UComp a _ | UGrade a _ => regular a
  | UFn o a => o <> op_id /\ regular a
  | UDivZ a d => (0 < d)%Z /\ regular a
  | UZDiv _ a => regular a /\ on1 (fun x => 0 < num (rq x))%Z (build Exact ins a)
  | UDiv a b => regular a /\ regular b /\ on1 (fun x => num (rq x) <> 0)%Z (build Exact ins b)
  | UAdd a b | USub a b | UGp a b | ULc a b | USip a b | UEp a b | UVee a b | USandwich a b | UScalarProduct a b =>
    regular a /\ regular b
  end.
End Regular.
(** the program and its array are smaller than 2^32 *)
Definition short (e : rpne) : Prop := (N.of_nat (length (rnodes e)) < 2 ^ 32)%N /\ (N.of_nat (rcap e) < 2 ^ 32)%N.
(** the indeterminate form of every type of input has no unused terms *)
Definition filled (ies : list (N -> mv)) : Prop := Forall (fun ie => forall o, length (terms (ie o)) = tsz (ie o)) ies.
