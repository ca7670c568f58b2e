(** The expression a lambda builds, and the conditions under which each operator is right. *)
From Coq Require Import ZArith NArith List Bool Reals.
From Verif Require Import Base Model_Numeric Model_Blade Model_Expr Spec_Numeric Spec_Clifford Spec_MV Spec_Basis Spec_Expr.
Import ListNotations.
Local Open Scope nat_scope.

(** expressions of the C++ type rpne_constant, expr.hpp:363-377 and 720-736 *)
Fixpoint is_const (u : uexpr) : bool :=
  match u with UPi | UE => true | UScale _ a | UDivZ a _ => is_const a | _ => false end.
Section Build.
Variable md : mode.
(** the inputs handed to the lambda, engine.hpp:455-470 *)
Variable ins : list rpne.
Definition bind1 (f : rpne -> res rpne) (a : res rpne) : res rpne := x <- a;; f x.
Definition bind2 (f : rpne -> rpne -> res rpne) (a b : res rpne) : res rpne := x <- a;; y <- b;; f x y.
(** Overload resolution, expr.hpp:379-1176. A constant is converted when it meets an expression;
    scaling it before or after is the same for a non-zero factor ([scale_const] in Proof_Expr4). The
    product with a constant puts the constant last, expr.hpp:962-972. *)
Fixpoint build (u : uexpr) : res rpne :=
  match u with
  | UIn i => match nth_error ins i with Some e => Ok e | None => Err OutOfBounds end
  | UBlade e n => Ok (e_blade e n)
  | UPi => Ok (rc_convert c_PI)
  | UE => Ok (rc_convert c_E)
  | UAdd a b => bind2 (e_add md) (build a) (build b)
  | USub a b => bind2 (e_sub md) (build a) (build b)
  | UNeg a => bind1 e_neg (build a)
  | UScale n a => bind1 (e_scale n) (build a)
  | UDivZ a d => bind1 (fun x => e_divz x d) (build a)
  | UZDiv n a => bind1 (e_zdiv n) (build a)
  | UDiv a b => bind2 (e_div md) (build a) (build b)
  | UAddZ n a => bind1 (e_addz md n) (build a)
  | UZSub n a => bind1 (e_zsub md n) (build a)
  | USubZ a n => bind1 (fun x => e_subz md x n) (build a)
  | URev a => bind1 e_rev (build a)
  | UDual a => bind1 e_dual (build a)
  | UFn o a => bind1 (e_fn o) (build a)
  | UGp a b => if is_const a then bind2 (e_gp md) (build b) (build a) else bind2 (e_gp md) (build a) (build b)
  | ULc a b => bind2 (e_lc md) (build a) (build b)
  | USip a b => bind2 (e_sip md) (build a) (build b)
  | UEp a b => bind2 (e_ep md) (build a) (build b)
  | UVee a b => bind2 (e_vee md) (build a) (build b)
  | USandwich a b => bind2 (e_sandwich md) (build a) (build b)
  | UScalarProduct a b => bind2 (e_scalar_product md) (build a) (build b)
  | UComp a e => bind1 (fun x => e_comp x e) (build a)
  | UGrade a g => bind1 (fun x => e_grade x g) (build a)
  end.
End Build.

(** the room that the expression of a lambda takes: every sum and exterior product takes up to three
    nodes, n / x two, a sandwich contains its right operand twice *)
Fixpoint cost (u : uexpr) : nat :=
  match u with
  | UIn _ | UBlade _ _ | UPi | UE => 1
  | UAdd a b | USub a b | UEp a b => cost a + cost b + 3
  | UNeg a | UScale _ a | UDivZ a _ => cost a
  | UZDiv _ a => cost a + 2
  | UAddZ _ a | UZSub _ a | USubZ a _ => cost a + 4
  | URev a | UDual a | UFn _ a | UComp a _ | UGrade a _ => cost a + 1
  | UDiv a b | UGp a b | ULc a b | USip a b => cost a + cost b + 1
  | UScalarProduct a b => cost a + cost b + 2
  | UVee a b => cost a + cost b + 6
  | USandwich a b => cost a + 2 * cost b + 3
  end.

(** ** Side conditions *)
Definition on1 (P : rpne -> Prop) (a : res rpne) : Prop := match a with Ok x => P x | Err _ => False end.
Definition on2 (P : rpne -> rpne -> Prop) (a b : res rpne) : Prop :=
  match a, b with Ok x, Ok y => P x y | _, _ => False end.
(** addition: zero is added to unscaled expressions only; terms taken to be equal are equal; sums are
    merged with equal scales; not everything cancels *)
Definition add_right (l r : rpne) : Prop :=
  (~ nonempty l -> unscaled r) /\ (~ nonempty r -> unscaled l) /\
  (nonempty l -> nonempty r -> agree (rnodes l) (rnodes r) /\ merge_fair l r /\ on1 (fun e => ~ cancelled e) (e_add Exact l r)).
Section Faithful.
Variable m : metric.
Variable env : list V.
Variable ins : list rpne.
Notation B := (build Exact ins).
Fixpoint faithful (u : uexpr) : Prop :=
  match u with
  | UIn i => i < length env
  | UBlade _ n => n <> 0%Z
  | UPi => True
  | UE => False
  | UAdd a b => faithful a /\ faithful b /\ on2 add_right (B a) (B b)
  | USub a b => faithful a /\ faithful b /\ on2 (fun l r => on1 (add_right l) (e_neg r)) (B a) (B b)
  | UNeg a => faithful a
  | UScale _ a => faithful a
  | UDivZ a _ => faithful a
  | UZDiv n a => faithful a /\ n = 1%Z
  | UDiv a b => faithful a /\ faithful b /\ on1 nonempty (B a)
  | UAddZ n a => faithful a /\ n <> 0%Z /\ on1 (add_right (e_const n 1)) (B a)
  | UZSub n a => faithful a /\ n <> 0%Z /\ on1 (fun x => on1 (add_right (e_const n 1)) (e_neg x)) (B a)
  | USubZ a n => faithful a /\ n <> 0%Z /\ on1 (add_right (e_const (- n) 1)) (B a)
  | URev a => faithful a /\ on1 unscaled (B a)
  | UDual a => faithful a /\ on1 unscaled (B a)
  | UFn _ a => faithful a
  | UGp a b => faithful a /\ faithful b /\ on1 nonempty (B a) /\ on1 nonempty (B b)
  | ULc a b => faithful a /\ faithful b /\ on1 nonempty (B a) /\ on1 nonempty (B b)
  | USip a b => faithful a /\ faithful b /\ on2 first_checksum_less (B a) (B b)
  | UEp a b => faithful a /\ faithful b /\
      on2 (fun l r => is_wedge l \/ is_wedge r -> (rv (rq l) * rv (rq r) = 1)%R) (B a) (B b)
  | UVee a b => faithful a /\ faithful b /\ on1 unscaled (B a) /\ on1 unscaled (B b)
  | USandwich a b => faithful a /\ faithful b /\ on1 nonempty (B a) /\ on1 nonempty (B b) /\ on1 unscaled (B b)
  | UScalarProduct a b => faithful a /\ faithful b /\ on1 nonempty (B a) /\ on1 nonempty (B b) /\
      forall v w, means m env a v -> means m env b w -> (v 0%N * w 0%N = 0)%R
  | UComp a _ => faithful a
  | UGrade a _ => faithful a
  end.
End Faithful.
(** ** Bounds: the operators that read the last node need one *)
Section Guarded.
Variable md : mode.
Variable ins : list rpne.
Notation B := (build md ins).
Definition some (a : res rpne) : Prop := forall x, a = Ok x -> nonempty x.
Fixpoint guarded (u : uexpr) : Prop :=
  match u with
  | UIn i => i < length ins
  | UBlade _ _ | UPi | UE => True
  | UNeg a | UScale _ a | UDivZ a _ | UZDiv _ a | UAddZ _ a | UZSub _ a | USubZ a _ | URev a | UDual a => guarded a
  | UAdd a b | USub a b | UGp a b | ULc a b | USip a b | UEp a b | UVee a b | USandwich a b | UScalarProduct a b => guarded a /\ guarded b
  | UDiv a b => guarded a /\ guarded b /\ (some (B a) \/ some (B b))
  | UFn o a => guarded a /\ fn o <> None /\ some (B a)
  | UComp a _ | UGrade a _ => guarded a /\ some (B a)
  end.
End Guarded.
