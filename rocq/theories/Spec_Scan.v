(** When rpn_reshape reads no array out of bounds. *)
From Coq Require Import NArith List Bool.
From Verif Require Import Base Model_Numeric Model_Expr Model_Reshape.
Import ListNotations.

(** the operations whose operand is evaluated first *)
Definition eager (n : node) : bool := existsb (N.eqb (no n)) [op_div; op_sqrt; op_sin; op_cos; op_tan].
(** no division and no function follows a selection from a selection *)
Definition unnested (l : list node) : Prop :=
  forall p a b c, nth_error l p = Some a -> nth_error l (S p) = Some b -> nth_error l (S (S p)) = Some c ->
    is_read_op (no a) = true -> is_read_op (no b) = true -> eager c = false.
(** the same as a test *)
Fixpoint unnestedb (l : list node) : bool :=
  match l with
  | [] => true
  | a :: r => match r with b :: c :: _ => negb (is_read_op (no a) && is_read_op (no b) && eager c) | _ => true end && unnestedb r
  end.
