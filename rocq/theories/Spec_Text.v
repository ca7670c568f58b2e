(** What the text of a program should tell. *)
From Coq Require Import ZArith NArith List Bool.
From Verif Require Import Model_Numeric Model_Expr.
Import ListNotations.

(** what distinguishes two nodes for a reader, besides the operator: an input by its id, a reference,
    component or grade by its number, a subexpression by its scale and length, a sum by its number of
    summands, a function by the scale of its argument; either all checksums or the scales of
    divisions *)
Inductive part := Checksum | Number | Scale.
Definition parts (cs : bool) (o : N) : list part :=
  match o with
  | 0 => [Checksum]
  | 1 | 11 | 13 => [Number]
  | 2 => [Number; Scale]
  | 6 => if cs then [Number; Checksum] else [Number]
  | 8 => if cs then [Number; Checksum] else []
  | 4 | 5 | 7 | 9 | 10 => if cs then [Checksum] else []
  | 12 => if cs then [Checksum] else [Scale]
  | 14 | 15 | 16 | 17 => [Scale]
  | _ => []
  end%N.
Definition same_part (a b : node) (p : part) : Prop :=
  match p with Checksum => ncs a = ncs b | Number => nex a = nex b | Scale => nq a = nq b end.
Definition alike (cs : bool) (a b : node) : Prop := no a = no b /\ Forall (same_part a b) (parts cs (no a)).
(** an id names one input *)
Definition ids_name_inputs (l : list node) : Prop :=
  forall a b, In a l -> In b l -> no a = op_id -> no b = op_id -> ncs a = ncs b -> nex a = nex b.
(** the sign each operator has in the source, and the names of the other nodes *)
From Coq Require Import String.
Local Open Scope string_scope.
Definition signs : list (N * string) :=
  [(op_id, "id("); (op_cse, "cse("); (op_se, "se("); (op_noop, "noop "); (op_rev, "~"); (op_pd, "!"); (op_sum, "+("); (op_gp, "*"); (op_ep, "^");
   (op_lc, "<<"); (op_sip, "|"); (op_comp, "["); (op_grd, "<"); (op_div, "/("); (op_sqrt, "sqrt("); (op_sin, "sin("); (op_cos, "cos("); (op_tan, "tan(");
   (c_zero, "0 "); (c_pi, "pi "); (c_e, "e ")].
