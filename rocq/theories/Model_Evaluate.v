(** Model of the debugging interface, evaluate, public/gal/engine.hpp:371-453: the expression, the
    reshaped expression, the inputs and the multivector of a lambda. *)
From Coq Require Import ZArith NArith List Bool Arith.
From Verif Require Import Base Model_Numeric Model_Blade Model_MV Model_Expr Model_Dfa Model_Reshape Spec_Expr Spec_Build.
Import ListNotations.
Local Open Scope nat_scope.

(** rpn_ids with a count given by the caller, dfa.hpp:50-69: two arrays of [c] entries, zero where no
    node is left *)
Definition rpn_ids_of (c : nat) (l : list node) : list (N * nat) :=
  let ids := firstn c (rpn_ids l) in ids ++ repeat (0%N, 0) (c - length ids).

Section Evaluate.
Variable md : mode.
Variable m : metric.
Variable nb : bool.
(** the functions ie and the sizes of the types Data *)
Variable ies : list (N -> mv).
Variable sizes : list nat.
(** entities.first, engine.hpp:379 *)
Definition eval_inputs : list rpne := fst (e_entities 0 0 sizes).
(** rpnf and rpnf_debug, engine.hpp:375-390; rpne_concat returns a single expression unchanged
    (expr.hpp:357-360) *)
Definition rpnf (u : uexpr) : res rpne := build md eval_inputs u.
(** rpnf of a lambda that returns a tuple, engine.hpp:375-382 *)
Definition rpnf_tuple (us : list uexpr) : res rpne := xs <- mapM (build md eval_inputs) us;; e_concat xs.
(** rpnf_reshaped, engine.hpp:392-399 *)
Definition rpnf_reshaped (u : uexpr) : res rpne := e <- rpnf u;; reshape e.
(** input_map, engine.hpp:401-409 *)
Definition input_map (u : uexpr) : res (list (N * nat)) :=
  e <- rpnf u;; Ok (rpn_ids_of (rpn_id_count (rnodes e)) (rnodes e)).
(** ie, engine.hpp:411-431: the count is that of the expression before it is reshaped, and the factor
    of the expression is not used *)
Definition eval_ie (u : uexpr) : res mv :=
  e <- rpnf u;;
  y <- reshape e;;
  ins <- rpn_inputs ies (rpn_ids_of (rpn_id_count (rnodes e)) (rnodes y));;
  st <- rpn_eval md m nb (rnodes y) ins (N.of_nat (list_sum sizes));;
  ' (x, _) <- top1 (r_args st);; Ok x.
(** ie_reshaped, engine.hpp:433-452: the same text as ie *)
Definition eval_ie_reshaped (u : uexpr) : res mv := eval_ie u.
End Evaluate.
