(** Model of compute as a whole, public/gal/engine.hpp:455-517 (Model_Engine.v has the part after
    reshaping). The lambda is given by the expressions it returns, as functions of its arguments. *)
From Coq Require Import ZArith NArith List Bool Arith Reals.
From Verif Require Import Base Model_Numeric Model_Blade Model_MV Model_Expr Model_Dfa Model_Reshape Model_Engine Spec_Expr Spec_Build.
Import ListNotations.
Local Open Scope nat_scope.

(** entities.first, engine.hpp:464 (rpne_entities, expr.hpp:277-313): the arguments of the lambda *)
Definition lambda_inputs (inputs : list (list R)) : list rpne := fst (e_entities 0 0 (map (@length R) inputs)).
Section Compute.
Variable md : mode.
Variable m : metric.
Variable nb : bool.
(** the functions ie and the components of the arguments *)
Variable ies : list (N -> mv).
Variable inputs : list (list R).
(** static_assert(sizeof...(Data) > 0), engine.hpp:458-459 *)
Definition some_input : res unit := match inputs with [] => Err IllFormed | _ => Ok tt end.
(** reshaping and evaluation, engine.hpp:468-517 *)
Definition compute_rpn (e : rpne) : res (list entity) :=
  _ <- some_input;; y <- reshape e;; compute md m nb ies inputs (rnodes y) (rq y).
(** the lambda returns one expression, engine.hpp:464-466; rpne_concat returns it unchanged
    (expr.hpp:357-360) *)
Definition compute_one (u : uexpr) : res (list entity) :=
  e <- build md (lambda_inputs inputs) u;; compute_rpn e.
(** the lambda returns a tuple, engine.hpp:464-466 and expr.hpp:344-356 *)
Definition compute_tuple (us : list uexpr) : res (list entity) :=
  xs <- mapM (build md (lambda_inputs inputs)) us;; e <- e_concat xs;; compute_rpn e.
End Compute.
