(** Model of the symbolic evaluation of programs in reverse Polish notation, public/gal/dfa.hpp:
    collecting the inputs and evaluating node by node. The tuples of the evaluation state are
    lists (Model_Tuple.v models the tuple operations themselves); the checksums stored beside the
    arguments and temporaries are never read and are left out. rpn_reshape is in Model_Reshape.v. *)
From Coq Require Import ZArith NArith List Bool Arith.
From Verif Require Import Base Model_Numeric Model_Blade Model_MV Model_Product Model_Expr.
Import ListNotations.
Local Open Scope nat_scope.

(** ** Inputs *)

(** the test node.o == op_id, dfa.hpp:41, 58 *)
Definition is_id (n : node) : bool := (no n =? op_id)%N.
(** rpn_id_count, dfa.hpp:35-47 *)
Definition rpn_id_count (l : list node) : nat := length (filter is_id l).
(** rpn_ids, dfa.hpp:50-69, with C the number of op_id nodes: the pairs (checksum, ex) *)
Definition rpn_ids (l : list node) : list (N * nat) := map (fun n => (ncs n, nex n)) (filter is_id l).
(** the multivector of a floating point input, dfa.hpp:84-88 *)
Definition float_ie (i : N) : mv := mkmv 1 1 1 [mkind i one] [mkmon one one 1 0] [mkterm 1 0 0] mop_id.
(** rpn_inputs, dfa.hpp:72-98: [ies] are the functions D::ie of the argument types; nth_element
    beyond the pack does not compile *)
Definition rpn_inputs (ies : list (N -> mv)) (l : list (N * nat)) : res (list mv) :=
  mapM (fun p => match nth_error ies (snd p) with Some f => Ok (f (fst p)) | None => Err IllFormed end) l.

(** ** State *)

(** rpn_state, dfa.hpp:591-598; a temporary (rpn_temp, dfa.hpp:109-119) keeps its multivector and
    its first indeterminate; arguments top of the stack first (tuple::push prepends) *)
Record rstate := mkrs { r_in : list mv; r_temps : list (mv * N); r_args : list mv; r_cnt : N }.

(** ind_constant_start, algebra.hpp:15-20 *)
Definition ind_constant_start : N := 4294967167.
(** c_const_start, expr.hpp:59-60 *)
Definition c_const_start : N := c_pi.
(** the multivector of a mathematical constant, dfa.hpp:826-829; the unsigned difference wraps *)
Definition constant_mv (o : N) : mv := float_ie (wrap32 (o + 4294967296 - c_const_start + ind_constant_start)).
(** the multivector of a constant blade, dfa.hpp:837-839 *)
Definition blade_mv (g : N) : mv := mkmv 0 1 1 [] [mkmon one zero 0 0] [mkterm 1 0 g] mop_id.
(** the empty multivector of c_zero, dfa.hpp:818 *)
Definition zero_mv : mv := mkmv 0 0 0 [] [] [] mop_id.

(** resize to the own size, dfa.hpp:701, 714, 726, 739, 752, 802, 813 *)
Definition shrink (x : mv) : res mv := resize x (mkcaps (isz x) (msz x) (tsz x)).

(** top of a stack with at least one element; tuple::pop and get<0> of an empty tuple do not
    compile (tuple.hpp:63-73, 114-117) *)
Definition top1 (l : list mv) : res (mv * list mv) :=
  match l with x :: l' => Ok (x, l') | [] => Err IllFormed end.
(** split<2> with get<1>, get<0>, dfa.hpp:706-709: (second, top, rest) *)
Definition top2 (l : list mv) : res (mv * mv * list mv) :=
  match l with y :: x :: l' => Ok (x, y, l') | _ => Err IllFormed end.
(** split<n>, dfa.hpp:694, 719 (tuple.hpp:121-125); split<0> of a tuple loses the rest and the fold
    over an empty pack does not compile *)
Definition topn (n : nat) (l : list mv) : res (list mv * list mv) :=
  if (n =? 0) || (length l <? n) then Err IllFormed else Ok (firstn n l, skipn n l).

Section Ctx.
Variable md : mode.
(** the metric of the algebra and detail::uses_null_basis of it, null_algebra.hpp:16-17 *)
Variable m : metric.
Variable nb : bool.

(** unary right fold (args.second + ...), dfa.hpp:695-696 *)
Fixpoint fold_sum (l : list mv) : res mv :=
  match l with
  | [] => Err IllFormed
  | [x] => Ok x
  | x :: l' => y <- fold_sum l';; sum md x y
  end.
(** unary right fold (args.second ^ ...), dfa.hpp:720-721; operator^ is dfa.hpp:22-26 *)
Fixpoint fold_ep (l : list mv) : res mv :=
  match l with
  | [] => Err IllFormed
  | [x] => Ok x
  | x :: l' => y <- fold_ep l';; product md (blade_product m Exterior) x y
  end.

(** the arguments after a node other than op_id, op_cse, op_se and op_noop, dfa.hpp:677-844 *)
Definition apply_op (n : node) (args : list mv) : res (list mv) :=
  let o := no n in
  if (o =? op_rev)%N then ' (x, s) <- top1 args;; y <- reverse x;; Ok (y :: s)
  else if (o =? op_pd)%N then ' (x, s) <- top1 args;; y <- poincare_dual md (dimension m) x;; Ok (y :: s)
  else if (o =? op_sum)%N then
    ' (l, s) <- topn (nex n) args;; y <- fold_sum l;; z <- shrink y;; Ok (z :: s)
  else if (o =? op_gp)%N then
    ' (x, y, s) <- top2 args;; z <- product md (blade_product m Geometric) x y;; z' <- shrink z;; Ok (z' :: s)
  else if (o =? op_ep)%N then
    ' (l, s) <- topn (nex n) args;; y <- fold_ep (rev l);; z <- shrink y;; Ok (z :: s)
  else if (o =? op_lc)%N then
    ' (x, y, s) <- top2 args;; z <- product md (blade_product m Contract) x y;; z' <- shrink z;; Ok (z' :: s)
  else if (o =? op_sip)%N then
    ' (x, y, s) <- top2 args;; z <- product md (blade_product m SymInner) x y;; z' <- shrink z;; Ok (z' :: s)
  else if (o =? op_div)%N then
    ' (x, y, s) <- top2 args;; z <- divide md x y (nq n);; Ok (z :: s)
  else if (o =? op_sqrt)%N then ' (x, s) <- top1 args;; y <- Model_MV.fn md mop_sqrt (nq n) x;; Ok (y :: s)
  else if (o =? op_sin)%N then ' (x, s) <- top1 args;; y <- Model_MV.fn md mop_sin (nq n) x;; Ok (y :: s)
  else if (o =? op_cos)%N then ' (x, s) <- top1 args;; y <- Model_MV.fn md mop_cos (nq n) x;; Ok (y :: s)
  else if (o =? op_tan)%N then ' (x, s) <- top1 args;; y <- Model_MV.fn md mop_tan (nq n) x;; Ok (y :: s)
  else if (o =? op_comp)%N then
    ' (x, s) <- top1 args;; y <- component md x (N.of_nat (nex n));; z <- shrink y;; Ok (z :: s)
  else if (o =? op_grd)%N then
    ' (x, s) <- top1 args;; y <- select_grade x (N.of_nat (nex n));; z <- shrink y;; Ok (z :: s)
  else if (o =? c_zero)%N then Ok (zero_mv :: args)
  else if (o <? c_const_end)%N then Ok (constant_mv o :: args)
  else Ok (blade_mv (o - c_scalar) :: args).

(** compute_state of a node other than op_se, dfa.hpp:615-845 *)
Definition rpn_step (n : node) (st : rstate) : res rstate :=
  if (no n =? op_id)%N then (* dfa.hpp:617-636 *)
    ' (x, rest) <- top1 (r_in st);;
    y <- (if nb then to_natural_basis md (dimension m) x else Ok x);;
    Ok (mkrs rest (r_temps st) (y :: r_args st) (r_cnt st))
  else if (no n =? op_cse)%N then (* dfa.hpp:637-644 *)
    match nth_error (r_temps st) (nex n) with
    | Some (x, i) => Ok (mkrs (r_in st) (r_temps st) (create_ref x i :: r_args st) (r_cnt st))
    | None => Err IllFormed
    end
  else if (no n =? op_noop)%N then (* dfa.hpp:667-676 *)
    ' (x, s) <- top1 (r_args st);;
    Ok (mkrs (r_in st) (r_temps st ++ [(x, r_cnt st)]) s (r_cnt st + N.of_nat (tsz x))%N)
  else
    args <- apply_op n (r_args st);; Ok (mkrs (r_in st) (r_temps st) args (r_cnt st)).

(** the state after a subexpression has been evaluated to [sub], dfa.hpp:645-666; the count of
    indeterminates is the one from before *)
Definition rpn_close (n : node) (st sub : rstate) : res rstate :=
  ' (x, _) <- top1 (r_args sub);;
  y <- (if (num (nq n) =? 0)%Z then Ok x else Model_MV.scale md (nq n) x);;
  Ok (mkrs (r_in sub) (r_temps sub) (y :: r_args st) (r_cnt st)).
(** temp_state, dfa.hpp:613 *)
Definition rpn_open (st : rstate) : rstate := mkrs (r_in st) (r_temps st) [] (r_cnt st).

(** rpn_ctx, dfa.hpp:605-883: evaluation of the nodes of a window from left to right; the fuel is
    at least the number of nodes *)
Fixpoint rpn_run (fuel : nat) (l : list node) (st : rstate) : res rstate :=
  match fuel with
  | O => Err IllFormed
  | S f =>
    match l with
    | [] => Ok st
    | n :: l' =>
      if (no n =? op_se)%N then
        if length l' <? nex n then Err IllFormed
        else
          sub <- rpn_run f (firstn (nex n) l') (rpn_open st);;
          st' <- rpn_close n st sub;;
          rpn_run f (skipn (nex n) l') st'
      else st' <- rpn_step n st;; rpn_run f l' st'
    end
  end.
(** the whole program, engine.hpp:481-484 *)
Definition rpn_eval (l : list node) (ins : list mv) (cnt : N) : res rstate :=
  rpn_run (S (length l)) l (mkrs ins [] [] cnt).
End Ctx.
