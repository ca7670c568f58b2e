(** What the symbolic evaluation of a program should compute: the multivectors on the symbolic
    stack stand for the values of the stack machine of Spec_Expr.v once the indeterminates are
    given values. *)
From Coq Require Import ZArith NArith List Bool Arith Reals Sorting.Sorted.
From Verif Require Import Base Model_Numeric Model_Blade Model_MV Model_Product Model_Expr Model_Dfa
  Spec_Numeric Spec_Clifford Spec_MV Spec_Basis Spec_Expr.
Import ListNotations.
Local Open Scope nat_scope.

(** ** Multivectors and values *)

(** the multivector [x] stands for [v] when the indeterminates have the values [rho] *)
Definition mv_means (rho : N -> R) (n : nat) (x : mv) (v : V) : Prop :=
  exists tx, packed x tx /\ mop x = mop_id /\ proper n tx /\ defined rho tx /\ forall b, val rho tx b = v b.

(** the function of the real numbers a multivector is marked with *)
Definition op_fun (o : mv_op) : R -> R :=
  match o with
  | mop_id => fun x => x | mop_sin => sin | mop_cos => cos | mop_tan => tan | mop_sqrt => sqrt
  end.
(** a marked multivector: the function is applied to each monomial *)
Definition marked_val (rho : N -> R) (o : mv_op) (ms : list smon) : R := Rsum (map (fun s => op_fun o (mon_val rho s)) ms).
(** a multivector ready to be stored as a temporary: distinct blades, coefficients that are not
    zero and have positive denominators, integral exponents that are not zero; its value is [v] *)
Definition mv_stores (rho : N -> R) (n : nat) (x : mv) (v : V) : Prop :=
  exists tx, packed x tx /\ StronglySorted N.lt (map fst tx) /\ in_dim n tx /\ mv_ok tx /\
    Forall (fun s => num (sq s) <> 0 /\ 0 < den (sq s) /\ Forall (fun i => num (ideg i) <> 0) (sinds s))%Z (all_mons tx) /\
    Forall (fun t : sterm => snd t <> []) tx /\
    forall b, Rsum (map (fun t : sterm => if (fst t =? b)%N then marked_val rho (mop x) (snd t) else 0%R) tx) = v b.
(** the indeterminates of the temporary [p] have the values of the terms of its multivector *)
Definition temp_holds (rho : N -> R) (p : mv * N) : Prop :=
  forall tx k t, packed (fst p) tx -> nth_error tx k = Some t ->
    rho (snd p + N.of_nat k)%N = marked_val rho (mop (fst p)) (snd t).

(** ** Programs whose operations are applicable *)

(** a single scalar term with a single monomial *)
Definition mono_scalar (x : mv) : bool :=
  (tsz x =? 1) && match terms x with t :: _ => (elem t =? 0)%N && (tcount t =? 1) | [] => false end.
(** a scalar divisor of one monomial, with no indeterminate or with one that does not occur in the
    dividend *)
Definition divisor_for (x y : mv) : bool :=
  mono_scalar y &&
  match mons y, inds y with
  | c :: _, [] => true
  | c :: _, [d] => (mcount c =? 1) && forallb (fun i => negb (id i =? id d)%N) (firstn (isz x) (inds x))
  | _, _ => false
  end.
(** no blade of grade [g] comes after one of a higher grade *)
Fixpoint grade_before (g : N) (l : list N) : bool :=
  match l with
  | [] => true
  | a :: l' => grade_before g l' && (negb (g <? pop_count a)%N || forallb (fun b => negb (pop_count b =? g)%N) l')
  end.
(** functions that vanish at zero *)
Definition is_fn (o : N) : bool := ((o =? op_sqrt) || (o =? op_sin) || (o =? op_cos) || (o =? op_tan))%N.
(** operations that are always applicable *)
Definition plain_ops : list N := [op_id; op_cse; op_rev; op_pd; op_sum; op_gp; op_ep; op_lc; op_sip; op_comp; c_zero; c_pi; c_e].
(** node [n] is applicable to the arguments [args]; [dim] is the dimension of the algebra *)
Definition fit (dim : nat) (n : node) (args : list mv) : bool :=
  if (no n =? op_grd)%N then
    match args with x :: _ => grade_before (N.of_nat (nex n)) (map elem (firstn (tsz x) (terms x))) | [] => true end
  else if (no n =? op_noop)%N then
    match args with x :: _ => (length (terms x) =? tsz x) | [] => true end
  else if (no n =? op_div)%N then
    (0 <? den (nq n))%Z && negb (num (nq n) =? 0)%Z && match args with y :: x :: _ => divisor_for x y | _ => true end
  else if is_fn (no n) then
    (0 <? den (nq n))%Z && negb (num (nq n) =? 0)%Z &&
    match args with x :: _ => mono_scalar x || (negb (no n =? op_cos)%N && (tsz x =? 0)) | [] => true end
  else if (c_scalar <=? no n)%N then (no n - c_scalar <? 2 ^ N.of_nat dim)%N
  else existsb (N.eqb (no n)) plain_ops.
(** the results of division and of the functions must be stored at once *)
Definition must_store (n : node) : bool := (no n =? op_div)%N || is_fn (no n).
(** every node of the program is applicable when it is reached *)
Inductive fits (md : mode) (m : metric) (nb : bool) : list node -> rstate -> Prop :=
| fits_nil st : fits md m nb [] st
| fits_step n l st st' : no n <> op_se -> must_store n = false -> fit (dim m) n (r_args st) = true ->
    rpn_step md m nb n st = Ok st' -> fits md m nb l st' -> fits md m nb (n :: l) st
| fits_store n k l st st1 st2 : must_store n = true -> no k = op_noop -> fit (dim m) n (r_args st) = true ->
    rpn_step md m nb n st = Ok st1 -> fit (dim m) k (r_args st1) = true ->
    rpn_step md m nb k st1 = Ok st2 -> fits md m nb l st2 -> fits md m nb (n :: k :: l) st
| fits_se n b l st sub st' : no n = op_se -> nex n = length b -> (num (nq n) = 0 \/ 0 < den (nq n))%Z ->
    fits md m nb b (rpn_open st) -> rpn_run md m nb (S (length b)) b (rpn_open st) = Ok sub ->
    rpn_close md n st sub = Ok st' -> fits md m nb l st' -> fits md m nb (n :: b ++ l) st.
(** programs over the algebraic operators: no grade selection, division, function or temporary;
    positive denominators and blades of the algebra *)
Definition algebraic_node (dim : nat) (n : node) : bool :=
  if (no n =? op_se)%N then (num (nq n) =? 0)%Z || (0 <? den (nq n))%Z
  else existsb (N.eqb (no n)) plain_ops || (c_scalar <=? no n)%N && (no n - c_scalar <? 2 ^ N.of_nat dim)%N.

(** ** Inputs *)

(** the indeterminate form [x] of an input stands for [v]; in a conformal algebra inputs are given
    in the null basis and computed with in the natural one *)
Definition input_means (rho : N -> R) (m : metric) (nb : bool) (x : mv) (v : V) : Prop :=
  if nb then exists w, mv_means rho (dim m) x w /\
    forall b, v b = if (b <? 2 ^ dimension m)%N then linear (dim m) (outermorphism (dim m) (null_to_natural (dim m))) w b else 0%R
  else mv_means rho (dim m) x v.
(** [ins] are the inputs of the program [l] *)
Definition inputs_mean (rho : N -> R) (m : metric) (nb : bool) (env : list V) (l : list node) (ins : list mv) : Prop :=
  Forall2 (fun n x => exists v, nth_error env (nex n) = Some v /\ input_means rho m nb x v) (filter is_id l) ins.
