(** Model of the numeric evaluation, public/gal/engine.hpp. The field F is idealised as the real
    numbers and the library functions by the functions of the real numbers. A cell of the data
    array (ind_value, engine.hpp:15-36) is the number it stores or points to; the inputs are not
    modified during the evaluation. An entity is the list of its blades with their coefficients. *)
From Coq Require Import ZArith NArith List Bool Arith Reals.
From Verif Require Import Base Model_Numeric Model_Blade Model_MV Model_Product Model_Expr Model_Dfa.
Import ListNotations.
Local Open Scope nat_scope.

(** the value of an entity: blade and coefficient of each component, entity.hpp:57-67 *)
Definition entity := list (N * R).

(** one input written cell by cell, engine.hpp:41-55 *)
Fixpoint fill_one (data : list R) (off : nat) (d : list R) : res (list R) :=
  match d with
  | [] => Ok data
  | x :: d' => data' <- set data off x;; fill_one data' (off + 1) d'
  end.
(** detail::fill, engine.hpp:38-68; an input is the list of its components, one for a floating
    point number *)
Fixpoint fill_inputs (data : list R) (off : nat) (inputs : list (list R)) : res (list R) :=
  match inputs with
  | [] => Ok data
  | d :: ds => data' <- fill_one data off d;; fill_inputs data' (off + length d) ds
  end.

(** apply_mv_op, engine.hpp:74-97 *)
Definition apply_mv_op (o : mv_op) (x : R) : R :=
  match o with
  | mop_id => x | mop_sin => sin x | mop_cos => cos x | mop_tan => tan x | mop_sqrt => sqrt x
  end.
(** ind_constants, algebra.hpp:22-23 *)
Definition ind_constants : list R := [PI; exp 1].
(** data_value, engine.hpp:102-112 *)
Definition data_value (data : list R) (i : N) : res R :=
  if (ind_constant_start <=? i)%N then get ind_constants (N.to_nat (i - ind_constant_start))
  else get data (N.to_nat i).
(** one factor of a monomial, engine.hpp:134-138; -N of gal::pow overflows for the least int
    (numeric.hpp:33-37), and num_t holds no other numbers than ints *)
Definition factor_value (data : list R) (i : ind) : res R :=
  v <- data_value data (id i);;
  if (int_min <? num (ideg i))%Z && (num (ideg i) <=? int_max)%Z
  then Ok (gal_pow v (num (ideg i)) (den (ideg i))) else Err Overflow.
(** the unary right folds over * and +, engine.hpp:134-168, 184-186; over an empty pack they do not
    compile *)
Fixpoint fold_right1 (f : R -> R -> R) (l : list R) : res R :=
  match l with
  | [] => Err IllFormed
  | [x] => Ok x
  | x :: l' => y <- fold_right1 f l';; Ok (f x y)
  end.
(** static_cast<F> of a rational, numeric.hpp:245-251 *)
Definition rat_cast (q : rat) : R := (IZR (num q) / IZR (den q))%R.
(** the test abs(num) > 1 || num == -1, engine.hpp:130, 151, 205, 222 *)
Definition scales (n : Z) : bool := (1 <? Z.abs n)%Z || (n =? -1)%Z.
(** cmon::value, engine.hpp:114-171 *)
Definition cmon_value (x : mv) (data : list R) (c : mon) : res R :=
  let q := mq c in
  if is_zero q then Ok 0%R
  else if mcount c =? 0 then Ok (apply_mv_op (mop x) (rat_cast q))
  else
    is <- slice (inds x) (ioff c) (mcount c);;
    vs <- mapM (factor_value data) is;;
    p <- fold_right1 Rmult vs;;
    if (1 <? Z.abs (den q))%Z then
      if scales (num q) then Ok (apply_mv_op (mop x) (rat_cast q * p)%R)
      else Ok (apply_mv_op (mop x) (p / IZR (den q))%R)
    else if scales (num q) then Ok (apply_mv_op (mop x) (IZR (num q) * p)%R)
    else Ok (apply_mv_op (mop x) p).
(** cterm::value, engine.hpp:178-188 *)
Definition cterm_value (x : mv) (data : list R) (t : term) : res R :=
  ms <- slice (mons x) (moff t) (tcount t);;
  vs <- mapM (cmon_value x data) ms;;
  fold_right1 Rplus vs.
(** the outermost factor Num / Den, engine.hpp:203-235 *)
Definition scale_by (q : rat) (v : R) : R :=
  if (1 <? Z.abs (den q))%Z then
    if scales (num q) then (IZR (num q) / IZR (den q) * v)%R else (v / IZR (den q))%R
  else if scales (num q) then (IZR (num q) * v)%R else v.
(** compute_entity, engine.hpp:190-237 *)
Definition compute_entity (x : mv) (q : rat) (data : list R) : res entity :=
  ts <- slice (terms x) 0 (tsz x);;
  mapM (fun t => v <- cterm_value x data t;; Ok (elem t, scale_by q v)) ts.
(** compute_temp, engine.hpp:239-254: the cells are written one after the other *)
Fixpoint write_temp (x : mv) (ts : list term) (off : N) (data : list R) : res (list R) :=
  match ts with
  | [] => Ok data
  | t :: ts' =>
    v <- cterm_value x data t;;
    data' <- set data (N.to_nat off) v;;
    write_temp x ts' (off + 1)%N data'
  end.
(** compute_temp, engine.hpp:239-254 *)
Definition compute_temp (x : mv) (off : N) (data : list R) : res (list R) :=
  ts <- slice (terms x) 0 (tsz x);; write_temp x ts off data.

Section Engine.
Variable md : mode.
(** the metric of the algebra and detail::uses_null_basis of it *)
Variable m : metric.
Variable nb : bool.

(** the multivector that is reified, engine.hpp:268-277, 291-301 *)
Definition result_mv (x : mv) : res mv := if nb then to_null_basis md (dimension m) x else Ok x.
(** finalize_temps, engine.hpp:256-284 *)
Fixpoint finalize_temps (l : list (mv * N)) (data : list R) : res (list R) :=
  match l with
  | [] => Ok data
  | (x, i) :: l' => y <- result_mv x;; data' <- compute_temp y i data;; finalize_temps l' data'
  end.
(** finalize_entity, engine.hpp:286-302 *)
Definition finalize_entity (q : rat) (data : list R) (x : mv) : res entity :=
  y <- result_mv x;; compute_entity y q data.
(** the part of compute after the expression has been built and reshaped, engine.hpp:469-517:
    [ies] and [inputs] are the functions ie and the components of the arguments, [l] and [q] the
    reshaped program. The results are listed in the order of the returned tuple, finalize_entities
    engine.hpp:318-339; without arguments the empty entity is returned *)
Definition compute (ies : list (N -> mv)) (inputs : list (list R)) (l : list node) (q : rat) : res (list entity) :=
  let cnt := list_sum (map (@length R) inputs) in
  ins <- rpn_inputs ies (rpn_ids l);;
  st <- rpn_eval md m nb l ins (N.of_nat cnt);;
  data <- fill_inputs (repeat 0%R (cnt + N.to_nat (r_cnt st - N.of_nat cnt))) 0 inputs;;
  data' <- finalize_temps (r_temps st) data;;
  match r_args st with
  | [] => Ok [[]]
  | _ => mapM (finalize_entity q data') (rev (r_args st))
  end.
End Engine.
