(** Model of the numeric evaluation of public/gal/engine.hpp with a field F that rounds. Model_Engine.v
    has the same functions with real numbers for F. Every operation of F computes the result over the
    real numbers and rounds it with [fl]; [ieee] is the rounding of the IEEE formats. Simplifications:
    a result that is an infinity, a NaN or subnormal is reported as [Overflow] or [DivZero] instead of
    being computed with; no operations are contracted (fused); std::pow with a fractional exponent
    and std::sin, std::cos, std::tan are taken to be correctly rounded; the constants are rounded
    once. *)
From Coq Require Import ZArith NArith List Bool Arith Reals.
Require Import Flocq.Core.Core.
From Verif Require Import Base Model_Numeric Model_Blade Model_MV Model_Product Model_Expr Model_Dfa Model_Reshape Model_Engine Model_Compute Spec_Expr Spec_Build.
Import ListNotations.
Local Open Scope nat_scope.

(** rounding to nearest, ties to even, of the type F of engine.hpp:73 with [prec] bits, normal numbers from
    2^(emin + prec - 1) on and below 2^emax: float and double are [ieee 24 (-149) 128] and
    [ieee 53 (-1074) 1024] *)
Definition ieee (prec emin emax : Z) (x : R) : res R :=
  if Req_bool x 0 then Ok 0%R
  else if Rle_bool (bpow radix2 (emin + prec - 1)) (Rabs x) then
    let y := round radix2 (FLT_exp emin prec) ZnearestE x in
    if Rlt_bool (Rabs y) (bpow radix2 emax) then Ok y else Err Overflow
  else Err Overflow.

Section Float.
(** the rounding of the type F, engine.hpp:73 *)
Variable fl : R -> res R.

(** a / b of F, numeric.hpp:31-36, 250 and engine.hpp:154, 213 *)
Definition fdiv (a b : R) : res R := if Req_bool b 0 then Err DivZero else fl (a / b)%R.
(** the while loop at numeric.hpp:80-88 *)
Fixpoint pow_loopF (fuel : nat) (e : Z) (t1 t2 : R) : res (R * R) :=
  match fuel with
  | O => Ok (t1, t2)
  | S f =>
    if (1 <? e)%Z then
      t1' <- (if (Z.land e 1 =? 1)%Z then fl (t1 * t2)%R else Ok t1);;
      t2' <- fl (t2 * t2)%R;; pow_loopF f (Z.shiftr e 1) t1' t2'
    else Ok (t1, t2)
  end.
(** the case of a non-negative exponent, numeric.hpp:38-90 *)
Definition pow_nonnegF (s : R) (n : Z) : res R :=
  if (n =? 1)%Z then Ok s
  else if (n =? 2)%Z then fl (s * s)%R
  else if (n =? 3)%Z then s2 <- fl (s * s)%R;; fl (s2 * s)%R
  else if (n =? 4)%Z then s2 <- fl (s * s)%R;; fl (s2 * s2)%R
  else if (n =? 5)%Z then s2 <- fl (s * s)%R;; s4 <- fl (s2 * s2)%R;; fl (s4 * s)%R
  else if (n =? 6)%Z then s2 <- fl (s * s)%R;; s3 <- fl (s2 * s)%R;; fl (s3 * s3)%R
  else if (n =? 7)%Z then s2 <- fl (s * s)%R;; s4 <- fl (s2 * s2)%R;; s6 <- fl (s4 * s2)%R;; fl (s6 * s)%R
  else if (n =? 8)%Z then s2 <- fl (s * s)%R;; s4 <- fl (s2 * s2)%R;; fl (s4 * s4)%R
  else p <- pow_loopF 64 n 1 s;; fl (fst p * snd p)%R.
(** gal::pow, numeric.hpp:17-91 *)
Definition powF (s : R) (n d : Z) : res R :=
  if (1 <? d)%Z then
    a <- fl (IZR n);; b <- fl (IZR d);; e <- fdiv a b;; (if Rle_bool s 0 then Err Overflow else fl (Rpower s e))
  else if (n =? 1)%Z then Ok s
  else if (n =? -1)%Z then fdiv 1 s
  else if (n <? 0)%Z then p <- pow_nonnegF s (- n);; fdiv 1 p
  else pow_nonnegF s n.
(** apply_mv_op, engine.hpp:74-97 *)
Definition apply_mv_opF (o : mv_op) (x : R) : res R :=
  match o with
  | mop_id => Ok x | mop_sin => fl (sin x) | mop_cos => fl (cos x)
  | mop_tan => if Req_bool (cos x) 0 then Err Overflow else fl (tan x)
  | mop_sqrt => if Rlt_bool x 0 then Err Overflow else fl (sqrt x)
  end.
(** data_value, engine.hpp:102-112, with the constants of algebra.hpp:22-23 *)
Definition data_valueF (data : list R) (i : N) : res R :=
  if (ind_constant_start <=? i)%N then c <- get ind_constants (N.to_nat (i - ind_constant_start));; fl c
  else get data (N.to_nat i).
(** one factor of a monomial, engine.hpp:134-138 *)
Definition factor_valueF (data : list R) (i : ind) : res R :=
  v <- data_valueF data (id i);;
  if (int_min <? num (ideg i))%Z && (num (ideg i) <=? int_max)%Z
  then powF v (num (ideg i)) (den (ideg i)) else Err Overflow.
(** the unary right folds over * and +, engine.hpp:134-168, 184-186 *)
Fixpoint fold_right1F (f : R -> R -> R) (l : list R) : res R :=
  match l with
  | [] => Err IllFormed
  | [x] => Ok x
  | x :: l' => y <- fold_right1F f l';; fl (f x y)
  end.
(** static_cast<F> of a rational, numeric.hpp:245-251; also the outermost factor, engine.hpp:208 *)
Definition rat_castF (q : rat) : res R := a <- fl (IZR (num q));; b <- fl (IZR (den q));; fdiv a b.
(** the multiplication with the coefficient, engine.hpp:128-169; the outermost factor, engine.hpp:203-235 *)
Definition scale_byF (q : rat) (v : R) : res R :=
  if (1 <? Z.abs (den q))%Z then
    if scales (num q) then c <- rat_castF q;; fl (c * v)%R else d <- fl (IZR (den q));; fdiv v d
  else if scales (num q) then n <- fl (IZR (num q));; fl (n * v)%R else Ok v.
(** cmon::value, engine.hpp:114-171 *)
Definition cmon_valueF (x : mv) (data : list R) (c : mon) : res R :=
  let q := mq c in
  if is_zero q then Ok 0%R
  else if mcount c =? 0 then v <- rat_castF q;; apply_mv_opF (mop x) v
  else
    is <- slice (inds x) (ioff c) (mcount c);;
    vs <- mapM (factor_valueF data) is;;
    p <- fold_right1F Rmult vs;;
    v <- scale_byF q p;; apply_mv_opF (mop x) v.
(** cterm::value, engine.hpp:178-188 *)
Definition cterm_valueF (x : mv) (data : list R) (t : term) : res R :=
  ms <- slice (mons x) (moff t) (tcount t);;
  vs <- mapM (cmon_valueF x data) ms;;
  fold_right1F Rplus vs.
(** compute_entity, engine.hpp:190-237 *)
Definition compute_entityF (x : mv) (q : rat) (data : list R) : res entity :=
  ts <- slice (terms x) 0 (tsz x);;
  mapM (fun t => v <- cterm_valueF x data t;; w <- scale_byF q v;; Ok (elem t, w)) ts.
(** compute_temp, engine.hpp:239-254 *)
Fixpoint write_tempF (x : mv) (ts : list term) (off : N) (data : list R) : res (list R) :=
  match ts with
  | [] => Ok data
  | t :: ts' =>
    v <- cterm_valueF x data t;;
    data' <- set data (N.to_nat off) v;;
    write_tempF x ts' (off + 1)%N data'
  end.
(** compute_temp, engine.hpp:239-254 *)
Definition compute_tempF (x : mv) (off : N) (data : list R) : res (list R) :=
  ts <- slice (terms x) 0 (tsz x);; write_tempF x ts off data.

Variable md : mode.
(** the metric of the algebra and detail::uses_null_basis of it, engine.hpp:268 *)
Variable m : metric.
Variable nb : bool.
(** finalize_temps, engine.hpp:256-284 *)
Fixpoint finalize_tempsF (l : list (mv * N)) (data : list R) : res (list R) :=
  match l with
  | [] => Ok data
  | (x, i) :: l' => y <- result_mv md m nb x;; data' <- compute_tempF y i data;; finalize_tempsF l' data'
  end.
(** finalize_entity, engine.hpp:286-302 *)
Definition finalize_entityF (q : rat) (data : list R) (x : mv) : res entity :=
  y <- result_mv md m nb x;; compute_entityF y q data.
(** the part of compute after the expression has been built and reshaped, engine.hpp:469-517 *)
Definition computeF (ies : list (N -> mv)) (inputs : list (list R)) (l : list node) (q : rat) : res (list entity) :=
  let cnt := list_sum (map (@length R) inputs) in
  ins <- rpn_inputs ies (rpn_ids l);;
  st <- rpn_eval md m nb l ins (N.of_nat cnt);;
  data <- fill_inputs (repeat 0%R (cnt + N.to_nat (r_cnt st - N.of_nat cnt))) 0 inputs;;
  data' <- finalize_tempsF (r_temps st) data;;
  match r_args st with
  | [] => Ok [[]]
  | _ => mapM (finalize_entityF q data') (rev (r_args st))
  end.
(** the functions ie and the components of the arguments, engine.hpp:455-456 *)
Variable ies : list (N -> mv).
Variable inputs : list (list R).
(** reshaping and evaluation, engine.hpp:468-517 *)
Definition compute_rpnF (e : rpne) : res (list entity) :=
  _ <- some_input inputs;; y <- reshape e;; computeF ies inputs (rnodes y) (rq y).
(** the lambda returns one expression, engine.hpp:464-466 *)
Definition compute_oneF (u : uexpr) : res (list entity) :=
  e <- build md (lambda_inputs inputs) u;; compute_rpnF e.
(** the lambda returns a tuple, engine.hpp:464-466 and expr.hpp:344-356 *)
Definition compute_tupleF (us : list uexpr) : res (list entity) :=
  xs <- mapM (build md (lambda_inputs inputs)) us;; e <- e_concat xs;; compute_rpnF e.
End Float.

(** the multivectors that are known at compile time and evaluated at run time, engine.hpp:484-491,
    268-301: the results in the order of the returned tuple, and the temporaries with their cells *)
Definition compiled (md : mode) (m : metric) (nb : bool) (ies : list (N -> mv)) (cnt : nat) (l : list node) : res (list mv * list (mv * N)) :=
  ins <- rpn_inputs ies (rpn_ids l);;
  st <- rpn_eval md m nb l ins (N.of_nat cnt);;
  ts <- mapM (fun p => y <- result_mv md m nb (fst p);; Ok (y, snd p)) (r_temps st);;
  ys <- mapM (result_mv md m nb) (rev (r_args st));;
  Ok (ys, ts).
(** the same from the lambda on, engine.hpp:464-491, with the outermost factor *)
Definition compiled_one (md : mode) (m : metric) (nb : bool) (ies : list (N -> mv)) (inputs : list (list R)) (u : uexpr) : res (list mv * rat) :=
  e <- build md (lambda_inputs inputs) u;; y <- reshape e;;
  c <- compiled md m nb ies (list_sum (map (@length R) inputs)) (rnodes y);; Ok (fst c, rq y).
