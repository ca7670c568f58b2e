(** Model of public/gal/numeric.hpp. *)
From Coq Require Import ZArith NArith List Bool Floats.SpecFloat Reals.
From Verif Require Import Base.
Import ListNotations.
Open Scope Z_scope.

(** ** 32-bit signed arithmetic *)

(** num_t/den_t = int32_t, numeric.hpp:163-166: the representable range. *)
Definition int_min : Z := -2147483648.
(** the largest int32_t, numeric.hpp:163-166 *)
Definition int_max : Z := 2147483647.
(** the values of num_t and den_t, numeric.hpp:163-166 *)
Definition in_int32 (z : Z) : bool := (int_min <=? z) && (z <=? int_max).

(** Signed arithmetic outside the range is undefined behaviour, numeric.hpp:163-166. *)
Definition chk (z : Z) : res Z := if in_int32 z then Ok z else Err Overflow.

(** * on num_t, e.g. numeric.hpp:204, 420 *)
Definition imul (a b : Z) : res Z := chk (a * b).
(** + on num_t, e.g. numeric.hpp:224, 483 *)
Definition iadd (a b : Z) : res Z := chk (a + b).
(** - on num_t, e.g. numeric.hpp:193, 403 *)
Definition ineg (a : Z) : res Z := chk (- a).

(** std::gcd on int: undefined if |m| or |n| is not representable. Used at
    numeric.hpp:216,235,302,314,342,358,376,377. *)
Definition igcd (a b : Z) : res Z :=
  if (Z.abs a <=? int_max) && (Z.abs b <=? int_max) then Ok (Z.gcd a b) else Err Overflow.

(** / on num_t, e.g. numeric.hpp:215-216: truncates toward zero; division by zero is undefined *)
Definition idiv (a b : Z) : res Z :=
  if b =? 0 then Err DivZero else chk (Z.quot a b).

(** ** rat, numeric.hpp:171-252 *)

(** struct rat, numeric.hpp:171-174. *)
Record rat := mkrat { num : Z; den : Z }.

(** numeric.hpp:255-259 *)
Definition one := mkrat 1 1.
(** minus_one, numeric.hpp:256 *)
Definition minus_one := mkrat (-1) 1.
(** one_half, numeric.hpp:257 *)
Definition one_half := mkrat 1 2.
(** minus_one_half, numeric.hpp:258 *)
Definition minus_one_half := mkrat (-1) 2.
(** zero, numeric.hpp:259 *)
Definition zero := mkrat 0 1.

(** rat::is_zero, numeric.hpp:176-179 *)
Definition is_zero (r : rat) : bool := num r =? 0.
(** rat::is_unit, numeric.hpp:181-184 *)
Definition is_unit (r : rat) : bool := num r =? den r.
(** rat::reciprocal, numeric.hpp:186-189 *)
Definition reciprocal (r : rat) : rat := mkrat (den r) (num r).
(** rat::negation, numeric.hpp:191-194; also unary operator-, numeric.hpp:401-404 *)
Definition rneg (r : rat) : res rat := n <- ineg (num r);; Ok (mkrat n (den r)).

(** The repeated idiom "gcd = std::gcd(n, d); if (gcd > 1) return {n / gcd, d / gcd};
    else return {n, d}", e.g. numeric.hpp:216-221, 302-310. *)
Definition reduce (n d : Z) : res rat :=
  g <- igcd n d;;
  if 1 <? g then n' <- idiv n g;; d' <- idiv d g;; Ok (mkrat n' d')
  else Ok (mkrat n d).

(** rat::operator*=, numeric.hpp:202-220 *)
Definition rmul_assign (a b : rat) : res rat :=
  n <- imul (num a) (num b);;
  d <- imul (den a) (den b);;
  if n =? 0 then Ok (mkrat n 1)
  else if 1 <? d then reduce n d
  else Ok (mkrat n d).

(** rat::operator/=, numeric.hpp:196-200 *)
Definition rdiv_assign (a b : rat) : res rat := rmul_assign a (reciprocal b).

(** rat::operator+=, numeric.hpp:222-243 *)
Definition radd_assign (a b : rat) : res rat :=
  x <- imul (num a) (den b);;
  y <- imul (num b) (den a);;
  n <- iadd x y;;
  if n =? 0 then Ok (mkrat n 1)
  else
    d <- imul (den a) (den b);;
    if 1 <? d then reduce n d else Ok (mkrat n d).

(** ** IEEE binary64, for the gate. Simplification: none, [SpecFloat] is the standard
    library's executable specification of IEEE-754 arithmetic (round to nearest even). *)
(** double, numeric.hpp:321-330 *)
Definition f64 := spec_float.
(** static_cast<double>(int), numeric.hpp:321-322 *)
Definition f64_of_Z (z : Z) : f64 := binary_normalize 53 1024 z 0 false.
(** double division, numeric.hpp:323-324 *)
Definition f64_div (a b : f64) : f64 := SFdiv 53 1024 a b.
(** double comparison <, numeric.hpp:326,330 *)
Definition f64_lt (a b : f64) : bool := SFltb a b.
(** the literal 1e-7 rounded to binary64: 0x1.ad7f29abcaf48p-24, numeric.hpp:326,330 *)
Definition f64_1em7 : f64 := S754_finite false 7555786372591432 (-76).
(** detail::abs(double), numeric.hpp:268-271 *)
Definition f64_abs (x : f64) : f64 := if f64_lt x (S754_zero false) then SFopp x else x.
(** detail::abs(num_t), numeric.hpp:263-266 *)
Definition iabs (x : Z) : res Z := if x <? 0 then ineg x else Ok x.

Section Mode.
Variable md : mode.

(** What the gate does where it changes the value: the code returns the perturbed
    rational, numeric.hpp:326-370; in [Exact] mode the model reports [Rounded]. *)
Definition rounding (r : res rat) : res rat :=
  match md with Code => r | Exact => Err Rounded end.

(** detail::overflow_gate, numeric.hpp:273-371 *)
Definition overflow_gate (r : rat) : res rat :=
  if den r <? 1024 then reduce (num r) (den r)
  else
    g <- igcd (num r) (den r);;
    if 1 <? g then n' <- idiv (num r) g;; d' <- idiv (den r) g;; Ok (mkrat n' d')
    else
      let n_d := f64_of_Z (num r) in
      let d_d := f64_of_Z (den r) in
      let epsilon := f64_abs (f64_div (f64_div n_d d_d) d_d) in
      let frac := f64_div n_d d_d in
      if f64_lt (f64_abs frac) f64_1em7 then rounding (Ok zero)
      else if f64_lt epsilon f64_1em7 then
        if Z.rem (num r) 2 =? 1 then
          rounding (m <- chk (num r - 1);; n2 <- idiv m 2;; d2 <- idiv (den r) 2;; reduce n2 d2)
        else
          rounding (n2 <- idiv (num r) 2;; m <- chk (den r - 1);; d2 <- idiv m 2;; reduce n2 d2)
      else Ok r.

(** operator*(rat, rat), numeric.hpp:418-434 *)
Definition rmul (a b : rat) : res rat :=
  n <- imul (num a) (num b);;
  d <- imul (den a) (den b);;
  if n =? 0 then Ok zero
  else if 1 <? d then overflow_gate (mkrat n d)
  else Ok (mkrat n d).

(** operator/(rat, int), numeric.hpp:436-448 *)
Definition rdiv_int (a : rat) (k : Z) : res rat :=
  if k <? 0 then
    n <- ineg (num a);; k' <- ineg k;; d <- imul (den a) k';; overflow_gate (mkrat n d)
  else
    d <- imul (den a) k;; overflow_gate (mkrat (num a) d).

(** operator/(rat, rat), numeric.hpp:450-479 *)
Definition rdiv (a b : rat) : res rat :=
  n <- imul (num a) (den b);;
  d <- imul (num b) (den a);;
  if n =? 0 then Ok zero
  else
    ad <- iabs d;;
    if 1 <? ad then
      if d <? 0 then n' <- ineg n;; d' <- ineg d;; overflow_gate (mkrat n' d')
      else overflow_gate (mkrat n d)
    else
      if d <? 0 then n' <- ineg n;; d' <- ineg d;; Ok (mkrat n' d')
      else Ok (mkrat n d).

(** operator+(rat, rat), numeric.hpp:481-500 *)
Definition radd (a b : rat) : res rat :=
  x <- imul (num a) (den b);;
  y <- imul (num b) (den a);;
  n <- iadd x y;;
  if n =? 0 then Ok zero
  else
    d <- imul (den a) (den b);;
    if 1 <? d then overflow_gate (mkrat n d) else Ok (mkrat n d).

(** operator-(rat, rat), numeric.hpp:502-505 *)
Definition rsub (a b : rat) : res rat := b' <- rneg b;; radd a b'.

End Mode.

(** operator*(int, rat), numeric.hpp:406-416 *)
Definition rscale_int (k : Z) (r : rat) : res rat :=
  if (k =? 0) || (num r =? 0) then Ok zero
  else n <- imul (num r) k;; Ok (mkrat n (den r)).

(** operator==(rat, rat), numeric.hpp:374-379 (note: both arguments of the second gcd are rhs.den) *)
Definition req (a b : rat) : res bool :=
  g1 <- igcd (num a) (den a);;
  g2 <- igcd (den b) (den b);;
  x1 <- idiv (num a) g1;; x2 <- idiv (num b) g2;;
  if x1 =? x2 then
    y1 <- idiv (den a) g1;; y2 <- idiv (den b) g2;; Ok (y1 =? y2)
  else Ok false.

(** operator!=(rat, int), numeric.hpp:381-384 *)
Definition rne_int (a : rat) (k : Z) : bool := negb (den a =? 1) || negb (num a =? k).
(** operator!=(rat, rat), numeric.hpp:386-389 *)
Definition rne (a b : rat) : bool := negb (num a =? num b) || negb (den a =? den b).
(** operator<(rat, rat), numeric.hpp:391-394 *)
Definition rlt (a b : rat) : res bool :=
  x <- imul (num a) (den b);; y <- imul (num b) (den a);; Ok (x <? y).
(** operator>(rat, rat), numeric.hpp:396-399 *)
Definition rgt (a b : rat) : res bool :=
  x <- imul (num a) (den b);; y <- imul (num b) (den a);; Ok (y <? x).

(** ** Bit utilities *)

(** pop_count, numeric.hpp:154-161 (__builtin_popcount) *)
Fixpoint ppop (p : positive) : N :=
  match p with xH => 1%N | xO q => ppop q | xI q => N.succ (ppop q) end.
(** pop_count, numeric.hpp:154-161 *)
Definition pop_count (x : N) : N := match x with N0 => 0%N | Npos p => ppop p end.

(** leading_set_index, numeric.hpp:137-152, gcc/clang branch: 31 - clz(x) for x > 0.
    x = 0 is undefined; the callers only pass positive values. *)
Definition leading_set_index (x : N) : N := N.log2 x.

(** rot32, numeric.hpp:131-134 *)
Definition rot32 (x : N) : N :=
  N.lor (N.shiftr x 8) (N.modulo (N.shiftl (N.land x 255) 24) (2 ^ 32)).

(** next_pow_2, numeric.hpp:93-128; [w] is the width in bits (32 or 64), wrapping. *)
Definition smear (s : N) (k : N) : N := N.lor s (N.shiftr s k).
(** next_pow_2, numeric.hpp:93-128 *)
Definition next_pow_2 (w : N) (s : N) : N :=
  if (s =? 0)%N then 0%N
  else
    let s1 := (s - 1)%N in
    let s5 := smear (smear (smear (smear (smear s1 1) 2) 4) 8) 16 in
    let s6 := if (w =? 64)%N then smear s5 32 else s5 in
    N.modulo (s6 + 1) (2 ^ w).

(** next_even, numeric.hpp:509-520. The loop runs at most twice; [fuel] 3 suffices
    (Proof_Numeric.v, next_even_spec). The 32-bit wrap is not modelled: arguments are blades. *)
Fixpoint next_even_loop (fuel : nat) (x : N) : N :=
  match fuel with
  | O => x
  | S f => if N.odd (pop_count x) then next_even_loop f (x + 1)%N else x
  end.
(** next_even, numeric.hpp:509-520 *)
Definition next_even (x : N) : N := next_even_loop 3 (x + 1)%N.

(** ** pow, numeric.hpp:17-91, with the run-time floating point type idealised as R *)

(** the while loop at numeric.hpp:80-88 *)
Fixpoint pow_loop (fuel : nat) (e : Z) (t1 t2 : R) : R * R :=
  match fuel with
  | O => (t1, t2)
  | S f =>
    if 1 <? e then
      pow_loop f (Z.shiftr e 1) (if Z.land e 1 =? 1 then (t1 * t2)%R else t1) (t2 * t2)%R
    else (t1, t2)
  end.

(** integral case, N >= 0 and N <> 1 handled below, numeric.hpp:38-90 *)
Definition pow_nonneg (s : R) (n : Z) : R :=
  (if n =? 1 then s
   else if n =? 2 then s * s
   else if n =? 3 then s * s * s
   else if n =? 4 then let s2 := s * s in s2 * s2
   else if n =? 5 then let s2 := s * s in s2 * s2 * s
   else if n =? 6 then let s2 := s * s in let s3 := s2 * s in s3 * s3
   else if n =? 7 then let s2 := s * s in let s4 := s2 * s2 in s4 * s2 * s
   else if n =? 8 then let s2 := s * s in let s4 := s2 * s2 in s4 * s4
   else let '(t1, t2) := pow_loop 64 n 1 s in t1 * t2)%R.

(** pow<T, N, D>, numeric.hpp:17-37. [std::pow] with a fractional exponent is idealised
    as [Rpower] (meaningful for positive bases). *)
Definition gal_pow (s : R) (n d : Z) : R :=
  if 1 <? d then Rpower s (IZR n / IZR d)
  else if n =? 1 then s
  else if n =? -1 then (1 / s)%R
  else if n <? 0 then (1 / pow_nonneg s (- n))%R
  else pow_nonneg s n.
