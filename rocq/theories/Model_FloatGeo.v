(** Model of the constructors and of the normalizations of public/gal/vga.hpp and public/gal/pga.hpp with a type T
    that rounds. Model_Geometry.v has the same functions with real numbers for T; for [fl] and its
    simplifications see Model_Float.v. std::sqrt is correctly rounded (IEEE 754), std::sin and std::cos are
    taken to be, and std::atan2. *)
From Coq Require Import ZArith NArith List Bool Arith Reals.
Require Import Flocq.Core.Core.
From Verif Require Import Base Model_Numeric Model_Blade Model_MV Model_Expr Model_Engine Model_Entity Model_Geometry Model_Compute Model_Float Spec_Expr.
Import ListNotations.
Local Open Scope R_scope.

Section FloatGeo.
(** the rounding of the type T, e.g. vga.hpp:94 *)
Variable fl : R -> res R.

(** std::sqrt, e.g. vga.hpp:128; NaN is reported as an error *)
Definition sqrtF (x : R) : res R := if Rlt_bool x 0 then Err Overflow else fl (sqrt x).
(** std::sqrt(x * x + y * y + z * z), vga.hpp:128, 259 and pga.hpp:154, 226 *)
Definition lengthF (x y z : R) : res R :=
  a <- fl (x * x);; b <- fl (y * y);; ab <- fl (a + b);; c <- fl (z * z);; s <- fl (ab + c);; sqrtF s.
(** the four statements of normalize, e.g. vga.hpp:128-131 *)
Definition scaled_xyzF (x y z : R) : res (list R) :=
  n <- lengthF x y z;; k <- Model_Float.fdiv fl 1 n;; x' <- fl (x * k);; y' <- fl (y * k);; z' <- fl (z * k);; Ok [x'; y'; z'].
(** vga::vector::normalize, vga.hpp:126-132 *)
Definition vector_normalizeF (d : list R) : res (list R) :=
  x <- get d 0;; y <- get d 1;; z <- get d 2;; scaled_xyzF x y z.
(** vga::rotor::normalize, vga.hpp:257-263, and pga::rotor::normalize, pga.hpp:152-158 *)
Definition rotor_normalizeF (d : list R) : res (list R) :=
  c <- get d 0;; s <- get d 1;; x <- get d 2;; y <- get d 3;; z <- get d 4;; r <- scaled_xyzF x y z;; Ok (c :: s :: r).
(** pga::translator::normalize, pga.hpp:224-230 *)
Definition translator_normalizeF (d : list R) : res (list R) :=
  k <- get d 0;; x <- get d 1;; y <- get d 2;; z <- get d 3;; r <- scaled_xyzF x y z;; Ok (k :: r).
(** vga::rotor(theta, x, y, z), vga.hpp:247-253, and pga::rotor(theta, x, y, z), pga.hpp:142-148 *)
Definition rotor_ofF (theta x y z : R) : res (list R) :=
  h <- fl (1 / 2 * theta);; c <- fl (cos h);; h' <- fl (1 / 2 * theta);; s <- fl (sin h');; Ok [c; s; x; y; z].
(** pga::motor::normalize, pga.hpp:306-315 *)
Definition motor_normalizeF (md : mode) (d : list R) : res (list R) :=
  m2 <- single (compute_oneF fl md pga_m false [motor_ie] [d] (UGp (UIn 0) (URev (UIn 0))));;
  u <- get (map snd m2) 0;;
  sqrt_u <- sqrtF u;;
  v <- get (map snd m2) 1;;
  a <- Model_Float.fdiv fl 1 sqrt_u;;
  t <- fl (2 * sqrt_u);; t' <- fl (t * u);;
  b <- Model_Float.fdiv fl (- v) t';;
  x0 <- set (map snd m2) 0 a;; x1 <- set x0 1 b;;
  r <- single (compute_oneF fl md pga_m false [motor_ie; construct_ie (map fst m2)] [d; x1] (UGp (UIn 0) (UIn 1)));;
  selects 4 r pga_motor.
(** std::atan2, pga.hpp:562; taken to be correctly rounded *)
Definition atan2F (y x : R) : res R := fl (atan2 y x).
(** pga::motor::log, pga.hpp:545-570; T{1e-6} is the number that is nearest to 1e-6 in the type T *)
Definition motor_logF (md : mode) (d : list R) : res entity :=
  s1 <- get d 0;;
  p1 <- get d 7;;
  l <- pga_motor_bivector d;;
  l2 <- single (compute_oneF fl md pga_m false [construct_ie (map fst l)] [map snd l] (UAdd (USip (UIn 0) (UIn 0)) (UEp (UIn 0) (UIn 0))));;
  l20 <- select 4 l2 0;;
  s2 <- sqrtF (- l20);;
  l24 <- select 4 l2 15;;
  t <- fl (2 * s2);; p2 <- Model_Float.fdiv fl (- l24) t;;
  i0 <- Model_Float.fdiv fl 1 s2;;
  i4 <- Model_Float.fdiv fl p2 l20;;
  c <- fl (1 / 1000000);;
  let s1_zero := Rlt_bool (Rabs s1) c in
  u <- (if s1_zero then atan2F (- p1) p2 else atan2F s2 s1);;
  v <- (if s1_zero then Model_Float.fdiv fl (- p1) s2 else Model_Float.fdiv fl p2 s1);;
  single (compute_oneF fl md pga_m false [scalar_ie; scalar_ie; construct_ie (map fst l); construct_ie [0; 15]%N] [[u]; [v]; map snd l; [i0; i4]]
    (UGp (UGp (UAdd (UIn 0) (UGp (UIn 1) (UBlade 15 1))) (UIn 2)) (UIn 3))).
End FloatGeo.
