(** Model of the literals, constructors and member functions of public/gal/vga.hpp, pga.hpp, pga2.hpp
    and cga.hpp that compute something (Model_Entity.v has the representations and conversions), and
    of lambdas that call exp. The value type T is idealised as the real numbers; a division by zero
    is an error ([DivZero]) instead of an infinity or NaN. *)
From Coq Require Import ZArith NArith List Bool Arith Reals String.
From Verif Require Import Base Model_Numeric Model_Blade Model_MV Model_Expr Model_Dfa Model_Reshape Model_Engine Model_Entity Spec_Expr Spec_Build Model_Compute.
Import ListNotations.
Local Open Scope nat_scope.

(** ** Literals *)

(** static_cast<num_t> of an unsigned long long (num_t is int32_t, numeric.hpp:163): modulo 2^32 *)
Definition cast_num (n : N) : Z := let k := (Z.of_N n mod 2 ^ 32)%Z in if (k <? 2 ^ 31)%Z then k else (k - 2 ^ 32)%Z.
(** the body of the operators "" _e0 ... _ps, for the blade of each, e.g. vga.hpp:20-24 *)
Definition literal (b : N) (n : N) : rpne := e_blade b (cast_num n).
(** the operators "" _ips: the negation is that of unsigned long long, vga.hpp:68-72, cga.hpp:68-72 *)
Definition literal_neg (b : N) (n : N) : rpne := e_blade b (cast_num ((2 ^ 64 - n) mod 2 ^ 64)).
(** the suffixes and their blades, vga.hpp:20-66 *)
Definition vga_literals : list (string * N) :=
  [("_e0", 1); ("_e1", 2); ("_e2", 4); ("_e01", 3); ("_e02", 5); ("_e12", 6); ("_e012", 7); ("_ps", 7)]%string%N.
(** pga.hpp:23-117 *)
Definition pga_literals : list (string * N) :=
  [("_e0", 1); ("_e1", 2); ("_e2", 4); ("_e3", 8); ("_e01", 3); ("_e02", 5); ("_e03", 9); ("_e12", 6); ("_e13", 10); ("_e23", 12);
   ("_e012", 7); ("_e013", 11); ("_e023", 13); ("_e123", 14); ("_e0123", 15); ("_ps", 15)]%string%N.
(** pga2.hpp:22-68 *)
Definition pga2_literals : list (string * N) :=
  [("_e0", 1); ("_e1", 2); ("_e2", 4); ("_e01", 3); ("_e02", 5); ("_e12", 6); ("_e012", 7); ("_ps", 7)]%string%N.
(** cga.hpp:28-66 (the blades of _no and _ni are those of C39) *)
Definition cga_literals : list (string * N) := [("_e1", 1); ("_e2", 2); ("_e3", 4); ("_ps", 31)]%string%N.
(** the blades of _ips, vga.hpp:68-72 and cga.hpp:68-72 *)
Definition vga_ips : N := 7%N.
Definition cga_ips : N := 31%N.

(** ** Constructors and normalization *)

(** operator/ of T *)
Definition fdiv (a b : R) : res R := if Req_EM_T b 0 then Err DivZero else Ok (a / b)%R.
(** vga::rotor(theta, x, y, z), vga.hpp:247-253; the constructor of pga::rotor is the same,
    pga.hpp:142-148 *)
Definition rotor_of (theta x y z : R) : list R := [cos (1 / 2 * theta); sin (1 / 2 * theta); x; y; z]%R.
(** the three statements after l2_inv = 1 / sqrt(x * x + y * y + z * z), e.g. vga.hpp:126-132 *)
Definition scaled_xyz (x y z : R) : res (list R) := k <- fdiv 1 (sqrt (x * x + y * y + z * z));; Ok [x * k; y * k; z * k]%R.
(** vga::vector::normalize, vga.hpp:126-132 *)
Definition vector_normalize (d : list R) : res (list R) :=
  x <- get d 0;; y <- get d 1;; z <- get d 2;; scaled_xyz x y z.
(** vga::rotor::normalize, vga.hpp:257-263, and pga::rotor::normalize, pga.hpp:152-158 *)
Definition rotor_normalize (d : list R) : res (list R) :=
  c <- get d 0;; s <- get d 1;; x <- get d 2;; y <- get d 3;; z <- get d 4;; r <- scaled_xyz x y z;; Ok (c :: s :: r).
(** pga::translator::normalize, pga.hpp:224-230 *)
Definition translator_normalize (d : list R) : res (list R) :=
  k <- get d 0;; x <- get d 1;; y <- get d 2;; z <- get d 3;; r <- scaled_xyz x y z;; Ok (k :: r).

(** ** Motors *)

(** pga::motor::ie, pga.hpp:274-280 *)
Definition motor_ie : N -> mv := construct_ie pga_motor.
(** the only result of a lambda that returns an expression *)
Definition single (outs : res (list entity)) : res entity := l <- outs;; get l 0.
(** pga::motor::normalize, pga.hpp:306-315; m2[0] and m2[1] are entity::operator[] *)
Definition motor_normalize (md : mode) (d : list R) : res (list R) :=
  m2 <- single (compute_one md pga_m false [motor_ie] [d] (UGp (UIn 0) (URev (UIn 0))));;
  u <- get (map snd m2) 0;;
  let sqrt_u := sqrt u in
  v <- get (map snd m2) 1;;
  a <- fdiv 1 sqrt_u;;
  b <- fdiv (- v) (2 * sqrt_u * u);;
  x0 <- set (map snd m2) 0 a;; x1 <- set x0 1 b;;
  r <- single (compute_one md pga_m false [motor_ie; construct_ie (map fst m2)] [d; x1] (UGp (UIn 0) (UIn 1)));;
  selects 4 r pga_motor.
(** std::atan2, for the real numbers *)
Definition atan2 (y x : R) : R :=
  if Rlt_dec 0 x then atan (y / x)
  else if Rlt_dec x 0 then (if Rle_dec 0 y then atan (y / x) + PI else atan (y / x) - PI)
  else if Rlt_dec 0 y then PI / 2 else if Rlt_dec y 0 then - (PI / 2) else 0.
(** pga::motor::log, pga.hpp:546-571 *)
Definition motor_log (md : mode) (d : list R) : res entity :=
  s1 <- get d 0;;
  p1 <- get d 7;;
  l <- pga_motor_bivector d;;
  l2 <- single (compute_one md pga_m false [construct_ie (map fst l)] [map snd l] (UAdd (USip (UIn 0) (UIn 0)) (UEp (UIn 0) (UIn 0))));;
  l20 <- select 4 l2 0;;
  let s2 := sqrt (- l20) in
  l24 <- select 4 l2 15;;
  p2 <- fdiv (- l24) (2 * s2);;
  i0 <- fdiv 1 s2;;
  i4 <- fdiv p2 l20;;
  let s1_zero := if Rlt_dec (Rabs s1) (1 / 1000000) then true else false in
  let u := if s1_zero then atan2 (- p1) p2 else atan2 s2 s1 in
  v <- (if s1_zero then fdiv (- p1) s2 else fdiv p2 s1);;
  single (compute_one md pga_m false [scalar_ie; scalar_ie; construct_ie (map fst l); construct_ie [0; 15]%N] [[u]; [v]; map snd l; [i0; i4]]
    (UGp (UGp (UAdd (UIn 0) (UGp (UIn 1) (UBlade 15 1))) (UIn 2)) (UIn 3))).
(** a lambda that returns exp of an expression of its arguments, expr.hpp:904-919 and
    engine.hpp:455-517 *)
Definition compute_exp (md : mode) (m : metric) (nb : bool) (ies : list (N -> mv)) (inputs : list (list R)) (u : uexpr) : res (list entity) :=
  x <- build md (lambda_inputs inputs) u;; e <- e_exp md (dimension m) x;; compute_rpn md m nb ies inputs e.
