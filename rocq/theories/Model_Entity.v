(** Model of the entities: public/gal/entity.hpp, and the entity types of public/gal/vga.hpp,
    pga.hpp, pga2.hpp and cga.hpp. The value type T is idealised as the real numbers. The
    constructors that merely store their arguments, the operators [] and the iterators are the
    list of components itself. *)
From Coq Require Import ZArith NArith List Bool Arith Reals.
From Verif Require Import Base Model_Numeric Model_Blade Model_MV Model_Product Model_Expr Model_Dfa Model_Engine.
Import ListNotations.
Local Open Scope nat_scope.

(** ** entity.hpp *)

(** construct_ie, entity.hpp:15-26; the ids are 32 bit numbers and do not wrap here *)
Definition construct_ie (es : list N) (id : N) : mv :=
  let n := length es in
  mkmv n n n (map (fun k => mkind (id + N.of_nat k)%N one) (seq 0 n)) (map (fun k => mkmon one one 1 k) (seq 0 n))
    (map (fun p : nat * N => mkterm 1 (fst p) (snd p)) (combine (seq 0 n) es)) mop_id.
(** indexof, entity.hpp:28-43; the empty list does not match the template *)
Fixpoint indexof (e : N) (i : Z) (es : list N) : Z :=
  match es with
  | [] => (-1)%Z
  | e1 :: es' => if (e =? e1)%N then i else match es' with [] => (-1)%Z | _ => indexof e (i + 1) es' end
  end.
(** element_lut, entity.hpp:45-50, 63-65 *)
Definition element_lut (dim : N) (es : list N) : list Z := map (fun k => indexof (N.of_nat k) 0 es) (seq 0 (N.to_nat (2 ^ dim))).
(** select(e) of a constant entity, entity.hpp:95-99; of the zero entity, entity.hpp:156-159. The
    table is indexed without a check *)
Definition select (dim : N) (x : entity) (e : N) : res R :=
  match x with
  | [] => Ok 0%R
  | _ =>
    i <- get (element_lut dim (map fst x)) (N.to_nat e);;
    if (i =? -1)%Z then Ok 0%R else get (map snd x) (Z.to_nat i)
  end.
(** select<S...>(), entity.hpp:82-93. The zero entity returns a single zero (entity.hpp:150-154),
    from which an array is initialised to zeros *)
Definition selects (dim : N) (x : entity) (s : list N) : res (list R) :=
  match x with [] => Ok (map (fun _ => 0%R) s) | _ => mapM (select dim x) s end.
(** select(e) of a mutable entity, entity.hpp:101-105, 161-164: the index of the component the
    pointer points to, None for nullptr *)
Definition select_ptr (dim : N) (x : entity) (e : N) : res (option nat) :=
  match x with
  | [] => Ok None
  | _ =>
    i <- get (element_lut dim (map fst x)) (N.to_nat e);;
    if (i =? -1)%Z then Ok None else _ <- get (map snd x) (Z.to_nat i);; Ok (Some (Z.to_nat i))
  end.
(** ie of the zero entity, entity.hpp:140-143 *)
Definition zero_ie (id : N) : mv := zero_mv.
(** scalar::ie, entity.hpp:203-207 *)
Definition scalar_ie (id : N) : mv := float_ie id.

(** ** The algebras *)

(** vga_metric, vga.hpp:16 *)
Definition vga_m : metric := mkmetric 3 0 0.
(** pga_metric, pga.hpp:18 *)
Definition pga_m : metric := mkmetric 3 0 1.
(** pga2_metric, pga2.hpp:17 *)
Definition pga2_m : metric := mkmetric 2 0 1.
(** cga_metric, cga.hpp:20; uses_null_basis is set for it, cga.hpp:77-78 *)
Definition cga_m : metric := mkmetric 4 1 0.

(** ** Types whose components are the coefficients of fixed blades: their ie is construct_ie and
    their constructor from an entity is selects *)

(** vga::vector, vga.hpp:102-108, 121-124 *)
Definition vga_vector : list N := [1; 2; 4]%N.
(** pga::motor, pga.hpp:275-281, 295-298 *)
Definition pga_motor : list N := [0; 3; 5; 6; 9; 10; 12; 15]%N.
(** pga::plane, pga.hpp:348-354, 368-371 *)
Definition pga_plane : list N := [1; 2; 4; 8]%N.
(** pga::point, pga.hpp:383-384 *)
Definition pga_point : list N := [7; 11; 13; 14]%N.
(** pga2::line, pga2.hpp:86-92, 105-108 *)
Definition pga2_line : list N := [1; 2; 4]%N.

(** ** vga::rotor: cosine, sine, x, y, z *)

(** vga::rotor::ie, vga.hpp:270-285 *)
Definition vga_rotor_ie (id : N) : mv :=
  mkmv 7 4 4
    [mkind id one; mkind (id + 1) one; mkind (id + 4) one; mkind (id + 1) one; mkind (id + 3) one; mkind (id + 1) one; mkind (id + 2) one; ind0]
    [mkmon one one 1 0; mkmon minus_one (mkrat 2 1) 2 1; mkmon one (mkrat 2 1) 2 3; mkmon minus_one (mkrat 2 1) 2 5]
    [mkterm 1 0 0; mkterm 1 1 3; mkterm 1 2 5; mkterm 1 3 6] mop_id.

(** ** vga::point: x, y, z as a point of the projective algebra *)

(** vga::point::ie, vga.hpp:156-175 *)
Definition vga_point_ie (id : N) : mv :=
  mkmv 3 4 4 [mkind (id + 2) one; mkind (id + 1) one; mkind id one]
    [mkmon minus_one one 1 0; mkmon one one 1 1; mkmon minus_one one 1 2; mkmon one zero 0 0]
    [mkterm 1 0 7; mkterm 1 1 11; mkterm 1 2 13; mkterm 1 3 14] mop_id.
(** vga::point from an entity, vga.hpp:196-207; a division by zero gives no number *)
Definition vga_point_of (x : entity) : res (list R) :=
  a <- select 4 x 13;; b <- select 4 x 11;; c <- select 4 x 7;;
  w <- select 4 x 14;;
  Ok [(a * - (1 / w))%R; (b * (1 / w))%R; (c * - (1 / w))%R].
(** vga::point to pga::point, vga.hpp:209-213 *)
Definition vga_point_to_pga (d : list R) : res entity :=
  x <- get d 0;; y <- get d 1;; z <- get d 2;;
  Ok (combine pga_point [(- z)%R; y; (- x)%R; 1%R]).

(** ** pga *)

(** pga::rotor::ie, pga.hpp:167-182 *)
Definition pga_rotor_ie (id : N) : mv :=
  mkmv 7 4 4
    [mkind id one; mkind (id + 1) one; mkind (id + 4) one; mkind (id + 1) one; mkind (id + 3) one; mkind (id + 1) one; mkind (id + 2) one; ind0]
    [mkmon one one 1 0; mkmon one one 1 1; mkmon minus_one (mkrat 2 1) 2 2; mkmon one (mkrat 2 1) 2 3]
    [mkterm 1 0 0; mkterm 1 1 6; mkterm 1 2 10; mkterm 1 3 12] mop_id.
(** pga::translator::ie, pga.hpp:233-249 *)
Definition pga_translator_ie (id : N) : mv :=
  mkmv 6 4 4
    [mkind id one; mkind (id + 1) one; mkind id one; mkind (id + 1) one; mkind id one; mkind (id + 2) one]
    [mkmon one zero 0 0; mkmon minus_one_half (mkrat 2 1) 2 1; mkmon minus_one_half (mkrat 2 1) 2 2; mkmon minus_one_half (mkrat 2 1) 2 3]
    [mkterm 1 0 0; mkterm 1 1 3; mkterm 1 2 5; mkterm 1 3 9] mop_id.
(** pga::vector::ie, pga.hpp:404-422: the sizes exceed the arrays *)
Definition pga_vector_ie (id : N) : mv :=
  mkmv 3 4 4 [mkind (id + 2) one; mkind (id + 1) one; mkind id one]
    [mkmon minus_one one 1 0; mkmon one one 1 1; mkmon minus_one one 1 2]
    [mkterm 1 0 7; mkterm 1 1 11; mkterm 1 2 13] mop_id.
(** pga::vector from an entity, pga.hpp:435-441 *)
Definition pga_vector_of (x : entity) : res (list R) :=
  d <- selects 4 x [13; 11; 7]%N;;
  match d with [a; b; c] => Ok [(- a)%R; b; (- c)%R] | _ => Err IllFormed end.
(** pga::line::ie, pga.hpp:477-504 *)
Definition pga_line_ie (id : N) : mv :=
  mkmv 6 6 6
    [mkind (id + 3) one; mkind (id + 4) one; mkind (id + 2) one; mkind (id + 5) one; mkind (id + 1) one; mkind id one]
    [mkmon minus_one one 1 0; mkmon one one 1 1; mkmon minus_one one 1 2; mkmon minus_one one 1 3; mkmon one one 1 4; mkmon minus_one one 1 5]
    [mkterm 1 0 3; mkterm 1 1 5; mkterm 1 2 6; mkterm 1 3 9; mkterm 1 4 10; mkterm 1 5 12] mop_id.
(** pga::line from an entity, pga.hpp:520-528 *)
Definition pga_line_of (x : entity) : res (list R) :=
  d <- selects 4 x [12; 10; 6; 3; 5; 9]%N;;
  match d with [dx; dy; dz; mx; my; mz] => Ok [(- dx)%R; dy; (- dz)%R; (- mx)%R; my; (- mz)%R] | _ => Err IllFormed end.
(** pga::motor::bivector, pga.hpp:300-304 *)
Definition pga_motor_bivector (d : list R) : res entity :=
  l <- slice d 1 6;; Ok (combine [3; 5; 6; 9; 10; 12]%N l).

(** ** pga2 *)

(** pga2::point::ie, pga2.hpp:147-162 *)
Definition pga2_point_ie (id : N) : mv :=
  mkmv 2 3 3 [mkind (id + 1) one; mkind id one] [mkmon minus_one one 0 1; mkmon one one 1 1; mkmon one zero 0 0]
    [mkterm 1 0 3; mkterm 1 1 5; mkterm 1 2 6] mop_id.
(** pga2::point from an entity, pga2.hpp:174-182 *)
Definition pga2_point_of (x : entity) : res (list R) :=
  a <- select 3 x 5;; b <- select 3 x 3;; w <- select 3 x 6;; Ok [(1 / w)%R; (- (1 / w))%R].
(** pga2::vector::ie, pga2.hpp:211-229: the sizes exceed the arrays *)
Definition pga2_vector_ie (id : N) : mv :=
  mkmv 3 4 4 [mkind (id + 2) one; mkind (id + 1) one; mkind id one]
    [mkmon minus_one one 0 1; mkmon one one 1 1; mkmon minus_one one 2 1]
    [mkterm 1 0 7; mkterm 1 1 11; mkterm 1 2 13] mop_id.

(** ** cga *)

(** cga::point::ie, cga.hpp:122-150 *)
Definition cga_point_ie (id : N) : mv :=
  mkmv 6 7 5
    [mkind id one; mkind (id + 1) one; mkind (id + 2) one; mkind id (mkrat 2 1); mkind (id + 1) (mkrat 2 1); mkind (id + 2) (mkrat 2 1)]
    [mkmon one one 1 0; mkmon one one 1 1; mkmon one one 1 2; mkmon one zero 0 0;
     mkmon one_half (mkrat 2 1) 1 3; mkmon one_half (mkrat 2 1) 1 4; mkmon one_half (mkrat 2 1) 1 5]
    [mkterm 1 0 1; mkterm 1 1 2; mkterm 1 2 4; mkterm 1 3 8; mkterm 3 4 16] mop_id.
(** cga::point from an entity, cga.hpp:117-120 *)
Definition cga_point : list N := [1; 2; 4]%N.
