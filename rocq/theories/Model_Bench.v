(** The inverse kinematics benchmark, benchmark/ga-benchmark/SpecializedAlgorithmInverseKinematics.hpp: its two
    entity types, its lambdas, and its data.  Each call of compute is one lambda; the values between the calls
    (C++ doubles) are reals here, as everywhere in this model. *)
From Coq Require Import ZArith NArith List Reals.
From Verif Require Import Base Model_Numeric Model_MV Model_Expr Model_Geometry Spec_Expr.
Import ListNotations.
Local Open Scope list_scope.

(** point_z::ie, lines 42-57: the point (0, 0, 1), without input values *)
Definition point_z_ie (id : N) : mv :=
  mkmv 0 3 3 [] [mkmon one zero 0 0; mkmon one zero 0 0; mkmon one_half zero 0 0] [mkterm 1 0 4; mkterm 1 1 8; mkterm 1 2 16] mop_id.
(** point_xz::ie, lines 97-120, with the offsets as they are written there (C67) *)
Definition point_xz_ie (id : N) : mv :=
  mkmv 4 5 4 [mkind id one; mkind (id + 1) one; mkind id (mkrat 2 1); mkind (id + 1) (mkrat 2 1)]
    [mkmon one one 1 0; mkmon one one 1 1; mkmon one zero 0 0; mkmon one_half (mkrat 2 1) 1 1; mkmon one_half (mkrat 2 1) 1 2]
    [mkterm 1 0 1; mkterm 1 1 4; mkterm 1 2 8; mkterm 2 3 16] mop_id.
(** the elements of the constructor from an entity, lines 91-94 *)
Definition point_xz_elems : list N := [1; 4]%N.

(** the literals 1_no, 1_ni, 1_ips and 1_e3 of cga.hpp that the lambdas use (cga.hpp:28-72) *)
Definition no_u : uexpr := UBlade 8 1.
Definition ni_u : uexpr := UBlade 16 1.
Definition ips_u : uexpr := UBlade 31 (-1).
Definition e3_u : uexpr := UBlade 4 1.

(** expp, lines 139-152: the first lambda (line 142) ... *)
Definition expp_square : uexpr := UGp (UIn 0) (UIn 0).
(** ... and the second (lines 143-149), on the argument and its square *)
Definition expp_sum : uexpr :=
  UAdd (UAdd (UAdd (UAddZ 1 (UIn 0)) (UDivZ (UIn 1) 2)) (UDivZ (UGp (UIn 0) (UIn 1)) 6)) (UDivZ (UGp (UIn 1) (UIn 1)) 24).

(** Lz, lines 183-185; input: ang1 *)
Definition ik_Lz : uexpr := UDivZ (UGp (ULc (UEp (UEp no_u (UAdd (UAdd no_u e3_u) (UDivZ ni_u 2))) ni_u) ips_u) (UIn 0)) 2.
(** (a ^ b ^ 1_ni) >> 1_ips, lines 192, 206, 231 and 257 *)
Definition ik_line (a b : uexpr) : uexpr := ULc (UEp (UEp a b) ni_u) ips_u.
(** the same with the vector at infinity given as an input in place of the literal 1_ni (not in the code; C67
    compares) *)
Definition ik_line_at (a b i : uexpr) : uexpr := ULc (UEp (UEp a b) i) ips_u.
(** L2, lines 190-198; inputs: R1, J1, P2_help, ang2 *)
Definition ik_L2 : uexpr := UDivZ (UGp (USandwich (ik_line (UIn 1) (UIn 2)) (UIn 0)) (UIn 3)) 2.
(** R21, line 203; inputs: R1, R2.  Rfinal, line 274, is the same lambda on Rg (first) and R4R3T2R1 up to the
    order of the factors *)
Definition ik_R21 : uexpr := UGp (UIn 1) (UIn 0).
(** L3init, lines 205-206; inputs: J2, P3_help *)
Definition ik_L3init : uexpr := ik_line (UIn 0) (UIn 1).
(** J2_f, line 207; inputs: J2, R21 *)
Definition ik_J2_f : uexpr := USandwich (UIn 0) (UIn 1).
(** L3, lines 209-212; inputs: L3init, R21, ang3 *)
Definition ik_L3 : uexpr := UDivZ (UGp (USandwich (UIn 0) (UIn 1)) (UIn 2)) 2.
(** J2_rot1, line 218; inputs: R1, J2, J2_f *)
Definition ik_J2_rot1 : uexpr := USandwich (UIn 1) (UIn 0).
(** t2, lines 219-220 *)
Definition ik_t2 : uexpr :=
  USub (USub (USub (UAdd (UAdd (UComp (UIn 2) 1) (UComp (UIn 2) 2)) (UComp (UIn 2) 4)) (UComp ik_J2_rot1 1)) (UComp ik_J2_rot1 2)) (UComp ik_J2_rot1 4).
(** -t2 ^ 1_ni / 2, line 221: the unary minus and the division bind tighter than ^ *)
Definition ik_t2_help : uexpr := UEp (UNeg ik_t2) (UDivZ ni_u 2).
(** the tuple of lines 216-225 *)
Definition ik_tuple2 : list uexpr := [ik_J2_rot1; ik_t2_help].
(** L4init, line 231; inputs: J3, Jg, R3, T2, R1 *)
Definition ik_L4init : uexpr := ik_line (UIn 0) (UIn 1).
(** the tuple of lines 229-239, with L4weight (line 232) in the middle *)
Definition ik_tuple4 : list uexpr := [ik_L4init; ULc ik_L4init (URev ik_L4init); UGp (UGp (UIn 2) (UIn 3)) (UIn 4)].
(** L4, lines 247-251, and Lg, lines 266-270; inputs: the line, the motor, the angle *)
Definition ik_L4 : uexpr := UDivZ (UGp (UIn 2) (USandwich (UIn 0) (UIn 1))) 2.
(** the tuple of lines 255-264; inputs: R4, R3T2R1, J3, Pg_help *)
Definition ik_tupleg : list uexpr := [ik_line (UIn 2) (UIn 3); UGp (UIn 0) (UIn 1)].
(** Rfinal, line 274; inputs: Rg, R4R3T2R1 *)
Definition ik_Rfinal : uexpr := UGp (UIn 0) (UIn 1).
(** Jg_f, line 276; inputs: Rfinal, Jg *)
Definition ik_Jg_f : uexpr := USandwich (UIn 1) (UIn 0).
(** norm, line 241; std::sqrt of a negative number does not occur *)
Definition ik_norm (w : R) : R := (if Rlt_dec w 0 then - sqrt (- w) else sqrt w)%R.
(** the loop that divides L4init, lines 242-245; a division by zero is an error here *)
Definition ik_divide (d : list R) (n : R) : res (list R) := mapM (fun x => fdiv x n) d.
