(** Lines, rotations about lines and weighted points of the conformal model of space, for C67. *)
From Coq Require Import NArith List Reals.
From Verif Require Import Base Model_Entity Model_Engine Spec_Engine Spec_Geometry.
Import ListNotations.
Local Open Scope list_scope.
Local Open Scope R_scope.

(** the blades e12, e13, e23, e1 ni, e2 ni, e3 ni of a dual line ... *)
Definition line_blades : list N := [3; 5; 6; 17; 18; 20]%N.
(** ... and its coefficients: the direction and the moment *)
Definition dual_line (d m : vec) : list R := [cz d; - cy d; cx d; cx m; cy m; cz m].
(** the blades of a motor: those of a line, the scalar and e123 ni *)
Definition motor_blades : list N := [0; 3; 5; 6; 17; 18; 20; 23]%N.
(** c + s L *)
Definition turn_about (c s : R) (d m : vec) : list R := c :: map (Rmult s) (dual_line d m) ++ [0].
(** [e] is [w] times the conformal point [p]: w (no + p + p^2/2 ni); its type has the pseudoscalar too *)
Definition weighted_point (e : entity) (w : R) (p : vec) : Prop :=
  map fst e = [1; 2; 4; 8; 16; 31]%N /\ map snd e = [w * cx p; w * cy p; w * cz p; w; w * (dot p p / 2); 0].
(** the rotation by [t] about the line through [q] with direction [u] *)
Definition rotate_about (t : R) (u q p : vec) : vec := vplus q (rotate t u (vminus p q)).
(** the truncated series of the exponential of x, with x^2 = -1 *)
Definition cos4 (t : R) : R := 1 - t ^ 2 / 2 + t ^ 4 / 24.
Definition sin3 (t : R) : R := t - t ^ 3 / 6.
