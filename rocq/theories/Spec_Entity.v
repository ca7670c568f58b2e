(** What the components of an entity stand for. *)
From Coq Require Import ZArith NArith List Bool Arith Reals.
From Verif Require Import Base Model_Numeric Model_Blade Model_MV Model_Expr Model_Dfa Model_Engine Spec_Basis Spec_MV Spec_Expr Spec_Engine.
Import ListNotations.
Local Open Scope nat_scope.

(** the multivector with the components [d] on the blades [es] *)
Definition on_blades (es : list N) (d : list R) : V := entity_val (combine es d).
(** the program that returns its first input *)
Definition return_input : list node := rnodes (e_input 0 0).

(** the first component stored for blade [e] *)
Fixpoint lookup (x : entity) (e : N) : option R :=
  match x with
  | [] => None
  | (b, r) :: x' => if (b =? e)%N then Some r else lookup x' e
  end.

(** ** Intended multivectors; angles enter as a cosine and a sine *)

(** the bivector dual to the axis in space *)
Definition axis_bivector (x y z : R) : V := on_blades [3; 5; 6]%N [z; (- y)%R; x].
(** cos - sin * axis *)
Definition rotor_v (c s x y z : R) : V := vadd (vscalar c) (vscale (- s) (axis_bivector x y z)).
(** a point of space in the projective algebra: the origin e123 moved along the ideal directions *)
Definition point_v (x y z : R) : V := on_blades [7; 11; 13; 14]%N [(- z)%R; y; (- x)%R; 1%R].
(** a line with the direction (dx, dy, dz) and the moment (mx, my, mz): the dual coordinates *)
Definition line_v (dx dy dz mx my mz : R) : V := on_blades [3; 5; 6; 9; 10; 12]%N [(- mx)%R; my; (- dz)%R; (- mz)%R; dy; (- dx)%R].
(** a point of the plane *)
Definition point2_v (x y : R) : V := on_blades [3; 5; 6]%N [(- y)%R; x; 1%R].
(** the rotation about the axis through the origin: cos plus sin times the line, whose e12, e13 and
    e23 components are the coordinates of the axis up to sign *)
Definition rotor_like (v : V) (c s x y z : R) : Prop :=
  v 0%N = c /\ (v 6%N = s * z \/ v 6%N = - (s * z))%R /\ (v 10%N = s * y \/ v 10%N = - (s * y))%R /\ (v 12%N = s * x \/ v 12%N = - (s * x))%R.
(** the translation by [d] along (x, y, z): 1 + d/2 times the ideal line, up to sign *)
Definition translator_like (v : V) (d x y z : R) : Prop :=
  v 0%N = 1%R /\ (v 3%N = d * x / 2 \/ v 3%N = - (d * x / 2))%R /\ (v 5%N = d * y / 2 \/ v 5%N = - (d * y / 2))%R /\ (v 9%N = d * z / 2 \/ v 9%N = - (d * z / 2))%R.
(** the conformal point in the null basis: no + p + p^2 / 2 ni *)
Definition conformal_point (x y z : R) : V := on_blades [1; 2; 4; 8; 16]%N [x; y; z; 1%R; ((x * x + y * y + z * z) / 2)%R].

(** ** Inputs: in a conformal algebra the components are given in the null basis *)
Definition input (m : metric) (nb : bool) (w : V) : V :=
  if nb then fun b => if (b <? 2 ^ dimension m)%N then linear (dim m) (outermorphism (dim m) (null_to_natural (dim m))) w b else 0%R
  else w.
