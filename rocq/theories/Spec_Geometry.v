(** Euclidean geometry in coordinates, and the exponential of a multivector. *)
From Coq Require Import NArith List Reals String.
From Verif Require Import Base Model_Blade Spec_Clifford Spec_Basis Spec_MV Spec_Expr.
Import ListNotations.
Local Open Scope R_scope.

(** ** Vectors of space *)
Record vec := mkvec { cx : R; cy : R; cz : R }.
Definition vplus (a b : vec) : vec := mkvec (cx a + cx b) (cy a + cy b) (cz a + cz b).
Definition vminus (a b : vec) : vec := mkvec (cx a - cx b) (cy a - cy b) (cz a - cz b).
Definition vtimes (k : R) (a : vec) : vec := mkvec (k * cx a) (k * cy a) (k * cz a).
Definition dot (a b : vec) : R := cx a * cx b + cy a * cy b + cz a * cz b.
Definition cross (a b : vec) : vec := mkvec (cy a * cz b - cz a * cy b) (cz a * cx b - cx a * cz b) (cx a * cy b - cy a * cx b).
Definition coords (a : vec) : list R := [cx a; cy a; cz a].
Definition unit_vec (a : vec) : Prop := dot a a = 1.
(** the square of the distance *)
Definition dist2 (a b : vec) : R := dot (vminus a b) (vminus a b).
(** the rotation of [v] by [t] about the axis [n] (Rodrigues) *)
Definition rotate (t : R) (n v : vec) : vec :=
  vplus (vplus (vtimes (cos t) v) (vtimes (sin t) (cross n v))) (vtimes ((1 - cos t) * dot n v) n).
(** the rotation about the axis through [c], followed by a translation *)
Definition screw (t : R) (n c h v : vec) : vec := vplus (vplus c (rotate t n (vminus v c))) h.

(** ** Planes d + n . v = 0, three points, three planes *)
Definition on_plane (d : R) (n v : vec) : Prop := d + dot n v = 0.
(** the determinant of three vectors *)
Definition det3 (a b c : vec) : R := dot a (cross b c).

(** ** The exponential: the value at time 1 of the solution of E' = B E, E(0) = 1 *)
Definition is_exp (m : metric) (B E : V) : Prop :=
  exists f : R -> V, f 0 = delta 0 /\ f 1 = E /\
    forall t b, derivable_pt_lim (fun t => f t b) t (vprod m Geometric B (f t) b).

(** ** Names of blades: a digit for each generator *)
Fixpoint named (s : string) (first : N) : N :=
  match s with
  | EmptyString => 0%N
  | String c s' => N.lor (2 ^ (Ascii.N_of_ascii c - 48 - first))%N (named s' first)
  end.
