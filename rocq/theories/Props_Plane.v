(** C72: the geometry of the plane in the algebra of public/gal/pga2.hpp. Lines are the type pga2::line;
    points are given by their components on e01, e02 and e12, since the type pga2::point is not usable
    (C34). *)
From Coq Require Import ZArith NArith List Bool Arith Reals Lia Lra.
From Verif Require Import Base Model_Numeric Model_Blade Model_MV Model_Product Model_Expr Model_Dfa Model_Reshape Model_Engine Model_Entity Model_Compute Model_Geometry
  Spec_Numeric Spec_Clifford Spec_Basis Spec_MV Spec_Expr Spec_Build Spec_Dfa Spec_Engine Spec_Entity Spec_Reshape Spec_Compute Spec_Geometry.
From Verif Require Import Proof_Geometry Props_Geometry.
Import ListNotations.
Local Open Scope list_scope.
Local Open Scope R_scope.

(** ** What is meant *)
(** the point (X, Y) is on the line d e0 + x e1 + y e2 *)
Definition on_line (d x y X Y : R) : Prop := d = x * X + y * Y.
(** the components of a multiple of the point (X, Y), as [point2_v] *)
Definition point_at (w X Y : R) : list R := [- (w * Y); w * X; w].
(** the result is a non-zero multiple of the point (X, Y), and nothing else *)
Definition is_point (e : entity) (X Y : R) : Prop := exists w, w <> 0 /\ selects 3 e [0; 1; 2; 3; 4; 5; 6; 7]%N = Ok [0; 0; 0; - (w * Y); 0; w * X; w; 0].
(** the result is the line, and nothing else *)
Definition is_line (e : entity) (d x y : R) : Prop := selects 3 e [0; 1; 2; 3; 4; 5; 6; 7]%N = Ok [0; d; x; 0; y; 0; 0; 0].
(** inputs *)
Notation line_in := (construct_ie pga2_line).
Notation point_in := (construct_ie [3; 5; 6]%N).
Definition plane_compute (md : mode) := compute_one md pga2_m false.
Lemma point_value w X Y b : on_blades [3; 5; 6]%N (point_at w X Y) b = vscale w (point2_v X Y) b.
Proof. unfold on_blades, point_at, point2_v, on_blades, vscale, entity_val, Rsum. cbn [combine map fst snd fold_right]. repeat match goal with |- context[(?a =? b)%N] => destruct (a =? b)%N end; ring. Qed.
Ltac go := eexists; split; [match goal with md : mode |- _ => destruct md end; cbv -[IZR sqrt Rplus Rmult Ropp Rinv R1]; reflexivity|].

(** ** C72 *)
Theorem C72_line_square md d x y : exists e, plane_compute md [line_in] [[d; x; y]] (UGp (UIn 0) (UIn 0)) = Ok [e] /\
  selects 3 e [0; 1; 2; 3; 4; 5; 6; 7]%N = Ok [x * x + y * y; 0; 0; 0; 0; 0; 0; 0].
Proof. go. reads; try reflexivity; ring. Qed.
Print Assumptions C72_line_square.
(** a point is on a line when their exterior product vanishes *)
Theorem C72_incidence md d x y w X Y : w <> 0 -> exists e, plane_compute md [line_in; point_in] [[d; x; y]; point_at w X Y] (UEp (UIn 0) (UIn 1)) = Ok [e] /\
  ((forall b, entity_val e b = 0) <-> on_line d x y X Y).
Proof.
  intros W. go. unfold on_line. split; intros H.
  - specialize (H 7%N). unfold entity_val, Rsum in H. cbn in H. apply (Rmult_eq_reg_l w); [lra|exact W].
  - intros b. unfold entity_val, Rsum. cbn [map fst snd fold_right]. destruct (7 =? b)%N; [|ring]. subst d. ring.
Qed.
Print Assumptions C72_incidence.
(** the exterior product of two lines is their intersection ... *)
Theorem C72_meet md d x y d' x' y' : x * y' - y * x' <> 0 -> exists e X Y, plane_compute md [line_in; line_in] [[d; x; y]; [d'; x'; y']] (UEp (UIn 0) (UIn 1)) = Ok [e] /\
  is_point e X Y /\ (forall P Q, on_line d x y P Q /\ on_line d' x' y' P Q <-> P = X /\ Q = Y).
Proof.
  intros D. set (D0 := x * y' - y * x') in *. eexists. exists ((d * y' - y * d') / D0), ((x * d' - d * x') / D0). split; [destruct md; cbv -[IZR sqrt Rplus Rmult Ropp Rinv R1]; reflexivity|]. split.
  - exists D0. split; [exact D|]. reads; unfold D0 in *; field; exact D.
  - intros P Q. unfold on_line, D0 in *. split.
    + intros [-> ->]. split; field; exact D.
    + intros [-> ->]. split; field; exact D.
Qed.
Print Assumptions C72_meet.
(** ... and an ideal point when they are parallel *)
Theorem C72_parallel md d x y d' x' y' : exists e, plane_compute md [line_in; line_in] [[d; x; y]; [d'; x'; y']] (UEp (UIn 0) (UIn 1)) = Ok [e] /\
  (x * y' - y * x' = 0 <-> entity_val e 6%N = 0).
Proof. go. unfold entity_val, Rsum. cbn. split; lra. Qed.
Print Assumptions C72_parallel.
(** the regressive product of two points is the line through them *)
Theorem C72_join md w X Y w' X' Y' : w <> 0 -> w' <> 0 -> exists e d x y, plane_compute md [point_in; point_in] [point_at w X Y; point_at w' X' Y'] (UVee (UIn 0) (UIn 1)) = Ok [e] /\
  is_line e d x y /\ on_line d x y X Y /\ on_line d x y X' Y' /\ (forall P Q, on_line d x y P Q <-> (P - X) * (Y' - Y) = (Q - Y) * (X' - X)).
Proof.
  intros W W'. eexists. exists (w * w' * (X * Y' - Y * X')), (w * w' * (Y' - Y)), (w * w' * (X - X')). split; [destruct md; cbv -[IZR sqrt Rplus Rmult Ropp Rinv R1]; reflexivity|]. split; [|split; [|split]].
  - unfold is_line. reads; ring.
  - unfold on_line. ring.
  - unfold on_line. ring.
  - intros P Q. unfold on_line. split; intros H.
    + apply (Rmult_eq_reg_l (w * w')); [lra|]. now apply Rmult_integral_contrapositive.
    + assert (D0 : (P - X) * (Y' - Y) - (Q - Y) * (X' - X) = 0) by lra. apply Rminus_diag_uniq. transitivity (- (w * w') * ((P - X) * (Y' - Y) - (Q - Y) * (X' - X))); [ring|rewrite D0; ring].
Qed.
Print Assumptions C72_join.
(** the inner product of a line and a point is the perpendicular through the point *)
Theorem C72_perpendicular md d x y w X Y : exists e d' x' y', plane_compute md [line_in; point_in] [[d; x; y]; point_at w X Y] (USip (UIn 0) (UIn 1)) = Ok [e] /\
  is_line e d' x' y' /\ on_line d' x' y' X Y /\ x * x' + y * y' = 0 /\ x' * x' + y' * y' = w * w * (x * x + y * y).
Proof.
  eexists. exists (w * (x * Y - y * X)), (- (w * y)), (w * x). split; [destruct md; cbv -[IZR sqrt Rplus Rmult Ropp Rinv R1]; reflexivity|]. split; [|split; [|split]].
  - unfold is_line. reads; ring.
  - unfold on_line. ring.
  - ring.
  - ring.
Qed.
Print Assumptions C72_perpendicular.
(** ... and times the line again the foot of the perpendicular *)
Theorem C72_projection md d x y w X Y : x * x + y * y <> 0 -> w <> 0 -> exists e P Q, plane_compute md [line_in; point_in] [[d; x; y]; point_at w X Y] (UGp (USip (UIn 0) (UIn 1)) (UIn 0)) = Ok [e] /\
  is_point e P Q /\ on_line d x y P Q /\ (X - P) * y = (Y - Q) * x.
Proof.
  intros N W. eexists. exists (X + x * (d - x * X - y * Y) / (x * x + y * y)), (Y + y * (d - x * X - y * Y) / (x * x + y * y)). split; [destruct md; cbv -[IZR sqrt Rplus Rmult Ropp Rinv R1]; reflexivity|]. split; [|split].
  - exists (- (w * (x * x + y * y))). split; [intros E; apply N; apply (Rmult_eq_reg_l w); [lra|exact W]|]. reads; field; exact N.
  - unfold on_line. field. exact N.
  - field. exact N.
Qed.
Print Assumptions C72_projection.
(** the sandwich with a line is the mirror image, of points ... *)
Definition mirror (d x y X Y : R) : R * R := (X + 2 * x * (d - x * X - y * Y) / (x * x + y * y), Y + 2 * y * (d - x * X - y * Y) / (x * x + y * y)).
Lemma mirror_ok d x y X Y : x * x + y * y <> 0 -> let '(P, Q) := mirror d x y X Y in on_line d x y ((X + P) / 2) ((Y + Q) / 2) /\ (X - P) * y = (Y - Q) * x.
Proof. intros N. unfold mirror, on_line. split; field; exact N. Qed.
Theorem C72_reflection md d x y w X Y : x * x + y * y <> 0 -> w <> 0 -> exists e P Q, plane_compute md [line_in; point_in] [[d; x; y]; point_at w X Y] (USandwich (UIn 1) (UIn 0)) = Ok [e] /\
  is_point e P Q /\ on_line d x y ((X + P) / 2) ((Y + Q) / 2) /\ (X - P) * y = (Y - Q) * x.
Proof.
  intros N W. pose proof (mirror_ok d x y X Y N) as M. eexists. exists (fst (mirror d x y X Y)), (snd (mirror d x y X Y)). split; [destruct md; cbv -[IZR sqrt Rplus Rmult Ropp Rinv R1]; reflexivity|]. split; [|exact M].
  exists (- (w * (x * x + y * y))). split; [intros E; apply N; apply (Rmult_eq_reg_l w); [lra|exact W]|]. unfold mirror. cbn [fst snd]. reads; field; exact N.
Qed.
Print Assumptions C72_reflection.
(** ... and of lines *)
Theorem C72_reflected_line md d x y d' x' y' : x * x + y * y <> 0 -> exists e a b c, plane_compute md [line_in; line_in] [[d; x; y]; [d'; x'; y']] (USandwich (UIn 1) (UIn 0)) = Ok [e] /\
  is_line e a b c /\ forall X Y, on_line d' x' y' X Y <-> let '(P, Q) := mirror d x y X Y in on_line a b c P Q.
Proof.
  intros N. eexists. exists (2 * d * (x * x' + y * y') - (x * x + y * y) * d'), (2 * x * (x * x' + y * y') - (x * x + y * y) * x'), (2 * y * (x * x' + y * y') - (x * x + y * y) * y'). split; [destruct md; cbv -[IZR sqrt Rplus Rmult Ropp Rinv R1]; reflexivity|]. split.
  - unfold is_line. reads; ring.
  - intros X Y. unfold mirror, on_line. assert (E : forall D, D = 2 * d * (x * x' + y * y') - (x * x + y * y) * d' - ((2 * x * (x * x' + y * y') - (x * x + y * y) * x') * (X + 2 * x * (d - x * X - y * Y) / (x * x + y * y)) + (2 * y * (x * x' + y * y') - (x * x + y * y) * y') * (Y + 2 * y * (d - x * X - y * Y) / (x * x + y * y))) -> D = - ((x * x + y * y) * (d' - (x' * X + y' * Y)))) by (intros D ->; field; exact N).
    specialize (E _ eq_refl). split; intros H.
    + assert (D0 : d' - (x' * X + y' * Y) = 0) by lra. rewrite D0 in E. lra.
    + assert (D0 : (x * x + y * y) * (d' - (x' * X + y' * Y)) = 0) by lra. apply Rmult_integral in D0. destruct D0 as [D0|D0]; [contradiction|lra].
Qed.
Print Assumptions C72_reflected_line.
(** the sandwich with the product of two lines is the one mirror image after the other: a turn about
    their intersection, or a translation across them *)
Theorem C72_two_reflections md d x y d' x' y' w X Y : x * x + y * y <> 0 -> x' * x' + y' * y' <> 0 -> w <> 0 ->
  exists e, plane_compute md [line_in; line_in; point_in] [[d; x; y]; [d'; x'; y']; point_at w X Y] (USandwich (UIn 2) (UGp (UIn 0) (UIn 1))) = Ok [e] /\
  let '(P, Q) := mirror d' x' y' X Y in let '(P', Q') := mirror d x y P Q in is_point e P' Q'.
Proof.
  intros N N' W. go. unfold mirror. exists (w * (x * x + y * y) * (x' * x' + y' * y')). split; [|reads; field; tauto].
  intros E. apply Rmult_integral in E. destruct E as [E|E]; [|exact (N' E)]. apply Rmult_integral in E. tauto.
Qed.
Print Assumptions C72_two_reflections.
(** the hypotheses are met: x + y = 2 and x - y = 0 meet in (1, 1); the mirror image of (3, 1) *)
Example C72_ex : (1 * -1 - 1 * 1 <> 0) /\ on_line 2 1 1 1 1 /\ on_line 0 1 (-1) 1 1 /\ 1 * 1 + 1 * 1 <> 0 /\ mirror 2 1 1 3 1 = (1, -1) /\ is_point [(3%N, 2); (5%N, 2); (6%N, 2)] 1 (-1) /\ is_line [(2%N, 1); (4%N, 1); (1%N, 2)] 2 1 1.
Proof.
  repeat split; unfold on_line; try lra; [unfold mirror; f_equal; field|]. exists 2. split; [lra|]. reads; lra.
Qed.
