(** C63: the motions that the tests write as lambdas (test/test_pga.cpp:13-56, test_vga.cpp:28), for all
    parameters. *)
From Coq Require Import ZArith NArith List Bool Arith Reals Lia Lra Nsatz.
From Verif Require Import Base Model_Numeric Model_Blade Model_MV Model_Product Model_Expr Model_Dfa Model_Reshape Model_Engine Model_Entity Model_Compute Model_Geometry
  Spec_Numeric Spec_Clifford Spec_Basis Spec_MV Spec_Expr Spec_Build Spec_Dfa Spec_Engine Spec_Entity Spec_Reshape Spec_Compute Spec_Geometry.
From Verif Require Import Proof_Geometry Proof_Motion Props_Geometry.
Import ListNotations.
Local Open Scope list_scope.
Local Open Scope R_scope.

(** ** The lambdas *)
(** normalized_line, test_pga.cpp:27-32 *)
Definition normalized_line (l : uexpr) : uexpr :=
  UDiv l (UFn op_sqrt (UAdd (UAdd (UGp (UComp l 6) (UComp l 6)) (UGp (UComp l 10) (UComp l 10))) (UGp (UComp l 12) (UComp l 12)))).
(** rotor, test_pga.cpp:34-38 *)
Definition rotor_u (a l : uexpr) : uexpr := UAdd (UFn op_cos (UDivZ a 2)) (UGp (UFn op_sin (UDivZ a 2)) (normalized_line l)).
(** translator, test_pga.cpp:40-44 *)
Definition translator_u (d l : uexpr) : uexpr := UAddZ 1 (UGp (UDivZ d 2) l).
(** circle, test_pga.cpp:46-50 *)
Definition circle_u (t r l : uexpr) : uexpr := UGp (rotor_u (UGp (UScale 2 UPi) t) l) (translator_u r (UNeg (UBlade 3 1))).
(** torus, test_pga.cpp:52-56 *)
Definition torus_u (s t r1 l1 r2 l2 : uexpr) : uexpr := UGp (circle_u s r2 l2) (circle_u t r1 l1).
(** t * p * ~t, test_pga.cpp:70 *)
Definition moved (t p : uexpr) : uexpr := UGp (UGp t p) (URev t).
(** the components of a bivector in the order of the blades *)
Definition bivector : list N := [3; 5; 6; 9; 10; 12]%N.
Definition line_of (k : R) (n c : vec) : list R := let '(n3, n5, n6, n9, n10, n12) := axis n c in [k * n3; k * n5; k * n6; k * n9; k * n10; k * n12].

(** ** C63 *)
(** translator(d, l) for an ideal line l moves points by -d l ... *)
Theorem C63_translator md d n p : exists e,
  compute_one md pga_m false [vga_point_ie; scalar_ie; construct_ie [3; 5; 9]%N] [coords p; [d]; coords n] (moved (translator_u (UIn 1) (UIn 2)) (UIn 0)) = Ok [e] /\
  vga_point_of e = Ok (coords (vminus p (vtimes d n))).
Proof.
  destruct n as [x y z], p as [a b c]. run. unfold vga_point_of. reads; field.
Qed.
Print Assumptions C63_translator.
(** ... and for -e01 by d along the x axis *)
Theorem C63_translator_x md d p : exists e,
  compute_one md pga_m false [vga_point_ie; scalar_ie] [coords p; [d]] (moved (translator_u (UIn 1) (UNeg (UBlade 3 1))) (UIn 0)) = Ok [e] /\
  vga_point_of e = Ok (coords (vplus p (mkvec d 0 0))).
Proof.
  destruct p as [a b c]. run. unfold vga_point_of. reads; field.
Qed.
Print Assumptions C63_translator_x.
(** rotor(a, l) turns points about the line l, of any norm, by -a *)
Lemma half_turn a : cos (- a) = cos (a * / 2) * cos (a * / 2) - sin (a * / 2) * sin (a * / 2) /\ sin (- a) = - (2 * sin (a * / 2) * cos (a * / 2)) /\
  sin (a * / 2) * sin (a * / 2) + cos (a * / 2) * cos (a * / 2) = 1.
Proof.
  replace (- a) with (-2 * (a * / 2)) by field. destruct (double (a * / 2)) as [-> ->]. repeat split. exact (sin2_cos2 _).
Qed.
Lemma unscale k m : 0 < k -> k * m * (1 * / k) = m.
Proof. intros K. field. lra. Qed.
Theorem C63_rotor md a k n c p : unit_vec n -> 0 < k -> exists e,
  compute_one md pga_m false [vga_point_ie; scalar_ie; construct_ie bivector] [coords p; [a]; line_of k n c] (moved (rotor_u (UIn 1) (UIn 2)) (UIn 0)) = Ok [e] /\
  vga_point_of e = Ok (coords (screw (- a) n c (mkvec 0 0 0) p)).
Proof.
  destruct n as [x y z], p as [p q r], c as [u v w]. unfold unit_vec, dot. cbn [cx cy cz]. intros U K. destruct (half_turn a) as (HC & HS & HP).
  run. unfold vga_point_of. reads.
  all: match goal with |- context[sqrt ?e] => replace (sqrt e) with k by (transitivity (sqrt (k * k)); [now rewrite sqrt_square by lra|f_equal; match type of U with ?l = _ => transitivity (k * k * l); [rewrite U|]; ring end]) end.
  all: rewrite !(unscale k) by exact K; rewrite HC, HS; set (ca := cos (a * / 2)) in *; set (sa := sin (a * / 2)) in *; clearbody ca sa.
  all: match goal with |- context[1 * / ?d] => replace d with 1 by (match type of U with ?l = _ => transitivity (ca * ca + sa * sa * l); [rewrite U; lra|ring] end) end.
  all: rewrite Rinv_1; unfold Rminus; clear - U HP; nsatz.
Qed.
Print Assumptions C63_rotor.
(** and planes: the image of the plane d + m . v = 0 *)
Theorem C63_rotor_plane md a k n c d m : unit_vec n -> 0 < k -> exists e d' m',
  compute_one md pga_m false [scalar_ie; construct_ie pga_plane; construct_ie bivector] [[a]; d :: coords m; line_of k n c] (moved (rotor_u (UIn 0) (UIn 2)) (UIn 1)) = Ok [e] /\
  selects 4 e pga_plane = Ok (d' :: coords m') /\ m' = rotate (- a) n m /\ forall p, on_plane d m p <-> on_plane d' m' (screw (- a) n c (mkvec 0 0 0) p).
Proof.
  destruct n as [x y z], m as [p q r], c as [u v w]. unfold unit_vec, dot. cbn [cx cy cz]. intros U K. destruct (half_turn a) as (HC & HS & HP).
  eexists. exists (d + dot (mkvec p q r) (mkvec u v w) - dot (rotate (- a) (mkvec x y z) (mkvec p q r)) (mkvec u v w)), (rotate (- a) (mkvec x y z) (mkvec p q r)).
  split; [destruct md; cbv -[IZR sqrt sin cos]; reflexivity|]. split; [|split; [reflexivity|]].
  - reads.
    all: match goal with |- context[sqrt ?e] => replace (sqrt e) with k by (transitivity (sqrt (k * k)); [now rewrite sqrt_square by lra|f_equal; match type of U with ?l = _ => transitivity (k * k * l); [rewrite U|]; ring end]) end.
    all: rewrite !(unscale k) by exact K; rewrite ?HC, ?HS; set (ca := cos (a * / 2)) in *; set (sa := sin (a * / 2)) in *; clearbody ca sa.
    all: unfold Rminus; clear - U HP; nsatz.
  - intros [p1 p2 p3]. assert (E : forall b b' : R, b = b' -> (b = 0 <-> b' = 0)) by (intros b b' ->; reflexivity). unfold on_plane. apply E.
    unfold screw, rotate, dot, vplus, vminus, vtimes, cross. cbn [cx cy cz]. rewrite HC, HS. set (ca := cos (a * / 2)) in *. set (sa := sin (a * / 2)) in *. clearbody ca sa. unfold Rminus. clear - U HP. nsatz.
Qed.
Print Assumptions C63_rotor_plane.
(** circle(t, r, e12) moves the origin along a circle of radius r, once while t goes from 0 to 1 *)
Lemma whole_turn t : cos (2 * PI * t) = cos (t * PI) * cos (t * PI) - sin (t * PI) * sin (t * PI) /\ sin (2 * PI * t) = 2 * sin (t * PI) * cos (t * PI) /\
  sin (t * PI) * sin (t * PI) + cos (t * PI) * cos (t * PI) = 1.
Proof.
  replace (2 * PI * t) with (2 * (t * PI)) by ring. rewrite cos_2a, sin_2a. repeat split. exact (sin2_cos2 _).
Qed.
Ltac one_norm := replace (sqrt (1 * / 1)) with 1 by (rewrite Rinv_1, Rmult_1_r; symmetry; exact sqrt_1).
Theorem C63_circle md t r : exists e,
  compute_one md pga_m false [scalar_ie; scalar_ie] [[t]; [r]] (moved (circle_u (UIn 0) (UIn 1) (UBlade 6 1)) (UBlade 14 1)) = Ok [e] /\
  vga_point_of e = Ok [r * cos (2 * PI * t); - (r * sin (2 * PI * t)); 0].
Proof.
  destruct (whole_turn t) as (C & S & P). rewrite C, S. eexists. split; [destruct md; cbv -[IZR sqrt sin cos PI]; reflexivity|]. unfold vga_point_of.
  cbv -[IZR sqrt sin cos PI Rplus Rmult Rminus Rinv Ropp]. apply ok_list. set (c := cos (t * PI)) in *. set (s := sin (t * PI)) in *. clearbody c s.
  one_norm. rewrite !Rinv_1. repeat (apply cons_eq; [|try reflexivity]).
  all: match goal with |- context[1 * / ?d] => replace d with 1 by (transitivity (s * s + c * c); [now rewrite P|ring]) end.
  all: rewrite Rinv_1; field.
Qed.
Print Assumptions C63_circle.
(** torus(s, t, r1, e12, r2, e13) moves the origin to the torus around the y axis *)
Theorem C63_torus md s t r1 r2 : exists e,
  compute_one md pga_m false [scalar_ie; scalar_ie; scalar_ie; scalar_ie] [[s]; [t]; [r1]; [r2]]
    (moved (torus_u (UIn 0) (UIn 1) (UIn 2) (UBlade 6 1) (UIn 3) (UBlade 10 1)) (UBlade 14 1)) = Ok [e] /\
  vga_point_of e = Ok [(r2 + r1 * cos (2 * PI * t)) * cos (2 * PI * s); - (r1 * sin (2 * PI * t)); - ((r2 + r1 * cos (2 * PI * t)) * sin (2 * PI * s))].
Proof.
  destruct (whole_turn t) as (C & S & P). rewrite C, S. destruct (whole_turn s) as (C' & S' & P'). rewrite C', S'. clear C S C' S'.
  eexists. split; [destruct md; cbv -[IZR sqrt sin cos PI]; reflexivity|]. unfold vga_point_of.
  cbv -[IZR sqrt sin cos PI Rplus Rmult Rminus Rinv Ropp]. apply ok_list. set (c1 := cos (t * PI)) in *. set (s1 := sin (t * PI)) in *. set (c2 := cos (s * PI)) in *. set (s2 := sin (s * PI)) in *. clearbody c1 s1 c2 s2.
  one_norm. rewrite !Rinv_1. repeat (apply cons_eq; [|try reflexivity]).
  all: match goal with |- context[1 * / ?d] => replace d with 1 by (transitivity ((s1 * s1 + c1 * c1) * (s2 * s2 + c2 * c2)); [rewrite P, P'; ring|ring]) end.
  all: rewrite Rinv_1; unfold Rminus; assert (H2 : 2 * / 2 = 1) by field; set (h := / 2) in *; clearbody h; clear - P P' H2; nsatz.
Qed.
Print Assumptions C63_torus.
(** v % w: the reflection of v in w *)
Theorem C63_reflection md v w : exists e,
  compute_one md vga_m false [construct_ie vga_vector; construct_ie vga_vector] [coords v; coords w] (USandwich (UIn 0) (UIn 1)) = Ok [e] /\
  selects 3 e vga_vector = Ok (coords (vminus (vtimes (2 * dot v w) w) (vtimes (dot w w) v))).
Proof. destruct v as [a b c], w as [x y z]. run. reads; ring. Qed.
Print Assumptions C63_reflection.
(** exp(q & p) of two points turns about the line through them, by twice their distance *)
Lemma join_exp md p q D : D * D = dist2 p q -> 0 < D -> exists e,
  compute_exp md pga_m false [vga_point_ie; vga_point_ie] [coords p; coords q] (UVee (UIn 1) (UIn 0)) = Ok [e] /\ map fst e = pga_motor /\
  map snd e = screw_data D 0 (vtimes (/ D) (vminus p q)) p.
Proof.
  destruct p as [x y z], q as [u v w]. intros H P. eexists. split; [destruct md; cbv -[IZR sqrt sin cos]; reflexivity|]. split; [reflexivity|].
  unfold dist2, dot, vminus in H. cbn [cx cy cz] in H. cbn [map snd].
  unfold screw_data, axis, screw_motor, vtimes, vminus, cross. cbn [cx cy cz combine pga_motor map snd].
  repeat match goal with |- context[sqrt ?e] => replace (sqrt e) with D by (transitivity (sqrt (D * D)); [now rewrite sqrt_square by lra|f_equal; rewrite H; field]) end.
  assert (I : D * / D = 1) by (field; lra). 
  repeat (apply cons_eq; [|]); try reflexivity.
  all: repeat match goal with |- context[-1 * / 2 * (1 * / _ * ?p)] => replace p with 0 by field end; rewrite ?Rinv_1.
  all: ring.
Qed.
Theorem C63_join_motor md p q r : p <> q -> exists e f,
  compute_exp md pga_m false [vga_point_ie; vga_point_ie] [coords p; coords q] (UVee (UIn 1) (UIn 0)) = Ok [e] /\
  compute_one md pga_m false [construct_ie (map fst e); vga_point_ie] [map snd e; coords r] (USandwich (UIn 1) (UIn 0)) = Ok [f] /\
  vga_point_of f = Ok (coords (screw (2 * sqrt (dist2 p q)) (vtimes (/ sqrt (dist2 p q)) (vminus q p)) p (mkvec 0 0 0) r)).
Proof.
  intros NE. assert (P2 : 0 < dist2 p q).
  { destruct (Rle_lt_or_eq_dec 0 (dist2 p q)) as [L|L]; [unfold dist2, dot; nra|exact L|]. exfalso. apply NE. destruct p as [x y z], q as [u v w]. unfold dist2, dot, vminus in L. cbn [cx cy cz] in L.
    pose proof (Rle_0_sqr (x - u)) as A1. pose proof (Rle_0_sqr (y - v)) as A2. pose proof (Rle_0_sqr (z - w)) as A3. unfold Rsqr in A1, A2, A3. f_equal; apply Rminus_diag_uniq; apply Rsqr_0_uniq; unfold Rsqr; lra. }
  set (D := sqrt (dist2 p q)). assert (DD : D * D = dist2 p q) by (apply sqrt_sqrt; lra). assert (DP : 0 < D) by (apply sqrt_lt_R0; lra). clearbody D.
  destruct (join_exp md p q D DD DP) as (e & E1 & E2 & E3). assert (U : unit_vec (vtimes (/ D) (vminus p q))).
  { unfold unit_vec. transitivity (/ D * / D * dist2 p q); [unfold dist2, dot, vtimes; cbn [cx cy cz]; ring|rewrite <- DD; field; lra]. }
  destruct (C58_screw md D 0 _ p r U) as (f & F1 & F2). exists e, f. split; [exact E1|]. rewrite E2, E3. split; [exact F1|]. rewrite F2. do 2 f_equal.
  replace (2 * D) with (- (-2 * D)) by ring. destruct p as [x y z], q as [u v w], r as [r s t]. unfold screw, rotate, vplus, vminus, vtimes, dot, cross. cbn [cx cy cz]. rewrite cos_neg, sin_neg. f_equal; ring.
Qed.
Print Assumptions C63_join_motor.
(** the translator of the library moves points by d along (x, x, x), whatever its y and z *)
Theorem C34_pga_translator_moves md d x y z p : exists e,
  compute_one md pga_m false [pga_translator_ie; vga_point_ie] [[d; x; y; z]; coords p] (USandwich (UIn 1) (UIn 0)) = Ok [e] /\
  vga_point_of e = Ok (coords (vplus p (vtimes d (mkvec x x x)))).
Proof. destruct p as [a b c]. run. unfold vga_point_of. reads; field. Qed.
Print Assumptions C34_pga_translator_moves.
(** ** Examples *)
(** the assertions of the tests point-translation, point-rotation, plane-rotation and
    vector-reflection-through-vector *)
Example C63_ex : coords (vplus (mkvec 0 0 0) (mkvec 2 0 0)) = [2; 0; 0] /\ coords (screw (- (PI / 2)) (mkvec 0 0 1) (mkvec 0 0 0) (mkvec 0 0 0) (mkvec 1 0 0)) = [0; -1; 0] /\
  line_of 1 (mkvec 0 0 1) (mkvec 0 0 0) = [0; 0; 1; 0; 0; 0] /\ unit_vec (mkvec 0 0 1) /\
  coords (rotate (- (PI / 2)) (mkvec 0 0 1) (mkvec 2 0 1)) = [0; -2; 1] /\
  coords (vminus (vtimes (2 * dot (mkvec 1 1 0) (mkvec 1 0 0)) (mkvec 1 0 0)) (vtimes (dot (mkvec 1 0 0) (mkvec 1 0 0)) (mkvec 1 1 0))) = [1; -1; 0].
Proof.
  unfold line_of, axis, unit_vec, screw, rotate, coords, dot, vplus, vminus, vtimes, cross. cbn [cx cy cz]. rewrite cos_neg, sin_neg, cos_PI2, sin_PI2.
  repeat split; repeat (apply cons_eq; [ring|]); try reflexivity; ring.
Qed.
(** the test simple-motor *)
Example C63_join_ex : mkvec 0 0 0 <> mkvec 0 0 (PI / 4) /\ dist2 (mkvec 0 0 0) (mkvec 0 0 (PI / 4)) = (PI / 4) * (PI / 4) /\
  coords (screw (PI / 2) (mkvec 0 0 1) (mkvec 0 0 0) (mkvec 0 0 0) (mkvec 1 0 0)) = [0; 1; 0].
Proof.
  pose proof PI_RGT_0. split; [intros E; injection E; lra|]. unfold screw, rotate, coords, dist2, dot, vplus, vminus, vtimes, cross. cbn [cx cy cz]. rewrite cos_PI2, sin_PI2.
  split; [ring|]. repeat (apply cons_eq; [ring|]); reflexivity.
Qed.
