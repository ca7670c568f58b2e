(** C67: the inverse kinematics benchmark
    (benchmark/ga-benchmark/SpecializedAlgorithmInverseKinematics.hpp). *)
From Coq Require Import ZArith NArith List Bool Arith Reals Lia Lra.
From Verif Require Import Base Model_Numeric Model_Blade Model_MV Model_Product Model_Stack Model_Expr Model_Dfa Model_Reshape Model_Engine Model_Entity Model_Compute Model_Bench
  Spec_Numeric Spec_Clifford Spec_Basis Spec_MV Spec_Expr Spec_Build Spec_Engine Spec_Entity Spec_Geometry Spec_Bench.
From Verif Require Import Proof_Bench Props_Conformal Props_Entity Props_Geometry Props_Engine.
Import ListNotations.
Local Open Scope list_scope.
Local Open Scope R_scope.
(** what is computed without rounding is computed with it (C29, C42), so that one run is enough *)
Lemma one_mode md m nb ies inputs u outs : compute_one Exact m nb ies inputs u = Ok outs -> compute_one md m nb ies inputs u = Ok outs.
Proof. destruct md; [apply C29_compute_code_agrees|auto]. Qed.
Lemma tuple_mode md m nb ies inputs us outs : compute_tuple Exact m nb ies inputs us = Ok outs -> compute_tuple md m nb ies inputs us = Ok outs.
Proof. destruct md; [apply C42_tuple_code_agrees|auto]. Qed.
Ltac run := match goal with
  | |- compute_one ?md _ _ _ _ _ = Ok _ => is_var md; apply one_mode
  | |- compute_tuple ?md _ _ _ _ _ = Ok _ => is_var md; apply tuple_mode
  | md : mode |- _ => destruct md
  | _ => idtac
  end; vm_compute; reflexivity.
Ltac vrun := eexists; split; [run|].
Ltac ones := change (R1 + R1) with 2; change (R1 + 2) with (1 + 2); change R1 with 1.
Tactic Notation "each" tactic(t) := repeat (apply cons_eq; [t|]); try reflexivity.

(** ** The first axis and the exponential *)
(** Lz is the z axis times half the angle: the literals no and ni of its expression cancel *)
Theorem C67_axis md a : exists e, compute_one md cga_m true [scalar_ie] [[a]] ik_Lz = Ok [e] /\ map fst e = [3]%N /\ map snd e = [a / 2].
Proof. vrun. split; [reflexivity|]. cbn [map snd]. ones. each lra. Qed.
Print Assumptions C67_axis.
Example C67_axis_ex : exists e, compute_one Code cga_m true [scalar_ie] [[3]] ik_Lz = Ok [e] /\ map snd e = [3 / 2].
Proof. destruct (C67_axis Code 3) as (e & E & _ & V). exists e. now split. Qed.
(** expp of a line through the angle t, with unit direction u: the square has a component of e123 ni in its type,
    which is 0 for a line; the result is the rotation with the cosine and sine series cut after the fourth power *)
Theorem C67_exponential md t u m : unit_vec u -> dot u m = 0 ->
  exists q e, compute_one md cga_m true [construct_ie line_blades] [dual_line (vtimes t u) (vtimes t m)] expp_square = Ok [q] /\ map fst q = [0; 23]%N /\ map snd q = [- t ^ 2; 0] /\
    compute_one md cga_m true [construct_ie line_blades; construct_ie (map fst q)] [dual_line (vtimes t u) (vtimes t m); map snd q] expp_sum = Ok [e] /\
    map fst e = motor_blades /\ map snd e = turn_about (cos4 t) (sin3 t) u m.
Proof.
  intros U P. destruct u as [x y z], m as [a b c]. unfold unit_vec, dot in U, P. cbn [cx cy cz] in U, P.
  assert (forall e : entity, map snd e = [- t ^ 2 * (x * x + y * y + z * z); 2 * t ^ 2 * (x * a + y * b + z * c)] -> map snd e = [- t ^ 2; 0]) as V.
  { intros e E. rewrite E, U, P. each ring. }
  eexists. eexists. split; [run|]. split; [reflexivity|]. split; [apply V; cbn [map snd]; ones; each ring|].
  rewrite V by (cbn [map snd]; ones; each ring). split; [run|]. split; [reflexivity|].
  unfold turn_about, dual_line, cos4, sin3. cbn [map snd app cx cy cz]. ones. each field.
Qed.
Print Assumptions C67_exponential.
Example C67_exponential_ex : unit_vec (mkvec (3 / 5) 0 (4 / 5)) /\ dot (mkvec (3 / 5) 0 (4 / 5)) (mkvec 4 7 (-3)) = 0.
Proof. unfold unit_vec, dot. cbn. split; lra. Qed.
(** the errors of the cut series, for every angle *)
Theorem C67_series t : Rabs (cos4 t - cos t) <= t ^ 6 / 720 /\ Rabs (sin3 t - sin t) <= Rabs t ^ 5 / 120.
Proof. split; [apply cos_series|apply sin_series]. Qed.
Print Assumptions C67_series.
Example C67_series_ex : Rabs (cos4 (1 / 2) - cos (1 / 2)) <= 1 / 46080.
Proof. destruct (C67_series (1 / 2)) as [A _]. eapply Rle_trans; [exact A|]. lra. Qed.
(** the first rotor R1 = expp(Lz), from the angle alone *)
Theorem C67_first_rotor md a : exists l q e, compute_one md cga_m true [scalar_ie] [[a]] ik_Lz = Ok [l] /\
  compute_one md cga_m true [construct_ie (map fst l)] [map snd l] expp_square = Ok [q] /\
  compute_one md cga_m true [construct_ie (map fst l); construct_ie (map fst q)] [map snd l; map snd q] expp_sum = Ok [e] /\
  map fst e = [0; 3]%N /\ map snd e = [cos4 (a / 2); sin3 (a / 2)].
Proof.
  eexists. eexists. eexists. split; [run|]. split; [run|]. split; [run|].
  split; [reflexivity|]. unfold cos4, sin3. cbn [map snd]. ones. each field.
Qed.
Print Assumptions C67_first_rotor.

(** ** What the rotors do *)
(** the sandwich with c + s L, for the line L through q with direction u, turns about that line, and multiplies the
    point by the square of the norm *)
Theorem C67_rotation md c s u q p : unit_vec u -> c * c + s * s <> 0 -> exists e,
  compute_one md cga_m true [cga_point_ie; construct_ie motor_blades] [coords p; turn_about c s u (cross q u)] (USandwich (UIn 0) (UIn 1)) = Ok [e] /\
  weighted_point e (c * c + s * s) (vplus q (vtimes (/ (c * c + s * s)) (turned c (- s) u (vminus p q)))).
Proof.
  intros U W. unfold weighted_point. set (w := c * c + s * s) in *.
  assert (w = c * c + - s * - s * dot u u) as Wu by (rewrite U; unfold w; ring).
  assert (w * (dot (vplus q (vtimes (/ w) (turned c (- s) u (vminus p q)))) (vplus q (vtimes (/ w) (turned c (- s) u (vminus p q)))) / 2) =
    w * (dot q q / 2) + dot q (turned c (- s) u (vminus p q)) + w * (dot (vminus p q) (vminus p q) / 2)) as ->.
  { assert (dot (turned c (- s) u (vminus p q)) (turned c (- s) u (vminus p q)) = w * w * dot (vminus p q) (vminus p q)) as D by (rewrite turned_dot, <- Wu; reflexivity).
    set (T := turned c (- s) u (vminus p q)) in *. set (d := dot (vminus p q) (vminus p q)) in *. clearbody T d w.
    transitivity (w * (dot q q / 2) + dot q T + dot T T / (2 * w)); [|rewrite D; field; assumption].
    destruct q as [q1 q2 q3], T as [t1 t2 t3]. unfold dot, vplus, vtimes. cbn [cx cy cz]. field. assumption. }
  replace (w * cx (vplus q (vtimes (/ w) (turned c (- s) u (vminus p q))))) with (w * cx q + cx (turned c (- s) u (vminus p q))) by (cbn [vplus vtimes cx]; field; assumption).
  replace (w * cy (vplus q (vtimes (/ w) (turned c (- s) u (vminus p q))))) with (w * cy q + cy (turned c (- s) u (vminus p q))) by (cbn [vplus vtimes cy]; field; assumption).
  replace (w * cz (vplus q (vtimes (/ w) (turned c (- s) u (vminus p q))))) with (w * cz q + cz (turned c (- s) u (vminus p q))) by (cbn [vplus vtimes cz]; field; assumption).
  rewrite Wu. clearbody w. clear. destruct u as [ux uy uz], q as [qx qy qz], p as [px py pz]. vrun. split; [reflexivity|].
  unfold turned, dot, vplus, vminus, vtimes, cross. cbn [map snd cx cy cz]. ones. each field.
Qed.
Print Assumptions C67_rotation.
Example C67_rotation_ex : unit_vec (mkvec 0 0 1) /\ cos4 1 * cos4 1 + sin3 1 * sin3 1 <> 0.
Proof. unfold unit_vec, dot, cos4, sin3. cbn [cx cy cz]. split; lra. Qed.
Lemma on_circle c s : c * c + s * s = 1 -> exists t, c = cos t /\ s = sin t.
Proof.
  intros H. assert (-1 <= c <= 1) as B by (split; nra).
  destruct (Rle_dec 0 s) as [L|L]; [exists (acos c)|exists (- acos c)]; rewrite ?cos_neg, ?sin_neg, cos_acos, sin_acos by assumption.
  all: split; [reflexivity|]; unfold Rsqr; replace (1 - c * c) with (s * s) by lra.
  - now rewrite sqrt_square.
  - replace (s * s) with (- s * - s) by ring. rewrite sqrt_square by lra. ring.
Qed.
(** with the exact exponential, the point turns by twice the angle, backwards *)
Theorem C67_exact_rotation md t u q p : unit_vec u -> exists e,
  compute_one md cga_m true [cga_point_ie; construct_ie motor_blades] [coords p; turn_about (cos t) (sin t) u (cross q u)] (USandwich (UIn 0) (UIn 1)) = Ok [e] /\
  weighted_point e 1 (rotate_about (- (2 * t)) u q p).
Proof.
  intros U. pose proof (sin2_cos2 t) as H. unfold Rsqr in H. destruct (C67_rotation md (cos t) (sin t) u q p U) as (e & E & V); [lra|]. exists e. split; [exact E|].
  replace (cos t * cos t + sin t * sin t) with 1 in V by lra. unfold rotate_about. rewrite <- turned_rotate by assumption.
  replace (1 / 2 * - (2 * t)) with (- t) by field. rewrite cos_neg, sin_neg. rewrite Rinv_1 in V.
  replace (vtimes 1 (turned (cos t) (- sin t) u (vminus p q))) with (turned (cos t) (- sin t) u (vminus p q)) in V; [exact V|].
  destruct (turned _ _ _ _) as [v1 v2 v3]. unfold vtimes. cbn [cx cy cz]. now rewrite !Rmult_1_l.
Qed.
Print Assumptions C67_exact_rotation.
(** with the cut series of expp, the point still turns about the line, by some angle that does not depend on it; its
    weight is not 1 but 1 - t^6/72 + t^8/576, by which every point of the benchmark is scaled in each rotation *)
Theorem C67_cut_rotation t u q : unit_vec u -> exists a, forall md p, exists e,
  compute_one md cga_m true [cga_point_ie; construct_ie motor_blades] [coords p; turn_about (cos4 t) (sin3 t) u (cross q u)] (USandwich (UIn 0) (UIn 1)) = Ok [e] /\
  weighted_point e (1 - t ^ 6 / 72 + t ^ 8 / 576) (rotate_about a u q p).
Proof.
  intros U. pose proof (series_norm_pos t) as P. pose proof (series_norm t) as N. fold (cos4 t) (sin3 t) in N. set (w := 1 - t ^ 6 / 72 + t ^ 8 / 576) in *. clearbody w.
  set (c := cos4 t) in *. set (s := sin3 t) in *. clearbody c s. assert (c * c + s * s = w) as N' by lra. clear N. pose proof (sqrt_sqrt w (Rlt_le _ _ P)) as Q.
  assert (0 < sqrt w) as Q0 by now apply sqrt_lt_R0. set (r := sqrt w) in *. clearbody r.
  destruct (on_circle (c / r) (s / r)) as (b & C & D). { replace (c / r * (c / r) + s / r * (s / r)) with ((c * c + s * s) / (r * r)) by (field; lra). rewrite N', Q. field. lra. }
  exists (- (2 * b)). intros md p. destruct (C67_rotation md c s u q p U) as (e & E & V); [lra|]. exists e. split; [exact E|]. rewrite N' in V.
  unfold rotate_about. rewrite <- turned_rotate by assumption. replace (1 / 2 * - (2 * b)) with (- b) by field. rewrite cos_neg, sin_neg, <- C, <- D.
  replace (turned (c / r) (- (s / r)) u (vminus p q)) with (vtimes (/ w) (turned c (- s) u (vminus p q))); [exact V|]. rewrite <- Q.
  destruct u as [x y z], (vminus p q) as [a1 a2 a3]. unfold turned, vtimes, vplus, cross, dot. cbn [cx cy cz]. f_equal; field; lra.
Qed.
Print Assumptions C67_cut_rotation.
Example C67_cut_rotation_ex : 1 - 1 ^ 6 / 72 + 1 ^ 8 / 576 = 569 / 576.
Proof. lra. Qed.

(** ** The points *)
(** point_xz is meant to be the conformal point (x, 0, z); the coefficient of ni is x^2/2 + z/2, because the offsets of
    its two monomials point to the indeterminates z and x^2, not to x^2 and z^2 *)
Theorem C67_point_xz md x z : exists e, compute_one md cga_m true [point_xz_ie] [[x; z]] (UIn 0) = Ok [e] /\ map fst e = [1; 4; 8; 16]%N /\ map snd e = [x; z; 1; x ^ 2 / 2 + z / 2].
Proof. vrun. split; [reflexivity|]. cbn [map snd]. ones. each field. Qed.
Print Assumptions C67_point_xz.
Lemma split_combined (e : entity) : e = combine (map fst e) (map snd e).
Proof. induction e as [|[k v] e IH]; [reflexivity|]. cbn. now rewrite <- IH. Qed.
Theorem C67_point_xz_refuted : exists x z, forall md e, compute_one md cga_m true [point_xz_ie] [[x; z]] (UIn 0) = Ok [e] -> entity_val e 16 <> (x ^ 2 + z ^ 2) / 2.
Proof.
  exists 200, 680. intros md e E. destruct (C67_point_xz md 200 680) as (e' & E' & F & V). rewrite E' in E. injection E as <-.
  rewrite (split_combined e'), F, V. unfold entity_val. cbn [combine map fst snd N.eqb Pos.eqb Rsum fold_right]. lra.
Qed.
Print Assumptions C67_point_xz_refuted.
(** the constructor from an entity gives the coordinates back: the error is in the coefficient of ni alone *)
Theorem C67_point_xz_round_trip md x z : exists e, compute_one md cga_m true [point_xz_ie] [[x; z]] (UIn 0) = Ok [e] /\ selects 5 e point_xz_elems = Ok [x; z].
Proof.
  destruct (C67_point_xz md x z) as (e & E & F & V). exists e. split; [exact E|]. rewrite (split_combined e), F, V. reflexivity.
Qed.
Print Assumptions C67_point_xz_round_trip.
Example C67_point_xz_round_trip_ex : point_xz_elems = [1; 4]%N. Proof. reflexivity. Qed.
(** it is right in the planes z = 0 and z = 1 only *)
Theorem C67_point_xz_right x z : x ^ 2 / 2 + z / 2 = (x ^ 2 + z ^ 2) / 2 <-> z = 0 \/ z = 1.
Proof.
  split; [|intros [->| ->]; field]. intros H. assert (z * (z - 1) = 0) as P by lra. apply Rmult_integral in P. destruct P; [now left|right; lra].
Qed.
Print Assumptions C67_point_xz_right.
(** what becomes of the error: under every motor, the image of point_xz is the image of the point (x, 0, z), but for ni,
    where it is off by (z - z^2)/2 times the square of the norm of the rotor part *)
Theorem C67_moved_point md m0 m3 m5 m6 m17 m18 m20 m23 x z : exists e e',
  compute_one md cga_m true [construct_ie motor_blades; point_xz_ie] [[m0; m3; m5; m6; m17; m18; m20; m23]; [x; z]] ik_Jg_f = Ok [e] /\
  compute_one md cga_m true [construct_ie motor_blades; cga_point_ie] [[m0; m3; m5; m6; m17; m18; m20; m23]; [x; 0; z]] ik_Jg_f = Ok [e'] /\
  map fst e = map fst e' /\ entity_val e 16 = entity_val e' 16 + (z - z ^ 2) / 2 * (m0 ^ 2 + m3 ^ 2 + m5 ^ 2 + m6 ^ 2) /\ forall b, b <> 16%N -> entity_val e b = entity_val e' b.
Proof.
  eexists. eexists. split; [run|]. split; [run|]. split; [reflexivity|]. split.
  - unfold entity_val. cbn [map fst snd N.eqb Pos.eqb Rsum fold_right]. ones. field.
  - intros b B. unfold entity_val. cbn [map fst snd Rsum fold_right]. ones. apply N.eqb_neq in B. rewrite N.eqb_sym in B. rewrite B.
    repeat (apply f_equal2; [try reflexivity; match goal with |- (if ?k then _ else _) = _ => destruct k end; [field|reflexivity]|]); reflexivity.
Qed.
Print Assumptions C67_moved_point.
(** the point Jg of the benchmark is (1334.2, 0, 1720): its ni is off by -1478340 times the weight, the difference between
    the two values that the test gives for Jg_f[4], 3.31122e6 (documented) and 1.83198e6 (accepted; test_ik.cpp:64-67) *)
Example C67_moved_point_ex : (1720 - 1720 ^ 2) / 2 = -1478340 /\ Rabs (3311220 - 1478340 - 1831980) < 1831980 * (1 / 1000).
Proof. split; [lra|]. apply Rabs_def1; lra. Qed.

(** ** The lines *)
(** (J ^ P ^ ni) >> ips is the line through J and P if ni is an input, and the ni coefficients of the points do not
    matter *)
Theorem C67_line_at md x z p : exists e,
  compute_one md cga_m true [point_xz_ie; cga_point_ie; construct_ie [16]%N] [[x; z]; coords p; [1]] (ik_line_at (UIn 0) (UIn 1) (UIn 2)) = Ok [e] /\
  map fst e = line_blades /\ map snd e = dual_line (vminus p (mkvec x 0 z)) (cross (mkvec x 0 z) p).
Proof. destruct p as [a b c]. vrun. split; [reflexivity|]. unfold dual_line, vminus, cross. cbn [map snd cx cy cz]. ones. each ring. Qed.
Print Assumptions C67_line_at.
(** with the literal 1_ni, as the code has it, the result has components with no, which no dual line has, and they are
    -1 times the moment of the line *)
Theorem C67_line_literal md x z p : exists e,
  compute_one md cga_m true [point_xz_ie; cga_point_ie] [[x; z]; coords p] ik_L3init = Ok [e] /\ map fst e = [3; 5; 6; 9; 10; 12; 17; 18; 20]%N /\
  [entity_val e 9; entity_val e 10; entity_val e 12] = coords (vtimes (-1) (cross (mkvec x 0 z) p)) /\
  [entity_val e 17; entity_val e 18; entity_val e 20] = coords (vtimes (1 / 2) (cross (mkvec x 0 z) p)).
Proof.
  destruct p as [a b c]. vrun. split; [reflexivity|]. unfold entity_val, coords, vtimes, cross. cbn [map fst snd N.eqb Pos.eqb Rsum fold_right cx cy cz]. ones. split; each field.
Qed.
Print Assumptions C67_line_literal.
(** so the line about which the second rotation turns is wrong, with the data of the benchmark *)
Theorem C67_line_refuted : exists x z p, forall md e, compute_one md cga_m true [point_xz_ie; cga_point_ie] [[x; z]; coords p] ik_L3init = Ok [e] -> entity_val e 9 <> 0.
Proof.
  exists 200, 680, (mkvec 200 1 680). intros md e E. destruct (C67_line_literal md 200 680 (mkvec 200 1 680)) as (e' & E' & _ & V & _). rewrite E' in E. injection E as <-.
  injection V as -> _ _. unfold cross, vtimes. cbn [cx cy cz]. lra.
Qed.
Print Assumptions C67_line_refuted.

(** ** The tuples *)
(** two of the three tuples of the benchmark cannot be evaluated, whatever the values: their results share nodes (C42) *)
Theorem C67_second_tuple_refuted md r0 r3 x z j1 j2 j4 j8 j16 : compute_tuple md cga_m true [construct_ie [0; 3]%N; point_xz_ie; construct_ie [1; 2; 4; 8; 16]%N]
  [[r0; r3]; [x; z]; [j1; j2; j4; j8; j16]] ik_tuple2 = Err IllFormed.
Proof. run. Qed.
Print Assumptions C67_second_tuple_refuted.
Theorem C67_fourth_tuple_refuted md x z x' z' m0 m3 m5 m6 m17 m18 m20 m23 t0 t17 t18 t20 r0 r3 :
  compute_tuple md cga_m true [point_xz_ie; point_xz_ie; construct_ie motor_blades; construct_ie [0; 17; 18; 20]%N; construct_ie [0; 3]%N]
  [[x; z]; [x'; z']; [m0; m3; m5; m6; m17; m18; m20; m23]; [t0; t17; t18; t20]; [r0; r3]] ik_tuple4 = Err IllFormed.
Proof. run. Qed.
Print Assumptions C67_fourth_tuple_refuted.
(** the component of a multivector is a scalar, not that component with its blade; so -t2 ^ 1_ni / 2 is no bivector, and its
    exponential no translation, even when it is computed alone *)
Theorem C67_translation_refuted md r0 r3 x z j1 j2 j4 j8 j16 : exists e, compute_one md cga_m true [construct_ie [0; 3]%N; point_xz_ie; construct_ie [1; 2; 4; 8; 16]%N]
  [[r0; r3]; [x; z]; [j1; j2; j4; j8; j16]] ik_t2_help = Ok [e] /\ map fst e = [8; 16]%N.
Proof. vrun. reflexivity. Qed.
Print Assumptions C67_translation_refuted.
