(** C67, continued: composition of the motors, motion of the axes, the lambdas of the tuples one by one. *)
From Coq Require Import ZArith NArith List Bool Arith Reals Lia Lra.
From Verif Require Import Base Model_Numeric Model_Blade Model_MV Model_Product Model_Stack Model_Expr Model_Dfa Model_Reshape Model_Engine Model_Entity Model_Compute Model_Geometry Model_Bench
  Spec_Numeric Spec_Clifford Spec_Basis Spec_MV Spec_Expr Spec_Build Spec_Engine Spec_Entity Spec_Geometry Spec_Bench.
From Verif Require Import Proof_Numeric Proof_Motion Proof_Bench Props_Conformal Props_Entity Props_Geometry Props_Engine Props_Bench.
Import ListNotations.
Local Open Scope list_scope.
Local Open Scope R_scope.

(** ** Composition *)
(** a point moved with the product of two motors is the point moved with the one, then with the other: R21 ... *)
Theorem C67_composed md r0 r3 m0 m3 m5 m6 m17 m18 m20 m23 x z : exists r e f g,
  compute_one md cga_m true [construct_ie [0; 3]%N; construct_ie motor_blades] [[r0; r3]; [m0; m3; m5; m6; m17; m18; m20; m23]] ik_R21 = Ok [r] /\
  compute_one md cga_m true [point_xz_ie; construct_ie (map fst r)] [[x; z]; map snd r] ik_J2_f = Ok [e] /\
  compute_one md cga_m true [construct_ie [0; 3]%N; point_xz_ie] [[r0; r3]; [x; z]] ik_J2_rot1 = Ok [f] /\
  compute_one md cga_m true [construct_ie (map fst f); construct_ie motor_blades] [map snd f; [m0; m3; m5; m6; m17; m18; m20; m23]] ik_J2_f = Ok [g] /\
  map fst e = map fst g /\ map snd e = map snd g.
Proof. do 4 eexists. do 4 (split; [run|]). split; [reflexivity|]. cbn [map snd]. ones. each field. Qed.
Print Assumptions C67_composed.
Example C67_composed_ex : ik_J2_f <> ik_J2_rot1. Proof. discriminate. Qed.
(** ... and Rfinal *)
Theorem C67_final md g0 g3 g5 g6 g17 g18 g20 g23 m0 m3 m5 m6 m17 m18 m20 m23 p : exists r e f g,
  compute_one md cga_m true [construct_ie motor_blades; construct_ie motor_blades] [[g0; g3; g5; g6; g17; g18; g20; g23]; [m0; m3; m5; m6; m17; m18; m20; m23]] ik_Rfinal = Ok [r] /\
  compute_one md cga_m true [construct_ie (map fst r); cga_point_ie] [map snd r; coords p] ik_Jg_f = Ok [e] /\
  compute_one md cga_m true [construct_ie motor_blades; cga_point_ie] [[m0; m3; m5; m6; m17; m18; m20; m23]; coords p] ik_Jg_f = Ok [f] /\
  compute_one md cga_m true [construct_ie motor_blades; construct_ie (map fst f)] [[g0; g3; g5; g6; g17; g18; g20; g23]; map snd f] ik_Jg_f = Ok [g] /\
  map fst e = map fst g /\ map snd e = map snd g.
Proof.
  destruct p as [x y z]. do 4 eexists. do 4 (split; [run|]). split; [reflexivity|]. cbn [map snd]. ones. each field.
Qed.
Print Assumptions C67_final.
(** the product R3 * T2 * R1 of the second tuple, computed alone: T2 * R1 first or R3 * T2 first *)
Theorem C67_triple md m0 m3 m5 m6 m17 m18 m20 m23 t0 t17 t18 t20 r0 r3 x z x' z' : exists e f g h,
  compute_one md cga_m true [point_xz_ie; point_xz_ie; construct_ie motor_blades; construct_ie [0; 17; 18; 20]%N; construct_ie [0; 3]%N]
    [[x; z]; [x'; z']; [m0; m3; m5; m6; m17; m18; m20; m23]; [t0; t17; t18; t20]; [r0; r3]] (nth 2 ik_tuple4 (UIn 0)) = Ok [e] /\
  compute_one md cga_m true [construct_ie [0; 3]%N; construct_ie [0; 17; 18; 20]%N] [[r0; r3]; [t0; t17; t18; t20]] ik_R21 = Ok [f] /\
  compute_one md cga_m true [construct_ie motor_blades; construct_ie (map fst f)] [[m0; m3; m5; m6; m17; m18; m20; m23]; map snd f] ik_Rfinal = Ok [g] /\
  compute_one md cga_m true [construct_ie [0; 17; 18; 20]%N; construct_ie motor_blades] [[t0; t17; t18; t20]; [m0; m3; m5; m6; m17; m18; m20; m23]] ik_R21 = Ok [h] /\
  (exists g', compute_one md cga_m true [construct_ie (map fst h); construct_ie [0; 3]%N] [map snd h; [r0; r3]] ik_Rfinal = Ok [g'] /\ map fst e = map fst g' /\ map snd e = map snd g') /\
  map fst e = map fst g /\ map snd e = map snd g.
Proof.
  do 4 eexists. do 4 (split; [run|]). split; [eexists; split; [run|]|]; (split; [reflexivity|]; cbn [map snd]; ones; each field).
Qed.
Print Assumptions C67_triple.

(** ** The axes *)
Lemma turned_cross c s u a b : cross (turned c s u a) (turned c s u b) = vtimes (c * c + s * s * dot u u) (turned c s u (cross a b)).
Proof. destruct u as [ux uy uz], a as [x y z], b as [p q r]. unfold turned, cross, dot, vplus, vtimes. cbn [cx cy cz]. f_equal; ring. Qed.
Lemma moved_line md c s u q d p a : exists e,
  compute_one md cga_m true [construct_ie line_blades; construct_ie motor_blades; scalar_ie] [dual_line d (cross p d); turn_about c s u (cross q u); [a]] ik_L3 = Ok [e] /\
  map fst e = line_blades /\ map snd e = map (Rmult (a / 2)) (dual_line (turned c (- s) u d) (vplus (cross q (turned c (- s) u d)) (turned c (- s) u (cross (vminus p q) d)))).
Proof.
  destruct u as [ux uy uz], q as [qx qy qz], p as [px py pz], d as [dx dy dz]. vrun. split; [reflexivity|].
  unfold dual_line, turned, dot, vplus, vminus, vtimes, cross. cbn [map snd cx cy cz]. ones. each field.
Qed.
(** an axis through p with direction d, moved with a rotation about the line through q with direction u, goes through the
    moved point (that of C67_rotation) in the turned direction, times half the angle and the square of the norm *)
Theorem C67_moved_axis md c s u q d p a : unit_vec u -> c * c + s * s <> 0 ->
  let w := c * c + s * s in let p' := vplus q (vtimes (/ w) (turned c (- s) u (vminus p q))) in let d' := turned c (- s) u d in exists e,
  compute_one md cga_m true [construct_ie line_blades; construct_ie motor_blades; scalar_ie] [dual_line d (cross p d); turn_about c s u (cross q u); [a]] ik_L3 = Ok [e] /\
  map fst e = line_blades /\ map snd e = map (Rmult (a / 2)) (dual_line d' (cross p' d')) /\ dot d' d' = w * w * dot d d.
Proof.
  intros U W w p' d'. destruct (moved_line md c s u q d p a) as (e & E & F & V). exists e. split; [exact E|]. split; [exact F|]. fold d' in V. rewrite V.
  assert (WU : c * c + - s * - s * dot u u = w) by (rewrite U; unfold w; ring).
  assert (K : vplus (cross q d') (turned c (- s) u (cross (vminus p q) d)) = cross p' d').
  { pose proof (turned_cross c (- s) u (vminus p q) d) as T. fold d' in T. rewrite WU in T. unfold p'. set (t := turned c (- s) u (vminus p q)) in *. set (t2 := turned c (- s) u (cross (vminus p q) d)) in *.
    clearbody t t2 d'. destruct q as [q1 q2 q3], t as [t1 t3 t4], t2 as [s1 s2 s3], d' as [e1 e2 e3]. unfold cross, vtimes, vplus in *. cbn [cx cy cz] in *. injection T as T1 T2 T3.
    assert (W' : w <> 0) by exact W.
    assert (S1 : s1 = / w * (t3 * e3 - t4 * e2)) by (rewrite T1; field; exact W'). assert (S2 : s2 = / w * (t4 * e1 - t1 * e3)) by (rewrite T2; field; exact W'). assert (S3 : s3 = / w * (t1 * e2 - t3 * e1)) by (rewrite T3; field; exact W').
    rewrite S1, S2, S3. f_equal; ring. }
  rewrite K. split; [reflexivity|]. unfold d'. rewrite turned_dot, WU. reflexivity.
Qed.
Print Assumptions C67_moved_axis.
Example C67_moved_axis_ex : unit_vec (mkvec 0 0 1) /\ cos4 1 * cos4 1 + sin3 1 * sin3 1 <> 0. Proof. exact C67_rotation_ex. Qed.
(** L4 and Lg have the angle as the first factor, which makes no difference *)
Theorem C67_angle_first md l1 l2 l3 l4 l5 l6 m0 m3 m5 m6 m17 m18 m20 m23 a : exists e f,
  compute_one md cga_m true [construct_ie line_blades; construct_ie motor_blades; scalar_ie] [[l1; l2; l3; l4; l5; l6]; [m0; m3; m5; m6; m17; m18; m20; m23]; [a]] ik_L4 = Ok [e] /\
  compute_one md cga_m true [construct_ie line_blades; construct_ie motor_blades; scalar_ie] [[l1; l2; l3; l4; l5; l6]; [m0; m3; m5; m6; m17; m18; m20; m23]; [a]] ik_L3 = Ok [f] /\
  map fst e = map fst f /\ map snd e = map snd f.
Proof. do 2 eexists. do 2 (split; [run|]). split; [reflexivity|]. cbn [map snd]. ones. each field. Qed.
Print Assumptions C67_angle_first.
(** L2 is what L3init and L3 compute in two steps *)
Theorem C67_second_axis md r0 r3 x z p a : exists e l f,
  compute_one md cga_m true [construct_ie [0; 3]%N; point_xz_ie; cga_point_ie; scalar_ie] [[r0; r3]; [x; z]; coords p; [a]] ik_L2 = Ok [e] /\
  compute_one md cga_m true [point_xz_ie; cga_point_ie] [[x; z]; coords p] ik_L3init = Ok [l] /\
  compute_one md cga_m true [construct_ie (map fst l); construct_ie [0; 3]%N; scalar_ie] [map snd l; [r0; r3]; [a]] ik_L3 = Ok [f] /\
  map fst e = map fst f /\ map snd e = map snd f.
Proof. destruct p as [p0 p1 p2]. do 3 eexists. do 3 (split; [run|]). split; [reflexivity|]. cbn [map snd]. ones. each field. Qed.
Print Assumptions C67_second_axis.
(** the third tuple can be evaluated: the line of L3init, and the product *)
Theorem C67_third_tuple md g0 g3 g5 g6 g17 g18 g20 g23 m0 m3 m5 m6 m17 m18 m20 m23 x z p : exists l r l0 r0,
  compute_tuple md cga_m true [construct_ie motor_blades; construct_ie motor_blades; point_xz_ie; cga_point_ie]
    [[g0; g3; g5; g6; g17; g18; g20; g23]; [m0; m3; m5; m6; m17; m18; m20; m23]; [x; z]; coords p] ik_tupleg = Ok [l; r] /\
  compute_one md cga_m true [point_xz_ie; cga_point_ie] [[x; z]; coords p] ik_L3init = Ok [l0] /\ l = l0 /\
  compute_one md cga_m true [construct_ie motor_blades; construct_ie motor_blades] [[g0; g3; g5; g6; g17; g18; g20; g23]; [m0; m3; m5; m6; m17; m18; m20; m23]] ik_Rfinal = Ok [r0] /\ r = r0.
Proof.
  destruct p as [p0 p1 p2]. do 4 eexists. split; [run|]. split; [run|].
  split; [ones; repeat (apply f_equal2; [apply f_equal; field|]); reflexivity|]. split; [run|]. ones. repeat (apply f_equal2; [apply f_equal; field|]); reflexivity.
Qed.
Print Assumptions C67_third_tuple.

(** ** The fourth axis *)
(** its line is wrong as the others are: the components on e2 no and e2 ni *)
Theorem C67_fourth_line md x z x' z' : exists e, compute_one md cga_m true [point_xz_ie; point_xz_ie] [[x; z]; [x'; z']] ik_L4init = Ok [e] /\ map fst e = [3; 6; 10; 18]%N /\
  entity_val e 10 = x * z' - z * x' /\ entity_val e 18 = - (x * z' - z * x') / 2.
Proof. vrun. split; [reflexivity|]. unfold entity_val. cbn [map fst snd N.eqb Pos.eqb Rsum fold_right]. ones. split; field. Qed.
Print Assumptions C67_fourth_line.
(** its weight cannot be computed in the same lambda: the line is used twice, and the temporary for it overruns (C60) *)
Theorem C67_weight_refuted md x z x' z' : compute_one md cga_m true [point_xz_ie; point_xz_ie] [[x; z]; [x'; z']] (nth 1 ik_tuple4 (UIn 0)) = Err OutOfBounds.
Proof. run. Qed.
Print Assumptions C67_weight_refuted.
(** the weight of a dual line, computed from the line, is the square of the length of its direction ... *)
Theorem C67_weight md d m : exists e, compute_one md cga_m true [construct_ie line_blades] [dual_line d m] (ULc (UIn 0) (URev (UIn 0))) = Ok [e] /\ map fst e = [0]%N /\ map snd e = [dot d d].
Proof. destruct d as [x y z], m as [a b c]. vrun. split; [reflexivity|]. unfold dual_line, dot. cbn [map snd cx cy cz]. ones. each ring. Qed.
Print Assumptions C67_weight.
Lemma divided l n : n <> 0 -> ik_divide l n = Ok (map (fun x => x / n) l).
Proof. intros H. unfold ik_divide. induction l as [|a l IH]; [reflexivity|]. cbn [mapM map]. rewrite fdiv_ok by exact H. cbn [bind]. rewrite IH. reflexivity. Qed.
(** ... and after the loop that divides by its root, the direction is a unit: the line is that of expp in C67_exponential *)
Theorem C67_norm d m : dot d d <> 0 -> exists u v, ik_divide (dual_line d m) (ik_norm (dot d d)) = Ok (dual_line u v) /\ unit_vec u /\
  d = vtimes (sqrt (dot d d)) u /\ m = vtimes (sqrt (dot d d)) v.
Proof.
  intros NZ. assert (P : 0 < dot d d) by (destruct d as [x y z]; unfold dot in *; cbn [cx cy cz] in *; pose proof (Rle_0_sqr x); pose proof (Rle_0_sqr y); pose proof (Rle_0_sqr z); unfold Rsqr in *; lra).
  unfold ik_norm. destruct (Rlt_dec (dot d d) 0) as [L|_]; [lra|]. pose proof (sqrt_lt_R0 _ P) as N0. pose proof (sqrt_sqrt _ (Rlt_le _ _ P)) as Q. set (n := sqrt (dot d d)) in *.
  rewrite divided by lra. exists (vtimes (/ n) d), (vtimes (/ n) m). clearbody n. destruct d as [x y z], m as [a b c]. unfold dual_line, unit_vec, dot, vtimes in *. cbn [map cx cy cz] in *. split; [f_equal; each (unfold Rdiv; ring)|]. split; [|split; f_equal; field; lra].
  replace (/ n * x * (/ n * x) + / n * y * (/ n * y) + / n * z * (/ n * z)) with (/ n * / n * (x * x + y * y + z * z)) by ring. rewrite <- Q. field. lra.
Qed.
Print Assumptions C67_norm.
Example C67_norm_ex : dot (mkvec 3 0 4) (mkvec 3 0 4) <> 0. Proof. unfold dot. cbn [cx cy cz]. lra. Qed.
(** a negative weight, which no line has, would change the sign of the line *)
Theorem C67_norm_negative w : w < 0 -> ik_norm w < 0 /\ ik_norm w * ik_norm w = - w.
Proof. intros H. unfold ik_norm. destruct (Rlt_dec w 0) as [_|L]; [|lra]. pose proof (sqrt_lt_R0 (- w) ltac:(lra)). split; [lra|]. rewrite <- (sqrt_sqrt (- w)) at 3 by lra. ring. Qed.
Print Assumptions C67_norm_negative.

(** ** The translation *)
(** what is computed for t2_help: the x component of J2_rot1 enters its y component, and both its z component, because the
    temporaries are stored in cells that are read again (C60) *)
Theorem C67_t2_value md r0 r3 x z j1 j2 j4 j8 j16 : exists e,
  compute_one md cga_m true [construct_ie [0; 3]%N; point_xz_ie; construct_ie [1; 2; 4; 8; 16]%N] [[r0; r3]; [x; z]; [j1; j2; j4; j8; j16]] ik_t2_help = Ok [e] /\
  let a := (r0 * r0 - r3 * r3) * x in let b := - 2 * r0 * r3 * x - r3 * x * a in let c := (r0 * r0 + r3 * r3) * z + r0 * z * a + r0 * z * b in
  map snd e = [- (j1 + j2 + j4 - a - b - c) / 2; - (j1 + j2 + j4 - a - b - c) / 4].
Proof. vrun. cbv zeta. cbn [map snd]. ones. change R0 with 0. each field. Qed.
Print Assumptions C67_t2_value.
(** J2_rot1 itself, computed alone *)
Theorem C67_rotated_joint md r0 r3 x z : exists e, compute_one md cga_m true [construct_ie [0; 3]%N; point_xz_ie] [[r0; r3]; [x; z]] ik_J2_rot1 = Ok [e] /\ map fst e = [1; 2; 4; 8; 16]%N /\
  map snd e = [(r0 * r0 - r3 * r3) * x; - 2 * r0 * r3 * x; (r0 * r0 + r3 * r3) * z; r0 * r0 + r3 * r3; (r0 * r0 + r3 * r3) * (x ^ 2 / 2 + z / 2)].
Proof. vrun. split; [reflexivity|]. cbn [map snd]. ones. each field. Qed.
Print Assumptions C67_rotated_joint.
(** so t2_help is not even what the components of J2_rot1 give *)
Theorem C67_t2_refuted : exists r0 r3 x z j1 j2 j4 j8 j16, forall md e f,
  compute_one md cga_m true [construct_ie [0; 3]%N; point_xz_ie; construct_ie [1; 2; 4; 8; 16]%N] [[r0; r3]; [x; z]; [j1; j2; j4; j8; j16]] ik_t2_help = Ok [e] ->
  compute_one md cga_m true [construct_ie [0; 3]%N; point_xz_ie] [[r0; r3]; [x; z]] ik_J2_rot1 = Ok [f] ->
  entity_val e 8 <> - (j1 + j2 + j4 - entity_val f 1 - entity_val f 2 - entity_val f 4) / 2.
Proof.
  exists 1, 0, 1, 1, 0, 0, 0, 0, 0. intros md e f E F. destruct (C67_t2_value md 1 0 1 1 0 0 0 0 0) as (e' & E' & V). rewrite E' in E. injection E as <-.
  destruct (C67_rotated_joint md 1 0 1 1) as (f' & F' & B & W). rewrite F' in F. injection F as <-.
  destruct (C67_translation_refuted md 1 0 1 1 0 0 0 0 0) as (e'' & E'' & G). rewrite E' in E''. injection E'' as <-.
  rewrite (split_combined e'), (split_combined f'), B, W, G, V. unfold entity_val. cbn [combine map fst snd N.eqb Pos.eqb Rsum fold_right]. lra.
Qed.
Print Assumptions C67_t2_refuted.

(** ** Literals and the other point type *)
(** 1_no and 1_ni are the two vectors of the orthogonal basis, in the null basis no - ni/2 and no + ni/2, and not no and ni (C39); 1_ips and 1_e3 are right *)
Theorem C67_literals md a : exists e f g h, compute_one md cga_m true [scalar_ie] [[a]] (UGp (UIn 0) no_u) = Ok [e] /\ compute_one md cga_m true [scalar_ie] [[a]] (UGp (UIn 0) ni_u) = Ok [f] /\
  compute_one md cga_m true [scalar_ie] [[a]] (UGp (UIn 0) ips_u) = Ok [g] /\ compute_one md cga_m true [scalar_ie] [[a]] (UGp (UIn 0) e3_u) = Ok [h] /\
  map fst e = [8; 16]%N /\ map snd e = [a; - a / 2] /\ map fst f = [8; 16]%N /\ map snd f = [a; a / 2] /\ map fst g = [31]%N /\ map snd g = [- a] /\ h = [(4%N, a)].
Proof. do 4 eexists. do 4 (split; [run|]). cbn [map fst snd]. ones. repeat match goal with |- _ /\ _ => split end; try reflexivity; each field. Qed.
Print Assumptions C67_literals.
(** point_z is the conformal point (0, 0, 1) *)
Theorem C67_point_z md : exists e, compute_one md cga_m true [point_z_ie] [[]] (UIn 0) = Ok [e] /\ map fst e = [4; 8; 16]%N /\ map snd e = [1; 1; 1 / 2].
Proof. vrun. split; [reflexivity|]. cbn [map snd]. ones. each field. Qed.
Print Assumptions C67_point_z.
Theorem C67_point_z_same md : exists e f, compute_one md cga_m true [point_z_ie] [[]] (UIn 0) = Ok [e] /\ compute_one md cga_m true [cga_point_ie] [[0; 0; 1]] (UIn 0) = Ok [f] /\ entity_val e = entity_val f.
Proof.
  do 2 eexists. do 2 (split; [run|]). apply FunctionalExtensionality.functional_extensionality. intros b. unfold entity_val. cbn [map fst snd Rsum fold_right]. ones. change R0 with 0.
  repeat match goal with |- context[(?k =? b)%N] => destruct (k =? b)%N end; field.
Qed.
Print Assumptions C67_point_z_same.
