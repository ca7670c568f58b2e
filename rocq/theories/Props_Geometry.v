(** Literals, and what the algebras compute about points, lines, planes and motions. Each run is a run
    of compute for all real components of its inputs. *)
From Coq Require Import ZArith NArith List Bool Arith Reals Lia Lra Nsatz String FunctionalExtensionality.
From Verif Require Import Base Model_Numeric Model_Blade Model_MV Model_Expr Model_Dfa Model_Reshape Model_Engine Model_Entity Spec_Clifford Spec_Basis Spec_MV Spec_Expr Spec_Build Model_Compute Model_Geometry
  Spec_Engine Spec_Entity Spec_Geometry Proof_Geometry Proof_Motion Proof_Exp.
Import ListNotations.
Local Open Scope list_scope.
Local Open Scope R_scope.

Lemma ok_list (l l' : list R) : l = l' -> Ok l = Ok l'.
Proof. now intros ->. Qed.
Lemma ok_ent (l l' : entity) : l = l' -> Ok [l] = Ok [l'].
Proof. now intros ->. Qed.
Lemma cons_eq (a b : R) l l' : a = b -> l = l' -> a :: l = b :: l'.
Proof. now intros -> ->. Qed.
Ltac run := eexists; split; [match goal with md : mode |- _ => destruct md | _ => idtac end; cbv -[IZR sqrt sin cos]; reflexivity|].
Ltac reads := cbv -[IZR sqrt sin cos Rplus Rmult Rminus Rinv Ropp]; apply ok_list; repeat (apply cons_eq; [|try reflexivity]).

(** ** C49: literals *)
(** small numbers are unchanged *)
Theorem C49_literal_value n : (n < 2 ^ 31)%N -> cast_num n = Z.of_N n.
Proof. intros H. unfold cast_num. rewrite Z.mod_small by lia. destruct (Z.ltb_spec (Z.of_N n) (2 ^ 31)); lia. Qed.
Print Assumptions C49_literal_value.
Theorem C49_literal_neg_value b n : (n < 2 ^ 31)%N -> literal_neg b n = e_blade b (- Z.of_N n).
Proof.
  intros H. unfold literal_neg. f_equal. unfold cast_num. destruct (N.eq_dec n 0) as [->|N0]; [reflexivity|].
  rewrite N.mod_small by lia. rewrite N2Z.inj_sub by lia. change (Z.of_N (2 ^ 64)) with (2 ^ 64)%Z.
  replace (2 ^ 64 - Z.of_N n)%Z with ((2 ^ 32 - Z.of_N n) + (2 ^ 32 - 1) * 2 ^ 32)%Z by lia. rewrite Z.mod_add, Z.mod_small by lia.
  destruct (Z.ltb_spec (2 ^ 32 - Z.of_N n) (2 ^ 31)); lia.
Qed.
Print Assumptions C49_literal_neg_value.
Theorem C49_large_literal_refuted : exists n, (n < 2 ^ 64)%N /\ cast_num n <> Z.of_N n.
Proof. exists (2 ^ 32)%N. split; [lia|]. vm_compute. discriminate. Qed.
Print Assumptions C49_large_literal_refuted.
(** the blade of each literal has the generators of its name; [_ps] has all *)
Definition right_name (first : N) (dims : N) (p : string * N) : Prop :=
  (exists s, fst p = String.append "_e" s /\ snd p = named s first) \/ fst p = "_ps"%string /\ snd p = (2 ^ dims - 1)%N.
Theorem C49_names : Forall (right_name 0 3) vga_literals /\ Forall (right_name 0 4) pga_literals /\ Forall (right_name 0 3) pga2_literals /\ Forall (right_name 1 5) cga_literals.
Proof.
  assert (G : forall f d s b, named s f = b -> right_name f d (String.append "_e" s, b)) by (intros f d s b <-; left; now exists s).
  assert (G2 : forall f d b, (2 ^ d - 1)%N = b -> right_name f d ("_ps"%string, b)) by (intros f d b <-; now right).
  repeat split; repeat apply Forall_cons; try apply Forall_nil; (now apply G2) || (match goal with |- right_name _ _ (String _ (String _ ?s), _) => now apply (G _ _ s) end).
Qed.
Print Assumptions C49_names.
(** [_ips] is the inverse of [_ps] *)
Theorem C49_inverse_pseudoscalar : vprod vga_m Geometric (vscale (-1) (delta vga_ips)) (delta 7) = delta 0 /\ vprod cga_m Geometric (vscale (-1) (delta cga_ips)) (delta 31) = delta 0.
Proof.
  split.
  - replace (vscale (-1) (delta vga_ips)) with (entity_val [(7%N, -1)]). 2:{ rewrite delta_val. apply functional_extensionality. intros b. unfold vscale. rewrite !val_cons. cbn [fst snd]. change (entity_val [] b) with 0. destruct (7 =? b)%N eqn:E; unfold vga_ips; rewrite E; ring. }
    rewrite !delta_val, prod_val by reflexivity. apply (val_ext 3); [reflexivity..|]. each_blade; ring.
  - replace (vscale (-1) (delta cga_ips)) with (entity_val [(31%N, -1)]). 2:{ rewrite delta_val. apply functional_extensionality. intros b. unfold vscale. rewrite !val_cons. cbn [fst snd]. change (entity_val [] b) with 0. destruct (31 =? b)%N eqn:E; unfold cga_ips; rewrite E; ring. }
    rewrite !delta_val, prod_val by reflexivity. apply (val_ext 5); [reflexivity..|]. each_blade; ring.
Qed.
Print Assumptions C49_inverse_pseudoscalar.
Example C49_ex : In ("_e023"%string, 13%N) pga_literals /\ named "023" 0 = 13%N /\ literal 13 7 = e_blade 13 7 /\ literal_neg 7 2 = e_blade 7 (-2).
Proof. repeat split; try reflexivity. cbn. tauto. Qed.

(** ** C50: rotors *)
Lemma half t : cos t = cos (1 / 2 * t) * cos (1 / 2 * t) - sin (1 / 2 * t) * sin (1 / 2 * t) /\ sin t = 2 * sin (1 / 2 * t) * cos (1 / 2 * t) /\
  sin (1 / 2 * t) * sin (1 / 2 * t) + cos (1 / 2 * t) * cos (1 / 2 * t) = 1.
Proof.
  replace (cos t) with (cos (2 * (1 / 2 * t))) by (f_equal; field). replace (sin t) with (sin (2 * (1 / 2 * t))) by (f_equal; field). rewrite cos_2a, sin_2a. repeat split. exact (sin2_cos2 _).
Qed.
Theorem C50_rotation md t n v : unit_vec n -> exists e,
  compute_one md vga_m false [vga_rotor_ie; construct_ie vga_vector] [rotor_of t (cx n) (cy n) (cz n); coords v] (UGp (UGp (UIn 0) (UIn 1)) (URev (UIn 0))) = Ok [e] /\
  selects 3 e vga_vector = Ok (coords (rotate t n v)).
Proof.
  destruct n as [x y z], v as [a b c]. unfold unit_vec, dot. cbn [cx cy cz]. intros U. run. destruct (half t) as (C & S & P).
  unfold Rdiv in C, S, P; reads; unfold Rminus in *; set (Ct := cos t) in *; set (St := sin t) in *; set (c2 := cos (1 * / 2 * t)) in *; set (s2 := sin (1 * / 2 * t)) in *; clearbody Ct St c2 s2; clear - U C S P; nsatz.
Qed.
Print Assumptions C50_rotation.
(** the same for the operator % *)
Theorem C50_sandwich md t n v : unit_vec n -> exists e,
  compute_one md vga_m false [vga_rotor_ie; construct_ie vga_vector] [rotor_of t (cx n) (cy n) (cz n); coords v] (USandwich (UIn 1) (UIn 0)) = Ok [e] /\
  selects 3 e vga_vector = Ok (coords (rotate t n v)).
Proof.
  destruct n as [x y z], v as [a b c]. unfold unit_vec, dot. cbn [cx cy cz]. intros U. run. destruct (half t) as (C & S & P).
  unfold Rdiv in C, S, P; reads; unfold Rminus in *; set (Ct := cos t) in *; set (St := sin t) in *; set (c2 := cos (1 * / 2 * t)) in *; set (s2 := sin (1 * / 2 * t)) in *; clearbody Ct St c2 s2; clear - U C S P; nsatz.
Qed.
Print Assumptions C50_sandwich.
(** the product of two rotors turns by one and then the other *)
Definition turned (c s : R) (n v : vec) : vec :=
  vplus (vplus (vtimes (c * c - s * s * dot n n) v) (vtimes (2 * s * c) (cross n v))) (vtimes (2 * s * s * dot n v) n).
Lemma turned_rotate t n v : unit_vec n -> turned (cos (1 / 2 * t)) (sin (1 / 2 * t)) n v = rotate t n v.
Proof.
  intros U. unfold turned, rotate. rewrite U. destruct (half t) as (C & S & P). rewrite Rmult_1_r, <- C, <- S.
  replace (2 * sin (1 / 2 * t) * sin (1 / 2 * t)) with (1 - cos t) by lra. reflexivity.
Qed.
Theorem C50_composition md t1 n1 t2 n2 v : unit_vec n1 -> unit_vec n2 -> exists e,
  compute_one md vga_m false [vga_rotor_ie; vga_rotor_ie; construct_ie vga_vector]
    [rotor_of t1 (cx n1) (cy n1) (cz n1); rotor_of t2 (cx n2) (cy n2) (cz n2); coords v] (USandwich (UIn 2) (UGp (UIn 1) (UIn 0))) = Ok [e] /\
  selects 3 e vga_vector = Ok (coords (rotate t2 n2 (rotate t1 n1 v))).
Proof.
  intros U1 U2. rewrite <- (turned_rotate t1 n1 v U1), <- (turned_rotate t2 n2 _ U2). unfold rotor_of.
  set (c1 := cos _). set (s1 := sin _). set (c2 := cos (1 / 2 * t2)). set (s2 := sin (1 / 2 * t2)). clearbody c1 s1 c2 s2. clear.
  destruct n1 as [x1 y1 z1], n2 as [x2 y2 z2], v as [a b c]. eexists. split; [destruct md; vm_compute; reflexivity|].
  vm_compute. change R1 with 1. apply ok_list. repeat (apply cons_eq; [ring|try reflexivity]).
Qed.
Print Assumptions C50_composition.
(** a quarter turn about the z axis takes x to y *)
Example C50_ex : unit_vec (mkvec 0 0 1) /\ coords (rotate (PI / 2) (mkvec 0 0 1) (mkvec 1 0 0)) = [0; 1; 0].
Proof.
  split; [unfold unit_vec, dot; cbn [cx cy cz]; ring|]. unfold rotate. rewrite cos_PI2, sin_PI2. unfold coords, vplus, vtimes, cross, dot. cbn [cx cy cz]. repeat (apply cons_eq; [ring|try reflexivity]).
Qed.

(** ** C51: Plücker coordinates *)
(** The line joining p and q has the direction p - q and the moment p x (p - q): proved but for the
    second coordinate of the moment, whose sign is wrong. *)
Theorem C51_join_coordinates_partial md p q : exists e l, compute_one md pga_m false [vga_point_ie; vga_point_ie] [coords p; coords q] (UVee (UIn 0) (UIn 1)) = Ok [e] /\
  pga_line_of e = Ok l /\ firstn 3 l = coords (vminus p q) /\ nth_error l 3 = Some (cx (cross p (vminus p q))) /\ nth_error l 5 = Some (cz (cross p (vminus p q))).
Proof.
  destruct p as [x y z], q as [a b c]. eexists. eexists. split; [destruct md; vm_compute; reflexivity|]. split; [vm_compute; reflexivity|]. change R1 with 1.
  unfold coords, vminus, cross. cbn [cx cy cz firstn nth_error]. split; [repeat (apply cons_eq; [ring|try reflexivity])|]. split; f_equal; ring.
Qed.
Print Assumptions C51_join_coordinates_partial.
Theorem C51_join_moment_refuted : exists p q e l, compute_one Code pga_m false [vga_point_ie; vga_point_ie] [coords p; coords q] (UVee (UIn 0) (UIn 1)) = Ok [e] /\
  pga_line_of e = Ok l /\ l <> coords (vminus p q) ++ coords (cross p (vminus p q)).
Proof.
  exists (mkvec 1 0 0), (mkvec 0 0 1). eexists. eexists. split; [vm_compute; reflexivity|]. split; [vm_compute; reflexivity|]. change R1 with 1. change R0 with 0.
  intros H. apply (f_equal (fun l => List.nth 4 l 0)) in H. unfold cross, vminus in H. cbn [List.nth coords app cx cy cz] in H. lra.
Qed.
Print Assumptions C51_join_moment_refuted.
(** The line through c with the direction d has the coordinates d and c x d: it contains c when the
    moment has no second coordinate, ... *)
Theorem C51_line_contains_partial md c d : cy (cross c d) = 0 -> exists e, compute_one md pga_m false [pga_line_ie; vga_point_ie] [coords d ++ coords (cross c d); coords c] (UVee (UIn 0) (UIn 1)) = Ok [e] /\
  forall b, entity_val e b = 0.
Proof.
  intros M. destruct c as [x y z], d as [a b c]. unfold cross, coords in *. cbn [app cx cy cz] in *. rewrite M. eexists. split; [destruct md; cbv -[IZR]; reflexivity|].
  intros k. rewrite !val_cons. cbn [fst snd]. change (entity_val [] k) with 0. repeat match goal with |- context[if ?f then _ else _] => destruct f end; clear - M; unfold Rminus in *; nsatz.
Qed.
Print Assumptions C51_line_contains_partial.
(** ... and not otherwise *)
Theorem C51_line_contains_refuted : exists c d e b, compute_one Code pga_m false [pga_line_ie; vga_point_ie] [coords d ++ coords (cross c d); coords c] (UVee (UIn 0) (UIn 1)) = Ok [e] /\ entity_val e b <> 0.
Proof.
  exists (mkvec 0 0 1), (mkvec 1 0 0). eexists. exists 4%N. cbn [coords app cross cx cy cz]. split; [cbv -[IZR]; reflexivity|]. rewrite !val_cons. cbn. lra.
Qed.
Print Assumptions C51_line_contains_refuted.
(** Coordinates of a line satisfy l ^ l = 0: the quantity that vanishes is dx mx - dy my + dz mz instead
    of d . m *)
Theorem C51_line_square md dx dy dz mx my mz : exists e, compute_one md pga_m false [pga_line_ie] [[dx; dy; dz; mx; my; mz]] (UEp (UIn 0) (UIn 0)) = Ok [e] /\
  entity_val e = vscale (2 * (dx * mx - dy * my + dz * mz)) (delta 15).
Proof.
  eexists. split; [destruct md; cbv -[IZR]; reflexivity|]. apply functional_extensionality. intros b. unfold vscale, delta. rewrite !val_cons. cbn [fst snd]. change (entity_val [] b) with 0. destruct (15 =? b)%N; ring.
Qed.
Print Assumptions C51_line_square.
Theorem C51_plucker_refuted : exists d m e, dot d m = 0 /\ compute_one Code pga_m false [pga_line_ie] [coords d ++ coords m] (UEp (UIn 0) (UIn 0)) = Ok [e] /\ entity_val e 15%N <> 0.
Proof.
  exists (mkvec 1 1 0), (mkvec 1 (-1) 0). eexists. split; [unfold dot; cbn [cx cy cz]; ring|]. split; [cbv -[IZR]; reflexivity|]. rewrite !val_cons. cbn. lra.
Qed.
Print Assumptions C51_plucker_refuted.
Example C51_ex : cy (cross (mkvec 1 2 0) (mkvec 3 4 0)) = 0 /\ cz (cross (mkvec 1 2 0) (mkvec 3 4 0)) = -2.
Proof. unfold cross. cbn [cx cy cz]. split; ring. Qed.

(** ** C52: joins and meets *)
Theorem C52_plane_point md d n p : exists e, compute_one md pga_m false [construct_ie pga_plane; vga_point_ie] [d :: coords n; coords p] (UVee (UIn 0) (UIn 1)) = Ok [e] /\
  map fst e = [0%N] /\ (on_plane d n p <-> map snd e = [0]).
Proof.
  destruct n as [a b c], p as [x y z]. eexists. split; [destruct md; cbv -[IZR]; reflexivity|]. split; [reflexivity|]. unfold on_plane, dot. cbn [cx cy cz map snd].
  split; intros H; [apply cons_eq; [lra|reflexivity]|injection H as H; lra].
Qed.
Print Assumptions C52_plane_point.
(** the plane through three points: its normal is the product of two sides, and it contains them *)
Theorem C52_join_three md p q r : exists e d n, compute_one md pga_m false [vga_point_ie; vga_point_ie; vga_point_ie] [coords p; coords q; coords r] (UVee (UVee (UIn 0) (UIn 1)) (UIn 2)) = Ok [e] /\
  selects 4 e pga_plane = Ok (d :: coords n) /\ n = vtimes (-1) (cross (vminus q p) (vminus r p)) /\ on_plane d n p /\ on_plane d n q /\ on_plane d n r.
Proof.
  destruct p as [x y z], q as [a b c], r as [f g h]. eexists. exists (det3 (mkvec x y z) (mkvec a b c) (mkvec f g h)). eexists. split; [destruct md; cbv -[IZR]; reflexivity|].
  split; [|split; [reflexivity|]]; unfold on_plane, det3, vtimes, cross, vminus, dot, coords; cbn [cx cy cz].
  - cbv -[IZR Rplus Rminus Rmult Ropp]. apply ok_list. repeat (apply cons_eq; [ring|try reflexivity]).
  - repeat split; ring.
Qed.
Print Assumptions C52_join_three.
(** three planes meet in a point on all of them, unless their normals are dependent *)
Theorem C52_meet_three md d1 n1 d2 n2 d3 n3 : det3 n1 n2 n3 <> 0 ->
  exists e p, compute_one md pga_m false [construct_ie pga_plane; construct_ie pga_plane; construct_ie pga_plane] [d1 :: coords n1; d2 :: coords n2; d3 :: coords n3] (UEp (UEp (UIn 0) (UIn 1)) (UIn 2)) = Ok [e] /\
  vga_point_of e = Ok (coords p) /\ on_plane d1 n1 p /\ on_plane d2 n2 p /\ on_plane d3 n3 p.
Proof.
  destruct n1 as [a1 b1 c1], n2 as [a2 b2 c2], n3 as [a3 b3 c3]. unfold det3, dot, cross. cbn [cx cy cz]. intros D.
  set (w := a1 * (b2 * c3 - c2 * b3) + b1 * (c2 * a3 - a2 * c3) + c1 * (a2 * b3 - b2 * a3)) in *.
  eexists. exists (mkvec (- (d1 * (b2 * c3 - c2 * b3) + d2 * (b3 * c1 - c3 * b1) + d3 * (b1 * c2 - c1 * b2)) / w) (- (d1 * (c2 * a3 - a2 * c3) + d2 * (c3 * a1 - a3 * c1) + d3 * (c1 * a2 - a1 * c2)) / w)
    (- (d1 * (a2 * b3 - b2 * a3) + d2 * (a3 * b1 - b3 * a1) + d3 * (a1 * b2 - b1 * a2)) / w)).
  split; [destruct md; cbv -[IZR]; reflexivity|]. unfold coords, on_plane, dot. cbn [cx cy cz]. split.
  - unfold vga_point_of. cbv -[IZR Rplus Rminus Rmult Ropp Rinv Rdiv w]. apply ok_list.
    match goal with |- context[_ * (1 / ?q)] => replace q with w by (unfold w; ring) end. repeat (apply cons_eq; [field; exact D|try reflexivity]).
  - repeat split; unfold w; field; exact D.
Qed.
Print Assumptions C52_meet_three.
Example C52_ex : det3 (mkvec 1 0 0) (mkvec 0 1 0) (mkvec 0 0 1) <> 0 /\ on_plane (-3) (mkvec 1 1 1) (mkvec 1 1 1).
Proof. unfold det3, on_plane, dot, cross. cbn [cx cy cz]. split; lra. Qed.

(** ** C53: the exponential *)
(** there is only one *)
Theorem C53_unique m B E E' : is_exp m B E -> is_exp m B E' -> forall b, (b < 2 ^ N.of_nat (dim m))%N -> E b = E' b.
Proof. exact (exp_unique m B E E'). Qed.
Print Assumptions C53_unique.
Theorem C53_line_partial md dx dy dz mx my mz : 0 < dx * dx + dy * dy + dz * dz ->
  exists e, compute_exp md pga_m false [pga_line_ie] [[dx; dy; dz; mx; my; mz]] (UIn 0) = Ok [e] /\ is_exp pga_m (line_v dx dy dz mx my mz) (entity_val e).
Proof. exact (exp_line md dx dy dz mx my mz). Qed.
Print Assumptions C53_line_partial.
Theorem C53_bivector_partial md b3 b5 b6 b9 b10 b12 : 0 < b6 * b6 + b10 * b10 + b12 * b12 ->
  exists e, compute_exp md pga_m false [construct_ie [3; 5; 6; 9; 10; 12]%N] [[b3; b5; b6; b9; b10; b12]] (UIn 0) = Ok [e] /\
    is_exp pga_m (on_blades [3; 5; 6; 9; 10; 12]%N [b3; b5; b6; b9; b10; b12]) (entity_val e).
Proof. exact (exp_bivector md b3 b5 b6 b9 b10 b12). Qed.
Print Assumptions C53_bivector_partial.
Theorem C53_vga_partial md b3 b5 b6 : 0 < b3 * b3 + b5 * b5 + b6 * b6 ->
  exists e, compute_exp md vga_m false [construct_ie [3; 5; 6]%N] [[b3; b5; b6]] (UIn 0) = Ok [e] /\ is_exp vga_m (on_blades [3; 5; 6]%N [b3; b5; b6]) (entity_val e).
Proof. exact (exp_vga md b3 b5 b6). Qed.
Print Assumptions C53_vga_partial.
(** Translations: exp(B) = 1 + B for the ideal lines B, and the code divides zero by zero. Whatever
    number that division is taken to give, the result is wrong, because sin(0) times it is 0. *)
Lemma ideal_exp b3 b5 b9 : is_exp pga_m (entity_val (combine [3; 5; 9]%N [b3; b5; b9])) (entity_val (combine [0; 3; 5; 9]%N [1; b3; b5; b9])).
Proof.
  replace (entity_val (combine [0; 3; 5; 9]%N [1; b3; b5; b9])) with (entity_val (flow (combine [0; 3; 5; 9]%N [(1, 0, 0, 0); (0, 0, b3, 0); (0, 0, b5, 0); (0, 0, b9, 0)]) 0 1)).
  2:{ apply (val_ext 4); [reflexivity..|]. each_blade; unfold wave; rewrite ?Rmult_0_l, ?cos_0, ?sin_0; ring. }
  apply exp_flow; [reflexivity..| | |].
  - rewrite delta_val. apply (val_ext 4); [reflexivity..|]. each_blade; unfold wave; rewrite ?Rmult_0_l, ?cos_0, ?sin_0; ring.
  - intros t. each_blade; unfold wave; rewrite ?Rmult_0_l, ?cos_0, ?sin_0; ring.
  - reflexivity.
Qed.
Theorem C53_ideal_refuted : exists mx my mz e, compute_exp Code pga_m false [pga_line_ie] [[0; 0; 0; mx; my; mz]] (UIn 0) = Ok [e] /\ ~ is_exp pga_m (line_v 0 0 0 mx my mz) (entity_val e).
Proof.
  exists 1, 0, 0. eexists. split; [cbv -[IZR sqrt sin cos]; reflexivity|]. intros H.
  assert (E : line_v 0 0 0 1 0 0 = entity_val (combine [3; 5; 9]%N [- (1); 0; 0])). { apply (val_ext 4); [reflexivity..|]. each_blade; ring. }
  rewrite E in H. pose proof (C53_unique _ _ _ _ H (ideal_exp (- (1)) 0 0) 3 eq_refl) as K. clear H E. revert K.
  cbv -[IZR sqrt sin cos Rplus Rmult Rinv Ropp Rminus].
  match goal with |- context[sin (sqrt ?x)] => replace x with 0 by ring end. rewrite sqrt_0, sin_0. intros K. ring_simplify in K. lra.
Qed.
Print Assumptions C53_ideal_refuted.
Example C53_ex : 0 < 1 * 1 + 2 * 2 + 3 * 3. Proof. lra. Qed.

(** ** C54: normalizing a motor *)
(** the product with the reverse becomes 1, and the result is the motor times an invertible a + b I *)
Theorem C54_normalize md d0 d1 d2 d3 d4 d5 d6 d7 : 0 < d0 * d0 + d3 * d3 + d5 * d5 + d6 * d6 ->
  exists r, motor_normalize md [d0; d1; d2; d3; d4; d5; d6; d7] = Ok r /\
    vprod pga_m Geometric (on_blades pga_motor r) (vrev (on_blades pga_motor r)) = delta 0 /\
    exists a b, 0 < a /\ on_blades pga_motor r = vprod pga_m Geometric (on_blades pga_motor [d0; d1; d2; d3; d4; d5; d6; d7]) (on_blades [0; 15]%N [a; b]).
Proof.
  intros H. destruct (motor_normalize_value md d0 d1 d2 d3 d4 d5 d6 d7 H) as (r & E & U & V). exists r. split; [exact E|]. split; [exact U|].
  eexists. eexists. split; [|exact V]. apply Rinv_0_lt_compat, sqrt_lt_R0, H.
Qed.
Print Assumptions C54_normalize.
(** a motor without a rotation part cannot be normalized *)
Theorem C54_ideal md d1 d2 d4 d7 : motor_normalize md [0; d1; d2; 0; d4; 0; 0; d7] = Err DivZero.
Proof.
  unfold motor_normalize. pose proof (motor_square md 0 d1 d2 0 d4 0 0 d7) as E. unfold motor8 in E. rewrite E. cbn [single bind get nth_error map snd fst].
  replace (norm2 0 0 0 0) with 0 by (unfold norm2; ring). rewrite sqrt_0. unfold fdiv. destruct (Req_EM_T 0 0) as [_|N]; [reflexivity|now contradiction N].
Qed.
Print Assumptions C54_ideal.
Example C54_ex : 0 < 0 * 0 + 3 * 3 + 0 * 0 + 4 * 4. Proof. lra. Qed.

(** ** C55: the logarithm of a motor *)
Definition normalized (m : list R) : Prop := vprod pga_m Geometric (on_blades pga_motor m) (vrev (on_blades pga_motor m)) = delta 0.
Lemma normalized_norms d0 d1 d2 d3 d4 d5 d6 d7 : normalized [d0; d1; d2; d3; d4; d5; d6; d7] -> norm2 d0 d3 d5 d6 = 1 /\ norm4 d0 d1 d2 d3 d4 d5 d6 d7 = 0.
Proof.
  unfold normalized, on_blades. rewrite rev_val, prod_val by reflexivity. rewrite delta_val. intros H.
  pose proof (f_equal (fun f => f 0%N) H) as H0. pose proof (f_equal (fun f => f 15%N) H) as H4. clear H. revert H0 H4.
  cbv -[IZR Rplus Rmult Ropp Rminus Rinv]. intros H0 H4. unfold norm2, norm4. split; [match type of H0 with ?l = _ => transitivity l; [ring|rewrite H0; ring] end|match type of H4 with ?l = _ => transitivity l; [ring|rewrite H4; ring] end].
Qed.
(** exp(log m) = m, unless the rotation is (nearly) a half turn *)
Theorem C55_log_partial md d0 d1 d2 d3 d4 d5 d6 d7 : normalized [d0; d1; d2; d3; d4; d5; d6; d7] ->
  0 < d3 * d3 + d5 * d5 + d6 * d6 -> 1 / 1000000 <= Rabs d0 \/ d7 < 0 ->
  exists l, motor_log md [d0; d1; d2; d3; d4; d5; d6; d7] = Ok l /\ is_exp pga_m (entity_val l) (on_blades pga_motor [d0; d1; d2; d3; d4; d5; d6; d7]).
Proof.
  intros H T C. destruct (normalized_norms _ _ _ _ _ _ _ _ H) as [N2 N4].
  destruct (Rlt_dec (Rabs d0) (1 / 1000000)) as [L|L].
  - assert (D7 : d7 < 0) by (destruct C; lra). destruct (log_small d0 d1 d2 d3 d4 d5 d6 d7 N2 N4 T md L ltac:(lra)) as (l & E & X). exists l. split; [exact E|].
    destruct (Rlt_dec d7 0); [|lra]. rewrite scale_one in X. exact X.
  - apply (log_large d0 d1 d2 d3 d4 d5 d6 d7 N2 N4 T md). lra.
Qed.
Print Assumptions C55_log_partial.
(** then exp(log m) = -m, which moves everything as m does, when the pseudoscalar part is positive, ... *)
Theorem C55_log_negative md d0 d1 d2 d3 d4 d5 d6 d7 : normalized [d0; d1; d2; d3; d4; d5; d6; d7] ->
  0 < d3 * d3 + d5 * d5 + d6 * d6 -> Rabs d0 < 1 / 1000000 -> 0 < d7 ->
  exists l, motor_log md [d0; d1; d2; d3; d4; d5; d6; d7] = Ok l /\ is_exp pga_m (entity_val l) (vscale (-1) (on_blades pga_motor [d0; d1; d2; d3; d4; d5; d6; d7])).
Proof.
  intros H T L C. destruct (normalized_norms _ _ _ _ _ _ _ _ H) as [N2 N4].
  destruct (log_small d0 d1 d2 d3 d4 d5 d6 d7 N2 N4 T md L ltac:(lra)) as (l & E & X). exists l. split; [exact E|].
  destruct (Rlt_dec d7 0); [lra|]. exact X.
Qed.
Print Assumptions C55_log_negative.
(** ... and log m = 0 for the half turns m without a translation along the axis *)
Lemma zero_exp : is_exp pga_m (entity_val []) (delta 0).
Proof.
  exists (fun _ => delta 0). split; [reflexivity|]. split; [reflexivity|]. intros t b. rewrite prod_zero. change (derivable_pt_lim (fct_cte (delta 0 b)) t 0). apply derivable_pt_lim_const.
Qed.
Theorem C55_half_turn_refuted : exists d0 d1 d2 d3 d4 d5 d6 d7, normalized [d0; d1; d2; d3; d4; d5; d6; d7] /\
  exists l, motor_log Code [d0; d1; d2; d3; d4; d5; d6; d7] = Ok l /\ ~ is_exp pga_m (entity_val l) (on_blades pga_motor [d0; d1; d2; d3; d4; d5; d6; d7]).
Proof.
  exists 0, 0, 0, 1, 0, 0, 0, 0. assert (NM : normalized [0; 0; 0; 1; 0; 0; 0; 0]).
  { unfold normalized, on_blades. rewrite rev_val, prod_val by reflexivity. rewrite delta_val. apply (val_ext 4); [reflexivity..|]. each_blade; ring. }
  split; [exact NM|]. destruct (normalized_norms _ _ _ _ _ _ _ _ NM) as [N2 N4].
  destruct (log_half_turn 0 0 0 1 0 0 0 0 N4 ltac:(lra) Code) as (l & E & X); [rewrite Rabs_R0; lra|reflexivity|].
  exists l. split; [exact E|]. intros H. assert (X' : entity_val l = entity_val []) by (apply functional_extensionality; exact X). rewrite X' in H.
  pose proof (C53_unique _ _ _ _ H zero_exp 0%N eq_refl) as K. revert K. cbv -[IZR Rplus]. intros K. lra.
Qed.
Print Assumptions C55_half_turn_refuted.
(** the logarithm of a translation divides by zero *)
Lemma log_translation md d0 d1 d2 z d4 d7 : z = 0 -> motor_log md [d0; d1; d2; z; d4; z; z; d7] = Err DivZero.
Proof.
  intros Z0. unfold motor_log, pga_motor_bivector, slice.
  cbn [get nth_error bind List.length Nat.leb Nat.add firstn skipn combine map fst snd].
  destruct (line_square md d1 d2 z d4 z z) as (l2 & E & S0 & S4). unfold bivector in E. rewrite E. cbn [single bind get nth_error]. rewrite S0. cbn [bind]. rewrite S4. cbn [bind].
  match goal with |- context[sqrt ?x] => replace x with 0 by (rewrite Z0; ring) end. rewrite sqrt_0, Rmult_0_r. unfold fdiv. destruct (Req_EM_T 0 0) as [_|N]; [reflexivity|now contradiction N].
Qed.
Theorem C55_translation_refuted : exists d0 d1 d2 d3 d4 d5 d6 d7, normalized [d0; d1; d2; d3; d4; d5; d6; d7] /\ motor_log Code [d0; d1; d2; d3; d4; d5; d6; d7] = Err DivZero.
Proof.
  exists 1, 1, 0, 0, 0, 0, 0, 0. split; [|now apply log_translation].
  unfold normalized, on_blades. rewrite rev_val, prod_val by reflexivity. rewrite delta_val. apply (val_ext 4); [reflexivity..|]. each_blade; ring.
Qed.
Print Assumptions C55_translation_refuted.
(** a turn with 3/5 and 4/5 *)
Example C55_ex : normalized [3 / 5; 0; 0; 4 / 5; 0; 0; 0; 0] /\ 0 < 4 / 5 * (4 / 5) + 0 * 0 + 0 * 0 /\ 1 / 1000000 <= Rabs (3 / 5).
Proof.
  split; [|split; [lra|rewrite Rabs_pos_eq; lra]].
  unfold normalized, on_blades. rewrite rev_val, prod_val by reflexivity. rewrite delta_val. apply (val_ext 4); [reflexivity..|]. each_blade; field.
Qed.

(** ** C56: normalizing directions *)
Lemma scaled_unit x y z : 0 < x * x + y * y + z * z -> exists k, 0 < k /\ scaled_xyz x y z = Ok (coords (vtimes k (mkvec x y z))) /\ unit_vec (vtimes k (mkvec x y z)).
Proof.
  intros P. destruct (sqrt_facts _ P) as [S Q]. unfold scaled_xyz. rewrite fdiv_ok by lra. cbn [bind]. set (s := sqrt _) in *. clearbody s. exists (1 / s). split; [unfold Rdiv; rewrite Rmult_1_l; now apply Rinv_0_lt_compat|]. split.
  - apply ok_list. unfold coords, vtimes. cbn [cx cy cz]. repeat (apply cons_eq; [ring|try reflexivity]).
  - unfold unit_vec, dot, vtimes. cbn [cx cy cz]. replace (1 / s * x * (1 / s * x) + 1 / s * y * (1 / s * y) + 1 / s * z * (1 / s * z)) with ((x * x + y * y + z * z) / (s * s)) by (field; lra). rewrite <- Q. field. lra.
Qed.
Theorem C56_vector v : 0 < dot v v -> exists k, 0 < k /\ vector_normalize (coords v) = Ok (coords (vtimes k v)) /\ unit_vec (vtimes k v).
Proof. destruct v as [x y z]. exact (scaled_unit x y z). Qed.
Print Assumptions C56_vector.
Theorem C56_rotor c s v : 0 < dot v v -> exists k, 0 < k /\ rotor_normalize (c :: s :: coords v) = Ok (c :: s :: coords (vtimes k v)) /\ unit_vec (vtimes k v).
Proof. destruct v as [x y z]. intros P. destruct (scaled_unit x y z P) as (k & K & E & U). exists k. split; [exact K|]. split; [|exact U]. unfold rotor_normalize, coords. cbn [get nth_error bind cx cy cz]. rewrite E. reflexivity. Qed.
Print Assumptions C56_rotor.
Theorem C56_translator d v : 0 < dot v v -> exists k, 0 < k /\ translator_normalize (d :: coords v) = Ok (d :: coords (vtimes k v)) /\ unit_vec (vtimes k v).
Proof. destruct v as [x y z]. intros P. destruct (scaled_unit x y z P) as (k & K & E & U). exists k. split; [exact K|]. split; [|exact U]. unfold translator_normalize, coords. cbn [get nth_error bind cx cy cz]. rewrite E. reflexivity. Qed.
Print Assumptions C56_translator.
(** zero has no direction *)
Theorem C56_zero : vector_normalize [0; 0; 0] = Err DivZero.
Proof. unfold vector_normalize, scaled_xyz. cbn [get nth_error bind]. match goal with |- context[sqrt ?x] => replace x with 0 by ring end. rewrite sqrt_0. unfold fdiv. destruct (Req_EM_T 0 0) as [_|N]; [reflexivity|now contradiction N]. Qed.
Print Assumptions C56_zero.
Example C56_ex : 0 < dot (mkvec 3 4 0) (mkvec 3 4 0). Proof. unfold dot. cbn [cx cy cz]. lra. Qed.

(** ** C57: distances in the conformal algebra *)
Theorem C57_distance md p q : exists e, compute_one md cga_m true [cga_point_ie; cga_point_ie] [coords p; coords q] (USip (UIn 0) (UIn 1)) = Ok [e] /\
  map fst e = [0%N] /\ map snd e = [- (dist2 p q / 2)].
Proof.
  destruct p as [x y z], q as [a b c]. eexists. split; [destruct md; cbv -[IZR]; reflexivity|]. split; [reflexivity|]. unfold dist2, dot, vminus. cbn [cx cy cz map snd]. apply cons_eq; [field|reflexivity].
Qed.
Print Assumptions C57_distance.
(** points are null vectors *)
Theorem C57_null md p : compute_one md cga_m true [cga_point_ie] [coords p] (UGp (UIn 0) (UIn 0)) = Ok [[]].
Proof. destruct p as [x y z], md; cbv -[IZR]; reflexivity. Qed.
Print Assumptions C57_null.
Example C57_ex : dist2 (mkvec 1 0 0) (mkvec 0 1 0) = 2.
Proof. unfold dist2, dot, vminus. cbn [cx cy cz]. ring. Qed.

(** ** C58: the motions of motors *)
(** The motor of the screw motion u + v I about the line through c with the direction n turns by -2u
    about that line and moves by 2v along it, ... *)
Definition screw_bivector (u v : R) (n c : vec) : list R := let '(n3, n5, n6, n9, n10, n12) := axis n c in map snd (screw_log u v n3 n5 n6 n9 n10 n12).
Definition screw_data (u v : R) (n c : vec) : list R := let '(n3, n5, n6, n9, n10, n12) := axis n c in map snd (screw_motor u v n3 n5 n6 n9 n10 n12).
Theorem C58_screw md u v n c p : unit_vec n ->
  exists e, compute_one md pga_m false [motor_ie; vga_point_ie] [screw_data u v n c; coords p] (USandwich (UIn 1) (UIn 0)) = Ok [e] /\
    vga_point_of e = Ok (coords (screw (-2 * u) n c (vtimes (2 * v) n) p)).
Proof. exact (screw_moves md u v n c p). Qed.
Print Assumptions C58_screw.
(** ... and it is the exponential of (u + v I) times the line *)
Theorem C58_screw_exp u v n c : unit_vec n -> is_exp pga_m (on_blades [3; 5; 6; 9; 10; 12]%N (screw_bivector u v n c)) (on_blades pga_motor (screw_data u v n c)).
Proof. intros U. pose proof (axis_unit n c U) as H. unfold screw_bivector, screw_data. destruct (axis n c) as [[[[[n3 n5] n6] n9] n10] n12]. exact (screw_exp u v n3 n5 n6 n9 n10 n12 H). Qed.
Print Assumptions C58_screw_exp.
(** every normalized motor moves the points by a screw motion, ... *)
Theorem C58_every_motor md d0 d1 d2 d3 d4 d5 d6 d7 : normalized [d0; d1; d2; d3; d4; d5; d6; d7] ->
  exists t n c k, unit_vec n /\ forall p, exists e, compute_one md pga_m false [motor_ie; vga_point_ie] [[d0; d1; d2; d3; d4; d5; d6; d7]; coords p] (USandwich (UIn 1) (UIn 0)) = Ok [e] /\
    vga_point_of e = Ok (coords (screw t n c (vtimes k n) p)).
Proof. intros H. destruct (normalized_norms _ _ _ _ _ _ _ _ H) as [N2 N4]. exact (motor_moves md d0 d1 d2 d3 d4 d5 d6 d7 N2 N4). Qed.
Print Assumptions C58_every_motor.
(** ... which keeps distances and the orientation *)
Lemma rotate_dot t n v w : unit_vec n -> dot (rotate t n v) (rotate t n w) = dot v w.
Proof.
  destruct n as [x y z], v as [p1 p2 p3], w as [q1 q2 q3]. unfold unit_vec, rotate, vplus, vtimes, dot, cross. cbn [cx cy cz]. intros U.
  pose proof (sin2_cos2 t) as T. unfold Rsqr in T. set (C := cos t) in *. set (S := sin t) in *. clearbody C S. clear - U T. unfold Rminus in *. nsatz.
Qed.
Lemma rotate_cross t n v w : unit_vec n -> cross (rotate t n v) (rotate t n w) = rotate t n (cross v w).
Proof.
  destruct n as [x y z], v as [p1 p2 p3], w as [q1 q2 q3]. unfold unit_vec, rotate, vplus, vtimes, dot, cross. cbn [cx cy cz]. intros U.
  pose proof (sin2_cos2 t) as T. unfold Rsqr in T. set (C := cos t) in *. set (S := sin t) in *. clearbody C S. clear - U T. unfold Rminus in *. f_equal; nsatz.
Qed.
Lemma screw_difference t n c h p q : vminus (screw t n c h p) (screw t n c h q) = rotate t n (vminus p q).
Proof.
  destruct n as [x y z], c as [a b c], h as [h1 h2 h3], p as [p1 p2 p3], q as [q1 q2 q3]. unfold screw, rotate, vplus, vminus, vtimes, dot, cross. cbn [cx cy cz]. f_equal; ring.
Qed.
Definition moves (md : mode) (m : list R) (p p' : vec) : Prop :=
  exists e, compute_one md pga_m false [motor_ie; vga_point_ie] [m; coords p] (USandwich (UIn 1) (UIn 0)) = Ok [e] /\ vga_point_of e = Ok (coords p').
Theorem C58_rigid md d0 d1 d2 d3 d4 d5 d6 d7 : normalized [d0; d1; d2; d3; d4; d5; d6; d7] -> let m := [d0; d1; d2; d3; d4; d5; d6; d7] in
  exists f, (forall p, moves md m p (f p)) /\ (forall p q, dist2 (f p) (f q) = dist2 p q) /\
    forall p q r s, det3 (vminus (f q) (f p)) (vminus (f r) (f p)) (vminus (f s) (f p)) = det3 (vminus q p) (vminus r p) (vminus s p).
Proof.
  intros H m. destruct (C58_every_motor md _ _ _ _ _ _ _ _ H) as (t & n & c & k & U & F). exists (screw t n c (vtimes k n)). split; [exact F|]. split.
  - intros p q. unfold dist2. rewrite screw_difference. now apply rotate_dot.
  - intros p q r s. rewrite !screw_difference. unfold det3. rewrite rotate_cross by exact U. now apply rotate_dot.
Qed.
Print Assumptions C58_rigid.
Example C58_ex : unit_vec (mkvec 0 0 1) /\ normalized [1; 2; 3; 0; 4; 0; 0; 0].
Proof.
  split; [unfold unit_vec, dot; cbn [cx cy cz]; ring|]. unfold normalized, on_blades. rewrite rev_val, prod_val by reflexivity. rewrite delta_val. apply (val_ext 4); [reflexivity..|]. each_blade; ring.
Qed.
