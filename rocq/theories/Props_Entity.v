(** C33 and C34: entities. *)
From Coq Require Import ZArith NArith List Bool Arith Reals Lia Lra Sorting.Sorted.
From Verif Require Import Base Model_Numeric Model_Blade Model_MV Model_Product Model_Expr Model_Dfa Model_Engine Model_Entity
  Spec_Numeric Spec_Clifford Spec_Basis Spec_MV Spec_Expr Spec_Dfa Spec_Engine Spec_Entity.
From Verif Require Import Proof_Sim Proof_Engine Proof_Entity Proof_Entity2.
Import ListNotations.
Local Open Scope nat_scope.

(** ** C33 *)
(** select(e) is the stored component, zero if there is none; for every blade of the algebra *)
Theorem C33_select dim x e : (e < 2 ^ dim)%N -> select dim x e = Ok (match lookup x e with Some r => r | None => 0%R end).
Proof. exact (select_lookup dim x e). Qed.
Print Assumptions C33_select.
(** when no blade is stored twice, that is the coefficient of the blade *)
Theorem C33_select_is_coefficient dim x e : (e < 2 ^ dim)%N -> NoDup (map fst x) -> select dim x e = Ok (entity_val x e).
Proof. intros D ND. rewrite (select_lookup dim x e D). now rewrite (lookup_val x e ND). Qed.
Print Assumptions C33_select_is_coefficient.
(** several blades in the requested order *)
Theorem C33_select_many dim x s : Forall (fun e => e < 2 ^ dim)%N s -> NoDup (map fst x) -> selects dim x s = Ok (map (entity_val x) s).
Proof. intros D ND. rewrite (selects_lookup dim x s D). f_equal. apply map_ext. intros e. now apply lookup_val. Qed.
Print Assumptions C33_select_many.
(** the pointer returned for a mutable entity points to the stored component *)
Theorem C33_select_pointer dim x e : (e < 2 ^ dim)%N ->
  (In e (map fst x) -> exists k r, select_ptr dim x e = Ok (Some k) /\ nth_error x k = Some (e, r) /\ lookup x e = Some r) /\
  (~ In e (map fst x) -> select_ptr dim x e = Ok None).
Proof. exact (select_ptr_ok dim x e). Qed.
Print Assumptions C33_select_pointer.
(** a blade outside the algebra indexes the table out of bounds *)
Theorem C33_blade_outside_the_algebra dim x e : (2 ^ dim <= e)%N -> x <> [] -> select dim x e = Err OutOfBounds.
Proof. exact (select_out dim x e). Qed.
Print Assumptions C33_blade_outside_the_algebra.
Definition entity_ex : entity := [(6%N, 5%R); (0%N, 7%R); (3%N, 2%R)].
Example C33_ex : NoDup (map fst entity_ex) /\ select 3 entity_ex 3 = Ok 2%R /\ selects 3 entity_ex [0; 1; 6]%N = Ok [7; 0; 5]%R /\
  select_ptr 3 entity_ex 0 = Ok (Some 1) /\ select 3 entity_ex 8 = Err OutOfBounds.
Proof. split; [repeat constructor; cbn; intuition discriminate|]. vm_compute. repeat split. Qed.

(** ** C34: what the components of the types stand for *)
(** types that store the coefficients of a list of blades *)
Theorem C34_stored_blades m nb es d : StronglySorted N.lt es -> Forall (fun e => e < 2 ^ dimension m)%N es -> length es = length d ->
  stands m nb (construct_ie es) d (input m nb (on_blades es d)).
Proof. intros A B C. apply represents_stands. now apply construct_represents. Qed.
Print Assumptions C34_stored_blades.
Theorem C34_pga_line dx dy dz mx my mz : stands pga_m false pga_line_ie [dx; dy; dz; mx; my; mz] (line_v dx dy dz mx my mz).
Proof. exact (pga_line_stands dx dy dz mx my mz). Qed.
Print Assumptions C34_pga_line.
Theorem C34_vga_rotor c s x y z : stands vga_m false vga_rotor_ie [c; s; x; y; z] (rotor_v c s x y z).
Proof. exact (vga_rotor_stands c s x y z). Qed.
Print Assumptions C34_vga_rotor.
Theorem C34_vga_point x y z : stands pga_m false vga_point_ie [x; y; z] (point_v x y z).
Proof. exact (vga_point_stands x y z). Qed.
Print Assumptions C34_vga_point.
(** the null basis components of the conformal point, converted *)
Theorem C34_cga_point x y z : stands cga_m true cga_point_ie [x; y; z] (input cga_m true (conformal_point x y z)).
Proof. exact (cga_point_stands x y z). Qed.
Print Assumptions C34_cga_point.

(** ** C34: round trips *)
Theorem C34_round_trip md m es d : length es = length d -> es <> [] -> (N.of_nat (length d) <= ind_constant_start)%N ->
  NoDup es -> Forall (fun e => e < 2 ^ dimension m)%N es ->
  exists e, compute md m false [construct_ie es] [d] return_input one = Ok [e] /\ selects (dimension m) e es = Ok d.
Proof. exact (construct_round_trip md m es d). Qed.
Print Assumptions C34_round_trip.
Ltac distinct := repeat constructor; cbn; intuition discriminate.
Ltac in_range := repeat constructor; reflexivity.
Theorem C34_vector_round_trip md x y z : exists e, compute md vga_m false [construct_ie vga_vector] [[x; y; z]] return_input one = Ok [e] /\
  selects 3 e vga_vector = Ok [x; y; z].
Proof. apply (construct_round_trip md vga_m); [reflexivity|discriminate|cbv; discriminate|distinct|in_range]. Qed.
Print Assumptions C34_vector_round_trip.
Theorem C34_plane_round_trip md d x y z : exists e, compute md pga_m false [construct_ie pga_plane] [[d; x; y; z]] return_input one = Ok [e] /\
  selects 4 e pga_plane = Ok [d; x; y; z].
Proof. apply (construct_round_trip md pga_m); [reflexivity|discriminate|cbv; discriminate|distinct|in_range]. Qed.
Print Assumptions C34_plane_round_trip.
Theorem C34_motor_round_trip md a b c d e f g h : exists r, compute md pga_m false [construct_ie pga_motor] [[a; b; c; d; e; f; g; h]] return_input one = Ok [r] /\
  selects 4 r pga_motor = Ok [a; b; c; d; e; f; g; h].
Proof. apply (construct_round_trip md pga_m); [reflexivity|discriminate|cbv; discriminate|distinct|in_range]. Qed.
Print Assumptions C34_motor_round_trip.
Theorem C34_pga_point_round_trip md a b c d : exists r, compute md pga_m false [construct_ie pga_point] [[a; b; c; d]] return_input one = Ok [r] /\
  selects 4 r pga_point = Ok [a; b; c; d].
Proof. apply (construct_round_trip md pga_m); [reflexivity|discriminate|cbv; discriminate|distinct|in_range]. Qed.
Print Assumptions C34_pga_point_round_trip.
Theorem C34_line2_round_trip md a b c : exists r, compute md pga2_m false [construct_ie pga2_line] [[a; b; c]] return_input one = Ok [r] /\
  selects 3 r pga2_line = Ok [a; b; c].
Proof. apply (construct_round_trip md pga2_m); [reflexivity|discriminate|cbv; discriminate|distinct|in_range]. Qed.
Print Assumptions C34_line2_round_trip.
Theorem C34_line_round_trip md a b c d e f : exists r, compute md pga_m false [pga_line_ie] [[a; b; c; d; e; f]] return_input one = Ok [r] /\
  pga_line_of r = Ok [a; b; c; d; e; f].
Proof.
  eexists. split; [destruct md; vm_compute; reflexivity|]. vm_compute. change R1 with 1%R. f_equal. repeat f_equal; ring.
Qed.
Print Assumptions C34_line_round_trip.
Theorem C34_vga_point_round_trip md x y z : exists r, compute md pga_m false [vga_point_ie] [[x; y; z]] return_input one = Ok [r] /\
  vga_point_of r = Ok [x; y; z].
Proof.
  eexists. split; [destruct md; vm_compute; reflexivity|]. vm_compute. change R1 with 1%R. f_equal. repeat f_equal; field.
Qed.
Print Assumptions C34_vga_point_round_trip.
Theorem C34_vga_point_as_pga_point md x y z : exists r, compute md pga_m false [vga_point_ie] [[x; y; z]] return_input one = Ok [r] /\
  exists p, vga_point_to_pga [x; y; z] = Ok p /\ r = p.
Proof.
  eexists. split; [destruct md; vm_compute; reflexivity|]. eexists. split; [vm_compute; reflexivity|]. change R1 with 1%R. repeat f_equal; field.
Qed.
Print Assumptions C34_vga_point_as_pga_point.
Theorem C34_cga_point_round_trip md x y z : exists r, compute md cga_m true [cga_point_ie] [[x; y; z]] return_input one = Ok [r] /\
  selects 5 r cga_point = Ok [x; y; z].
Proof.
  eexists. split; [destruct md; vm_compute; reflexivity|]. vm_compute. reflexivity.
Qed.
Print Assumptions C34_cga_point_round_trip.
(** the hypotheses are met: a plane, and its value *)
Example C34_ex : StronglySorted N.lt pga_plane /\ stands pga_m false (construct_ie pga_plane) [1; 2; 3; 4]%R (on_blades pga_plane [1; 2; 3; 4]%R) /\
  on_blades pga_plane [1; 2; 3; 4]%R 4%N = 3%R.
Proof.
  assert (SP : StronglySorted N.lt pga_plane) by (repeat constructor). split; [exact SP|]. split.
  - apply (C34_stored_blades pga_m false); [exact SP|in_range|reflexivity].
  - unfold on_blades, entity_val, Rsum. cbn. ring.
Qed.

(** ** C34: representations that are wrong *)
(** the rotation of the projective algebra: the e12 component is the sine alone *)
Theorem C34_pga_rotor_refuted : exists c s x y z r, compute Code pga_m false [pga_rotor_ie] [[c; s; x; y; z]] return_input one = Ok [r] /\
  ~ rotor_like (entity_val r) c s x y z.
Proof.
  exists 0%R, 1%R, 1%R, 1%R, 2%R. eexists. split; [vm_compute; reflexivity|].
  intros (_ & [H|H] & _); unfold entity_val, Rsum in H; cbn in H; change R1 with 1%R in *; lra.
Qed.
Print Assumptions C34_pga_rotor_refuted.
(** what it is, for all parameters: each component of the line has the factors of the one before *)
Theorem C34_pga_rotor_value md c s x y z : exists r, compute md pga_m false [pga_rotor_ie] [[c; s; x; y; z]] return_input one = Ok [r] /\
  map fst r = [0; 6; 10; 12]%N /\ map snd r = [c; s; - (s * z); s * y]%R.
Proof.
  eexists. split; [destruct md; vm_compute; reflexivity|]. split; [reflexivity|]. change R1 with 1%R. cbn [map snd]. repeat f_equal; ring.
Qed.
Print Assumptions C34_pga_rotor_value.
(** it is the rotation about (1, 1, 1) ... *)
Theorem C34_pga_rotor_partial md c s : exists r, compute md pga_m false [pga_rotor_ie] [[c; s; 1; 1; 1]]%R return_input one = Ok [r] /\ rotor_like (entity_val r) c s 1 1 1.
Proof.
  destruct (C34_pga_rotor_value md c s 1 1 1) as (r & E & F & G). exists r. split; [exact E|]. destruct r as [|[] [|[] [|[] [|[] [|]]]]]; try discriminate F. cbn in F, G. injection F as -> -> -> ->. injection G as -> -> -> ->.
  unfold rotor_like, entity_val, Rsum. cbn. repeat split; [ring|left; ring|right; ring|left; ring].
Qed.
Print Assumptions C34_pga_rotor_partial.
(** the translation: e02 and e03 have the x coordinate *)
Theorem C34_pga_translator_refuted : exists d x y z r, compute Code pga_m false [pga_translator_ie] [[d; x; y; z]] return_input one = Ok [r] /\
  ~ translator_like (entity_val r) d x y z.
Proof.
  exists 1%R, 1%R, 2%R, 3%R. eexists. split; [vm_compute; reflexivity|].
  intros (_ & _ & [H|H] & _); unfold entity_val, Rsum in H; cbn in H; change R1 with 1%R in *; lra.
Qed.
Print Assumptions C34_pga_translator_refuted.
Theorem C34_pga_translator_value md d x y z : exists r, compute md pga_m false [pga_translator_ie] [[d; x; y; z]] return_input one = Ok [r] /\
  map fst r = [0; 3; 5; 9]%N /\ map snd r = [1; - (d * x / 2); - (d * x / 2); - (d * x / 2)]%R.
Proof.
  eexists. split; [destruct md; vm_compute; reflexivity|]. split; [reflexivity|]. change (R1 + R1)%R with 2%R. change R1 with 1%R. cbn [map snd]. repeat f_equal; field.
Qed.
Print Assumptions C34_pga_translator_value.
(** so translations along (x, x, x) are right *)
Theorem C34_pga_translator_partial md d x : exists r, compute md pga_m false [pga_translator_ie] [[d; x; x; x]] return_input one = Ok [r] /\ translator_like (entity_val r) d x x x.
Proof.
  destruct (C34_pga_translator_value md d x x x) as (r & E & F & G). exists r. split; [exact E|]. destruct r as [|[] [|[] [|[] [|[] [|]]]]]; try discriminate F. cbn in F, G. injection F as -> -> -> ->. injection G as -> -> -> ->.
  unfold translator_like, entity_val, Rsum. cbn. repeat split; [ring|right; field|right; field|right; field].
Qed.
Print Assumptions C34_pga_translator_partial.
(** the point of the plane: e01 is -1 instead of -y, and its coordinates are not read back *)
Theorem C34_pga2_point_refuted : exists x y r, compute Code pga2_m false [pga2_point_ie] [[x; y]] return_input one = Ok [r] /\
  entity_val r 3%N <> point2_v x y 3%N /\ pga2_point_of r <> Ok [x; y].
Proof.
  exists 5%R, 7%R. eexists. split; [vm_compute; reflexivity|]. split.
  - unfold point2_v, on_blades, entity_val, Rsum. cbn. change R1 with 1%R. lra.
  - vm_compute. change R1 with 1%R. intros H. injection H as H1 H2. lra.
Qed.
Print Assumptions C34_pga2_point_refuted.
(** what is read back, whatever the point: the inverse of the weight, twice *)
Theorem C34_pga2_point_conversion x3 x5 x6 : pga2_point_of (combine [3; 5; 6]%N [x3; x5; x6]) = Ok [(/ x6)%R; (- / x6)%R] /\
  pga2_point_of (combine [3; 6]%N [x3; x6]) = Ok [(/ x6)%R; (- / x6)%R].
Proof. split; vm_compute; change R1 with 1%R; now rewrite Rmult_1_l. Qed.
Print Assumptions C34_pga2_point_conversion.
(** not even a point that the engine returned correctly is read back *)
Theorem C34_pga2_point_conversion_refuted : exists x y, pga2_point_of (combine [3; 5; 6]%N [(- y)%R; x; 1%R]) <> Ok [x; y].
Proof. exists 5%R, 7%R. vm_compute. change R1 with 1%R. intros H. injection H as H1 H2. lra. Qed.
Print Assumptions C34_pga2_point_conversion_refuted.
(** the vectors of the projective algebras cannot be used: their sizes exceed their arrays *)
Theorem C34_pga_vector_out_of_bounds : forall md x y z, compute md pga_m false [pga_vector_ie] [[x; y; z]] return_input one = Err OutOfBounds.
Proof. intros [] x y z; vm_compute; reflexivity. Qed.
Print Assumptions C34_pga_vector_out_of_bounds.
Theorem C34_pga_vector_refuted : exists x y z, forall md e, compute md pga_m false [pga_vector_ie] [[x; y; z]] return_input one <> Ok e.
Proof. exists 1%R, 2%R, 3%R. intros md e. rewrite C34_pga_vector_out_of_bounds. discriminate. Qed.
Print Assumptions C34_pga_vector_refuted.
Theorem C34_pga2_vector_out_of_bounds : forall md x y z, compute md pga2_m false [pga2_vector_ie] [[x; y; z]] return_input one = Err OutOfBounds.
Proof. intros [] x y z; vm_compute; reflexivity. Qed.
Print Assumptions C34_pga2_vector_out_of_bounds.
Theorem C34_pga2_vector_refuted : exists x y z, forall md e, compute md pga2_m false [pga2_vector_ie] [[x; y; z]] return_input one <> Ok e.
Proof. exists 1%R, 2%R, 3%R. intros md e. rewrite C34_pga2_vector_out_of_bounds. discriminate. Qed.
Print Assumptions C34_pga2_vector_refuted.
(** with the sizes of its arrays, pga::vector would be the ideal point in the direction (x, y, z) and be read back *)
Definition sized (x : mv) : mv := mkmv (length (inds x)) (length (mons x)) (length (terms x)) (inds x) (mons x) (terms x) (mop x).
Definition vector_ts (o : N) : list sterm := [(7, [mks minus_one one [mkind (o + 2) one]]); (11, [mks one one [mkind (o + 1) one]]); (13, [mks minus_one one [mkind o one]])]%N.
Theorem C34_pga_vector_intended md x y z : stands pga_m false (fun o => sized (pga_vector_ie o)) [x; y; z] (on_blades [7; 11; 13]%N [(- z)%R; y; (- x)%R]) /\
  exists e, compute md pga_m false [fun o => sized (pga_vector_ie o)] [[x; y; z]] return_input one = Ok [e] /\ pga_vector_of e = Ok [x; y; z].
Proof.
  split.
  - exists (fun o => sized (pga_vector_ie o)). split; [intros o; constructor; cbn; try reflexivity; repeat (constructor; [unfold mon_sim; cbn; intuition lia|]); constructor|].
    change (on_blades [7; 11; 13]%N [(- z)%R; y; (- x)%R]) with (input pga_m false (on_blades [7; 11; 13]%N [(- z)%R; y; (- x)%R])). apply (represents_of _ _ _ _ _ vector_ts).
    + intros o. split; [packs|]. split; [reflexivity|]. unfold vector_ts. propers.
    + ranges.
    + intros o rho H b. unfold vector_ts. values. rewrite !(cell _ _ _ H) by (cbn; lia). rewrite (cell0 _ _ _ H) by (cbn; lia). nums. blades; ring.
  - eexists. split; [destruct md; vm_compute; reflexivity|]. vm_compute. change R1 with 1%R. f_equal. repeat f_equal; ring.
Qed.
Print Assumptions C34_pga_vector_intended.
(** pga2::vector would even then not be: two of its blades are not in the algebra, and its components are others *)
Theorem C34_pga2_vector_blades md x y z : (2 ^ dimension pga2_m = 8)%N /\
  exists e, compute md pga2_m false [fun o => sized (pga2_vector_ie o)] [[x; y; z]] return_input one = Ok [e] /\ map fst e = [7; 11; 13]%N /\ map snd e = [-1; y; - (x * y)]%R /\ select 3 e 11 = Err OutOfBounds.
Proof.
  split; [reflexivity|]. eexists. split; [destruct md; vm_compute; reflexivity|]. split; [reflexivity|]. split; [|reflexivity]. cbn [map snd]. change R1 with 1%R. repeat f_equal; field.
Qed.
Print Assumptions C34_pga2_vector_blades.
