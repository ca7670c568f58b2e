(** C60, C61: temporaries of conformal algebras, and the motions their versors describe. *)
From Coq Require Import ZArith NArith List Bool Arith Reals Lia Lra Nsatz.
From Verif Require Import Base Model_Numeric Model_Blade Model_MV Model_Product Model_Expr Model_Dfa Model_Reshape Model_Engine Model_Entity Model_Compute
  Spec_Numeric Spec_Clifford Spec_Basis Spec_MV Spec_Expr Spec_Build Spec_Dfa Spec_Engine Spec_Entity Spec_Reshape Spec_Compute Spec_Geometry.
From Verif Require Import Proof_Geometry Proof_Reshape6 Proof_Applicable Proof_Compute Props_Expr Props_Entity Props_Engine Props_Geometry.
Import ListNotations.
Local Open Scope list_scope.
Local Open Scope R_scope.

(** ** C60: temporaries of algebras with a null basis *)
(** What is computed is right if the blades of all temporaries contain both of the last two
    generators or neither. Full statement: without [neutral_temps] and [applicable]. Missing: false
    then, see below *)
Theorem C60_temporaries_partial m ies inputs env u outs v : (2 <= dim m)%nat -> inputs_are m true ies inputs env -> length env = length inputs ->
  faithful m env (lambda_inputs inputs) u -> regular (lambda_inputs inputs) u ->
  on1 (fun e => short e /\ identified (rnodes e) /\ counted e /\
    on1 (fun y => applicable m true ies (list_sum (map (@length R) inputs)) (rnodes y) /\ neutral_temps m true ies (list_sum (map (@length R) inputs)) (rnodes y)) (reshape e))
    (build Exact (lambda_inputs inputs) u) -> means m env u v ->
  compute_one Exact m true ies inputs u = Ok outs -> exists e, outs = [e] /\ entity_is (dim m) e (output m true v).
Proof. intros D. apply compute_general. now intros _. Qed.
Print Assumptions C60_temporaries_partial.
(** the product of two rotors is such a temporary: the sandwich of a point turns it twice *)
(** the blades 1, e12, e13, e23, and the coefficients of the rotation by [t] about [n] *)
Definition cga_rotor : list N := [0; 3; 5; 6]%N.
Definition cga_rotor_of (t : R) (n : vec) : list R := [cos (1 / 2 * t); - (sin (1 / 2 * t) * cz n); sin (1 / 2 * t) * cy n; - (sin (1 / 2 * t) * cx n)].
(** the conformal point no + p + p^2/2 ni *)
Definition at_point (e : entity) (p : vec) : Prop := map fst e = [1; 2; 4; 8; 16]%N /\ map snd e = [cx p; cy p; cz p; 1; dot p p / 2].
Lemma turn_unit t n : unit_vec n -> cos (1 / 2 * t) * cos (1 / 2 * t) + sin (1 / 2 * t) * sin (1 / 2 * t) * dot n n = 1.
Proof. intros U. rewrite U. pose proof (sin2_cos2 (1 / 2 * t)) as H. unfold Rsqr in H. lra. Qed.
Lemma turned_dot c s n v : dot (turned c s n v) (turned c s n v) = (c * c + s * s * dot n n) * (c * c + s * s * dot n n) * dot v v.
Proof. destruct n as [x y z], v as [a b d]. unfold turned, dot, vplus, vtimes, cross. cbn [cx cy cz]. ring. Qed.
Theorem C60_rotors md t1 n1 t2 n2 p : unit_vec n1 -> unit_vec n2 -> exists e,
  compute_one md cga_m true [cga_point_ie; construct_ie cga_rotor; construct_ie cga_rotor] [coords p; cga_rotor_of t1 n1; cga_rotor_of t2 n2] (USandwich (UIn 0) (UGp (UIn 2) (UIn 1))) = Ok [e] /\
  at_point e (rotate t2 n2 (rotate t1 n1 p)).
Proof.
  intros U1 U2. rewrite <- (turned_rotate t1 n1 p U1), <- (turned_rotate t2 n2 _ U2). pose proof (turn_unit t1 n1 U1) as H1. pose proof (turn_unit t2 n2 U2) as H2. unfold cga_rotor_of.
  set (c1 := cos _) in *. set (s1 := sin _) in *. set (c2 := cos (1 / 2 * t2)) in *. set (s2 := sin (1 / 2 * t2)) in *. clearbody c1 s1 c2 s2. clear U1 U2.
  unfold at_point. rewrite !turned_dot, H1, H2. destruct p as [a b c], n1 as [x1 y1 z1], n2 as [x2 y2 z2]. unfold dot in H1, H2. cbn [cx cy cz] in H1, H2.
  eexists. split; [destruct md; vm_compute; reflexivity|]. split; [reflexivity|]. cbn [map snd]. change (R1 + R1) with 2. change R1 with 1. unfold turned, dot, vplus, vtimes, cross. cbn [cx cy cz].
  do 3 (apply cons_eq; [ring|]). apply cons_eq; [|apply cons_eq; [|reflexivity]].
  - transitivity ((c1 * c1 + s1 * s1 * (x1 * x1 + y1 * y1 + z1 * z1)) * (c2 * c2 + s2 * s2 * (x2 * x2 + y2 * y2 + z2 * z2))); [ring|rewrite H1, H2; ring].
  - transitivity ((c1 * c1 + s1 * s1 * (x1 * x1 + y1 * y1 + z1 * z1)) * (c2 * c2 + s2 * s2 * (x2 * x2 + y2 * y2 + z2 * z2)) * ((a * a + b * b + c * c) / 2)); [field|rewrite H1, H2; field].
Qed.
Print Assumptions C60_rotors.
Definition rotors_ex : uexpr := USandwich (UIn 0) (UGp (UIn 2) (UIn 1)).
Definition rotors_data : list (list R) := [[1; 2; 3]; [1; 0; 0; 0]; [0; 0; 1; 0]].
Definition rotors_vals : list V := [input cga_m true (conformal_point 1 2 3); input cga_m true (on_blades cga_rotor [1; 0; 0; 0]); input cga_m true (on_blades cga_rotor [0; 0; 1; 0])].
Example C60_ex : inputs_are cga_m true [cga_point_ie; construct_ie cga_rotor; construct_ie cga_rotor] rotors_data rotors_vals /\
  faithful cga_m rotors_vals (lambda_inputs rotors_data) rotors_ex /\ regular (lambda_inputs rotors_data) rotors_ex /\
  on1 (fun e => short e /\ identified (rnodes e) /\ counted e /\
    on1 (fun y => applicable cga_m true [cga_point_ie; construct_ie cga_rotor; construct_ie cga_rotor] (list_sum (map (@length R) rotors_data)) (rnodes y) /\
      neutral_temps cga_m true [cga_point_ie; construct_ie cga_rotor; construct_ie cga_rotor] (list_sum (map (@length R) rotors_data)) (rnodes y) /\
      length (filter (fun n => (no n =? op_noop)%N) (rnodes y)) = 1%nat) (reshape e)) (build Exact (lambda_inputs rotors_data) rotors_ex) /\
  (exists v, means cga_m rotors_vals rotors_ex v) /\ exists e, compute_one Exact cga_m true [cga_point_ie; construct_ie cga_rotor; construct_ie cga_rotor] rotors_data rotors_ex = Ok [e].
Proof.
  split; [|split; [|split; [|split; [|split]]]].
  - split; [reflexivity|]. intros [|[|[|[|k]]]] ie X; try discriminate X; injection X as <-; do 2 eexists; (split; [reflexivity|]; split; [reflexivity|]); [apply C34_cga_point| |]; (apply (C34_stored_blades cga_m true); [repeat constructor|in_range|reflexivity]).
  - unfold rotors_ex. faith.
  - cbn. tauto.
  - lists. split; [split; vm_compute; reflexivity|]. split; [apply identifiedb_ok; vm_compute; reflexivity|]. split; [apply countedb_ok; vm_compute; reflexivity|].
    lists. split; [apply applicableb_ok; vm_compute; reflexivity|]. split; [|vm_compute; reflexivity].
    intros _ ins st E1 E2. vm_compute in E1. injection E1 as <-. vm_compute in E2. injection E2 as <-. constructor; [|constructor]. split; [reflexivity|]. intros e. vm_compute. intuition subst; reflexivity.
  - eexists. unfold rotors_ex. repeat (constructor; try reflexivity; try discriminate).
  - eexists. vm_compute. reflexivity.
Qed.
(** Any other temporary is written in the null basis and read in the natural one. Stage by stage,
    the translator 1 + w with w = -5/2 e1 ni moves the point (1, 2, 3) by (5, 0, 0); in one
    expression it does not. *)
Theorem C60_translation_refuted : exists t e e', compute_one Code cga_m true [construct_ie [17]%N] [[- (5 / 2)]] (UAddZ 1 (UIn 0)) = Ok [t] /\
  compute_one Code cga_m true [cga_point_ie; construct_ie (map fst t)] [[1; 2; 3]; map snd t] (USandwich (UIn 0) (UIn 1)) = Ok [e] /\ at_point e (mkvec 6 2 3) /\
  compute_one Code cga_m true [cga_point_ie; construct_ie [17]%N] [[1; 2; 3]; [- (5 / 2)]] (USandwich (UIn 0) (UAddZ 1 (UIn 1))) = Ok [e'] /\ entity_val e' 1 <> 6.
Proof.
  eexists. eexists. eexists. split; [cbv -[IZR]; reflexivity|]. split; [cbv -[IZR]; reflexivity|]. split.
  - split; [reflexivity|]. cbn [map snd]. unfold dot. cbn [cx cy cz]. repeat (apply cons_eq; [field|]). reflexivity.
  - split; [cbv -[IZR]; reflexivity|]. unfold entity_val, Rsum. cbn [map fst snd fold_right N.eqb Pos.eqb]. lra.
Qed.
Print Assumptions C60_translation_refuted.
(** The null form of a temporary may have more blades than cells were reserved for it: writing past
    the end of the array, for all inputs. x e4 x e4 with a scalar x: the temporary x e4 is
    x (no - ni/2) *)
Theorem C60_overrun_refuted x : compute_one Code cga_m true [scalar_ie] [[x]] (UGp (UGp (UIn 0) (UBlade 8 1)) (UGp (UIn 0) (UBlade 8 1))) = Err OutOfBounds.
Proof. vm_compute. reflexivity. Qed.
Print Assumptions C60_overrun_refuted.
(** An input converted to the natural basis keeps spare capacity, and a reference to it has a cell for
    each: reading past the end of the array, for all inputs. ~w ~w with w on the blade no *)
Theorem C60_spare_capacity_refuted x : compute_one Code cga_m true [construct_ie [8]%N] [[x]] (UGp (URev (UIn 0)) (URev (UIn 0))) = Err OutOfBounds.
Proof. vm_compute. reflexivity. Qed.
Print Assumptions C60_spare_capacity_refuted.
(** For the same reason there is no division by a scalar input *)
Theorem C60_division_refuted p x : compute_one Code cga_m true [cga_point_ie; scalar_ie] [coords p; [x]] (UDiv (UIn 0) (UIn 1)) = Err IllFormed.
Proof. vm_compute. reflexivity. Qed.
Print Assumptions C60_division_refuted.

(** ** C61: motions of the conformal algebra *)
(** versors that are inputs: translators, ... *)
(** 1 and e_i ni *)
Definition cga_translator : list N := [0; 17; 18; 20]%N.
Theorem C61_translation md t p : exists e, compute_one md cga_m true [cga_point_ie; construct_ie cga_translator] [coords p; [1; - (cx t / 2); - (cy t / 2); - (cz t / 2)]] (USandwich (UIn 0) (UIn 1)) = Ok [e] /\
  at_point e (vplus p t).
Proof.
  destruct p as [x y z], t as [a b c]. eexists. split; [destruct md; cbv -[IZR]; reflexivity|]. split; [reflexivity|]. unfold dot, vplus. cbn [cx cy cz map snd]. repeat (apply cons_eq; [field|]). reflexivity.
Qed.
Print Assumptions C61_translation.
(** ... rotors, ... *)
Theorem C61_rotation md t n p : unit_vec n -> exists e, compute_one md cga_m true [cga_point_ie; construct_ie cga_rotor] [coords p; cga_rotor_of t n] (USandwich (UIn 0) (UIn 1)) = Ok [e] /\
  at_point e (rotate t n p).
Proof.
  intros U1. rewrite <- (turned_rotate t n p U1). pose proof (turn_unit t n U1) as H1. unfold cga_rotor_of. set (c1 := cos _) in *. set (s1 := sin _) in *. clearbody c1 s1. clear U1.
  unfold at_point. rewrite !turned_dot, H1. destruct p as [a b c], n as [x1 y1 z1]. unfold dot in H1. cbn [cx cy cz] in H1.
  eexists. split; [destruct md; vm_compute; reflexivity|]. split; [reflexivity|]. cbn [map snd]. change (R1 + R1) with 2. change R1 with 1. unfold turned, dot, vplus, vtimes, cross. cbn [cx cy cz].
  do 3 (apply cons_eq; [ring|]). apply cons_eq; [|apply cons_eq; [|reflexivity]].
  - transitivity (c1 * c1 + s1 * s1 * (x1 * x1 + y1 * y1 + z1 * z1)); [ring|exact H1].
  - transitivity ((c1 * c1 + s1 * s1 * (x1 * x1 + y1 * y1 + z1 * z1)) * ((a * a + b * b + c * c) / 2)); [field|rewrite H1; field].
Qed.
Print Assumptions C61_rotation.
(** ... and dilators, whose image has a weight *)
Theorem C61_dilation md k p : exists e, compute_one md cga_m true [cga_point_ie; construct_ie [0; 24]%N] [coords p; [1; k]] (USandwich (UIn 0) (UIn 1)) = Ok [e] /\ map fst e = [1; 2; 4; 8; 16]%N /\
  (k <> 1 -> exists w q, w <> 0 /\ q = vtimes ((1 + k) / (1 - k)) p /\ map snd e = [w * cx q; w * cy q; w * cz q; w; w * (dot q q / 2)]).
Proof.
  destruct p as [x y z]. eexists. split; [destruct md; cbv -[IZR]; reflexivity|]. split; [reflexivity|]. intros K. exists ((1 - k) * (1 - k)). eexists. split; [|split; [reflexivity|]].
  - intros H. apply Rmult_integral in H. destruct H; lra.
  - unfold dot, vtimes. cbn [cx cy cz map snd]. repeat (apply cons_eq; [field; lra|]). reflexivity.
Qed.
Print Assumptions C61_dilation.
(** the weight is ignored when the result becomes a point *)
Theorem C61_weight_refuted : exists k e l, k <> 1 /\ compute_one Code cga_m true [cga_point_ie; construct_ie [0; 24]%N] [[1; 0; 0]; [1; k]] (USandwich (UIn 0) (UIn 1)) = Ok [e] /\
  selects 5 e cga_point = Ok l /\ nth_error l 0 <> Some ((1 + k) / (1 - k) * 1).
Proof.
  exists (1 / 2). eexists. eexists. split; [lra|]. split; [cbv -[IZR]; reflexivity|]. split; [cbv -[IZR]; reflexivity|]. intros H. injection H. lra.
Qed.
Print Assumptions C61_weight_refuted.
(** where a point is with respect to the sphere with the centre c and the square r2 of the radius *)
Theorem C61_sphere md c r2 p : exists e, compute_one md cga_m true [cga_point_ie; construct_ie [1; 2; 4; 8; 16]%N] [coords p; [cx c; cy c; cz c; 1; dot c c / 2 - r2 / 2]] (ULc (UIn 0) (UIn 1)) = Ok [e] /\
  map fst e = [0%N] /\ map snd e = [(r2 - dist2 p c) / 2].
Proof.
  destruct c as [a b d], p as [x y z]. eexists. split; [destruct md; cbv -[IZR]; reflexivity|]. split; [reflexivity|]. unfold dist2, dot, vminus. cbn [cx cy cz map snd]. apply cons_eq; [field|reflexivity].
Qed.
Print Assumptions C61_sphere.
(** three points and the point at infinity (an input, see C39): all components vanish if and only if
    the points are on a line; four points: the component is minus the volume they span *)
Theorem C61_collinear md p q r : exists e, compute_one md cga_m true [cga_point_ie; cga_point_ie; cga_point_ie; construct_ie [16]%N] [coords p; coords q; coords r; [1]] (UEp (UEp (UEp (UIn 0) (UIn 1)) (UIn 2)) (UIn 3)) = Ok [e] /\
  ((forall b, entity_val e b = 0) <-> cross (vminus q p) (vminus r p) = mkvec 0 0 0).
Proof.
  destruct p as [x y z], q as [a b c], r as [u v w]. eexists. split; [destruct md; vm_compute; reflexivity|]. change R1 with 1. unfold cross, vminus. cbn [cx cy cz]. split.
  - intros H. pose proof (H 27%N) as H1. pose proof (H 29%N) as H2. pose proof (H 30%N) as H3. unfold entity_val, Rsum in H1, H2, H3. cbn in H1, H2, H3. clear H. f_equal; nsatz.
  - intros H. injection H as H1 H2 H3. assert (HD : x * (b * w - c * v) + y * (c * u - a * w) + z * (a * v - b * u) = 0) by nsatz.
    intros e. unfold entity_val, Rsum. cbn [map fst snd fold_right]. repeat match goal with |- context [N.eqb ?i e] => destruct (N.eqb_spec i e); subst; try discriminate end; cbn [N.eqb]; try lra; nsatz.
Qed.
Print Assumptions C61_collinear.
Theorem C61_coplanar md p q r s : exists e, compute_one md cga_m true [cga_point_ie; cga_point_ie; cga_point_ie; cga_point_ie; construct_ie [16]%N] [coords p; coords q; coords r; coords s; [1]]
    (UEp (UEp (UEp (UEp (UIn 0) (UIn 1)) (UIn 2)) (UIn 3)) (UIn 4)) = Ok [e] /\ map fst e = [31%N] /\ map snd e = [- det3 (vminus q p) (vminus r p) (vminus s p)].
Proof.
  destruct p as [x y z], q as [a b c], r as [u v w], s as [l m n]. eexists. split; [destruct md; vm_compute; reflexivity|]. split; [reflexivity|]. change R1 with 1. unfold det3, cross, dot, vminus. cbn [cx cy cz map snd]. apply cons_eq; [ring|reflexivity].
Qed.
Print Assumptions C61_coplanar.
Example C61_ex : cross (vminus (mkvec 1 1 1) (mkvec 0 0 0)) (vminus (mkvec 2 2 2) (mkvec 0 0 0)) = mkvec 0 0 0 /\ det3 (mkvec 1 0 0) (mkvec 0 1 0) (mkvec 0 0 1) = 1 /\ unit_vec (mkvec 0 0 1).
Proof. unfold unit_vec, det3, cross, dot, vminus. cbn [cx cy cz]. split; [f_equal; ring|split; ring]. Qed.
