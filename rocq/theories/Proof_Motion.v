(** Exponential, normalization and logarithm of motors, through compute. *)
From Coq Require Import ZArith NArith List Bool Arith Reals Lia Lra Nsatz FunctionalExtensionality.
From Verif Require Import Base Model_Numeric Model_Blade Model_MV Model_Expr Model_Dfa Model_Reshape Model_Engine Model_Entity Spec_Clifford Spec_Basis Spec_MV Spec_Expr Spec_Build Model_Compute Model_Geometry
  Spec_Engine Spec_Entity Spec_Geometry Proof_Geometry.
Import ListNotations.
Local Open Scope list_scope.
Local Open Scope R_scope.

Lemma sqrt_facts q : 0 < q -> 0 < sqrt q /\ sqrt q * sqrt q = q.
Proof. intros H. split; [now apply sqrt_lt_R0|apply sqrt_sqrt; lra]. Qed.
(** the bivector with these components is the screw u + v I about a normalized line *)
Section Decompose.
Variables b3 b5 b6 b9 b10 b12 : R.
Hypothesis POS : 0 < b6 * b6 + b10 * b10 + b12 * b12.
Let u := sqrt (b6 * b6 + b10 * b10 + b12 * b12).
Let v := - ((b3 * b12 - b5 * b10 + b9 * b6) / u).
Let w := v / (u * u).
Lemma u_pos : 0 < u.
Proof. now apply sqrt_facts. Qed.
Lemma u_sq : u * u = b6 * b6 + b10 * b10 + b12 * b12.
Proof. now apply sqrt_facts. Qed.
Lemma decompose_unit : unit_line (b3 / u + w * b12) (b5 / u - w * b10) (b6 / u) (b9 / u + w * b6) (b10 / u) (b12 / u).
Proof.
  pose proof u_pos as P. pose proof u_sq as Q. unfold unit_line, w, v, Rdiv.
  assert (I : u * / u = 1) by (field; lra). rewrite Rinv_mult. set (i := / u) in *. clearbody i. split; nsatz.
Qed.
Lemma decompose_log : screw_log u v (b3 / u + w * b12) (b5 / u - w * b10) (b6 / u) (b9 / u + w * b6) (b10 / u) (b12 / u) = combine [3; 5; 6; 9; 10; 12]%N [b3; b5; b6; b9; b10; b12].
Proof. pose proof u_pos as P. unfold screw_log, w. cbn [combine]. repeat f_equal; field; lra. Qed.
End Decompose.
Definition decompose (b3 b5 b6 b9 b10 b12 : R) (E : entity) : Prop :=
  let u := sqrt (b6 * b6 + b10 * b10 + b12 * b12) in let v := - ((b3 * b12 - b5 * b10 + b9 * b6) / u) in let w := v / (u * u) in
  entity_val E = entity_val (screw_motor u v (b3 / u + w * b12) (b5 / u - w * b10) (b6 / u) (b9 / u + w * b6) (b10 / u) (b12 / u)).
Lemma exp_decompose b3 b5 b6 b9 b10 b12 E : 0 < b6 * b6 + b10 * b10 + b12 * b12 -> decompose b3 b5 b6 b9 b10 b12 E ->
  is_exp pga_m (on_blades [3; 5; 6; 9; 10; 12]%N [b3; b5; b6; b9; b10; b12]) (entity_val E).
Proof.
  intros P D. unfold decompose in D. cbv zeta in D. rewrite D. unfold on_blades. rewrite <- (decompose_log b3 b5 b6 b9 b10 b12 P). apply screw_exp. now apply decompose_unit.
Qed.
Definition bivector : list N := [3; 5; 6; 9; 10; 12]%N.
Theorem exp_bivector md b3 b5 b6 b9 b10 b12 : 0 < b6 * b6 + b10 * b10 + b12 * b12 ->
  exists e, compute_exp md pga_m false [construct_ie bivector] [[b3; b5; b6; b9; b10; b12]] (UIn 0) = Ok [e] /\ is_exp pga_m (on_blades bivector [b3; b5; b6; b9; b10; b12]) (entity_val e).
Proof.
  intros P. eexists. split; [destruct md; cbv -[IZR sqrt sin cos]; reflexivity|]. apply exp_decompose; [exact P|]. unfold decompose. cbv zeta.
  match goal with |- context[sqrt (-1 * ?x)] => replace (-1 * x) with (b6 * b6 + b10 * b10 + b12 * b12) by ring; replace x with (- (b6 * b6 + b10 * b10 + b12 * b12)) by ring end.
  destruct (sqrt_facts _ P) as [U Q]. set (u := sqrt _) in *. clearbody u. rewrite <- Q. apply (val_ext 4); [reflexivity..|].
  each_blade; try ring; field; lra.
Qed.
Theorem exp_line md dx dy dz mx my mz : 0 < dx * dx + dy * dy + dz * dz ->
  exists e, compute_exp md pga_m false [pga_line_ie] [[dx; dy; dz; mx; my; mz]] (UIn 0) = Ok [e] /\ is_exp pga_m (line_v dx dy dz mx my mz) (entity_val e).
Proof.
  intros P. eexists. split; [destruct md; cbv -[IZR sqrt sin cos]; reflexivity|]. apply exp_decompose; [lra|]. unfold decompose. cbv zeta.
  match goal with |- context[sqrt (-1 * ?x)] => replace (-1 * x) with (dx * dx + dy * dy + dz * dz) by ring; replace x with (- (dx * dx + dy * dy + dz * dz)) by ring end.
  replace (- dz * - dz + dy * dy + - dx * - dx) with (dx * dx + dy * dy + dz * dz) by ring.
  destruct (sqrt_facts _ P) as [U Q]. set (u := sqrt _) in *. clearbody u. rewrite <- Q. apply (val_ext 4); [reflexivity..|].
  each_blade; try ring; field; lra.
Qed.
(** the rotors of space *)
Theorem exp_vga md b3 b5 b6 : 0 < b3 * b3 + b5 * b5 + b6 * b6 ->
  exists e, compute_exp md vga_m false [construct_ie [3; 5; 6]%N] [[b3; b5; b6]] (UIn 0) = Ok [e] /\ is_exp vga_m (on_blades [3; 5; 6]%N [b3; b5; b6]) (entity_val e).
Proof.
  intros P. eexists. split; [destruct md; cbv -[IZR sqrt sin cos]; reflexivity|].
  match goal with |- context[sqrt (-1 * ?x)] => replace (-1 * x) with (b3 * b3 + b5 * b5 + b6 * b6) by ring end.
  destruct (sqrt_facts _ P) as [U Q]. set (u := sqrt _) in *. clearbody u.
  match goal with |- is_exp _ ?B (entity_val ?E) => replace (entity_val E) with (entity_val (flow (combine [0; 3; 5; 6]%N [(1, 0, 0, 0); (0, b3 / u, 0, 0); (0, b5 / u, 0, 0); (0, b6 / u, 0, 0)]) u 1)) end.
  2:{ apply (val_ext 3); [reflexivity..|]. each_blade; unfold wave; rewrite ?Rmult_1_r; try ring; field; lra. }
  apply exp_flow; [reflexivity..| | |].
  - rewrite delta_val. apply (val_ext 3); [reflexivity..|]. each_blade; unfold wave; rewrite ?Rmult_0_r, ?cos_0, ?sin_0; ring.
  - intros t. each_blade. all: unfold wave; set (C := cos (u * t)); set (S0 := sin (u * t)); clearbody C S0. all: assert (I : u * / u = 1) by (field; lra). all: set (i := / u) in *; clearbody i. all: clear - Q I; nsatz.
  - intros t. reflexivity.
Qed.
(** ** Normalization *)
Definition motor8 (d0 d1 d2 d3 d4 d5 d6 d7 : R) : list R := [d0; d1; d2; d3; d4; d5; d6; d7].
Lemma fdiv_ok a b : b <> 0 -> fdiv a b = Ok (a / b).
Proof. intros H. unfold fdiv. destruct (Req_EM_T b 0); [contradiction|reflexivity]. Qed.
Definition norm2 (d0 d3 d5 d6 : R) : R := d0 * d0 + d3 * d3 + d5 * d5 + d6 * d6.
Definition norm4 (d0 d1 d2 d3 d4 d5 d6 d7 : R) : R := 2 * (d0 * d7 - d1 * d6 + d2 * d5 - d3 * d4).
Lemma motor_square md d0 d1 d2 d3 d4 d5 d6 d7 : compute_one md pga_m false [motor_ie] [motor8 d0 d1 d2 d3 d4 d5 d6 d7] (UGp (UIn 0) (URev (UIn 0))) =
  Ok [[(0%N, norm2 d0 d3 d5 d6); (15%N, norm4 d0 d1 d2 d3 d4 d5 d6 d7)]].
Proof.
  assert (G : forall a a' b b' : R, a = a' -> b = b' -> Ok [[(0%N, a); (15%N, b)]] = Ok [[(0%N, a'); (15%N, b')]]) by (intros; subst; reflexivity).
  destruct md; cbv -[IZR norm2 norm4]; apply G; unfold norm2, norm4; ring.
Qed.
(** the product with a + b I *)
Definition study (d0 d1 d2 d3 d4 d5 d6 d7 a b : R) : list R :=
  motor8 (d0 * a) (d1 * a - d6 * b) (d2 * a + d5 * b) (d3 * a) (d4 * a - d3 * b) (d5 * a) (d6 * a) (d7 * a + d0 * b).
Lemma motor_scale md d0 d1 d2 d3 d4 d5 d6 d7 a b :
  exists e, compute_one md pga_m false [motor_ie; construct_ie [0; 15]%N] [motor8 d0 d1 d2 d3 d4 d5 d6 d7; [a; b]] (UGp (UIn 0) (UIn 1)) = Ok [e] /\
    selects 4 e pga_motor = Ok (study d0 d1 d2 d3 d4 d5 d6 d7 a b).
Proof.
  eexists. split; [destruct md; cbv -[IZR]; reflexivity|]. cbv -[IZR]. 
  assert (G : forall l l' : list R, l = l' -> Ok l = Ok l') by (intros; subst; reflexivity). apply G.
  repeat (apply f_equal2; [ring|]). reflexivity.
Qed.
Lemma study_value d0 d1 d2 d3 d4 d5 d6 d7 a b : on_blades pga_motor (study d0 d1 d2 d3 d4 d5 d6 d7 a b) =
  vprod pga_m Geometric (on_blades pga_motor (motor8 d0 d1 d2 d3 d4 d5 d6 d7)) (on_blades [0; 15]%N [a; b]).
Proof. unfold on_blades. rewrite prod_val by reflexivity. apply (val_ext 4); [reflexivity..|]. each_blade; ring. Qed.
Theorem motor_normalize_value md d0 d1 d2 d3 d4 d5 d6 d7 : 0 < norm2 d0 d3 d5 d6 ->
  exists r, motor_normalize md (motor8 d0 d1 d2 d3 d4 d5 d6 d7) = Ok r /\
    vprod pga_m Geometric (on_blades pga_motor r) (vrev (on_blades pga_motor r)) = delta 0 /\
    on_blades pga_motor r = vprod pga_m Geometric (on_blades pga_motor (motor8 d0 d1 d2 d3 d4 d5 d6 d7))
      (on_blades [0; 15]%N [/ sqrt (norm2 d0 d3 d5 d6); - (norm4 d0 d1 d2 d3 d4 d5 d6 d7 / (2 * sqrt (norm2 d0 d3 d5 d6) * norm2 d0 d3 d5 d6))]).
Proof.
  intros P. unfold motor_normalize. rewrite motor_square. cbn [single bind get nth_error map snd fst].
  destruct (sqrt_facts _ P) as [U Q]. set (u := sqrt _) in *. clearbody u.
  rewrite !fdiv_ok by (apply Rgt_not_eq; try lra; repeat apply Rmult_lt_0_compat; lra).
  cbn [bind set length upd Nat.ltb Nat.leb]. destruct (motor_scale md d0 d1 d2 d3 d4 d5 d6 d7 (1 / u) (- norm4 d0 d1 d2 d3 d4 d5 d6 d7 / (2 * u * norm2 d0 d3 d5 d6))) as (e & E1 & E2).
  rewrite E1. cbn [single bind get nth_error]. rewrite E2. eexists. split; [reflexivity|]. split.
  - unfold on_blades. rewrite rev_val, prod_val by reflexivity. rewrite delta_val. apply (val_ext 4); [reflexivity..|]. unfold norm4. rewrite <- Q. unfold norm2 in Q.
    each_blade; try ring; unfold Rminus, Rdiv in *; rewrite ?Rinv_mult; assert (I : u * / u = 1) by (field; lra); assert (I2 : 2 * / 2 = 1) by field; set (i := / u) in *; set (h := / 2) in *; clearbody i h; clear - Q I I2; nsatz.
  - rewrite study_value. do 2 f_equal. f_equal; [field; lra|]. f_equal. field. lra.
Qed.
(** ** Logarithm *)
Lemma atan2_right y x : x * x + y * y = 1 -> cos (atan2 y x) = x /\ sin (atan2 y x) = y.
Proof.
  intros H. unfold atan2.
  assert (A : x <> 0 -> sqrt (1 + Rsqr (y / x)) = / Rabs x).
  { intros N. replace (1 + Rsqr (y / x)) with (/ Rsqr x).
    - rewrite sqrt_inv. now rewrite sqrt_Rsqr_abs.
    - unfold Rsqr. apply Rmult_eq_reg_r with (x * x); [|now apply Rmult_integral_contrapositive_currified]. field_simplify; [lra|assumption|assumption]. }
  destruct (Rlt_dec 0 x) as [X|X]; [|destruct (Rlt_dec x 0) as [Y|Y]].
  - rewrite cos_atan, sin_atan, A, Rabs_right by lra. split; field; lra.
  - rewrite Rabs_left in A by lra. assert (C : cos (atan (y / x)) = - x) by (rewrite cos_atan, A by lra; field; lra).
    assert (D : sin (atan (y / x)) = - y) by (rewrite sin_atan, A by lra; field; lra).
    destruct (Rle_dec 0 y).
    + rewrite neg_cos, neg_sin, C, D. lra.
    + unfold Rminus. rewrite <- (cos_neg (atan (y / x) + - PI)), <- (Ropp_involutive (sin (atan (y / x) + - PI))), <- sin_neg.
      replace (- (atan (y / x) + - PI)) with (- atan (y / x) + PI) by ring. rewrite neg_cos, neg_sin, cos_neg, sin_neg, C, D. lra.
  - assert (X0 : x = 0) by lra. subst x. assert (Y2 : (y - 1) * (y + 1) = 0) by lra. apply Rmult_integral in Y2. destruct (Rlt_dec 0 y).
    + rewrite cos_PI2, sin_PI2. lra.
    + destruct (Rlt_dec y 0); [|lra]. rewrite cos_neg, sin_neg, cos_PI2, sin_PI2. lra.
Qed.
Lemma line_square md b3 b5 b6 b9 b10 b12 :
  exists e, compute_one md pga_m false [construct_ie bivector] [[b3; b5; b6; b9; b10; b12]] (UAdd (USip (UIn 0) (UIn 0)) (UEp (UIn 0) (UIn 0))) = Ok [e] /\
    select 4 e 0 = Ok (- (b6 * b6 + b10 * b10 + b12 * b12)) /\ select 4 e 15 = Ok (2 * (b3 * b12 - b5 * b10 + b9 * b6)).
Proof.
  assert (G : forall l l' : R, l = l' -> Ok l = Ok l') by (intros; subst; reflexivity).
  eexists. split; [destruct md; cbv -[IZR]; reflexivity|]. split; cbv -[IZR]; apply G; ring.
Qed.
Lemma log_product md u v b3 b5 b6 b9 b10 b12 i j :
  exists e, compute_one md pga_m false [scalar_ie; scalar_ie; construct_ie bivector; construct_ie [0; 15]%N] [[u]; [v]; [b3; b5; b6; b9; b10; b12]; [i; j]]
    (UGp (UGp (UAdd (UIn 0) (UGp (UIn 1) (UBlade 15 1))) (UIn 2)) (UIn 3)) = Ok [e] /\
    entity_val e = entity_val (screw_log u v (i * b3 - j * b12) (i * b5 + j * b10) (i * b6) (i * b9 - j * b6) (i * b10) (i * b12)).
Proof.
  eexists. split; [destruct md; cbv -[IZR]; reflexivity|]. apply (val_ext 4); [reflexivity..|]. each_blade; ring.
Qed.
Lemma atan2_scale k y x : 0 < k -> atan2 (k * y) (k * x) = atan2 y x.
Proof.
  intros K. assert (S : forall z, (0 < k * z <-> 0 < z) /\ (k * z < 0 <-> z < 0)).
  { intros z. assert (E : z = / k * (k * z)) by (field; lra). assert (I : 0 < / k) by now apply Rinv_0_lt_compat.
    split; split; intros H.
    - rewrite E. now apply Rmult_lt_0_compat.
    - now apply Rmult_lt_0_compat.
    - rewrite E. rewrite <- (Rmult_0_r (/ k)). now apply Rmult_lt_compat_l.
    - rewrite <- (Rmult_0_r k). now apply Rmult_lt_compat_l. }
  destruct (S x) as [S1 S2]. destruct (S y) as [S3 S4]. assert (Q : x <> 0 -> k * y / (k * x) = y / x) by (intros N; field; lra). unfold atan2.
  destruct (Rlt_dec 0 (k * x)), (Rlt_dec 0 x); try tauto; [rewrite Q by lra; reflexivity|].
  destruct (Rlt_dec (k * x) 0), (Rlt_dec x 0); try tauto.
  - rewrite Q by lra. destruct (Rle_dec 0 (k * y)), (Rle_dec 0 y); try reflexivity; lra.
  - destruct (Rlt_dec 0 (k * y)), (Rlt_dec 0 y); try tauto. destruct (Rlt_dec (k * y) 0), (Rlt_dec y 0); tauto.
Qed.
Section Log.
Variables d0 d1 d2 d3 d4 d5 d6 d7 : R.
Hypothesis N2 : norm2 d0 d3 d5 d6 = 1.
Hypothesis N4 : norm4 d0 d1 d2 d3 d4 d5 d6 d7 = 0.
Hypothesis TURN : 0 < d3 * d3 + d5 * d5 + d6 * d6.
Let m := motor8 d0 d1 d2 d3 d4 d5 d6 d7.
Let s2 := sqrt (d3 * d3 + d5 * d5 + d6 * d6).
Let p2 := - (d1 * d6 - d2 * d5 + d4 * d3) / s2.
Lemma s2_pos : 0 < s2. Proof. now apply sqrt_facts. Qed.
Lemma s2_sq : s2 * s2 = d3 * d3 + d5 * d5 + d6 * d6. Proof. now apply sqrt_facts. Qed.
Definition log_u : R := if Rlt_dec (Rabs d0) (1 / 1000000) then atan2 (- d7) p2 else atan2 s2 d0.
Definition log_v : R := if Rlt_dec (Rabs d0) (1 / 1000000) then - d7 / s2 else p2 / d0.
Let j := - (p2 / (s2 * s2)).
Lemma log_run md : exists e, motor_log md m = Ok e /\
  entity_val e = entity_val (screw_log log_u log_v (/ s2 * d1 - j * d6) (/ s2 * d2 + j * d5) (/ s2 * d3) (/ s2 * d4 - j * d3) (/ s2 * d5) (/ s2 * d6)).
Proof.
  clear N2 N4. pose proof s2_pos as P. pose proof s2_sq as Q. unfold motor_log, m, motor8. unfold pga_motor_bivector, slice.
  cbn [get nth_error bind length Nat.leb Nat.add firstn skipn combine map fst snd].
  destruct (line_square md d1 d2 d3 d4 d5 d6) as (l2 & E & S0 & S4). unfold bivector in E. rewrite E. cbn [single bind get nth_error]. rewrite S0. cbn [bind].
  rewrite Ropp_involutive. fold s2. rewrite S4. cbn [bind]. rewrite fdiv_ok by lra. cbn [bind]. rewrite fdiv_ok by lra. cbn [bind]. rewrite fdiv_ok by lra. cbn [bind].
  assert (E2 : - (2 * (d1 * d6 - d2 * d5 + d4 * d3)) / (2 * s2) = p2) by (unfold p2; field; lra). rewrite E2.
  assert (E3 : p2 / - (d3 * d3 + d5 * d5 + d6 * d6) = j) by (unfold j; rewrite Q; field; lra). rewrite E3.
  replace (1 / s2) with (/ s2) by (field; lra).
  unfold log_u, log_v. destruct (Rlt_dec (Rabs d0) (1 / 1000000)) as [L|L].
  - rewrite fdiv_ok by lra. cbn [bind]. destruct (log_product md (atan2 (- d7) p2) (- d7 / s2) d1 d2 d3 d4 d5 d6 (/ s2) j) as (e & E4 & E5). unfold bivector in E4. rewrite E4. exists e. split; [reflexivity|exact E5].
  - rewrite fdiv_ok by (intros ->; rewrite Rabs_R0 in L; lra). cbn [bind].
    destruct (log_product md (atan2 s2 d0) (p2 / d0) d1 d2 d3 d4 d5 d6 (/ s2) j) as (e & E4 & E5). unfold bivector in E4. rewrite E4. exists e. split; [reflexivity|exact E5].
Qed.
Lemma log_unit : unit_line (/ s2 * d1 - j * d6) (/ s2 * d2 + j * d5) (/ s2 * d3) (/ s2 * d4 - j * d3) (/ s2 * d5) (/ s2 * d6).
Proof.
  pose proof s2_pos as P. pose proof s2_sq as Q. unfold unit_line, j, p2, Rdiv. assert (I : s2 * / s2 = 1) by (field; lra). rewrite Rinv_mult. set (i := / s2) in *. clearbody i. clear P. clearbody s2. split; nsatz.
Qed.
(** the components of the screw motor, when the angle and the pitch are right *)
Lemma screw_value k u v : k * k = 1 -> cos u = k * d0 -> sin u = k * s2 -> v * d0 = p2 -> v * s2 = - d7 ->
  screw_motor u v (/ s2 * d1 - j * d6) (/ s2 * d2 + j * d5) (/ s2 * d3) (/ s2 * d4 - j * d3) (/ s2 * d5) (/ s2 * d6) = combine pga_motor (map (Rmult k) m).
Proof.
  intros K C S V1 V2. pose proof s2_pos as P. assert (I : s2 * / s2 = 1) by (field; lra). unfold screw_motor, m, motor8. rewrite C, S.
  assert (J : j = - (p2 * (/ s2 * / s2))) by (unfold j, Rdiv; rewrite Rinv_mult; reflexivity).
  set (i := / s2) in *. clearbody i. clear - I K V1 V2 J. clearbody j p2 s2. f_equal. cbn [map].
  assert (G : forall (a b : R) l l', a = b -> l = l' -> a :: l = b :: l') by (intros; subst; reflexivity).
  repeat (apply G; [clear - I K V1 V2 J; nsatz|]). reflexivity.
Qed.
(** the motor with the sign [k] *)
Lemma log_right md k : k * k = 1 -> cos log_u = k * d0 -> sin log_u = k * s2 -> log_v * d0 = p2 -> log_v * s2 = - d7 ->
  exists e, motor_log md m = Ok e /\ is_exp pga_m (entity_val e) (vscale k (on_blades pga_motor m)).
Proof.
  intros K C S V1 V2. destruct (log_run md) as (e & E1 & E2). exists e. split; [exact E1|]. rewrite E2.
  replace (vscale k (on_blades pga_motor m)) with (entity_val (screw_motor log_u log_v (/ s2 * d1 - j * d6) (/ s2 * d2 + j * d5) (/ s2 * d3) (/ s2 * d4 - j * d3) (/ s2 * d5) (/ s2 * d6))).
  { apply screw_exp, log_unit. }
  rewrite (screw_value k log_u log_v K C S V1 V2).
  apply functional_extensionality. intros b. unfold vscale, on_blades, m, motor8. cbn [map combine pga_motor]. rewrite !val_cons. cbn [fst snd]. change (entity_val [] b) with 0.
  repeat match goal with |- context[if ?c then _ else _] => destruct c end; ring.
Qed.
Lemma unit_circle : d0 * d0 + s2 * s2 = 1.
Proof. rewrite s2_sq. unfold norm2 in N2. lra. Qed.
Lemma real_part : p2 * s2 = - (d0 * d7).
Proof. pose proof s2_pos. unfold norm4 in N4. unfold p2. field_simplify; lra. Qed.
Lemma scale_one (w : V) : vscale 1 w = w.
Proof. apply functional_extensionality. intros b. unfold vscale. ring. Qed.
(** unless the scalar part is nearly zero *)
Lemma log_large md : 1 / 1000000 <= Rabs d0 -> exists e, motor_log md m = Ok e /\ is_exp pga_m (entity_val e) (on_blades pga_motor m).
Proof.
  intros L. pose proof s2_pos as P. pose proof unit_circle as U. pose proof real_part as Q. destruct (atan2_right s2 d0 U) as [C S].
  assert (N0 : d0 <> 0) by (intros E; rewrite E, Rabs_R0 in L; lra).
  rewrite <- (scale_one (on_blades pga_motor m)). apply log_right; unfold log_u, log_v; try (destruct (Rlt_dec (Rabs d0) (1 / 1000000)) as [H|_]; [lra|]); [lra..| |].
  - field. exact N0.
  - apply Rmult_eq_reg_r with d0; [|exact N0]. replace (p2 / d0 * s2 * d0) with (p2 * s2) by (field; exact N0). rewrite Q. ring.
Qed.
(** and when it is, unless the pseudoscalar part is zero *)
Lemma log_small md : Rabs d0 < 1 / 1000000 -> d7 <> 0 -> exists e, motor_log md m = Ok e /\ is_exp pga_m (entity_val e) (vscale (if Rlt_dec d7 0 then 1 else -1) (on_blades pga_motor m)).
Proof.
  intros L N7. pose proof s2_pos as P. pose proof unit_circle as U. pose proof real_part as Q.
  assert (P2 : p2 = - d7 / s2 * d0) by (apply Rmult_eq_reg_r with s2; [rewrite Q; field; lra|lra]).
  assert (D7 : - d7 = - d7 / s2 * s2) by (field; lra).
  set (k := if Rlt_dec d7 0 then 1 else -1).
  assert (K : k * k = 1) by (unfold k; destruct (Rlt_dec d7 0); ring).
  assert (A : atan2 (- d7) p2 = atan2 (k * s2) (k * d0)).
  { assert (H : 0 < - d7 / s2 * k).
    { unfold k. assert (I : 0 < / s2) by now apply Rinv_0_lt_compat. unfold Rdiv. destruct (Rlt_dec d7 0).
      - pose proof (Rmult_lt_0_compat (- d7) (/ s2)). lra.
      - pose proof (Rmult_lt_0_compat d7 (/ s2)). lra. }
    replace (- d7) with (- d7 / s2 * k * (k * s2)) by (rewrite D7 at 2; replace (- d7 / s2 * k * (k * s2)) with (- d7 / s2 * s2 * (k * k)) by ring; rewrite K; ring).
    replace p2 with (- d7 / s2 * k * (k * d0)) by (rewrite P2; replace (- d7 / s2 * k * (k * d0)) with (- d7 / s2 * d0 * (k * k)) by ring; rewrite K; ring).
    now apply atan2_scale. }
  destruct (atan2_right (k * s2) (k * d0)) as [C S]. { replace (k * d0 * (k * d0) + k * s2 * (k * s2)) with (k * k * (d0 * d0 + s2 * s2)) by ring. rewrite K, U. ring. }
  apply log_right; unfold log_u, log_v; try (destruct (Rlt_dec (Rabs d0) (1 / 1000000)) as [_|H]; [|lra]); [exact K|rewrite A; assumption..| |].
  - now rewrite P2.
  - now rewrite <- D7.
Qed.
(** a half turn has the wrong angle *)
Lemma log_half_turn md : Rabs d0 < 1 / 1000000 -> d7 = 0 -> exists e, motor_log md m = Ok e /\ forall b, entity_val e b = 0.
Proof.
  intros L N7. pose proof s2_pos as P. pose proof real_part as Q.
  assert (P2 : p2 = 0) by (apply Rmult_eq_reg_r with s2; [rewrite Q, N7; ring|lra]).
  destruct (log_run md) as (e & E1 & E2). exists e. split; [exact E1|]. intros b. rewrite E2. unfold log_u, log_v. destruct (Rlt_dec (Rabs d0) (1 / 1000000)) as [_|H]; [|lra].
  rewrite N7, P2. assert (A : atan2 (- 0) 0 = 0). { unfold atan2. repeat match goal with |- context[Rlt_dec ?a ?b] => destruct (Rlt_dec a b); [lra|] end. reflexivity. }
  rewrite A. unfold screw_log. cbn [combine]. rewrite !val_cons. cbn [fst snd]. change (entity_val [] b) with 0. replace (- 0 / s2) with 0 by (field; lra).
  repeat match goal with |- context[if ?c then _ else _] => destruct c end; ring.
Qed.
End Log.

(** ** The motion of points *)
(** the line through [c] with the direction [n]: its components *)
Definition axis (n c : vec) : R * R * R * R * R * R :=
  let a := cross c n in (cx a, cy a, cz n, cz a, - cy n, cx n).
Lemma axis_unit n c : unit_vec n -> let '(n3, n5, n6, n9, n10, n12) := axis n c in unit_line n3 n5 n6 n9 n10 n12.
Proof. destruct n as [x y z], c as [a b c]. unfold unit_vec, axis, dot, cross, unit_line. cbn [cx cy cz]. intros U. split; [lra|ring]. Qed.
Lemma double t : cos (-2 * t) = cos t * cos t - sin t * sin t /\ sin (-2 * t) = - (2 * sin t * cos t).
Proof. replace (-2 * t) with (- (2 * t)) by ring. rewrite cos_neg, sin_neg, cos_2a, sin_2a. now split. Qed.
Theorem screw_moves md u v n c p : unit_vec n ->
  exists e, compute_one md pga_m false [motor_ie; vga_point_ie] [(let '(n3, n5, n6, n9, n10, n12) := axis n c in map snd (screw_motor u v n3 n5 n6 n9 n10 n12)); coords p] (USandwich (UIn 1) (UIn 0)) = Ok [e] /\
    vga_point_of e = Ok (coords (screw (-2 * u) n c (vtimes (2 * v) n) p)).
Proof.
  destruct n as [x y z], c as [a b c], p as [p q r]. unfold unit_vec, axis, dot, cross, screw_motor, coords. cbn [cx cy cz combine pga_motor map snd]. intros U.
  unfold screw, rotate. destruct (double u) as [-> ->]. pose proof (sin2_cos2 u) as T. unfold Rsqr in T. set (C := cos u) in *. set (S := sin u) in *. clearbody C S.
  eexists. split; [destruct md; cbv -[IZR]; reflexivity|]. unfold vga_point_of. cbv -[IZR Rplus Rminus Rmult Ropp Rinv Rdiv].
  match goal with |- context[_ * (1 / ?q)] => replace q with 1 by (clear - U T; unfold Rminus in *; nsatz) end. replace (1 / 1) with 1 by field.
  assert (G : forall l l' : list R, l = l' -> Ok l = Ok l') by (intros; subst; reflexivity).
  assert (G1 : forall (a b : R) l l', a = b -> l = l' -> a :: l = b :: l') by (intros; subst; reflexivity).
  apply G. repeat (apply G1; [|try reflexivity]); clear - U T; unfold Rminus in *; nsatz.
Qed.
(** a direction for any vector *)
Lemma direction h : exists n k, unit_vec n /\ h = vtimes k n.
Proof.
  destruct h as [x y z]. unfold unit_vec, dot, vtimes. destruct (Req_dec (x * x + y * y + z * z) 0) as [E|E].
  - exists (mkvec 1 0 0), 0. cbn [cx cy cz]. split; [ring|]. assert (x = 0 /\ y = 0 /\ z = 0) as (-> & -> & ->) by (repeat split; nra). f_equal; ring.
  - assert (P : 0 < x * x + y * y + z * z) by nra. destruct (sqrt_facts _ P) as [S Q]. set (s := sqrt _) in *. clearbody s.
    exists (mkvec (x / s) (y / s) (z / s)), s. cbn [cx cy cz]. split.
    + replace (x / s * (x / s) + y / s * (y / s) + z / s * (z / s)) with ((x * x + y * y + z * z) / (s * s)) by (field; lra). rewrite <- Q. field. lra.
    + f_equal; field; lra.
Qed.
(** every normalized motor is a screw motion *)
Theorem motor_moves md d0 d1 d2 d3 d4 d5 d6 d7 : norm2 d0 d3 d5 d6 = 1 -> norm4 d0 d1 d2 d3 d4 d5 d6 d7 = 0 ->
  exists t n c k, unit_vec n /\ forall p, exists e, compute_one md pga_m false [motor_ie; vga_point_ie] [motor8 d0 d1 d2 d3 d4 d5 d6 d7; coords p] (USandwich (UIn 1) (UIn 0)) = Ok [e] /\
    vga_point_of e = Ok (coords (screw t n c (vtimes k n) p)).
Proof.
  intros N2 N4. destruct (Req_dec (d3 * d3 + d5 * d5 + d6 * d6) 0) as [E|E].
  - assert (d3 = 0 /\ d5 = 0 /\ d6 = 0) as (-> & -> & ->) by (repeat split; nra). unfold norm2, norm4 in *. assert (D : d0 * d0 = 1) by lra. assert (D7 : d7 = 0) by nra.
    destruct (direction (mkvec (-2 * (d0 * d1)) (-2 * (d0 * d2)) (-2 * (d0 * d4)))) as (n & k & U & H). exists 0, n, (mkvec 0 0 0), k. split; [exact U|]. rewrite <- H. subst d7. clear H U.
    intros [p q r]. unfold screw, rotate. rewrite cos_0, sin_0. unfold coords, motor8. cbn [cx cy cz]. eexists. split; [destruct md; cbv -[IZR]; reflexivity|]. unfold vga_point_of. cbv -[IZR Rplus Rminus Rmult Ropp Rinv Rdiv cross dot].
    match goal with |- context[_ * (1 / ?q)] => replace q with 1 by (clear - D; unfold Rminus in *; nsatz) end. replace (1 / 1) with 1 by field.
    assert (G : forall l l' : list R, l = l' -> Ok l = Ok l') by (intros; subst; reflexivity).
    assert (G1 : forall (a b : R) l l', a = b -> l = l' -> a :: l = b :: l') by (intros; subst; reflexivity).
    apply G. repeat (apply G1; [|try reflexivity]); clear - D; destruct n as [x y z]; unfold cross, dot; cbn [cx cy cz]; unfold Rminus in *; nsatz.
  - assert (P : 0 < d3 * d3 + d5 * d5 + d6 * d6) by nra.
    pose proof (log_unit d1 d2 d3 d4 d5 d6 P) as U.
    pose proof (fun u v => screw_value d0 d1 d2 d3 d4 d5 d6 d7 P 1 u v) as W. cbv zeta in U, W.
    pose proof (unit_circle d0 d3 d5 d6 N2 P) as UC. pose proof (real_part d0 d1 d2 d3 d4 d5 d6 d7 N4 P) as RP. destruct (sqrt_facts _ P) as [S0 S1].
    set (s2 := sqrt (d3 * d3 + d5 * d5 + d6 * d6)) in *. destruct (atan2_right s2 d0 UC) as [C S].
    match type of U with unit_line ?a ?b ?c ?d ?e ?f => set (n3 := a) in *; set (n5 := b) in *; set (n6 := c) in *; set (n9 := d) in *; set (n10 := e) in *; set (n12 := f) in * end.
    specialize (W (atan2 s2 d0) (- d7 / s2)).
    assert (W' : screw_motor (atan2 s2 d0) (- d7 / s2) n3 n5 n6 n9 n10 n12 = combine pga_motor (motor8 d0 d1 d2 d3 d4 d5 d6 d7)).
    { rewrite W; [unfold motor8; cbn [map]; now rewrite !Rmult_1_l|lra..| |field; lra].
      apply Rmult_eq_reg_r with s2; [|lra]. rewrite RP. field. lra. }
    clear W. destruct U as [U1 U2]. clearbody n3 n5 n6 n9 n10 n12.
    set (n := mkvec n12 (- n10) n6). set (c := cross n (mkvec n3 n5 n9)).
    assert (UN : unit_vec n) by (unfold unit_vec, dot, n; cbn [cx cy cz]; lra).
    assert (AX : axis n c = (n3, n5, n6, n9, n10, n12)).
    { unfold axis, c, n, cross. cbn [cx cy cz]. repeat f_equal; clear - U1 U2; unfold Rminus in *; nsatz. }
    exists (-2 * atan2 s2 d0), n, c, (2 * (- d7 / s2)). split; [exact UN|]. intros p.
    pose proof (screw_moves md (atan2 s2 d0) (- d7 / s2) n c p UN) as H. rewrite AX, W' in H. exact H.
Qed.
