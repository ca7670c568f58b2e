(** C73, C74: normalization and rotors in floating point. *)
From Coq Require Import ZArith NArith List Bool Arith Reals Lia Lra.
Require Import Flocq.Core.Core.
From Verif Require Import Base Model_Numeric Model_Blade Model_MV Model_Product Model_Expr Model_Dfa Model_Engine Model_Entity Model_Geometry Model_Compute Model_Float Model_FloatGeo Spec_MV Spec_Expr Spec_Engine Spec_Float Spec_FloatGeo.
From Verif Require Import Proof_Numeric Proof_Float Proof_FloatGeo Proof_FloatMotor Proof_Motion Props_Float.
Import ListNotations.
Local Open Scope R_scope.

Lemma within_rel u n l l0 : 0 <= u -> INR n * u < 1 -> u < 1 -> Forall2 (rel u n) l l0 -> within (gamma u n) l l0.
Proof.
  intros U0 U U1 F. unfold within. induction F as [|a b l l0 A F IH]; constructor; [|exact IH]. apply (rel_abs u U0 U1) in A. eapply Rle_trans; [exact A|]. apply Rmult_le_compat_r; [apply Rabs_pos|now apply gamma_bound].
Qed.
Lemma within_same g l : 0 <= g -> within g l l.
Proof. intros G. unfold within. induction l as [|a l IH]; constructor; [|exact IH]. rewrite Rminus_diag_eq, Rabs_R0 by reflexivity. apply Rmult_le_pos; [exact G|apply Rabs_pos]. Qed.
Lemma gamma_pos u n : 0 <= u -> INR n * u < 1 -> 0 <= gamma u n.
Proof. intros U0 U. unfold gamma. apply Rmult_le_pos; [apply Rmult_le_pos; [apply pos_INR|exact U0]|]. left. apply Rinv_0_lt_compat. lra. Qed.
Lemma scaled_exact u fl x y z l : 0 <= u -> INR 5 * u < 1 -> rounds u fl -> scaled_xyzF fl x y z = Ok l ->
  x * x + y * y + z * z <> 0 /\ exists l0, scaled_xyz x y z = Ok l0 /\ within (gamma u 5) l l0 /\ Forall2 (rel u 5) l l0.
Proof.
  intros U0 U FL H. assert (U1 : u < 1) by (cbn in U; lra).
  assert (NZ : sqrt (x * x + y * y + z * z) <> 0).
  { unfold scaled_xyzF in H. minv H. minv H. apply (length_rel u U0 U1 fl FL) in E. unfold Model_Float.fdiv in E0. destruct (Req_bool_spec v 0) as [_|NV]; [discriminate|].
    intros S0. apply NV. destruct E as (e & _ & ->). rewrite S0. ring. }
  split; [intros S0; apply NZ; rewrite S0; apply sqrt_0|]. apply (scaled_rel u U0 U1 fl FL) in H. exists [x / sqrt (x * x + y * y + z * z); y / sqrt (x * x + y * y + z * z); z / sqrt (x * x + y * y + z * z)].
  split; [|split; [now apply within_rel|exact H]]. unfold scaled_xyz. rewrite fdiv_ok by exact NZ. cbn [bind]. unfold Rdiv. now rewrite !Rmult_1_l.
Qed.

(** ** Normalization *)
(** vectors, rotors and translators: what is computed without rounding, up to a relative error of about
    five times the unit roundoff in each component *)
Theorem C73_vector u fl d l : 0 <= u -> INR 5 * u < 1 -> rounds u fl -> vector_normalizeF fl d = Ok l ->
  exists l0, vector_normalize d = Ok l0 /\ within (gamma u 5) l l0.
Proof.
  intros U0 U FL H. unfold vector_normalizeF in H. unfold vector_normalize. repeat (minv H; rewrite ?E, ?E0, ?E1; cbn [bind]).
  destruct (scaled_exact u fl _ _ _ _ U0 U FL H) as (_ & l0 & E2 & W & _). exists l0. now split.
Qed.
Print Assumptions C73_vector.
Theorem C73_rotor_normalize u fl d l : 0 <= u -> INR 5 * u < 1 -> rounds u fl -> rotor_normalizeF fl d = Ok l ->
  exists l0, rotor_normalize d = Ok l0 /\ within (gamma u 5) l l0 /\ firstn 2 l = firstn 2 d.
Proof.
  intros U0 U FL H. unfold rotor_normalizeF in H. unfold rotor_normalize. do 5 minv H. minv H. rewrite E, E0, E1, E2, E3. cbn [bind].
  destruct (scaled_exact u fl _ _ _ _ U0 U FL E4) as (_ & l0 & E5 & W & _). rewrite E5. cbn [bind]. injection H as <-. eexists. split; [reflexivity|]. split.
  - pose proof (gamma_pos u 5 U0 U) as G. exact (Forall2_app (within_same (gamma u 5) [v; v0] G) W).
  - destruct d as [|a [|b d]]; try discriminate. injection E as ->. injection E0 as ->. reflexivity.
Qed.
Print Assumptions C73_rotor_normalize.
Theorem C73_translator u fl d l : 0 <= u -> INR 5 * u < 1 -> rounds u fl -> translator_normalizeF fl d = Ok l ->
  exists l0, translator_normalize d = Ok l0 /\ within (gamma u 5) l l0 /\ firstn 1 l = firstn 1 d.
Proof.
  intros U0 U FL H. unfold translator_normalizeF in H. unfold translator_normalize. do 4 minv H. minv H. rewrite E, E0, E1, E2. cbn [bind].
  destruct (scaled_exact u fl _ _ _ _ U0 U FL E3) as (_ & l0 & E5 & W & _). rewrite E5. cbn [bind]. injection H as <-. eexists. split; [reflexivity|]. split.
  - pose proof (gamma_pos u 5 U0 U) as G. exact (Forall2_app (within_same (gamma u 5) [v] G) W).
  - destruct d as [|a d]; try discriminate. injection E as ->. reflexivity.
Qed.
Print Assumptions C73_translator.
(** the length of a normalized vector is nearly one *)
Theorem C73_unit_length u fl x y z l : 0 <= u -> INR 5 * u < 1 -> rounds u fl -> vector_normalizeF fl [x; y; z] = Ok l ->
  exists a b c, l = [a; b; c] /\ Rabs (sqrt (a * a + b * b + c * c) - 1) <= gamma u 5.
Proof.
  intros U0 U FL H. assert (U1 : u < 1) by (cbn in U; lra). change (vector_normalizeF fl [x; y; z]) with (scaled_xyzF fl x y z) in H.
  destruct (scaled_exact u fl _ _ _ _ U0 U FL H) as (NZ & _). apply (scaled_rel u U0 U1 fl FL) in H.
  inversion H as [|a ? ? ? RA H1]; subst. inversion H1 as [|b ? ? ? RB H2]; subst. inversion H2 as [|c ? ? ? RC H3]; subst. inversion H3; subst. exists a, b, c. split; [reflexivity|].
  pose proof (unit_rel u x y z a b c 5 U0 U1 NZ RA RB RC) as K. apply (rel_abs u U0 U1) in K. rewrite Rabs_R1, Rmult_1_r in K. eapply Rle_trans; [exact K|]. now apply gamma_bound.
Qed.
Print Assumptions C73_unit_length.
(** normalizing again and again: the length stays as near to one as after the first time, and the direction drifts
    by at most ten units of roundoff each time *)
Fixpoint normalized_times (fl : R -> res R) (k : nat) (d : list R) : res (list R) :=
  match k with O => Ok d | S k' => l <- vector_normalizeF fl d;; normalized_times fl k' l end.
Definition direction (x y z : R) : list R := let n := sqrt (x * x + y * y + z * z) in [x / n; y / n; z / n].
Lemma repeated_rel u fl : 0 <= u -> INR 5 * u < 1 -> rounds u fl -> forall k x y z l, normalized_times fl (S k) [x; y; z] = Ok l ->
  exists a b c, l = [a; b; c] /\ rel u 5 (sqrt (a * a + b * b + c * c)) 1 /\ Forall2 (rel u (10 * k + 5)) l (direction x y z).
Proof.
  intros U0 U FL. assert (U1 : u < 1) by (cbn in U; lra).
  assert (G : forall x y z l, vector_normalizeF fl [x; y; z] = Ok l -> exists a b c, l = [a; b; c] /\ rel u 5 (sqrt (a * a + b * b + c * c)) 1 /\ Forall2 (rel u 5) l (direction x y z)).
  { intros x y z l H. change (vector_normalizeF fl [x; y; z]) with (scaled_xyzF fl x y z) in H. destruct (scaled_exact u fl _ _ _ _ U0 U FL H) as (NZ & _). apply (scaled_rel u U0 U1 fl FL) in H. pose proof H as F.
    inversion H as [|a ? ? ? RA H1]; subst. inversion H1 as [|b ? ? ? RB H2]; subst. inversion H2 as [|c ? ? ? RC H3]; subst. inversion H3; subst. exists a, b, c. split; [reflexivity|]. split; [exact (unit_rel u x y z a b c 5 U0 U1 NZ RA RB RC)|exact F]. }
  induction k as [|k IH]; intros x y z l H.
  - cbn [normalized_times] in H. minv H. injection H as <-. exact (G _ _ _ _ E).
  - change (normalized_times fl (S (S k)) [x; y; z]) with (l1 <- vector_normalizeF fl [x; y; z];; normalized_times fl (S k) l1) in H. minv H.
    destruct (G _ _ _ _ E) as (a & b & c & -> & L & F). destruct (IH a b c l H) as (a' & b' & c' & -> & L' & F'). exists a', b', c'. split; [reflexivity|]. split; [exact L'|].
    assert (S : forall r v w, rel u (10 * k + 5) r (v / sqrt (a * a + b * b + c * c)) -> rel u 5 v w -> rel u (10 * S k + 5) r w).
    { intros r v w A B. replace (10 * S k + 5)%nat with (10 * k + 5 + (5 + 5))%nat by lia. apply (rel_trans u U1 _ _ _ _ _ A). replace w with (w * / 1) by field. apply (rel_mul u U1 5 5); [exact B|]. now apply (rel_inv u U1). }
    unfold direction in F, F' |- *. cbv zeta in F, F' |- *.
    inversion F as [|? ? ? ? A1 F1]; subst. inversion F1 as [|? ? ? ? A2 F2]; subst. inversion F2 as [|? ? ? ? A3 F3]; subst.
    inversion F' as [|? ? ? ? B1 G1]; subst. inversion G1 as [|? ? ? ? B2 G2]; subst. inversion G2 as [|? ? ? ? B3 G3]; subst.
    constructor; [exact (S _ _ _ B1 A1)|]. constructor; [exact (S _ _ _ B2 A2)|]. constructor; [exact (S _ _ _ B3 A3)|constructor].
Qed.
Theorem C73_repeated u fl k x y z l : 0 <= u -> INR (10 * k + 5) * u < 1 -> rounds u fl -> normalized_times fl (S k) [x; y; z] = Ok l ->
  exists a b c, l = [a; b; c] /\ Rabs (sqrt (a * a + b * b + c * c) - 1) <= gamma u 5 /\ within (gamma u (10 * k + 5)) l (direction x y z).
Proof.
  intros U0 U FL H. assert (U5 : INR 5 * u < 1) by (eapply Rle_lt_trans; [|exact U]; apply Rmult_le_compat_r; [exact U0|apply le_INR; lia]). assert (U1 : u < 1) by (cbn in U5; lra).
  destruct (repeated_rel u fl U0 U5 FL k x y z l H) as (a & b & c & -> & L & F). exists a, b, c. split; [reflexivity|]. split; [|now apply within_rel].
  apply (rel_abs u U0 U1) in L. rewrite Rabs_R1, Rmult_1_r in L. eapply Rle_trans; [exact L|]. now apply gamma_bound.
Qed.
Print Assumptions C73_repeated.
Lemma off_normalize x y z : x <> 0 -> exists a b c, vector_normalizeF off [x; y; z] = Ok [a; b; c] /\ a <> 0.
Proof.
  intros X. unfold vector_normalizeF, scaled_xyzF, lengthF, sqrtF, off. cbn [get nth_error bind]. set (h := 1 + / 1024). assert (H0 : 0 < h) by (unfold h; lra). clearbody h.
  set (s := ((x * x * h + y * y * h) * h + z * z * h) * h). assert (S : 0 < s).
  { assert (P : 0 < x * x * h) by (apply Rmult_lt_0_compat; [|exact H0]; now apply Rsqr_pos_lt). assert (Q : forall w, 0 <= w * w * h) by (intros w; apply Rmult_le_pos; [apply Rle_0_sqr|lra]). pose proof (Q y). pose proof (Q z).
    unfold s. apply Rmult_lt_0_compat; [|exact H0]. assert (0 < (x * x * h + y * y * h) * h) by (apply Rmult_lt_0_compat; lra). lra. }
  rewrite Rlt_bool_false by lra. cbn [bind]. apply sqrt_lt_R0 in S. unfold Model_Float.fdiv. assert (T : 0 < sqrt s * h) by now apply Rmult_lt_0_compat. rewrite Req_bool_false by lra. cbn [bind].
  do 3 eexists. split; [reflexivity|]. assert (I : 0 < 1 / (sqrt s * h) * h) by (apply Rmult_lt_0_compat; [|exact H0]; unfold Rdiv; rewrite Rmult_1_l; now apply Rinv_0_lt_compat). intros E. apply Rmult_integral in E. destruct E as [E|E]; [|lra]. apply Rmult_integral in E. destruct E as [E|E]; [exact (X E)|lra].
Qed.
Lemma off_repeated k : forall x y z, x <> 0 -> exists l, normalized_times off k [x; y; z] = Ok l.
Proof. induction k as [|k IH]; intros x y z X; [now eexists|]. destruct (off_normalize x y z X) as (a & b & c & E & A). cbn [normalized_times]. rewrite E. exact (IH a b c A). Qed.
Example C73_repeated_ex : INR (10 * 3 + 5) * / 1024 < 1 /\ rounds (/ 1024) off /\ exists l, normalized_times off 4 [3; 0; -4] = Ok l.
Proof.
  split; [rewrite INR_IZR_INZ; cbn; lra|]. split; [exact off_rounds|]. apply off_repeated. lra.
Qed.
(** normalizing succeeds for all vectors that are not zero and whose components are zero or between
    2^-510 and 2^510 in double, 2^-62 and 2^62 in float, ... *)
Theorem C74_double_range x y z : sized (-510) 510 x -> sized (-510) 510 y -> sized (-510) 510 z -> x <> 0 \/ y <> 0 \/ z <> 0 ->
  exists l, vector_normalizeF ieee_double [x; y; z] = Ok l.
Proof. exact (scaled_ok 53 (-1074) 1024 eq_refl 510 ltac:(lia) ltac:(lia) ltac:(lia) x y z). Qed.
Print Assumptions C74_double_range.
Theorem C74_single_range x y z : sized (-62) 62 x -> sized (-62) 62 y -> sized (-62) 62 z -> x <> 0 \/ y <> 0 \/ z <> 0 ->
  exists l, vector_normalizeF ieee_single [x; y; z] = Ok l.
Proof. exact (scaled_ok 24 (-149) 128 eq_refl 62 ltac:(lia) ltac:(lia) ltac:(lia) x y z). Qed.
Print Assumptions C74_single_range.
(** ... but not for all vectors that are not zero: the squares leave the range of the format *)
Theorem C74_range_refuted : exists x y, representable ieee_double x /\ x <> 0 /\ vector_normalizeF ieee_double [x; 0; 0] = Err Overflow /\
  representable ieee_double y /\ y <> 0 /\ vector_normalizeF ieee_double [y; 0; 0] = Err Overflow /\ x < 1 < y.
Proof.
  assert (PW : forall e, (-1022 <= e < 1024)%Z -> representable ieee_double (bpow radix2 e)).
  { intros e [E1 E2]. unfold representable, ieee_double, ieee. rewrite Req_bool_false by (apply Rgt_not_eq, bpow_gt_0). rewrite Rabs_pos_eq by apply bpow_ge_0. rewrite Rle_bool_true by (apply bpow_le; lia). cbv zeta.
    rewrite round_generic; [|typeclasses eauto|apply (bpow_format 53 (-1074)); lia]. rewrite Rabs_pos_eq by apply bpow_ge_0. now rewrite Rlt_bool_true by (apply bpow_lt; lia). }
  assert (SQ : forall e, bpow radix2 e * bpow radix2 e = bpow radix2 (2 * e)) by (intros e; rewrite <- bpow_plus; f_equal; lia).
  exists (bpow radix2 (-600)), (bpow radix2 600). split; [apply PW; lia|]. split; [apply Rgt_not_eq, bpow_gt_0|]. split; [|split; [apply PW; lia|split; [apply Rgt_not_eq, bpow_gt_0|split]]].
  - unfold vector_normalizeF. cbn [get nth_error bind]. unfold scaled_xyzF, lengthF. rewrite SQ. unfold ieee_double at 1. unfold ieee. rewrite Req_bool_false by (apply Rgt_not_eq, bpow_gt_0).
    rewrite Rabs_pos_eq by apply bpow_ge_0. now rewrite Rle_bool_false by (apply bpow_lt; lia).
  - unfold vector_normalizeF. cbn [get nth_error bind]. unfold scaled_xyzF, lengthF. rewrite SQ. unfold ieee_double at 1. unfold ieee. rewrite Req_bool_false by (apply Rgt_not_eq, bpow_gt_0).
    rewrite (Rabs_pos_eq (bpow _ _)) by apply bpow_ge_0. rewrite Rle_bool_true by (apply bpow_le; lia). cbv zeta. rewrite round_generic; [|typeclasses eauto|apply (bpow_format 53 (-1074)); lia].
    rewrite Rabs_pos_eq by apply bpow_ge_0. now rewrite Rlt_bool_false by (apply bpow_le; lia).
  - change 1 with (bpow radix2 0). split; apply bpow_lt; lia.
Qed.
Print Assumptions C74_range_refuted.
(** the zero vector is divided by zero *)
Theorem C74_zero prec emin emax : vector_normalizeF (ieee prec emin emax) [0; 0; 0] = Err DivZero.
Proof.
  assert (Z0 : ieee prec emin emax 0 = Ok 0) by (unfold ieee; now rewrite Req_bool_true).
  unfold vector_normalizeF. cbn [get nth_error bind]. unfold scaled_xyzF, lengthF, sqrtF. rewrite Rmult_0_l, Z0. cbn [bind]. rewrite Rplus_0_l, Z0. cbn [bind]. rewrite Rplus_0_l, Z0. cbn [bind].
  rewrite Rlt_bool_false by lra. rewrite sqrt_0, Z0. cbn [bind]. unfold Model_Float.fdiv. now rewrite Req_bool_true.
Qed.
Print Assumptions C74_zero.
(** the axes of rotors and the directions of translators: the same ranges, and the angle or the distance does not matter *)
Theorem C74_rotor_range c s x y z : sized (-510) 510 x -> sized (-510) 510 y -> sized (-510) 510 z -> x <> 0 \/ y <> 0 \/ z <> 0 ->
  exists x' y' z', rotor_normalizeF ieee_double [c; s; x; y; z] = Ok [c; s; x'; y'; z'] /\ vector_normalizeF ieee_double [x; y; z] = Ok [x'; y'; z'].
Proof.
  intros X Y Z N. destruct (C74_double_range x y z X Y Z N) as (l & H). unfold rotor_normalizeF, vector_normalizeF in *. cbn [get nth_error bind] in *. rewrite H. cbn [bind].
  unfold scaled_xyzF in H. minv H. minv H. minv H. minv H. minv H. injection H as <-. do 3 eexists. split; reflexivity.
Qed.
Print Assumptions C74_rotor_range.
Theorem C74_translator_range k x y z : sized (-510) 510 x -> sized (-510) 510 y -> sized (-510) 510 z -> x <> 0 \/ y <> 0 \/ z <> 0 ->
  exists x' y' z', translator_normalizeF ieee_double [k; x; y; z] = Ok [k; x'; y'; z'] /\ vector_normalizeF ieee_double [x; y; z] = Ok [x'; y'; z'].
Proof.
  intros X Y Z N. destruct (C74_double_range x y z X Y Z N) as (l & H). unfold translator_normalizeF, vector_normalizeF in *. cbn [get nth_error bind] in *. rewrite H. cbn [bind].
  unfold scaled_xyzF in H. minv H. minv H. minv H. minv H. minv H. injection H as <-. do 3 eexists. split; reflexivity.
Qed.
Print Assumptions C74_translator_range.
(** a rotor or a translator without a direction, and a motor without a rotation, e.g. an ideal one, are never normalized *)
Theorem C74_zero_axis prec emin emax c s k : rotor_normalizeF (ieee prec emin emax) [c; s; 0; 0; 0] = Err DivZero /\ translator_normalizeF (ieee prec emin emax) [k; 0; 0; 0] = Err DivZero.
Proof.
  pose proof (C74_zero prec emin emax) as H. unfold vector_normalizeF in H. cbn [get nth_error bind] in H. unfold rotor_normalizeF, translator_normalizeF. cbn [get nth_error bind]. rewrite H. split; reflexivity.
Qed.
Print Assumptions C74_zero_axis.
Theorem C74_ideal_motor u fl md d1 d2 d4 d7 r : 0 <= u -> INR 20 * u < 1 -> rounds u fl -> motor_normalizeF fl md [0; d1; d2; 0; d4; 0; 0; d7] <> Ok r.
Proof.
  intros U0 U FL H. assert (U1 : u < 1) by (cbn in U; lra). destruct (motor_rel u U0 U1 fl FL 0 d1 d2 0 d4 0 0 d7 md r U H) as (NP & _). lra.
Qed.
Print Assumptions C74_ideal_motor.

(** ** Rotors *)
(** the cosine and the sine stored by the constructor are those of one angle, nearly on the unit circle, ... *)
Theorem C73_rotor u fl theta x y z l : 0 <= u < 1 -> rounds u fl -> rotor_ofF fl theta x y z = Ok l ->
  exists c s h, l = [c; s; x; y; z] /\ fl (1 / 2 * theta) = Ok h /\ Rabs (c - cos h) <= u * Rabs (cos h) /\ Rabs (s - sin h) <= u * Rabs (sin h) /\
    Rabs (c * c + s * s - 1) <= 2 * u + u * u.
Proof.
  intros [U0 U1] FL H. unfold rotor_ofF in H. minv H. rename v into h. minv H. rename v into c. rewrite E in H. cbn [bind] in H. minv H. rename v into s. injection H as <-.
  exists c, s, h. split; [reflexivity|]. split; [exact E|]. destruct (FL _ _ E0) as (p & P & ->). destruct (FL _ _ E1) as (q & Q & ->).
  split; [replace (cos h * (1 + p) - cos h) with (p * cos h) by ring; rewrite Rabs_mult; apply Rmult_le_compat_r; [apply Rabs_pos|exact P]|].
  split; [replace (sin h * (1 + q) - sin h) with (q * sin h) by ring; rewrite Rabs_mult; apply Rmult_le_compat_r; [apply Rabs_pos|exact Q]|].
  pose proof (sin2_cos2 h) as SC. unfold Rsqr in SC. set (C := cos h * cos h) in *. set (S := sin h * sin h) in *.
  replace (cos h * (1 + p) * (cos h * (1 + p)) + sin h * (1 + q) * (sin h * (1 + q)) - 1) with (C * (2 * p + p * p) + S * (2 * q + q * q)) by (transitivity (cos h * (1 + p) * (cos h * (1 + p)) + sin h * (1 + q) * (sin h * (1 + q)) - (S + C)); [unfold C, S; ring|now rewrite SC]).
  assert (C0 : 0 <= C) by apply Rle_0_sqr. assert (S0 : 0 <= S) by apply Rle_0_sqr. clearbody C S. apply Rabs_le_inv in P, Q.
  assert (B : forall t, - u <= t <= u -> Rabs (2 * t + t * t) <= 2 * u + u * u) by (intros t T; apply Rabs_le; nra).
  pose proof (B p P) as BP. pose proof (B q Q) as BQ. eapply Rle_trans; [apply Rabs_triang|]. rewrite !Rabs_mult, (Rabs_pos_eq C), (Rabs_pos_eq S) by assumption. nra.
Qed.
Print Assumptions C73_rotor.
(** ... and that angle is theta / 2 if theta is a number of the format *)
Theorem C73_rotor_angle prec emin emax theta x y z l : (0 < prec)%Z -> representable (ieee prec emin emax) theta -> rotor_ofF (ieee prec emin emax) theta x y z = Ok l ->
  exists c s, l = [c; s; x; y; z] /\ within (roundoff prec) [c; s] (firstn 2 (rotor_of theta x y z)).
Proof.
  intros P R0 H. destruct (C73_rotor (roundoff prec) _ theta x y z l (under_one prec P) (C68_ieee_rounds prec emin emax P) H) as (c & s & h & -> & E & A & B & _).
  apply (half_exact prec emin emax P) in E; [|exact R0]. subst h. exists c, s. split; [reflexivity|]. constructor; [exact A|]. constructor; [exact B|constructor].
Qed.
Print Assumptions C73_rotor_angle.

(** ** Motors *)
(** the components that rotate (on 1, e12, e13, e23) are as accurate as those of a vector; the others
    have an error relative to their terms without the signs *)
Theorem C73_motor u fl md d0 d1 d2 d3 d4 d5 d6 d7 r : 0 <= u -> INR 20 * u < 1 -> rounds u fl ->
  motor_normalizeF fl md [d0; d1; d2; d3; d4; d5; d6; d7] = Ok r ->
  let n2 := d0 * d0 + d3 * d3 + d5 * d5 + d6 * d6 in
  let k := (Rabs (d0 * d7) + Rabs (d1 * d6) + Rabs (d2 * d5) + Rabs (d3 * d4)) / (sqrt n2 * n2) in
  0 < n2 /\ exists r0 r1 r2 r3 r4 r5 r6 r7 e0 e1 e2 e3 e4 e5 e6 e7,
    r = [r0; r1; r2; r3; r4; r5; r6; r7] /\ motor_normalize md [d0; d1; d2; d3; d4; d5; d6; d7] = Ok [e0; e1; e2; e3; e4; e5; e6; e7] /\
    within (gamma u 5) [r0; r3; r5; r6] [e0; e3; e5; e6] /\
    Rabs (r1 - e1) <= gamma u 20 * (Rabs d1 / sqrt n2 + Rabs d6 * k) /\ Rabs (r2 - e2) <= gamma u 20 * (Rabs d2 / sqrt n2 + Rabs d5 * k) /\
    Rabs (r4 - e4) <= gamma u 20 * (Rabs d4 / sqrt n2 + Rabs d3 * k) /\ Rabs (r7 - e7) <= gamma u 20 * (Rabs d7 / sqrt n2 + Rabs d0 * k).
Proof.
  intros U0 U FL H n2 k. assert (U1 : u < 1) by (cbn in U; lra). assert (U5 : INR 5 * u < 1) by (cbn in U |- *; lra).
  destruct (motor_rel u U0 U1 fl FL d0 d1 d2 d3 d4 d5 d6 d7 md r U H) as (NP & r0 & r1 & r2 & r3 & r4 & r5 & r6 & r7 & -> & (A0 & A3 & A5 & A6) & A1 & A2 & A4 & A7).
  change (d0 * d0 + d3 * d3 + d5 * d5 + d6 * d6) with n2 in NP, A0, A1, A2, A3, A4, A5, A6, A7. fold k in A1, A2, A4, A7. split; [exact NP|]. do 16 eexists. split; [reflexivity|]. split.
  - unfold motor_normalize. pose proof (motor_square md d0 d1 d2 d3 d4 d5 d6 d7) as E. unfold motor8 in E. rewrite E. clear E. cbn [single bind get nth_error map snd fst].
    change (norm2 d0 d3 d5 d6) with n2. assert (SP : 0 < sqrt n2) by now apply sqrt_lt_R0.
    rewrite !fdiv_ok by (apply Rgt_not_eq; try lra; repeat apply Rmult_lt_0_compat; lra). cbn [bind set length upd Nat.ltb Nat.leb].
    match goal with |- context[[1 / sqrt n2; ?b]] => destruct (motor_scale md d0 d1 d2 d3 d4 d5 d6 d7 (1 / sqrt n2) b) as (e & E1 & E2) end.
    unfold motor8 in E1. rewrite E1. cbn [single bind get nth_error]. rewrite E2. reflexivity.
  - assert (SP : 0 < sqrt n2) by now apply sqrt_lt_R0. unfold norm4. split; [|split; [|split; [|split]]].
    + apply within_rel; [exact U0|exact U5|exact U1|]. unfold Rdiv. rewrite !Rmult_1_l. now repeat constructor.
    + eapply Rle_trans; [|exact A1]. right. f_equal. field. split; lra.
    + eapply Rle_trans; [|exact A2]. right. f_equal. field. split; lra.
    + eapply Rle_trans; [|exact A4]. right. f_equal. field. split; lra.
    + eapply Rle_trans; [|exact A7]. right. f_equal. field. split; lra.
Qed.
Print Assumptions C73_motor.
(** the rotation part of the result is nearly a unit *)
Theorem C73_motor_unit u fl md d0 d1 d2 d3 d4 d5 d6 d7 r : 0 <= u -> INR 20 * u < 1 -> rounds u fl ->
  motor_normalizeF fl md [d0; d1; d2; d3; d4; d5; d6; d7] = Ok r ->
  exists r0 r1 r2 r3 r4 r5 r6 r7, r = [r0; r1; r2; r3; r4; r5; r6; r7] /\ Rabs (r0 * r0 + r3 * r3 + r5 * r5 + r6 * r6 - 1) <= gamma u 10.
Proof.
  intros U0 U FL H. assert (U1 : u < 1) by (cbn in U; lra). assert (U5 : INR 10 * u < 1) by (cbn in U |- *; lra).
  destruct (motor_rel u U0 U1 fl FL d0 d1 d2 d3 d4 d5 d6 d7 md r U H) as (NP & r0 & r1 & r2 & r3 & r4 & r5 & r6 & r7 & -> & (A0 & A3 & A5 & A6) & _).
  exists r0, r1, r2, r3, r4, r5, r6, r7. split; [reflexivity|]. set (n2 := d0 * d0 + d3 * d3 + d5 * d5 + d6 * d6) in *. set (i := / sqrt n2) in *.
  assert (O : d0 * i * (d0 * i) + d3 * i * (d3 * i) + d5 * i * (d5 * i) + d6 * i * (d6 * i) = 1).
  { replace (_ + _) with (n2 * (i * i)) by (unfold n2; ring). unfold i. rewrite <- Rinv_mult, sqrt_sqrt by lra. field. lra. }
  assert (R0 : rel u 10 (r0 * r0 + r3 * r3 + r5 * r5 + r6 * r6) 1).
  { rewrite <- O. assert (P : forall w, 0 <= w * i * (w * i)) by (intros w; apply Rle_0_sqr). pose proof (P d0). pose proof (P d3). pose proof (P d5). pose proof (P d6).
    assert (Q : forall w v, rel u 5 v (w * i) -> rel u 10 (v * v) (w * i * (w * i))) by (intros w v A; exact (rel_mul u U1 5 5 _ _ _ _ A A)).
    apply rel_add; auto; [|lra]. apply rel_add; auto; [|lra]. apply rel_add; auto. }
  apply (rel_abs u U0 U1) in R0. rewrite Rabs_R1, Rmult_1_r in R0. eapply Rle_trans; [exact R0|]. now apply gamma_bound.
Qed.
Print Assumptions C73_motor_unit.

(** the same again and again *)
Fixpoint motor_times (fl : R -> res R) (md : mode) (k : nat) (d : list R) : res (list R) :=
  match k with O => Ok d | S k' => l <- motor_normalizeF fl md d;; motor_times fl md k' l end.
Lemma motor_repeated_rel u fl md : 0 <= u -> INR 20 * u < 1 -> rounds u fl -> forall k d0 d1 d2 d3 d4 d5 d6 d7 r, motor_times fl md (S k) [d0; d1; d2; d3; d4; d5; d6; d7] = Ok r ->
  let n := sqrt (d0 * d0 + d3 * d3 + d5 * d5 + d6 * d6) in
  exists r0 r1 r2 r3 r4 r5 r6 r7, r = [r0; r1; r2; r3; r4; r5; r6; r7] /\ rel u 5 (sqrt (r0 * r0 + r3 * r3 + r5 * r5 + r6 * r6)) 1 /\
    Forall2 (rel u (10 * k + 5)) [r0; r3; r5; r6] [d0 / n; d3 / n; d5 / n; d6 / n].
Proof.
  intros U0 U FL. assert (U1 : u < 1) by (cbn in U; lra).
  assert (G : forall d0 d1 d2 d3 d4 d5 d6 d7 r, motor_normalizeF fl md [d0; d1; d2; d3; d4; d5; d6; d7] = Ok r -> let n := sqrt (d0 * d0 + d3 * d3 + d5 * d5 + d6 * d6) in
    exists r0 r1 r2 r3 r4 r5 r6 r7, r = [r0; r1; r2; r3; r4; r5; r6; r7] /\ rel u 5 (sqrt (r0 * r0 + r3 * r3 + r5 * r5 + r6 * r6)) 1 /\ Forall2 (rel u 5) [r0; r3; r5; r6] [d0 / n; d3 / n; d5 / n; d6 / n]).
  { intros d0 d1 d2 d3 d4 d5 d6 d7 r H n. destruct (motor_rel u U0 U1 fl FL d0 d1 d2 d3 d4 d5 d6 d7 md r U H) as (NP & r0 & r1 & r2 & r3 & r4 & r5 & r6 & r7 & -> & (A0 & A3 & A5 & A6) & _). clear H.
    exists r0, r1, r2, r3, r4, r5, r6, r7. split; [reflexivity|]. set (n2 := d0 * d0 + d3 * d3 + d5 * d5 + d6 * d6) in *. fold n in A0, A3, A5, A6. set (i := / n) in *.
    assert (O : d0 * i * (d0 * i) + d3 * i * (d3 * i) + d5 * i * (d5 * i) + d6 * i * (d6 * i) = 1).
    { replace (_ + _) with (n2 * (i * i)) by (unfold n2; ring). unfold i, n. rewrite <- Rinv_mult, sqrt_sqrt by lra. field. lra. }
    split; [|repeat constructor; assumption]. rewrite <- sqrt_1. apply (rel_sqrt u U1 5); [|lra]. rewrite <- O. assert (P : forall w, 0 <= w * i * (w * i)) by (intros w; apply Rle_0_sqr). pose proof (P d0). pose proof (P d3). pose proof (P d5). pose proof (P d6).
    assert (Q : forall w v, rel u 5 v (w * i) -> rel u 10 (v * v) (w * i * (w * i))) by (intros w v A; exact (rel_mul u U1 5 5 _ _ _ _ A A)).
    apply rel_add; auto; [|lra]. apply rel_add; auto; [|lra]. apply rel_add; auto. }
  induction k as [|k IH]; intros d0 d1 d2 d3 d4 d5 d6 d7 r H n.
  - cbn [motor_times] in H. minv H. injection H as <-. exact (G _ _ _ _ _ _ _ _ _ E).
  - change (motor_times fl md (S (S k)) [d0; d1; d2; d3; d4; d5; d6; d7]) with (l1 <- motor_normalizeF fl md [d0; d1; d2; d3; d4; d5; d6; d7];; motor_times fl md (S k) l1) in H. minv H.
    destruct (G _ _ _ _ _ _ _ _ _ E) as (a0 & a1 & a2 & a3 & a4 & a5 & a6 & a7 & -> & L & F). fold n in F. clear E. apply IH in H. destruct H as (b0 & b1 & b2 & b3 & b4 & b5 & b6 & b7 & -> & L' & F'). exists b0, b1, b2, b3, b4, b5, b6, b7. split; [reflexivity|]. split; [exact L'|].
    assert (S : forall r v w, rel u (10 * k + 5) r (v / sqrt (a0 * a0 + a3 * a3 + a5 * a5 + a6 * a6)) -> rel u 5 v w -> rel u (10 * S k + 5) r w).
    { intros r v w A B. replace (10 * S k + 5)%nat with (10 * k + 5 + (5 + 5))%nat by lia. apply (rel_trans u U1 _ _ _ _ _ A). replace w with (w * / 1) by field. apply (rel_mul u U1 5 5); [exact B|]. now apply (rel_inv u U1). }
    inversion F as [|? ? ? ? A1 F1]; subst. inversion F1 as [|? ? ? ? A2 F2]; subst. inversion F2 as [|? ? ? ? A3 F3]; subst. inversion F3 as [|? ? ? ? A4 F4]; subst.
    inversion F' as [|? ? ? ? B1 G1]; subst. inversion G1 as [|? ? ? ? B2 G2]; subst. inversion G2 as [|? ? ? ? B3 G3]; subst. inversion G3 as [|? ? ? ? B4 G4]; subst.
    constructor; [exact (S _ _ _ B1 A1)|]. constructor; [exact (S _ _ _ B2 A2)|]. constructor; [exact (S _ _ _ B3 A3)|]. constructor; [exact (S _ _ _ B4 A4)|constructor].
Qed.
Theorem C73_motor_repeated u fl md k d0 d1 d2 d3 d4 d5 d6 d7 r : 0 <= u -> INR 20 * u < 1 -> INR (10 * k + 5) * u < 1 -> rounds u fl -> motor_times fl md (S k) [d0; d1; d2; d3; d4; d5; d6; d7] = Ok r ->
  let n := sqrt (d0 * d0 + d3 * d3 + d5 * d5 + d6 * d6) in
  exists r0 r1 r2 r3 r4 r5 r6 r7, r = [r0; r1; r2; r3; r4; r5; r6; r7] /\ Rabs (sqrt (r0 * r0 + r3 * r3 + r5 * r5 + r6 * r6) - 1) <= gamma u 5 /\
    within (gamma u (10 * k + 5)) [r0; r3; r5; r6] [d0 / n; d3 / n; d5 / n; d6 / n].
Proof.
  intros U0 U20 U FL H n. assert (U5 : INR 5 * u < 1) by (cbn in U20 |- *; lra). assert (U1 : u < 1) by (cbn in U5; lra).
  destruct (motor_repeated_rel u fl md U0 U20 FL k _ _ _ _ _ _ _ _ r H) as (r0 & r1 & r2 & r3 & r4 & r5 & r6 & r7 & -> & L & F). exists r0, r1, r2, r3, r4, r5, r6, r7. split; [reflexivity|]. split; [|now apply within_rel].
  apply (rel_abs u U0 U1) in L. rewrite Rabs_R1, Rmult_1_r in L. eapply Rle_trans; [exact L|]. now apply gamma_bound.
Qed.
Print Assumptions C73_motor_repeated.

(** ** Examples *)
Lemma double_integer x z : x = IZR z -> (Z.abs z <= 9007199254740992)%Z -> ieee_double x = Ok (IZR z).
Proof. intros -> H. apply C68_ieee_integers; try lia. rewrite <- abs_IZR. change (bpow radix2 53) with (IZR 9007199254740992). now apply IZR_le. Qed.
Ltac to_z x := match x with
  | IZR ?z => z
  | R0 => constr:(0%Z) | R1 => constr:(1%Z)
  | ?a + ?b => let p := to_z a in let q := to_z b in eval vm_compute in (p + q)%Z
  | ?a - ?b => let p := to_z a in let q := to_z b in eval vm_compute in (p - q)%Z
  | ?a * ?b => let p := to_z a in let q := to_z b in eval vm_compute in (p * q)%Z
  | ?a / ?b => let p := to_z a in let q := to_z b in eval vm_compute in (p / q)%Z
  | - ?a => let p := to_z a in eval vm_compute in (- p)%Z
  end.
Section Integers.
Variable F : R -> res R.
Hypothesis I : forall x z, x = IZR z -> (Z.abs z <= 9007199254740992)%Z -> F x = Ok (IZR z).
Ltac step := match goal with |- context[F ?x] => let z := to_z x in rewrite (I x z) by (try (change R1 with 1; change R0 with 0; lra); lia) end; cbn [bind].
Lemma square_ints : exists x y, compute_entityF F square_mv one [1; 2; 0; 0; 0; 0; 0; 3] = Ok [(0%N, x); (15%N, y)] /\ x = 1 /\ y = 6.
Proof. do 2 eexists. split; [vm_compute; repeat step; reflexivity|]. split; reflexivity. Qed.
Lemma scale_ints : exists v, compute_entityF F scale_mv one [1; 2; 0; 0; 0; 0; 0; 3; 1; -3] = Ok v /\ v = combine pga_motor [1; 2; 0; 0; 0; 0; 0; 0].
Proof. eexists. split; [vm_compute; repeat step; reflexivity|]. unfold pga_motor. cbn [combine]. reflexivity. Qed.
Lemma motor_ints : motor_normalizeF F Code [1; 2; 0; 0; 0; 0; 0; 3] = Ok [1; 2; 0; 0; 0; 0; 0; 0].
Proof.
  unfold motor_normalizeF. rewrite square_run. destruct square_ints as (x & y & E & -> & ->). rewrite E. cbn [single bind get nth_error map snd fst].
  unfold sqrtF. rewrite Rlt_bool_false by lra. rewrite sqrt_1. rewrite (I 1 1) by (reflexivity || lia). cbn [bind]. unfold Model_Float.fdiv. rewrite Req_bool_false by lra. rewrite (I (1 / 1) 1) by (lra || lia). cbn [bind].
  rewrite (I (2 * 1) 2) by (lra || lia). cbn [bind]. rewrite (I (2 * 1) 2) by (lra || lia). cbn [bind]. rewrite Req_bool_false by lra. rewrite (I (- (6) / 2) (-3)) by (lra || lia). cbn [bind set length upd Nat.ltb Nat.leb].
  rewrite scale_run. destruct scale_ints as (v & E' & ->). rewrite E'. reflexivity.
Qed.
Lemma square_ints' : exists x y, compute_entityF F square_mv one [1; 2; 0; 0; 0; 0; 0; 0] = Ok [(0%N, x); (15%N, y)] /\ x = 1 /\ y = 0.
Proof. do 2 eexists. split; [vm_compute; repeat step; reflexivity|]. split; reflexivity. Qed.
Lemma scale_ints' : exists v, compute_entityF F scale_mv one [1; 2; 0; 0; 0; 0; 0; 0; 1; 0] = Ok v /\ v = combine pga_motor [1; 2; 0; 0; 0; 0; 0; 0].
Proof. eexists. split; [vm_compute; repeat step; reflexivity|]. unfold pga_motor. cbn [combine]. reflexivity. Qed.
Lemma motor_ints' : motor_normalizeF F Code [1; 2; 0; 0; 0; 0; 0; 0] = Ok [1; 2; 0; 0; 0; 0; 0; 0].
Proof.
  unfold motor_normalizeF. rewrite square_run. destruct square_ints' as (x & y & E & -> & ->). rewrite E. cbn [single bind get nth_error map snd fst].
  unfold sqrtF. rewrite Rlt_bool_false by lra. rewrite sqrt_1. rewrite (I 1 1) by (reflexivity || lia). cbn [bind]. unfold Model_Float.fdiv. rewrite Req_bool_false by lra. rewrite (I (1 / 1) 1) by (lra || lia). cbn [bind].
  rewrite (I (2 * 1) 2) by (lra || lia). cbn [bind]. rewrite (I (2 * 1) 2) by (lra || lia). cbn [bind]. rewrite Req_bool_false by lra. rewrite (I (- 0 / 2) 0) by (lra || lia). cbn [bind set length upd Nat.ltb Nat.leb].
  rewrite scale_run. destruct scale_ints' as (v & E' & ->). rewrite E'. reflexivity.
Qed.
End Integers.
Example C73_motor_ex : motor_normalizeF ieee_double Code [1; 2; 0; 0; 0; 0; 0; 3] = Ok [1; 2; 0; 0; 0; 0; 0; 0].
Proof. apply motor_ints. exact double_integer. Qed.
Example C73_motor_repeated_ex : motor_times ieee_double Code 3 [1; 2; 0; 0; 0; 0; 0; 3] = Ok [1; 2; 0; 0; 0; 0; 0; 0].
Proof. cbn [motor_times]. rewrite C73_motor_ex. cbn [bind]. rewrite (motor_ints' ieee_double double_integer). cbn [bind]. rewrite (motor_ints' ieee_double double_integer). reflexivity. Qed.
Example C74_range_ex : exists l, vector_normalizeF ieee_double [3; 0; -4] = Ok l.
Proof.
  assert (S : forall z, (1 <= Z.abs z <= 4)%Z -> sized (-510) 510 (IZR z)).
  { intros z Hz. right. rewrite <- abs_IZR. split; [apply Rle_trans with (bpow radix2 0); [apply bpow_le; lia|change (bpow radix2 0) with (IZR 1)]|apply Rle_trans with (bpow radix2 2); [change (bpow radix2 2) with (IZR 4)|apply bpow_le; lia]]; apply IZR_le; lia. }
  apply C74_double_range; [apply S; lia|now left|apply S; lia|left; lra].
Qed.
Example C74_rotor_ex : exists x y z, rotor_normalizeF ieee_double [1; 0; 1; 0; 0] = Ok [1; 0; x; y; z].
Proof.
  assert (S : sized (-510) 510 1) by (right; rewrite Rabs_R1; split; [change 1 with (bpow radix2 0)|change 1 with (bpow radix2 0)]; apply bpow_le; lia).
  destruct (C74_rotor_range 1 0 1 0 0 S ltac:(now left) ltac:(now left) ltac:(left; lra)) as (x & y & z & E & _). now exists x, y, z.
Qed.
Example C74_translator_ex : exists x y z, translator_normalizeF ieee_double [7; 0; 0; 1] = Ok [7; x; y; z].
Proof.
  assert (S : sized (-510) 510 1) by (right; rewrite Rabs_R1; split; [change 1 with (bpow radix2 0)|change 1 with (bpow radix2 0)]; apply bpow_le; lia).
  destruct (C74_translator_range 7 0 0 1 ltac:(now left) ltac:(now left) S ltac:(right; right; lra)) as (x & y & z & E & _). now exists x, y, z.
Qed.
Example C74_ideal_ex : motor_normalizeF off Code [0; 1; 0; 0; 0; 0; 0; 2] <> Ok [0; 1; 0; 0; 0; 0; 0; 2].
Proof. apply (C74_ideal_motor (/ 1024)); [lra|cbn; lra|exact off_rounds]. Qed.
Example C73_rotor_ex : representable ieee_double 2 /\ exists l, rotor_ofF ieee_double 2 0 0 1 = Ok l.
Proof.
  split; [apply double_integer; [reflexivity|lia]|]. pose proof PI_4 as P4. pose proof PI2_3_2 as P3.
  assert (C : 1 / 2 <= cos 1 <= 1) by (rewrite <- cos_PI3 at 1; split; [apply cos_decr_1; lra|apply COS_bound]).
  assert (S : 1 / 2 <= sin 1 <= 1) by (rewrite <- sin_PI6 at 1; split; [apply sin_incr_1; lra|apply SIN_bound]).
  assert (G : forall x, 1 / 2 <= x <= 1 -> exists y, ieee_double x = Ok y).
  { intros x X. destruct (ieee_range 53 (-1074) 1024 eq_refl (-1) 0 x ltac:(lia) ltac:(lia) ltac:(lia)) as (y & E & _); [|now exists y].
    change (bpow radix2 (-1)) with (/ 2). change (bpow radix2 0) with 1. rewrite Rabs_pos_eq by lra. lra. }
  destruct (G _ C) as (c & EC). destruct (G _ S) as (s & ES). exists [c; s; 0; 0; 1]. unfold rotor_ofF.
  assert (H : ieee_double (1 / 2 * 2) = Ok 1) by (apply double_integer; [lra|lia]). rewrite H. cbn [bind]. rewrite EC. cbn [bind]. now rewrite ES.
Qed.
