(** C75: the logarithm of motors in floating point. *)
From Coq Require Import ZArith NArith List Bool Arith Reals Lia Lra.
Require Import Flocq.Core.Core.
From Verif Require Import Base Model_Numeric Model_Blade Model_MV Model_Product Model_Expr Model_Dfa Model_Engine Model_Entity Model_Geometry Model_Compute Model_Float Model_FloatGeo Spec_Clifford Spec_Basis Spec_MV Spec_Expr Spec_Geometry Spec_Engine Spec_Float Spec_FloatGeo.
From Verif Require Import Proof_Numeric Spec_Entity Proof_Float Proof_FloatGeo Proof_FloatMotor Proof_FloatLog Proof_Geometry Proof_Motion Props_Geometry Props_Float Props_FloatGeo.
Import ListNotations.
Local Open Scope R_scope.

(** the directions (on e12, e13, e23) have a small relative error, the moments (on e01, e02, e03) an error
    relative to their terms without the signs; 1e-6 is where the code changes the branch *)
Theorem C75_log u fl md d0 d1 d2 d3 d4 d5 d6 d7 e : 0 <= u -> INR 28 * u < 1 -> rounds u fl -> / 1000000 <= (1 - u) * Rabs d0 ->
  motor_logF fl md [d0; d1; d2; d3; d4; d5; d6; d7] = Ok e ->
  let n2 := d3 * d3 + d5 * d5 + d6 * d6 in
  let a := Rabs (atan2 (sqrt n2) d0) in
  let p := (Rabs (d1 * d6) + Rabs (d2 * d5) + Rabs (d3 * d4)) / sqrt n2 in
  let size m w := Rabs m * a / sqrt n2 + Rabs w * (a * p / n2 + p / (Rabs d0 * sqrt n2)) in
  0 < n2 /\ exists e0, motor_log md [d0; d1; d2; d3; d4; d5; d6; d7] = Ok e0 /\ map fst e = [3; 5; 6; 9; 10; 12]%N /\
    (forall b, In b [6; 10; 12]%N -> Rabs (entity_val e b - entity_val e0 b) <= gamma u 12 * Rabs (entity_val e0 b)) /\
    Rabs (entity_val e 3 - entity_val e0 3) <= gamma u 28 * size d1 d6 /\
    Rabs (entity_val e 5 - entity_val e0 5) <= gamma u 28 * size d2 d5 /\
    Rabs (entity_val e 9 - entity_val e0 9) <= gamma u 28 * size d4 d3.
Proof.
  intros U0 U FL D H n2 a p size. assert (U1 : u < 1) by (cbn in U; lra). assert (U12 : INR 12 * u < 1) by (cbn in U |- *; lra).
  destruct (log_rel u U0 U1 fl FL d0 d1 d2 d3 d4 d5 d6 d7 md e H) as [NP NL]. clear H. split; [exact NP|].
  destruct (NL U D) as (r1 & r2 & r3 & r4 & r5 & r6 & -> & (A3 & A5 & A6) & A1 & A2 & A4). clear NL.
  destruct (log_run d0 d1 d2 d3 d4 d5 d6 d7 NP md) as (e0 & E1 & E2). unfold motor8 in E1. exists e0. split; [exact E1|]. split; [reflexivity|]. clear E1. rewrite E2. clear E2.
  assert (LU : log_u d0 d1 d2 d3 d4 d5 d6 d7 = atan2 (sqrt n2) d0 /\ log_v d0 d1 d2 d3 d4 d5 d6 d7 = - (d1 * d6 - d2 * d5 + d4 * d3) / sqrt n2 / d0).
  { unfold log_u, log_v. pose proof (Rabs_pos d0). destruct (Rlt_dec (Rabs d0) (1 / 1000000)) as [L|_]; [exfalso; pose proof (Rmult_le_pos u (Rabs d0) U0 (Rabs_pos d0)); lra|]. split; reflexivity. }
  destruct LU as [-> ->]. change (0 < n2) in NP. fold n2 in A1, A2, A3, A4, A5, A6 |- *. assert (SP : 0 < sqrt n2) by now apply sqrt_lt_R0. assert (SS : sqrt n2 * sqrt n2 = n2) by (apply sqrt_sqrt; lra).
  assert (D0 : d0 <> 0) by (intros ->; rewrite Rabs_R0 in D; lra).
  assert (V : forall v1 v2 v3 v4 v5 v6 k, entity_val (combine lines [v1; v2; v3; v4; v5; v6]) (nth k lines 0%N) = nth k [v1; v2; v3; v4; v5; v6] (entity_val (combine lines [v1; v2; v3; v4; v5; v6]) 0)).
  { intros. do 6 (destruct k as [|k]; [unfold entity_val, Rsum; cbn [combine lines map fold_right nth fst snd N.eqb Pos.eqb]; ring|]). destruct k; reflexivity. }
  assert (W : forall r x, rel u 12 r (atan2 (sqrt n2) d0 * (x * / sqrt n2)) -> Rabs (r - atan2 (sqrt n2) d0 * (/ sqrt n2 * x)) <= gamma u 12 * Rabs (atan2 (sqrt n2) d0 * (/ sqrt n2 * x))).
  { intros r x HR. rewrite (Rmult_comm (/ sqrt n2)). apply (rel_abs u U0 U1) in HR. eapply Rle_trans; [exact HR|]. apply Rmult_le_compat_r; [apply Rabs_pos|now apply gamma_bound]. }
  set (at2 := atan2 (sqrt n2) d0) in *.
  split; [|split; [|split]].
  - intros b [<-|[<-|[<-|[]]]]; [rewrite (V _ _ _ _ _ _ 2%nat), (V _ _ _ _ _ _ 2%nat : entity_val (screw_log _ _ _ _ _ _ _ _) 6%N = _)
      |rewrite (V _ _ _ _ _ _ 4%nat), (V _ _ _ _ _ _ 4%nat : entity_val (screw_log _ _ _ _ _ _ _ _) 10%N = _)
      |rewrite (V _ _ _ _ _ _ 5%nat), (V _ _ _ _ _ _ 5%nat : entity_val (screw_log _ _ _ _ _ _ _ _) 12%N = _)]; cbn [nth]; now apply W.
  - rewrite (V _ _ _ _ _ _ 0%nat), (V _ _ _ _ _ _ 0%nat : entity_val (screw_log _ _ _ _ _ _ _ _) 3%N = _). cbn [nth]. eapply Rle_trans; [|eapply Rle_trans; [exact A1|]]; right.
    + f_equal. rewrite SS. field. repeat split; lra.
    + unfold size, a, p. field. assert (Rabs d0 <> 0) by now apply Rabs_no_R0. repeat split; lra.
  - rewrite (V _ _ _ _ _ _ 1%nat), (V _ _ _ _ _ _ 1%nat : entity_val (screw_log _ _ _ _ _ _ _ _) 5%N = _). cbn [nth]. eapply Rle_trans; [|eapply Rle_trans; [exact A2|]]; right.
    + f_equal. rewrite SS. field. repeat split; lra.
    + unfold size, a, p. field. assert (Rabs d0 <> 0) by now apply Rabs_no_R0. repeat split; lra.
  - rewrite (V _ _ _ _ _ _ 3%nat), (V _ _ _ _ _ _ 3%nat : entity_val (screw_log _ _ _ _ _ _ _ _) 9%N = _). cbn [nth]. eapply Rle_trans; [|eapply Rle_trans; [exact A4|]]; right.
    + f_equal. rewrite SS. field. repeat split; lra.
    + unfold size, a, p. field. assert (Rabs d0 <> 0) by now apply Rabs_no_R0. repeat split; lra.
Qed.
Print Assumptions C75_log.
(** the length of the direction is the angle, accurate for small and for large angles *)
Theorem C75_angle u fl md d0 d1 d2 d3 d4 d5 d6 d7 e : 0 <= u -> INR 28 * u < 1 -> rounds u fl -> / 1000000 <= (1 - u) * Rabs d0 ->
  motor_logF fl md [d0; d1; d2; d3; d4; d5; d6; d7] = Ok e ->
  let a := atan2 (sqrt (d3 * d3 + d5 * d5 + d6 * d6)) d0 in
  Rabs (sqrt (entity_val e 6 * entity_val e 6 + entity_val e 10 * entity_val e 10 + entity_val e 12 * entity_val e 12) - Rabs a) <= gamma u 12 * Rabs a.
Proof.
  intros U0 U FL D H a. assert (U1 : u < 1) by (cbn in U; lra). assert (U12 : INR 12 * u < 1) by (cbn in U |- *; lra).
  destruct (log_rel u U0 U1 fl FL d0 d1 d2 d3 d4 d5 d6 d7 md e H) as [NP NL]. clear H.
  destruct (NL U D) as (r1 & r2 & r3 & r4 & r5 & r6 & -> & (A3 & A5 & A6) & _). clear NL. set (n2 := d3 * d3 + d5 * d5 + d6 * d6) in *. fold a in A3, A5, A6.
  replace (entity_val (combine lines [r1; r2; r3; r4; r5; r6]) 6) with r3 by (unfold entity_val, Rsum; cbn; ring).
  replace (entity_val (combine lines [r1; r2; r3; r4; r5; r6]) 10) with r5 by (unfold entity_val, Rsum; cbn; ring).
  replace (entity_val (combine lines [r1; r2; r3; r4; r5; r6]) 12) with r6 by (unfold entity_val, Rsum; cbn; ring).
  assert (SP : 0 < sqrt n2) by now apply sqrt_lt_R0. assert (SS : sqrt n2 * sqrt n2 = n2) by (apply sqrt_sqrt; lra).
  assert (Q : forall r x, rel u 12 r (a * (x * / sqrt n2)) -> rel u 24 (r * r) (a * a * (x * x) / n2)).
  { intros r x HR. replace (a * a * (x * x) / n2) with (a * (x * / sqrt n2) * (a * (x * / sqrt n2))) by (unfold Rdiv; replace (/ n2) with (/ sqrt n2 * / sqrt n2) by (rewrite <- Rinv_mult, SS; reflexivity); ring). exact (rel_mul u U1 12 12 _ _ _ _ HR HR). }
  apply Q in A3, A5, A6. assert (PX : forall x, 0 <= a * a * (x * x) / n2).
  { intros x. apply Rmult_le_pos; [apply Rmult_le_pos; apply Rle_0_sqr|]. left. now apply Rinv_0_lt_compat. }
  assert (S : rel u 24 (r3 * r3 + r5 * r5 + r6 * r6) (a * a)).
  { assert (EQ : a * a = a * a * (d3 * d3) / n2 + a * a * (d5 * d5) / n2 + a * a * (d6 * d6) / n2) by (apply Rmult_eq_reg_r with n2; [|lra]; unfold Rdiv; rewrite !Rmult_plus_distr_r, !(Rmult_assoc _ (/ n2)), !Rinv_l by lra; unfold n2; ring).
    rewrite EQ. clear EQ.
    pose proof (PX d3). pose proof (PX d5). pose proof (PX d6). apply rel_add; auto; [|lra]. apply rel_add; auto. }
  apply (rel_sqrt u U1 12) in S; [|apply Rle_0_sqr]. change (a * a) with (Rsqr a) in S. rewrite sqrt_Rsqr_abs in S. apply (rel_abs u U0 U1) in S. rewrite Rabs_Rabsolu in S.
  eapply Rle_trans; [exact S|]. apply Rmult_le_compat_r; [apply Rabs_pos|now apply gamma_bound].
Qed.
Print Assumptions C75_angle.
(** translations have no logarithm: there is always a division by zero, or a number out of range before *)
Theorem C75_translation u fl md d0 d1 d2 d4 d7 e : 0 <= u < 1 -> rounds u fl -> motor_logF fl md [d0; d1; d2; 0; d4; 0; 0; d7] <> Ok e.
Proof. intros [U0 U1] FL H. destruct (log_rel u U0 U1 fl FL d0 d1 d2 0 d4 0 0 d7 md e H) as [NP _]. lra. Qed.
Print Assumptions C75_translation.

(** near a half turn the code takes the angle from d7 and p2 instead: the error is that of p2, relative to d7 *)
Theorem C75_near_half_turn u fl md d0 d1 d2 d3 d4 d5 d6 d7 e : 0 <= u -> INR 28 * u < 1 -> rounds u fl -> Rabs d0 < (1 - u) * / 1000000 -> d7 <> 0 ->
  motor_logF fl md [d0; d1; d2; d3; d4; d5; d6; d7] = Ok e ->
  let n2 := d3 * d3 + d5 * d5 + d6 * d6 in
  let p := (Rabs (d1 * d6) + Rabs (d2 * d5) + Rabs (d3 * d4)) / sqrt n2 in
  let bound w := (gamma u 8 * PI + gamma u 11 * p / Rabs d7) * Rabs w / sqrt n2 in
  let size m w := (gamma u 28 * PI + gamma u 11 * p / Rabs d7) * (Rabs m / sqrt n2 + Rabs w * p / n2) + gamma u 28 * Rabs w * Rabs d7 / n2 in
  0 < n2 /\ exists e0, motor_log md [d0; d1; d2; d3; d4; d5; d6; d7] = Ok e0 /\ map fst e = [3; 5; 6; 9; 10; 12]%N /\
    Rabs (entity_val e 6 - entity_val e0 6) <= bound d3 /\ Rabs (entity_val e 10 - entity_val e0 10) <= bound d5 /\ Rabs (entity_val e 12 - entity_val e0 12) <= bound d6 /\
    Rabs (entity_val e 3 - entity_val e0 3) <= size d1 d6 /\ Rabs (entity_val e 5 - entity_val e0 5) <= size d2 d5 /\ Rabs (entity_val e 9 - entity_val e0 9) <= size d4 d3.
Proof.
  intros U0 U FL D D7 H n2 p bound size. assert (U1 : u < 1) by (cbn in U; lra). assert (U11 : INR 11 * u < 1) by (cbn in U |- *; lra). assert (U8 : INR 8 * u < 1) by (cbn in U |- *; lra).
  destruct (log_half u U0 U1 fl FL d0 d1 d2 d3 d4 d5 d6 d7 md e H D) as (NP & r1 & r2 & r3 & r4 & r5 & r6 & p2 & -> & SP2 & A3 & A5 & A6 & AM). clear H. destruct (AM U) as (A1 & A2 & A4). clear AM. split; [exact NP|].
  apply (half_near u U0 U1 _ _ _ _ _ _ _ p2 _ _ _ NP U D7 SP2) in A1, A2, A4. cbv zeta in A1, A2, A4. rewrite Rabs_Ropp in A1, A4.
  apply (parts_near u U0 U1) in SP2; [|exact NP|exact U11].
  destruct (log_run d0 d1 d2 d3 d4 d5 d6 d7 NP md) as (e0 & E1 & E2). unfold motor8 in E1. exists e0. split; [exact E1|]. split; [reflexivity|]. clear E1. rewrite E2. clear E2.
  assert (LU : log_u d0 d1 d2 d3 d4 d5 d6 d7 = atan2 (- d7) (- (d1 * d6 - d2 * d5 + d4 * d3) / sqrt n2) /\ log_v d0 d1 d2 d3 d4 d5 d6 d7 = - d7 / sqrt n2).
  { unfold log_u, log_v. destruct (Rlt_dec (Rabs d0) (1 / 1000000)) as [_|L]; [split; reflexivity|exfalso; lra]. }
  destruct LU as [-> ->]. change (0 < n2) in NP. fold n2 in A1, A2, A3, A4, A5, A6, SP2 |- *. fold p in SP2, A1, A2, A4. assert (SP : 0 < sqrt n2) by now apply sqrt_lt_R0. assert (SS : sqrt n2 * sqrt n2 = n2) by (apply sqrt_sqrt; lra).
  set (pe := - (d1 * d6 - d2 * d5 + d4 * d3) / sqrt n2) in *.
  assert (V : forall v1 v2 v3 v4 v5 v6 k, entity_val (combine lines [v1; v2; v3; v4; v5; v6]) (nth k lines 0%N) = nth k [v1; v2; v3; v4; v5; v6] (entity_val (combine lines [v1; v2; v3; v4; v5; v6]) 0)).
  { intros. do 6 (destruct k as [|k]; [unfold entity_val, Rsum; cbn [combine lines map fold_right nth fst snd N.eqb Pos.eqb]; ring|]). destruct k; reflexivity. }
  assert (W : forall r x, rel u 8 r (atan2 (- d7) p2 * (x * / sqrt n2)) -> Rabs (r - atan2 (- d7) pe * (/ sqrt n2 * x)) <= bound x).
  { intros r x HR. apply (rel_abs u U0 U1) in HR. assert (G8 : 0 <= gamma u 8) by (unfold gamma; apply Rmult_le_pos; [apply Rmult_le_pos; [apply pos_INR|exact U0]|left; apply Rinv_0_lt_compat; lra]).
    assert (HR' : Rabs (r - atan2 (- d7) p2 * (x * / sqrt n2)) <= gamma u 8 * Rabs (atan2 (- d7) p2 * (x * / sqrt n2))) by (eapply Rle_trans; [exact HR|]; apply Rmult_le_compat_r; [apply Rabs_pos|now apply gamma_bound]).
    assert (D7' : - d7 <> 0) by lra. pose proof (atan2_near (- d7) p2 pe D7') as NR. rewrite Rabs_Ropp in NR. pose proof (atan2_le (- d7) p2) as PL.
    assert (DP : 0 < / Rabs d7) by (apply Rinv_0_lt_compat; now apply Rabs_pos_lt).
    assert (NR' : Rabs (atan2 (- d7) p2 - atan2 (- d7) pe) <= gamma u 11 * p / Rabs d7) by (eapply Rle_trans; [exact NR|]; apply Rmult_le_compat_r; [lra|exact SP2]).
    set (a' := atan2 (- d7) p2) in *. set (a := atan2 (- d7) pe) in *.
    replace (r - a * (/ sqrt n2 * x)) with (r - a' * (x * / sqrt n2) + (a' - a) * (x * / sqrt n2)) by ring. eapply Rle_trans; [apply Rabs_triang|].
    rewrite Rabs_mult in HR'. rewrite (Rabs_mult (a' - a)). assert (AX : Rabs (x * / sqrt n2) = Rabs x / sqrt n2) by (rewrite Rabs_mult, Rabs_inv, (Rabs_pos_eq (sqrt n2)) by lra; reflexivity).
    assert (XP : 0 <= Rabs (x * / sqrt n2)) by apply Rabs_pos. unfold bound, Rdiv. rewrite (Rmult_assoc _ (Rabs x)). change (Rabs x * / sqrt n2) with (Rabs x / sqrt n2). rewrite <- AX. set (z := Rabs (x * / sqrt n2)) in *.
    rewrite Rmult_plus_distr_r. apply Rplus_le_compat; [|apply Rmult_le_compat_r; [exact XP|exact NR']]. eapply Rle_trans; [exact HR'|]. rewrite Rmult_assoc. apply Rmult_le_compat_l; [exact G8|]. apply Rmult_le_compat_r; assumption. }
  split; [|split; [|split; [|split; [|split]]]].
  - rewrite (V _ _ _ _ _ _ 2%nat), (V _ _ _ _ _ _ 2%nat : entity_val (screw_log _ _ _ _ _ _ _ _) 6%N = _). cbn [nth]. now apply W.
  - rewrite (V _ _ _ _ _ _ 4%nat), (V _ _ _ _ _ _ 4%nat : entity_val (screw_log _ _ _ _ _ _ _ _) 10%N = _). cbn [nth]. now apply W.
  - rewrite (V _ _ _ _ _ _ 5%nat), (V _ _ _ _ _ _ 5%nat : entity_val (screw_log _ _ _ _ _ _ _ _) 12%N = _). cbn [nth]. now apply W.
  - rewrite (V _ _ _ _ _ _ 0%nat), (V _ _ _ _ _ _ 0%nat : entity_val (screw_log _ _ _ _ _ _ _ _) 3%N = _). cbn [nth]. eapply Rle_trans; [right|exact A1]. f_equal. rewrite SS. field. split; lra.
  - rewrite (V _ _ _ _ _ _ 1%nat), (V _ _ _ _ _ _ 1%nat : entity_val (screw_log _ _ _ _ _ _ _ _) 5%N = _). cbn [nth]. eapply Rle_trans; [right|exact A2]. f_equal. rewrite SS. field. split; lra.
  - rewrite (V _ _ _ _ _ _ 3%nat), (V _ _ _ _ _ _ 3%nat : entity_val (screw_log _ _ _ _ _ _ _ _) 9%N = _). cbn [nth]. eapply Rle_trans; [right|exact A4]. f_equal. rewrite SS. field. split; lra.
Qed.
Print Assumptions C75_near_half_turn.
(** the length of the direction of a line in pga, which is half the angle of the rotation *)
Definition half_angle (e : entity) : R := sqrt (entity_val e 6 * entity_val e 6 + entity_val e 10 * entity_val e 10 + entity_val e 12 * entity_val e 12).
(** with d7 = 0 half the angle is 0 or that of a whole turn, whatever the rounding is *)
Theorem C75_half_turn u fl md d0 d1 d2 d3 d4 d5 d6 e : 0 <= u -> INR 8 * u < 1 -> rounds u fl -> Rabs d0 < (1 - u) * / 1000000 ->
  motor_logF fl md [d0; d1; d2; d3; d4; d5; d6; 0] = Ok e -> half_angle e = 0 \/ Rabs (half_angle e - PI) <= gamma u 8 * PI.
Proof.
  intros U0 U FL D H. assert (U1 : u < 1) by (cbn in U; lra).
  destruct (log_half u U0 U1 fl FL d0 d1 d2 d3 d4 d5 d6 0 md e H D) as (NP & r1 & r2 & r3 & r4 & r5 & r6 & p2 & -> & _ & A3 & A5 & A6 & _). clear H. unfold half_angle.
  replace (entity_val (combine lines [r1; r2; r3; r4; r5; r6]) 6) with r3 by (unfold entity_val, Rsum; cbn; ring).
  replace (entity_val (combine lines [r1; r2; r3; r4; r5; r6]) 10) with r5 by (unfold entity_val, Rsum; cbn; ring).
  replace (entity_val (combine lines [r1; r2; r3; r4; r5; r6]) 12) with r6 by (unfold entity_val, Rsum; cbn; ring).
  set (n2 := d3 * d3 + d5 * d5 + d6 * d6) in *. assert (SP : 0 < sqrt n2) by now apply sqrt_lt_R0. assert (SS : sqrt n2 * sqrt n2 = n2) by (apply sqrt_sqrt; lra). pose proof PI_RGT_0 as PP.
  assert (AT : atan2 (- 0) p2 = 0 \/ atan2 (- 0) p2 = PI).
  { unfold atan2, Rdiv. rewrite !Ropp_0, !Rmult_0_l, atan_0. destruct (Rlt_dec 0 p2); [now left|]. destruct (Rlt_dec p2 0); [right; destruct (Rle_dec 0 0); lra|left]. destruct (Rlt_dec 0 0); lra. }
  set (a := atan2 (- 0) p2) in *.
  assert (Q : forall r x, rel u 8 r (a * (x * / sqrt n2)) -> rel u 16 (r * r) (a * a * (x * x) / n2)).
  { intros r x HR. replace (a * a * (x * x) / n2) with (a * (x * / sqrt n2) * (a * (x * / sqrt n2))) by (unfold Rdiv; replace (/ n2) with (/ sqrt n2 * / sqrt n2) by (rewrite <- Rinv_mult, SS; reflexivity); ring). exact (rel_mul u U1 8 8 _ _ _ _ HR HR). }
  apply Q in A3, A5, A6. assert (PX : forall x, 0 <= a * a * (x * x) / n2).
  { intros x. apply Rmult_le_pos; [apply Rmult_le_pos; apply Rle_0_sqr|]. left. now apply Rinv_0_lt_compat. }
  assert (S : rel u 16 (r3 * r3 + r5 * r5 + r6 * r6) (a * a)).
  { assert (EQ : a * a = a * a * (d3 * d3) / n2 + a * a * (d5 * d5) / n2 + a * a * (d6 * d6) / n2) by (apply Rmult_eq_reg_r with n2; [|lra]; unfold Rdiv; rewrite !Rmult_plus_distr_r, !(Rmult_assoc _ (/ n2)), !Rinv_l by lra; unfold n2; ring).
    rewrite EQ. clear EQ. pose proof (PX d3). pose proof (PX d5). pose proof (PX d6). apply rel_add; auto; [|lra]. apply rel_add; auto. }
  apply (rel_sqrt u U1 8) in S; [|apply Rle_0_sqr]. change (a * a) with (Rsqr a) in S. rewrite sqrt_Rsqr_abs in S.
  destruct AT as [EA|EA]; rewrite EA in S.
  - left. rewrite Rabs_R0 in S. destruct S as (k & _ & ->). ring.
  - right. rewrite (Rabs_pos_eq PI) in S by lra. apply (rel_abs u U0 U1) in S. eapply Rle_trans; [exact S|]. rewrite (Rabs_pos_eq PI) by lra. apply Rmult_le_compat_r; [lra|now apply gamma_bound].
Qed.
Print Assumptions C75_half_turn.
(** so half the angle of a half turn is not within 1 of PI / 2, in no format *)
Theorem C75_half_turn_refuted : exists d1 d2 d3 d4 d5 d6, normalized [0; d1; d2; d3; d4; d5; d6; 0] /\ atan2 (sqrt (d3 * d3 + d5 * d5 + d6 * d6)) 0 = PI / 2 /\
  forall u fl md e, 0 <= u -> INR 100 * u < 1 -> rounds u fl -> motor_logF fl md [0; d1; d2; d3; d4; d5; d6; 0] = Ok e -> 1 < Rabs (half_angle e - PI / 2).
Proof.
  exists 0, 0, 1, 0, 0, 0. split; [unfold normalized, on_blades; rewrite rev_val, prod_val by reflexivity; rewrite delta_val; apply (val_ext 4); [reflexivity..|]; each_blade; ring|]. split.
  { assert (0 < sqrt (1 * 1 + 0 * 0 + 0 * 0)) by (apply sqrt_lt_R0; lra). unfold atan2. destruct (Rlt_dec 0 0); [lra|]. destruct (Rlt_dec 0 (sqrt (1 * 1 + 0 * 0 + 0 * 0))); [reflexivity|lra]. }
  intros u fl md e U0 U FL H. assert (U100 : 100 * u < 1) by (replace 100 with (INR 100) by (rewrite INR_IZR_INZ; reflexivity); exact U). assert (U8 : INR 8 * u < 1) by (cbn; lra).
  assert (D : Rabs 0 < (1 - u) * / 1000000) by (rewrite Rabs_R0; lra). pose proof PI2_3_2 as P3.
  destruct (C75_half_turn u fl md 0 0 0 1 0 0 0 e U0 U8 FL D H) as [A|A].
  - rewrite A. rewrite Rabs_minus_sym, Rabs_pos_eq; lra.
  - assert (G : gamma u 8 <= 8 / 92). { unfold gamma. replace (INR 8) with 8 by (cbn; ring). apply Rmult_le_reg_r with (1 - 8 * u); [lra|]. unfold Rdiv at 1. rewrite Rmult_assoc, Rinv_l by lra. lra. }
    assert (B : gamma u 8 * PI <= 8 / 92 * PI) by (apply Rmult_le_compat_r; lra). apply Rabs_le_inv in A. rewrite Rabs_pos_eq; lra.
Qed.
Print Assumptions C75_half_turn_refuted.

(** in the two formats of C++, the relative error of the angle is at most 2^-49 and 2^-20 *)
Lemma gamma_12 u : 0 <= u -> u <= / 1024 -> gamma u 12 <= 16 * u.
Proof. intros U0 U. unfold gamma. replace (INR 12) with 12 by (cbn; ring). apply Rmult_le_reg_r with (1 - 12 * u); [lra|]. unfold Rdiv. rewrite Rmult_assoc, Rinv_l by lra. nra. Qed.
Theorem C75_formats md d0 d1 d2 d3 d4 d5 d6 d7 e : / 1000000 <= (1 - / 1024) * Rabs d0 -> let a := atan2 (sqrt (d3 * d3 + d5 * d5 + d6 * d6)) d0 in
  (motor_logF ieee_double md [d0; d1; d2; d3; d4; d5; d6; d7] = Ok e -> Rabs (half_angle e - Rabs a) <= bpow radix2 (-49) * Rabs a) /\
  (motor_logF ieee_single md [d0; d1; d2; d3; d4; d5; d6; d7] = Ok e -> Rabs (half_angle e - Rabs a) <= bpow radix2 (-20) * Rabs a).
Proof.
  intros D a. pose proof (Rabs_pos d0) as P0.
  assert (G : forall prec emin emax, (10 <= prec)%Z -> motor_logF (ieee prec emin emax) md [d0; d1; d2; d3; d4; d5; d6; d7] = Ok e -> Rabs (half_angle e - Rabs a) <= bpow radix2 (4 - prec) * Rabs a).
  { intros prec emin emax P H. assert (PP : (0 < prec)%Z) by lia. pose proof (under_one prec PP) as [U0 U1]. assert (U : roundoff prec <= / 1024) by (unfold roundoff; change (/ 1024) with (bpow radix2 (- 10)); apply bpow_le; lia).
    eapply Rle_trans; [apply (C75_angle (roundoff prec) _ md d0 d1 d2 d3 d4 d5 d6 d7 e U0 ltac:(cbn; lra) (C68_ieee_rounds prec emin emax PP)); [nra|exact H]|]. apply Rmult_le_compat_r; [apply Rabs_pos|].
    eapply Rle_trans; [now apply gamma_12|]. right. unfold roundoff, Zminus. rewrite bpow_plus. reflexivity. }
  split; intros H; [exact (G 53%Z _ _ ltac:(lia) H)|exact (G 24%Z _ _ ltac:(lia) H)].
Qed.
Print Assumptions C75_formats.

(** ** Examples: a screw, one near a half turn and a half turn, with a rounding that is always off *)
Lemma line_off : exists x y, compute_entityF off line_mv one [1; 0; 4; 2; 0; 0] = Ok [(0%N, x); (15%N, y)] /\ x < 0.
Proof. do 2 eexists. split; [vm_compute; reflexivity|]. cbv -[IZR Rmult Rdiv Rinv Rplus Ropp Rlt]. change R1 with 1. lra. Qed.
Lemma line_off' : exists x y, compute_entityF off line_mv one [0; 0; 1; 0; 0; 0] = Ok [(0%N, x); (15%N, y)] /\ x < 0.
Proof. do 2 eexists. split; [vm_compute; reflexivity|]. cbv -[IZR Rmult Rdiv Rinv Rplus Ropp Rlt]. change R1 with 1. lra. Qed.
Lemma log_off a b c d e f s t i j : exists v, compute_entityF off log_mv one [s; t; a; b; c; d; e; f; i; j] = Ok v.
Proof. eexists. vm_compute. reflexivity. Qed.
(** for any rounding that agrees with it, so that nothing is computed with it here *)
Lemma log_runs fl x y d0 d1 d2 d3 d4 d5 d6 d7 : (forall r, fl r = Ok (r * (1 + / 1024))) -> x < 0 -> compute_entityF fl line_mv one [d1; d2; d3; d4; d5; d6] = Ok [(0%N, x); (15%N, y)] ->
  (forall a b c d e f s t i j, exists v, compute_entityF fl log_mv one [s; t; a; b; c; d; e; f; i; j] = Ok v) -> exists e, motor_logF fl Code [d0; d1; d2; d3; d4; d5; d6; d7] = Ok e.
Proof.
  intros FO X E LO. unfold motor_logF. cbn [get nth_error bind]. unfold pga_motor_bivector, slice. cbn [length Nat.add Nat.leb firstn skipn bind combine map fst snd].
  change [3; 5; 6; 9; 10; 12]%N with lines. rewrite line_run, E. cbn [single bind get nth_error].
  change (select 4 [(0%N, x); (15%N, y)] 0) with (Ok x). change (select 4 [(0%N, x); (15%N, y)] 15) with (Ok y). cbn [bind].
  assert (S : 0 < sqrt (- x)) by (apply sqrt_lt_R0; lra). unfold sqrtF, Model_Float.fdiv, atan2F. rewrite Rlt_bool_false by lra. rewrite FO. cbn [bind]. set (q := sqrt (- x) * (1 + / 1024)). assert (Q : 0 < q) by (unfold q; lra). clearbody q.
  repeat first [rewrite FO | rewrite Req_bool_false by lra | progress cbn [bind]].
  destruct (Rlt_bool_spec (Rabs d0) (1 / 1000000 * (1 + / 1024))) as [L|L]; [|assert (d0 <> 0) by (intros ->; rewrite Rabs_R0 in L; lra)];
  repeat first [rewrite FO | rewrite Req_bool_false by assumption | progress cbn [bind]];
  rewrite logF_run; match goal with |- context[compute_entityF fl log_mv one [?s; ?t; ?a; ?b; ?c; ?d; ?e; ?f; ?i; ?j]] => destruct (LO a b c d e f s t i j) as (v & EV); rewrite EV end; exists v; reflexivity.
Qed.
Example C75_ex : INR 28 * / 1024 < 1 /\ rounds (/ 1024) off /\ / 1000000 <= (1 - / 1024) * Rabs 3 /\ exists e, motor_logF off Code [3; 1; 0; 4; 2; 0; 0; 5] = Ok e.
Proof.
  split; [cbn; lra|]. split; [exact off_rounds|]. split; [rewrite Rabs_pos_eq; lra|]. destruct line_off as (x & y & E & X). exact (log_runs off x y _ _ _ _ _ _ _ _ (fun r => eq_refl) X E log_off).
Qed.
Example C75_half_ex : INR 100 * / 1024 < 1 /\ rounds (/ 1024) off /\ Rabs 0 < (1 - / 1024) * / 1000000 /\ (exists e, motor_logF off Code [0; 1; 0; 4; 2; 0; 0; 5] = Ok e) /\ exists e, motor_logF off Code [0; 0; 0; 1; 0; 0; 0; 0] = Ok e.
Proof.
  split; [rewrite INR_IZR_INZ; cbn; lra|]. split; [exact off_rounds|]. split; [rewrite Rabs_R0; lra|]. destruct line_off as (x & y & E & X), line_off' as (x' & y' & E' & X').
  split; [exact (log_runs off x y _ _ _ _ _ _ _ _ (fun r => eq_refl) X E log_off)|exact (log_runs off x' y' _ _ _ _ _ _ _ _ (fun r => eq_refl) X' E' log_off)].
Qed.
(** a quarter turn in double *)
Section Quarter.
Variable F : R -> res R.
Hypothesis I : forall x z, x = IZR z -> (Z.abs z <= 9007199254740992)%Z -> F x = Ok (IZR z).
Variables x y : R.
Hypothesis X : F (x * 1) = Ok y.
Ltac step := match goal with
  | |- context[F (x * R0)] => rewrite (I (x * R0) 0) by (ring || lia)
  | |- context[F (x * 0)] => rewrite (I (x * 0) 0) by (ring || lia)
  | |- context[F (x * R1)] => change (F (x * R1)) with (F (x * 1)); rewrite X
  | |- context[F (x * 1)] => rewrite X
  | |- context[F ?z] => let k := to_z z in rewrite (I z k) by (try (change R1 with 1; change R0 with 0; lra); lia)
  end; cbn [bind].
Lemma quarter_line : exists a b, compute_entityF F line_mv one [0; 0; 1; 0; 0; 0] = Ok [(0%N, a); (15%N, b)] /\ a = -1 /\ b = 0.
Proof. do 2 eexists. split; [vm_compute; repeat step; reflexivity|]. split; reflexivity. Qed.
Lemma quarter_log : exists v, compute_entityF F log_mv one [x; 0; 0; 0; 1; 0; 0; 0; 1; 0] = Ok v.
Proof. eexists. vm_compute. repeat step. reflexivity. Qed.
Lemma quarter_run : F (atan2 1 1) = Ok x -> (exists c, F (1 / 1000000) = Ok c /\ c < 1) -> exists e, motor_logF F Code [1; 0; 0; 1; 0; 0; 0; 0] = Ok e.
Proof.
  intros A (c & C & L). unfold motor_logF. cbn [get nth_error bind]. unfold pga_motor_bivector, slice. cbn [length Nat.add Nat.leb firstn skipn bind combine map fst snd].
  change [3; 5; 6; 9; 10; 12]%N with lines. rewrite line_run. destruct quarter_line as (a & b & E & -> & ->). rewrite E. cbn [single bind get nth_error].
  change (select 4 [(0%N, -1); (15%N, 0)] 0) with (Ok (-1)). change (select 4 [(0%N, -1); (15%N, 0)] 15) with (Ok 0). cbn [bind].
  unfold sqrtF, Model_Float.fdiv, atan2F. rewrite Rlt_bool_false by lra. replace (- -1) with 1 by ring. rewrite sqrt_1. rewrite (I 1 1) by (reflexivity || lia). cbn [bind].
  rewrite (I (2 * 1) 2) by (lra || lia). cbn [bind]. rewrite Req_bool_false by lra. rewrite (I (- 0 / 2) 0) by (lra || lia). cbn [bind]. rewrite Req_bool_false by lra. rewrite (I (1 / 1) 1) by (lra || lia). cbn [bind].
  rewrite Req_bool_false by lra. rewrite (I (0 / -1) 0) by (lra || lia). cbn [bind]. rewrite C. cbn [bind]. rewrite Rlt_bool_false by (rewrite Rabs_R1; lra). rewrite A. cbn [bind]. rewrite ?(Req_bool_false 1) by lra. rewrite (I (0 / 1) 0) by (lra || lia). cbn [bind].
  rewrite logF_run. destruct quarter_log as (v & EV). rewrite EV. exists v. reflexivity.
Qed.
End Quarter.
Example C75_formats_ex : / 1000000 <= (1 - / 1024) * Rabs 1 /\ exists e, motor_logF ieee_double Code [1; 0; 0; 1; 0; 0; 0; 0] = Ok e.
Proof.
  split; [rewrite Rabs_R1; lra|]. pose proof PI_4 as P4. pose proof PI2_3_2 as P3.
  assert (G : forall k x, (-1000 <= k < 0)%Z -> bpow radix2 k <= x <= 1 -> exists y, ieee_double x = Ok y).
  { intros k x K X. destruct (ieee_range 53 (-1074) 1024 eq_refl k 0 x ltac:(lia) ltac:(lia) ltac:(lia)) as (y & E & _); [|now exists y].
    change (bpow radix2 0) with 1. pose proof (bpow_ge_0 radix2 k). rewrite Rabs_pos_eq by lra. exact X. }
  assert (RD : forall x y, ieee_double x = Ok y -> rel (roundoff 53) 1 y x) by (intros x y E; exact (fl_rel _ (proj2 (under_one 53 eq_refl)) _ (C68_ieee_rounds 53 _ _ eq_refl) _ _ E)).
  assert (U : 0 <= roundoff 53 <= / 1024) by (split; [apply bpow_ge_0|unfold roundoff; change (/ 1024) with (bpow radix2 (-10)); apply bpow_le; lia]).
  assert (NR : forall x y, 0 <= x -> ieee_double x = Ok y -> (1 - / 1024) * x <= y <= 1024 / 1023 * x).
  { intros x y X E. destruct (RD x y E) as (k & [K1 K2] & ->). cbn [pow] in K1, K2. rewrite Rmult_1_r in K1, K2. assert (/ (1 - roundoff 53) <= 1024 / 1023) by (replace (1024 / 1023) with (/ (1023 / 1024)) by field; apply Rinv_le_contravar; lra). split; nra. }
  assert (A : atan2 1 1 = PI / 4) by (unfold atan2; destruct (Rlt_dec 0 1) as [_|]; [|lra]; replace (1 / 1) with 1 by field; exact atan_1).
  destruct (G (-1)%Z (PI / 4) ltac:(lia)) as (x & EX); [change (bpow radix2 (-1)) with (/ 2); lra|]. assert (XB : / 2 <= x <= 1024 / 1023) by (destruct (NR (PI / 4) x ltac:(lra) EX); lra).
  assert (EY : exists y, ieee_double (x * 1) = Ok y).
  { rewrite Rmult_1_r. destruct (ieee_range 53 (-1074) 1024 eq_refl (-1) 1 x ltac:(lia) ltac:(lia) ltac:(lia)) as (y & E & _); [|now exists y]. change (bpow radix2 (-1)) with (/ 2). change (bpow radix2 1) with 2. rewrite Rabs_pos_eq by lra. lra. }
  destruct EY as (y & EY). destruct (G (-20)%Z (1 / 1000000) ltac:(lia)) as (c & EC); [change (bpow radix2 (-20)) with (/ 1048576); lra|].
  apply (quarter_run ieee_double double_integer x y EY); [rewrite A; exact EX|]. exists c. split; [exact EC|]. destruct (NR (1 / 1000000) c ltac:(lra) EC). lra.
Qed.
