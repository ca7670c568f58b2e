(** Rounding errors of the normalizations. *)
From Coq Require Import ZArith NArith List Bool Arith Reals Lia Lra.
Require Import Flocq.Core.Core.
From Verif Require Import Base Model_Numeric Model_Float Model_FloatGeo Spec_Float Spec_FloatGeo Proof_Numeric Proof_Float.
Import ListNotations.
Local Open Scope R_scope.

Section Error.
Variable u : R.
Hypotheses (u0 : 0 <= u) (u1 : u < 1).
Variable fl : R -> res R.
Hypothesis FL : rounds u fl.
Notation rel := (rel u).
Lemma rel_square x n a : rel n a x -> 0 <= x -> 0 <= a.
Proof. intros (e & [A B] & ->) X. apply Rmult_le_pos; [exact X|]. pose proof (pos u u1 n). lra. Qed.
Lemma rel_add n a' a b' b : rel n a' a -> rel n b' b -> 0 <= a -> 0 <= b -> rel n (a' + b') (a + b).
Proof.
  intros (e & [A1 A2] & ->) (f & [B1 B2] & ->) PA PB. destruct (Req_dec (a + b) 0) as [Z0|NZ].
  - assert (a = 0) by lra. assert (b = 0) by lra. subst. exists 1. pose proof (pow_le1 u u0 u1 n). pose proof (pos u u1 n). split; [|ring]. split; [lra|]. rewrite <- Rinv_1 at 1. apply Rinv_le; lra.
  - exists ((a * e + b * f) / (a + b)). assert (S0 : 0 < a + b) by lra. split; [|field; lra]. split.
    + apply Rmult_le_reg_r with (a + b); [exact S0|]. unfold Rdiv. rewrite Rmult_assoc, Rinv_l, Rmult_1_r by lra. nra.
    + apply Rmult_le_reg_r with (a + b); [exact S0|]. unfold Rdiv. rewrite (Rmult_assoc (a * e + b * f)), Rinv_l, Rmult_1_r by lra. nra.
Qed.
(** the root halves the number of roundings *)
Lemma rel_sqrt n a' a : rel (2 * n) a' a -> 0 <= a -> rel n (sqrt a') (sqrt a).
Proof.
  intros (e & [A B] & ->) P. pose proof (pos u u1 n) as PN. exists (sqrt e). assert (E0 : 0 < e) by (pose proof (pos u u1 (2 * n)); lra). split; [|now apply sqrt_mult; lra].
  assert (SQ : forall p, 0 <= p -> sqrt (p * p) = p) by (intros p; apply sqrt_square).
  assert (D : (1 - u) ^ (2 * n) = (1 - u) ^ n * (1 - u) ^ n) by (rewrite <- pow_add; f_equal; lia). rewrite D in A, B. split.
  - rewrite <- (SQ ((1 - u) ^ n)) by lra. now apply sqrt_le_1_alt.
  - rewrite <- (SQ (/ (1 - u) ^ n)) by (left; now apply Rinv_0_lt_compat). apply sqrt_le_1_alt. now rewrite Rinv_mult in B.
Qed.
Lemma length_rel x y z n : lengthF fl x y z = Ok n -> rel 3 n (sqrt (x * x + y * y + z * z)).
Proof.
  intros H. unfold lengthF, sqrtF in H. repeat minv H. destruct (Rlt_bool _ 0); [discriminate|].
  pose proof (Rle_0_sqr x) as X. pose proof (Rle_0_sqr y) as Y. pose proof (Rle_0_sqr z) as Z0. unfold Rsqr in *.
  apply (fl_rel u u1 fl FL) in E, E0, E2. apply (fl_rel u u1 fl FL) in H.
  assert (R1 : rel 2 v1 (x * x + y * y)) by (eapply (rel_trans u u1 1 1); [exact (fl_rel u u1 fl FL _ _ E1)|]; now apply rel_add).
  assert (R2 : rel 3 v3 (x * x + y * y + z * z)).
  { eapply (rel_trans u u1 1 2); [exact (fl_rel u u1 fl FL _ _ E3)|]. apply rel_add; auto; [|lra]. eapply (rel_mono u u0 u1 1); [lia|exact E2]. }
  eapply (rel_trans u u1 1 2); [exact H|]. apply rel_sqrt; [|lra]. eapply (rel_mono u u0 u1 3); [lia|exact R2].
Qed.
Lemma scaled_rel x y z l : scaled_xyzF fl x y z = Ok l ->
  Forall2 (rel 5) l [x / sqrt (x * x + y * y + z * z); y / sqrt (x * x + y * y + z * z); z / sqrt (x * x + y * y + z * z)].
Proof.
  intros H. unfold scaled_xyzF in H. repeat minv H. injection H as <-. apply length_rel in E. set (n := sqrt _) in *.
  apply (fl_div u u1 fl FL 0 3 1 1 _ n) in E0; [|apply rel_refl; assumption|exact E]. cbn [plus] in E0.
  assert (G : forall w w', fl (w * v0) = Ok w' -> rel 5 w' (w / n)).
  { intros w w' HW. unfold Rdiv in *. rewrite Rmult_1_l in E0. exact (fl_mul u u1 fl FL 0 4 w w v0 (/ n) w' (rel_refl u u0 u1 0 w) E0 HW). }
  repeat constructor; now apply G.
Qed.
End Error.

(** the length of what [normalize] computes *)
Lemma unit_rel u x y z a b c n : 0 <= u -> u < 1 -> x * x + y * y + z * z <> 0 ->
  let r := sqrt (x * x + y * y + z * z) in rel u n a (x / r) -> rel u n b (y / r) -> rel u n c (z / r) -> rel u n (sqrt (a * a + b * b + c * c)) 1.
Proof.
  intros u0 u1 NZ r RA RB RC. assert (R0 : 0 < r) by (apply sqrt_lt_R0; pose proof (Rle_0_sqr x); pose proof (Rle_0_sqr y); pose proof (Rle_0_sqr z); unfold Rsqr in *; lra).
  assert (RR : r * r = x * x + y * y + z * z) by (apply sqrt_sqrt; pose proof (Rle_0_sqr x); pose proof (Rle_0_sqr y); pose proof (Rle_0_sqr z); unfold Rsqr in *; lra).
  assert (O : sqrt (x / r * (x / r) + y / r * (y / r) + z / r * (z / r)) = 1).
  { replace (x / r * (x / r) + y / r * (y / r) + z / r * (z / r)) with ((x * x + y * y + z * z) / (r * r)) by (field; lra). rewrite <- RR. unfold Rdiv. rewrite Rinv_r by nra. apply sqrt_1. }
  rewrite <- O. pose proof (Rle_0_sqr (x / r)) as X. pose proof (Rle_0_sqr (y / r)) as Y. pose proof (Rle_0_sqr (z / r)) as Z0. unfold Rsqr in *.
  apply rel_sqrt; [assumption| |lra]. replace (2 * n)%nat with (n + n)%nat by lia.
  apply rel_add; auto; try lra; [apply rel_add; auto|]; apply rel_mul; auto.
Qed.

(** ** The range of the formats *)
Section Range.
Variables prec emin emax : Z.
Hypothesis P0 : (0 < prec)%Z.
Local Instance prec_pos : Prec_gt_0 prec := P0.
Notation fl := (ieee prec emin emax).
Notation B := (bpow radix2).
Lemma bpow_format e : (emin <= e)%Z -> generic_format radix2 (FLT_exp emin prec) (B e).
Proof. intros L. apply generic_format_bpow. unfold FLT_exp. lia. Qed.
Lemma ieee_range a b x : (emin + prec - 1 <= a)%Z -> (a <= b)%Z -> (b < emax)%Z -> B a <= Rabs x <= B b -> exists y, fl x = Ok y /\ B a <= Rabs y <= B b.
Proof.
  intros A AB LB [X1 X2]. pose proof (bpow_gt_0 radix2 a) as PA. unfold ieee. rewrite Req_bool_false by (intros ->; rewrite Rabs_R0 in X1; lra).
  rewrite Rle_bool_true by (eapply Rle_trans; [apply bpow_le; exact A|exact X1]).
  assert (Y1 : B a <= Rabs (round radix2 (FLT_exp emin prec) ZnearestE x)) by (apply abs_round_ge_generic; [typeclasses eauto|typeclasses eauto|apply bpow_format; lia|exact X1]).
  assert (Y2 : Rabs (round radix2 (FLT_exp emin prec) ZnearestE x) <= B b) by (apply abs_round_le_generic; [typeclasses eauto|typeclasses eauto|apply bpow_format; lia|exact X2]).
  rewrite Rlt_bool_true; [eexists; split; [reflexivity|split; assumption]|]. eapply Rle_lt_trans; [exact Y2|]. now apply bpow_lt.
Qed.
(** zero, or of a size between 2^a and 2^b *)
Lemma ieee_sized a b x : (emin + prec - 1 <= a)%Z -> (a <= b)%Z -> (b < emax)%Z -> sized a b x -> exists y, fl x = Ok y /\ sized a b y.
Proof.
  intros A AB LB [->|X]; [exists 0; split; [unfold ieee; now rewrite Req_bool_true|now left]|]. destruct (ieee_range a b x A AB LB X) as (y & E & Y). exists y. split; [exact E|now right].
Qed.
Lemma ieee_nonneg x y : fl x = Ok y -> 0 <= x -> 0 <= y.
Proof.
  unfold ieee. destruct (Req_bool x 0); [intros E; injection E as <-; lra|]. destruct (Rle_bool _ _); [|discriminate]. cbv zeta. destruct (Rlt_bool _ _); [|discriminate].
  intros E X. injection E as <-. apply round_ge_generic; [typeclasses eauto|typeclasses eauto|apply generic_format_0|exact X].
Qed.
Lemma ieee_pos x y : fl x = Ok y -> x <> 0 -> y <> 0.
Proof.
  intros H N E. subst y. unfold ieee in H. rewrite Req_bool_false in H by exact N. destruct (Rle_bool_spec (B (emin + prec - 1)) (Rabs x)) as [L|L]; [|discriminate]. cbv zeta in H. destruct (Rlt_bool _ _); [|discriminate].
  injection H as H. assert (G : B (emin + prec - 1) <= Rabs (round radix2 (FLT_exp emin prec) ZnearestE x)) by (apply abs_round_ge_generic; [typeclasses eauto|typeclasses eauto|apply bpow_format; lia|exact L]).
  rewrite H, Rabs_R0 in G. pose proof (bpow_gt_0 radix2 (emin + prec - 1)). lra.
Qed.
Variable k : Z.
Hypotheses (K0 : (0 <= k)%Z) (K1 : (emin + prec - 1 <= - (2 * k + 1))%Z) (K2 : (2 * k + 2 < emax)%Z).
Lemma square_ok x : sized (- k) k x -> exists y, fl (x * x) = Ok y /\ sized (- (2 * k)) (2 * k) y /\ 0 <= y /\ (x <> 0 -> B (- (2 * k)) <= y).
Proof.
  intros S. assert (SQ : sized (- (2 * k)) (2 * k) (x * x)).
  { destruct S as [->|[A C]]; [left; ring|right]. rewrite Rabs_mult. replace (- (2 * k))%Z with (- k + - k)%Z by lia. replace (2 * k)%Z with (k + k)%Z by lia. rewrite !bpow_plus.
    pose proof (bpow_gt_0 radix2 (- k)). pose proof (bpow_gt_0 radix2 k). split; apply Rmult_le_compat; lra. }
  destruct (ieee_sized (- (2 * k))%Z (2 * k)%Z _ ltac:(lia) ltac:(lia) ltac:(lia) SQ) as (y & E & Y). exists y. split; [exact E|]. split; [exact Y|].
  pose proof (ieee_nonneg _ _ E (Rle_0_sqr x)) as N. split; [exact N|]. intros NX. destruct Y as [->|[Y _]]; [|now rewrite Rabs_pos_eq in Y].
  exfalso. apply (ieee_pos _ _ E); [|reflexivity]. intros Q. apply NX. now apply Rsqr_eq_0.
Qed.
(** no operation of [normalize] leaves the range *)
Lemma length_ok x y z : sized (- k) k x -> sized (- k) k y -> sized (- k) k z -> x <> 0 \/ y <> 0 \/ z <> 0 ->
  exists n, lengthF fl x y z = Ok n /\ B (- k) <= n <= B (k + 1).
Proof.
  intros SX SY SZ NZ. destruct (square_ok x SX) as (a & EA & A1 & A2 & A3). destruct (square_ok y SY) as (b & EB & B1 & B2 & B3). destruct (square_ok z SZ) as (c & EC & C1 & C2 & C3).
  pose proof (bpow_gt_0 radix2 (- (2 * k))) as PK. pose proof (bpow_gt_0 radix2 (2 * k)) as PK2.
  assert (UP : forall s, sized (- (2 * k)) (2 * k) s -> 0 <= s -> s <= B (2 * k)) by (intros s [->|[_ S]] N; [lra|now rewrite Rabs_pos_eq in S]).
  assert (LO : forall s, sized (- (2 * k)) (2 * k) s -> 0 <= s -> s = 0 \/ B (- (2 * k)) <= s) by (intros s [->|[S _]] N; [now left|right; now rewrite Rabs_pos_eq in S]).
  assert (D1 : B (2 * k + 1) = 2 * B (2 * k)) by (rewrite bpow_plus; change (B 1) with 2; ring). assert (D2 : B (2 * k + 2) = 4 * B (2 * k)) by (rewrite bpow_plus; change (B 2) with 4; ring).
  assert (SAB : sized (- (2 * k)) (2 * k + 1) (a + b)).
  { destruct (Req_dec (a + b) 0) as [Z0|N0]; [now left|right]. rewrite Rabs_pos_eq by lra. split; [|rewrite D1; specialize (UP a A1 A2) as U1; specialize (UP b B1 B2); lra].
    destruct (LO a A1 A2), (LO b B1 B2); lra. }
  destruct (ieee_sized (- (2 * k))%Z (2 * k + 1)%Z _ ltac:(lia) ltac:(lia) ltac:(lia) SAB) as (ab & EAB & AB1). pose proof (ieee_nonneg _ _ EAB ltac:(lra)) as AB2.
  assert (AB3 : x <> 0 \/ y <> 0 -> B (- (2 * k)) <= ab).
  { intros N. destruct AB1 as [->|[L _]]; [|now rewrite Rabs_pos_eq in L]. exfalso. apply (ieee_pos _ _ EAB); [|reflexivity]. destruct N as [N|N]; [specialize (A3 N)|specialize (B3 N)]; lra. }
  assert (ABU : ab <= 2 * B (2 * k)) by (destruct AB1 as [->|[_ L]]; [lra|rewrite Rabs_pos_eq in L by lra; lra]).
  assert (S0 : B (- (2 * k)) <= Rabs (ab + c) <= B (2 * k + 2)).
  { rewrite Rabs_pos_eq by lra. rewrite D2. specialize (UP c C1 C2) as U1. split; [|lra]. destruct NZ as [N|[N|N]]; [pose proof (AB3 (or_introl N))|pose proof (AB3 (or_intror N))|pose proof (C3 N)]; lra. }
  destruct (ieee_range (- (2 * k))%Z (2 * k + 2)%Z _ ltac:(lia) ltac:(lia) ltac:(lia) S0) as (s & ES & S1 & S2). pose proof (ieee_nonneg _ _ ES ltac:(lra)) as SP. rewrite Rabs_pos_eq in S1, S2 by exact SP.
  assert (RT : B (- k) <= Rabs (sqrt s) <= B (k + 1)).
  { rewrite Rabs_pos_eq by apply sqrt_pos. assert (Q : forall e, sqrt (B (2 * e)) = B e) by (intros e; replace (2 * e)%Z with (e + e)%Z by lia; rewrite bpow_plus; apply sqrt_square, bpow_ge_0).
    rewrite <- (Q (- k)%Z), <- (Q (k + 1)%Z). replace (2 * (k + 1))%Z with (2 * k + 2)%Z by lia. replace (2 * - k)%Z with (- (2 * k))%Z by lia. split; now apply sqrt_le_1_alt. }
  destruct (ieee_range (- k)%Z (k + 1)%Z _ ltac:(lia) ltac:(lia) ltac:(lia) RT) as (n & EN & N1 & N2). pose proof (ieee_nonneg _ _ EN (sqrt_pos s)) as NP. rewrite Rabs_pos_eq in N1, N2 by exact NP.
  exists n. split; [|split; assumption]. unfold lengthF, sqrtF. rewrite EA. cbn [bind]. rewrite EB. cbn [bind]. rewrite EAB. cbn [bind]. rewrite EC. cbn [bind]. rewrite ES. cbn [bind].
  rewrite Rlt_bool_false by exact SP. exact EN.
Qed.
Lemma scaled_ok x y z : sized (- k) k x -> sized (- k) k y -> sized (- k) k z -> x <> 0 \/ y <> 0 \/ z <> 0 -> exists l, scaled_xyzF fl x y z = Ok l.
Proof.
  intros SX SY SZ NZ. destruct (length_ok x y z SX SY SZ NZ) as (n & EN & N1 & N2). pose proof (bpow_gt_0 radix2 (- k)) as PK.
  assert (INV : B (- (k + 1)) <= Rabs (1 / n) <= B k).
  { unfold Rdiv. rewrite Rmult_1_l, Rabs_pos_eq by (left; apply Rinv_0_lt_compat; lra). rewrite bpow_opp. replace k with (- - k)%Z at 2 by lia. rewrite bpow_opp. split; apply Rinv_le; lra. }
  destruct (ieee_range (- (k + 1))%Z k _ ltac:(lia) ltac:(lia) ltac:(lia) INV) as (v & EV & V1 & V2).
  assert (G : forall w, sized (- k) k w -> exists w', fl (w * v) = Ok w').
  { intros w SW. assert (SP : sized (- (2 * k + 1)) (2 * k) (w * v)).
    { destruct SW as [->|[W1 W2]]; [left; ring|right]. rewrite Rabs_mult. replace (- (2 * k + 1))%Z with (- k + - (k + 1))%Z by lia. replace (2 * k)%Z with (k + k)%Z by lia. rewrite !bpow_plus.
      pose proof (bpow_gt_0 radix2 (- (k + 1))). split; apply Rmult_le_compat; lra || apply Rabs_pos. }
    destruct (ieee_sized (- (2 * k + 1))%Z (2 * k)%Z _ ltac:(lia) ltac:(lia) ltac:(lia) SP) as (w' & E & _). now exists w'. }
  destruct (G x SX) as (x' & EX). destruct (G y SY) as (y' & EY). destruct (G z SZ) as (z' & EZ). exists [x'; y'; z'].
  unfold scaled_xyzF, fdiv. rewrite EN. cbn [bind]. rewrite Req_bool_false by lra. rewrite EV. cbn [bind]. rewrite EX. cbn [bind]. rewrite EY. cbn [bind]. rewrite EZ. reflexivity.
Qed.
(** half of a number of the format *)
Lemma half_exact x y : fl x = Ok x -> fl (1 / 2 * x) = Ok y -> y = 1 / 2 * x.
Proof.
  intros HX HY. unfold ieee in HY. destruct (Req_bool_spec (1 / 2 * x) 0) as [Z0|NZ]; [injection HY as <-; lra|]. destruct (Rle_bool_spec (B (emin + prec - 1)) (Rabs (1 / 2 * x))) as [L|L]; [|discriminate].
  cbv zeta in HY. destruct (Rlt_bool _ _); [|discriminate]. injection HY as <-.
  assert (FX : generic_format radix2 (FLT_exp emin prec) x).
  { unfold ieee in HX. destruct (Req_bool_spec x 0) as [E|_]; [rewrite E; apply generic_format_0|]. destruct (Rle_bool _ _); [|discriminate]. cbv zeta in HX. destruct (Rlt_bool _ _); [|discriminate].
    injection HX as HX. rewrite <- HX at 1. apply generic_format_round; typeclasses eauto. }
  apply round_generic; [typeclasses eauto|]. apply FLT_format_generic in FX; [|exact P0]. destruct FX as [f F1 F2 F3]. apply generic_format_FLT. exists (Float radix2 (Fnum f) (Fexp f - 1)).
  - rewrite F1. unfold F2R. cbn [Fnum Fexp]. replace (Fexp f - 1)%Z with (Fexp f + -1)%Z by lia. rewrite bpow_plus. change (B (-1)) with (/ 2). field.
  - exact F2.
  - cbn [Fexp]. destruct (Z_le_gt_dec (Fexp f) emin) as [LE|GT]; [exfalso|lia]. rewrite F1 in L. unfold F2R in L.
    assert (BB : B (Fexp f) <= B emin) by now apply bpow_le. assert (MM : Rabs (IZR (Fnum f)) < B prec).
    { rewrite <- abs_IZR. rewrite <- IZR_Zpower by lia. apply IZR_lt. exact F2. }
    rewrite !Rabs_mult in L. rewrite (Rabs_pos_eq (1 / 2)) in L by lra. rewrite (Rabs_pos_eq (B (Fexp f))) in L by apply bpow_ge_0.
    replace (emin + prec - 1)%Z with (emin + prec + -1)%Z in L by lia. rewrite !bpow_plus in L. change (B (-1)) with (/ 2) in L.
    pose proof (bpow_gt_0 radix2 (Fexp f)) as PE. pose proof (bpow_gt_0 radix2 prec). pose proof (Rabs_pos (IZR (Fnum f))).
    assert (Rabs (IZR (Fnum f)) * B (Fexp f) < B prec * B emin); [|lra]. apply Rlt_le_trans with (B prec * B (Fexp f)); [apply Rmult_lt_compat_r; lra|apply Rmult_le_compat_l; lra].
Qed.
End Range.
