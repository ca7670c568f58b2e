(** Real-number meaning of the binary64 tests in overflow_gate, and its true error bound. *)
From Coq Require Import ZArith Reals Lra Lia ZifyBool Floats.SpecFloat.
Require Import Flocq.Core.Core Flocq.Prop.Relative Flocq.IEEE754.BinarySingleNaN.
From Verif Require Import Base Model_Numeric Spec_Numeric Proof_Numeric.
Open Scope R_scope.

Notation bf := (binary_float 53 1024).
Lemma Hp : Prec_gt_0 53. Proof. reflexivity. Qed.
Lemma Hm : Prec_lt_emax 53 1024. Proof. reflexivity. Qed.
#[local] Existing Instance Hp.
#[local] Existing Instance Hm.

Lemma round_nearest_even_equiv s m l : round_nearest_even m l = choice_mode mode_NE s m l.
Proof. destruct l as [|c]; [reflexivity|]. destruct c; try reflexivity. simpl. unfold Round.cond_incr. now case Z.even. Qed.

Lemma binary_round_aux_equiv sx mx ex lx :
  SpecFloat.binary_round_aux 53 1024 sx mx ex lx = binary_round_aux 53 1024 mode_NE sx mx ex lx.
Proof.
  unfold SpecFloat.binary_round_aux, binary_round_aux. destruct (shr_fexp _ _ _ _ _) as [mrs' e'].
  now rewrite (round_nearest_even_equiv sx).
Qed.
Lemma binary_round_equiv s m e :
  SpecFloat.binary_round 53 1024 s m e = binary_round 53 1024 mode_NE s m e.
Proof.
  unfold SpecFloat.binary_round, binary_round, shl_align_fexp.
  destruct (shl_align _ _ _). apply binary_round_aux_equiv.
Qed.
Lemma binary_normalize_equiv m e szero :
  SpecFloat.binary_normalize 53 1024 m e szero = B2SF (binary_normalize 53 1024 Hp Hm mode_NE m e szero).
Proof.
  destruct m; [reflexivity| |]; simpl; rewrite B2SF_SF2B; apply binary_round_equiv.
Qed.
Lemma SFdiv_equiv (x y : bf) : SFdiv 53 1024 (B2SF x) (B2SF y) = B2SF (Bdiv mode_NE x y).
Proof.
  destruct x as [sx|sx| |sx mx ex Bx], y as [sy|sy| |sy my ey By]; try reflexivity.
  simpl. rewrite B2SF_SF2B. destruct (SFdiv_core_binary _ _ _ _ _ _) as [[mz ez] lz].
  apply binary_round_aux_equiv.
Qed.

(** [x] is a finite binary64 number with value [v] *)
Definition fr (x : f64) (v : R) : Prop :=
  exists b : bf, x = B2SF b /\ is_finite b = true /\ B2R b = v.

Lemma fr_lt x y a b : fr x a -> fr y b -> f64_lt x y = Rlt_bool a b.
Proof.
  intros [bx [-> [Fx <-]]] [by_ [-> [Fy <-]]]. unfold f64_lt.
  change (SFltb (B2SF bx) (B2SF by_)) with (Bltb bx by_). now apply Bltb_correct.
Qed.

Lemma fr_opp x a : fr x a -> fr (SFopp x) (- a).
Proof.
  intros [bx [-> [Fx <-]]]. exists (Bopp bx). split; [now destruct bx|].
  rewrite is_finite_Bopp, B2R_Bopp. auto.
Qed.
Lemma fr_zero : fr (S754_zero false) 0.
Proof. exists (B754_zero false). auto. Qed.
Lemma fr_abs x a : fr x a -> fr (f64_abs x) (Rabs a).
Proof.
  intros H. unfold f64_abs. rewrite (fr_lt _ _ _ _ H fr_zero).
  destruct (Rlt_bool_spec a 0).
  - rewrite Rabs_left by assumption. now apply fr_opp.
  - rewrite Rabs_pos_eq by assumption. assumption.
Qed.

Lemma emin_eq : (SpecFloat.emin 53 1024 = -1074)%Z. Proof. reflexivity. Qed.

Lemma fr_of_Z z : (Z.abs z <= 2 ^ 53)%Z -> fr (f64_of_Z z) (IZR z).
Proof.
  intros Hz. unfold f64_of_Z. rewrite binary_normalize_equiv.
  eexists. split; [reflexivity|].
  pose proof (binary_normalize_correct 53 1024 Hp Hm mode_NE z 0 false) as C. cbv zeta in C.
  replace (F2R (Float radix2 z 0)) with (IZR z) in C by (unfold F2R; simpl; ring).
  assert (G : generic_format radix2 (SpecFloat.fexp 53 1024) (IZR z)).
  { apply generic_format_FLT. change (SpecFloat.emin 53 1024) with (-1074)%Z.
    destruct (Z.eq_dec (Z.abs z) (2 ^ 53)) as [E|E].
    - exists (Float radix2 (Z.sgn z) 53); simpl.
      + unfold F2R. simpl. rewrite <- mult_IZR. f_equal. change (Z.pow_pos 2 53) with (2 ^ 53)%Z. rewrite <- E. lia.
      + destruct z; simpl; lia.
      + lia.
    - exists (Float radix2 z 0); simpl; [unfold F2R; simpl; ring| |lia].
      change (Z.pow_pos 2 53) with (2 ^ 53)%Z. lia. }
  rewrite round_generic in C by (auto with typeclass_instances).
  rewrite Rlt_bool_true in C.
  - destruct C as [C1 [C2 _]]. auto.
  - rewrite <- abs_IZR. apply (Rle_lt_trans _ (IZR (2 ^ 53))); [now apply IZR_le|].
    change (2 ^ 53)%Z with (radix_val radix2 ^ 53)%Z. rewrite IZR_Zpower by lia. apply bpow_lt. lia.
Qed.

Lemma fr_div x y a b : fr x a -> fr y b -> b <> 0 ->
  bpow radix2 (-1000) <= Rabs (a / b) <= bpow radix2 1000 ->
  exists d, Rabs d <= bpow radix2 (-53) /\ fr (f64_div x y) (a / b * (1 + d)).
Proof.
  intros [bx [-> [Fx <-]]] [by_ [-> [Fy <-]]] Hb [L U]. unfold f64_div. rewrite SFdiv_equiv.
  pose proof (Bdiv_correct 53 1024 Hp Hm mode_NE bx by_ Hb) as C.
  destruct (relative_error_N_FLT_ex radix2 (SpecFloat.emin 53 1024) 53 Hp (fun x => negb (Z.even x)) (B2R bx / B2R by_)) as [d [Hd E]].
  { eapply Rle_trans; [|exact L]. apply bpow_le. change (SpecFloat.emin 53 1024) with (-1074)%Z. lia. }
  assert (Hd' : Rabs d <= bpow radix2 (-53)).
  { eapply Rle_trans; [exact Hd|]. right. simpl. lra. }
  change (round radix2 (FLT_exp (SpecFloat.emin 53 1024) 53) (Znearest (fun x : Z => negb (Z.even x))) (B2R bx / B2R by_))
    with (round radix2 (SpecFloat.fexp 53 1024) (round_mode mode_NE) (B2R bx / B2R by_)) in E.
  exists d. split; [exact Hd'|].
  rewrite Rlt_bool_true in C.
  - destruct C as [C1 [C2 _]]. eexists. split; [reflexivity|]. split; [congruence|]. now rewrite C1.
  - rewrite E, Rabs_mult. apply (Rle_lt_trans _ (bpow radix2 1000 * 2)).
    + apply Rmult_le_compat; try apply Rabs_pos; [exact U|].
      assert (bpow radix2 (-53) <= 1) by (change 1 with (bpow radix2 0); apply bpow_le; lia).
      assert (T := Rabs_triang 1 d). rewrite Rabs_R1 in T. lra.
    + change 2 with (bpow radix2 1). rewrite <- bpow_plus. apply bpow_lt. lia.
Qed.

Definition c1em7 : R := IZR 7555786372591432 * bpow radix2 (-76).
Lemma fr_1em7 : fr f64_1em7 c1em7.
Proof.
  assert (B : SpecFloat.bounded 53 1024 7555786372591432 (-76) = true) by (vm_compute; reflexivity).
  exists (B754_finite false _ _ B). repeat split.
Qed.
Lemma c1em7_bounds : c1em7 <= 1 / 10000000 + 1 / 10 ^ 22 /\ 1/ 10000000 - 1 / 10 ^ 22 <= c1em7.
Proof. unfold c1em7. simpl. split; lra. Qed.

(** ** the branch conditions, as real inequalities *)
Lemma gate_cases r r' : (1024 <= den r)%Z -> fits r -> Z.gcd (num r) (den r) = 1%Z ->
  overflow_gate Code r = Ok r' ->
  r' = r \/
  (r' = zero /\ Rabs (rv r) < 100001 / 10 ^ 12) \/
  (Rabs (rv r) / IZR (den r) < 100001 / 10 ^ 12 /\
   (((num r mod 2 = 1)%Z /\ (0 < num r)%Z /\ reduce (Z.quot (num r - 1) 2) (Z.quot (den r) 2) = Ok r') \/
    (((num r mod 2 = 0)%Z \/ (num r < 0)%Z) /\ reduce (Z.quot (num r) 2) (Z.quot (den r - 1) 2) = Ok r'))).
Proof.
  intros Hd [Fn Fd] G H. unfold overflow_gate in H.
  replace (den r <? 1024)%Z with false in H by lia.
  minv H. apply igcd_ok in E. subst v. rewrite G in H. replace (1 <? 1)%Z with false in H by reflexivity. cbv zeta in H.
  set (n := num r) in *. set (d := den r) in *.
  unfold in_int32, int_min, int_max in Fn, Fd.
  assert (Hn0 : (n <> 0)%Z). { intros E. rewrite E in G. simpl in G. lia. }
  assert (Rd : 1024 <= IZR d <= 2147483648) by (split; apply IZR_le; lia).
  assert (Rn : 1 <= Rabs (IZR n) <= 2147483648).
  { rewrite <- abs_IZR. split; apply IZR_le; lia. }
  assert (Q : Rabs (IZR n / IZR d) = Rabs (IZR n) / IZR d).
  { unfold Rdiv. rewrite Rabs_mult, Rabs_inv. f_equal. f_equal. apply Rabs_pos_eq. lra. }
  assert (B32 : bpow radix2 (-32) = / 4294967296) by (simpl; lra).
  assert (B53 : bpow radix2 (-53) <= / 10 ^ 15) by (simpl; lra).
  assert (Ql : / 4294967296 <= Rabs (IZR n / IZR d)).
  { rewrite Q. apply (Rmult_le_reg_r (IZR d)); [lra|]. unfold Rdiv. rewrite Rmult_assoc, Rinv_l by lra. lra. }
  assert (Qu : Rabs (IZR n / IZR d) <= 4294967296).
  { rewrite Q. apply (Rmult_le_reg_r (IZR d)); [lra|]. unfold Rdiv. rewrite Rmult_assoc, Rinv_l by lra. lra. }
  assert (bnd : forall x, / 4294967296 / 4294967296 <= x <= 4294967296 -> bpow radix2 (-1000) <= x <= bpow radix2 1000).
  { intros x [X1 X2]. split.
    - eapply Rle_trans; [|exact X1]. unfold Rdiv. rewrite <- B32, <- bpow_plus. apply bpow_le. lia.
    - eapply Rle_trans; [exact X2|]. replace 4294967296 with (bpow radix2 32) by (simpl; lra). apply bpow_le. lia. }
  pose proof (fr_of_Z n ltac:(lia)) as FN. pose proof (fr_of_Z d ltac:(lia)) as FD.
  destruct (fr_div _ _ _ _ FN FD ltac:(lra)) as [d1 [D1 F1]].
  { apply bnd. lra. }
  assert (d1s : Rabs (1 + d1) <= 1 + / 10 ^ 15 /\ 1 - / 10 ^ 15 <= Rabs (1 + d1)).
  { pose proof (Rle_trans _ _ _ D1 B53) as D. apply Rabs_le_inv in D. rewrite Rabs_pos_eq by lra. lra. }
  destruct (fr_div _ _ _ _ F1 FD ltac:(lra)) as [d2 [D2 F2]].
  { apply bnd.
    assert (X : Rabs (IZR n / IZR d * (1 + d1) / IZR d) = Rabs (IZR n / IZR d) * Rabs (1 + d1) * / IZR d).
    { set (q := IZR n / IZR d). unfold Rdiv. rewrite !Rabs_mult, Rabs_inv, (Rabs_pos_eq (IZR d)) by lra. reflexivity. }
    rewrite X. clear X.
    set (q := Rabs (IZR n / IZR d)) in *. set (t := Rabs (1 + d1)) in *.
    assert (q * t <= 4294967296 * 2) by (apply Rmult_le_compat; try (unfold q, t; apply Rabs_pos); lra).
    assert (/ 4294967296 * / 2 <= q * t) by (apply Rmult_le_compat; lra).
    assert (I1 : / 2147483648 <= / IZR d <= / 1024) by (split; apply Rinv_le; lra).
    split.
    - unfold Rdiv. replace (/ 4294967296 * / 4294967296) with ((/ 4294967296 * / 2) * / 2147483648) by lra.
      apply Rmult_le_compat; lra.
    - unfold Rdiv. apply (Rle_trans _ ((4294967296 * 2) * / 1024)); [apply Rmult_le_compat; lra|lra]. }
  pose proof (fr_abs _ _ F1) as A1. pose proof (fr_abs _ _ F2) as A2.
  rewrite (fr_lt _ _ _ _ A1 fr_1em7) in H.
  pose proof c1em7_bounds as [CB _].
  assert (d2s : 1 - / 10 ^ 15 <= Rabs (1 + d2)).
  { pose proof (Rle_trans _ _ _ D2 B53) as D. apply Rabs_le_inv in D. rewrite Rabs_pos_eq by lra. lra. }
  destruct (Rlt_bool_spec (Rabs (IZR n / IZR d * (1 + d1))) c1em7) as [L|L].
  { right; left. simpl in H. injection H as <-. split; [reflexivity|].
    unfold rv. fold n d. rewrite Rabs_mult in L. set (q := Rabs (IZR n / IZR d)) in *. set (t := Rabs (1 + d1)) in *.
    assert (q * (1 - / 10 ^ 15) <= q * t) by (apply Rmult_le_compat_l; lra). lra. }
  rewrite (fr_lt _ _ _ _ A2 fr_1em7) in H.
  destruct (Rlt_bool_spec (Rabs (IZR n / IZR d * (1 + d1) / IZR d * (1 + d2))) c1em7) as [L2|L2].
  2:{ left. now injection H. }
  right; right. split.
  { unfold rv. fold n d.
    assert (X0 : Rabs (IZR n / IZR d * (1 + d1) / IZR d * (1 + d2)) =
      Rabs (IZR n / IZR d) * Rabs (1 + d1) * / IZR d * Rabs (1 + d2)).
    { set (q := IZR n / IZR d). unfold Rdiv. rewrite !Rabs_mult, Rabs_inv, (Rabs_pos_eq (IZR d)) by lra. reflexivity. }
    rewrite X0 in L2. clear X0.
    set (q := Rabs (IZR n / IZR d)) in *. set (t := Rabs (1 + d1)) in *. set (u := Rabs (1 + d2)) in *.
    assert (I1 : 0 < / IZR d) by (apply Rinv_0_lt_compat; lra).
    assert (q * (1 - / 10 ^ 15) <= q * t) by (apply Rmult_le_compat_l; lra).
    assert (X : q * (1 - / 10 ^ 15) * / IZR d * (1 - / 10 ^ 15) <= q * t * / IZR d * u).
    { apply Rmult_le_compat; [|lra| |assumption].
      - apply Rmult_le_pos; [apply Rmult_le_pos; lra|lra].
      - apply Rmult_le_compat_r; lra. }
    unfold Rdiv at 1. set (w := q * / IZR d) in *.
    replace (q * (1 - / 10 ^ 15) * / IZR d * (1 - / 10 ^ 15)) with (w * ((1 - / 10 ^ 15) * (1 - / 10 ^ 15))) in X by (unfold w; ring).
    assert (0 < w) by (unfold w; apply Rmult_lt_0_compat; lra). lra. }
  fold n d in H. destruct (Z.rem n 2 =? 1)%Z eqn:P.
  - left. unfold rounding in H. repeat minv H. inv_all. subst. 
    assert (0 < n)%Z. { destruct (Z.lt_trichotomy 0 n) as [?|[?|?]]; [assumption|lia|].
      pose proof (Z.rem_nonpos n 2 ltac:(lia) ltac:(lia)). lia. }
    split; [rewrite Z.rem_mod_nonneg in P by lia; lia|]. split; [assumption|]. assumption.
  - right. unfold rounding in H. repeat minv H. inv_all. subst. split; [|assumption].
    destruct (Z.lt_trichotomy 0 n) as [?|[?|?]]; [|lia|lia].
    rewrite Z.rem_mod_nonneg in P by lia. left. pose proof (Z.mod_pos_bound n 2 ltac:(lia)). lia.
Qed.

(** ** error of the mediants *)
Lemma reduce_rv n d r : (d <> 0)%Z -> reduce n d = Ok r -> rv r = IZR n / IZR d.
Proof. intros Hd H. apply reduce_good in H; [|assumption]. apply rv_feq, H. Qed.

(** |a/b - c/e| = |a e - c b| / (b e) *)
Lemma frac_diff a b c e : 0 < b -> 0 < e -> Rabs (a / b - c / e) = Rabs (a * e - c * b) / (b * e).
Proof.
  intros Hb He. replace (a / b - c / e) with ((a * e - c * b) / (b * e)) by (field; lra).
  unfold Rdiv. rewrite Rabs_mult, Rabs_inv, (Rabs_pos_eq (b * e)); [reflexivity|].
  apply Rmult_le_pos; lra.
Qed.

Lemma div_le_div x y b : 0 < b -> x <= y -> x / b <= y / b.
Proof. intros. apply Rmult_le_compat_r; [left; now apply Rinv_0_lt_compat|assumption]. Qed.

(** value, error and bound in integers: err * B <= X suffices *)
Lemma err_int n d k m (X B : Z) : (0 < d)%Z -> (0 < m)%Z -> (0 < B)%Z ->
  (Z.abs (k * d - n * m) * B <= X * (m * d))%Z ->
  Rabs (IZR k / IZR m - IZR n / IZR d) <= IZR X / IZR B.
Proof.
  intros Hd Hm HB H. apply IZR_lt in Hd, Hm, HB. rewrite frac_diff by assumption.
  apply IZR_le in H. rewrite !mult_IZR, abs_IZR, minus_IZR, !mult_IZR in H.
  apply (Rmult_le_reg_r (IZR m * IZR d * IZR B)).
  { apply Rmult_lt_0_compat; [|assumption]. now apply Rmult_lt_0_compat. }
  replace (Rabs (IZR k * IZR d - IZR n * IZR m) / (IZR m * IZR d) * (IZR m * IZR d * IZR B))
    with (Rabs (IZR k * IZR d - IZR n * IZR m) * IZR B) by (field; lra).
  replace (IZR X / IZR B * (IZR m * IZR d * IZR B)) with (IZR X * (IZR m * IZR d)) by (field; lra).
  exact H.
Qed.

Lemma small_ratio n d (v := IZR n / IZR d) : (1024 <= d)%Z -> Rabs v / IZR d < 100001 / 10 ^ 12 ->
  IZR (Z.abs n) / IZR (d * (d - 1)) < 1002 / 10 ^ 10 /\ IZR (2 * Z.abs n) / IZR (d * (d - 2)) < 2004 / 10 ^ 10.
Proof.
  intros Hd H. unfold v in H. assert (D : 1024 <= IZR d) by now apply IZR_le.
  assert (E : Rabs (IZR n / IZR d) = IZR (Z.abs n) / IZR d).
  { unfold Rdiv. rewrite Rabs_mult, Rabs_inv, (Rabs_pos_eq (IZR d)), abs_IZR by lra. reflexivity. }
  rewrite E in H.
  set (a := IZR (Z.abs n)) in *. assert (A : 0 <= a) by (apply IZR_le; lia).
  assert (H' : a < 100001 / 10 ^ 12 * (IZR d * IZR d)).
  { apply (Rmult_lt_compat_r (IZR d * IZR d)) in H; [|nra].
    replace (a / IZR d / IZR d * (IZR d * IZR d)) with a in H by (field; lra). exact H. }
  rewrite !mult_IZR, !minus_IZR. fold a. split.
  - apply (Rmult_lt_reg_r (IZR d * (IZR d - 1))); [nra|].
    replace (a / (IZR d * (IZR d - 1)) * (IZR d * (IZR d - 1))) with a by (field; lra). nra.
  - apply (Rmult_lt_reg_r (IZR d * (IZR d - 2))); [nra|].
    replace (2 * a / (IZR d * (IZR d - 2)) * (IZR d * (IZR d - 2))) with (2 * a) by (field; lra). nra.
Qed.

(** The true error bound. *)
Lemma gate_true_bound r r' : (0 < den r)%Z -> fits r -> overflow_gate Code r = Ok r' ->
  Rabs (rv r' - rv r) <= Rmax (2004 / 10 ^ 10) (1 / (IZR (den r) - 2)) /\
  (Z.even (num r) = true -> Rabs (rv r' - rv r) <= 1002 / 10 ^ 10) /\
  (Rabs (rv r' - rv r) <= 1 / 1022).
Proof.
  intros Hd F H.
  assert (SUF : rv r' = rv r -> Rabs (rv r' - rv r) <= Rmax (2004 / 10 ^ 10) (1 / (IZR (den r) - 2)) /\
    (Z.even (num r) = true -> Rabs (rv r' - rv r) <= 1002 / 10 ^ 10) /\ (Rabs (rv r' - rv r) <= 1 / 1022)).
  { intros ->. rewrite Rminus_diag_eq, Rabs_R0 by reflexivity.
    split; [|split; intros; lra]. eapply Rle_trans; [|apply Rmax_l]. lra. }
  destruct (Z_lt_le_dec (den r) 1024) as [S|S].
  { apply SUF. rewrite gate_code_small in H by assumption. apply gate_exact in H; [|lia]. apply rv_feq, H. }
  pose proof (Z.gcd_nonneg (num r) (den r)) as G0.
  assert (G1 : Z.gcd (num r) (den r) <> 0%Z) by (intros E; apply Z.gcd_eq_0_r in E; lia).
  destruct (Z.eq_dec (Z.gcd (num r) (den r)) 1) as [G|G].
  2:{ apply SUF. rewrite gate_code_reducible in H by lia. apply gate_exact in H; [|lia]. apply rv_feq, H. }
  pose proof (gate_cases r r' S F G H) as C.
  destruct C as [->|[[-> C]|[C K]]]; [apply SUF; reflexivity| |].
  { assert (Z0 : rv zero = 0) by (unfold rv; simpl; lra). rewrite Z0.
    replace (0 - rv r) with (- rv r) by ring. rewrite Rabs_Ropp.
    split; [|split; intros; lra]. eapply Rle_trans; [|apply Rmax_l]. lra. }
  set (n := num r) in *. set (d := den r) in *. change (rv r) with (IZR n / IZR d) in *.
  destruct (small_ratio n d S C) as [S1 S2].
  assert (D : 1024 <= IZR d) by now apply IZR_le.
  (* it suffices to bound the error by one of the three quantities *)
  assert (MAIN : forall k m, (0 < m)%Z -> rv r' = IZR k / IZR m ->
    ((Z.abs (k * d - n * m) * (d * (d - 1)) <= Z.abs n * (m * d))%Z \/
     (Z.even n = false /\ (Z.abs (k * d - n * m) * (d * (d - 2)) <= 2 * Z.abs n * (m * d))%Z) \/
     (Z.even n = false /\ (Z.abs (k * d - n * m) * (d - 2) <= 1 * (m * d))%Z)) ->
    Rabs (rv r' - IZR n / IZR d) <= Rmax (2004 / 10 ^ 10) (1 / (IZR d - 2)) /\
    (Z.even n = true -> Rabs (rv r' - IZR n / IZR d) <= 1002 / 10 ^ 10) /\ (Rabs (rv r' - IZR n / IZR d) <= 1 / 1022)).
  { intros k m Hm -> Y. destruct Y as [Y|[[O Y]|[O Y]]]; apply err_int in Y; try nia.
    - assert (Rabs (IZR k / IZR m - IZR n / IZR d) <= 1002 / 10 ^ 10) by lra.
      split; [|split; intros; lra]. eapply Rle_trans; [|apply Rmax_l]. lra.
    - assert (Rabs (IZR k / IZR m - IZR n / IZR d) <= 2004 / 10 ^ 10) by lra.
      rewrite O. split; [|split; [discriminate|lra]]. eapply Rle_trans; [|apply Rmax_l]. lra.
    - rewrite O, minus_IZR in *. split; [|split; [discriminate|]].
      + eapply Rle_trans; [exact Y|apply Rmax_r].
      + eapply Rle_trans; [exact Y|]. unfold Rdiv. rewrite !Rmult_1_l. apply Rinv_le; lra. }
  assert (GO : (n mod 2 = 0)%Z -> (d mod 2 = 1)%Z).
  { intros E. pose proof (Z.mod_pos_bound d 2 ltac:(lia)). destruct (Z.eq_dec (d mod 2) 0) as [E2|]; [|lia].
    assert ((2 | Z.gcd n d)%Z) as [q Q] by (apply Z.gcd_greatest; apply Z.mod_divide; lia). lia. }
  assert (EV : Z.even n = false <-> (n mod 2 = 1)%Z).
  { rewrite Zmod_even. destruct (Z.even n); split; congruence || lia. }
  pose proof (Z.div_mod n 2 ltac:(lia)) as Dn. pose proof (Z.div_mod d 2 ltac:(lia)) as Dd.
  pose proof (Z.mod_pos_bound d 2 ltac:(lia)) as Bd. pose proof (Z.mod_pos_bound n 2 ltac:(lia)) as Bn.
  destruct K as [[O [P K]]|[P K]].
  - rewrite !Z.quot_div_nonneg in K by lia.
    replace ((n - 1) / 2)%Z with (n / 2)%Z in K by (Z.div_mod_to_equations; lia).
    set (k := (n / 2)%Z) in *. set (m := (d / 2)%Z) in *.
    apply (MAIN k m); [lia|apply reduce_rv in K; [exact K|lia]|].
    destruct (Z.eq_dec (d mod 2) 0) as [E|E].
    + right; right. split; [now apply EV|].
      replace (k * d - n * m)%Z with (- m)%Z by nia. rewrite Z.abs_opp, Z.abs_eq by lia. nia.
    + assert (E1 : (d mod 2 = 1)%Z) by lia.
      replace (k * d - n * m)%Z with (k - m)%Z by nia.
      destruct (Z_le_gt_dec k m) as [L|L].
      * right; right. split; [now apply EV|]. rewrite Z.abs_neq by lia. nia.
      * left. rewrite Z.abs_eq, (Z.abs_eq n) by lia.
        assert ((k - m) * (d - 1) <= n * m)%Z by nia. nia.
  - rewrite (Z.quot_div_nonneg (d - 1)) in K by lia.
    destruct (Z.eq_dec (n mod 2) 0) as [E|E].
    + specialize (GO E). replace ((d - 1) / 2)%Z with (d / 2)%Z in K by (Z.div_mod_to_equations; lia).
      assert (Qn : Z.quot n 2 = (n / 2)%Z).
      { rewrite Dn, E, Z.add_0_r at 1. rewrite Z.mul_comm, Z.quot_mul by lia. reflexivity. }
      rewrite Qn in K. set (k := (n / 2)%Z) in *. set (m := (d / 2)%Z) in *.
      apply (MAIN k m); [lia|apply reduce_rv in K; [exact K|lia]|]. left.
      replace (k * d - n * m)%Z with k by nia. nia.
    + assert (Hn : (n < 0)%Z) by lia. assert (O : (n mod 2 = 1)%Z) by lia.
      assert (Qn : Z.quot n 2 = (n / 2 + 1)%Z).
      { replace n with (- (- n))%Z by lia. rewrite Z.quot_opp_l by lia. rewrite Z.quot_div_nonneg by lia.
        Z.div_mod_to_equations; lia. }
      rewrite Qn in K. set (k := (n / 2 + 1)%Z) in *. assert (Hk : (n = 2 * k - 1)%Z) by lia.
      destruct (Z.eq_dec (d mod 2) 0) as [E0|E0].
      * replace ((d - 1) / 2)%Z with (d / 2 - 1)%Z in K by (Z.div_mod_to_equations; lia).
        set (m := (d / 2 - 1)%Z) in *. assert (Hdm : (d = 2 * m + 2)%Z) by lia.
        apply (MAIN k m); [lia|apply reduce_rv in K; [exact K|lia]|].
        replace (k * d - n * m)%Z with (2 * k + m)%Z by nia.
        destruct (Z_le_gt_dec (- (2 * k)) m) as [L|L].
        -- right; right. split; [now apply EV|].
           destruct (Z_le_gt_dec 0 k); [|].
           ++ assert (k = 0)%Z by lia. rewrite Z.abs_eq by lia. nia.
           ++ rewrite Z.abs_eq by lia. nia.
        -- right; left. split; [now apply EV|]. rewrite Z.abs_neq, (Z.abs_neq n) by lia. nia.
      * replace ((d - 1) / 2)%Z with (d / 2)%Z in K by (Z.div_mod_to_equations; lia).
        set (m := (d / 2)%Z) in *. assert (Hdm : (d = 2 * m + 1)%Z) by lia.
        apply (MAIN k m); [lia|apply reduce_rv in K; [exact K|lia]|].
        replace (k * d - n * m)%Z with (k + m)%Z by nia.
        destruct (Z_le_gt_dec (- k) m) as [L|L].
        -- right; right. split; [now apply EV|]. rewrite Z.abs_eq by lia. nia.
        -- left. rewrite Z.abs_neq, (Z.abs_neq n) by lia.
           assert (- (k + m) * (d - 1) <= - n * m)%Z by nia. nia.
Qed.
