(** Error bounds of the numeric evaluation with rounding. *)
From Coq Require Import ZArith NArith List Bool Arith Lia ZifyBool ZifyN ZifyNat Reals Lra.
Require Import Flocq.Core.Core Flocq.Prop.Relative.
From Verif Require Import Base Model_Numeric Model_Blade Model_MV Model_Product Model_Expr Model_Dfa Model_Engine Model_Float
  Spec_Numeric Spec_Clifford Spec_MV Spec_Engine Spec_Float
  Proof_Numeric Proof_Gens Proof_Blade Proof_Blade2 Proof_Blade3 Proof_Blade4
  Proof_Sort Proof_SortMap Proof_Layout Proof_Sum Proof_Val Proof_Collate Proof_Product Proof_CollateVal
  Proof_ProductVal Proof_Ops Proof_Ops2 Proof_Basis Proof_Ops3 Proof_Div Proof_Safe Proof_Poly Proof_Proper Proof_MVAlg Proof_MVFlat Proof_Dfa Proof_Dfa2 Proof_Ids Proof_Engine.
From Verif Require Import Spec_MV Spec_Float.
Import ListNotations.
Local Open Scope R_scope.

(** ** the IEEE formats round *)
Lemma ieee_rounds prec emin emax : (0 < prec)%Z -> rounds (roundoff prec) (ieee prec emin emax).
Proof.
  intros P x y H. unfold ieee in H. destruct (Req_bool_spec x 0) as [->|N0].
  - injection H as <-. exists 0. split; [rewrite Rabs_R0; apply bpow_ge_0|ring].
  - destruct (Rle_bool_spec (bpow radix2 (emin + prec - 1)) (Rabs x)) as [L|L]; [|discriminate].
    destruct (Rlt_bool _ _); [|discriminate]. injection H as <-.
    destruct (relative_error_N_FLT_ex radix2 emin prec P (fun n => negb (Z.even n)) x L) as (d & D1 & D2).
    exists d. split; [|exact D2]. eapply Rle_trans; [exact D1|]. unfold roundoff. apply Req_le.
    replace (- prec + 1)%Z with (1 + - prec)%Z by ring. rewrite bpow_plus. change (bpow radix2 1) with 2. lra.
Qed.

Lemma mapM_len {A B} (f : A -> res B) l : forall l', mapM f l = Ok l' -> length l' = length l.
Proof. induction l as [|a l IH]; intros l' H; cbn [mapM] in H; [now injection H as <-|]. minv H. minv H. injection H as <-. cbn [length]. f_equal. now apply IH. Qed.

(** ** accumulated factors *)
Section Rel.
Variable u : R.
Hypothesis u0 : 0 <= u.
Hypothesis u1 : u < 1.
(** [x'] is [x] after [n] roundings *)
Definition rel (n : nat) (x' x : R) : Prop := exists e, (1 - u) ^ n <= e <= / (1 - u) ^ n /\ x' = x * e.
Lemma pos n : 0 < (1 - u) ^ n. Proof. apply pow_lt. lra. Qed.
Lemma pow_le1 n : (1 - u) ^ n <= 1.
Proof. induction n; cbn [pow]; [lra|]. pose proof (pos n). nra. Qed.
Lemma pow_anti n m : (n <= m)%nat -> (1 - u) ^ m <= (1 - u) ^ n.
Proof. intros H. replace m with (n + (m - n))%nat by lia. rewrite pow_add. pose proof (pos n). pose proof (pow_le1 (m - n)). pose proof (pos (m - n)). nra. Qed.
Lemma rel_mono n m x' x : (n <= m)%nat -> rel n x' x -> rel m x' x.
Proof.
  intros H (e & [A B] & C). exists e. split; [|exact C]. pose proof (pow_anti n m H). split; [lra|]. eapply Rle_trans; [exact B|]. apply Rinv_le; [apply pos|assumption].
Qed.
Lemma rel_refl n x : rel n x x.
Proof. apply (rel_mono 0); [lia|]. exists 1. cbn. rewrite Rinv_1. split; lra. Qed.
Lemma rel_trans n m x y z : rel n x y -> rel m y z -> rel (n + m) x z.
Proof.
  intros (e & [A B] & ->) (f & [C D] & ->). exists (e * f). split; [|ring]. rewrite pow_add. pose proof (pos n). pose proof (pos m).
  split; [apply Rmult_le_compat; lra|]. rewrite Rinv_mult. apply Rmult_le_compat; lra.
Qed.
Lemma rel_mul n m a' a b' b : rel n a' a -> rel m b' b -> rel (n + m) (a' * b') (a * b).
Proof.
  intros (e & [A B] & ->) (f & [C D] & ->). exists (e * f). split; [|ring]. rewrite pow_add. pose proof (pos n). pose proof (pos m).
  split; [apply Rmult_le_compat; lra|]. rewrite Rinv_mult. apply Rmult_le_compat; lra.
Qed.
Lemma rel_inv n a' a : rel n a' a -> rel n (/ a') (/ a).
Proof.
  intros (e & [A B] & ->). pose proof (pos n). exists (/ e). split.
  - split.
    + rewrite <- (Rinv_inv ((1 - u) ^ n)). apply Rinv_le; [lra|exact B].
    + apply Rinv_le; [lra|exact A].
  - apply Rinv_mult.
Qed.
Lemma rel_abs n x' x : rel n x' x -> Rabs (x' - x) <= (/ (1 - u) ^ n - 1) * Rabs x.
Proof.
  intros (e & [A B] & ->). replace (x * e - x) with ((e - 1) * x) by ring. rewrite Rabs_mult. apply Rmult_le_compat_r; [apply Rabs_pos|].
  pose proof (pos n) as P. pose proof (pow_le1 n) as L. set (p := (1 - u) ^ n) in *.
  assert (p * / p = 1) by (apply Rinv_r; lra). assert (1 <= / p) by (rewrite <- Rinv_1; apply Rinv_le; lra).
  apply Rabs_le. split; [nra|lra].
Qed.
Lemma bernoulli n : 1 - INR n * u <= (1 - u) ^ n.
Proof. induction n as [|n IH]; [cbn; lra|]. rewrite S_INR. cbn [pow]. pose proof (pos_INR n). nra. Qed.
Lemma gamma_bound n : INR n * u < 1 -> / (1 - u) ^ n - 1 <= gamma u n.
Proof.
  intros H. unfold gamma. pose proof (bernoulli n) as B. apply Rle_trans with (/ (1 - INR n * u) - 1).
  - apply Rplus_le_compat_r. apply Rinv_le; lra.
  - right. field. lra.
Qed.

Section Eval.
Variable fl : R -> res R.
Hypothesis FL : rounds u fl.
Lemma fl_rel x y : fl x = Ok y -> rel 1 y x.
Proof.
  intros H. destruct (FL x y H) as (d & D & ->). apply Rabs_le_inv in D. exists (1 + d). split; [|reflexivity]. rewrite pow_1. split; [lra|].
  apply Rle_trans with (1 + u); [lra|]. apply Rmult_le_reg_r with (1 - u); [lra|]. rewrite Rinv_l by lra. nra.
Qed.
Lemma fl_mul n m a' a b' b y : rel n a' a -> rel m b' b -> fl (a' * b') = Ok y -> rel (n + m + 1) y (a * b).
Proof. intros A B H. replace (n + m + 1)%nat with (1 + (n + m))%nat by lia. eapply rel_trans; [apply fl_rel; exact H|]. now apply rel_mul. Qed.
Lemma fl_div n m a' a b' b y : rel n a' a -> rel m b' b -> fdiv fl a' b' = Ok y -> rel (n + m + 1) y (a / b).
Proof.
  intros A B H. unfold fdiv in H. destruct (Req_bool b' 0); [discriminate|]. unfold Rdiv in *. eapply fl_mul; [exact A| |exact H]. now apply rel_inv.
Qed.
Lemma pow_loop_rel fuel : forall (e : nat) t1 t2 T1 T2 x y p, (1 <= e)%nat -> (Z.of_nat e < 2 ^ Z.of_nat fuel)%Z -> rel x t1 T1 -> rel y t2 T2 ->
  pow_loopF fl fuel (Z.of_nat e) t1 t2 = Ok p ->
  exists A B x' y', rel x' (fst p) A /\ rel y' (snd p) B /\ A * B = T1 * T2 ^ e /\ (x' + y' + 1 <= x + e * (y + 1))%nat.
Proof.
  induction fuel as [|f IH]; intros e t1 t2 T1 T2 x y p E1 E2 A B H; [cbn in E2; lia|]. cbn [pow_loopF] in H.
  destruct (Z.ltb_spec 1 (Z.of_nat e)) as [G|G].
  - assert (Hs : Z.shiftr (Z.of_nat e) 1 = Z.of_nat (e / 2)).
    { rewrite Z.shiftr_div_pow2 by lia. change (2 ^ 1)%Z with (Z.of_nat 2). now rewrite Nat2Z.inj_div. }
    assert (Hm : Z.land (Z.of_nat e) 1 = Z.of_nat (e mod 2)).
    { change 1%Z with (Z.ones 1) at 1. rewrite Z.land_ones by lia. change (2 ^ 1)%Z with (Z.of_nat 2). now rewrite Nat2Z.inj_mod. }
    rewrite Hs, Hm in H. pose proof (Nat.div_mod e 2 ltac:(lia)) as D. assert (M : (e mod 2 < 2)%nat) by (apply Nat.mod_upper_bound; lia).
    rewrite Nat2Z.inj_succ, Z.pow_succ_r in E2 by lia. set (k := (e / 2)%nat) in *. clearbody k.
    destruct (e mod 2)%nat as [|[|?]] eqn:P; [| |lia]; cbn [Z.of_nat Z.eqb Pos.of_succ_nat Pos.eqb bind] in H; minv H.
    + pose proof (fl_mul _ _ _ _ _ _ _ B B E) as B2. destruct (IH k t1 v T1 (T2 * T2) x (y + y + 1)%nat p ltac:(lia) ltac:(lia) A B2 H) as (U & W & x' & y' & R1 & R2 & R3 & R4).
      exists U, W, x', y'. repeat split; try assumption.
      * rewrite R3. replace (T2 * T2) with (T2 ^ 2) by ring. rewrite <- pow_mult. f_equal. f_equal. lia.
      * nia.
    + minv H. pose proof (fl_mul _ _ _ _ _ _ _ A B E) as A2. pose proof (fl_mul _ _ _ _ _ _ _ B B E0) as B2.
      destruct (IH k v v0 (T1 * T2) (T2 * T2) (x + y + 1)%nat (y + y + 1)%nat p ltac:(lia) ltac:(lia) A2 B2 H) as (U & W & x' & y' & R1 & R2 & R3 & R4).
      exists U, W, x', y'. repeat split; try assumption.
      * rewrite R3. replace (T2 * T2) with (T2 ^ 2) by ring. rewrite <- pow_mult. replace e with (S (2 * k)) by lia. cbn [pow]. ring.
      * nia.
  - injection H as <-. cbn [fst snd]. exists T1, T2, x, y. repeat split; try assumption; replace e with 1%nat by lia; [ring|lia].
Qed.
Ltac muls H := repeat match type of H with bind _ _ = Ok _ => minv H end.
Lemma pow_nonneg_rel k s' s n y : (1 <= n <= int_max)%Z -> rel k s' s -> pow_nonnegF fl s' n = Ok y ->
  rel (Z.to_nat n * k + (if (n <=? 8)%Z then Z.to_nat n - 1 else Z.to_nat n)) y (s ^ Z.to_nat n).
Proof.
  intros Hn S H. unfold pow_nonnegF in H.
  destruct (Z.eqb_spec n 1) as [->|]; [injection H as <-; change (Z.to_nat 1) with 1%nat; rewrite pow_1; eapply rel_mono; [|exact S]; cbn; lia|].
  pose proof (fl_mul k k s' s s' s) as M.
  destruct (Z.eqb_spec n 2) as [->|].
  { specialize (M _ S S H). change (Z.to_nat 2) with 2%nat. replace (s ^ 2) with (s * s) by ring. eapply rel_mono; [|exact M]. cbn; lia. }
  destruct (Z.eqb_spec n 3) as [->|].
  { muls H. specialize (M _ S S E). pose proof (fl_mul _ _ _ _ _ _ _ M S H) as M3. change (Z.to_nat 3) with 3%nat. replace (s ^ 3) with (s * s * s) by ring. eapply rel_mono; [|exact M3]. cbn; lia. }
  destruct (Z.eqb_spec n 4) as [->|].
  { muls H. specialize (M _ S S E). pose proof (fl_mul _ _ _ _ _ _ _ M M H) as M3. change (Z.to_nat 4) with 4%nat. replace (s ^ 4) with (s * s * (s * s)) by ring. eapply rel_mono; [|exact M3]. cbn; lia. }
  destruct (Z.eqb_spec n 5) as [->|].
  { muls H. specialize (M _ S S E). pose proof (fl_mul _ _ _ _ _ _ _ M M E0) as M3. pose proof (fl_mul _ _ _ _ _ _ _ M3 S H) as M4. change (Z.to_nat 5) with 5%nat. replace (s ^ 5) with (s * s * (s * s) * s) by ring. eapply rel_mono; [|exact M4]. cbn; lia. }
  destruct (Z.eqb_spec n 6) as [->|].
  { muls H. specialize (M _ S S E). pose proof (fl_mul _ _ _ _ _ _ _ M S E0) as M3. pose proof (fl_mul _ _ _ _ _ _ _ M3 M3 H) as M4. change (Z.to_nat 6) with 6%nat. replace (s ^ 6) with (s * s * s * (s * s * s)) by ring. eapply rel_mono; [|exact M4]. cbn; lia. }
  destruct (Z.eqb_spec n 7) as [->|].
  { muls H. specialize (M _ S S E). pose proof (fl_mul _ _ _ _ _ _ _ M M E0) as M3. pose proof (fl_mul _ _ _ _ _ _ _ M3 M E1) as M4. pose proof (fl_mul _ _ _ _ _ _ _ M4 S H) as M5. change (Z.to_nat 7) with 7%nat. replace (s ^ 7) with (s * s * (s * s) * (s * s) * s) by ring. eapply rel_mono; [|exact M5]. cbn; lia. }
  destruct (Z.eqb_spec n 8) as [->|].
  { muls H. specialize (M _ S S E). pose proof (fl_mul _ _ _ _ _ _ _ M M E0) as M3. pose proof (fl_mul _ _ _ _ _ _ _ M3 M3 H) as M4. change (Z.to_nat 8) with 8%nat. replace (s ^ 8) with (s * s * (s * s) * (s * s * (s * s))) by ring. eapply rel_mono; [|exact M4]. cbn; lia. }
  minv H. rewrite <- (Z2Nat.id n) in E by lia.
  destruct (pow_loop_rel 64 (Z.to_nat n) 1 s' 1 s 0 k v ltac:(lia) ltac:(rewrite Z2Nat.id by lia; unfold int_max in Hn; cbn; lia) (rel_refl _ _) S E) as (U & W & x' & y' & R1 & R2 & R3 & R4).
  pose proof (fl_mul _ _ _ _ _ _ _ R1 R2 H) as M3. rewrite R3, Rmult_1_l in M3. replace (n <=? 8)%Z with false by lia. eapply rel_mono; [|exact M3]. nia.
Qed.
Lemma pow_rel k s' s n y : n <> 0%Z -> (int_min < n <= int_max)%Z -> rel k s' s -> powF fl s' n 1 = Ok y ->
  rel (Z.to_nat (Z.abs n) * k + pow_roundings n) y (powerRZ s n).
Proof.
  intros N0 Hn S H. unfold powF in H. change (1 <? 1)%Z with false in H. cbv iota in H. unfold pow_roundings.
  destruct (Z.eqb_spec n 1) as [->|N1]; [injection H as <-; rewrite powerRZ_1; eapply rel_mono; [|exact S]; cbn; lia|].
  destruct (Z.eqb_spec n (-1)) as [->|N2].
  { pose proof (fl_div _ _ _ _ _ _ _ (rel_refl 0 1) S H) as M. replace (powerRZ s (-1)) with (1 / s) by (change (powerRZ s (-1)) with (/ (s ^ 1)); rewrite pow_1; unfold Rdiv; ring). eapply rel_mono; [|exact M]. cbn; lia. }
  destruct (Z.ltb_spec n 0) as [L|L].
  - minv H. apply (pow_nonneg_rel k _ s) in E; [|unfold int_min, int_max in *; lia|exact S].
    pose proof (fl_div _ _ _ _ _ _ _ (rel_refl 0 1) E H) as M. replace (powerRZ s n) with (1 / s ^ Z.to_nat (- n)).
    + eapply rel_mono; [|exact M]. replace (Z.abs n) with (- n)%Z by lia. lia.
    + destruct n; try lia. cbn [powerRZ Z.opp]. change (Z.to_nat (Z.pos p)) with (Pos.to_nat p). unfold Rdiv. apply Rmult_1_l.
  - apply (pow_nonneg_rel k _ s) in H; [|lia|exact S]. replace (powerRZ s n) with (s ^ Z.to_nat n).
    + eapply rel_mono; [|exact H]. replace (Z.abs n) with n by lia. lia.
    + destruct n; try lia. reflexivity.
Qed.
(** ** monomials *)
Lemma factor_rel data i y : (length data <= N.to_nat ind_constant_start)%nat -> integral (ideg i) -> num (ideg i) <> 0%Z -> factor_valueF fl data i = Ok y ->
  rel (ind_roundings i) y (dpow (valuation data (id i)) (ideg i)).
Proof.
  intros L I N0 H. unfold factor_valueF in H. minv H. destruct (_ && _) eqn:G; [|discriminate]. rewrite I in H. rewrite dpow_int by exact I.
  assert (V : rel (if (ind_constant_start <=? id i)%N then 1 else 0) v (valuation data (id i))).
  { unfold data_valueF in E. pose proof (data_value_ok data (id i)) as D. unfold data_value in D. destruct (ind_constant_start <=? id i)%N.
    - minv E. rewrite <- (D _ L E0). now apply fl_rel.
    - rewrite <- (D _ L E). apply rel_refl. }
  apply (pow_rel _ _ _ _ _ N0 ltac:(lia) V) in H. unfold ind_roundings. eapply rel_mono; [|exact H]. destruct (ind_constant_start <=? id i)%N; lia.
Qed.
Lemma fold_rel vs : forall ws ns p, Forall2 (fun (w : nat * R) v => rel (fst w) v (snd w)) (combine ns ws) vs -> length ns = length ws -> fold_right1F fl Rmult vs = Ok p ->
  rel (list_sum ns + (length vs - 1)) p (Rprod ws).
Proof.
  induction vs as [|v vs IH]; intros ws ns p F LN H; [discriminate|]. destruct ns as [|n ns], ws as [|w ws]; try discriminate LN; cbn [combine] in F; inversion F as [|? ? ? ? F1 F2]; subst.
  cbn [fst snd] in F1. destruct vs as [|v' vs].
  - injection H as <-. inversion F2. destruct ns, ws; try discriminate; try discriminate LN. unfold Rprod. cbn [fold_right]. rewrite Rmult_1_r. eapply rel_mono; [|exact F1]. cbn; lia.
  - cbn [fold_right1F] in H. minv H. apply (IH ws ns) in E; [|exact F2|now injection LN]. pose proof (fl_mul _ _ _ _ _ _ _ F1 E H) as M.
    change (Rprod (w :: ws)) with (w * Rprod ws). eapply rel_mono; [|exact M]. cbn [list_sum fold_right length]. change (fold_right Nat.add 0%nat ns) with (list_sum ns). lia.
Qed.
Lemma factors_rel data l : forall vs, (length data <= N.to_nat ind_constant_start)%nat -> Forall (fun i => integral (ideg i)) l -> Forall (fun i => num (ideg i) <> 0%Z) l ->
  mapM (factor_valueF fl data) l = Ok vs ->
  Forall2 (fun (w : nat * R) v => rel (fst w) v (snd w)) (combine (map ind_roundings l) (map (fun i => dpow (valuation data (id i)) (ideg i)) l)) vs.
Proof.
  induction l as [|i l IH]; intros vs L A B H; cbn [mapM map combine] in *; [injection H as <-; constructor|].
  inversion_clear A as [|? ? A1 A2]. inversion_clear B as [|? ? B1 B2]. minv H. minv H. injection H as <-. constructor; [now apply factor_rel|]. now apply IH.
Qed.
Lemma rat_rel q y : rat_castF fl q = Ok y -> rel 3 y (rv q).
Proof.
  intros H. unfold rat_castF in H. minv H. minv H. apply fl_rel in E. apply fl_rel in E0. exact (fl_div _ _ _ _ _ _ _ E E0 H).
Qed.
Lemma scale_rel q n v' v y : num q <> 0%Z -> (0 < den q)%Z -> rel n v' v -> scale_byF fl q v' = Ok y -> rel (n + coefficient_roundings q) y (rv q * v).
Proof.
  intros N0 D0 V H. unfold scale_byF, coefficient_roundings in *. replace (1 <? Z.abs (den q))%Z with (negb (den q =? 1)%Z) in H by lia.
  replace (scales (num q)) with (negb (num q =? 1)%Z) in H by (unfold scales; lia).
  destruct (Z.eqb_spec (den q) 1) as [D|D], (Z.eqb_spec (num q) 1) as [M|M]; cbn [negb] in H; unfold rv; try rewrite D; try rewrite M.
  - injection H as <-. replace (1 / 1 * v) with v by field. now rewrite Nat.add_0_r.
  - minv H. apply fl_rel in E. pose proof (fl_mul _ _ _ _ _ _ _ E V H) as G. replace (IZR (num q) / 1) with (IZR (num q)) by field. eapply rel_mono; [|exact G]. lia.
  - minv H. apply fl_rel in E. pose proof (fl_div _ _ _ _ _ _ _ V E H) as G. replace (1 / IZR (den q) * v) with (v / IZR (den q)) by (unfold Rdiv; ring). eapply rel_mono; [|exact G]. lia.
  - minv H. apply rat_rel in E. pose proof (fl_mul _ _ _ _ _ _ _ E V H) as G. eapply rel_mono; [|exact G]. lia.
Qed.
Lemma cmon_rel x data s o v : (length data <= N.to_nat ind_constant_start)%nat -> mop x = mop_id -> storable s -> mon_ok s -> slice (inds x) o (length (sinds s)) = Ok (sinds s) ->
  cmon_valueF fl x data (mkmon (sq s) (sdeg s) (length (sinds s)) o) = Ok v -> rel (mon_roundings s) v (mon_val (valuation data) s).
Proof.
  intros L O (S1 & S2 & S3) (M1 & M2 & M3) SL H. unfold cmon_valueF in H. cbn [mq mcount ioff] in H. unfold is_zero in H.
  replace (num (sq s) =? 0)%Z with false in H by lia. unfold mon_val, mon_roundings. rewrite O in H.
  destruct (length (sinds s) =? 0)%nat eqn:EL.
  - apply Nat.eqb_eq in EL. destruct (sinds s); [|discriminate]. minv H. injection H as <-. apply rat_rel in E. unfold inds_val, Rprod. cbn [map fold_right]. now rewrite Rmult_1_r.
  - rewrite SL in H. cbn [bind] in H. minv H. rename v0 into vs. minv H. rename v0 into p. minv H. injection H as <-.
    pose proof (mapM_len _ _ _ E) as LV.
    apply (factors_rel data _ vs L M3 S3) in E. apply (fold_rel _ _ _ _ E) in E0; [|now rewrite !map_length].
    apply (scale_rel _ _ _ _ _ S1 S2 E0) in E1. fold (inds_val (valuation data) (sinds s)) in E1. destruct (sinds s) as [|i l] eqn:EI; [discriminate|]. eapply rel_mono; [|exact E1]. lia.
Qed.
(** ** sums: each summand with its own factor *)
Lemma sum_rel c vs : forall ws p, Forall2 (rel c) vs ws -> fold_right1F fl Rplus vs = Ok p ->
  exists ys, Forall2 (rel (c + (length vs - 1))) ys ws /\ p = Rsum ys.
Proof.
  induction vs as [|v vs IH]; intros ws p F H; [discriminate|]. inversion F as [|? w ? ws' F1 F2]; subst. destruct vs as [|v' vs].
  - injection H as <-. inversion F2; subst. exists [v]. split; [|unfold Rsum; cbn; ring]. constructor; [|constructor]. eapply rel_mono; [|exact F1]. lia.
  - cbn [fold_right1F] in H. minv H. destruct (IH ws' v0 F2 E) as (ys & Y1 & Y2). apply fl_rel in H. destruct H as (e & B & ->). exists (v * e :: map (fun y => y * e) ys). split.
    + constructor.
      * eapply rel_mono; [|eapply (rel_trans 1 c); [|exact F1]]; [cbn [length]; lia|]. now exists e.
      * clear -u0 u1 Y1 B. cbn [length] in *. induction Y1 as [|a b l l' A Y1 IH]; cbn [map]; constructor; auto.
        eapply rel_mono; [|eapply (rel_trans 1 (c + (S (length vs) - 1))); [|exact A]]; [lia|]. now exists e.
    + subst v0. unfold Rsum. cbn [map fold_right]. rewrite Rmult_plus_distr_r. f_equal. clear. induction ys as [|a l IH]; cbn [map fold_right]; [ring|]. rewrite <- IH. ring.
Qed.
Lemma sum_abs n ys ws : Forall2 (rel n) ys ws -> Rabs (Rsum ys - Rsum ws) <= (/ (1 - u) ^ n - 1) * Rsum (map Rabs ws).
Proof.
  unfold Rsum. induction 1 as [|y w ys ws A F IH]; cbn [map fold_right].
  - replace (0 - 0) with 0 by ring. rewrite Rabs_R0. lra.
  - replace (y + fold_right Rplus 0 ys - (w + fold_right Rplus 0 ws)) with ((y - w) + (fold_right Rplus 0 ys - fold_right Rplus 0 ws)) by ring.
    eapply Rle_trans; [apply Rabs_triang|]. apply rel_abs in A. lra.
Qed.
Lemma list_max_in l n : In n l -> (n <= list_max l)%nat.
Proof. induction l as [|a l IH]; intros []; cbn [list_max fold_right]; change (fold_right Nat.max 0%nat l) with (list_max l); [lia|]. specialize (IH H). lia. Qed.
Lemma cmons_rel x data rest : mop x = mop_id -> forall ms pre vs, (length data <= N.to_nat ind_constant_start)%nat -> Forall storable ms -> Forall mon_ok ms ->
  inds x = pre ++ all_inds ms ++ rest -> mapM (cmon_valueF fl x data) (lay_mons (length pre) ms) = Ok vs ->
  Forall2 (fun v s => rel (mon_roundings s) v (mon_val (valuation data) s)) vs ms.
Proof.
  intros O. induction ms as [|s ms IH]; intros pre vs L A B E H; cbn [lay_mons mapM] in H; [injection H as <-; constructor|].
  inversion_clear A as [|? ? A1 A2]. inversion_clear B as [|? ? B1 B2]. minv H. rename v into a. minv H. rename v into r. injection H as <-.
  change (all_inds (s :: ms)) with (sinds s ++ all_inds ms)%list in E. rewrite <- app_assoc in E. constructor.
  - apply (cmon_rel x data s (length pre) a L O A1 B1); [|assumption]. rewrite E. apply slice_app.
  - apply (IH (pre ++ sinds s)%list r L A2 B2); [now rewrite <- app_assoc|]. now rewrite app_length.
Qed.
Lemma cterm_rel x data tx pre t post v : (length data <= N.to_nat ind_constant_start)%nat -> mop x = mop_id -> packed x tx -> keep tx -> tx = (pre ++ t :: post)%list ->
  cterm_valueF fl x data (mkterm (length (snd t)) (length (all_mons pre)) (fst t)) = Ok v ->
  exists ys, Forall2 (rel (sum_roundings (snd t))) ys (map (mon_val (valuation data)) (snd t)) /\ v = Rsum ys.
Proof.
  intros L O P (K1 & K2 & K3) -> H. unfold cterm_valueF in H. cbn [moff tcount] in H.
  destruct (pk_mons _ _ P) as [rm Em]. destruct (pk_inds _ _ P) as [ri Ei].
  rewrite all_mons_app, all_mons_cons in *. rewrite !all_inds_app in Ei. rewrite !lay_mons_app in Em. rewrite Em in H.
  replace (length (all_mons pre)) with (length (lay_mons 0 (all_mons pre))) in H by apply lay_mons_length.
  replace (length (snd t)) with (length (lay_mons (0 + length (all_inds (all_mons pre))) (snd t))) in H by apply lay_mons_length.
  rewrite <- !app_assoc, slice_app in H. cbn [bind] in H. minv H. rename v0 into vs.
  rewrite <- !app_assoc in Ei. apply Forall_app in K2 as [_ K2]. apply Forall_app in K2 as [K2 _].
  unfold mv_ok in K1. rewrite all_mons_app, all_mons_cons in K1. apply Forall_app in K1 as [_ K1]. apply Forall_app in K1 as [K1 _].
  pose proof (mapM_len _ _ _ E) as LV. rewrite lay_mons_length in LV.
  eapply cmons_rel in E; [|exact O|exact L|exact K2|exact K1|exact Ei].
  apply (sum_rel (list_max (map mon_roundings (snd t))) vs (map (mon_val (valuation data)) (snd t))) in H.
  - rewrite LV in H. exact H.
  - clear -u0 u1 E. assert (G : forall n, (forall s, In s (snd t) -> (mon_roundings s <= n)%nat) -> Forall2 (rel n) vs (map (mon_val (valuation data)) (snd t))).
    { intros n. induction E as [|a s vs ms A E IH]; intros B; cbn [map]; constructor; [|apply IH; intros; apply B; now right]. eapply rel_mono; [|exact A]. apply B. now left. }
    apply G. intros s Hs. apply list_max_in. now apply in_map.
Qed.
(** a scaled sum *)
Lemma scaled_rel q n ys ws v : num q <> 0%Z -> (0 < den q)%Z -> Forall2 (rel n) ys ws -> scale_byF fl q (Rsum ys) = Ok v ->
  exists zs, Forall2 (rel (n + coefficient_roundings q)) zs (map (Rmult (rv q)) ws) /\ v = Rsum zs.
Proof.
  intros Q0 Q1 F H. apply (scale_rel q 0 _ (Rsum ys)) in H; [|assumption|assumption|apply rel_refl]. destruct H as (e & B & ->).
  exists (map (fun y => rv q * y * e) ys). split.
  - induction F as [|y w ys ws A F IH]; cbn [map]; constructor; [|exact IH].
    destruct A as (f & A & ->). rewrite Nat.add_comm. replace (rv q * (w * f) * e) with (rv q * w * f * e) by ring. eapply rel_trans; [exists e; split; [exact B|reflexivity]|]. exists f. split; [exact A|reflexivity].
  - clear. unfold Rsum. induction ys as [|a l IH]; cbn [map fold_right]; [ring|]. rewrite <- IH. ring.
Qed.
Lemma computed n q rho ms zs : INR n * u < 1 -> Forall2 (rel n) zs (map (Rmult (rv q)) (map (mon_val rho) ms)) ->
  Rabs (Rsum zs - rv q * mons_val rho ms) <= gamma u n * (Rabs (rv q) * mons_size rho ms).
Proof.
  intros L F. apply sum_abs in F.
  assert (S1 : Rsum (map (Rmult (rv q)) (map (mon_val rho) ms)) = rv q * mons_val rho ms).
  { unfold mons_val, Rsum. clear. induction ms as [|s l IH]; cbn [map fold_right]; [ring|]. rewrite IH. ring. }
  assert (S2 : Rsum (map Rabs (map (Rmult (rv q)) (map (mon_val rho) ms))) = Rabs (rv q) * mons_size rho ms).
  { unfold mons_size, Rsum. clear. induction ms as [|s l IH]; cbn [map fold_right]; [ring|]. rewrite IH, Rabs_mult. ring. }
  rewrite S1, S2 in F. eapply Rle_trans; [exact F|]. apply Rmult_le_compat_r; [|now apply gamma_bound].
  rewrite <- S2. clear. unfold Rsum. induction (map _ (map _ ms)) as [|a l IH]; cbn [map fold_right]; [lra|]. pose proof (Rabs_pos a). lra.
Qed.
(** ** entities *)
Lemma entity_rel x q data tx e : (length data <= N.to_nat ind_constant_start)%nat -> mop x = mop_id -> packed x tx -> keep tx -> num q <> 0%Z -> (0 < den q)%Z ->
  Forall (fun t : sterm => few_roundings u q (snd t)) tx -> compute_entityF fl x q data = Ok e ->
  Forall2 (fun p (t : sterm) => fst p = fst t /\ computed_for u (valuation data) q (snd t) (snd p)) e tx.
Proof.
  intros L O P K Q0 Q1 FR H. unfold compute_entityF in H. rewrite (packed_slice _ _ P) in H. cbn [bind] in H.
  assert (G : forall ts pre e, tx = (pre ++ ts)%list ->
    mapM (fun t => v <- cterm_valueF fl x data t;; w <- scale_byF fl q v;; Ok (elem t, w)) (lay_terms (length (all_mons pre)) ts) = Ok e ->
    Forall2 (fun p (t : sterm) => fst p = fst t /\ computed_for u (valuation data) q (snd t) (snd p)) e ts).
  { clear H e. induction ts as [|t ts IH]; intros pre e Et H; cbn [lay_terms mapM] in H.
    - injection H as <-. constructor.
    - minv H. rename v into a. minv H. rename v into r. injection H as <-. minv E. minv E. injection E as <-. constructor.
      + cbn [fst snd elem]. split; [reflexivity|]. destruct (cterm_rel x data tx pre t ts v L O P K Et E1) as (ys & Y & ->).
        destruct (scaled_rel q _ ys _ v0 Q0 Q1 Y E2) as (zs & Z1 & ->). unfold computed_for, roundings. apply computed; [|exact Z1].
        rewrite Forall_forall in FR. apply (FR t). rewrite Et. apply in_elt.
      + apply (IH (pre ++ [t])%list r); [now rewrite <- app_assoc|]. rewrite all_mons_app, app_length.
        replace (length (all_mons [t])) with (length (snd t)); [assumption|]. unfold all_mons. cbn [flat_map]. now rewrite app_nil_r. }
  exact (G tx [] e eq_refl H).
Qed.
End Eval.
End Rel.
