(** Integers are computed without rounding. *)
From Coq Require Import ZArith NArith List Bool Arith Lia ZifyBool ZifyN ZifyNat Reals Lra.
Require Import Flocq.Core.Core.
From Verif Require Import Base Model_Numeric Model_Blade Model_Sort Model_MV Model_Product Model_Expr Model_Dfa Model_Reshape Model_Engine Model_Compute Model_Float
  Spec_Numeric Spec_Clifford Spec_Basis Spec_MV Spec_Expr Spec_Build Spec_Dfa Spec_Engine Spec_Reshape Spec_Compute
  Proof_Numeric Proof_Layout Proof_Sum Proof_Ops3 Proof_Safe Proof_Basis Proof_ProductVal Proof_Val Proof_Ops Proof_Proper Proof_MVAlg Proof_MVFlat Proof_Dfa Proof_Dfa2 Proof_Ids Proof_Engine Proof_Engine2 Proof_Sim Proof_Engine3
  Proof_Float Proof_Float2.
From Verif Require Import Spec_MV Spec_Engine Spec_Float.
Import ListNotations.
Local Open Scope R_scope.

(** ** the IEEE formats *)
Lemma ieee_integers prec emin emax : (0 < prec)%Z -> (emin + prec <= 1)%Z -> (prec < emax)%Z -> keeps_integers (bpow radix2 prec) (ieee prec emin emax).
Proof.
  intros P EM EX z Z0. unfold ieee. destruct (Req_bool_spec (IZR z) 0) as [E|N0]; [now rewrite E|].
  assert (NZ : (z <> 0)%Z) by (intros ->; now apply N0).
  rewrite Rle_bool_true.
  2:{ apply Rle_trans with (bpow radix2 0); [apply bpow_le; lia|]. cbn. rewrite <- abs_IZR. apply IZR_le. lia. }
  assert (G : generic_format radix2 (FLT_exp emin prec) (IZR z)).
  { assert (P2 : (2 ^ prec)%Z = Zpower radix2 prec) by reflexivity.
    destruct (Rle_lt_or_eq_dec _ _ Z0) as [L|L].
    - apply generic_format_FLT. exists (Float radix2 z 0); cbn; [|rewrite <- abs_IZR in L; rewrite <- IZR_Zpower in L by lia; now apply lt_IZR in L|lia]. unfold F2R. cbn. ring.
    - assert (GB : generic_format radix2 (FLT_exp emin prec) (bpow radix2 prec)) by (apply generic_format_bpow; unfold FLT_exp; lia).
      rewrite <- L in GB. destruct (Rcase_abs (IZR z)) as [C|C].
      + rewrite Rabs_left in GB by assumption. apply generic_format_opp in GB. now rewrite Ropp_involutive in GB.
      + rewrite Rabs_right in GB by assumption. exact GB. }
  rewrite round_generic by (try apply valid_rnd_N; assumption). rewrite Rlt_bool_true; [reflexivity|]. eapply Rle_lt_trans; [exact Z0|]. now apply bpow_lt.
Qed.

Section Integers.
Variable B : R.
Variable fl : R -> res R.
Hypothesis KI : keeps_integers B fl.
(** an integer of magnitude at most [b] *)
Definition iv (b x : R) : Prop := is_integer x /\ Rabs x <= b.
Lemma iv_fl b x : iv b x -> b <= B -> fl x = Ok x.
Proof. intros [[z ->] L] H. apply KI. lra. Qed.
Lemma iv_mul a b x y : iv a x -> iv b y -> iv (a * b) (x * y).
Proof. intros [[z ->] L] [[w ->] K]. split; [exists (z * w)%Z; now rewrite mult_IZR|]. rewrite Rabs_mult. apply Rmult_le_compat; auto using Rabs_pos. Qed.
Lemma iv_add a b x y : iv a x -> iv b y -> iv (a + b) (x + y).
Proof. intros [[z ->] L] [[w ->] K]. split; [exists (z + w)%Z; now rewrite plus_IZR|]. eapply Rle_trans; [apply Rabs_triang|]. lra. Qed.
Lemma iv_mono a b x : a <= b -> iv a x -> iv b x. Proof. intros H [I L]. split; [exact I|lra]. Qed.
Lemma iv_pow M s n : iv M s -> iv (M ^ n) (s ^ n).
Proof. intros H. induction n; cbn [pow]; [split; [now exists 1%Z|rewrite Rabs_R1; lra]|]. now apply iv_mul. Qed.
Lemma iv_int z : iv (IZR (Z.abs z)) (IZR z).
Proof. split; [now exists z|]. rewrite abs_IZR. lra. Qed.
Section Power.
Variables M s : R.
Hypothesis M1 : 1 <= M.
Hypothesis S1 : iv M s.
Lemma fl_pow n k : (k <= n)%nat -> M ^ n <= B -> fl (s ^ k) = Ok (s ^ k).
Proof. intros K L. apply (iv_fl (M ^ k)); [now apply iv_pow|]. eapply Rle_trans; [|exact L]. now apply Rle_pow. Qed.
Lemma loop_int fuel n : M ^ n <= B -> forall (e i j : nat), (1 <= e)%nat -> (i + j * e <= n)%nat ->
  pow_loopF fl fuel (Z.of_nat e) (s ^ i) (s ^ j) = Ok (pow_loop fuel (Z.of_nat e) (s ^ i) (s ^ j)) /\
  ((Z.of_nat e < 2 ^ Z.of_nat fuel)%Z -> exists i' j', pow_loop fuel (Z.of_nat e) (s ^ i) (s ^ j) = (s ^ i', s ^ j') /\ (i' + j' <= n)%nat).
Proof.
  intros L. induction fuel as [|f IH]; intros e i j E1 N; cbn [pow_loopF pow_loop].
  - split; [reflexivity|]. cbn. lia.
  - destruct (Z.ltb_spec 1 (Z.of_nat e)) as [G|G].
    + assert (Hs : Z.shiftr (Z.of_nat e) 1 = Z.of_nat (e / 2)).
      { rewrite Z.shiftr_div_pow2 by lia. change (2 ^ 1)%Z with (Z.of_nat 2). now rewrite Nat2Z.inj_div. }
      assert (Hm : Z.land (Z.of_nat e) 1 = Z.of_nat (e mod 2)).
      { change 1%Z with (Z.ones 1) at 1. rewrite Z.land_ones by lia. change (2 ^ 1)%Z with (Z.of_nat 2). now rewrite Nat2Z.inj_mod. }
      rewrite Hs, Hm. pose proof (Nat.div_mod e 2 ltac:(lia)) as D. assert (MM : (e mod 2 < 2)%nat) by (apply Nat.mod_upper_bound; lia).
      set (k := (e / 2)%nat) in *. clearbody k. rewrite <- !pow_add.
      assert (FX : (Z.of_nat e < 2 ^ Z.of_nat (S f))%Z -> (Z.of_nat k < 2 ^ Z.of_nat f)%Z) by (rewrite Nat2Z.inj_succ, Z.pow_succ_r by lia; lia). rewrite (fl_pow n (j + j)) by (nia || exact L).
      destruct (e mod 2)%nat as [|[|?]] eqn:P; [| |lia]; cbn [Z.of_nat Z.eqb Pos.of_succ_nat Pos.eqb bind].
      * destruct (IH k i (j + j)%nat ltac:(lia) ltac:(nia)) as [I1 I2]. rewrite I1. split; [reflexivity|]. intros F. apply I2. exact (FX F).
      * rewrite (fl_pow n (i + j)) by (nia || exact L). cbn [bind]. destruct (IH k (i + j)%nat (j + j)%nat ltac:(lia) ltac:(nia)) as [I1 I2]. rewrite I1. split; [reflexivity|]. intros F. apply I2. exact (FX F).
    + split; [reflexivity|]. intros _. exists i, j. split; [reflexivity|]. nia.
Qed.
Lemma pow_int n : (1 <= n <= int_max)%Z -> M ^ Z.to_nat n <= B -> powF fl s n 1 = Ok (gal_pow s n 1).
Proof.
  intros Hn L. unfold powF, gal_pow. change (1 <? 1)%Z with false. cbv iota. replace (n =? -1)%Z with false by lia. replace (n <? 0)%Z with false by lia.
  destruct (n =? 1)%Z eqn:EN; [reflexivity|]. unfold pow_nonnegF, pow_nonneg. rewrite EN.
  assert (F : forall k, (k <= Z.to_nat n)%nat -> fl (s ^ k) = Ok (s ^ k)) by (intros; now apply (fl_pow (Z.to_nat n))).
  assert (F2 : (2 <= Z.to_nat n)%nat -> fl (s * s) = Ok (s * s)) by (intros K; specialize (F 2%nat K); cbn [pow] in F; now rewrite Rmult_1_r in F).
  assert (FK : forall k x, x = s ^ k -> (k <= Z.to_nat n)%nat -> fl x = Ok x) by (intros; subst; now apply F).
  destruct (Z.eqb_spec n 2) as [->|]; [apply (FK 2%nat); [ring|reflexivity]|].
  destruct (Z.eqb_spec n 3) as [->|]; [rewrite F2 by (cbn; lia); cbn [bind]; apply (FK 3%nat); [ring|reflexivity]|].
  destruct (Z.eqb_spec n 4) as [->|]; [rewrite F2 by (cbn; lia); cbn [bind]; apply (FK 4%nat); [ring|reflexivity]|].
  destruct (Z.eqb_spec n 5) as [->|]; [rewrite F2 by (cbn; lia); cbn [bind]; rewrite (FK 4%nat) by (ring || (cbn; lia)); cbn [bind]; apply (FK 5%nat); [ring|reflexivity]|].
  destruct (Z.eqb_spec n 6) as [->|]; [rewrite F2 by (cbn; lia); cbn [bind]; rewrite (FK 3%nat) by (ring || (cbn; lia)); cbn [bind]; apply (FK 6%nat); [ring|reflexivity]|].
  destruct (Z.eqb_spec n 7) as [->|]; [rewrite F2 by (cbn; lia); cbn [bind]; rewrite (FK 4%nat) by (ring || (cbn; lia)); cbn [bind]; rewrite (FK 6%nat) by (ring || (cbn; lia)); cbn [bind]; apply (FK 7%nat); [ring|reflexivity]|].
  destruct (Z.eqb_spec n 8) as [->|]; [rewrite F2 by (cbn; lia); cbn [bind]; rewrite (FK 4%nat) by (ring || (cbn; lia)); cbn [bind]; apply (FK 8%nat); [ring|reflexivity]|].
  destruct (loop_int 64 (Z.to_nat n) L (Z.to_nat n) 0 1 ltac:(lia) ltac:(lia)) as [I1 I2]. rewrite !Z2Nat.id in I1, I2 by lia. cbn [pow] in I1, I2. rewrite Rmult_1_r in I1, I2.
  rewrite I1. cbn [bind]. destruct (I2 ltac:(unfold int_max in Hn; cbn; lia)) as (i' & j' & -> & IJ). cbn [fst snd]. rewrite <- pow_add. now apply F.
Qed.
End Power.

(** ** monomials, sums and entities *)
Variable data : list R.
Hypothesis DI : Forall is_integer data.
Notation cell i := (nth (N.to_nat (id i)) data 0).
Notation big i := (Rmax 1 (Rabs (cell i)) ^ Z.to_nat (num (ideg i))).
Lemma cell_iv (i : ind) : iv (Rmax 1 (Rabs (cell i))) (cell i).
Proof.
  split; [|apply Rmax_r]. destruct (Nat.lt_ge_cases (N.to_nat (id i)) (length data)) as [L|L]; [|rewrite nth_overflow by assumption; now exists 0%Z].
  rewrite Forall_forall in DI. apply DI. now apply nth_In.
Qed.
Lemma big_ge (i : ind) : 1 <= big i. Proof. apply pow_R1_Rle, Rmax_l. Qed.
Lemma factor_int i : den (ideg i) = 1%Z -> (0 < num (ideg i) <= int_max)%Z -> (N.to_nat (id i) < length data)%nat -> (id i < ind_constant_start)%N -> big i <= B ->
  exists v, factor_valueF fl data i = Ok v /\ factor_value data i = Ok v /\ iv (big i) v.
Proof.
  intros D N L LC H. exists (gal_pow (cell i) (num (ideg i)) 1). unfold factor_valueF, factor_value, data_valueF, data_value. replace (ind_constant_start <=? id i)%N with false by lia.
  unfold get. rewrite (nth_error_nth' _ 0) by exact L. cbn [bind]. replace ((int_min <? num (ideg i))%Z && (num (ideg i) <=? int_max)%Z) with true by (unfold int_min in *; lia). rewrite D.
  split; [apply (pow_int (Rmax 1 (Rabs (cell i)))); [apply Rmax_l|apply cell_iv|lia|exact H]|]. split; [reflexivity|].
  rewrite gal_pow_int by (unfold int_min; lia). replace (powerRZ (cell i) (num (ideg i))) with (cell i ^ Z.to_nat (num (ideg i))); [apply iv_pow, cell_iv|]. destruct (num (ideg i)); try lia. reflexivity.
Qed.
Lemma prod_ge l : 1 <= Rprod (map (fun i => big i) l).
Proof. unfold Rprod. induction l as [|i l IH]; cbn [map fold_right]; [lra|]. pose proof (big_ge i). nra. Qed.
Definition good_ind (i : ind) : Prop := den (ideg i) = 1%Z /\ (0 < num (ideg i) <= int_max)%Z /\ (N.to_nat (id i) < length data)%nat /\ (id i < ind_constant_start)%N.
Lemma factors_int l : Forall good_ind l -> Rprod (map (fun i => big i) l) <= B ->
  exists vs, mapM (factor_valueF fl data) l = Ok vs /\ mapM (factor_value data) l = Ok vs /\ Forall2 (fun i v => iv (big i) v) l vs.
Proof.
  induction 1 as [|i l (D & N & L & LC) F IH]; intros H; cbn [mapM]; [exists []; repeat split; constructor|]. unfold Rprod in *. cbn [map fold_right] in H.
  pose proof (prod_ge l) as P. unfold Rprod in P. pose proof (big_ge i) as G. destruct (factor_int i D N L LC ltac:(nra)) as (v & V1 & V2 & V3). destruct (IH ltac:(nra)) as (vs & W1 & W2 & W3).
  exists (v :: vs). rewrite V1, V2, W1, W2. repeat split. now constructor.
Qed.
Lemma fold_int l vs : Forall2 (fun i v => iv (big i) v) l vs -> l <> [] -> Rprod (map (fun i => big i) l) <= B ->
  exists p, fold_right1F fl Rmult vs = Ok p /\ fold_right1 Rmult vs = Ok p /\ iv (Rprod (map (fun i => big i) l)) p.
Proof.
  induction 1 as [|i v l vs V F IH]; intros NE H; [contradiction|]. unfold Rprod in *. cbn [map fold_right] in *. pose proof (prod_ge l) as P. unfold Rprod in P. pose proof (big_ge i) as G.
  destruct F as [|i' v' l vs V' F].
  - exists v. cbn [fold_right1F fold_right1 map fold_right]. rewrite Rmult_1_r. auto.
  - destruct IH as (p & P1 & P2 & P3); [discriminate|nra|]. exists (v * p). change (fold_right1F fl Rmult (v :: v' :: vs)) with (y <- fold_right1F fl Rmult (v' :: vs);; fl (v * y)). change (fold_right1 Rmult (v :: v' :: vs)) with (y <- fold_right1 Rmult (v' :: vs);; Ok (v * y)).
    rewrite P1, P2. cbn [bind]. pose proof (iv_mul _ _ _ _ V P3) as W. split; [apply (iv_fl _ _ W); exact H|]. auto.
Qed.
Lemma scale_int q b v : den q = 1%Z -> num q <> 0%Z -> 1 <= b -> iv b v -> IZR (Z.abs (num q)) * b <= B ->
  scale_byF fl q v = Ok (scale_by q v) /\ iv (IZR (Z.abs (num q)) * b) (scale_by q v).
Proof.
  intros D N0 B1 V H. unfold scale_byF, scale_by. rewrite D. change (1 <? Z.abs 1)%Z with false. cbv iota. assert (1 <= IZR (Z.abs (num q))) by (apply IZR_le; lia).
  destruct (scales (num q)) eqn:S.
  - rewrite (iv_fl (IZR (Z.abs (num q)))) by (try apply iv_int; nra). cbn [bind]. pose proof (iv_mul _ _ _ _ (iv_int (num q)) V) as W. split; [now apply (iv_fl _ _ W)|exact W].
  - split; [reflexivity|]. eapply iv_mono; [|exact V]. nra.
Qed.
Lemma cmon_int x s o : mop x = mop_id -> integer_mon data s -> slice (inds x) o (length (sinds s)) = Ok (sinds s) -> mon_bound data s <= B ->
  exists v, cmon_valueF fl x data (mkmon (sq s) (sdeg s) (length (sinds s)) o) = Ok v /\ cmon_value x data (mkmon (sq s) (sdeg s) (length (sinds s)) o) = Ok v /\ iv (mon_bound data s) v.
Proof.
  intros O (D & N0 & F) SL H. unfold cmon_valueF, cmon_value, mon_bound in *. cbn [mq mcount ioff]. unfold is_zero. replace (num (sq s) =? 0)%Z with false by lia. rewrite O.
  pose proof (prod_ge (sinds s)) as P. assert (1 <= IZR (Z.abs (num (sq s)))) by (apply IZR_le; lia).
  destruct (length (sinds s) =? 0)%nat eqn:EL.
  - apply Nat.eqb_eq in EL. destruct (sinds s); [|discriminate]. unfold Rprod in *. cbn [map fold_right] in *. rewrite Rmult_1_r in *. exists (IZR (num (sq s))). unfold rat_castF, rat_cast. rewrite D.
    replace (IZR (num (sq s)) / 1) with (IZR (num (sq s))) by field.
    rewrite (iv_fl _ _ (iv_int (num (sq s))) H). cbn [bind]. rewrite (iv_fl 1 1) by (try (split; [now exists 1%Z|rewrite Rabs_R1]); lra). cbn [bind]. unfold fdiv. rewrite Req_bool_false by lra. replace (IZR (num (sq s)) / 1) with (IZR (num (sq s))) by field.
    rewrite (iv_fl _ _ (iv_int (num (sq s))) H). cbn [bind apply_mv_opF apply_mv_op]. repeat split; try reflexivity; apply iv_int.
  - rewrite SL. cbn [bind]. destruct (factors_int (sinds s)) as (vs & V1 & V2 & V3); [exact F|nra|]. rewrite V1, V2. cbn [bind].
    destruct (fold_int _ _ V3) as (p & P1 & P2 & P3); [intros Z0; rewrite Z0 in EL; discriminate|nra|]. rewrite P1, P2. cbn [bind].
    destruct (scale_int (sq s) _ p D N0 P P3 H) as [S1 S2]. rewrite S1. cbn [bind apply_mv_opF]. exists (scale_by (sq s) p). split; [reflexivity|]. split; [|exact S2].
    unfold scale_by. destruct (1 <? _)%Z; destruct (scales _); reflexivity.
Qed.
Lemma bound_ge s : integer_mon data s -> 1 <= mon_bound data s.
Proof. intros (D & N0 & F). unfold mon_bound. pose proof (prod_ge (sinds s)). assert (1 <= IZR (Z.abs (num (sq s)))) by (apply IZR_le; lia). nra. Qed.
Lemma cmons_int x rest : mop x = mop_id -> forall ms pre, Forall (integer_mon data) ms -> Rsum (map (mon_bound data) ms) <= B -> inds x = (pre ++ all_inds ms ++ rest)%list ->
  exists vs, mapM (cmon_valueF fl x data) (lay_mons (length pre) ms) = Ok vs /\ mapM (cmon_value x data) (lay_mons (length pre) ms) = Ok vs /\ Forall2 (fun s v => iv (mon_bound data s) v) ms vs.
Proof.
  intros O. induction ms as [|s ms IH]; intros pre F H E; cbn [lay_mons mapM]; [exists []; repeat split; constructor|]. inversion_clear F as [|? ? F1 F2]. unfold Rsum in *. cbn [map fold_right] in H.
  assert (P : 0 <= fold_right Rplus 0 (map (mon_bound data) ms)). { clear -F2. induction F2 as [|t l T F IH]; cbn [map fold_right]; [lra|]. pose proof (bound_ge t T). lra. }
  change (all_inds (s :: ms)) with (sinds s ++ all_inds ms)%list in E. rewrite <- app_assoc in E.
  destruct (cmon_int x s (length pre) O F1) as (v & V1 & V2 & V3); [rewrite E; apply slice_app|lra|]. pose proof (bound_ge s F1).
  destruct (IH (pre ++ sinds s)%list F2 ltac:(lra) ltac:(now rewrite <- app_assoc)) as (vs & W1 & W2 & W3). rewrite app_length in W1, W2.
  exists (v :: vs). rewrite V1, V2, W1, W2. repeat split. now constructor.
Qed.
Lemma sum_int ms vs : Forall2 (fun s v => iv (mon_bound data s) v) ms vs -> Forall (integer_mon data) ms -> ms <> [] -> Rsum (map (mon_bound data) ms) <= B ->
  exists p, fold_right1F fl Rplus vs = Ok p /\ fold_right1 Rplus vs = Ok p /\ iv (Rsum (map (mon_bound data) ms)) p.
Proof.
  induction 1 as [|s v ms vs V F IH]; intros G NE H; [contradiction|]. inversion_clear G as [|? ? G1 G2]. unfold Rsum in *. cbn [map fold_right] in *. pose proof (bound_ge s G1).
  destruct F as [|s' v' ms vs V' F].
  - exists v. cbn [fold_right1F fold_right1 map fold_right]. rewrite Rplus_0_r. auto.
  - destruct IH as (p & P1 & P2 & P3); [exact G2|discriminate|lra|]. exists (v + p). change (fold_right1F fl Rplus (v :: v' :: vs)) with (y <- fold_right1F fl Rplus (v' :: vs);; fl (v + y)). change (fold_right1 Rplus (v :: v' :: vs)) with (y <- fold_right1 Rplus (v' :: vs);; Ok (v + y)).
    rewrite P1, P2. cbn [bind]. pose proof (iv_add _ _ _ _ V P3) as W. split; [apply (iv_fl _ _ W); exact H|]. auto.
Qed.
Lemma cterm_int x tx pre t post q : mop x = mop_id -> packed x tx -> tx = (pre ++ t :: post)%list -> snd t <> [] -> Forall (integer_mon data) (snd t) ->
  num q <> 0%Z -> IZR (Z.abs (num q)) * Rsum (map (mon_bound data) (snd t)) <= B ->
  exists v, cterm_valueF fl x data (mkterm (length (snd t)) (length (all_mons pre)) (fst t)) = Ok v /\ cterm_value x data (mkterm (length (snd t)) (length (all_mons pre)) (fst t)) = Ok v /\
    iv (Rsum (map (mon_bound data) (snd t))) v /\ 1 <= Rsum (map (mon_bound data) (snd t)).
Proof.
  intros O P -> NE F N0 H. unfold cterm_valueF, cterm_value. cbn [moff tcount].
  destruct (pk_mons _ _ P) as [rm Em]. destruct (pk_inds _ _ P) as [ri Ei].
  rewrite all_mons_app, all_mons_cons in *. rewrite !all_inds_app in Ei. rewrite !lay_mons_app in Em. rewrite Em.
  replace (length (all_mons pre)) with (length (lay_mons 0 (all_mons pre))) by apply lay_mons_length.
  replace (length (snd t)) with (length (lay_mons (0 + length (all_inds (all_mons pre))) (snd t))) by apply lay_mons_length.
  rewrite <- !app_assoc, slice_app. cbn [bind]. rewrite <- !app_assoc in Ei.
  assert (G : 1 <= Rsum (map (mon_bound data) (snd t))).
  { destruct F as [|s l F1 F2]; [contradiction|]. unfold Rsum. cbn [map fold_right]. pose proof (bound_ge s F1). assert (0 <= fold_right Rplus 0 (map (mon_bound data) l)); [|lra]. clear -F2. induction F2 as [|t l T F IH]; cbn [map fold_right]; [lra|]. pose proof (bound_ge t T). lra. }
  assert (1 <= IZR (Z.abs (num q))) by (apply IZR_le; lia).
  destruct (cmons_int x _ O (snd t) (all_inds (all_mons pre)) F ltac:(nra) Ei) as (vs & V1 & V2 & V3). cbn [Nat.add]. rewrite V1, V2. cbn [bind].
  destruct (sum_int _ _ V3 F NE ltac:(nra)) as (p & P1 & P2 & P3). exists p. auto.
Qed.
Lemma entity_int x q tx : mop x = mop_id -> packed x tx -> den q = 1%Z -> num q <> 0%Z -> integer_terms B data q tx ->
  exists e, compute_entityF fl x q data = Ok e /\ compute_entity x q data = Ok e.
Proof.
  intros O P D N0 IT. unfold compute_entityF, compute_entity. rewrite (packed_slice _ _ P). cbn [bind].
  assert (G : forall ts pre, tx = (pre ++ ts)%list -> exists e,
    mapM (fun t => v <- cterm_valueF fl x data t;; w <- scale_byF fl q v;; Ok (elem t, w)) (lay_terms (length (all_mons pre)) ts) = Ok e /\
    mapM (fun t => v <- cterm_value x data t;; Ok (elem t, scale_by q v)) (lay_terms (length (all_mons pre)) ts) = Ok e).
  { induction ts as [|t ts IH]; intros pre Et; cbn [lay_terms mapM]; [exists []; auto|].
    assert (IN : In t tx) by (rewrite Et; apply in_elt). unfold integer_terms in IT. rewrite Forall_forall in IT. destruct (IT t IN) as (T1 & T2 & T3).
    destruct (cterm_int x tx pre t ts q O P Et T1 T2 N0 T3) as (v & V1 & V2 & V3 & V4). rewrite V1, V2. cbn [bind elem].
    destruct (scale_int q _ v D N0 V4 V3 T3) as [S1 _]. rewrite S1. cbn [bind]. destruct (IH (pre ++ [t])%list ltac:(now rewrite <- app_assoc)) as (e & E1 & E2).
    rewrite all_mons_app, app_length in E1, E2. replace (length (all_mons [t])) with (length (snd t)) in E1, E2 by (unfold all_mons; cbn [flat_map]; now rewrite app_nil_r).
    rewrite E1, E2. cbn [bind]. eauto. }
  exact (G tx [] eq_refl).
Qed.
End Integers.

(** programs without temporaries *)
Lemma entity_simF fl q data x y : sim x y -> to eq (compute_entityF fl x q data) (compute_entityF fl y q data).
Proof.
  intros A. unfold compute_entityF. rewrite (si_ts _ _ A), (si_t _ _ A).
  apply (to_bind eq); [apply to_same|]. intros ts ? <-. apply (mapM_to eq); [clear; induction ts; constructor; auto|]. intros t ? <-.
  eapply to_bind; [now apply ctermF_sim|]. intros v ? <-. apply to_same.
Qed.
Lemma entity_simR q data x y : sim x y -> to eq (compute_entity x q data) (compute_entity y q data).
Proof.
  intros A. unfold compute_entity. rewrite (si_ts _ _ A), (si_t _ _ A).
  apply (to_bind eq); [apply to_same|]. intros ts ? <-. apply (mapM_to eq); [clear; induction ts; constructor; auto|]. intros t ? <-.
  eapply to_bind; [now apply cterm_sim|]. intros v ? <-. now apply to_ok.
Qed.
Lemma to_back {A} (x y : res A) v : to eq x y -> y = Ok v -> x = Ok v.
Proof. intros T E. destruct x as [a|e]; cbn [to] in T; [destruct T as (b & E' & <-); congruence|congruence]. Qed.
Lemma concat_integers inputs : Forall (Forall is_integer) inputs -> Forall is_integer (concat inputs).
Proof. induction 1; cbn; [constructor|]. apply Forall_app. auto. Qed.
Lemma integer_app B data rest q tx : integer_terms B data q tx -> integer_terms B (data ++ rest) q tx.
Proof.
  intros H. eapply Forall_impl; [|exact H]. intros t (A & C & D). split; [exact A|]. split.
  - eapply Forall_impl; [|exact C]. intros s (S1 & S2 & S3). split; [exact S1|]. split; [exact S2|]. eapply Forall_impl; [|exact S3]. intros i (I1 & I2 & I3 & I4). rewrite app_length. repeat split; try assumption; lia.
  - replace (map (mon_bound (data ++ rest)) (snd t)) with (map (mon_bound data) (snd t)); [exact D|]. apply map_ext_in. intros s Hs. rewrite Forall_forall in C. destruct (C s Hs) as (S1 & S2 & S3).
    unfold mon_bound. f_equal. f_equal. apply map_ext_in. intros i Hi. rewrite Forall_forall in S3. destruct (S3 i Hi) as (I1 & I2 & I3 & I4). now rewrite app_nth1.
Qed.
Theorem compute_integers B fl md m nb ies inputs l q ys txs : keeps_integers B fl -> Forall (Forall is_integer) inputs ->
  den q = 1%Z -> num q <> 0%Z -> compiled md m nb ies (list_sum (map (@length R) inputs)) l = Ok (ys, []) -> Forall2 shows ys txs -> Forall (fun y => mop y = mop_id) ys ->
  Forall (integer_terms B (concat inputs) q) txs -> exists outs, computeF fl md m nb ies inputs l q = Ok outs /\ compute md m nb ies inputs l q = Ok outs.
Proof.
  intros KI DI D N0 C SH MO IT. unfold compiled in C. unfold computeF, compute. set (cnt := list_sum (map (@length R) inputs)) in *.
  minv C. rename v into ins. rewrite E. cbn [bind]. minv C. rename v into st. rewrite E0. cbn [bind]. minv C. rename v into ts. minv C. injection C as -> ->. cbn [bind].
  apply mapM_len in E1 as LT. cbn [length] in LT. destruct (r_temps st) eqn:ET; [|discriminate]. clear E1 LT.
  rewrite repeat_app. pose proof (fill_ok inputs [] (repeat 0 (N.to_nat (r_cnt st - N.of_nat cnt))) (repeat 0 cnt) (repeat_length _ _)) as FO. cbn [app length] in FO. rewrite FO. cbn [bind finalize_tempsF finalize_temps].
  set (data := (concat inputs ++ repeat 0 _)%list).
  assert (DD : Forall is_integer data). { apply Forall_app. split; [now apply concat_integers|]. apply Forall_forall. intros x Hx. apply repeat_spec in Hx as ->. now exists 0%Z. }
  assert (G : forall args ys, mapM (result_mv md m nb) args = Ok ys -> Forall2 shows ys txs -> Forall (fun y => mop y = mop_id) ys ->
    exists outs, mapM (finalize_entityF fl md m nb q data) args = Ok outs /\ mapM (finalize_entity md m nb q data) args = Ok outs).
  { clear -KI DD D N0 IT. induction IT as [|tx txs T IT IH]; intros args ys E SH MO.
    - inversion SH; subst. apply mapM_len in E. destruct args; [|discriminate]. exists []. auto.
    - inversion SH as [|y ? ys' ? (y' & SY & PY) SH']; subst. destruct args as [|x args]; [discriminate|]. cbn [mapM] in E |- *. minv E. minv E. injection E as -> ->. inversion_clear MO as [|? ? M1 M2].
      destruct (IH args ys' E1 SH' M2) as (outs & O1 & O2). rewrite O1, O2. unfold finalize_entityF, finalize_entity. rewrite E0. cbn [bind].
      destruct (entity_int B fl KI data DD y' q tx ltac:(now rewrite <- (si_o _ _ SY)) PY D N0 (integer_app _ _ _ _ _ T)) as (e & E2 & E3).
      rewrite (to_back _ _ _ (entity_simF fl q data y y' SY) E2), (to_back _ _ _ (entity_simR q data y y' SY) E3). cbn [bind]. eauto. }
  destruct (r_args st) as [|x args] eqn:EA; [exists [[]]; auto|]. exact (G _ _ E2 SH MO).
Qed.
