From Coq Require Import NArith List Bool Lia ZifyN ZifyNat ZifyBool.
From Verif Require Import Base Model_Crc Spec_Crc.
Import ListNotations.
Local Open Scope N_scope.

Definition stp (x : N) : N := N.lxor (N.shiftr x 1) (if N.odd x then poly else 0).
Fixpoint stpn (n : nat) (x : N) : N := match n with O => x | S n' => stpn n' (stp x) end.

Lemma odd_lxor a b : N.odd (N.lxor a b) = xorb (N.odd a) (N.odd b).
Proof. rewrite <- !N.bit0_odd. apply N.lxor_spec. Qed.
Lemma stp_lin a b : stp (N.lxor a b) = N.lxor (stp a) (stp b).
Proof.
  unfold stp. rewrite odd_lxor, N.shiftr_lxor.
  destruct (N.odd a), (N.odd b); cbn [xorb];
  apply N.bits_inj; intros i; rewrite ?N.lxor_spec, ?N.bits_0;
  destruct (N.testbit _ i), (N.testbit _ i), (N.testbit poly i); reflexivity.
Qed.
Lemma stpn_lin n : forall a b, stpn n (N.lxor a b) = N.lxor (stpn n a) (stpn n b).
Proof. induction n; intros; simpl; [reflexivity|]. now rewrite stp_lin, IHn. Qed.
Lemma stp_double h : stp (N.shiftl h 1) = h.
Proof.
  unfold stp. rewrite N.shiftr_shiftl_l by lia. rewrite N.shiftl_0_r.
  rewrite <- N.bit0_odd, N.shiftl_spec_low by lia. apply N.lxor_0_r.
Qed.
Lemma stpn_shift n : forall h, stpn n (N.shiftl h (N.of_nat n)) = h.
Proof.
  induction n; intros; [now rewrite N.shiftl_0_r|]. cbn [stpn].
  replace (N.shiftl h (N.of_nat (S n))) with (N.shiftl (N.shiftl h (N.of_nat n)) 1).
  - now rewrite stp_double.
  - rewrite N.shiftl_shiftl. f_equal. lia.
Qed.

Lemma tbl_spec i : i < 256 -> tbl i = stpn 8 i.
Proof.
  intros H.
  assert (T : forallb (fun k => tbl (N.of_nat k) =? stpn 8 (N.of_nat k)) (seq 0 256) = true) by (vm_compute; reflexivity).
  rewrite forallb_forall in T. specialize (T (N.to_nat i)).
  rewrite in_seq, N2Nat.id in T. apply N.eqb_eq, T. lia.
Qed.

Lemma split8 x : x = N.lxor (N.shiftl (N.shiftr x 8) 8) (N.land x 0xff).
Proof.
  apply N.bits_inj. intros i. rewrite N.lxor_spec. change 0xff with (N.ones 8).
  destruct (N.ltb_spec i 8).
  - rewrite N.shiftl_spec_low, N.land_spec, N.ones_spec_low by lia. rewrite andb_true_r; destruct (N.testbit x i); reflexivity.
  - rewrite N.shiftl_spec_high', N.shiftr_spec', N.land_spec, N.ones_spec_high by lia.
    rewrite andb_false_r, xorb_false_r. f_equal. lia.
Qed.
Lemma low8_lt x : N.land x 0xff < 256.
Proof. change 0xff with (N.ones 8). rewrite N.land_ones. apply N.mod_lt. discriminate. Qed.
Lemma lxor_lt n a b : a < 2 ^ n -> b < 2 ^ n -> N.lxor a b < 2 ^ n.
Proof.
  intros Ha Hb. destruct (N.eq_dec (N.lxor a b) 0) as [E|E]; [rewrite E; apply N.neq_0_lt_0, N.pow_nonzero; lia|].
  apply N.log2_lt_pow2; [lia|].
  eapply N.le_lt_trans; [apply N.log2_lxor|].
  destruct (N.eq_dec n 0) as [->|].
  { simpl in *. assert (a = 0) by lia. assert (b = 0) by lia. subst. contradiction. }
  apply N.max_lub_lt.
  - destruct (N.eq_dec a 0) as [->|]; [simpl; lia|]. apply N.log2_lt_pow2; lia.
  - destruct (N.eq_dec b 0) as [->|]; [simpl; lia|]. apply N.log2_lt_pow2; lia.
Qed.

Lemma byte_step c b : b < 256 ->
  N.lxor (N.shiftr c 8) (tbl (N.lxor (N.land c 0xff) b)) = stpn 8 (N.lxor c b).
Proof.
  intros Hb. rewrite tbl_spec by (apply (lxor_lt 8); [apply low8_lt|exact Hb]).
  rewrite (split8 c) at 3. rewrite N.lxor_assoc, (stpn_lin 8 (N.shiftl _ _)). f_equal.
  symmetry. apply (stpn_shift 8).
Qed.

Lemma half_split x : x = N.lxor (N.b2n (N.odd x)) (N.shiftl (N.div2 x) 1).
Proof.
  rewrite N.div2_spec. apply N.bits_inj. intros i. rewrite N.lxor_spec.
  destruct (N.eq_dec i 0) as [->|].
  - rewrite N.shiftl_spec_low, N.b2n_bit0, N.bit0_odd, xorb_false_r by lia. reflexivity.
  - rewrite N.shiftl_spec_high', N.shiftr_spec' by lia.
    replace (N.testbit (N.b2n (N.odd x)) i) with false.
    + rewrite xorb_false_l. f_equal. lia.
    + symmetry. destruct i; [contradiction|]. destruct (N.odd x); reflexivity.
Qed.

Lemma bit_step_stp c b : bit_step c b = stp (N.lxor c (N.b2n b)).
Proof.
  unfold bit_step, stp. rewrite odd_lxor. destruct b; simpl N.b2n.
  - change (N.odd 1) with true. f_equal. rewrite N.shiftr_lxor. change (N.shiftr 1 1) with 0. now rewrite N.lxor_0_r.
  - change (N.odd 0) with false. now rewrite N.lxor_0_r.
Qed.

Lemma fold_bits : forall n c b, b < 2 ^ N.of_nat n -> fold_left bit_step (low_bits n b) c = stpn n (N.lxor c b).
Proof.
  induction n as [|n IH]; intros c b Hb.
  - simpl in *. replace b with 0 by lia. now rewrite N.lxor_0_r.
  - cbn [low_bits fold_left stpn].
    rewrite IH.
    + f_equal. rewrite bit_step_stp.
      rewrite (half_split b) at 3. rewrite <- N.lxor_assoc, (stp_lin (N.lxor c _)), stp_double. reflexivity.
    + rewrite N.div2_spec, N.shiftr_div_pow2. apply N.div_lt_upper_bound; [discriminate|].
      replace (N.of_nat (S n)) with (N.succ (N.of_nat n)) in Hb by lia. rewrite N.pow_succ_r' in Hb. exact Hb.
Qed.

Lemma low_bits_app a b x : low_bits (a + b) x = low_bits a x ++ low_bits b (N.shiftr x (N.of_nat a)).
Proof.
  revert x. induction a as [|a IH]; intros x; [reflexivity|].
  cbn [plus low_bits app]. f_equal. rewrite IH. f_equal. f_equal.
  rewrite N.div2_spec, N.shiftr_shiftr. f_equal. lia.
Qed.
Lemma low_bits_land n m x : (n <= m)%nat -> low_bits n (N.land x (N.ones (N.of_nat m))) = low_bits n x.
Proof.
  revert m x. induction n as [|n IH]; intros [|m] x H; try reflexivity; try lia.
  cbn [low_bits]. f_equal.
  - rewrite <- !N.bit0_odd, N.land_spec, N.ones_spec_low by lia. apply andb_true_r.
  - rewrite N.div2_spec, N.shiftr_land.
    replace (N.shiftr (N.ones (N.of_nat (S m))) 1) with (N.ones (N.of_nat m)).
    + rewrite IH by lia. now rewrite N.div2_spec.
    + apply N.bits_inj. intros i. rewrite N.shiftr_spec'.
      destruct (N.ltb_spec i (N.of_nat m)).
      * rewrite !N.ones_spec_low by lia. reflexivity.
      * rewrite !N.ones_spec_high by lia. reflexivity.
Qed.
Lemma crc_byte_bits c x : crc_byte (c, x) = (fold_left bit_step (low_bits 8 x) c, N.shiftr x 8).
Proof.
  unfold crc_byte. f_equal. rewrite byte_step by apply low8_lt.
  rewrite <- (low_bits_land 8 8) by lia. change (N.ones (N.of_nat 8)) with 0xff.
  rewrite (fold_bits 8); [reflexivity|]. apply low8_lt.
Qed.
Lemma crc32_bits x : crc32 x = crc_bits (low_bits 32 x).
Proof.
  unfold crc32. rewrite !crc_byte_bits. unfold crc_bits, not32.
  apply (f_equal (fun t => N.lxor t 0xffffffff)).
  change 32%nat with (8 + (8 + (8 + 8)))%nat. rewrite !low_bits_app, !fold_left_app.
  change (N.of_nat 8) with 8. change (N.lxor 0 0xffffffff) with 0xffffffff. reflexivity.
Qed.
Lemma crc32_8_bits x : x < 256 -> crc32_8 x = crc_bits (low_bits 8 x).
Proof.
  intros H. unfold crc32_8, crc_bits, not32.
  apply (f_equal (fun t => N.lxor t 0xffffffff)). rewrite byte_step by assumption.
  now rewrite (fold_bits 8).
Qed.

Lemma stp_lt x : x < 2 ^ 32 -> stp x < 2 ^ 32.
Proof.
  intros H. unfold stp. apply lxor_lt; [|destruct (N.odd x); reflexivity].
  rewrite N.shiftr_div_pow2. apply N.div_lt_upper_bound; [discriminate|]. change (2 ^ 1) with 2. lia.
Qed.
Lemma testbit31 x : x < 2 ^ 32 -> N.testbit (stp x) 31 = N.odd x.
Proof.
  intros H. unfold stp. rewrite N.lxor_spec, N.shiftr_spec'.
  replace (N.testbit x (31 + 1)) with false.
  - destruct (N.odd x); reflexivity.
  - symmetry. destruct (N.eq_dec x 0) as [->|]; [reflexivity|].
    apply N.bits_above_log2. apply N.log2_lt_pow2; [lia|]. exact H.
Qed.
Lemma stp_inj x y : x < 2 ^ 32 -> y < 2 ^ 32 -> stp x = stp y -> x = y.
Proof.
  intros Hx Hy E.
  assert (O : N.odd x = N.odd y) by (rewrite <- testbit31, <- (testbit31 y) by assumption; now rewrite E).
  unfold stp in E. rewrite O in E.
  assert (E2 : N.shiftr x 1 = N.shiftr y 1).
  { set (q := if N.odd y then poly else 0) in E.
    rewrite <- (N.lxor_0_r (N.shiftr x 1)), <- (N.lxor_0_r (N.shiftr y 1)), <- (N.lxor_nilpotent q).
    rewrite <- !N.lxor_assoc. now rewrite E. }
  rewrite (half_split x), (half_split y), !N.div2_spec, O, E2. reflexivity.
Qed.
Lemma stpn_inj n : forall x y, x < 2 ^ 32 -> y < 2 ^ 32 -> stpn n x = stpn n y -> x = y.
Proof.
  induction n; simpl; intros x y Hx Hy E; [assumption|].
  apply stp_inj; auto. apply IHn; auto using stp_lt.
Qed.
Lemma stpn_lt n : forall x, x < 2 ^ 32 -> stpn n x < 2 ^ 32.
Proof. induction n; simpl; intros; auto using stp_lt. Qed.
Lemma lxor_cancel_r a b c : N.lxor a c = N.lxor b c -> a = b.
Proof.
  intros E. rewrite <- (N.lxor_0_r a), <- (N.lxor_0_r b), <- (N.lxor_nilpotent c), <- !N.lxor_assoc. now rewrite E.
Qed.
Lemma crc32_stpn x : x < 2 ^ 32 -> crc32 x = N.lxor (stpn 32 (N.lxor 0xffffffff x)) 0xffffffff.
Proof. intros H. rewrite crc32_bits. unfold crc_bits. now rewrite (fold_bits 32). Qed.
Lemma crc32_inj x y : x < 2 ^ 32 -> y < 2 ^ 32 -> crc32 x = crc32 y -> x = y.
Proof.
  intros Hx Hy. rewrite !crc32_stpn by assumption. intros E. apply lxor_cancel_r in E.
  apply stpn_inj in E; [|apply lxor_lt; [reflexivity|assumption]..].
  rewrite !(N.lxor_comm 0xffffffff) in E. now apply lxor_cancel_r in E.
Qed.
Lemma crc32_lt x : x < 2 ^ 32 -> crc32 x < 2 ^ 32.
Proof.
  intros H. rewrite crc32_stpn by assumption. apply lxor_lt; [|reflexivity]. apply stpn_lt.
  apply lxor_lt; [reflexivity|assumption].
Qed.
Lemma crc32_8_inj x y : x < 256 -> y < 256 -> crc32_8 x = crc32_8 y -> x = y.
Proof.
  intros Hx Hy. rewrite !crc32_8_bits by assumption. unfold crc_bits.
  rewrite !(fold_bits 8) by assumption. intros E. apply lxor_cancel_r in E.
  assert (x < 2 ^ 32) by (change (2 ^ 32) with 4294967296; lia).
  assert (y < 2 ^ 32) by (change (2 ^ 32) with 4294967296; lia).
  apply stpn_inj in E; [|apply lxor_lt; [reflexivity|assumption]..].
  rewrite !(N.lxor_comm 0xffffffff) in E. now apply lxor_cancel_r in E.
Qed.
(** affine: the reason equal differences give equal checksum differences *)
Lemma crc32_affine x y z : x < 2 ^ 32 -> y < 2 ^ 32 -> z < 2 ^ 32 ->
  crc32 (N.lxor (N.lxor x y) z) = N.lxor (N.lxor (crc32 x) (crc32 y)) (crc32 z).
Proof.
  intros Hx Hy Hz. rewrite !crc32_stpn by (try apply lxor_lt; try apply lxor_lt; assumption).
  rewrite !stpn_lin. set (k := stpn 32 0xffffffff).
  apply N.bits_inj. intros i. rewrite !N.lxor_spec.
  repeat match goal with |- context [N.testbit ?a i] => destruct (N.testbit a i) end; reflexivity.
Qed.
