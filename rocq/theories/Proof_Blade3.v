(** Duality, pseudoscalar inverse, enumeration of even blades. *)
From Coq Require Import ZArith NArith List Bool Lia ZifyBool ZifyN ZifyNat Sorted Permutation.
From Verif Require Import Base Model_Numeric Model_Blade Spec_Clifford Proof_Gens Proof_Blade Proof_Blade2.
Import ListNotations.
Open Scope N_scope.

(** ** generators of 2a and 2a+1 *)
Lemma gens_double a : gens (2 * a) = map N.succ (gens a).
Proof.
  apply sorted_ext; [apply gens_sorted| |].
  - pose proof (gens_sorted a) as H. induction H as [|x u Hu IH Hx]; simpl; constructor; [assumption|].
    rewrite Forall_forall in *. intros y Hy. apply in_map_iff in Hy. destruct Hy as [z [<- Hz]].
    specialize (Hx z Hz). lia.
  - intros i. rewrite gens_In, in_map_iff. split.
    + intros H. destruct (N.eq_dec i 0) as [->|Hi].
      * rewrite N.testbit_even_0 in H. discriminate.
      * exists (N.pred i). split; [lia|]. apply gens_In.
        replace i with (N.succ (N.pred i)) in H by lia. now rewrite N.testbit_even_succ in H by lia.
    + intros [x [<- Hx]]. rewrite N.testbit_even_succ by lia. now apply gens_In.
Qed.

Lemma gens_double1 a : gens (2 * a + 1) = 0 :: map N.succ (gens a).
Proof.
  apply sorted_ext; [apply gens_sorted| |].
  - constructor.
    + rewrite <- gens_double. apply gens_sorted.
    + apply Forall_forall. intros y Hy. apply in_map_iff in Hy. destruct Hy as [z [<- Hz]]. lia.
  - intros i. cbn [In]. rewrite gens_In, in_map_iff. split.
    + intros H. destruct (N.eq_dec i 0) as [->|Hi]; [now left|right].
      exists (N.pred i). split; [lia|]. apply gens_In.
      replace i with (N.succ (N.pred i)) in H by lia. now rewrite N.testbit_odd_succ in H by lia.
    + intros [<-|[x [<- Hx]]]; [apply N.testbit_odd_0|].
      rewrite N.testbit_odd_succ by lia. now apply gens_In.
Qed.

Lemma inversions_map_succ u v : inversions (map N.succ u) (map N.succ v) = inversions u v.
Proof.
  induction u as [|i u IH]; [reflexivity|]. simpl map. rewrite !inversions_cons, IH. f_equal.
  clear. induction v as [|j v IH]; simpl; [reflexivity|].
  replace (N.succ j <? N.succ i) with (j <? i) by lia. destruct (j <? i); simpl; now rewrite IH.
Qed.

Lemma inversions_0_l v : inversions [0] (map N.succ v) = 0%nat.
Proof.
  rewrite inversions_cons. change (inversions [] _) with 0%nat. rewrite Nat.add_0_r.
  induction v; simpl; [reflexivity|]. now destruct a.
Qed.

Lemma filter_pos_map_succ (u : list N) : length (filter (fun i => 0 <? i) (map N.succ u)) = length u.
Proof.
  induction u; simpl; [reflexivity|]. replace (0 <? N.succ a) with true by lia. simpl. now rewrite IHu.
Qed.

Lemma pc_loop_add : forall f e s g, pc_loop f e s g = s + pc_loop f e 0 g.
Proof.
  induction f as [|f IH]; intros e s g; simpl; [lia|].
  destruct (0 <? e); [|lia]. destruct (N.land e 1 =? 0).
  - rewrite (IH _ (s + g)), (IH _ g). lia.
  - rewrite (IH _ s), (IH _ 0). lia.
Qed.

Lemma land1_even a : N.land (2 * a) 1 = 0.
Proof.
  apply N.bits_inj. intros i. rewrite N.land_spec, N.bits_0.
  destruct (N.eq_dec i 0) as [->|]; [now rewrite N.testbit_even_0|].
  replace (N.testbit 1 i) with false; [apply andb_false_r|].
  symmetry. apply N.bits_above_log2. simpl. lia.
Qed.
Lemma land1_odd a : N.land (2 * a + 1) 1 = 1.
Proof.
  apply N.bits_inj. intros i. rewrite N.land_spec.
  destruct (N.eq_dec i 0) as [->|]; [now rewrite N.testbit_odd_0|].
  replace (N.testbit 1 i) with false; [apply andb_false_r|].
  symmetry. apply N.bits_above_log2. simpl. lia.
Qed.
Lemma shiftr1_even a : N.shiftr (2 * a) 1 = a.
Proof. rewrite N.shiftr_div_pow2. rewrite N.mul_comm. apply N.div_mul. discriminate. Qed.
Lemma shiftr1_odd a : N.shiftr (2 * a + 1) 1 = a.
Proof. rewrite N.shiftr_div_pow2. change (2 ^ 1) with 2. symmetry. apply (N.div_unique _ 2 a 1); lia. Qed.

Lemma size_double a : a <> 0 -> N.size (2 * a) = N.succ (N.size a).
Proof. destruct a; [easy|reflexivity]. Qed.
Lemma size_double1 a : N.size (2 * a + 1) = N.succ (N.size a).
Proof. destruct a; reflexivity. Qed.

Lemma pow2_succ_m1 n : 2 ^ N.succ n - 1 = 2 * (2 ^ n - 1) + 1.
Proof.
  rewrite N.pow_succ_r'. assert (2 ^ n <> 0) by (apply N.pow_nonzero; lia). lia.
Qed.
Lemma lxor_double a b : N.lxor (2 * a) (2 * b) = 2 * N.lxor a b.
Proof.
  apply N.bits_inj. intros i. rewrite N.lxor_spec. destruct (N.eq_dec i 0) as [->|Hi].
  - now rewrite !N.testbit_even_0.
  - replace i with (N.succ (N.pred i)) by lia. now rewrite !N.testbit_even_succ, N.lxor_spec by lia.
Qed.
Lemma lxor_double1 a b : N.lxor (2 * a + 1) (2 * b) = 2 * N.lxor a b + 1.
Proof.
  apply N.bits_inj. intros i. rewrite N.lxor_spec. destruct (N.eq_dec i 0) as [->|Hi].
  - now rewrite N.testbit_even_0, !N.testbit_odd_0.
  - replace i with (N.succ (N.pred i)) by lia. now rewrite N.testbit_even_succ, !N.testbit_odd_succ, N.lxor_spec by lia.
Qed.
Lemma lxor_double11 a b : N.lxor (2 * a + 1) (2 * b + 1) = 2 * N.lxor a b.
Proof.
  apply N.bits_inj. intros i. rewrite N.lxor_spec. destruct (N.eq_dec i 0) as [->|Hi].
  - now rewrite N.testbit_even_0, !N.testbit_odd_0.
  - replace i with (N.succ (N.pred i)) by lia. now rewrite N.testbit_even_succ, !N.testbit_odd_succ, N.lxor_spec by lia.
Qed.

(** the loop counts the inversions between a blade and its complement *)
Lemma pc_loop_inversions : forall n e f, e < 2 ^ N.of_nat n -> (N.to_nat (N.size e) < f)%nat ->
  pc_loop f e 0 (pop_count e) =
  N.of_nat (inversions (gens e) (gens (N.lxor (2 ^ N.of_nat n - 1) e))).
Proof.
  induction n as [|n IH]; intros e f He Hf.
  - replace e with 0 by (simpl in He; lia). destruct f; reflexivity.
  - destruct f as [|f]; [lia|]. cbn [pc_loop].
    destruct (0 <? e) eqn:E.
    2:{ replace e with 0 by lia. reflexivity. }
    rewrite Nat2N.inj_succ in *. rewrite pow2_succ_m1.
    rewrite N.pow_succ_r' in He.
    destruct (N.Even_or_Odd e) as [[a ->]|[a ->]].
    + rewrite land1_even, shiftr1_even, lxor_double1. cbn [N.eqb].
      rewrite pc_loop_add. rewrite (size_double a) in Hf by lia.
      rewrite !pop_count_gens, gens_double, gens_double1, map_length, <- pop_count_gens.
      rewrite IH by lia. rewrite inversions_cons_r, inversions_map_succ, filter_pos_map_succ.
      rewrite pop_count_gens. lia.
    + rewrite land1_odd, shiftr1_odd, lxor_double11. rewrite size_double1 in Hf.
      replace (1 =? 0) with false by reflexivity.
      rewrite !pop_count_gens, gens_double, gens_double1. simpl length. rewrite map_length.
      replace (N.of_nat (S (length (gens a))) - 1) with (N.of_nat (length (gens a))) by lia.
      rewrite <- pop_count_gens, IH by lia.
      change (0 :: map N.succ (gens a)) with ([0] ++ map N.succ (gens a)).
      rewrite inversions_app, inversions_0_l, inversions_map_succ. reflexivity.
Qed.

Lemma complement_disjoint e n : e < 2 ^ n -> N.land e (N.lxor (2 ^ n - 1) e) = 0.
Proof.
  intros H. apply N.bits_inj. intros i. rewrite N.land_spec, N.lxor_spec, ones_bits, N.bits_0.
  destruct (N.testbit e i) eqn:T; [|reflexivity].
  destruct (N.ltb_spec i n); [reflexivity|].
  exfalso. assert (N.testbit e i = false); [|congruence].
  destruct (N.eq_dec e 0) as [->|]; [apply N.bits_0|].
  apply N.bits_above_log2. apply N.log2_lt_pow2 in H; lia.
Qed.

Lemma poincare_sign e n : e < 2 ^ n ->
  snd (poincare_complement e n) =
  neg1_pow (inversions (gens e) (gens (N.lxor (2 ^ n - 1) e))).
Proof.
  intros H. unfold poincare_complement. cbn [snd].
  rewrite <- (N2Nat.id n) in H |- *. rewrite (pc_loop_inversions (N.to_nat n)); [|assumption|apply fuel_for_ok].
  now rewrite sign_of_neg1_pow, Nat2N.id.
Qed.

(** e ^ !e = pseudoscalar *)
Lemma poincare_wedge e n : e < 2 ^ n ->
  let '(c, s) := poincare_complement e n in
  fst (exterior e c) = 2 ^ n - 1 /\ (s * snd (exterior e c) = 1)%Z.
Proof.
  intros H. pose proof (poincare_sign e n H) as S.
  destruct (poincare_complement e n) as [c s] eqn:P.
  assert (c = N.lxor (2 ^ n - 1) e) as -> by (unfold poincare_complement in P; congruence).
  simpl in S. subst s. rewrite exterior_closed, complement_disjoint by assumption. simpl.
  split.
  - rewrite (N.lxor_comm e), N.lxor_assoc, N.lxor_nilpotent. apply N.lxor_0_r.
  - apply neg1_pow_sq.
Qed.

Lemma grade_full n : grade (2 ^ n - 1) = N.to_nat n.
Proof.
  induction n as [|n IH] using N.peano_ind; [reflexivity|].
  rewrite pow2_succ_m1. unfold grade in *. rewrite gens_double1. simpl. rewrite map_length, IH. lia.
Qed.

Lemma lt_pow2_subset e n : e < 2 ^ n -> N.land e (2 ^ n - 1) = e.
Proof.
  intros H. replace (2 ^ n - 1) with (N.ones n) by (rewrite N.ones_equiv; lia).
  rewrite N.land_ones. now apply N.mod_small.
Qed.

Lemma complement_lt e n : e < 2 ^ n -> N.lxor (2 ^ n - 1) e < 2 ^ n.
Proof.
  intros H. assert (P : 2 ^ n <> 0) by (apply N.pow_nonzero; lia).
  rewrite <- (N.mod_small e (2 ^ n)) by assumption.
  rewrite <- (N.mod_small (2 ^ n - 1) (2 ^ n)) by lia.
  rewrite <- !N.land_ones.
  replace (N.lxor (N.land (2 ^ n - 1) (N.ones n)) (N.land e (N.ones n)))
    with (N.land (N.lxor (2 ^ n - 1) e) (N.ones n)).
  - rewrite N.land_ones. now apply N.mod_lt.
  - apply N.bits_inj. intros i. rewrite !N.lxor_spec, !N.land_spec, N.lxor_spec.
    now destruct (N.testbit (N.ones n) i); rewrite ?andb_true_r, ?andb_false_r.
Qed.

Lemma grade_complement e n : e < 2 ^ n ->
  (grade (N.lxor (2 ^ n - 1) e) + grade e = N.to_nat n)%nat.
Proof.
  intros H. pose proof (grade_lxor (2 ^ n - 1) e) as G.
  rewrite N.land_comm, lt_pow2_subset, grade_full in G by assumption. lia.
Qed.

(** dualising twice *)
Lemma poincare_double e n : e < 2 ^ n ->
  let '(c, s) := poincare_complement e n in
  let '(e', t) := poincare_complement c n in
  e' = e /\ (s * t)%Z = neg1_pow (grade e * (N.to_nat n - grade e)).
Proof.
  intros H. pose proof (poincare_sign e n H) as S.
  destruct (poincare_complement e n) as [c s] eqn:P.
  assert (c = N.lxor (2 ^ n - 1) e) as -> by (unfold poincare_complement in P; congruence).
  pose proof (complement_lt e n H) as H'.
  pose proof (poincare_sign _ n H') as T.
  destruct (poincare_complement (N.lxor (2 ^ n - 1) e) n) as [e' t] eqn:P'.
  assert (E : e' = e).
  { assert (e' = N.lxor (2 ^ n - 1) (N.lxor (2 ^ n - 1) e)) as ->
      by (unfold poincare_complement in P'; congruence).
    rewrite <- N.lxor_assoc, N.lxor_nilpotent. apply N.lxor_0_l. }
  split; [assumption|]. simpl in S, T. subst s t.
  rewrite <- N.lxor_assoc, N.lxor_nilpotent, N.lxor_0_l.
  rewrite <- neg1_pow_add.
  rewrite inversions_flip by now apply disjoint_gens, complement_disjoint.
  fold (grade e) (grade (N.lxor (2 ^ n - 1) e)).
  pose proof (grade_complement e n H). f_equal. f_equal. lia.
Qed.

(** ** pseudoscalar inverse *)
Lemma gens_full n : gens (2 ^ N.of_nat n - 1) = map N.of_nat (seq 0 n).
Proof.
  apply sorted_ext; [apply gens_sorted| |].
  - assert (A : forall s k, StronglySorted N.lt (map N.of_nat (seq k s))).
    { induction s; intros k; simpl; constructor; [apply IHs|].
      apply Forall_forall. intros x Hx. apply in_map_iff in Hx. destruct Hx as [y [<- Hy]]. apply in_seq in Hy. lia. }
    apply A.
  - intros i. rewrite gens_In, ones_bits, in_map_iff. split.
    + intros H. exists (N.to_nat i). split; [lia|]. apply in_seq. lia.
    + intros [x [<- Hx]]. apply in_seq in Hx. lia.
Qed.

Lemma inversions_full n :
  neg1_pow (inversions (gens (2 ^ N.of_nat n - 1)) (gens (2 ^ N.of_nat n - 1))) = rev_sign n.
Proof.
  induction n as [|n IH]; [reflexivity|].
  rewrite rev_sign_S, <- IH. rewrite Nat2N.inj_succ, pow2_succ_m1, gens_double1.
  change (0 :: map N.succ (gens (2 ^ N.of_nat n - 1))) with ([0] ++ map N.succ (gens (2 ^ N.of_nat n - 1))).
  rewrite inversions_app. rewrite <- neg1_pow_add. f_equal.
  assert (L : length (gens (2 ^ N.of_nat n - 1)) = n) by (fold (grade (2 ^ N.of_nat n - 1)); rewrite grade_full; lia).
  simpl ([0] ++ _). rewrite inversions_cons_r, inversions_0_l. simpl.
  rewrite inversions_cons_r, filter_pos_map_succ, inversions_map_succ, L. lia.
Qed.

Lemma squares_full m : mr m = 0 ->
  squares (sq m) (gens (pseudoscalar m)) = neg1_pow (N.to_nat (mv_ m)).
Proof.
  intros R. unfold pseudoscalar. rewrite <- (N2Nat.id (dimension m)), gens_full.
  unfold dimension. rewrite R, N.add_0_r, N2Nat.inj_add, seq_app, map_app, squares_app.
  assert (A : forall s k, (k + s <= N.to_nat (mp m))%nat -> squares (sq m) (map N.of_nat (seq k s)) = 1%Z).
  { induction s as [|s IH]; intros k Hk; [reflexivity|].
    simpl. change (squares (sq m) (N.of_nat k :: map N.of_nat (seq (S k) s)))
      with (sq m (N.of_nat k) * squares (sq m) (map N.of_nat (seq (S k) s)))%Z.
    rewrite IH by lia. unfold sq, dot. rewrite N.eqb_refl, R. simpl.
    replace (N.of_nat k <? 0) with false by lia. replace (mp m <=? N.of_nat k) with false by lia. reflexivity. }
  assert (B : forall s k, (N.to_nat (mp m) <= k)%nat -> squares (sq m) (map N.of_nat (seq k s)) = neg1_pow s).
  { induction s as [|s IH]; intros k Hk; [reflexivity|].
    simpl. change (squares (sq m) (N.of_nat k :: map N.of_nat (seq (S k) s)))
      with (sq m (N.of_nat k) * squares (sq m) (map N.of_nat (seq (S k) s)))%Z.
    rewrite IH by lia. unfold sq, dot. rewrite N.eqb_refl, R. simpl.
    replace (N.of_nat k <? 0) with false by lia. replace (mp m <=? N.of_nat k) with true by lia.
    rewrite neg1_pow_S. lia. }
  rewrite A, B by lia. lia.
Qed.

Lemma pseudoscalar_inv_correct m : mr m = 0 ->
  geometric m (pseudoscalar m) (pseudoscalar m) = (0, num (pseudoscalar_inv_coef m)) /\
  (num (pseudoscalar_inv_coef m) * num (pseudoscalar_inv_coef m) = 1)%Z.
Proof.
  intros R. rewrite geometric_closed. unfold cl_coef.
  rewrite N.land_diag, N.lxor_nilpotent, squares_full by assumption.
  unfold pseudoscalar. rewrite <- (N2Nat.id (dimension m)), inversions_full.
  unfold rev_sign. rewrite <- neg1_pow_add.
  unfold pseudoscalar_inv_coef.
  set (n := N.to_nat (dimension m)).
  replace (dimension m * (dimension m - 1) / 2 + mv_ m)
    with (N.of_nat (n * (n - 1) / 2 + N.to_nat (mv_ m))).
  2:{ rewrite Nat2N.inj_add, Nat2N.inj_div, Nat2N.inj_mul, Nat2N.inj_sub. unfold n. rewrite !N2Nat.id. reflexivity. }
  generalize (n * (n - 1) / 2 + N.to_nat (mv_ m))%nat. intros k.
  pose proof (sign_of_neg1_pow (N.of_nat k)) as S. unfold sign_of in S. rewrite Nat2N.id in S.
  rewrite <- S. destruct (N.of_nat k mod 2 =? 0); split; reflexivity.
Qed.

Lemma pseudoscalar_degenerate m : mr m <> 0 ->
  snd (geometric m (pseudoscalar m) (pseudoscalar m)) = 0%Z.
Proof.
  intros R. rewrite geometric_closed. unfold cl_coef. rewrite N.land_diag.
  assert (Z : squares (sq m) (gens (pseudoscalar m)) = 0%Z).
  { unfold pseudoscalar. rewrite <- (N2Nat.id (dimension m)), gens_full.
    destruct (N.to_nat (dimension m)) eqn:E; [unfold dimension in E; lia|].
    simpl. unfold squares. simpl. unfold sq at 1, dot. simpl.
    replace (0 <? mr m) with true by lia. reflexivity. }
  rewrite Z, Z.mul_0_r. reflexivity.
Qed.

(** ** next_even, even_mv, bivector_mv *)
Lemma pop_count_double a : pop_count (2 * a) = pop_count a.
Proof. now destruct a. Qed.
Lemma pop_count_double1 a : pop_count (2 * a + 1) = N.succ (pop_count a).
Proof. now destruct a. Qed.

(** the even-popcount member of the pair {2j, 2j+1} *)
Definition evenize (j : N) : N := 2 * j + (if N.odd (pop_count j) then 1 else 0).

Lemma evenize_even j : N.odd (pop_count (evenize j)) = false.
Proof.
  unfold evenize. destruct (N.odd (pop_count j)) eqn:E.
  - rewrite pop_count_double1, N.odd_succ, <- N.negb_odd, E. reflexivity.
  - rewrite N.add_0_r, pop_count_double. assumption.
Qed.

Lemma odd_double1_flip j : N.odd (pop_count (2 * j + 1)) = negb (N.odd (pop_count j)).
Proof. now rewrite pop_count_double1, N.odd_succ, <- N.negb_odd. Qed.

Lemma even_pop_evenize x : N.odd (pop_count x) = false -> x = evenize (x / 2).
Proof.
  intros H. unfold evenize.
  destruct (N.Even_or_Odd x) as [[a ->]|[a ->]].
  - rewrite pop_count_double in H. replace (2 * a / 2) with a by (rewrite N.mul_comm, N.div_mul; lia).
    rewrite H. lia.
  - rewrite odd_double1_flip in H. replace ((2 * a + 1) / 2) with a by (apply (N.div_unique _ 2 a 1); lia).
    destruct (N.odd (pop_count a)); [lia|discriminate].
Qed.

Lemma next_even_loop_evenize j k : evenize j < k -> k <= evenize (j + 1) -> next_even_loop 3 k = evenize (j + 1).
Proof.
  intros H1 H2.
  assert (C : k = 2 * j + 1 \/ k = 2 * (j + 1) \/ k = 2 * (j + 1) + 1) by
    (unfold evenize in *; destruct (N.odd (pop_count j)), (N.odd (pop_count (j + 1))); lia).
  assert (E : 2 * j + 1 + 1 = 2 * (j + 1)) by lia.
  assert (S1 : forall f, next_even_loop (S f) (evenize (j + 1)) = evenize (j + 1)).
  { intros f. simpl. now rewrite evenize_even. }
  assert (S2 : forall f, next_even_loop (S (S f)) (2 * (j + 1)) = evenize (j + 1)).
  { intros f. change (next_even_loop (S (S f)) (2 * (j + 1))) with
      (if N.odd (pop_count (2 * (j + 1))) then next_even_loop (S f) (2 * (j + 1) + 1) else 2 * (j + 1)).
    rewrite pop_count_double. destruct (N.odd (pop_count (j + 1))) eqn:O.
    - replace (2 * (j + 1) + 1) with (evenize (j + 1)) by (unfold evenize; rewrite O; lia). apply S1.
    - unfold evenize. rewrite O. lia. }
  destruct C as [->|[->| ->]].
  - change (next_even_loop 3 (2 * j + 1)) with
      (if N.odd (pop_count (2 * j + 1)) then next_even_loop 2 (2 * j + 1 + 1) else 2 * j + 1).
    rewrite odd_double1_flip. unfold evenize in H1. destruct (N.odd (pop_count j)); [lia|]. simpl negb.
    cbv iota. rewrite E. apply S2.
  - apply S2.
  - replace (2 * (j + 1) + 1) with (evenize (j + 1)); [apply S1|].
    unfold evenize in *. destruct (N.odd (pop_count (j + 1))); lia.
Qed.

Lemma evenize_bounds j : 2 * j <= evenize j <= 2 * j + 1.
Proof. unfold evenize. destruct (N.odd _); lia. Qed.

(** next_even(x) is the least y > x with an even number of set bits, for every x *)
Lemma next_even_spec x :
  x < next_even x /\ N.odd (pop_count (next_even x)) = false /\
  (forall y, x < y -> y < next_even x -> N.odd (pop_count y) = true).
Proof.
  assert (M : forall j, evenize j < evenize (j + 1)) by
    (intros j; pose proof (evenize_bounds j); pose proof (evenize_bounds (j + 1)); lia).
  assert (MM : forall i j, i < j -> evenize i < evenize j) by
    (intros i j ?; pose proof (evenize_bounds i); pose proof (evenize_bounds j); lia).
  assert (Jx : exists j, next_even x = evenize j /\ x < evenize j /\ forall i, x < evenize i -> j <= i).
  { destruct (N.lt_ge_cases x (evenize (x / 2))) as [L|L].
    - exists (x / 2). split; [|split; [assumption|]].
      + unfold next_even.
        assert (X : x = 2 * (x / 2) + x mod 2) by (apply N.div_mod; lia).
        pose proof (evenize_bounds (x / 2)). 
        assert (x + 1 = evenize (x / 2)) as -> by lia. simpl. now rewrite evenize_even.
      + intros i Hi. destruct (N.le_gt_cases (x / 2) i); [assumption|].
        pose proof (evenize_bounds i).
        assert (X : x = 2 * (x / 2) + x mod 2) by (apply N.div_mod; lia). lia.
    - exists (x / 2 + 1). 
      assert (X : x = 2 * (x / 2) + x mod 2) by (apply N.div_mod; lia).
      assert (x mod 2 < 2) by (apply N.mod_lt; lia).
      pose proof (evenize_bounds (x / 2 + 1)). pose proof (evenize_bounds (x / 2)).
      split; [|split; [lia|]].
      + unfold next_even. apply next_even_loop_evenize; lia.
      + intros i Hi. destruct (N.le_gt_cases (x / 2 + 1) i); [assumption|].
        assert (i <= x / 2) by lia. pose proof (evenize_bounds i).
        destruct (N.eq_dec i (x / 2)) as [->|]; [lia|]. specialize (MM i (x / 2)). lia. }
  destruct Jx as [j [-> [H1 H2]]]. split; [assumption|]. split; [apply evenize_even|].
  intros y Hy1 Hy2. destruct (N.odd (pop_count y)) eqn:O; [reflexivity|].
  apply even_pop_evenize in O. rewrite O in *.
  specialize (H2 _ Hy1). destruct (N.eq_dec j (y / 2)) as [->|]; [lia|].
  specialize (MM j (y / 2)). lia.
Qed.

Lemma next_even_evenize j : next_even (evenize j) = evenize (j + 1).
Proof.
  unfold next_even. apply next_even_loop_evenize; [lia|].
  pose proof (evenize_bounds j). pose proof (evenize_bounds (j + 1)). lia.
Qed.

Lemma iterate_next_even_evenize : forall k j,
  iterate_next_even k (evenize (N.of_nat j)) = map (fun i => evenize (N.of_nat i)) (seq j k).
Proof.
  induction k as [|k IH]; intros j; [reflexivity|].
  simpl. f_equal. rewrite next_even_evenize, <- IH. do 2 f_equal. lia.
Qed.

Lemma even_mv_elems_spec m x : 0 < dimension m ->
  In x (even_mv_elems m) <-> x < 2 ^ dimension m /\ Nat.even (grade x) = true.
Proof.
  intros D. unfold even_mv_elems. change 0 with (evenize (N.of_nat 0)) at 1.
  rewrite iterate_next_even_evenize, in_map_iff.
  assert (P : 2 ^ dimension m = 2 * 2 ^ (dimension m - 1)).
  { rewrite <- N.pow_succ_r'. f_equal. lia. }
  assert (G : forall y, N.odd (pop_count y) = false <-> Nat.even (grade y) = true).
  { intros y. rewrite pop_count_grade. rewrite <- N.negb_even.
    replace (N.even (N.of_nat (grade y))) with (Nat.even (grade y)).
    - destruct (Nat.even (grade y)); intuition discriminate.
    - generalize (grade y). clear. intros n.
      induction n as [n IH] using (well_founded_induction lt_wf).
      destruct n as [|[|n]]; try reflexivity.
      replace (N.of_nat (S (S n))) with (N.succ (N.succ (N.of_nat n))) by lia.
      rewrite N.even_succ_succ, <- IH by lia. reflexivity. }
  split.
  - intros [j [<- Hj]]. apply in_seq in Hj. split.
    + pose proof (evenize_bounds (N.of_nat j)). lia.
    + apply G, evenize_even.
  - intros [H1 H2]. apply G in H2. exists (N.to_nat (x / 2)). rewrite N2Nat.id. split.
    + symmetry. now apply even_pop_evenize.
    + apply in_seq. assert (x / 2 < 2 ^ (dimension m - 1)) by (apply N.div_lt_upper_bound; lia). lia.
Qed.

Lemma even_mv_elems_sorted m : StronglySorted N.lt (even_mv_elems m).
Proof.
  unfold even_mv_elems. change 0 with (evenize (N.of_nat 0)) at 1.
  rewrite iterate_next_even_evenize. generalize (N.to_nat (2 ^ (dimension m - 1))) 0%nat.
  induction n as [|n IH]; intros j; simpl; constructor; [apply IH|].
  apply Forall_forall. intros y Hy. apply in_map_iff in Hy. destruct Hy as [i [<- Hi]].
  apply in_seq in Hi. pose proof (evenize_bounds (N.of_nat j)). pose proof (evenize_bounds (N.of_nat i)). lia.
Qed.

(** bivector_mv: from dimension 5 on the grade-4 blade e0123 is enumerated *)
Lemma bivector_mv_has_grade4 m : 5 <= dimension m -> In 15 (bivector_mv_elems m).
Proof.
  intros D. unfold bivector_mv_elems. change 3 with (evenize (N.of_nat 1)).
  rewrite iterate_next_even_evenize, in_map_iff. exists 7%nat. split; [reflexivity|].
  apply in_seq. 
  assert (10 <= dimension m * (dimension m - 1) / 2).
  { apply N.div_le_lower_bound; [lia|].
    assert (5 * 4 <= dimension m * (dimension m - 1)) by (apply N.mul_le_mono; lia). lia. }
  lia.
Qed.
