From Coq Require Import ZArith NArith List Bool Lia ZifyBool ZifyN ZifyNat.
From Verif Require Import Base Model_Numeric Model_Blade Spec_Clifford Proof_Gens Proof_Blade Proof_Blade2 Proof_Blade3.
Import ListNotations.
Open Scope N_scope.

Lemma sq_sig m i : sq m i = sig_square (mp m) (mv_ m) (mr m) i.
Proof.
  unfold sq, dot, sig_square. rewrite N.eqb_refl. simpl.
  destruct (N.ltb_spec i (mr m)); [reflexivity|].
  destruct (N.leb_spec (mr m + mp m) i); destruct (N.ltb_spec i (mr m + mp m)); try reflexivity; lia.
Qed.

Lemma cl_eq_ext q q' x y : (forall i, q i = q' i) -> cl_eq q x y -> cl_eq q' x y.
Proof.
  intros E. induction 1.
  - apply cl_refl.
  - now apply cl_sym.
  - eapply cl_trans; eassumption.
  - now apply cl_swap.
  - rewrite E. apply cl_square.
  - apply cl_zero.
Qed.

Lemma geometric_clifford m a b :
  let '(r, s) := geometric m a b in
  cl_eq (sig_square (mp m) (mv_ m) (mr m)) (1%Z, gens a ++ gens b) (s, gens r) /\
  (forall s' r', cl_eq (sig_square (mp m) (mv_ m) (mr m)) (1%Z, gens a ++ gens b) (s', gens r') ->
     same_blade (r, s) (r', s')).
Proof.
  pose proof (geometric_derivable m a b) as D. destruct (geometric m a b) as [r s]. simpl in D.
  assert (D' : cl_eq (sig_square (mp m) (mv_ m) (mr m)) (1%Z, gens a ++ gens b) (s, gens r)).
  { eapply cl_eq_ext; [|exact D]. intros. apply sq_sig. }
  split; [exact D'|]. intros s' r' H.
  assert (X : cl_eq (sig_square (mp m) (mv_ m) (mr m)) (s, gens r) (s', gens r')).
  { eapply cl_trans; [apply cl_sym; exact D'|exact H]. }
  apply cl_eq_unique in X. unfold same_blade. simpl. destruct X as [[-> ->]|[-> ->]]; auto.
Qed.

Lemma geometric_assoc_sb m x y z :
  same_blade (sbmul (geometric m) (sbmul (geometric m) x y) z) (sbmul (geometric m) x (sbmul (geometric m) y z)).
Proof.
  destruct x as [a k1], y as [b k2], z as [c k3]. unfold sbmul. simpl.
  pose proof (geometric_assoc m a b c) as A.
  destruct (geometric m a b) as [ab s1]. simpl. destruct (geometric m ab c) as [l s2].
  destruct (geometric m b c) as [bc t1]. simpl. destruct (geometric m a bc) as [r t2].
  destruct A as [A1 A2]. unfold same_blade. simpl.
  destruct (Z.eq_dec (s1 * s2) 0) as [Z0|Z0].
  - right. split.
    + replace (k1 * k2 * s1 * k3 * s2)%Z with (k1 * k2 * k3 * (s1 * s2))%Z by ring. rewrite Z0. ring.
    + replace (k1 * (k2 * k3 * t1) * t2)%Z with (k1 * k2 * k3 * (t1 * t2))%Z by ring. rewrite <- A1, Z0. ring.
  - left. f_equal; [auto|].
    transitivity (k1 * k2 * k3 * (s1 * s2))%Z; [ring|]. rewrite A1. ring.
Qed.

Lemma exterior_assoc_sb x y z :
  same_blade (sbmul exterior (sbmul exterior x y) z) (sbmul exterior x (sbmul exterior y z)).
Proof.
  destruct x as [a k1], y as [b k2], z as [c k3]. unfold sbmul. simpl.
  pose proof (exterior_assoc a b c) as A.
  destruct (exterior a b) as [ab s1]. simpl. destruct (exterior ab c) as [l s2].
  destruct (exterior b c) as [bc t1]. simpl. destruct (exterior a bc) as [r t2].
  destruct A as [A1 A2]. unfold same_blade. simpl.
  destruct (Z.eq_dec (s1 * s2) 0) as [Z0|Z0].
  - right. split.
    + replace (k1 * k2 * s1 * k3 * s2)%Z with (k1 * k2 * k3 * (s1 * s2))%Z by ring. rewrite Z0. ring.
    + replace (k1 * (k2 * k3 * t1) * t2)%Z with (k1 * k2 * k3 * (t1 * t2))%Z by ring. rewrite <- A1, Z0. ring.
  - left. f_equal; [auto|].
    transitivity (k1 * k2 * k3 * (s1 * s2))%Z; [ring|]. rewrite A1. ring.
Qed.

Lemma geometric_unit m a : geometric m 0 a = (a, 1%Z) /\ geometric m a 0 = (a, 1%Z).
Proof.
  unfold geometric. simpl. split; [reflexivity|].
  destruct (N.eqb_spec a 0) as [->|]; reflexivity.
Qed.

Lemma geometric_zero_iff m a b :
  snd (geometric m a b) = 0%Z <-> exists i, N.testbit a i = true /\ N.testbit b i = true /\ i < mr m.
Proof.
  rewrite geometric_closed.
  assert (E : cl_coef (sq m) a b = 0%Z <-> exists i, N.testbit a i = true /\ N.testbit b i = true /\ i < mr m).
  { unfold cl_coef.
    assert (SQ : forall u, squares (sq m) u = 0%Z <-> exists i, In i u /\ i < mr m).
    { induction u as [|x u IH]; [split; [discriminate|intros [i [[] _]]]|].
      change (squares (sq m) (x :: u)) with (sq m x * squares (sq m) u)%Z.
      rewrite Z.mul_eq_0, IH, sq_sig. unfold sig_square.
      destruct (N.ltb_spec x (mr m)) as [L|L].
      - split; [intros _; exists x; simpl; auto|auto].
      - split.
        + intros [H|[i [Hi Hl]]]; [destruct (x <? _); discriminate|]. exists i. simpl; auto.
        + intros [i [[->|Hi] Hl]]; [lia|]. right. now exists i. }
    rewrite Z.mul_eq_0, SQ. split.
    - intros [H|[i [Hi Hl]]].
      + destruct (neg1_pow_cases (inversions (gens a) (gens b))); lia.
      + apply gens_In in Hi. rewrite N.land_spec in Hi. apply andb_true_iff in Hi. exists i. tauto.
    - intros [i [Ha [Hb Hl]]]. right. exists i. rewrite gens_In, N.land_spec, Ha, Hb. auto. }
  destruct (Z.eqb_spec (cl_coef (sq m) a b) 0) as [Z0|Z0]; simpl; [tauto|]. tauto.
Qed.

Lemma geometric_unit_sign m a b : snd (geometric m a b) <> 0%Z ->
  fst (geometric m a b) = N.lxor a b /\ (Z.abs (snd (geometric m a b)) = 1)%Z.
Proof.
  rewrite geometric_closed. destruct (Z.eqb_spec (cl_coef (sq m) a b) 0) as [Z0|Z0]; simpl; [lia|].
  intros _. split; [reflexivity|]. unfold cl_coef in *.
  assert (SQ : forall u, (squares (sq m) u = 0 \/ squares (sq m) u = 1 \/ squares (sq m) u = -1)%Z).
  { induction u as [|x u IH]; [right; left; reflexivity|].
    change (squares (sq m) (x :: u)) with (sq m x * squares (sq m) u)%Z.
    destruct (dot_cases m x) as [E|[E|E]]; rewrite E; lia. }
  destruct (SQ (gens (N.land a b))) as [E|[E|E]]; rewrite E in *;
    destruct (neg1_pow_cases (inversions (gens a) (gens b))) as [F|F]; rewrite F in *; lia.
Qed.

Lemma geometric_closed_dim m a b n : a < 2 ^ n -> b < 2 ^ n -> fst (geometric m a b) < 2 ^ n.
Proof.
  intros Ha Hb. rewrite geometric_closed. assert (P : 2 ^ n <> 0) by (apply N.pow_nonzero; lia).
  destruct (_ =? _)%Z; simpl; [lia|].
  destruct (N.eq_dec (N.lxor a b) 0) as [->|Hx]; [lia|].
  apply N.log2_lt_pow2; [lia|].
  destruct (N.eq_dec a 0) as [->|Hna].
  { rewrite N.lxor_0_l in *. apply N.log2_lt_pow2; lia. }
  destruct (N.eq_dec b 0) as [->|Hnb].
  { rewrite N.lxor_0_r in *. apply N.log2_lt_pow2; lia. }
  pose proof (N.log2_lxor a b). apply N.log2_lt_pow2 in Ha; [|lia]. apply N.log2_lt_pow2 in Hb; lia.
Qed.

Lemma exterior_zero_iff a b :
  snd (exterior a b) = 0%Z <-> exists i, N.testbit a i = true /\ N.testbit b i = true.
Proof.
  rewrite exterior_closed. destruct (N.eqb_spec (N.land a b) 0) as [E|E]; simpl.
  - split.
    + destruct (neg1_pow_cases (inversions (gens a) (gens b))); lia.
    + intros [i [Ha Hb]]. assert (X : N.testbit (N.land a b) i = true) by now rewrite N.land_spec, Ha, Hb.
      rewrite E, N.bits_0 in X. discriminate.
  - split; [|reflexivity]. intros _. exists (N.log2 (N.land a b)).
    apply andb_true_iff. rewrite <- N.land_spec. now apply N.bit_log2.
Qed.

Lemma exterior_value a b : snd (exterior a b) <> 0%Z ->
  exterior a b = (N.lor a b, neg1_pow (inversions (gens a) (gens b))).
Proof.
  rewrite exterior_closed. destruct (N.eqb_spec (N.land a b) 0) as [E|E]; simpl; [|easy].
  intros _. f_equal. now apply N.lxor_lor.
Qed.

(** symmetric inner product: symmetry holds exactly up to the reversion signs *)
Lemma symmetric_inner_swap m a b :
  fst (symmetric_inner m a b) = fst (symmetric_inner m b a) /\
  (snd (symmetric_inner m a b) * rev_sign (grade (fst (symmetric_inner m a b))) =
   rev_sign (grade a) * rev_sign (grade b) * snd (symmetric_inner m b a))%Z.
Proof.
  rewrite !symmetric_inner_subset, (N.land_comm b a).
  replace (negb (b =? 0) && negb (a =? 0) && ((N.land a b =? b) || (N.land a b =? a)))
    with (negb (a =? 0) && negb (b =? 0) && ((N.land a b =? a) || (N.land a b =? b))).
  2:{ rewrite (andb_comm (negb (b =? 0))), (orb_comm (N.land a b =? b)). reflexivity. }
  destruct (_ && _); [|simpl; split; [reflexivity|]; ring].
  pose proof (reverse_antiautomorphism m a b) as R.
  destruct (geometric m a b) as [ab s], (geometric m b a) as [ba t]. simpl in *.
  rewrite !reverse_negates_sign in R. destruct R as [-> R]. split; [reflexivity|]. rewrite R. ring.
Qed.

Lemma symmetric_inner_same_grade m a b : grade a = grade b ->
  symmetric_inner m a b = symmetric_inner m b a.
Proof.
  intros G. pose proof (symmetric_inner_swap m a b) as [S1 S2].
  rewrite G, rev_sign_sq in S2.
  rewrite !symmetric_inner_subset in *. rewrite (N.land_comm b a) in *.
  destruct (N.eq_dec a b) as [->|Hab]; [reflexivity|].
  assert (X : N.land a b <> a).
  { intros X. apply Hab. rewrite <- X. rewrite N.land_comm. apply grade_land_full. rewrite N.land_comm, X. exact G. }
  assert (Y : N.land a b <> b).
  { intros Y. apply Hab. rewrite <- Y. symmetry. apply grade_land_full. rewrite Y. now symmetry. }
  replace ((N.land a b =? a) || (N.land a b =? b)) with false by lia.
  replace ((N.land a b =? b) || (N.land a b =? a)) with false by lia.
  now rewrite !andb_false_r.
Qed.

(** ** regressive product at the blade level: the code builds !( !a ^ !b ), expr.hpp:1053-1057 *)
Definition dual_sb (n : N) (x : N * Z) : N * Z :=
  let '(c, s) := poincare_complement (fst x) n in (c, (snd x * s)%Z).
Definition regress (n : N) (x y : N * Z) : N * Z := dual_sb n (sbmul exterior (dual_sb n x) (dual_sb n y)).

Lemma dual_scale n x : fst (dual_sb n x) = fst (dual_sb n (fst x, 1%Z)) /\
  snd (dual_sb n x) = (snd x * snd (dual_sb n (fst x, 1%Z)))%Z.
Proof. unfold dual_sb. cbn [fst snd]. destruct (poincare_complement (fst x) n); split; [reflexivity|]. cbn [snd]. ring. Qed.

Lemma complement_full n : poincare_complement (2 ^ n - 1) n = (0, 1%Z).
Proof.
  assert (P : 2 ^ n <> 0) by (apply N.pow_nonzero; lia).
  pose proof (poincare_sign (2 ^ n - 1) n ltac:(lia)) as S.
  unfold poincare_complement in *. cbn [snd] in S. rewrite S. rewrite N.lxor_nilpotent.
  simpl gens. now rewrite inversions_nil_r.
Qed.

Lemma regress_pseudoscalar n b k : b < 2 ^ n ->
  regress n ((2 ^ n - 1), 1%Z) (b, k) = (b, (neg1_pow (grade b * (N.to_nat n - grade b)) * k)%Z).
Proof.
  intros Hb. unfold regress, dual_sb, sbmul. cbn [fst snd]. rewrite complement_full. cbn [fst snd].
  pose proof (poincare_double b n Hb) as D.
  destruct (poincare_complement b n) as [c s]. cbn [fst snd].
  replace (exterior 0 c) with (c, 1%Z) by reflexivity. cbn [fst snd].
  destruct (poincare_complement c n) as [e' t]. destruct D as [-> D]. f_equal.
  rewrite <- D. ring.
Qed.

Lemma dual_dual n x : fst x < 2 ^ n ->
  dual_sb n (dual_sb n x) = (fst x, (neg1_pow (grade (fst x) * (N.to_nat n - grade (fst x))) * snd x)%Z).
Proof.
  intros H. unfold dual_sb. pose proof (poincare_double (fst x) n H) as D.
  destruct (poincare_complement (fst x) n) as [c s]. cbn [fst snd].
  destruct (poincare_complement c n) as [e' t]. destruct D as [-> D]. f_equal. rewrite <- D. ring.
Qed.

(** bivector_mv is right up to dimension 4 (finite domain, checked exhaustively) *)
Lemma bivector_mv_small m x : dimension m <= 4 ->
  In x (bivector_mv_elems m) <-> x < 2 ^ dimension m /\ grade x = 2%nat.
Proof.
  intros H. unfold bivector_mv_elems. generalize (dimension m) H. clear m H. intros d H.
  assert (D : d = 0 \/ d = 1 \/ d = 2 \/ d = 3 \/ d = 4) by lia.
  assert (K : forall l n, (forall y, In y l -> y < n /\ grade y = 2%nat) ->
    forallb (fun i => implb (Nat.eqb (grade (N.of_nat i)) 2) (existsb (N.eqb (N.of_nat i)) l)) (seq 0 (N.to_nat n)) = true ->
    (In x l <-> x < n /\ grade x = 2%nat)).
  { intros l n H1 H2. split; [apply H1|]. intros [L G].
    rewrite forallb_forall in H2. specialize (H2 (N.to_nat x) ltac:(apply in_seq; lia)).
    rewrite N2Nat.id, G in H2. simpl in H2. apply existsb_exists in H2. destruct H2 as [y [Hy E]].
    apply N.eqb_eq in E. now subst. }
  destruct D as [->|[->|[->|[->| ->]]]]; apply K; try reflexivity; vm_compute; intros y Hy;
    repeat (destruct Hy as [<-|Hy]; [now split|]); contradiction.
Qed.
