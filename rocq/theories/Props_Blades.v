(** Property theorems about basis blades: C06 (next_even), C07-C12, C45 and the generic
    even/bivector multivectors. *)
From Coq Require Import ZArith NArith List Bool Sorting.Sorted.
From Verif Require Import Base Model_Numeric Model_Blade Spec_Clifford Proof_Blade2 Proof_Blade3 Proof_Blade4.
Import ListNotations.
Open Scope N_scope.

(** C07: geometric::product returns an element derivable from the Clifford relations of the
    signature, and no other scaled blade is derivable. *)
Theorem C07_geometric_is_clifford_product m a b :
  let '(r, s) := geometric m a b in
  cl_eq (sig_square (mp m) (mv_ m) (mr m)) (1%Z, gens a ++ gens b) (s, gens r) /\
  (forall s' r', cl_eq (sig_square (mp m) (mv_ m) (mr m)) (1%Z, gens a ++ gens b) (s', gens r') ->
     same_blade (r, s) (r', s')).
Proof. exact (geometric_clifford m a b). Qed.
Print Assumptions C07_geometric_is_clifford_product.
Example C07_ex1 : geometric (mkmetric 3 0 1) 6 10 = (12, (-1)%Z). Proof. reflexivity. Qed.
Example C07_ex2 : geometric (mkmetric 3 0 1) 3 5 = (0, 0%Z). Proof. reflexivity. Qed.
Example C07_ex3 : geometric (mkmetric 4 1 0) 24 24 = (0, 1%Z). Proof. reflexivity. Qed.

Theorem C07_geometric_associative m x y z :
  same_blade (sbmul (geometric m) (sbmul (geometric m) x y) z) (sbmul (geometric m) x (sbmul (geometric m) y z)).
Proof. exact (geometric_assoc_sb m x y z). Qed.
Print Assumptions C07_geometric_associative.
Example C07_assoc_ex : sbmul (geometric (mkmetric 3 0 1)) (sbmul (geometric (mkmetric 3 0 1)) (6, 2%Z) (10, 3%Z)) (14, (-1)%Z) = (2, (-6)%Z).
Proof. reflexivity. Qed.

Theorem C07_geometric_unit m a : geometric m 0 a = (a, 1%Z) /\ geometric m a 0 = (a, 1%Z).
Proof. exact (geometric_unit m a). Qed.
Print Assumptions C07_geometric_unit.

(** The product vanishes exactly when a degenerate generator is shared. *)
Theorem C07_geometric_zero_iff_degenerate m a b :
  snd (geometric m a b) = 0%Z <-> exists i, N.testbit a i = true /\ N.testbit b i = true /\ i < mr m.
Proof. exact (geometric_zero_iff m a b). Qed.
Print Assumptions C07_geometric_zero_iff_degenerate.

Theorem C07_geometric_stays_in_algebra m a b n : a < 2 ^ n -> b < 2 ^ n -> fst (geometric m a b) < 2 ^ n.
Proof. exact (geometric_closed_dim m a b n). Qed.
Print Assumptions C07_geometric_stays_in_algebra.
Example C07_stays_ex : 6 < 2 ^ 4 /\ 10 < 2 ^ 4. Proof. now split. Qed.

(** C08 *)
Theorem C08_exterior_is_grassmann_product a b :
  cl_eq (fun _ => 0%Z) (1%Z, gens a ++ gens b) (snd (exterior a b), gens (fst (exterior a b))).
Proof. exact (exterior_derivable a b). Qed.
Print Assumptions C08_exterior_is_grassmann_product.

Theorem C08_exterior_zero_iff_common_generator a b :
  snd (exterior a b) = 0%Z <-> exists i, N.testbit a i = true /\ N.testbit b i = true.
Proof. exact (exterior_zero_iff a b). Qed.
Print Assumptions C08_exterior_zero_iff_common_generator.

Theorem C08_exterior_shuffle_sign a b : snd (exterior a b) <> 0%Z ->
  exterior a b = (N.lor a b, neg1_pow (inversions (gens a) (gens b))).
Proof. exact (exterior_value a b). Qed.
Print Assumptions C08_exterior_shuffle_sign.
Example C08_sign_ex : exterior 4 3 = (7, 1%Z) /\ exterior 2 1 = (3, (-1)%Z). Proof. now split. Qed.

Theorem C08_exterior_associative x y z :
  same_blade (sbmul exterior (sbmul exterior x y) z) (sbmul exterior x (sbmul exterior y z)).
Proof. exact (exterior_assoc_sb x y z). Qed.
Print Assumptions C08_exterior_associative.

Theorem C08_exterior_graded_anticommutative a b :
  fst (exterior a b) = fst (exterior b a) /\
  snd (exterior a b) = (neg1_pow (grade a * grade b) * snd (exterior b a))%Z.
Proof. exact (exterior_anticomm a b). Qed.
Print Assumptions C08_exterior_graded_anticommutative.

Theorem C08_exterior_is_top_grade_part m a b :
  exterior a b =
  if Nat.eqb (grade (N.lxor a b)) (grade a + grade b) then geometric m a b else (0, 0%Z).
Proof. exact (exterior_is_top_grade m a b). Qed.
Print Assumptions C08_exterior_is_top_grade_part.

(** C09: the grade (grade b - grade a) part of the geometric product *)
Theorem C09_contract_is_grade_part m a b :
  contract m a b =
  if Nat.eqb (grade (N.lxor a b) + grade a) (grade b) then geometric m a b else (0, 0%Z).
Proof. exact (contract_grade m a b). Qed.
Print Assumptions C09_contract_is_grade_part.
Theorem C09_contract_is_zero_unless_contained m a b :
  contract m a b = if N.land a b =? a then geometric m a b else (0, 0%Z).
Proof. exact (contract_subset m a b). Qed.
Print Assumptions C09_contract_is_zero_unless_contained.
Example C09_ex : contract (mkmetric 3 0 0) 2 3 = (1, (-1)%Z) /\ contract (mkmetric 3 0 0) 4 3 = (0, 0%Z).
Proof. now split. Qed.

(** C10 *)
Theorem C10_symmetric_inner_is_grade_part m a b :
  symmetric_inner m a b =
  if negb (a =? 0) && negb (b =? 0) &&
     Z.eqb (Z.of_nat (grade (N.lxor a b))) (Z.abs (Z.of_nat (grade a) - Z.of_nat (grade b)))
  then geometric m a b else (0, 0%Z).
Proof. exact (symmetric_inner_grade m a b). Qed.
Print Assumptions C10_symmetric_inner_is_grade_part.
(** Full claim (false): forall m a b, symmetric_inner m a b = symmetric_inner m b a. *)
Theorem C10_symmetric_inner_symmetry_refuted :
  exists m a b, symmetric_inner m a b <> symmetric_inner m b a.
Proof. exists (mkmetric 3 0 0), 1, 3. vm_compute. discriminate. Qed.
Print Assumptions C10_symmetric_inner_symmetry_refuted.
(** What holds instead: symmetric for equal grades; in general the two orders differ by the
    reversion signs. *)
Theorem C10_symmetric_inner_same_grade m a b : grade a = grade b ->
  symmetric_inner m a b = symmetric_inner m b a.
Proof. exact (symmetric_inner_same_grade m a b). Qed.
Print Assumptions C10_symmetric_inner_same_grade.
Example C10_same_grade_ex : grade 6 = grade 5 /\ symmetric_inner (mkmetric 3 0 0) 6 6 = (0, (-1)%Z).
Proof. now split. Qed.
Theorem C10_symmetric_inner_swap m a b :
  fst (symmetric_inner m a b) = fst (symmetric_inner m b a) /\
  (snd (symmetric_inner m a b) * rev_sign (grade (fst (symmetric_inner m a b))) =
   rev_sign (grade a) * rev_sign (grade b) * snd (symmetric_inner m b a))%Z.
Proof. exact (symmetric_inner_swap m a b). Qed.
Print Assumptions C10_symmetric_inner_swap.

(** C11 *)
Theorem C11_reverse_sign_of_blade e :
  (if reverse_negates e then -1 else 1)%Z = rev_sign (grade e).
Proof. exact (reverse_negates_sign e). Qed.
Print Assumptions C11_reverse_sign_of_blade.
Theorem C11_reverse_antiautomorphism_blades m a b :
  let '(ab, s) := geometric m a b in
  let '(ba, t) := geometric m b a in
  let rs e := (if reverse_negates e then -1 else 1)%Z in
  ab = ba /\ (s * rs ab = rs b * rs a * t)%Z.
Proof. exact (reverse_antiautomorphism m a b). Qed.
Print Assumptions C11_reverse_antiautomorphism_blades.
Example C11_ex : reverse_negates 3 = true /\ reverse_negates 7 = true /\ reverse_negates 15 = false. Proof. now repeat split. Qed.

(** C12 *)
Theorem C12_wedge_with_dual_is_pseudoscalar e n : e < 2 ^ n ->
  let '(c, s) := poincare_complement e n in
  fst (exterior e c) = 2 ^ n - 1 /\ (s * snd (exterior e c) = 1)%Z.
Proof. exact (poincare_wedge e n). Qed.
Print Assumptions C12_wedge_with_dual_is_pseudoscalar.
Example C12_wedge_ex : 5 < 2 ^ 4 /\ poincare_complement 5 4 = (10, (-1)%Z). Proof. now split. Qed.
Theorem C12_double_dual_sign e n : e < 2 ^ n ->
  let '(c, s) := poincare_complement e n in
  let '(e', t) := poincare_complement c n in
  e' = e /\ (s * t)%Z = neg1_pow (grade e * (N.to_nat n - grade e)).
Proof. exact (poincare_double e n). Qed.
Print Assumptions C12_double_dual_sign.
(** "dualising twice is the identity" is false *)
Theorem C12_double_dual_identity_refuted :
  exists e n, e < 2 ^ n /\ let '(c, s) := poincare_complement e n in
                           let '(e', t) := poincare_complement c n in (s * t)%Z = (-1)%Z.
Proof. exists 1, 4. vm_compute. now split. Qed.
Print Assumptions C12_double_dual_identity_refuted.

(** C45: blade level of a & b = !( !a ^ !b ) *)
Theorem C45_pseudoscalar_regress n b k : b < 2 ^ n ->
  regress n ((2 ^ n - 1), 1%Z) (b, k) = (b, (neg1_pow (grade b * (N.to_nat n - grade b)) * k)%Z).
Proof. exact (regress_pseudoscalar n b k). Qed.
Print Assumptions C45_pseudoscalar_regress.
Theorem C45_pseudoscalar_is_identity_refuted :
  exists n b, b < 2 ^ n /\ regress n ((2 ^ n - 1), 1%Z) (b, 1%Z) <> (b, 1%Z).
Proof. exists 4, 1. vm_compute. now split. Qed.
Print Assumptions C45_pseudoscalar_is_identity_refuted.

(** C46: pseudoscalar inverse *)
Theorem C46_pseudoscalar_inverse m : mr m = 0 ->
  geometric m (pseudoscalar m) (pseudoscalar m) = (0, num (pseudoscalar_inv_coef m)) /\
  (num (pseudoscalar_inv_coef m) * num (pseudoscalar_inv_coef m) = 1)%Z.
Proof. exact (pseudoscalar_inv_correct m). Qed.
Print Assumptions C46_pseudoscalar_inverse.
Example C46_ex : mr (mkmetric 4 1 0) = 0 /\ geometric (mkmetric 4 1 0) 31 31 = (0, (-1)%Z). Proof. now split. Qed.
(** In a degenerate metric the pseudoscalar has no inverse. *)
Theorem C46_degenerate_pseudoscalar_squares_to_zero m : mr m <> 0 ->
  snd (geometric m (pseudoscalar m) (pseudoscalar m)) = 0%Z.
Proof. exact (pseudoscalar_degenerate m). Qed.
Print Assumptions C46_degenerate_pseudoscalar_squares_to_zero.
Example C46_deg_ex : mr (mkmetric 3 0 1) <> 0. Proof. discriminate. Qed.

(** C06: next_even; C47: the blades of even_mv / bivector_mv *)
Theorem C06_next_even x :
  x < next_even x /\ N.odd (pop_count (next_even x)) = false /\
  (forall y, x < y -> y < next_even x -> N.odd (pop_count y) = true).
Proof. exact (next_even_spec x). Qed.
Print Assumptions C06_next_even.
Theorem C06_pop_count_counts_generators a : pop_count a = N.of_nat (length (gens a)).
Proof. exact (pop_count_grade a). Qed.
Print Assumptions C06_pop_count_counts_generators.
Theorem C47_even_mv_lists_even_blades m x : 0 < dimension m ->
  In x (even_mv_elems m) <-> x < 2 ^ dimension m /\ Nat.even (grade x) = true.
Proof. exact (even_mv_elems_spec m x). Qed.
Print Assumptions C47_even_mv_lists_even_blades.
Example C47_ex : even_mv_elems (mkmetric 3 0 1) = [0; 3; 5; 6; 9; 10; 12; 15]. Proof. reflexivity. Qed.
Theorem C47_even_mv_strictly_increasing m : StronglySorted N.lt (even_mv_elems m).
Proof. exact (even_mv_elems_sorted m). Qed.
Print Assumptions C47_even_mv_strictly_increasing.
(** bivector_mv should list exactly the grade-2 blades; false from dimension 5 on. *)
Theorem C47_bivector_mv_refuted m : 5 <= dimension m -> In 15 (bivector_mv_elems m) /\ grade 15 <> 2%nat.
Proof. exact (fun H => conj (bivector_mv_has_grade4 m H) (fun E : grade 15 = 2%nat => ltac:(discriminate E))). Qed.
Print Assumptions C47_bivector_mv_refuted.
Example C47_bivector_ex : 5 <= dimension (mkmetric 4 1 0). Proof. discriminate. Qed.
Theorem C47_bivector_mv_up_to_dimension_4 m x : dimension m <= 4 ->
  In x (bivector_mv_elems m) <-> x < 2 ^ dimension m /\ grade x = 2%nat.
Proof. exact (bivector_mv_small m x). Qed.
Print Assumptions C47_bivector_mv_up_to_dimension_4.
Example C47_bivector_ex2 : bivector_mv_elems (mkmetric 3 0 1) = [3; 5; 6; 9; 10; 12]. Proof. reflexivity. Qed.
