(** Property theorems about numeric.hpp: C01-C06. *)
From Coq Require Import ZArith NArith QArith List Bool Reals Lia Lra.
From Verif Require Import Base Model_Numeric Spec_Numeric Proof_Numeric Proof_Gate.
Open Scope Z_scope.

(** C01: below the gate the operators compute the exact value, and keep positive denominators positive. *)
Theorem C01_mul_exact a b r : den a <> 0 -> den b <> 0 -> den a * den b < 1024 -> rmul Code a b = Ok r ->
  (qval r == qval a * qval b)%Q /\ den r <> 0 /\ (0 < den a * den b -> 0 < den r).
Proof. exact (mul_exact a b r). Qed.
Print Assumptions C01_mul_exact.
Theorem C01_add_exact a b r : den a <> 0 -> den b <> 0 -> den a * den b < 1024 -> radd Code a b = Ok r ->
  (qval r == qval a + qval b)%Q /\ den r <> 0 /\ (0 < den a * den b -> 0 < den r).
Proof. exact (add_exact a b r). Qed.
Print Assumptions C01_add_exact.
Theorem C01_sub_exact a b r : den a <> 0 -> den b <> 0 -> den a * den b < 1024 -> rsub Code a b = Ok r ->
  (qval r == qval a - qval b)%Q /\ den r <> 0 /\ (0 < den a * den b -> 0 < den r).
Proof. exact (sub_exact a b r). Qed.
Print Assumptions C01_sub_exact.
Theorem C01_div_exact a b r : den a <> 0 -> den b <> 0 -> num b <> 0 -> Z.abs (num b * den a) < 1024 ->
  rdiv Code a b = Ok r -> (qval r == qval a / qval b)%Q /\ 0 < den r.
Proof. exact (div_exact a b r). Qed.
Print Assumptions C01_div_exact.
Theorem C01_mul_assign_exact a b r : den a <> 0 -> den b <> 0 -> rmul_assign a b = Ok r ->
  (qval r == qval a * qval b)%Q /\ den r <> 0 /\ (0 < den a * den b -> 0 < den r).
Proof. exact (mul_assign_exact a b r). Qed.
Print Assumptions C01_mul_assign_exact.
Theorem C01_div_assign_exact a b r : den a <> 0 -> den b <> 0 -> num b <> 0 -> rdiv_assign a b = Ok r ->
  (qval r == qval a / qval b)%Q /\ den r <> 0 /\ (0 < den a * num b -> 0 < den r).
Proof.
  intros A B N H. destruct (mul_assign_exact a (reciprocal b) r A N H) as (E & D & P). split; [|now split]. rewrite E. unfold Qdiv. apply Qmult_comp; [reflexivity|].
  unfold qval, reciprocal. cbn [num den]. unfold Qdiv. rewrite Qinv_mult_distr, Qinv_involutive. apply Qmult_comm.
Qed.
Print Assumptions C01_div_assign_exact.
Theorem C01_add_assign_exact a b r : den a <> 0 -> den b <> 0 -> radd_assign a b = Ok r ->
  (qval r == qval a + qval b)%Q /\ den r <> 0 /\ (0 < den a * den b -> 0 < den r).
Proof. exact (add_assign_exact a b r). Qed.
Print Assumptions C01_add_assign_exact.
Theorem C01_div_int_exact a k r : den a <> 0 -> k <> 0 -> den a * Z.abs k < 1024 -> rdiv_int Code a k = Ok r ->
  (qval r == qval a / inject_Z k)%Q /\ den r <> 0 /\ (0 < den a -> 0 < den r).
Proof. exact (div_int_exact a k r). Qed.
Print Assumptions C01_div_int_exact.
Theorem C01_int_mul_exact k a r : den a <> 0 -> rscale_int k a = Ok r ->
  (qval r == inject_Z k * qval a)%Q /\ den r <> 0 /\ (0 < den a -> 0 < den r).
Proof. exact (int_mul_exact k a r). Qed.
Print Assumptions C01_int_mul_exact.
Example C01_ex : rmul Code (mkrat 3 4) (mkrat (-2) 9) = Ok (mkrat (-1) 6) /\
  radd Code (mkrat 1 6) (mkrat 1 3) = Ok (mkrat 1 2) /\
  rdiv Code (mkrat 1 6) (mkrat (-1) 3) = Ok (mkrat (-1) 2) /\ rdiv_int Code (mkrat 3 4) (-6) = Ok (mkrat (-1) 8) /\ rdiv_assign (mkrat 3 4) (mkrat 9 2) = Ok (mkrat 1 6).
Proof. repeat split; vm_compute; reflexivity. Qed.

(** C02: every operator either reports overflow or returns 32-bit fields; with enough headroom it
    succeeds; and a run in which the gate did not round is exact for arbitrary operands. *)
Theorem C02_results_fit md a b r :
  (rmul md a b = Ok r \/ radd md a b = Ok r \/ rsub md a b = Ok r \/ rdiv md a b = Ok r) -> fits r.
Proof. exact (results_fit md a b r). Qed.
Print Assumptions C02_results_fit.
Theorem C02_only_overflow a b e : 0 < den a -> 0 < den b ->
  (rmul Code a b = Err e \/ radd Code a b = Err e \/ rsub Code a b = Err e) -> e = Overflow.
Proof. exact (only_overflow a b e). Qed.
Print Assumptions C02_only_overflow.
Theorem C02_mul_succeeds a b : small (num a * num b) -> small (den a * den b) -> 0 < den a * den b ->
  exists r, rmul Code a b = Ok r.
Proof. exact (rmul_total a b). Qed.
Print Assumptions C02_mul_succeeds.
Theorem C02_add_succeeds a b : small (num a * den b) -> small (num b * den a) ->
  small (num a * den b + num b * den a) -> small (den a * den b) -> 0 < den a * den b ->
  exists r, radd Code a b = Ok r.
Proof. exact (radd_total a b). Qed.
Print Assumptions C02_add_succeeds.
Example C02_ex1 : rmul Code (mkrat 65536 1) (mkrat 65536 1) = Err Overflow. Proof. reflexivity. Qed.
Example C02_ex2 : small (40000 * 40000) /\ small (1 * 3). Proof. unfold small, int_max. lia. Qed.
Theorem C02_exact_run_mul a b r : den a <> 0 -> den b <> 0 -> rmul Exact a b = Ok r ->
  rmul Code a b = Ok r /\ (qval r == qval a * qval b)%Q.
Proof. exact (exact_run_mul a b r). Qed.
Print Assumptions C02_exact_run_mul.
Theorem C02_exact_run_add a b r : den a <> 0 -> den b <> 0 -> radd Exact a b = Ok r ->
  radd Code a b = Ok r /\ (qval r == qval a + qval b)%Q.
Proof. exact (exact_run_add a b r). Qed.
Print Assumptions C02_exact_run_add.
Example C02_exact_ex : rmul Exact (mkrat 1000 3) (mkrat 1 500) = Ok (mkrat 2 3) /\
  radd Exact (mkrat 1 2000) (mkrat 3 2000) = Ok (mkrat 1 500).
Proof. split; vm_compute; reflexivity. Qed.

(** C03 full claim (false): forall r r', 0 < den r -> overflow_gate Code r = Ok r' ->
    |value r' - value r| <= 1e-7. *)
Theorem C03_gate_error_bound_refuted :
  exists r r', 0 < den r /\ fits r /\ overflow_gate Code r = Ok r' /\
    (1 # 10000 < Qabs.Qabs (qval r' - qval r))%Q.
Proof. exact gate_error_refuted. Qed.
Print Assumptions C03_gate_error_bound_refuted.
Theorem C03_gate_exact_when_small_or_reducible r r' : 0 < den r ->
  den r < 1024 \/ 1 < Z.gcd (num r) (den r) -> overflow_gate Code r = Ok r' ->
  (qval r' == qval r)%Q /\ lowest r'.
Proof. exact (gate_exact_cases r r'). Qed.
Print Assumptions C03_gate_exact_when_small_or_reducible.
Theorem C03_gate_denominator_positive r r' : 0 < den r -> overflow_gate Code r = Ok r' -> 0 < den r'.
Proof. exact (gate_pos Code r r'). Qed.
Print Assumptions C03_gate_denominator_positive.
(** The true error bound: 2e-7, or 1/(den - 2) when the numerator is odd; never more than 1/1022.
    For even numerators the documented 1e-7 holds (up to rounding of the test itself). *)
Theorem C03_gate_true_error_bound_partial r r' : 0 < den r -> fits r -> overflow_gate Code r = Ok r' ->
  (Rabs (rv r' - rv r) <= Rmax (2004 / 10 ^ 10) (1 / (IZR (den r) - 2)))%R /\
  (Z.even (num r) = true -> (Rabs (rv r' - rv r) <= 1002 / 10 ^ 10)%R) /\
  (Rabs (rv r' - rv r) <= 1 / 1022)%R.
Proof. exact (gate_true_bound r r'). Qed.
Print Assumptions C03_gate_true_error_bound_partial.
Example C03_bound_ex : overflow_gate Code (mkrat 123 65537) = Ok (mkrat 61 32768) /\ fits (mkrat 123 65537).
Proof. repeat split; vm_compute; reflexivity. Qed.
Example C03_ex : overflow_gate Code (mkrat 6 2046) = Ok (mkrat 1 341) /\ overflow_gate Code (mkrat 1 4001) = Ok zero.
Proof. split; vm_compute; reflexivity. Qed.

(** C04 *)
Theorem C04_less a b x : 0 < den a -> 0 < den b -> rlt a b = Ok x -> (x = true <-> (qval a < qval b)%Q).
Proof. exact (rlt_spec a b x). Qed.
Print Assumptions C04_less.
Theorem C04_greater a b x : 0 < den a -> 0 < den b -> rgt a b = Ok x -> (x = true <-> (qval b < qval a)%Q).
Proof. exact (rgt_spec a b x). Qed.
Print Assumptions C04_greater.
Example C04_less_ex : rlt (mkrat 1 3) (mkrat 1 2) = Ok true /\ rgt (mkrat 1 3) (mkrat 1 2) = Ok false. Proof. now split. Qed.
(** Full claim (false): req a b = Ok x -> (x = true <-> qval a == qval b). It fails in both directions. *)
Theorem C04_equality_refuted :
  (exists a, 0 < den a /\ req a a = Ok false) /\
  (exists a b, 0 < den a /\ 0 < den b /\ req a b = Ok true /\ ~ (qval a == qval b)%Q).
Proof. exact req_refuted. Qed.
Print Assumptions C04_equality_refuted.
(** What == computes: whether the left value is the integer part of the right value. *)
Theorem C04_equality_actual a b x : 0 < den a -> 0 < den b -> req a b = Ok x ->
  (x = true <-> num a = Z.quot (num b) (den b) * den a).
Proof. exact (req_actual a b x). Qed.
Print Assumptions C04_equality_actual.
Theorem C04_equality_on_integers_partial a b x : den a = 1 -> den b = 1 -> req a b = Ok x ->
  (x = true <-> (qval a == qval b)%Q).
Proof. exact (req_integers a b x). Qed.
Print Assumptions C04_equality_on_integers_partial.
Example C04_eq_ex : req (mkrat 7 1) (mkrat 7 1) = Ok true /\ req (mkrat 7 1) (mkrat 8 1) = Ok false. Proof. now split. Qed.
(** != compares representations: right on reduced fractions. *)
Theorem C04_not_equal_on_reduced a b : 0 < den a -> 0 < den b -> lowest a -> lowest b ->
  (rne a b = false <-> (qval a == qval b)%Q).
Proof. exact (rne_lowest a b). Qed.
Print Assumptions C04_not_equal_on_reduced.
Example C04_ne_ex : lowest (mkrat 3 4) /\ rne (mkrat 3 4) (mkrat 3 4) = false. Proof. now split. Qed.

(** C05 full claim (false at n = 0): gal_pow s n 1 = powerRZ s n. *)
Theorem C05_pow_integral_partial s n : n <> 0 -> int_min < n <= int_max -> gal_pow s n 1 = powerRZ s n.
Proof. exact (gal_pow_int s n). Qed.
Print Assumptions C05_pow_integral_partial.
Theorem C05_pow_zero_refuted : exists s, gal_pow s 0 1 <> powerRZ s 0.
Proof. exact pow_zero_refuted. Qed.
Print Assumptions C05_pow_zero_refuted.
Theorem C05_pow_zero_returns_base s : gal_pow s 0 1 = s.
Proof. exact (gal_pow_zero s). Qed.
Print Assumptions C05_pow_zero_returns_base.
(** a fractional exponent n/d gives the positive d-th root of s^n ([std::pow] idealised) *)
Theorem C05_pow_fractional s n d : (0 < s)%R -> 1 < d ->
  (0 < gal_pow s n d)%R /\ powerRZ (gal_pow s n d) d = powerRZ s n.
Proof. exact (gal_pow_frac s n d). Qed.
Print Assumptions C05_pow_fractional.
Example C05_ex : 11 <> 0 /\ int_min < 11 <= int_max. Proof. unfold int_min, int_max. lia. Qed.

(** C06 (next_even and pop_count are in Props_Blades.v) *)
Open Scope N_scope.
Theorem C06_next_pow_2 w s : (w = 32 \/ w = 64) -> 1 <= s -> s <= 2 ^ (w - 1) -> least_pow2 s (next_pow_2 w s).
Proof. exact (next_pow_2_body w s). Qed.
Print Assumptions C06_next_pow_2.
Example C06_np2_ex : next_pow_2 32 33 = 64 /\ next_pow_2 64 (2 ^ 40 + 1) = 2 ^ 41 /\ next_pow_2 32 0 = 0. Proof. now repeat split. Qed.
Theorem C06_leading_set_index x : 0 < x -> 2 ^ leading_set_index x <= x < 2 ^ (leading_set_index x + 1).
Proof. exact (leading_set_index_spec x). Qed.
Print Assumptions C06_leading_set_index.
Theorem C06_rot32_rotates_bytes a b c d : a < 256 -> b < 256 -> c < 256 -> d < 256 ->
  rot32 (a + 256 * b + 65536 * c + 16777216 * d) = b + 256 * c + 65536 * d + 16777216 * a.
Proof. exact (rot32_bytes a b c d). Qed.
Print Assumptions C06_rot32_rotates_bytes.
Theorem C06_rot32_four_times x : x < 2 ^ 32 -> rot32 (rot32 (rot32 (rot32 x))) = x.
Proof. exact (rot32_four x). Qed.
Print Assumptions C06_rot32_four_times.
Example C06_rot_ex : rot32 305419896 = 2014458966. Proof. reflexivity. Qed.
