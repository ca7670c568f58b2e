(** C29, C31, C32, C39, C40, C42: evaluation of programs, and compute as a whole. *)
From Coq Require Import ZArith NArith List Bool Arith Reals Lia Lra ZifyBool ZifyN ZifyNat Sorting.Sorted.
From Verif Require Import Base Model_Numeric Model_Blade Model_MV Model_Product Model_Expr Model_Dfa Model_Reshape Model_Engine Model_Entity Model_Compute
  Spec_Numeric Spec_Clifford Spec_Basis Spec_MV Spec_Expr Spec_Build Spec_Dfa Spec_Engine Spec_Entity Spec_Reshape Spec_Compute.
From Verif Require Import Proof_Safe Proof_Expr6 Proof_Engine Proof_Engine2 Proof_Engine3 Proof_Entity Proof_Reshape6 Proof_Basis Proof_ProductVal Proof_Compute Proof_Applicable Proof_Shared.
From Verif Require Import Props_Expr Props_Entity.
Import ListNotations.
Local Open Scope nat_scope.

(** ** C29: symbolic evaluation followed by reification *)
(** any program over the algebraic operators that can be run, on any inputs *)
Theorem C29_symbolic_evaluation m nb ies inputs env l q outs t s : (nb = true -> 2 <= dim m) -> inputs_are m nb ies inputs env -> bound inputs l ->
  num q <> 0%Z -> (0 < den q)%Z -> forallb (algebraic_node (dim m)) l = true -> list_sum (map (@length R) inputs) <= N.to_nat ind_constant_start ->
  run m env l ([], []) (t, s) -> s <> [] -> compute Exact m nb ies inputs l q = Ok outs ->
  Forall2 (fun e v => entity_is (dim m) e (vscale (rv q) (output m nb v))) outs (rev s).
Proof. exact (engine_algebraic m nb ies inputs env l q outs t s). Qed.
Print Assumptions C29_symbolic_evaluation.
(** any program whose nodes are applicable when they are reached: also grade selection, division,
    functions and temporaries *)
Theorem C29_with_temporaries_partial m nb ies inputs env l q outs t s : (nb = true -> 2 <= dim m) -> inputs_are m nb ies inputs env -> bound inputs l ->
  num q <> 0%Z -> (0 < den q)%Z -> applicable m nb ies (list_sum (map (@length R) inputs)) l -> stores_on_top l ->
  neutral_temps m nb ies (list_sum (map (@length R) inputs)) l ->
  run m env l ([], []) (t, s) -> s <> [] -> compute Exact m nb ies inputs l q = Ok outs ->
  Forall2 (fun e v => entity_is (dim m) e (vscale (rv q) (output m nb v))) outs (rev s).
Proof. exact (engine_sound m nb ies inputs env l q outs t s). Qed.
Print Assumptions C29_with_temporaries_partial.
Theorem C29_code_agrees m nb ies inputs l q outs : compute Exact m nb ies inputs l q = Ok outs -> compute Code m nb ies inputs l q = Ok outs.
Proof. exact (imp_compute m nb ies inputs l q outs). Qed.
Print Assumptions C29_code_agrees.
(** compute as a whole, from the lambda to the entity. Full statement: without [faithful] and
    [distinct]. Missing: false then, see the refutations of C25-C28 and C30 *)
Theorem C29_compute_algebraic_partial m nb ies inputs env u outs v : (nb = true -> 2 <= dim m) -> inputs_are m nb ies inputs env -> length env = length inputs ->
  list_sum (map (@length R) inputs) <= N.to_nat ind_constant_start -> faithful m env (lambda_inputs inputs) u -> algebraic (dim m) u = true ->
  on1 (fun e => short e /\ distinct (rnodes e)) (build Exact (lambda_inputs inputs) u) -> means m env u v ->
  compute_one Exact m nb ies inputs u = Ok outs -> exists e, outs = [e] /\ entity_is (dim m) e (output m nb v).
Proof. exact (compute_algebraic m nb ies inputs env u outs v). Qed.
Print Assumptions C29_compute_algebraic_partial.
(** common subexpressions may be shared: a program over the algebraic operators whose operands are
    told apart and whose references are counted right. Full statement: also in conformal algebras
    and without [identified] and [counted]. Missing: false then, see the refutations of C30 and C40 *)
Theorem C29_compute_shared_partial m ies inputs env u outs v : filled ies -> inputs_are m false ies inputs env -> length env = length inputs ->
  faithful m env (lambda_inputs inputs) u -> algebraic (dim m) u = true ->
  on1 (fun e => short e /\ identified (rnodes e) /\ counted e /\
    (N.of_nat (list_sum (map (@length R) inputs)) + N.of_nat (3 * rcap e) * 2 ^ N.of_nat (dim m) <= ind_constant_start)%N) (build Exact (lambda_inputs inputs) u) -> means m env u v ->
  compute_one Exact m false ies inputs u = Ok outs -> exists e, outs = [e] /\ entity_is (dim m) e v.
Proof. exact (compute_shared m ies inputs env u outs v). Qed.
Print Assumptions C29_compute_shared_partial.
(** any lambda, if what reshaping makes of it is applicable *)
Theorem C29_compute_general_partial m nb ies inputs env u outs v : (nb = true -> 2 <= dim m) -> inputs_are m nb ies inputs env -> length env = length inputs ->
  faithful m env (lambda_inputs inputs) u -> regular (lambda_inputs inputs) u ->
  on1 (fun e => short e /\ identified (rnodes e) /\ counted e /\
    on1 (fun y => applicable m nb ies (list_sum (map (@length R) inputs)) (rnodes y) /\ neutral_temps m nb ies (list_sum (map (@length R) inputs)) (rnodes y)) (reshape e))
    (build Exact (lambda_inputs inputs) u) -> means m env u v ->
  compute_one Exact m nb ies inputs u = Ok outs -> exists e, outs = [e] /\ entity_is (dim m) e (output m nb v).
Proof. exact (compute_general m nb ies inputs env u outs v). Qed.
Print Assumptions C29_compute_general_partial.
Theorem C29_compute_code_agrees m nb ies inputs u outs : compute_one Exact m nb ies inputs u = Ok outs -> compute_one Code m nb ies inputs u = Ok outs.
Proof. exact (imp_compute_one m nb ies inputs u outs). Qed.
Print Assumptions C29_compute_code_agrees.

(** ** C42: tuples *)
(** Full statement: without [distinct] and [algebraic]. Missing: false then, see
    C42_lengths_not_adjusted_refuted *)
Theorem C42_compute_tuple_partial m nb ies inputs env us outs vs : (nb = true -> 2 <= dim m) -> inputs_are m nb ies inputs env -> length env = length inputs ->
  list_sum (map (@length R) inputs) <= N.to_nat ind_constant_start -> us <> [] ->
  Forall (fun u => faithful m env (lambda_inputs inputs) u /\ algebraic (dim m) u = true /\ on1 nonempty (build Exact (lambda_inputs inputs) u)) us ->
  on1 (fun e => short e /\ distinct (rnodes e)) (xs <- mapM (build Exact (lambda_inputs inputs)) us;; e_concat xs) -> Forall2 (means m env) us vs ->
  compute_tuple Exact m nb ies inputs us = Ok outs -> Forall2 (fun e v => entity_is (dim m) e (output m nb v)) outs vs.
Proof. exact (compute_tuples m nb ies inputs env us outs vs). Qed.
Print Assumptions C42_compute_tuple_partial.
Theorem C42_tuple_code_agrees m nb ies inputs us outs : compute_tuple Exact m nb ies inputs us = Ok outs -> compute_tuple Code m nb ies inputs us = Ok outs.
Proof. exact (imp_compute_tuple m nb ies inputs us outs). Qed.
Print Assumptions C42_tuple_code_agrees.

(** ** C31: the data array *)
(** the indeterminates of input [k] are the ones from [offset inputs k] on; each is given the
    matching component, whatever follows the inputs in the array *)
Theorem C31_values_of_indeterminates inputs extra : list_sum (map (@length R) inputs) <= N.to_nat ind_constant_start ->
  exists data, fill_inputs (repeat 0%R (list_sum (map (@length R) inputs) + extra)) 0 inputs = Ok data /\
    forall k d j, nth_error inputs k = Some d -> j < length d ->
      data_value data (N.of_nat (Spec_Engine.offset inputs k + j)) = Ok (nth j d 0%R).
Proof.
  intros L. exists (concat inputs ++ repeat 0%R extra). split.
  - rewrite repeat_app. exact (fill_ok inputs [] (repeat 0%R extra) (repeat 0%R (list_sum (map (@length R) inputs))) (repeat_length _ _)).
  - intros k d j K J. pose proof (offset_le inputs k d K) as O. unfold data_value. replace (ind_constant_start <=? _)%N with false by lia.
    rewrite Nat2N.id. assert (C : length (concat inputs) = list_sum (map (@length R) inputs)) by (clear; induction inputs as [|a l IH]; [reflexivity|]; cbn [concat map]; rewrite app_length, IH; reflexivity).
    unfold get. rewrite nth_error_app1 by lia. rewrite (nth_error_nth' _ 0%R) by lia. now rewrite (offset_concat inputs k d K j J).
Qed.
Print Assumptions C31_values_of_indeterminates.
(** the ranges are disjoint and in order *)
Theorem C31_ranges_in_order inputs k k' d : k < k' -> nth_error inputs k = Some d -> Spec_Engine.offset inputs k + length d <= Spec_Engine.offset inputs k'.
Proof.
  unfold Spec_Engine.offset. revert k k'. induction inputs as [|e l IH]; intros k k' LT H; [destruct k; discriminate|]. destruct k' as [|k']; [lia|]. destruct k as [|k]; cbn in H.
  - injection H as ->. cbn [firstn map list_sum fold_right]. change (fold_right Nat.add 0) with list_sum. lia.
  - cbn [firstn map list_sum fold_right]. change (fold_right Nat.add 0) with list_sum. specialize (IH k k' ltac:(lia) H). lia.
Qed.
Print Assumptions C31_ranges_in_order.
(** the argument of the lambda for input [k] refers to exactly these indeterminates *)
Theorem C31_arguments inputs k : k < length inputs -> nth_error (lambda_inputs inputs) k = Some (e_input (N.of_nat (Spec_Engine.offset inputs k)) k).
Proof.
  intros K. unfold lambda_inputs. rewrite entities_nth by now rewrite map_length. now rewrite offset_same, !Nat.add_0_l, !N.add_0_l.
Qed.
Print Assumptions C31_arguments.
Example C31_ex : exists data, fill_inputs (repeat 0%R 6) 0 [[1; 2]; []; [3; 4; 5]]%R = Ok data /\ data_value data 4 = Ok 5%R /\ Spec_Engine.offset [[1; 2]; []; [3; 4; 5]]%R 2 = 2.
Proof. eexists. repeat split; vm_compute; reflexivity. Qed.

(** ** C32: coefficients *)
(** a monomial with a positive denominator and integral exponents that are not zero; a zero
    coefficient gives zero *)
Theorem C32_monomials x data s o v : length data <= N.to_nat ind_constant_start -> (0 < den (sq s))%Z -> Forall (fun i => num (ideg i) <> 0)%Z (sinds s) ->
  mon_ok s -> slice (inds x) o (length (sinds s)) = Ok (sinds s) -> mop x = mop_id ->
  cmon_value x data (mkmon (sq s) (sdeg s) (length (sinds s)) o) = Ok v -> v = mon_val (valuation data) s.
Proof.
  intros L D I M SL O H. destruct (Z.eq_dec (num (sq s)) 0) as [Z0|Z0].
  - unfold cmon_value, is_zero in H. cbn [mq] in H. rewrite Z0 in H. cbn [Z.eqb] in H. injection H as <-. unfold mon_val, rv. rewrite Z0. unfold Rdiv. ring.
  - apply (cmon_ok x data s o v L (conj Z0 (conj D I)) M SL) in H. rewrite O in H. exact H.
Qed.
Print Assumptions C32_monomials.
(** the same for monomials of a multivector marked with a function *)
Theorem C32_marked_monomials x data s o v : length data <= N.to_nat ind_constant_start -> num (sq s) <> 0%Z -> (0 < den (sq s))%Z -> Forall (fun i => num (ideg i) <> 0)%Z (sinds s) ->
  mon_ok s -> slice (inds x) o (length (sinds s)) = Ok (sinds s) ->
  cmon_value x data (mkmon (sq s) (sdeg s) (length (sinds s)) o) = Ok v -> v = op_fun (mop x) (mon_val (valuation data) s).
Proof. intros L N D I M SL. apply (cmon_ok x data s o v L (conj N (conj D I)) M SL). Qed.
Print Assumptions C32_marked_monomials.
(** the outermost factor *)
Theorem C32_outer_factor q v : num q <> 0%Z -> (0 < den q)%Z -> scale_by q v = (rv q * v)%R.
Proof. exact (scale_by_ok q v). Qed.
Print Assumptions C32_outer_factor.
(** a unit denominator is dropped with its sign, a zero numerator is not multiplied with *)
Theorem C32_negative_denominator_refuted : exists q v, num q <> 0%Z /\ den q <> 0%Z /\ scale_by q v <> (rv q * v)%R.
Proof. exists (mkrat 1 (-1)), 1%R. repeat split; try discriminate. unfold scale_by, rv. cbn. lra. Qed.
Print Assumptions C32_negative_denominator_refuted.
Theorem C32_monomial_negative_denominator_refuted : exists x data s v, slice (inds x) 0 (length (sinds s)) = Ok (sinds s) /\ mon_ok s /\ mop x = mop_id /\
  cmon_value x data (mkmon (sq s) (sdeg s) (length (sinds s)) 0) = Ok v /\ v <> mon_val (valuation data) s.
Proof.
  exists (construct_ie [1%N] 0), [1%R], (mks (mkrat 1 (-1)) one [mkind 0 one]). eexists. split; [reflexivity|]. split; [|split; [reflexivity|split; [reflexivity|]]].
  - unfold mon_ok. cbn. repeat split; try discriminate; repeat constructor.
  - unfold mon_val, rv, inds_val, dpow, Rprod. vm_compute. change R1 with 1%R. intros H. replace (1 * / - (1) * (1 * 1 * 1))%R with (-1)%R in H by field. lra.
Qed.
Print Assumptions C32_monomial_negative_denominator_refuted.
Theorem C32_zero_numerator_refuted : exists q v, den q = 1%Z /\ scale_by q v <> (rv q * v)%R.
Proof. exists (mkrat 0 1), 1%R. split; [reflexivity|]. unfold scale_by, rv. cbn. lra. Qed.
Print Assumptions C32_zero_numerator_refuted.
(** x / -1 is x *)
Theorem C32_division_by_minus_one_refuted : exists m ies inputs env u v e, inputs_are m false ies inputs env /\ means m env u v /\
  compute_one Code m false ies inputs u = Ok [e] /\ entity_val e <> v.
Proof.
  exists plane, [construct_ie [1; 2]%N], [[1; 2]%R], [on_blades [1; 2]%N [1; 2]%R], (UDivZ X (-1)). do 2 eexists. split; [|split; [|split]].
  - split; [reflexivity|]. intros [|[|k]] ie H; try discriminate. injection H as <-. do 2 eexists. split; [reflexivity|]. split; [reflexivity|].
    apply (C34_stored_blades plane false); [repeat constructor|repeat constructor|reflexivity].
  - constructor; [constructor; reflexivity|discriminate].
  - vm_compute. reflexivity.
  - intros H. apply (f_equal (fun f => f 1%N)) in H. unfold vscale, on_blades, entity_val, Rsum in H. cbn in H. lra.
Qed.
Print Assumptions C32_division_by_minus_one_refuted.
Example C32_ex : cmon_value (construct_ie [1; 2]%N 0) [3; 5]%R (mkmon (mkrat 2 7) (mkrat 2 1) 2 0) = Ok (2 / 7 * (3 * 5))%R.
Proof. vm_compute. reflexivity. Qed.

(** ** C39: literals of the conformal algebras *)
Lemma linear_of_delta n F a b : (a < 2 ^ N.of_nat n)%N -> linear n F (delta a) b = F a b.
Proof.
  intros A. unfold linear. rewrite <- (Rsum_single (fun c => F c b) a (blades n)) by (try apply Proof_ProductVal.blades_nodup; now apply Proof_Basis.blades_in).
  apply Rsum_ext. intros c _. unfold delta. destruct (N.eqb_spec a c); ring.
Qed.
(** a blade with neither or both of no and ni is the same in both bases, so the literal denotes the
    blade the user means, whatever the expression. Full statement: for all blades. Missing: false
    for the others, see below *)
Theorem C39_literals_partial n b : 2 <= n -> (b < 2 ^ N.of_nat n)%N -> N.testbit b (N.of_nat n - 2) = N.testbit b (N.of_nat n - 1) ->
  forall c, (c < 2 ^ N.of_nat n)%N -> linear n (outermorphism n (null_to_natural n)) (delta b) c = delta b c /\
    linear n (outermorphism n (natural_to_null n)) (delta b) c = delta b c.
Proof.
  intros N2 B E c C. rewrite !linear_of_delta by exact B. split.
  - rewrite natural_outer by assumption. unfold dmat. rewrite natural_dest_eq by exact N2. rewrite E. now destruct (N.testbit b (N.of_nat n - 1)).
  - rewrite null_outer by assumption. unfold dmat. rewrite null_dest_eq by exact N2. rewrite E. now destruct (N.testbit b (N.of_nat n - 1)).
Qed.
Print Assumptions C39_literals_partial.
(** such a literal returned from the lambda comes back as it was written *)
Theorem C39_compute_literal_partial m ies inputs env b k outs : inputs_are m true ies inputs env -> length env = length inputs -> list_sum (map (@length R) inputs) <= N.to_nat ind_constant_start ->
  2 <= dim m -> (b < 2 ^ dimension m)%N -> N.testbit b (dimension m - 2) = N.testbit b (dimension m - 1) -> k <> 0%Z ->
  compute_one Exact m true ies inputs (UBlade b k) = Ok outs -> exists e, outs = [e] /\ entity_is (dim m) e (vscale (IZR k) (delta b)).
Proof.
  intros IA LE LC D B E K H. assert (DN : N.of_nat (dim m) = dimension m) by apply N2Nat.id. apply (compute_algebraic m true ies inputs env (UBlade b k) outs (vscale (IZR k) (delta b))) in H; auto.
  - destruct H as (e & EO & H). exists e. split; [exact EO|]. replace (vscale (IZR k) (delta b)) with (output m true (vscale (IZR k) (delta b))); [exact H|].
    rewrite output_scale. f_equal. apply FunctionalExtensionality.functional_extensionality. intros c. unfold output. destruct (N.ltb_spec c (2 ^ dimension m)) as [C|C].
    + rewrite <- DN in B, E, C. exact (proj2 (C39_literals_partial (dim m) b D B E c C)).
    + unfold delta. destruct (N.eqb_spec b c); [lia|reflexivity].
  - cbn [algebraic]. rewrite DN. lia.
  - cbn [build on1 e_blade]. split; [split; cbn; lia|]. intros p q k0 K1 P Q. cbn [e_blade rnodes length] in P, Q. lia.
  - constructor.
Qed.
Print Assumptions C39_compute_literal_partial.
Example C39_ex : inputs_are cga_m true [cga_point_ie] [[0; 0; 0]%R] [input cga_m true (conformal_point 0 0 0)] /\
  exists e, compute_one Exact cga_m true [cga_point_ie] [[0; 0; 0]%R] (UBlade 25 3) = Ok [e] /\ N.testbit 25 (dimension cga_m - 2) = N.testbit 25 (dimension cga_m - 1).
Proof.
  split; [|eexists; split; vm_compute; reflexivity]. split; [reflexivity|]. intros [|[|k]] ie X; try discriminate X. injection X as <-.
  do 2 eexists. split; [reflexivity|]. split; [reflexivity|]. apply C34_cga_point.
Qed.
(** 1_no is no - ni/2, and 1_ni is no + ni/2 *)
Theorem C39_origin_refuted : exists e, compute_one Code cga_m true [cga_point_ie] [[0; 0; 0]%R] (UBlade 8 1) = Ok [e] /\ entity_val e <> delta 8.
Proof.
  eexists. split; [vm_compute; reflexivity|]. intros H. apply (f_equal (fun f => f 16%N)) in H. unfold entity_val, delta, Rsum in H. cbn in H. change R1 with 1%R in H. lra.
Qed.
Print Assumptions C39_origin_refuted.
Theorem C39_infinity_refuted : exists e, compute_one Code cga_m true [cga_point_ie] [[0; 0; 0]%R] (UBlade 16 1) = Ok [e] /\ entity_val e <> delta 16.
Proof.
  eexists. split; [vm_compute; reflexivity|]. intros H. apply (f_equal (fun f => f 8%N)) in H. unfold entity_val, delta, Rsum in H. cbn in H. change R1 with 1%R in H. lra.
Qed.
Print Assumptions C39_infinity_refuted.
(** the conformal point at the origin is not 1_no *)
Theorem C39_point_minus_origin_refuted : exists e, compute_one Code cga_m true [cga_point_ie] [[0; 0; 0]%R] (USub (UIn 0) (UBlade 8 1)) = Ok [e] /\ entity_val e 16%N <> 0%R.
Proof.
  eexists. split; [vm_compute; reflexivity|]. unfold entity_val, delta, Rsum. cbn. change R1 with 1%R. change R0 with 0%R. lra.
Qed.
Print Assumptions C39_point_minus_origin_refuted.

(** ** C40: functions *)
(** Full statement: without the applicability of the reshaped program. Missing: false then, see
    below *)
Theorem C40_compute_function_partial m ies inputs env o f a outs v : inputs_are m false ies inputs env -> length env = length inputs ->
  faithful m env (lambda_inputs inputs) a -> regular (lambda_inputs inputs) a -> fn o = Some f ->
  on1 (fun e => short e /\ identified (rnodes e) /\ counted e /\
    on1 (fun y => applicable m false ies (list_sum (map (@length R) inputs)) (rnodes y)) (reshape e))
    (build Exact (lambda_inputs inputs) (UFn o a)) -> means m env a v -> is_scalar v ->
  compute_one Exact m false ies inputs (UFn o a) = Ok outs -> exists e, outs = [e] /\ entity_is (dim m) e (vscalar (f (v 0%N))).
Proof.
  intros IA LE FA RG FN ON ME SC H. refine (compute_general m false ies inputs env (UFn o a) outs (vscalar (f (v 0%N))) _ IA LE FA _ _ _ H); [discriminate| | |].
  - split; [|exact RG]. intros ->. discriminate FN.
  - destruct (build Exact (lambda_inputs inputs) (UFn o a)) as [e|]; [|exact ON]. destruct ON as (O1 & O2 & O3 & O4). repeat split; try assumption; try apply O1.
    destruct (reshape e) as [y|]; [|exact O4]. split; [exact O4|discriminate].
  - now apply m_fn.
Qed.
Print Assumptions C40_compute_function_partial.
(** the functions are lost in conformal algebras: sqrt(p[e1]) of a point is its coordinate *)
Theorem C40_conformal_function_lost_refuted : exists x e, compute_one Code cga_m true [cga_point_ie] [[x; 0; 0]%R] (UFn op_sqrt (UComp (UIn 0) 1)) = Ok [e] /\ (0 < x)%R /\ entity_val e 0 <> sqrt x.
Proof.
  exists 4%R. eexists. split; [vm_compute; reflexivity|]. split; [lra|]. replace 4%R with (2 * 2)%R by ring. rewrite sqrt_square by lra.
  unfold entity_val, Rsum. cbn. change R1 with 1%R. change R0 with 0%R. lra.
Qed.
Print Assumptions C40_conformal_function_lost_refuted.

(** ** Examples: the hypotheses are met *)
(** two vectors and a multivector of the plane *)
Definition ies_ex : list (N -> mv) := [construct_ie [1; 2]%N; construct_ie [1; 2]%N; construct_ie [0; 1; 2; 3]%N].
Definition data_ex : list (list R) := [[1; 2]; [3; 4]; [5; 6; 7; 8]]%R.
Definition vals_ex : list V := [on_blades [1; 2]%N [1; 2]%R; on_blades [1; 2]%N [3; 4]%R; on_blades [0; 1; 2; 3]%N [5; 6; 7; 8]%R].
Lemma inputs_ex : inputs_are plane false ies_ex data_ex vals_ex.
Proof.
  split; [reflexivity|]. intros [|[|[|[|k]]]] ie H; try discriminate; injection H as <-; do 2 eexists; (split; [reflexivity|]; split; [reflexivity|]);
    apply (C34_stored_blades plane false); repeat constructor.
Qed.
Ltac lists := unfold short; match goal with |- on1 ?P ?a => let a' := eval vm_compute in a in change (on1 P a') end; cbn [on1].
(** (2 (x+y) - w/3) ~(x^y) *)
Example C29_compute_ex : list_sum (map (@length R) data_ex) <= N.to_nat ind_constant_start /\ faithful plane vals_ex (lambda_inputs data_ex) u_ex /\ algebraic (dim plane) u_ex = true /\
  on1 (fun e => short e /\ distinct (rnodes e)) (build Exact (lambda_inputs data_ex) u_ex) /\ (exists v, means plane vals_ex u_ex v) /\
  exists e, compute_one Exact plane false ies_ex data_ex u_ex = Ok [e] /\ map fst e = [0; 1; 2; 3]%N.
Proof.
  split; [cbn; lia|]. split; [unfold u_ex, X, Y, W; faith|]. split; [reflexivity|]. split; [|split].
  - lists. split; [split; vm_compute; reflexivity|]. apply distinctb_ok. vm_compute. reflexivity.
  - eexists. unfold u_ex, X, Y, W. repeat (constructor; try reflexivity; try discriminate).
  - eexists. split; vm_compute; reflexivity.
Qed.
(** the same program, run by the machine *)
Example C29_ex : exists l t v, bound data_ex l /\ forallb (algebraic_node (dim plane)) l = true /\ run plane vals_ex l ([], []) (t, [v]) /\ length l = 14 /\
  exists e, compute Exact plane false ies_ex data_ex l one = Ok [e].
Proof.
  destruct C29_compute_ex as (_ & FA & _ & _ & (v & ME) & _). destruct (build Exact (lambda_inputs data_ex) u_ex) as [x|] eqn:E; [|vm_compute in E; discriminate E].
  destruct (lambda_sound plane vals_ex data_ex u_ex x v eq_refl FA E ME) as [D _]. assert (NE : nonempty x) by (vm_compute in E; injection E as <-; discriminate).
  destruct (C25_denotation_is_what_the_machine_computes plane vals_ex x v [] [] D NE) as (w & RUN & _). exists (rnodes x), [], w. vm_compute in E. injection E as <-.
  split; [repeat constructor; intros H; try discriminate H; reflexivity|]. split; [vm_compute; reflexivity|]. split; [exact RUN|]. split; [reflexivity|]. eexists. vm_compute. reflexivity.
Qed.
Example C42_compute_ex : Forall (fun u => faithful plane vals_ex (lambda_inputs data_ex) u /\ algebraic (dim plane) u = true /\ on1 nonempty (build Exact (lambda_inputs data_ex) u)) [u_ex; u_ex3] /\
  on1 (fun e => short e /\ distinct (rnodes e)) (xs <- mapM (build Exact (lambda_inputs data_ex)) [u_ex; u_ex3];; e_concat xs) /\
  exists a b, compute_tuple Exact plane false ies_ex data_ex [u_ex; u_ex3] = Ok [a; b].
Proof.
  split; [|split].
  - constructor; [|constructor; [|constructor]]; (split; [unfold u_ex, u_ex3, X, Y, W; faith|split; [reflexivity|lists; discriminate]]).
  - lists. split; [split; vm_compute; reflexivity|]. apply distinctb_ok. vm_compute. reflexivity.
  - do 2 eexists. vm_compute. reflexivity.
Qed.
(** the square root of the scalar part of x y: the product is stored first *)
Definition u_norm : uexpr := UComp (UGp X Y) 0.
Example C40_ex : faithful plane vals_ex (lambda_inputs data_ex) u_norm /\ regular (lambda_inputs data_ex) u_norm /\
  on1 (fun e => short e /\ identified (rnodes e) /\ counted e /\ on1 (fun y => applicable plane false ies_ex (list_sum (map (@length R) data_ex)) (rnodes y)) (reshape e))
    (build Exact (lambda_inputs data_ex) (UFn op_sqrt u_norm)) /\ (exists v, means plane vals_ex u_norm v /\ is_scalar v) /\
  exists e, compute_one Exact plane false ies_ex data_ex (UFn op_sqrt u_norm) = Ok [e] /\ map fst e = [0%N].
Proof.
  split; [unfold u_norm, X, Y; faith|]. split; [cbn; tauto|]. split; [|split].
  - lists. split; [split; vm_compute; reflexivity|]. split; [apply identifiedb_ok; vm_compute; reflexivity|]. split; [apply countedb_ok; vm_compute; reflexivity|].
    lists. apply applicableb_ok. vm_compute. reflexivity.
  - eexists. split; [unfold u_norm, X, Y; repeat (constructor; try reflexivity)|]. intros b B. unfold vcomp, vscalar. destruct (N.eqb_spec b 0); [contradiction|]. reflexivity.
  - eexists. split; vm_compute; reflexivity.
Qed.
(** division and a shared factor: (w x w x) / (x y)[0] with the generality of C29_compute_general_partial *)
Definition u_general : uexpr := UDiv (UGp (UGp W X) (UGp W X)) (UComp (UGp X Y) 0).
Example C29_general_ex : faithful plane vals_ex (lambda_inputs data_ex) u_general /\ regular (lambda_inputs data_ex) u_general /\
  on1 (fun e => short e /\ identified (rnodes e) /\ counted e /\ on1 (fun y => applicable plane false ies_ex (list_sum (map (@length R) data_ex)) (rnodes y) /\ length (filter (fun n => (no n =? op_noop)%N) (rnodes y)) = 3) (reshape e))
    (build Exact (lambda_inputs data_ex) u_general) /\
  exists e, compute_one Exact plane false ies_ex data_ex u_general = Ok [e] /\ map fst e = [0; 1; 2; 3]%N.
Proof.
  split; [unfold u_general, X, Y, W; faith|]. split; [|split].
  - cbn [regular u_general X Y W]. repeat split. lists. discriminate.
  - lists. split; [split; vm_compute; reflexivity|]. split; [apply identifiedb_ok; vm_compute; reflexivity|]. split; [apply countedb_ok; vm_compute; reflexivity|].
    lists. split; [apply applicableb_ok; vm_compute; reflexivity|vm_compute; reflexivity].
  - eexists. split; vm_compute; reflexivity.
Qed.
(** the factor w x is shared: w x y + ~(w x) *)
Definition u_shared : uexpr := UAdd (UGp (UGp W X) Y) (URev (UGp W X)).
Example C29_shared_ex : filled ies_ex /\ faithful plane vals_ex (lambda_inputs data_ex) u_shared /\ algebraic (dim plane) u_shared = true /\
  on1 (fun e => short e /\ identified (rnodes e) /\ counted e /\
    (N.of_nat (list_sum (map (@length R) data_ex)) + N.of_nat (3 * rcap e) * 2 ^ N.of_nat (dim plane) <= ind_constant_start)%N /\
    on1 (fun y => length (filter (fun n => (no n =? op_noop)%N) (rnodes y)) = 1) (reshape e)) (build Exact (lambda_inputs data_ex) u_shared) /\
  (exists v, means plane vals_ex u_shared v) /\
  exists e, compute_one Exact plane false ies_ex data_ex u_shared = Ok [e] /\ map fst e = [0; 1; 2; 3]%N.
Proof.
  split; [repeat constructor|]. split; [unfold u_shared, X, Y, W; faith|]. split; [reflexivity|]. split; [|split].
  - lists. split; [split; vm_compute; reflexivity|]. split; [apply identifiedb_ok; vm_compute; reflexivity|]. split; [apply countedb_ok; vm_compute; reflexivity|].
    split; [vm_compute; discriminate|]. lists. vm_compute. reflexivity.
  - eexists. unfold u_shared, X, Y, W. repeat (constructor; try reflexivity; try discriminate).
  - eexists. split; vm_compute; reflexivity.
Qed.
