(** C69: the capacity of the compiled expression of a lambda depends on the lambda only, and bounds
    the program. *)
From Coq Require Import ZArith NArith List Bool Arith Reals Lia Lra ZifyBool ZifyN ZifyNat.
From Verif Require Import Base Model_Numeric Model_Blade Model_MV Model_Product Model_Stack Model_Expr Model_Dfa Model_Reshape Model_Engine Model_Entity Model_Compute
  Spec_Numeric Spec_Clifford Spec_Basis Spec_MV Spec_Expr Spec_Build Spec_Dfa Spec_Engine Spec_Entity Spec_Reshape Spec_Compute.
From Verif Require Import Proof_Numeric Proof_Expr2 Proof_Total Proof_Reshape6 Proof_Shared Proof_Cost Props_Expr Props_Entity Props_Engine Props_Total.
Import ListNotations.
Local Open Scope nat_scope.

(** ** C69 *)
(** every operator reserves exactly the room stated by [cost], whatever its operands became *)
Theorem C69_capacity md inputs u e : build md (lambda_inputs inputs) u = Ok e -> rcap e = cost u /\ length (rnodes e) <= rcap e.
Proof. intros H. destruct (build_cost md inputs u e H) as [A B]. rewrite A. auto. Qed.
Print Assumptions C69_capacity.
Theorem C69_tuple_capacity md inputs us e : (xs <- mapM (build md (lambda_inputs inputs)) us;; e_concat xs) = Ok e ->
  rcap e = list_sum (map cost us) + length us /\ length (rnodes e) <= rcap e.
Proof. intros H. minv H. destruct (concat_cost md inputs us v e E H) as [A B]. rewrite A. auto. Qed.
Print Assumptions C69_tuple_capacity.
(** and the array that reshaping fills has three times as many nodes *)
Theorem C69_reshaped_capacity md inputs u e y : build md (lambda_inputs inputs) u = Ok e -> reshape e = Ok y -> rcap y = 3 * cost u /\ length (rnodes y) <= 3 * cost u.
Proof.
  intros H E. destruct (build_cost md inputs u e H) as [A _]. pose proof (reshape_length e y E) as LE. rewrite A in LE. split; [|exact LE].
  clear LE. unfold reshape in E. minv E. minv E. destruct v0 as [[nodes ses] x]. minv E. minv E. injection E as <-. cbn [rcap]. now rewrite A.
Qed.
Print Assumptions C69_reshaped_capacity.
(** so whether a program is short can be told from the source: every lambda of fewer than 2^32 / 3
    operations without sandwiches is *)
Fixpoint ops (u : uexpr) : nat :=
  match u with
  | UIn _ | UBlade _ _ | UPi | UE => 1
  | UNeg a | UScale _ a | UDivZ a _ | UZDiv _ a | UAddZ _ a | UZSub _ a | USubZ a _ | URev a | UDual a | UFn _ a | UComp a _ | UGrade a _ => ops a + 1
  | UAdd a b | USub a b | UEp a b | UDiv a b | UGp a b | ULc a b | USip a b | UScalarProduct a b | UVee a b | USandwich a b => ops a + ops b + 1
  end.
Fixpoint unsandwiched (u : uexpr) : Prop :=
  match u with
  | UIn _ | UBlade _ _ | UPi | UE => True
  | UNeg a | UScale _ a | UDivZ a _ | UZDiv _ a | UAddZ _ a | UZSub _ a | USubZ a _ | URev a | UDual a | UFn _ a | UComp a _ | UGrade a _ => unsandwiched a
  | UAdd a b | USub a b | UEp a b | UDiv a b | UGp a b | ULc a b | USip a b | UScalarProduct a b | UVee a b => unsandwiched a /\ unsandwiched b
  | USandwich _ _ => False
  end.
Theorem C69_linear u : unsandwiched u -> cost u <= 6 * ops u.
Proof. induction u; cbn [cost ops unsandwiched]; intros H; try contradiction; try lia; try (specialize (IHu H); lia); destruct H as [H1 H2]; specialize (IHu1 H1); specialize (IHu2 H2); lia. Qed.
Print Assumptions C69_linear.
(** a sandwich repeats its right operand, so that nesting sandwiches there makes expressions of n
    operations whose types have more than 2^n nodes *)
Fixpoint nested (n : nat) (x : uexpr) : uexpr := match n with O => x | S n => USandwich x (nested n x) end.
Theorem C69_exponential n x : ops (nested n x) = n * (ops x + 1) + ops x /\ 2 ^ n <= cost (nested n x).
Proof.
  assert (P : 1 <= cost x) by (induction x; cbn [cost]; lia). induction n as [|n [I1 I2]]; [cbn; lia|]. cbn [nested ops cost Nat.pow]. rewrite I1. split; lia.
Qed.
Print Assumptions C69_exponential.

(** ** C66: theorems about compute with the condition on the lambda *)
Lemma cost_short md inputs u e : (N.of_nat (cost u) < 2 ^ 32)%N -> build md (lambda_inputs inputs) u = Ok e -> short e.
Proof. intros C H. destruct (build_cost md inputs u e H) as [A B]. unfold short. rewrite A. split; [lia|exact C]. Qed.
Lemma tuple_short md inputs us e : (N.of_nat (list_sum (map cost us) + length us) < 2 ^ 32)%N -> (xs <- mapM (build md (lambda_inputs inputs)) us;; e_concat xs) = Ok e -> short e.
Proof. intros C H. minv H. destruct (concat_cost md inputs us v e E H) as [A B]. unfold short. rewrite A. split; [lia|exact C]. Qed.
Theorem C69_short md inputs u e : (N.of_nat (cost u) < 2 ^ 32)%N -> build md (lambda_inputs inputs) u = Ok e -> short e.
Proof. exact (cost_short md inputs u e). Qed.
Print Assumptions C69_short.
Theorem C66_compute_by_cost_partial m nb ies inputs env u v : (nb = true -> 2 <= dim m) -> inputs <> [] -> inputs_are m nb ies inputs env -> length env = length inputs ->
  list_sum (map (@length R) inputs) <= N.to_nat ind_constant_start -> guarded Exact (lambda_inputs inputs) u -> faithful m env (lambda_inputs inputs) u -> algebraic (dim m) u = true ->
  (N.of_nat (cost u) < 2 ^ 32)%N -> (forall e, build Exact (lambda_inputs inputs) u = Ok e -> distinct (rnodes e)) -> means m env u v ->
  (exists e, compute_one Exact m nb ies inputs u = Ok [e] /\ entity_is (dim m) e (output m nb v)) \/
  exists er, compute_one Exact m nb ies inputs u = Err er /\ (er = Overflow \/ er = DivZero \/ er = Rounded).
Proof.
  intros A B C D E F G H S I M. apply (C66_compute_right_or_arithmetic_error_partial m nb ies inputs env u v); auto.
  intros e X. split; [exact (cost_short Exact inputs u e S X)|exact (I e X)].
Qed.
Print Assumptions C66_compute_by_cost_partial.
(** the room for temporaries, too, is a condition on the lambda *)
Theorem C66_shared_by_cost_partial m ies inputs env u v : filled ies -> inputs <> [] -> inputs_are m false ies inputs env -> length env = length inputs ->
  guarded Exact (lambda_inputs inputs) u -> faithful m env (lambda_inputs inputs) u -> algebraic (dim m) u = true ->
  (N.of_nat (list_sum (map (@length R) inputs)) + N.of_nat (3 * cost u) * 2 ^ N.of_nat (dim m) <= ind_constant_start)%N ->
  (forall e, build Exact (lambda_inputs inputs) u = Ok e -> identified (rnodes e) /\ counted e) -> means m env u v ->
  (exists e, compute_one Exact m false ies inputs u = Ok [e] /\ entity_is (dim m) e v) \/
  exists er, compute_one Exact m false ies inputs u = Err er /\ (er = Overflow \/ er = DivZero \/ er = Rounded).
Proof.
  intros A B C D E F G S I M. apply (C66_shared_right_or_arithmetic_error_partial m ies inputs env u v); auto.
  intros e X. destruct (I e X) as [I1 I2]. split; [|split; [exact I1|split; [exact I2|]]].
  - apply (cost_short Exact inputs u e); [|exact X]. assert (P : (1 <= 2 ^ N.of_nat (dim m))%N) by (pose proof (N.pow_nonzero 2 (N.of_nat (dim m))); lia).
    assert (Q : (N.of_nat (cost u) <= N.of_nat (3 * cost u) * 2 ^ N.of_nat (dim m))%N) by nia. assert (K : (ind_constant_start < 2 ^ 32)%N) by (vm_compute; reflexivity). lia.
  - destruct (build_cost Exact inputs u e X) as [-> _]. exact S.
Qed.
Print Assumptions C66_shared_by_cost_partial.
Theorem C66_tuple_by_cost_partial m nb ies inputs env us vs : (nb = true -> 2 <= dim m) -> inputs <> [] -> inputs_are m nb ies inputs env -> length env = length inputs ->
  list_sum (map (@length R) inputs) <= N.to_nat ind_constant_start -> us <> [] -> Forall (guarded Exact (lambda_inputs inputs)) us ->
  Forall (fun u => faithful m env (lambda_inputs inputs) u /\ algebraic (dim m) u = true /\ on1 nonempty (build Exact (lambda_inputs inputs) u)) us ->
  (N.of_nat (list_sum (map cost us) + length us) < 2 ^ 32)%N ->
  (forall e, (xs <- mapM (build Exact (lambda_inputs inputs)) us;; e_concat xs) = Ok e -> distinct (rnodes e)) -> Forall2 (means m env) us vs ->
  (exists outs, compute_tuple Exact m nb ies inputs us = Ok outs /\ Forall2 (fun e v => entity_is (dim m) e (output m nb v)) outs vs) \/
  exists er, compute_tuple Exact m nb ies inputs us = Err er /\ (er = Overflow \/ er = DivZero \/ er = Rounded).
Proof.
  intros A B C D E F G H S I M. apply (C66_tuple_right_or_arithmetic_error_partial m nb ies inputs env us vs); auto.
  intros e X. split; [exact (tuple_short Exact inputs us e S X)|exact (I e X)].
Qed.
Print Assumptions C66_tuple_by_cost_partial.

(** ** Examples *)
(** ((x + y) & (w - 2 x)) % ~(-y ^ !w), its scalar part *)
Definition u_every : uexpr :=
  UGrade (UComp (USandwich (UVee (UAdd X Y) (USub W (UScale 2 X))) (URev (UEp (UNeg Y) (UDual W)))) 0) 0.
Example C69_ex : exists e, build Exact (lambda_inputs data_ex) u_every = Ok e /\ cost u_every = 35 /\ rcap e = 35 /\ length (rnodes e) <= 35 /\
  exists y, reshape e = Ok y /\ rcap y = 105.
Proof. eexists. split; [vm_compute; reflexivity|]. split; [reflexivity|]. split; [reflexivity|]. split; [vm_compute; lia|]. eexists. split; vm_compute; reflexivity. Qed.
Example C69_tuple_ex : exists e, (xs <- mapM (build Exact (lambda_inputs data_ex)) [u_ex; u_every];; e_concat xs) = Ok e /\ rcap e = cost u_ex + 37.
Proof. eexists. split; vm_compute; reflexivity. Qed.
Example C69_linear_ex : unsandwiched (UVee (UAdd X Y) (USub W (UScale 2 X))) /\ cost (UVee (UAdd X Y) (USub W (UScale 2 X))) = 16 /\ ~ unsandwiched u_every.
Proof. repeat split; auto. Qed.
Example C69_exponential_ex : cost (nested 10 X) = 5 * 1024 - 4 /\ ops (nested 10 X) = 21.
Proof. split; vm_compute; reflexivity. Qed.
Example C66_by_cost_ex : (N.of_nat (cost u_ex) < 2 ^ 32)%N /\ (N.of_nat (list_sum (map (@length R) data_ex)) + N.of_nat (3 * cost u_shared) * 2 ^ N.of_nat (dim plane) <= ind_constant_start)%N /\
  (N.of_nat (list_sum (map cost [u_ex; u_ex3]) + length [u_ex; u_ex3]) < 2 ^ 32)%N.
Proof. split; [|split]; vm_compute; try reflexivity. discriminate. Qed.
