(** C66: rpn_reshape accesses no array out of bounds; compute as a whole gives the right value or
    fails for an arithmetic reason. *)
From Coq Require Import ZArith NArith List Bool Arith Reals Lia Lra ZifyBool ZifyN ZifyNat.
From Verif Require Import Base Model_Numeric Model_Blade Model_MV Model_Product Model_Stack Model_Expr Model_Dfa Model_Reshape Model_Engine Model_Entity Model_Compute
  Spec_Numeric Spec_Clifford Spec_Basis Spec_MV Spec_Expr Spec_Build Spec_Dfa Spec_Engine Spec_Entity Spec_Reshape Spec_Compute Spec_Scan.
From Verif Require Import Proof_Numeric Proof_Expr Proof_Expr2 Proof_Expr3 Proof_Expr6 Proof_Shared Proof_Compute Proof_Reshape4 Proof_Reshape5 Proof_Reshape6 Proof_Emit2 Proof_Total Proof_Total2 Proof_Applicable.
From Verif Require Import Props_Expr Props_Entity Props_Engine.
Import ListNotations.
Local Open Scope nat_scope.

(** ** C66: reshaping *)
(** every program of a lambda is reshaped: no cell outside of the arrays of nodes, candidates,
    references and offsets is accessed, no counter becomes negative, both passes end, and the result
    has at most three times the capacity of the program. Full statement: without [identified] and
    [unnested]. Missing: without [unnested] it is false, see C30_no_known_subexpression_refuted;
    without [identified] the nodes skipped may belong to another program *)
Theorem C66_reshape_succeeds_partial m env x v : denotes m env x v -> nonempty x -> (N.of_nat (rcap x) < 2 ^ 32)%N -> length (rnodes x) <= rcap x ->
  identified (rnodes x) -> unnested (rnodes x) -> exists y, reshape x = Ok y /\ length (rnodes y) <= rcap y /\ rcap y = 3 * rcap x.
Proof.
  intros D N C L I U. apply denotes_inv in D as (w & W & _); [|exact N]. destruct (reshape_total m env x w C L W I U) as (y & E). exists y. split; [exact E|].
  pose proof (reshape_length x y E) as LE. assert (CE : rcap y = 3 * rcap x). { clear LE. unfold reshape in E. minv E. minv E. destruct v1 as [[nodes ses] e]. minv E. minv E. injection E as <-. reflexivity. } rewrite CE. auto.
Qed.
Print Assumptions C66_reshape_succeeds_partial.
(** programs without division and functions need no further condition *)
Theorem C66_direct_partial m env x v : denotes m env x v -> nonempty x -> (N.of_nat (rcap x) < 2 ^ 32)%N -> length (rnodes x) <= rcap x ->
  identified (rnodes x) -> direct (rnodes x) -> exists y, reshape x = Ok y.
Proof. intros D N C L I U. destruct (C66_reshape_succeeds_partial m env x v D N C L I (direct_unnested _ U)) as (y & E & _). eauto. Qed.
Print Assumptions C66_direct_partial.
Theorem C66_empty x : rnodes x = [] -> exists y, reshape x = Ok y /\ rnodes y = [].
Proof. intros E. destruct (reshape_none x E) as (y & EY). exists y. split; [exact EY|]. exact (reshape_empty x y E EY). Qed.
Print Assumptions C66_empty.
(** the program of a tuple *)
Theorem C66_tuple_reshaped_partial m env xs vs e : Forall2 (fun x v => denotes m env x v /\ nonempty x /\ q_ok (rq x)) xs vs -> e_concat xs = Ok e ->
  (N.of_nat (rcap e) < 2 ^ 32)%N -> identified (rnodes e) -> unnested (rnodes e) -> exists y, reshape e = Ok y.
Proof.
  intros F H C I U. unfold e_concat in H. apply Proof_Expr2.rpne_of_ok in H as (N & _ & P & L). rewrite <- N, <- P in L. rewrite concat_nodes, app_nil_l in N.
  destruct (tuple_items m env xs vs F) as (its & E & S1 & _). rewrite E in N. exact (reshape_tuple_total m env true its e C L N S1 I U).
Qed.
Print Assumptions C66_tuple_reshaped_partial.

(** ** C66: compute *)
(** the conditions of C29_compute_algebraic_partial; nothing is assumed about the outcome *)
Theorem C66_compute_right_or_arithmetic_error_partial m nb ies inputs env u v : (nb = true -> 2 <= dim m) -> inputs <> [] -> inputs_are m nb ies inputs env -> length env = length inputs ->
  list_sum (map (@length R) inputs) <= N.to_nat ind_constant_start -> guarded Exact (lambda_inputs inputs) u -> faithful m env (lambda_inputs inputs) u -> algebraic (dim m) u = true ->
  (forall e, build Exact (lambda_inputs inputs) u = Ok e -> short e /\ distinct (rnodes e)) -> means m env u v ->
  (exists e, compute_one Exact m nb ies inputs u = Ok [e] /\ entity_is (dim m) e (output m nb v)) \/
  exists er, compute_one Exact m nb ies inputs u = Err er /\ (er = Overflow \/ er = DivZero \/ er = Rounded).
Proof. exact (compute_algebraic_total m nb ies inputs env u v). Qed.
Print Assumptions C66_compute_right_or_arithmetic_error_partial.
(** with common subexpressions, those of C29_compute_shared_partial *)
Theorem C66_shared_right_or_arithmetic_error_partial m ies inputs env u v : filled ies -> inputs <> [] -> inputs_are m false ies inputs env -> length env = length inputs ->
  guarded Exact (lambda_inputs inputs) u -> faithful m env (lambda_inputs inputs) u -> algebraic (dim m) u = true ->
  (forall e, build Exact (lambda_inputs inputs) u = Ok e -> short e /\ identified (rnodes e) /\ counted e /\
    (N.of_nat (list_sum (map (@length R) inputs)) + N.of_nat (3 * rcap e) * 2 ^ N.of_nat (dim m) <= ind_constant_start)%N) -> means m env u v ->
  (exists e, compute_one Exact m false ies inputs u = Ok [e] /\ entity_is (dim m) e v) \/
  exists er, compute_one Exact m false ies inputs u = Err er /\ (er = Overflow \/ er = DivZero \/ er = Rounded).
Proof. exact (compute_shared_total m ies inputs env u v). Qed.
Print Assumptions C66_shared_right_or_arithmetic_error_partial.
(** and of tuples, those of C42_compute_tuple_partial *)
Theorem C66_tuple_right_or_arithmetic_error_partial m nb ies inputs env us vs : (nb = true -> 2 <= dim m) -> inputs <> [] -> inputs_are m nb ies inputs env -> length env = length inputs ->
  list_sum (map (@length R) inputs) <= N.to_nat ind_constant_start -> us <> [] -> Forall (guarded Exact (lambda_inputs inputs)) us ->
  Forall (fun u => faithful m env (lambda_inputs inputs) u /\ algebraic (dim m) u = true /\ on1 nonempty (build Exact (lambda_inputs inputs) u)) us ->
  (forall e, (xs <- mapM (build Exact (lambda_inputs inputs)) us;; e_concat xs) = Ok e -> short e /\ distinct (rnodes e)) -> Forall2 (means m env) us vs ->
  (exists outs, compute_tuple Exact m nb ies inputs us = Ok outs /\ Forall2 (fun e v => entity_is (dim m) e (output m nb v)) outs vs) \/
  exists er, compute_tuple Exact m nb ies inputs us = Err er /\ (er = Overflow \/ er = DivZero \/ er = Rounded).
Proof. exact (compute_tuple_total m nb ies inputs env us vs). Qed.
Print Assumptions C66_tuple_right_or_arithmetic_error_partial.

(** any lambda, with division, functions and temporaries in any basis: the conditions of
    C29_compute_general_partial, and that no division or function is applied to a nested selection *)
Theorem C66_general_right_or_arithmetic_error_partial m nb ies inputs env u v : (nb = true -> 2 <= dim m) -> inputs <> [] -> inputs_are m nb ies inputs env -> length env = length inputs ->
  list_sum (map (@length R) inputs) <= N.to_nat ind_constant_start -> guarded Exact (lambda_inputs inputs) u -> faithful m env (lambda_inputs inputs) u -> regular (lambda_inputs inputs) u ->
  (forall e, build Exact (lambda_inputs inputs) u = Ok e -> short e /\ identified (rnodes e) /\ counted e /\ unnested (rnodes e) /\
    on1 (fun y => applicable m nb ies (list_sum (map (@length R) inputs)) (rnodes y) /\ neutral_temps m nb ies (list_sum (map (@length R) inputs)) (rnodes y)) (reshape e)) -> means m env u v ->
  (exists e, compute_one Exact m nb ies inputs u = Ok [e] /\ entity_is (dim m) e (output m nb v)) \/
  exists er, compute_one Exact m nb ies inputs u = Err er /\ (er = Overflow \/ er = DivZero \/ er = Rounded).
Proof. exact (compute_general_total m nb ies inputs env u v). Qed.
Print Assumptions C66_general_right_or_arithmetic_error_partial.

(** ** C65: programs with division, functions and temporaries *)
(** Full statement: C65_evaluation_stays_in_bounds for every program. Missing: false then, since
    dividing by an indeterminate of the dividend leaves a monomial that claims indeterminates that were
    not written, see C21_divide_same_indeterminate_reads_beyond_size_refuted; [applicable] excludes it *)
Theorem C65_applicable_stays_in_bounds_partial m nb ies inputs env l q t s : (nb = true -> 2 <= dim m) -> inputs_are m nb ies inputs env -> length env = length inputs -> bound inputs l ->
  applicable m nb ies (list_sum (map (@length R) inputs)) l -> stores_on_top l -> neutral_temps m nb ies (list_sum (map (@length R) inputs)) l ->
  run m env l ([], []) (t, s) -> memory_safe (compute Exact m nb ies inputs l q).
Proof. exact (engine_safe m nb ies inputs env l q t s). Qed.
Print Assumptions C65_applicable_stays_in_bounds_partial.

(** ** Examples *)
Ltac guards := cbn [guarded]; repeat match goal with |- _ /\ _ => split end;
  repeat match goal with |- some _ => ge | |- _ \/ _ => left; ge | |- True => exact I | |- _ <> _ => discriminate | |- _ => cbn; lia end.
Ltac result E := vm_compute in E; injection E as <-; unfold short.
Lemma general_means : exists v, means plane vals_ex u_general v.
Proof.
  eexists. unfold u_general, X, Y, W. apply m_div; [repeat (constructor; try reflexivity; try discriminate)..| |].
  - intros b B. unfold vcomp, vscalar. destruct (N.eqb_spec b 0); [contradiction|]. reflexivity.
  - cbv -[IZR Rplus Rmult Ropp]. lra.
Qed.
(** (w x w x) / (x y)[0]: a factor is stored, and so is the divisor, since division is eager *)
Example C66_ex : exists x v y, build Exact (lambda_inputs data_ex) u_general = Ok x /\ denotes plane vals_ex x v /\ nonempty x /\ (N.of_nat (rcap x) < 2 ^ 32)%N /\ length (rnodes x) <= rcap x /\
  identified (rnodes x) /\ unnested (rnodes x) /\ ~ direct (rnodes x) /\ reshape x = Ok y /\ length (filter (fun n => (no n =? op_noop)%N) (rnodes y)) = 3.
Proof.
  destruct C29_general_ex as (FA & _). destruct general_means as (v & ME). destruct (build Exact (lambda_inputs data_ex) u_general) as [x|] eqn:E; [|vm_compute in E; discriminate E].
  destruct (lambda_sound plane vals_ex data_ex u_general x v eq_refl FA E ME) as [D _]. exists x, v. result E.
  eexists. split; [reflexivity|]. split; [exact D|]. split; [discriminate|]. split; [vm_compute; reflexivity|]. split; [vm_compute; lia|].
  split; [apply identifiedb_ok; vm_compute; reflexivity|]. split; [apply unnestedb_ok; vm_compute; reflexivity|]. split; [|split; vm_compute; reflexivity].
  intros DI. specialize (DI _ (or_intror (or_intror (or_intror (or_intror (or_intror (or_intror (or_intror (or_intror (or_intror (or_intror (or_intror (or_introl eq_refl))))))))))))). discriminate DI.
Qed.
Example C66_empty_ex : exists x y, build Exact (lambda_inputs data_ex) (UScale 0 X) = Ok x /\ rnodes x = [] /\ reshape x = Ok y.
Proof. do 2 eexists. split; [vm_compute; reflexivity|]. split; vm_compute; reflexivity. Qed.
(** a tuple, one result of which is a division *)
Example C66_tuple_ex : exists xs vs e, mapM (build Exact (lambda_inputs data_ex)) [u_ex; u_general] = Ok xs /\ Forall2 (fun x v => denotes plane vals_ex x v /\ nonempty x /\ q_ok (rq x)) xs vs /\
  e_concat xs = Ok e /\ (N.of_nat (rcap e) < 2 ^ 32)%N /\ identified (rnodes e) /\ unnested (rnodes e).
Proof.
  destruct C29_general_ex as (FG & _). destruct C29_compute_ex as (_ & FA & _ & _ & (v & ME) & _).
  destruct general_means as (vg & MG). destruct (build Exact (lambda_inputs data_ex) u_ex) as [x|] eqn:E; [|vm_compute in E; discriminate E].
  destruct (build Exact (lambda_inputs data_ex) u_general) as [xg|] eqn:EG; [|vm_compute in EG; discriminate EG].
  destruct (lambda_sound plane vals_ex data_ex u_ex x v eq_refl FA E ME) as [D Q]. destruct (lambda_sound plane vals_ex data_ex u_general xg vg eq_refl FG EG MG) as [DG QG].
  exists [x; xg], [v; vg]. cbn [mapM bind]. rewrite E, EG. result E. vm_compute in EG. injection EG as <-. eexists. split; [reflexivity|].
  split; [constructor; [split; [exact D|split; [discriminate|exact Q]]|constructor; [split; [exact DG|split; [discriminate|exact QG]]|constructor]]|]. split; [vm_compute; reflexivity|]. split; [vm_compute; reflexivity|].
  split; [apply identifiedb_ok; vm_compute; reflexivity|apply unnestedb_ok; vm_compute; reflexivity].
Qed.
Example C66_compute_ex : inputs_are plane false ies_ex data_ex vals_ex /\ guarded Exact (lambda_inputs data_ex) u_ex /\ faithful plane vals_ex (lambda_inputs data_ex) u_ex /\ algebraic (dim plane) u_ex = true /\
  (forall e, build Exact (lambda_inputs data_ex) u_ex = Ok e -> short e /\ distinct (rnodes e)) /\ (exists v, means plane vals_ex u_ex v) /\ exists e, compute_one Exact plane false ies_ex data_ex u_ex = Ok [e].
Proof.
  destruct C29_compute_ex as (_ & FA & AL & _ & ME & e & EE & _). split; [exact inputs_ex|]. split; [unfold u_ex, X, Y, W; guards|]. split; [exact FA|]. split; [exact AL|].
  split; [|split; [exact ME|exists e; exact EE]]. intros x E. result E. split; [split; vm_compute; reflexivity|]. apply distinctb_ok. vm_compute. reflexivity.
Qed.
(** the other outcome: (2^31 - 1) x (2^31 - 1) y, whose factors cannot be multiplied *)
Definition u_large : uexpr := UGp (UScale 2147483647 X) (UScale 2147483647 Y).
Example C66_overflow_ex : guarded Exact (lambda_inputs data_ex) u_large /\ faithful plane vals_ex (lambda_inputs data_ex) u_large /\ algebraic (dim plane) u_large = true /\
  (forall e, build Exact (lambda_inputs data_ex) u_large = Ok e -> short e /\ distinct (rnodes e)) /\ (exists v, means plane vals_ex u_large v) /\ compute_one Exact plane false ies_ex data_ex u_large = Err Overflow.
Proof.
  split; [unfold u_large, X, Y; guards|]. split; [unfold u_large, X, Y; faith|]. split; [reflexivity|]. split; [intros e E; vm_compute in E; discriminate E|].
  split; [eexists; unfold u_large, X, Y; repeat (constructor; try reflexivity; try discriminate)|vm_compute; reflexivity].
Qed.
Example C66_shared_ex : filled ies_ex /\ guarded Exact (lambda_inputs data_ex) u_shared /\ faithful plane vals_ex (lambda_inputs data_ex) u_shared /\ algebraic (dim plane) u_shared = true /\
  (forall e, build Exact (lambda_inputs data_ex) u_shared = Ok e -> short e /\ identified (rnodes e) /\ counted e /\
    (N.of_nat (list_sum (map (@length R) data_ex)) + N.of_nat (3 * rcap e) * 2 ^ N.of_nat (dim plane) <= ind_constant_start)%N) /\ (exists v, means plane vals_ex u_shared v) /\
  exists e, compute_one Exact plane false ies_ex data_ex u_shared = Ok [e].
Proof.
  destruct C29_shared_ex as (FI & FA & AL & _ & ME & e & EE & _). split; [exact FI|]. split; [unfold u_shared, X, Y, W; guards|]. split; [exact FA|]. split; [exact AL|].
  split; [|split; [exact ME|exists e; exact EE]]. intros x E. result E. split; [split; vm_compute; reflexivity|].
  split; [apply identifiedb_ok; vm_compute; reflexivity|]. split; [apply countedb_ok; vm_compute; reflexivity|vm_compute; discriminate].
Qed.
Example C66_compute_tuple_ex : Forall (guarded Exact (lambda_inputs data_ex)) [u_ex; u_ex3] /\
  (forall e, (xs <- mapM (build Exact (lambda_inputs data_ex)) [u_ex; u_ex3];; e_concat xs) = Ok e -> short e /\ distinct (rnodes e)) /\
  (exists vs, Forall2 (means plane vals_ex) [u_ex; u_ex3] vs) /\ exists outs, compute_tuple Exact plane false ies_ex data_ex [u_ex; u_ex3] = Ok outs.
Proof.
  destruct C42_compute_ex as (_ & _ & a & b & EE). split; [|split; [|split; [|eauto]]].
  - constructor; [unfold u_ex, X, Y, W; guards|]. constructor; [unfold u_ex3, X, Y, W; guards|constructor].
  - intros x E. result E. split; [split; vm_compute; reflexivity|]. apply distinctb_ok. vm_compute. reflexivity.
  - destruct C29_compute_ex as (_ & _ & _ & _ & (v & ME) & _). eexists. constructor; [exact ME|]. constructor; [|constructor].
    unfold u_ex3, X, Y, W. apply m_vee; [apply m_ep; [apply m_ep|]|apply m_neg, m_neg]; apply m_in; reflexivity.
Qed.
Example C66_general_ex : guarded Exact (lambda_inputs data_ex) u_general /\ faithful plane vals_ex (lambda_inputs data_ex) u_general /\ regular (lambda_inputs data_ex) u_general /\
  (forall e, build Exact (lambda_inputs data_ex) u_general = Ok e -> short e /\ identified (rnodes e) /\ counted e /\ unnested (rnodes e) /\
    on1 (fun y => applicable plane false ies_ex (list_sum (map (@length R) data_ex)) (rnodes y) /\ neutral_temps plane false ies_ex (list_sum (map (@length R) data_ex)) (rnodes y)) (reshape e)) /\
  (exists v, means plane vals_ex u_general v) /\ exists e, compute_one Exact plane false ies_ex data_ex u_general = Ok [e].
Proof.
  destruct C29_general_ex as (FA & RG & _ & e & EE & _). split; [unfold u_general, X, Y, W; guards|]. split; [exact FA|]. split; [exact RG|]. split; [|split; [exact general_means|eauto]].
  intros x E. result E. split; [split; vm_compute; reflexivity|]. split; [apply identifiedb_ok; vm_compute; reflexivity|]. split; [apply countedb_ok; vm_compute; reflexivity|].
  split; [apply unnestedb_ok; vm_compute; reflexivity|]. lists. split; [apply applicableb_ok; vm_compute; reflexivity|]. intros B. discriminate B.
Qed.
Example C65_applicable_ex : exists l t v, bound data_ex l /\ applicable plane false ies_ex (list_sum (map (@length R) data_ex)) l /\ stores_on_top l /\ run plane vals_ex l ([], []) (t, [v]) /\
  In op_div (map no l) /\ In op_noop (map no l).
Proof.
  destruct C29_general_ex as (FA & RG & ON & _). destruct general_means as (v & ME). destruct (build Exact (lambda_inputs data_ex) u_general) as [x|] eqn:E; [|destruct ON].
  cbn [on1] in ON. destruct ON as ([S1 S2] & ID & CN & ON). destruct (reshape x) as [y|] eqn:EY; [|destruct ON]. cbn [on1] in ON. destruct ON as [AP _].
  destruct (lambda_sound plane vals_ex data_ex u_general x v eq_refl FA E ME) as [[[E1 _]|(w & ND & _)] _]; [result E; discriminate E1|].
  destruct (Proof_Reshape4.reshape_full plane vals_ex x y w S1 S2 ND ID CN EY) as (_ & (t & RUN) & TOP & _). exists (rnodes y), t, w.
  assert (B : bound data_ex (rnodes y) /\ In op_div (map no (rnodes y)) /\ In op_noop (map no (rnodes y))).
  { result E. vm_compute in EY. injection EY as <-. split; [repeat constructor; intros H; try discriminate H; reflexivity|]. cbn. split; intuition. }
  destruct B as (B1 & B2 & B3). repeat split; auto; apply AP; auto.
Qed.
