(** C65: evaluation accesses no array out of bounds. *)
From Coq Require Import ZArith NArith List Bool Arith Reals Lia Lra ZifyBool ZifyN ZifyNat.
From Verif Require Import Base Model_Numeric Model_Blade Model_MV Model_Product Model_Expr Model_Dfa Model_Reshape Model_Engine Model_Entity Model_Compute
  Spec_Numeric Spec_Clifford Spec_Basis Spec_MV Spec_Expr Spec_Build Spec_Dfa Spec_Engine Spec_Entity Spec_Reshape Spec_Compute.
From Verif Require Import Proof_Engine Proof_Progress Proof_Tight Proof_Shared Proof_Compute Proof_Engine3 Proof_Reshape4 Proof_Reshape6.
From Verif Require Import Props_Expr Props_Entity Props_Engine.
Import ListNotations.
Local Open Scope nat_scope.

(** ** C65: programs without temporaries and division *)
(** rounded or not, in any basis: whatever the stack machine can run is evaluated without access out
    of bounds, without reading a cell that was not written, and without lack of an operand; the only
    ways to fail are arithmetic *)
Theorem C65_evaluation_stays_in_bounds md m nb ies inputs env l q t s : inputs_are m nb ies inputs env -> length env = length inputs -> bound inputs l ->
  (forall nd, In nd l -> no nd <> op_div /\ no nd <> op_noop) -> list_sum (map (@length R) inputs) <= N.to_nat ind_constant_start ->
  run m env l ([], []) (t, s) -> memory_safe (compute md m nb ies inputs l q).
Proof. exact (compute_safe md m nb ies inputs env l q t s). Qed.
Print Assumptions C65_evaluation_stays_in_bounds.
(** with C29: the right value or an arithmetic error *)
Theorem C65_right_or_arithmetic_error m nb ies inputs env l q t s : (nb = true -> 2 <= dim m) -> inputs_are m nb ies inputs env -> length env = length inputs -> bound inputs l ->
  num q <> 0%Z -> (0 < den q)%Z -> forallb (algebraic_node (dim m)) l = true -> list_sum (map (@length R) inputs) <= N.to_nat ind_constant_start ->
  run m env l ([], []) (t, s) -> s <> [] ->
  (exists outs, compute Exact m nb ies inputs l q = Ok outs /\ Forall2 (fun e v => entity_is (dim m) e (vscale (rv q) (output m nb v))) outs (rev s)) \/
  (exists e, compute Exact m nb ies inputs l q = Err e /\ (e = Overflow \/ e = DivZero \/ e = Rounded)).
Proof.
  intros NB IA LE BD Q1 Q2 AL LC RUN NE. assert (OK : forall nd, In nd l -> no nd <> op_div /\ no nd <> op_noop).
  { intros nd I. rewrite forallb_forall in AL. apply AL in I. split; intros E; unfold algebraic_node in I; rewrite E in I; vm_compute in I; discriminate I. }
  destruct (compute Exact m nb ies inputs l q) as [outs|e] eqn:E.
  - left. exists outs. split; [reflexivity|]. exact (C29_symbolic_evaluation m nb ies inputs env l q outs t s NB IA BD Q1 Q2 AL LC RUN NE E).
  - right. exists e. split; [reflexivity|]. exact (compute_safe Exact m nb ies inputs env l q t s IA LE BD OK LC RUN e E).
Qed.
Print Assumptions C65_right_or_arithmetic_error.

(** ** C65: programs with temporaries *)
(** Full statement: in any mode and basis, and with division. Missing: rounding may make a coefficient
    of a temporary zero, for which the proof does not exclude an empty term; temporaries of algebras
    with a null basis are wrong anyway (C60) *)
Theorem C65_temporaries_stay_in_bounds_partial m ies inputs env l q t s : filled ies -> inputs_are m false ies inputs env -> length env = length inputs -> bound inputs l ->
  (forall nd, In nd l -> algebraic_node (dim m) nd = true \/ no nd = op_noop) -> stores_on_top l ->
  (N.of_nat (list_sum (map (@length R) inputs)) + N.of_nat (length l) * 2 ^ N.of_nat (dim m) <= ind_constant_start)%N ->
  run m env l ([], []) (t, s) -> memory_safe (compute Exact m false ies inputs l q).
Proof.
  intros FI IA LE BD AL. apply (compute_safe_shared m ies inputs env l q t s FI IA LE BD). apply forallb_forall. intros nd I. unfold shared_node.
  destruct (AL nd I) as [->| ->]; [reflexivity|]. now rewrite orb_true_r.
Qed.
Print Assumptions C65_temporaries_stay_in_bounds_partial.

(** ** Examples *)
(** the program of (2 (x+y) - w/3) ~(x^y), also with rounding, and the program of C29_shared_ex: a
    product stored in a temporary *)
Example C65_ex : exists l t v, inputs_are plane false ies_ex data_ex vals_ex /\ bound data_ex l /\ forallb (algebraic_node (dim plane)) l = true /\
  (forall nd, In nd l -> no nd <> op_div /\ no nd <> op_noop) /\ run plane vals_ex l ([], []) (t, [v]) /\ length l = 14 /\
  exists e e', compute Exact plane false ies_ex data_ex l one = Ok [e] /\ compute Code plane false ies_ex data_ex l one = Ok [e'].
Proof.
  destruct C29_ex as (l & t & v & B & AL & RUN & L & e & E). exists l, t, v. split; [exact inputs_ex|]. split; [exact B|]. split; [exact AL|]. split.
  { intros nd I. rewrite forallb_forall in AL. apply AL in I. split; intros X; unfold algebraic_node in I; rewrite X in I; vm_compute in I; discriminate I. }
  split; [exact RUN|]. split; [exact L|]. exists e, e. split; [exact E|]. now apply C29_code_agrees.
Qed.
Example C65_temporaries_ex : exists l t v, filled ies_ex /\ bound data_ex l /\ (forall nd, In nd l -> algebraic_node (dim plane) nd = true \/ no nd = op_noop) /\ stores_on_top l /\
  (N.of_nat (list_sum (map (@length R) data_ex)) + N.of_nat (length l) * 2 ^ N.of_nat (dim plane) <= ind_constant_start)%N /\
  run plane vals_ex l ([], []) (t, [v]) /\ length (filter (fun n => (no n =? op_noop)%N) l) = 1 /\ exists e, compute Exact plane false ies_ex data_ex l one = Ok [e].
Proof.
  destruct C29_shared_ex as (FI & FA & AL & ON & (v & ME) & _).
  destruct (build Exact (lambda_inputs data_ex) u_shared) as [x|] eqn:E; [|vm_compute in E; discriminate E]. cbn [on1] in ON. destruct ON as ([S1 S2] & ID & CN & _ & ON).
  destruct (reshape x) as [y|] eqn:EY; [|vm_compute in E; injection E as <-; vm_compute in EY; discriminate EY]. cbn [on1] in ON.
  destruct (lambda_sound plane vals_ex data_ex u_shared x v eq_refl FA E ME) as [[[E1 _]|(w & ND & _)] _]; [vm_compute in E; injection E as <-; discriminate E1|].
  destruct (alg_expr data_ex (dim plane) u_shared x AL E) as [OK _].
  destruct (reshape_full plane vals_ex x y w S1 S2 ND ID CN EY) as (_ & (t & RUN) & TOP & OR). exists (rnodes y), t, w. split; [exact FI|].
  split; [eapply origin_bound; [|exact OR]; eapply node_bound; exact OK|]. split.
  { pose proof (origin_shared (dim plane) data_ex _ _ OK OR) as SH. rewrite forallb_forall in SH. intros nd I. apply SH in I. apply orb_true_iff in I as [I|I]; [now left|right; now apply N.eqb_eq]. }
  split; [exact TOP|]. split; [|split; [exact RUN|split; [exact ON|]]]; vm_compute in E; injection E as <-; vm_compute in EY; injection EY as <-; [vm_compute; discriminate|].
  eexists. vm_compute. reflexivity.
Qed.
(** a program that lacks an operand is not run by the machine; its evaluation pops an empty
    stack *)
Example C65_lacking_operand : compute Exact plane false ies_ex data_ex [mknode op_gp 0 0 q00] one = Err IllFormed /\
  ~ exists t s, run plane vals_ex [mknode op_gp 0 0 q00] ([], []) (t, s).
Proof. split; [vm_compute; reflexivity|]. intros (t & s & H). inversion H; subst. try discriminate.
  match goal with X : Spec_Expr.step _ _ _ _ _ |- _ => inversion X; subst; try discriminate; try (match goal with Y : (c_scalar <= _)%N |- _ => vm_compute in Y; now elim Y end) end.
  match goal with X : no _ = op_se |- _ => vm_compute in X; discriminate X end.
Qed.
