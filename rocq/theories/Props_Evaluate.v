(** C62: the debugging interface. *)
From Coq Require Import ZArith NArith List Bool Arith Reals Lia ZifyBool ZifyN ZifyNat.
From Verif Require Import Base Model_Numeric Model_Blade Model_MV Model_Expr Model_Dfa Model_Reshape Model_Engine Model_Entity Model_Compute Model_Evaluate
  Spec_Numeric Spec_Clifford Spec_Basis Spec_MV Spec_Expr Spec_Build Spec_Dfa Spec_Engine Spec_Entity Spec_Reshape Spec_Compute.
From Verif Require Import Proof_Numeric Proof_Safe Proof_Expr Proof_Expr6 Proof_Nodes Proof_Engine Proof_Sim Proof_Reshape6 Proof_Compute Proof_Evaluate.
From Verif Require Import Props_Expr Props_Entity Props_Engine.
Import ListNotations.
Local Open Scope nat_scope.

(** ** C62 *)
(** The multivector of a lambda has, at the data of any inputs, the value of the lambda up to the
    factor of its expression. Full statement: the value of the lambda itself, for all lambdas.
    Missing: false, see below *)
Theorem C62_multivector_partial m nb ies inputs env u x v : (nb = true -> 2 <= dim m) -> inputs_are m nb ies inputs env -> length env = length inputs ->
  list_sum (map (@length R) inputs) <= N.to_nat ind_constant_start -> faithful m env (lambda_inputs inputs) u -> algebraic (dim m) u = true ->
  on1 (fun e => short e /\ distinct (rnodes e) /\ rnodes e <> []) (build Exact (lambda_inputs inputs) u) -> means m env u v ->
  eval_ie Exact m nb ies (map (@length R) inputs) u = Ok x ->
  exists e x' w, rpnf Exact (map (@length R) inputs) u = Ok e /\ sim x x' /\ mv_means (valuation (concat inputs)) (dim m) x' w /\ v = vscale (rv (rq e)) w.
Proof. exact (evaluate_sound m nb ies inputs env u x v). Qed.
Print Assumptions C62_multivector_partial.
(** ie and ie_reshaped are the same *)
Theorem C62_reshaped_same md m nb ies sizes u : eval_ie_reshaped md m nb ies sizes u = eval_ie md m nb ies sizes u.
Proof. reflexivity. Qed.
Print Assumptions C62_reshaped_same.
(** the map of the inputs has only inputs of the lambda, each with the id of its first component *)
Theorem C62_input_map inputs u l : regular (lambda_inputs inputs) u -> input_map Exact (map (@length R) inputs) u = Ok l ->
  Forall (fun p => snd p < length inputs /\ fst p = N.of_nat (Spec_Engine.offset inputs (snd p))) l.
Proof.
  intros RG H. unfold input_map, rpnf in H. change (eval_inputs (map (@length R) inputs)) with (lambda_inputs inputs) in H. minv H. rename v into x. injection H as <-. rewrite ids_of_all.
  assert (G : forall j, gives (expr_ok (fun _ => True) (fun k => if k <? length inputs then off inputs k else j)) (build Exact (lambda_inputs inputs) u)).
  { intros j. apply build_ok; [exact I| |now apply regular_needs]. intros i e K. pose proof (lambda_ok (fun _ => True) inputs I I i e K) as [OK Q]. split; [|exact Q].
    assert (L : i < length inputs) by (rewrite <- lambda_length; apply nth_error_Some; congruence).
    unfold lambda_inputs in K. rewrite entities_nth in K by now rewrite map_length. injection K as <-. cbn [rnodes] in *.
    inversion OK as [|? ? (A1 & A2 & A3) F]. subst. constructor; [|constructor]. split; [exact I|]. split; [|exact A3]. intros EI. specialize (A2 EI). cbn [ncs nex Nat.add] in *.
    apply Nat.ltb_lt in L. now rewrite L. }
  destruct (G 0%N x E) as [O1 _], (G 1%N x E) as [O2 _]. unfold rpn_ids. apply Forall_map. apply Forall_forall. intros n Hn. apply filter_In in Hn as [Hn Hi]. apply N.eqb_eq in Hi. cbn [fst snd].
  pose proof (proj1 (Forall_forall _ _) O1 n Hn) as (_ & B1 & _). pose proof (proj1 (Forall_forall _ _) O2 n Hn) as (_ & B2 & _). specialize (B1 Hi). specialize (B2 Hi).
  destruct (Nat.ltb_spec (nex n) (length inputs)) as [L|L]; [split; [exact L|exact B1]|]. rewrite B1 in B2. discriminate B2.
Qed.
Print Assumptions C62_input_map.
(** the program of a lambda that returns several results computes them in order *)
Theorem C62_tuple m env inputs us vs e : length env = length inputs ->
  Forall (fun u => faithful m env (lambda_inputs inputs) u /\ on1 nonempty (build Exact (lambda_inputs inputs) u)) us -> Forall2 (means m env) us vs ->
  rpnf_tuple Exact (map (@length R) inputs) us = Ok e -> rq e = one /\ run m env (rnodes e) ([], []) ([], rev vs).
Proof.
  intros LE F M H. unfold rpnf_tuple in H. change (eval_inputs (map (@length R) inputs)) with (lambda_inputs inputs) in H. minv H. rename v into xs. refine (C42_tuple m env xs vs e _ H). clear H.
  revert xs vs F M E. induction us as [|u us IH]; intros xs vs F M E; cbn [mapM] in E; [injection E as <-; inversion M; constructor|].
  minv E. minv E. injection E as <-. inversion M as [|? v1 ? vs1 M1 M2]; subst. inversion F as [|? ? [F1 F2] F3]; subst. rewrite E0 in F2.
  constructor; [|now apply IH]. destruct (lambda_sound m env inputs u _ v1 LE F1 E0 M1) as [D Q]. auto.
Qed.
Print Assumptions C62_tuple.
(** the factor is lost: the multivector of 2 x is that of x *)
Theorem C62_factor_refuted : exists x, eval_ie Code plane false ies_ex (map (@length R) data_ex) (UScale 2 X) = Ok x /\ eval_ie Code plane false ies_ex (map (@length R) data_ex) X = Ok x /\ terms x <> [].
Proof. eexists. split; [vm_compute; reflexivity|]. split; [vm_compute; reflexivity|discriminate]. Qed.
Print Assumptions C62_factor_refuted.
(** the multivector of a lambda that is zero cannot be asked for *)
Theorem C62_zero_refuted : exists u v, faithful plane vals_ex (lambda_inputs data_ex) u /\ means plane vals_ex u v /\ exists e, eval_ie Code plane false ies_ex (map (@length R) data_ex) u = Err e.
Proof.
  exists (USub X X). eexists. split; [unfold X; faith|]. split; [unfold X; repeat (constructor; try reflexivity)|]. eexists. vm_compute. reflexivity.
Qed.
Print Assumptions C62_zero_refuted.
(** ** Examples *)
(** (2 (x+y) - w/3) ~(x^y) *)
Example C62_ex : (exists x, eval_ie Exact plane false ies_ex (map (@length R) data_ex) u_ex = Ok x /\ length (terms x) = 4) /\
  on1 (fun e => short e /\ distinct (rnodes e) /\ rnodes e <> []) (build Exact (lambda_inputs data_ex) u_ex).
Proof.
  split; [eexists; split; vm_compute; reflexivity|]. lists. split; [split; vm_compute; reflexivity|]. split; [apply distinctb_ok; vm_compute; reflexivity|discriminate].
Qed.
Example C62_map_ex : regular (lambda_inputs data_ex) u_ex /\ exists l, input_map Exact (map (@length R) data_ex) u_ex = Ok l /\ map snd l = [0; 1; 2; 0; 1].
Proof. split; [cbn; repeat split; discriminate|]. eexists. split; vm_compute; reflexivity. Qed.
Example C62_tuple_ex : Forall (fun u => faithful plane vals_ex (lambda_inputs data_ex) u /\ on1 nonempty (build Exact (lambda_inputs data_ex) u)) [u_ex; u_ex3] /\
  exists e, rpnf_tuple Exact (map (@length R) data_ex) [u_ex; u_ex3] = Ok e.
Proof.
  split; [|eexists; vm_compute; reflexivity]. destruct C42_compute_ex as [F _]. eapply Forall_impl; [|exact F]. intros u (A & _ & B). auto.
Qed.
