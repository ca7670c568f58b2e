(** The multivector of a lambda. *)
From Coq Require Import ZArith NArith List Bool Arith Lia ZifyBool ZifyN ZifyNat Reals FunctionalExtensionality.
From Verif Require Import Base Model_Numeric Model_Blade Model_MV Model_Expr Model_Dfa Model_Stack Model_Reshape Model_Engine Model_Compute Model_Evaluate.
From Verif Require Import Spec_Numeric Spec_Clifford Spec_MV Spec_Basis Spec_Expr Spec_Build Spec_Dfa Spec_Engine Spec_Reshape Spec_Compute.
From Verif Require Import Proof_Numeric Proof_Safe Proof_ProductVal Proof_Basis Proof_Expr Proof_Expr2 Proof_Expr3 Proof_Expr4 Proof_Expr5 Proof_Expr6 Proof_Nodes Proof_Reshape Proof_Reshape4 Proof_Reshape5 Proof_Reshape6
  Proof_Dfa Proof_Dfa2 Proof_Ids Proof_Engine Proof_Engine2 Proof_Sim Proof_Engine3 Proof_Compute.
Import ListNotations.
Local Open Scope nat_scope.

Lemma ids_of_all l : rpn_ids_of (rpn_id_count l) l = rpn_ids l.
Proof.
  assert (L : length (rpn_ids l) = rpn_id_count l) by apply map_length. unfold rpn_ids_of. rewrite <- L, firstn_all. rewrite Nat.sub_diag. apply app_nil_r.
Qed.
Lemma count_ops l k : map op_sum_of l = map op_sum_of k -> rpn_id_count l = rpn_id_count k.
Proof.
  revert k. induction l as [|n l IH]; intros [|n' k] H; try discriminate; [reflexivity|]. cbn [map] in H. injection H as H1 _ H2. specialize (IH k H2).
  unfold rpn_id_count in *. cbn [filter]. replace (is_id n) with (is_id n') by (unfold is_id; now rewrite H1). destruct (is_id n'); cbn [length]; [now rewrite IH|exact IH].
Qed.
Theorem evaluate_sound m nb ies inputs env u x v : (nb = true -> 2 <= dim m) -> inputs_are m nb ies inputs env -> length env = length inputs ->
  list_sum (map (@length R) inputs) <= N.to_nat ind_constant_start -> faithful m env (lambda_inputs inputs) u -> algebraic (dim m) u = true ->
  on1 (fun e => short e /\ distinct (rnodes e) /\ rnodes e <> []) (build Exact (lambda_inputs inputs) u) -> means m env u v ->
  eval_ie Exact m nb ies (map (@length R) inputs) u = Ok x ->
  exists e x' w, rpnf Exact (map (@length R) inputs) u = Ok e /\ sim x x' /\ mv_means (valuation (concat inputs)) (dim m) x' w /\ v = vscale (rv (rq e)) w.
Proof.
  intros Hn IA LE LC FA AL ON ME H. unfold eval_ie, rpnf in H. change (eval_inputs (map (@length R) inputs)) with (lambda_inputs inputs) in H.
  minv H. rename v0 into e. rewrite E in ON. destruct ON as ([S1 S2] & D & NE). minv H. rename v0 into y. rename E0 into EY.
  destruct (lambda_sound m env inputs u e v LE FA E ME) as [DE [Q1 Q2]]. destruct (alg_expr inputs (dim m) u e AL E) as [OK P].
  destruct DE as [[E1 E2]|(w & ND & _ & EV)]; [contradiction|].
  destruct (reshape_full m env e y w S1 S2 ND (distinct_identified _ D) (counted_distinct m env e w S1 S2 ND D) EY) as (EQ & (t & RUN) & _ & OR).
  pose proof (nice_single m env e y w S1 S2 ND D (alg_direct _ _ _ OK) EY) as NI. pose proof (origin_alg (dim m) inputs _ _ OK NI OR) as AY.
  assert (BD : bound inputs (rnodes y)) by (eapply origin_bound; [|exact OR]; eapply node_bound; exact OK).
  rewrite <- (count_ops _ _ NI), ids_of_all in H. minv H. rename v0 into ins. minv H. rename v0 into st. minv H. destruct v0 as [x0 s0]. injection H as ->.
  destruct (inputs_choose _ _ _ _ _ IA) as (ies' & L & SI & IR). destruct (to_use _ _ _ _ (rpn_inputs_sim ies ies' (rnodes y) L SI) E0) as (ins' & EI & SS).
  set (cnt := list_sum (map (@length R) inputs)) in *.
  assert (S0 : ssim (mkrs ins [] [] (N.of_nat cnt)) (mkrs ins' [] [] (N.of_nat cnt))) by (constructor; cbn; auto; constructor).
  destruct (to_use _ _ _ _ (run_sim Exact m nb _ _ _ _ S0) E1) as (st' & ER & SST).
  pose proof (algebraic_fits m nb (rnodes y) _ _ _ AY (Nat.lt_succ_diag_r _) ER) as FI.
  assert (IM : inputs_mean (valuation (concat inputs)) m nb env (rnodes y) ins') by (eapply inputs_meant; eauto).
  assert (NN : forall n, In n (rnodes y) -> no n <> op_noop) by (intros n; now apply algebraic_no_store with (1 := AY)).
  pose proof (run_cnt m nb _ _ _ _ _ NN ER) as [_ TT]. cbn [r_temps] in TT.
  destruct (fits_sound m nb env (valuation (concat inputs)) (valuation_pi _) (valuation_e _) Hn (rnodes y) _ FI _ st' [] [] t [w] [] ins' (Nat.lt_succ_diag_r _) ER RUN) as (_ & ST & _).
  - constructor.
  - constructor.
  - rewrite TT. constructor.
  - cbn. now rewrite app_nil_r.
  - exact IM.
  - exists e. pose proof (ss_args _ _ SST) as SA. unfold top1 in E2. destruct (r_args st) as [|a s1]; [discriminate|]. injection E2 as <- <-.
    inversion SA as [|? b ? s2 SX SR HX HY]. rewrite <- HY in ST. inversion ST as [|? ? ? ? MX]. subst. exists b, w. repeat (split; [assumption||reflexivity|]). reflexivity.
Qed.
