(** compute gives the right value or fails for an arithmetic reason. *)
From Coq Require Import ZArith NArith List Bool Arith Lia ZifyBool ZifyN ZifyNat Reals.
From Verif Require Import Base Model_Numeric Model_Blade Model_MV Model_Product Model_Stack Model_Expr Model_Dfa Model_Reshape Model_Engine Model_Entity Model_Compute.
From Verif Require Import Spec_Numeric Spec_Clifford Spec_MV Spec_Basis Spec_Expr Spec_Build Spec_Dfa Spec_Engine Spec_Entity Spec_Reshape Spec_Compute Spec_Scan.
From Verif Require Import Proof_Numeric Proof_Expr Proof_Expr2 Proof_Expr5 Proof_Expr6 Proof_Nodes Proof_Util Proof_Reshape Proof_Reshape2 Proof_Reshape4 Proof_Reshape5 Proof_Engine Proof_Compute Proof_Shared Proof_Progress Proof_Emit2.
Import ListNotations.
Local Open Scope nat_scope.

Lemma direct_unnested l : direct l -> unnested l.
Proof. intros D p a b c _ _ C _ _. apply D. eapply nth_error_In; eauto. Qed.
Lemma unnestedb_ok l : unnestedb l = true -> unnested l.
Proof.
  induction l as [|x l IH]; intros H p a b c A B C RA RB; [destruct p; discriminate|]. cbn [unnestedb] in H. apply andb_true_iff in H as [H1 H2]. destruct p as [|p]; [|exact (IH H2 p a b c A B C RA RB)].
  cbn in A, B, C. injection A as ->. destruct l as [|y [|z l]]; try discriminate B; try discriminate C. cbn in B, C. injection B as ->. injection C as ->. rewrite RA, RB in H1. cbn [andb negb] in H1. apply negb_true_iff in H1. exact H1.
Qed.
Lemma build_bounds inputs u : guarded Exact (lambda_inputs inputs) u -> memory_safe (build Exact (lambda_inputs inputs) u) /\ forall e, build Exact (lambda_inputs inputs) u = Ok e -> length (rnodes e) <= rcap e.
Proof.
  intros G. destruct (good_build Exact (lambda_inputs inputs)) with (u := u) as [S F]; [intros i e; apply entities_fits|exact G|].
  split; [exact S|]. intros e E. apply F in E as [L _]. exact L.
Qed.
Lemma alg_not dim inputs L l : nodes_ok (alg_op dim) (off inputs) L -> forallb (algebraic_node dim) l = true -> forall nd, In nd l -> no nd <> op_div /\ no nd <> op_noop.
Proof. intros _ AL nd I. rewrite forallb_forall in AL. apply AL in I. split; intros E; unfold algebraic_node in I; rewrite E in I; vm_compute in I; discriminate I. Qed.
Lemma empty_safe md m nb ies inputs env q : inputs_are m nb ies inputs env -> length env = length inputs -> list_sum (map (@length R) inputs) <= N.to_nat ind_constant_start -> memory_safe (compute md m nb ies inputs [] q).
Proof. intros IA LE LC. apply (compute_safe md m nb ies inputs env [] q [] []); [exact IA|exact LE|constructor|intros nd []|exact LC|constructor]. Qed.

Theorem compute_algebraic_total m nb ies inputs env u v : (nb = true -> 2 <= dim m) -> inputs <> [] -> inputs_are m nb ies inputs env -> length env = length inputs ->
  list_sum (map (@length R) inputs) <= N.to_nat ind_constant_start -> guarded Exact (lambda_inputs inputs) u -> faithful m env (lambda_inputs inputs) u -> algebraic (dim m) u = true ->
  (forall e, build Exact (lambda_inputs inputs) u = Ok e -> short e /\ distinct (rnodes e)) -> means m env u v ->
  (exists e, compute_one Exact m nb ies inputs u = Ok [e] /\ entity_is (dim m) e (output m nb v)) \/
  exists er, compute_one Exact m nb ies inputs u = Err er /\ (er = Overflow \/ er = DivZero \/ er = Rounded).
Proof.
  intros Hn NE IA LE LC GU FA AL ON ME. destruct (build_bounds _ _ GU) as [BS BL].
  destruct (compute_one Exact m nb ies inputs u) as [outs|er] eqn:E.
  - left. destruct (build Exact (lambda_inputs inputs) u) as [x|] eqn:EB; [|unfold compute_one in E; rewrite EB in E; discriminate].
    destruct (compute_algebraic m nb ies inputs env u outs v Hn IA LE LC FA AL) as (e & -> & EE); auto; [rewrite EB; now apply ON|]. eauto.
  - right. exists er. split; [reflexivity|]. unfold compute_one in E. destruct (build Exact (lambda_inputs inputs) u) as [x|e0] eqn:EB; cbn [bind] in E; [|injection E as <-; now apply BS].
    destruct (ON x eq_refl) as [[S1 S2] D]. specialize (BL x eq_refl). unfold compute_rpn, some_input in E. destruct inputs as [|d0 inputs0] eqn:EI; [congruence|]. rewrite <- EI in *. cbn [bind] in E.
    destruct (lambda_sound m env inputs u x v LE FA EB ME) as [DE [Q1 Q2]]. destruct (alg_expr inputs (dim m) u x AL EB) as [OK P]. destruct DE as [[E1 E2]|(w & ND & _ & EV)].
    + destruct (reshape_none x E1) as (y & EY). rewrite EY in E. cbn [bind] in E. rewrite (reshape_empty x y E1 EY) in E. exact (empty_safe _ _ _ _ _ _ _ IA LE LC _ E).
    + destruct (reshape_total m env x w S2 BL ND (distinct_identified _ D) (direct_unnested _ (alg_direct _ _ _ OK))) as (y & EY). rewrite EY in E. cbn [bind] in E.
      destruct (reshape_full m env x y w S1 S2 ND (distinct_identified _ D) (counted_distinct m env x w S1 S2 ND D) EY) as (EQ & (t & RUN) & _ & OR).
      pose proof (nice_single m env x y w S1 S2 ND D (alg_direct _ _ _ OK) EY) as NI. pose proof (origin_alg (dim m) inputs _ _ OK NI OR) as AN.
      refine (compute_safe Exact m nb ies inputs env (rnodes y) (rq y) t [w] IA LE _ (alg_not _ _ _ _ OK AN) LC RUN er E). eapply origin_bound; [|exact OR]. eapply node_bound; exact OK.
Qed.
Theorem compute_shared_total m ies inputs env u v : filled ies -> inputs <> [] -> inputs_are m false ies inputs env -> length env = length inputs ->
  guarded Exact (lambda_inputs inputs) u -> faithful m env (lambda_inputs inputs) u -> algebraic (dim m) u = true ->
  (forall e, build Exact (lambda_inputs inputs) u = Ok e -> short e /\ identified (rnodes e) /\ counted e /\
    (N.of_nat (list_sum (map (@length R) inputs)) + N.of_nat (3 * rcap e) * 2 ^ N.of_nat (dim m) <= ind_constant_start)%N) -> means m env u v ->
  (exists e, compute_one Exact m false ies inputs u = Ok [e] /\ entity_is (dim m) e v) \/
  exists er, compute_one Exact m false ies inputs u = Err er /\ (er = Overflow \/ er = DivZero \/ er = Rounded).
Proof.
  intros FI NE IA LE GU FA AL ON ME. destruct (build_bounds _ _ GU) as [BS BL].
  destruct (compute_one Exact m false ies inputs u) as [outs|er] eqn:E.
  - left. destruct (build Exact (lambda_inputs inputs) u) as [x|] eqn:EB; [|unfold compute_one in E; rewrite EB in E; discriminate].
    destruct (compute_shared m ies inputs env u outs v FI IA LE FA AL) as (e & -> & EE); auto; [rewrite EB; now apply ON|]. eauto.
  - right. exists er. split; [reflexivity|]. unfold compute_one in E. destruct (build Exact (lambda_inputs inputs) u) as [x|e0] eqn:EB; cbn [bind] in E; [|injection E as <-; now apply BS].
    destruct (ON x eq_refl) as ([S1 S2] & ID & CN & LC). specialize (BL x eq_refl). unfold compute_rpn, some_input in E. destruct inputs as [|d0 inputs0] eqn:EI; [congruence|]. rewrite <- EI in *. cbn [bind] in E.
    destruct (lambda_sound m env inputs u x v LE FA EB ME) as [DE [Q1 Q2]]. destruct (alg_expr inputs (dim m) u x AL EB) as [OK P]. destruct DE as [[E1 E2]|(w & ND & _ & EV)].
    + destruct (reshape_none x E1) as (y & EY). rewrite EY in E. cbn [bind] in E. rewrite (reshape_empty x y E1 EY) in E. refine (empty_safe _ _ _ _ _ _ _ IA LE _ _ E). lia.
    + destruct (reshape_total m env x w S2 BL ND ID (direct_unnested _ (alg_direct _ _ _ OK))) as (y & EY). rewrite EY in E. cbn [bind] in E.
      destruct (reshape_full m env x y w S1 S2 ND ID CN EY) as (EQ & (t & RUN) & TOP & OR). pose proof (reshape_length x y EY) as LY.
      refine (compute_safe_shared m ies inputs env (rnodes y) (rq y) t [w] FI IA LE _ (origin_shared (dim m) inputs _ _ OK OR) TOP _ RUN er E).
      * eapply origin_bound; [|exact OR]. eapply node_bound; exact OK.
      * etransitivity; [|exact LC]. apply N.add_le_mono_l, N.mul_le_mono_r. lia.
Qed.
(** ** tuples *)
Lemma map_bounds inputs us : Forall (guarded Exact (lambda_inputs inputs)) us -> memory_safe (mapM (build Exact (lambda_inputs inputs)) us) /\ forall xs, mapM (build Exact (lambda_inputs inputs)) us = Ok xs -> Forall fits xs.
Proof.
  induction 1 as [|u us G _ [IH1 IH2]]; cbn [mapM]; [split; [intros e; discriminate|intros xs E; injection E as <-; constructor]|].
  destruct (good_build Exact (lambda_inputs inputs)) with (u := u) as [S F]; [intros i e; apply entities_fits|exact G|]. split.
  - intros e E. destruct (build _ _ u) as [x|] eqn:EB; cbn [bind] in E; [|injection E as <-; now apply S]. destruct (mapM _ us) as [xs|]; cbn [bind] in E; [discriminate|]. injection E as <-. now apply IH1.
  - intros xs E. destruct (build _ _ u) as [x|] eqn:EB; cbn [bind] in E; [|discriminate]. destruct (mapM _ us) as [ys|]; cbn [bind] in E; [|discriminate]. injection E as <-. constructor; auto.
Qed.
Theorem compute_tuple_total m nb ies inputs env us vs : (nb = true -> 2 <= dim m) -> inputs <> [] -> inputs_are m nb ies inputs env -> length env = length inputs ->
  list_sum (map (@length R) inputs) <= N.to_nat ind_constant_start -> us <> [] -> Forall (guarded Exact (lambda_inputs inputs)) us ->
  Forall (fun u => faithful m env (lambda_inputs inputs) u /\ algebraic (dim m) u = true /\ on1 nonempty (build Exact (lambda_inputs inputs) u)) us ->
  (forall e, (xs <- mapM (build Exact (lambda_inputs inputs)) us;; e_concat xs) = Ok e -> short e /\ distinct (rnodes e)) -> Forall2 (means m env) us vs ->
  (exists outs, compute_tuple Exact m nb ies inputs us = Ok outs /\ Forall2 (fun e v => entity_is (dim m) e (output m nb v)) outs vs) \/
  exists er, compute_tuple Exact m nb ies inputs us = Err er /\ (er = Overflow \/ er = DivZero \/ er = Rounded).
Proof.
  intros Hn NE IA LE LC NU GU FA ON ME. destruct (map_bounds _ _ GU) as [BS BL].
  destruct (compute_tuple Exact m nb ies inputs us) as [outs|er] eqn:E.
  - left. exists outs. split; [reflexivity|]. apply (compute_tuples m nb ies inputs env us outs vs); auto. unfold compute_tuple in E.
    destruct (mapM _ us) as [xs|]; cbn [bind] in *; [|discriminate]. destruct (e_concat xs) as [x|]; [|discriminate]. now apply ON.
  - right. exists er. split; [reflexivity|]. unfold compute_tuple in E. destruct (mapM (build Exact (lambda_inputs inputs)) us) as [xs|e0] eqn:EM; cbn [bind] in *; [|injection E as <-; now apply BS].
    specialize (BL xs eq_refl). destruct (e_concat xs) as [x|e0] eqn:EC; cbn [bind] in E; [|injection E as <-; exact (concat_safe xs BL _ EC)].
    destruct (ON x eq_refl) as [[S1 S2] D]. unfold compute_rpn, some_input in E. destruct inputs as [|d0 inputs0] eqn:EI; [congruence|]. rewrite <- EI in *. cbn [bind] in E.
    destruct (mapM_build inputs m env (dim m) us LE xs vs FA ME EM) as [F OKS]. pose proof (concat_ok (dim m) inputs xs OKS) as OK.
    unfold e_concat in EC. apply Proof_Expr2.rpne_of_ok in EC as (EN & _ & EP & LN). rewrite concat_nodes, app_nil_l in EN, LN. rewrite <- EN in OK. rewrite <- EN, <- EP in LN.
    destruct (tuple_items m env xs vs F) as (its & ET & SE & _). rewrite ET in EN.
    destruct (reshape_tuple_total m env true its x S2 LN EN SE (distinct_identified _ D) (direct_unnested _ (alg_direct _ _ _ OK))) as (y & EY). rewrite EY in E. cbn [bind] in E.
    destruct (nice_tuple m env true its x y S1 S2 EN SE D (alg_direct _ _ _ OK) EY) as (_ & RUN & OPS & OR).
    assert (OR' : Forall (fun n => no n = op_noop \/ origin (rnodes x) n) (rnodes y)) by (eapply Forall_impl; [|exact OR]; intros; now right).
    pose proof (origin_alg (dim m) inputs _ _ OK OPS OR') as AN.
    refine (compute_safe Exact m nb ies inputs env (rnodes y) (rq y) [] _ IA LE _ (alg_not _ _ _ _ OK AN) LC RUN er E). eapply origin_bound; [|exact OR']. eapply node_bound; exact OK.
Qed.
