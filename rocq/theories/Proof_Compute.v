(** compute as a whole. *)
From Coq Require Import ZArith NArith List Bool Arith Lia ZifyBool ZifyN ZifyNat Reals FunctionalExtensionality.
From Verif Require Import Base Model_Numeric Model_Blade Model_MV Model_Expr Model_Dfa Model_Stack Model_Reshape Model_Engine Model_Compute.
From Verif Require Import Spec_Numeric Spec_Clifford Spec_MV Spec_Basis Spec_Expr Spec_Build Spec_Dfa Spec_Engine Spec_Reshape Spec_Compute.
From Verif Require Import Proof_Numeric Proof_Safe Proof_ProductVal Proof_Basis Proof_Expr Proof_Expr2 Proof_Expr3 Proof_Expr4 Proof_Expr5 Proof_Expr6 Proof_Nodes Proof_Reshape Proof_Reshape4 Proof_Reshape5
  Proof_Engine Proof_Engine2 Proof_Engine3.
Import ListNotations.
Local Open Scope nat_scope.

(** ** the inputs of the lambda *)
Lemma offset_same inputs k : Proof_Expr6.offset (map (@length R) inputs) k = N.of_nat (Spec_Engine.offset inputs k).
Proof. unfold Proof_Expr6.offset, Spec_Engine.offset. now rewrite firstn_map. Qed.
Definition off (inputs : list (list R)) (k : nat) : N := N.of_nat (Spec_Engine.offset inputs k).
Lemma lambda_length inputs : length (lambda_inputs inputs) = length inputs.
Proof. unfold lambda_inputs. now rewrite entities_length, map_length. Qed.
Lemma lambda_ok (A : N -> Prop) inputs : A op_se -> A op_id -> forall i e, nth_error (lambda_inputs inputs) i = Some e -> expr_ok A (off inputs) e.
Proof.
  intros S I i e H. assert (K : i < length (map (@length R) inputs)) by (rewrite map_length, <- lambda_length; apply nth_error_Some; congruence).
  unfold lambda_inputs in H. rewrite entities_nth in H by exact K. injection H as <-. split; [|unfold pos; cbn; lia]. constructor; [|constructor].
  split; [exact I|]. split; [|now left]. intros _. cbn [ncs nex Nat.add]. unfold off. rewrite <- offset_same. lia.
Qed.
(** ** nodes of built expressions *)
Definition alg_op (dim : nat) (o : N) : Prop := existsb (N.eqb o) (op_se :: plain_ops) = true \/ (c_scalar <= o /\ o - c_scalar < 2 ^ N.of_nat dim)%N.
Lemma alg_plain dim o : existsb (N.eqb o) (op_se :: plain_ops) = true -> alg_op dim o. Proof. now left. Qed.
Lemma alg_scalar dim : alg_op dim c_scalar.
Proof. right. split; [lia|]. rewrite N.sub_diag. apply N.neq_0_lt_0. now apply N.pow_nonzero. Qed.
Lemma algebraic_needs dim ins u : algebraic dim u = true -> needs Exact (alg_op dim) ins u.
Proof.
  induction u; cbn [algebraic needs]; intros H; try discriminate; repeat (apply andb_true_iff in H as [? H]);
    repeat split; auto using alg_scalar; try (apply alg_plain; reflexivity).
  - right. apply N.ltb_lt in H. lia.
  - lia.
Qed.
Lemma regular_needs ins u : regular ins u -> needs Exact (fun _ => True) ins u.
Proof. induction u; cbn [regular needs]; intuition. Qed.
Lemma alg_node dim off n : node_ok (alg_op dim) off n -> algebraic_node dim n = true.
Proof.
  intros ([H|[H1 H2]] & _ & Q); unfold algebraic_node.
  - destruct (N.eqb_spec (no n) op_se) as [E|E].
    + destruct Q as [Q|Q]; [|unfold pos in Q]; lia.
    + change (existsb (N.eqb (no n)) (op_se :: plain_ops)) with ((no n =? op_se)%N || existsb (N.eqb (no n)) plain_ops) in H. rewrite (proj2 (N.eqb_neq _ _) E) in H. cbn [orb] in H. now rewrite H.
  - replace (no n =? op_se)%N with false by (symmetry; apply N.eqb_neq; intros X; rewrite X in H1; vm_compute in H1; now apply H1).
    apply N.leb_le in H1. apply N.ltb_lt in H2. rewrite H1, H2. now rewrite orb_true_r.
Qed.
(** ** the results *)
Lemma linear_scale n F r v b : linear n F (vscale r v) b = (r * linear n F v b)%R.
Proof. unfold linear. rewrite <- Rsum_mult_l. apply Rsum_ext. intros a _. unfold vscale. ring. Qed.
Lemma output_scale m nb r v : output m nb (vscale r v) = vscale r (output m nb v).
Proof.
  unfold output. destruct nb; [|reflexivity]. apply functional_extensionality. intros b. unfold vscale at 2. destruct (_ <? _)%N; [|ring]. apply linear_scale.
Qed.
Lemma output_zero m nb b : output m nb vzero b = 0%R.
Proof. replace vzero with (vscale 0 vzero) by (apply vscale_0). rewrite output_scale. unfold vscale. ring. Qed.

(** ** the empty program *)
Lemma reshape_empty x y : rnodes x = [] -> reshape x = Ok y -> rnodes y = [].
Proof.
  intros E H. unfold reshape, first_pass in H. rewrite E in H. cbn [length scan_all bind sc_kc sc_nodes sc_ses] in H. change (N.to_nat 0) with 0 in H.
  cbn [emit_known bind em_out mapM] in H. cbn [emit_rest] in H. change (N.of_nat 0) with 0%N in H. cbn [N.eqb bind em_out] in H. now injection H as <-.
Qed.
Lemma compute_empty md m nb ies inputs q outs : compute md m nb ies inputs [] q = Ok outs -> outs = [[]].
Proof.
  unfold compute. cbn [rpn_ids filter map rpn_inputs mapM bind]. unfold rpn_eval. cbn [length rpn_run bind r_temps r_args finalize_temps]. intros H. minv H. now injection H as <-.
Qed.
Lemma empty_is n v : v = vzero -> entity_is n [] v.
Proof. intros ->. repeat split; constructor. Qed.
(** ** nodes of the reshaped program *)
Lemma origin_bound inputs L l : Forall (fun n => no n = op_id -> ncs n = off inputs (nex n)) L -> Forall (fun n => no n = op_noop \/ origin L n) l -> bound inputs l.
Proof.
  intros B F. rewrite Forall_forall in B. unfold bound. eapply Forall_impl; [|exact F]. intros n [H|[H|(n0 & I & E1 & E2 & E3 & _)]] K; [rewrite K in H; discriminate|rewrite K in H; discriminate|].
  rewrite E2, E3 by (rewrite K; discriminate). apply B; [exact I|congruence].
Qed.
Lemma node_bound A inputs L : nodes_ok A (off inputs) L -> Forall (fun n => no n = op_id -> ncs n = off inputs (nex n)) L.
Proof. intros F. eapply Forall_impl; [|exact F]. intros n H. apply H. Qed.
Lemma origin_alg dim inputs L l : nodes_ok (alg_op dim) (off inputs) L -> map op_sum_of l = map op_sum_of L -> Forall (fun n => no n = op_noop \/ origin L n) l -> forallb (algebraic_node dim) l = true.
Proof.
  intros B E F. apply forallb_forall. intros n I. unfold nodes_ok in B. rewrite Forall_forall in F, B. destruct (F n I) as [H|[H|(n0 & I0 & E1 & _ & _ & E4)]].
  - exfalso. assert (X : In (op_sum_of n) (map op_sum_of L)) by (rewrite <- E; now apply in_map). apply in_map_iff in X as (n0 & E0 & I0). unfold op_sum_of in E0. injection E0 as E0 _.
    destruct (B n0 I0) as (A & _). rewrite E0, H in A. destruct A as [A|[A _]]; [vm_compute in A; discriminate|vm_compute in A; now apply A].
  - unfold algebraic_node. rewrite H. reflexivity.
  - pose proof (alg_node _ _ _ (B n0 I0)) as Q. unfold algebraic_node in *. rewrite E1. destruct (N.eqb_spec (no n0) op_se) as [S|S]; [|exact Q]. rewrite E4; [exact Q|]. rewrite E1, S. reflexivity.
Qed.
Lemma alg_direct dim off L : nodes_ok (alg_op dim) off L -> direct L.
Proof.
  intros B n I. unfold nodes_ok in B. rewrite Forall_forall in B. destruct (B n I) as ([A|[A _]] & _).
  - destruct (existsb _ [op_div; op_sqrt; op_sin; op_cos; op_tan]) eqn:X; [|reflexivity]. apply existsb_exists in X as (o & O & E). apply N.eqb_eq in E. rewrite E in A. exfalso. clear E. repeat (destruct O as [<-|O]; [discriminate A|]). destruct O.
  - cbn [existsb]. repeat match goal with |- context [(no n =? ?k)%N] => replace (no n =? k)%N with false by (symmetry; apply N.eqb_neq; intros X; rewrite X in A; vm_compute in A; now apply A) end. reflexivity.
Qed.
(** ** one result *)
Lemma one_result dim m nb q w v outs : Forall2 (fun e v => entity_is dim e (vscale (rv q) (output m nb v))) outs (rev [w]) -> v = vscale (rv q) w -> exists e, outs = [e] /\ entity_is dim e (output m nb v).
Proof.
  intros F ->. cbn [rev app] in F. inversion F as [|e ? l ? H F']; subst. inversion F'; subst. exists e. split; [reflexivity|]. now rewrite output_scale.
Qed.
Lemma q_num q : q_ok q -> num q <> 0%Z. Proof. now intros [H _]. Qed.
Lemma zero_entity m nb v : v = vzero -> entity_is (dim m) [] (output m nb v).
Proof. intros ->. apply empty_is. apply functional_extensionality. apply output_zero. Qed.
Lemma lambda_sound m env inputs u e v : length env = length inputs -> faithful m env (lambda_inputs inputs) u -> build Exact (lambda_inputs inputs) u = Ok e -> means m env u v ->
  denotes m env e v /\ q_ok (rq e).
Proof.
  intros L F B M. apply (build_sound m env (lambda_inputs inputs)) with (u := u); auto.
  - now rewrite lambda_length.
  - intros i x N. unfold lambda_inputs in N. eapply entities_input; exact N.
Qed.
Lemma alg_expr inputs dim u e : algebraic dim u = true -> build Exact (lambda_inputs inputs) u = Ok e -> expr_ok (alg_op dim) (off inputs) e.
Proof.
  intros AL E. assert (G : gives (expr_ok (alg_op dim) (off inputs)) (build Exact (lambda_inputs inputs) u)); [|exact (G e E)].
  apply build_ok; [apply alg_plain; reflexivity| |now apply algebraic_needs]. apply lambda_ok; apply alg_plain; reflexivity.
Qed.
Lemma rpn_inner {A} inputs (r : res A) x : (_ <- some_input inputs;; r) = Ok x -> r = Ok x.
Proof. unfold some_input. destruct inputs; [discriminate|auto]. Qed.
Theorem compute_algebraic m nb ies inputs env u outs v : (nb = true -> 2 <= dim m) -> inputs_are m nb ies inputs env -> length env = length inputs ->
  list_sum (map (@length R) inputs) <= N.to_nat ind_constant_start -> faithful m env (lambda_inputs inputs) u -> algebraic (dim m) u = true ->
  on1 (fun e => short e /\ distinct (rnodes e)) (build Exact (lambda_inputs inputs) u) -> means m env u v ->
  compute_one Exact m nb ies inputs u = Ok outs -> exists e, outs = [e] /\ entity_is (dim m) e (output m nb v).
Proof.
  intros Hn IA LE LC FA AL ON ME H. unfold compute_one, compute_rpn in H. minv H. rename v0 into x. rewrite E in ON. cbn [on1] in ON. destruct ON as [[S1 S2] D]. apply rpn_inner in H. minv H. rename v0 into y. rename E0 into EY.
  destruct (lambda_sound m env inputs u x v LE FA E ME) as [DE [Q1 Q2]]. destruct (alg_expr inputs (dim m) u x AL E) as [OK P].
  destruct DE as [[E1 E2]|(w & ND & _ & EV)].
  - rewrite (reshape_empty x y E1 EY) in H. apply compute_empty in H as ->. exists []. split; [reflexivity|]. now apply zero_entity.
  - destruct (reshape_full m env x y w S1 S2 ND (distinct_identified _ D) (counted_distinct m env x w S1 S2 ND D) EY) as (EQ & (t & RUN) & _ & OR).
    pose proof (nice_single m env x y w S1 S2 ND D (alg_direct _ _ _ OK) EY) as NI.
    apply (one_result (dim m) m nb (rq y) w v outs); [|now rewrite EQ].
    apply (engine_algebraic m nb ies inputs env (rnodes y) (rq y) outs t [w]); auto; try discriminate.
    + eapply origin_bound; [|exact OR]. eapply node_bound; exact OK.
    + now rewrite EQ.
    + now rewrite EQ.
    + exact (origin_alg (dim m) inputs _ _ OK NI OR).
Qed.

Theorem compute_general m nb ies inputs env u outs v : (nb = true -> 2 <= dim m) -> inputs_are m nb ies inputs env -> length env = length inputs ->
  faithful m env (lambda_inputs inputs) u -> regular (lambda_inputs inputs) u ->
  on1 (fun e => short e /\ identified (rnodes e) /\ counted e /\ on1 (fun y => applicable m nb ies (list_sum (map (@length R) inputs)) (rnodes y) /\ neutral_temps m nb ies (list_sum (map (@length R) inputs)) (rnodes y)) (reshape e))
    (build Exact (lambda_inputs inputs) u) -> means m env u v ->
  compute_one Exact m nb ies inputs u = Ok outs -> exists e, outs = [e] /\ entity_is (dim m) e (output m nb v).
Proof.
  intros Hn IA LE FA RG ON ME H. unfold compute_one, compute_rpn in H. minv H. rename v0 into x. rewrite E in ON. cbn [on1] in ON. destruct ON as ([S1 S2] & ID & CN & ON). apply rpn_inner in H. minv H. rename v0 into y. rename E0 into EY.
  rewrite EY in ON. destruct ON as [AP NN].
  destruct (lambda_sound m env inputs u x v LE FA E ME) as [DE [Q1 Q2]].
  assert (OK : expr_ok (fun _ => True) (off inputs) x).
  { assert (G : gives (expr_ok (fun _ => True) (off inputs)) (build Exact (lambda_inputs inputs) u)); [|exact (G x E)]. apply build_ok; [exact I| |now apply regular_needs]. apply lambda_ok; exact I. }
  destruct OK as [OK P]. destruct DE as [[E1 E2]|(w & ND & _ & EV)].
  - rewrite (reshape_empty x y E1 EY) in H. apply compute_empty in H as ->. exists []. split; [reflexivity|]. now apply zero_entity.
  - destruct (reshape_full m env x y w S1 S2 ND ID CN EY) as (EQ & (t & RUN) & TOP & OR).
    apply (one_result (dim m) m nb (rq y) w v outs); [|now rewrite EQ].
    apply (engine_sound m nb ies inputs env (rnodes y) (rq y) outs t [w]); auto; try discriminate.
    + eapply origin_bound; [|exact OR]. eapply node_bound; exact OK.
    + now rewrite EQ.
    + now rewrite EQ.
Qed.
(** ** tuples *)
Lemma mapM_build inputs m env dim us : length env = length inputs -> forall xs vs, Forall (fun u => faithful m env (lambda_inputs inputs) u /\ algebraic dim u = true /\ on1 nonempty (build Exact (lambda_inputs inputs) u)) us ->
  Forall2 (means m env) us vs -> mapM (build Exact (lambda_inputs inputs)) us = Ok xs ->
  Forall2 (fun x v => denotes m env x v /\ nonempty x /\ q_ok (rq x)) xs vs /\ Forall (expr_ok (alg_op dim) (off inputs)) xs.
Proof.
  intros LE. induction us as [|u us IH]; intros xs vs F M H; cbn [mapM] in H.
  - injection H as <-. inversion M; subst. split; constructor.
  - minv H. minv H. injection H as <-. inversion M as [|? v1 ? vs1 M1 M2]; subst. inversion F as [|? ? (F1 & F2 & F3) F4]; subst.
    rewrite E in F3. destruct (IH _ _ F4 M2 E0) as [A B]. destruct (lambda_sound m env inputs u _ v1 LE F1 E M1) as [D Q]. split; constructor; auto. now apply (alg_expr inputs dim u).
Qed.
Lemma concat_ok dim inputs xs : Forall (expr_ok (alg_op dim) (off inputs)) xs -> nodes_ok (alg_op dim) (off inputs) (flat_map (fun x => mknode op_se 0 (length (rnodes x)) (rq x) :: rnodes x) xs).
Proof.
  intros F. induction F as [|x xs [H1 H2] _ IH]; cbn [flat_map]; [constructor|]. constructor; [|apply Forall_app; now split].
  split; [apply alg_plain; reflexivity|]. split; [discriminate|now right].
Qed.
Theorem compute_tuples m nb ies inputs env us outs vs : (nb = true -> 2 <= dim m) -> inputs_are m nb ies inputs env -> length env = length inputs ->
  list_sum (map (@length R) inputs) <= N.to_nat ind_constant_start -> us <> [] ->
  Forall (fun u => faithful m env (lambda_inputs inputs) u /\ algebraic (dim m) u = true /\ on1 nonempty (build Exact (lambda_inputs inputs) u)) us ->
  on1 (fun e => short e /\ distinct (rnodes e)) (xs <- mapM (build Exact (lambda_inputs inputs)) us;; e_concat xs) -> Forall2 (means m env) us vs ->
  compute_tuple Exact m nb ies inputs us = Ok outs -> Forall2 (fun e v => entity_is (dim m) e (output m nb v)) outs vs.
Proof.
  intros Hn IA LE LC NE FA ON ME H. unfold compute_tuple in H. minv H. rename v into xs. rename E into EX. rewrite EX in ON. cbn [bind] in ON. minv H. rename v into x. rewrite E in ON. cbn [on1] in ON. destruct ON as [[S1 S2] D].
  destruct (mapM_build inputs m env (dim m) us LE xs vs FA ME EX) as [F OKS]. unfold compute_rpn in H. apply rpn_inner in H. minv H. rename v into y. rename E0 into EY.
  pose proof (concat_ok (dim m) inputs xs OKS) as OK. destruct (concat_denotes m env xs vs x F E) as [Q _]. unfold e_concat in E. apply Proof_Expr2.rpne_of_ok in E as (N & _ & _). rewrite concat_nodes, app_nil_l in N. rewrite <- N in OK.
  destruct (tuple_items m env xs vs F) as (its & E & SE & <-). rewrite E in N.
  destruct (nice_tuple m env true its x y S1 S2 N SE D (alg_direct _ _ _ OK) EY) as (Q' & RUN & NI & OR). rewrite Q' in H. rewrite Q in H.
  assert (OR' : Forall (fun n => no n = op_noop \/ origin (rnodes x) n) (rnodes y)) by (eapply Forall_impl; [|exact OR]; now right).
  assert (RS : Forall2 (fun e v => entity_is (dim m) e (vscale (rv one) (output m nb v))) outs (rev (rev (map item_val its)))).
  { apply (engine_algebraic m nb ies inputs env (rnodes y) one outs [] (rev (map item_val its))); auto; try discriminate; try reflexivity.
    + eapply origin_bound; [|exact OR']. eapply node_bound; exact OK.
    + exact (origin_alg (dim m) inputs _ _ OK NI OR').
    + intros Z0. apply (f_equal (@rev V)) in Z0. rewrite rev_involutive in Z0. cbn in Z0. rewrite Z0 in ME. inversion ME; subst. now apply NE. }
  rewrite rev_involutive in RS. clear H. revert RS. generalize (map item_val its). intros l RS. induction RS as [|e v l1 l2 K _ IH]; constructor; auto.
  rewrite rv_one in K. now rewrite vscale_1 in K.
Qed.
(** ** the code *)
Lemma imp_compute_one m nb ies inputs u : imp (compute_one Exact m nb ies inputs u) (compute_one Code m nb ies inputs u).
Proof.
  unfold compute_one, compute_rpn. apply imp_bind; [apply imp_build|]. intros e _. apply imp_bind; [apply imp_refl|]. intros _ _. apply imp_bind; [apply imp_refl|]. intros y _. apply imp_compute.
Qed.
Lemma imp_mapM_build ins us : imp (mapM (build Exact ins) us) (mapM (build Code ins) us).
Proof. induction us as [|u us IH]; cbn [mapM]; [apply imp_refl|]. apply imp_bind; [apply imp_build|]. intros x _. apply imp_bind; [exact IH|]. intros l _. apply imp_refl. Qed.
Lemma imp_compute_tuple m nb ies inputs us : imp (compute_tuple Exact m nb ies inputs us) (compute_tuple Code m nb ies inputs us).
Proof.
  unfold compute_tuple, compute_rpn. apply imp_bind; [apply imp_mapM_build|]. intros xs _. apply imp_bind; [apply imp_refl|]. intros e _. apply imp_bind; [apply imp_refl|]. intros _ _. apply imp_bind; [apply imp_refl|]. intros y _. apply imp_compute.
Qed.
