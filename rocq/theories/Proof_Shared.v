(** compute as a whole for algebraic programs with common subexpressions. *)
From Coq Require Import ZArith NArith List Bool Arith Lia ZifyBool ZifyN ZifyNat Reals FunctionalExtensionality.
From Verif Require Import Base Model_Numeric Model_Blade Model_MV Model_Expr Model_Dfa Model_Stack Model_Reshape Model_Engine Model_Compute.
From Verif Require Import Spec_Numeric Spec_Clifford Spec_MV Spec_Basis Spec_Expr Spec_Build Spec_Dfa Spec_Engine Spec_Reshape Spec_Compute.
From Verif Require Import Proof_Numeric Proof_Safe Proof_ProductVal Proof_Basis Proof_Expr Proof_Expr2 Proof_Expr3 Proof_Expr4 Proof_Expr5 Proof_Expr6 Proof_Nodes Proof_Reshape Proof_Reshape4 Proof_Reshape5
  Proof_Ids Proof_Engine Proof_Engine2 Proof_Sim Proof_Engine3 Proof_Compute Proof_Tight.
Import ListNotations.
Local Open Scope nat_scope.

(** ** the length of the reshaped program *)
Lemma append_length cap out n out' : out_append cap out n = Ok out' -> length out' <= cap.
Proof. unfold out_append. destruct (Nat.ltb_spec (length out) cap) as [L|L]; [|discriminate]. intros H. injection H as <-. rewrite app_length. cbn. lia. Qed.
Lemma set_len {A} (l : list A) i a l' : set l i a = Ok l' -> length l' = length l.
Proof. unfold set. destruct (_ <? _); [|discriminate]. intros H. injection H as <-. apply upd_length. Qed.
Lemma fix_lengths_len k : forall j st out out', fix_lengths k j st out = Ok out' -> length out' = length out.
Proof.
  induction k as [|k IH]; intros j st out out' H; cbn [fix_lengths] in H; [now injection H as <-|]. minv H. destruct v as [p off]. minv H. destruct v as [p' next].
  destruct p as [a|]; [|discriminate]. minv H. minv H. rewrite (IH _ _ _ _ H). eapply set_len; eauto.
Qed.
Lemma emit_node_len cap n e e' : emit_node cap n e = Ok e' -> length (em_out e') <= cap.
Proof.
  intros H. unfold emit_node in H. minv H. rename v into out. apply append_length in E. destruct (no n =? op_se)%N; [minv H; now injection H as <-|].
  destruct (_ || _)%bool; [|now injection H as <-]. minv H. minv H. minv H. destruct v1 as [f st']. minv H. minv H. injection H as <-. cbn [em_out]. apply fix_lengths_len in E1. apply set_len in E4. lia.
Qed.
Lemma emit_range_len cap f nodes : forall j stop e e', emit_range cap f nodes j stop e = Ok e' -> length (em_out e) <= cap -> length (em_out e') <= cap.
Proof.
  induction f as [|f IH]; intros j stop e e' H L; cbn [emit_range] in H; [discriminate|]. destruct (j =? stop)%N; [now injection H as <-|]. minv H. minv H. eapply IH; [exact H|].
  eapply emit_node_len; eauto.
Qed.
Lemma emit_rest_len cap f nodes ses : forall j stop e e', emit_rest cap f nodes ses j stop e = Ok e' -> length (em_out e) <= cap -> length (em_out e') <= cap.
Proof.
  induction f as [|f IH]; intros j stop e e' H L; cbn [emit_rest] in H; [discriminate|]. destruct (j =? stop)%N; [now injection H as <-|]. minv H. minv H. minv H. eapply IH; [exact H|].
  eapply emit_node_len; eauto.
Qed.
Lemma emit_known_len cap k : forall i fin nodes ses e nodes' ses' e', emit_known cap k i fin nodes ses e = Ok (nodes', ses', e') -> length (em_out e) <= cap -> length (em_out e') <= cap.
Proof.
  induction k as [|k IH]; intros i fin nodes ses e nodes' ses' e' H L; cbn [emit_known] in H; [injection H as _ _ <-; exact L|]. minv H. destruct (_ || _)%bool; [|eapply IH; eauto].
  minv H. minv H. minv H. minv H. minv H. eapply IH; [exact H|]. cbn [em_out]. eapply append_length; eauto.
Qed.
Lemma mapM_len {A B} (f : A -> res B) l : forall l', mapM f l = Ok l' -> length l' = length l.
Proof. induction l as [|a l IH]; intros l' H; cbn [mapM] in H; [now injection H as <-|]. minv H. minv H. injection H as <-. cbn. f_equal. now apply IH. Qed.
Lemma reshape_length x y : reshape x = Ok y -> length (rnodes y) <= 3 * rcap x.
Proof.
  intros H. unfold reshape in H. minv H. minv H. destruct v0 as [[nodes ses] e]. minv H. minv H. injection H as <-. cbn [rnodes]. eapply emit_rest_len; [exact E2|].
  cbn [em_out]. apply mapM_len in E1. rewrite E1. eapply emit_known_len; [exact E0|]. cbn. lia.
Qed.
(** ** nodes *)
Lemma origin_shared dim inputs L l : nodes_ok (alg_op dim) (off inputs) L -> Forall (fun n => no n = op_noop \/ origin L n) l -> forallb (fun nd => algebraic_node dim nd || (no nd =? op_noop)%N) l = true.
Proof.
  intros B F. apply forallb_forall. intros n I. unfold nodes_ok in B. rewrite Forall_forall in F, B. destruct (F n I) as [H|[H|(n0 & I0 & E1 & _ & _ & E4)]].
  - rewrite H. now rewrite orb_true_r.
  - unfold algebraic_node. rewrite H. reflexivity.
  - pose proof (alg_node _ _ _ (B n0 I0)) as Q. replace (algebraic_node dim n) with true; [reflexivity|]. symmetry. unfold algebraic_node in *. rewrite E1.
    destruct (N.eqb_spec (no n0) op_se) as [S|S]; [|exact Q]. rewrite E4; [exact Q|]. rewrite E1, S. reflexivity.
Qed.
(** ** inputs *)
Lemma inputs_tight m ies ies' inputs env l ins : filled ies -> length ies = length ies' ->
  (forall k f g o, nth_error ies k = Some f -> nth_error ies' k = Some g -> sim (f o) (g o)) -> inputs_rep m false ies' inputs env ->
  rpn_inputs ies' (rpn_ids l) = Ok ins -> Forall (tight m) ins.
Proof.
  intros FI LI SI [_ IA] H. unfold rpn_inputs in H. revert ins H. generalize (rpn_ids l). intros ps. induction ps as [|p ps IH]; intros ins H; cbn [mapM] in H; [injection H as <-; constructor|].
  minv H. minv H. injection H as <-. constructor; [|now apply IH]. destruct (nth_error ies' (snd p)) as [g|] eqn:EG; [|discriminate]. injection E as <-.
  assert (K : snd p < length ies) by (rewrite LI; apply nth_error_Some; congruence). destruct (nth_error ies (snd p)) as [f|] eqn:EF; [|apply nth_error_None in EF; lia].
  destruct (IA _ _ EG) as (d & v & _ & _ & RP). destruct (RP (fst p)) as (_ & tx & P & PR & _). exists tx. split; [exact P|]. split; [exact PR|].
  unfold filled in FI. rewrite Forall_forall in FI. specialize (FI f (nth_error_In _ _ EF) (fst p)). specialize (SI _ _ _ (fst p) EF EG).
  rewrite <- (si_ts _ _ SI), FI, (si_t _ _ SI). now apply pk_tsz.
Qed.
Theorem engine_shared m ies inputs env l q outs t s : filled ies -> inputs_are m false ies inputs env -> bound inputs l ->
  num q <> 0%Z -> (0 < den q)%Z -> forallb (shared_node m) l = true -> stores_on_top l ->
  (N.of_nat (list_sum (map (@length R) inputs)) + N.of_nat (length l) * 2 ^ N.of_nat (dim m) <= ind_constant_start)%N ->
  run m env l ([], []) (t, s) -> s <> [] -> compute Exact m false ies inputs l q = Ok outs ->
  Forall2 (fun e v => entity_is (dim m) e (vscale (rv q) v)) outs (rev s).
Proof.
  intros FI IA BD Q0 Q1 AL TOP LC RUN NE H. destruct (inputs_choose _ _ _ _ _ IA) as (ies' & L & SI & IR).
  pose proof (eq_trans (eq_sym (compute_sim Exact m false ies ies' inputs l q L SI)) H) as H'.
  refine (engine_sound0 m false ies' inputs env l q outs t s _ IR BD Q0 Q1 _ TOP _ RUN NE H'); try discriminate.
  intros ins EI. pose proof (inputs_tight m ies ies' inputs env l ins FI L SI IR EI) as TI.
  assert (T0 : tst m (mkrs ins [] [] (N.of_nat (list_sum (map (@length R) inputs))))) by (constructor; cbn; auto).
  unfold compute in H'. rewrite EI in H'. cbn [bind] in H'. minv H'. unfold rpn_eval in E. destruct (shared_fits m l _ _ _ AL (Nat.lt_succ_diag_r _) T0 E) as (F & _ & CB).
  split; [exact F|]. intros st E'. unfold rpn_eval in E'. rewrite E in E'. injection E' as <-. cbn [r_cnt] in CB. lia.
Qed.
Theorem compute_shared m ies inputs env u outs v : filled ies -> inputs_are m false ies inputs env -> length env = length inputs ->
  faithful m env (lambda_inputs inputs) u -> algebraic (dim m) u = true ->
  on1 (fun e => short e /\ identified (rnodes e) /\ counted e /\
    (N.of_nat (list_sum (map (@length R) inputs)) + N.of_nat (3 * rcap e) * 2 ^ N.of_nat (dim m) <= ind_constant_start)%N) (build Exact (lambda_inputs inputs) u) -> means m env u v ->
  compute_one Exact m false ies inputs u = Ok outs -> exists e, outs = [e] /\ entity_is (dim m) e v.
Proof.
  intros FI IA LE FA AL ON ME H. unfold compute_one, compute_rpn in H. minv H. rename v0 into x. rewrite E in ON. cbn [on1] in ON. destruct ON as ([S1 S2] & ID & CN & LC). apply rpn_inner in H. minv H. rename v0 into y. rename E0 into EY.
  destruct (lambda_sound m env inputs u x v LE FA E ME) as [DE [Q1 Q2]]. destruct (alg_expr inputs (dim m) u x AL E) as [OK P].
  destruct DE as [[E1 E2]|(w & ND & _ & EV)].
  - rewrite (reshape_empty x y E1 EY) in H. apply compute_empty in H as ->. exists []. split; [reflexivity|]. exact (zero_entity m false v E2).
  - destruct (reshape_full m env x y w S1 S2 ND ID CN EY) as (EQ & (t & RUN) & TOP & OR). pose proof (reshape_length x y EY) as LY.
    apply (one_result (dim m) m false (rq y) w v outs); [|now rewrite EQ].
    apply (engine_shared m ies inputs env (rnodes y) (rq y) outs t [w]); auto; try discriminate.
    + eapply origin_bound; [|exact OR]. eapply node_bound; exact OK.
    + now rewrite EQ.
    + now rewrite EQ.
    + exact (origin_shared (dim m) inputs _ _ OK OR).
    + etransitivity; [|exact LC]. apply N.add_le_mono_l, N.mul_le_mono_r. lia.
Qed.
