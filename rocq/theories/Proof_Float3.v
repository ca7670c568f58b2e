(** Rounded evaluation of lambdas; evaluation without rounding. *)
From Coq Require Import ZArith NArith List Bool Arith Lia ZifyBool ZifyN ZifyNat Reals Lra.
Require Import Flocq.Core.Core.
From Verif Require Import Base Model_Numeric Model_Blade Model_Sort Model_MV Model_Product Model_Expr Model_Dfa Model_Reshape Model_Engine Model_Compute Model_Float
  Spec_Numeric Spec_Clifford Spec_Basis Spec_MV Spec_Expr Spec_Build Spec_Dfa Spec_Engine Spec_Reshape Spec_Compute
  Proof_Numeric Proof_Layout Proof_Sum Proof_Safe Proof_Basis Proof_ProductVal Proof_Proper Proof_MVFlat Proof_Dfa Proof_Dfa2 Proof_Ids Proof_Engine Proof_Engine2 Proof_Sim Proof_Engine3
  Proof_Reshape4 Proof_Reshape5 Proof_Reshape6 Proof_Expr5 Proof_Expr6 Proof_Compute Proof_Float Proof_Float2.
From Verif Require Import Spec_MV Spec_Engine Spec_Float.
Import ListNotations.
Local Open Scope nat_scope.

(** ** the coefficients of an entity *)
Lemma entity_error u rho q e tx : entity_computed u rho q e tx -> forall b, (Rabs (entity_val e b - rv q * val rho tx b) <= error_at u rho q tx b)%R.
Proof.
  intros F b. unfold entity_val, val, error_at, Rsum. induction F as [|p t e tx [E C] F IH]; cbn [map fold_right].
  - rewrite Rmult_0_r, Rminus_0_r, Rabs_R0. lra.
  - rewrite E. destruct (fst t =? b)%N.
    + eapply Rle_trans; [|apply Rplus_le_compat; [exact C|exact IH]]. eapply Rle_trans; [|apply Rabs_triang]. right. f_equal. ring.
    + rewrite !Rplus_0_l. exact IH.
Qed.
Lemma entity_blades u rho q e tx : entity_computed u rho q e tx -> map fst e = map fst tx.
Proof. induction 1 as [|p t e tx [E _] F IH]; cbn [map]; congruence. Qed.

(** ** from the lambda to the entity *)
Section Rounded.
Variable u : R.
Hypothesis u0 : (0 <= u)%R.
Hypothesis u1 : (u < 1)%R.
Variable fl : R -> res R.
Hypothesis FL : rounds u fl.
Theorem compute_rounded m nb ies inputs env ue outs v : (nb = true -> 2 <= dim m) -> inputs_are m nb ies inputs env -> length env = length inputs ->
  list_sum (map (@length R) inputs) <= N.to_nat ind_constant_start -> faithful m env (lambda_inputs inputs) ue -> algebraic (dim m) ue = true ->
  on1 (fun e => short e /\ distinct (rnodes e) /\ nonempty e) (build Exact (lambda_inputs inputs) ue) -> means m env ue v ->
  compute_oneF fl Exact m nb ies inputs ue = Ok outs ->
  exists e y q tx, outs = [e] /\ compiled_one Exact m nb ies inputs ue = Ok ([y], q) /\ shows y tx /\ proper (dim m) tx /\
    (forall b, (rv q * val (valuation (concat inputs)) tx b = output m nb v b)%R) /\
    (Forall (fun t : sterm => few_roundings u q (snd t)) tx -> entity_computed u (valuation (concat inputs)) q e tx).
Proof.
  intros Hn IA LE LC FA AL ON ME H. unfold compute_oneF, compute_rpnF in H. minv H. rename v0 into x. rewrite E in ON. cbn [on1] in ON. destruct ON as ([S1 S2] & D & NE). apply rpn_inner in H. minv H. rename v0 into y. rename E0 into EY.
  destruct (lambda_sound m env inputs ue x v LE FA E ME) as [DE [Q1 Q2]]. destruct (alg_expr inputs (dim m) ue x AL E) as [OK P].
  destruct DE as [[E1 E2]|(w & ND & _ & EV)]; [contradiction|].
  destruct (reshape_full m env x y w S1 S2 ND (distinct_identified _ D) (counted_distinct m env x w S1 S2 ND D) EY) as (EQ & (t & RUN) & _ & OR).
  pose proof (nice_single m env x y w S1 S2 ND D (alg_direct _ _ _ OK) EY) as NI.
  destruct (engine_rounded u u0 u1 fl FL m nb ies inputs env (rnodes y) (rq y) outs t [w]) as (ys & txs & A1 & A2 & A3 & A4 & A5); auto; try discriminate.
  - eapply origin_bound; [|exact OR]. eapply node_bound; exact OK.
  - now rewrite EQ.
  - now rewrite EQ.
  - exact (origin_alg (dim m) inputs _ _ OK NI OR).
  - cbn [rev app] in A4. inversion A4 as [|tx ? txs' ? V1 V2]; subst. inversion V2; subst. inversion A5 as [|e ? outs' ? C1 C2]; subst. inversion C2; subst. inversion A2 as [|z ? zs ? Z1 Z2]; subst. inversion Z2; subst. inversion A3; subst.
    exists e, z, (rq y), tx. split; [reflexivity|]. split; [unfold compiled_one; rewrite E; cbn [bind]; rewrite EY; cbn [bind]; rewrite A1; reflexivity|]. repeat (split; [assumption|]). split; [|exact C1].
    intros b. rewrite V1, EQ. rewrite output_scale. reflexivity.
Qed.
End Rounded.

(** ** evaluation without rounding is the evaluation over the real numbers *)
Section Exact.
Variable fl : R -> res R.
Hypothesis EX : rounds 0 fl.
Lemma imp_fl x : imp (fl x) (Ok x).
Proof. intros y H. destruct (EX x y H) as (d & D & ->). assert (d = 0%R). { destruct (Req_dec d 0) as [|N]; [assumption|]. apply Rabs_pos_lt in N. lra. } subst. f_equal. ring. Qed.
Lemma imp_then {A B} (x : res A) (f : A -> res B) a y : imp x (Ok a) -> imp (f a) y -> imp (bind x f) y.
Proof. intros X Y r H. destruct x as [a'|]; [|discriminate]. cbn [bind] in H. specialize (X a' eq_refl). injection X as <-. now apply Y. Qed.
Lemma imp_div a b : imp (fdiv fl a b) (Ok (a / b)%R).
Proof. unfold fdiv. destruct (Req_bool b 0); [intros r; discriminate|]. apply imp_fl. Qed.
Lemma imp_err {A} e (y : res A) : imp (Err e) y. Proof. intros r. discriminate. Qed.
Hint Resolve imp_fl imp_div imp_err imp_refl : core.
Ltac ex := repeat (eapply imp_then; [solve [eauto]|cbv beta]); eauto.
Lemma imp_pow_loop f : forall e t1 t2, imp (pow_loopF fl f e t1 t2) (Ok (pow_loop f e t1 t2)).
Proof.
  induction f as [|f IH]; intros e t1 t2; cbn [pow_loopF pow_loop]; [auto|]. destruct (1 <? e)%Z; [|auto]. destruct (Z.land e 1 =? 1)%Z; ex.
Qed.
Lemma imp_pow_nonneg s n : imp (pow_nonnegF fl s n) (Ok (pow_nonneg s n)).
Proof.
  unfold pow_nonnegF, pow_nonneg. repeat match goal with |- imp (if ?b then _ else _) _ => destruct b; [ex; fail|] end.
  eapply imp_then; [apply imp_pow_loop|]. destruct (pow_loop 64 n 1 s). apply imp_fl.
Qed.
Lemma imp_pow s n d : imp (powF fl s n d) (Ok (gal_pow s n d)).
Proof.
  unfold powF, gal_pow. destruct (1 <? d)%Z; [ex; destruct (Rle_bool _ _); auto|]. destruct (n =? 1)%Z; [auto|]. destruct (n =? -1)%Z; [auto|]. destruct (n <? 0)%Z; [|apply imp_pow_nonneg].
  eapply imp_then; [apply imp_pow_nonneg|]. apply imp_div.
Qed.
Lemma imp_op o x : imp (apply_mv_opF fl o x) (Ok (apply_mv_op o x)).
Proof. destruct o; cbn [apply_mv_opF apply_mv_op]; auto; match goal with |- context [if ?b then _ else _] => destruct b end; auto. Qed.
Lemma imp_data data i : imp (data_valueF fl data i) (data_value data i).
Proof. unfold data_valueF, data_value. destruct (_ <=? _)%N; [|auto]. intros r H. destruct (get _ _); [|discriminate]. cbn [bind] in H. now apply imp_fl in H. Qed.
Lemma imp_factor data i : imp (factor_valueF fl data i) (factor_value data i).
Proof. unfold factor_valueF, factor_value. apply imp_bind; [apply imp_data|]. intros v _. destruct (_ && _); [apply imp_pow|auto]. Qed.
Lemma imp_mapM {A B} (f g : A -> res B) l : (forall a, imp (f a) (g a)) -> imp (mapM f l) (mapM g l).
Proof. intros H. induction l as [|a l IH]; cbn [mapM]; [auto|]. apply imp_bind; [apply H|]. intros b _. apply imp_bind; [exact IH|]. auto. Qed.
Lemma imp_fold f l : imp (fold_right1F fl f l) (fold_right1 f l).
Proof. induction l as [|x l IH]; cbn [fold_right1F fold_right1]; [auto|]. destruct l; [auto|]. apply imp_bind; [exact IH|]. auto. Qed.
Lemma imp_cast q : imp (rat_castF fl q) (Ok (rat_cast q)).
Proof. unfold rat_castF, rat_cast. ex. Qed.
Lemma imp_scale q v : imp (scale_byF fl q v) (Ok (scale_by q v)).
Proof.
  unfold scale_byF, scale_by. destruct (1 <? _)%Z; destruct (scales _); [|ex|ex|auto]. eapply imp_then; [apply imp_cast|]. apply imp_fl.
Qed.
Lemma imp_cmon x data c : imp (cmon_valueF fl x data c) (cmon_value x data c).
Proof.
  unfold cmon_valueF, cmon_value. destruct (is_zero _); [auto|]. destruct (_ =? 0); [eapply imp_then; [apply imp_cast|apply imp_op]|].
  apply imp_bind; [auto|]. intros is _. apply imp_bind; [apply imp_mapM, imp_factor|]. intros vs _. apply imp_bind; [apply imp_fold|]. intros p _.
  eapply imp_then; [apply imp_scale|]. unfold scale_by. destruct (1 <? _)%Z; destruct (scales _); apply imp_op.
Qed.
Lemma imp_cterm x data t : imp (cterm_valueF fl x data t) (cterm_value x data t).
Proof. unfold cterm_valueF, cterm_value. apply imp_bind; [auto|]. intros ms _. apply imp_bind; [apply imp_mapM, imp_cmon|]. intros vs _. apply imp_fold. Qed.
Lemma imp_computed_entity x q data : imp (compute_entityF fl x q data) (compute_entity x q data).
Proof.
  unfold compute_entityF, compute_entity. apply imp_bind; [auto|]. intros ts _. apply imp_mapM. intros t. apply imp_bind; [apply imp_cterm|]. intros v _. eapply imp_then; [apply imp_scale|]. auto.
Qed.
Lemma imp_write x ts : forall off data, imp (write_tempF fl x ts off data) (write_temp x ts off data).
Proof. induction ts as [|t ts IH]; intros off data; cbn [write_tempF write_temp]; [auto|]. apply imp_bind; [apply imp_cterm|]. intros v _. apply imp_bind; [auto|]. intros d _. apply IH. Qed.
Lemma imp_ftemps md m nb l : forall data, imp (finalize_tempsF fl md m nb l data) (finalize_temps md m nb l data).
Proof.
  induction l as [|[x i] l IH]; intros data; cbn [finalize_tempsF finalize_temps]; [auto|]. apply imp_bind; [auto|]. intros y _. apply imp_bind; [|intros; apply IH].
  unfold compute_tempF, compute_temp. apply imp_bind; [auto|]. intros ts _. apply imp_write.
Qed.
Theorem compute_unrounded md m nb ies inputs l q : imp (computeF fl md m nb ies inputs l q) (compute md m nb ies inputs l q).
Proof.
  unfold computeF, compute. apply imp_bind; [auto|]. intros ins _. apply imp_bind; [auto|]. intros st _. apply imp_bind; [auto|]. intros data _. apply imp_bind; [apply imp_ftemps|]. intros data' _.
  destruct (r_args st); [auto|]. apply imp_mapM. intros x. unfold finalize_entityF, finalize_entity. apply imp_bind; [auto|]. intros y _. apply imp_computed_entity.
Qed.
End Exact.

(** ** the rational arithmetic of the code *)
Section Code.
Variable fl : R -> res R.
#[local] Hint Resolve imp_result imp_eval : imp.
Lemma imp_tempsF m nb l : forall data, imp (finalize_tempsF fl Exact m nb l data) (finalize_tempsF fl Code m nb l data).
Proof. induction l as [|[x i] l IH]; intros data; cbn [finalize_tempsF]; im. Qed.
Lemma imp_entityF m nb q data x : imp (finalize_entityF fl Exact m nb q data x) (finalize_entityF fl Code m nb q data x).
Proof. unfold finalize_entityF. im. Qed.
Theorem imp_computeF m nb ies inputs l q : imp (computeF fl Exact m nb ies inputs l q) (computeF fl Code m nb ies inputs l q).
Proof.
  unfold computeF. apply imp_bind; [apply imp_refl|]. intros ins _. apply imp_bind; [apply imp_eval|]. intros st _. apply imp_bind; [apply imp_refl|]. intros data _. apply imp_bind; [apply imp_tempsF|]. intros data' _.
  destruct (r_args st); [apply imp_refl|]. apply imp_mapM. intros x. apply imp_entityF.
Qed.
Theorem imp_compute_oneF m nb ies inputs u : imp (compute_oneF fl Exact m nb ies inputs u) (compute_oneF fl Code m nb ies inputs u).
Proof.
  unfold compute_oneF, compute_rpnF. apply imp_bind; [apply imp_build|]. intros e _. apply imp_bind; [apply imp_refl|]. intros _ _. apply imp_bind; [apply imp_refl|]. intros y _. apply imp_computeF.
Qed.
End Code.
