(** The numeric evaluation for all forms of inputs. *)
From Coq Require Import ZArith NArith List Bool Arith Lia ZifyBool ZifyN ZifyNat Reals.
From Verif Require Import Base Model_Numeric Model_Blade Model_Sort Model_MV Model_Product Model_Expr Model_Dfa Model_Engine
  Spec_Numeric Spec_Clifford Spec_Basis Spec_MV Spec_Expr Spec_Dfa Spec_Engine Proof_Engine Proof_Sim.
Import ListNotations.
Local Open Scope nat_scope.

Lemma inputs_choose m nb ies : forall inputs env, inputs_are m nb ies inputs env ->
  exists ies', length ies = length ies' /\ (forall k f g o, nth_error ies k = Some f -> nth_error ies' k = Some g -> sim (f o) (g o)) /\ inputs_rep m nb ies' inputs env.
Proof.
  induction ies as [|ie ies IH]; intros inputs env [L H].
  - exists []. split; [reflexivity|]. split; [intros [|k]; discriminate|]. split; [exact L|]. intros [|k]; discriminate.
  - destruct inputs as [|d inputs]; [discriminate|]. destruct (H 0 ie eq_refl) as (d0 & v & E1 & E2 & ie' & S1 & R1). cbn in E1. injection E1 as <-.
    destruct env as [|v0 env]; [discriminate|]. cbn in E2. injection E2 as ->.
    destruct (IH inputs env) as (ies' & L' & S2 & LR & R2).
    { split; [now injection L|]. intros k f Hk. exact (H (S k) f Hk). }
    exists (ie' :: ies'). split; [cbn; now rewrite L'|]. split; [|split; [cbn; now rewrite LR|]].
    + intros [|k] f g o A B; cbn in A, B; [injection A as <-; injection B as <-; apply S1|]. eapply S2; eauto.
    + intros [|k] f A; cbn in A; [injection A as <-|]; [exists d, v; auto|]. exact (R2 k f A).
Qed.
(** applicability does not depend on the offsets of empty monomials *)
Lemma sims_nth l k x : Forall2 sim l k -> forall i, nth_error l i = Some x -> exists y, nth_error k i = Some y /\ sim x y.
Proof. induction 1; intros [|i] H1; cbn in *; try discriminate; [injection H1 as ->; eauto|auto]. Qed.
Lemma fit_sim dim n l k : Forall2 sim l k -> fit dim n l = fit dim n k.
Proof.
  intros F. unfold fit. destruct F as [|x y l k X F]; [reflexivity|]. rewrite (si_ts _ _ X), (si_t _ _ X).
  assert (MS : forall a b, sim a b -> mono_scalar a = mono_scalar b) by (intros a b S1; unfold mono_scalar; now rewrite (si_ts _ _ S1), (si_t _ _ S1)).
  rewrite (MS _ _ X). destruct (no n =? op_grd)%N; [reflexivity|]. destruct (no n =? op_noop)%N; [reflexivity|]. destruct (no n =? op_div)%N; [|reflexivity].
  f_equal. destruct F as [|x2 y2 l k X2 F]; [reflexivity|]. unfold divisor_for. rewrite (MS _ _ X), (si_is _ _ X), (si_is _ _ X2), (si_i _ _ X2). f_equal.
  destruct (si_ms _ _ X) as [|a b u v (_ & _ & A & _) _]; [reflexivity|]. destruct (inds y) as [|i [|]]; auto. now rewrite A.
Qed.
Lemma fits_sim md m nb l s : fits md m nb l s -> forall t, ssim s t -> fits md m nb l t.
Proof.
  induction 1 as [st|n l st st' N1 MS FT ST F IH|n k l st st1 st2 MS K FT ST FT2 ST2 F IH|n b l st sub st' N1 LB Q FB IHB RB CL F IH]; intros t S1.
  - constructor.
  - destruct (to_use _ _ _ _ (step_sim md m nb n _ _ S1) ST) as (t' & T & S2). econstructor; eauto. rewrite <- (fit_sim _ _ _ _ (ss_args _ _ S1)). exact FT.
  - destruct (to_use _ _ _ _ (step_sim md m nb n _ _ S1) ST) as (t1 & T & S2). destruct (to_use _ _ _ _ (step_sim md m nb k _ _ S2) ST2) as (t2 & T2 & S3).
    eapply fits_store; eauto; [now rewrite <- (fit_sim _ _ _ _ (ss_args _ _ S1))|now rewrite <- (fit_sim _ _ _ _ (ss_args _ _ S2))].
  - assert (SO : ssim (rpn_open st) (rpn_open t)) by (destruct S1; constructor; cbn; auto; constructor).
    destruct (to_use _ _ _ _ (run_sim md m nb _ _ _ _ SO) RB) as (sub' & RB' & S2).
    assert (exists t', rpn_close md n t sub' = Ok t' /\ ssim st' t') as (t' & CL' & S3).
    { refine (to_use _ _ _ _ (close_sim md n st t sub sub' _ _) CL); assumption. }
    eapply fits_se; eauto.
Qed.
(** the program computes the values of its results *)
Theorem engine_sound m nb ies inputs env l q outs t s : (nb = true -> 2 <= dim m) -> inputs_are m nb ies inputs env -> bound inputs l ->
  num q <> 0%Z -> (0 < den q)%Z -> applicable m nb ies (list_sum (map (@length R) inputs)) l -> stores_on_top l ->
  neutral_temps m nb ies (list_sum (map (@length R) inputs)) l ->
  run m env l ([], []) (t, s) -> s <> [] -> compute Exact m nb ies inputs l q = Ok outs ->
  Forall2 (fun e v => entity_is (dim m) e (vscale (rv q) (output m nb v))) outs (rev s).
Proof.
  intros Hn IA BD Q0 Q1 AP TOP NT RUN NE H. destruct (inputs_choose _ _ _ _ _ IA) as (ies' & L & SI & IR).
  pose proof (eq_trans (eq_sym (compute_sim Exact m nb ies ies' inputs l q L SI)) H) as H'.
  refine (engine_sound0 m nb ies' inputs env l q outs t s Hn IR BD Q0 Q1 _ TOP _ RUN NE H').
  all: unfold compute in H; destruct (rpn_inputs ies (rpn_ids l)) as [ins|] eqn:EI; [|discriminate]; cbn [bind] in H.
  all: destruct (to_use _ _ _ _ (rpn_inputs_sim ies ies' l L SI) EI) as (ins2 & EI2 & SS).
  all: assert (S0 : ssim (mkrs ins [] [] (N.of_nat (list_sum (map (@length R) inputs)))) (mkrs ins2 [] [] (N.of_nat (list_sum (map (@length R) inputs))))) by (constructor; cbn; auto; constructor).
  - intros ins' EI'. rewrite EI' in EI2. injection EI2 as <-. destruct (AP ins EI) as [FI LC].
    split; [eapply fits_sim; eauto|]. intros st' E'. destruct (rpn_eval Exact m nb l ins (N.of_nat (list_sum (map (@length R) inputs)))) as [st|] eqn:E; [|discriminate].
    destruct (to_use _ _ _ _ (run_sim Exact m nb _ _ _ _ S0) E) as (st2 & E2 & S2). unfold rpn_eval in E'. rewrite E' in E2. injection E2 as <-. rewrite <- (ss_cnt _ _ S2). now apply LC.
  - intros B ins' st' EI' E'. rewrite EI' in EI2. injection EI2 as <-. destruct (rpn_eval Exact m nb l ins (N.of_nat (list_sum (map (@length R) inputs)))) as [st|] eqn:E; [|discriminate].
    destruct (to_use _ _ _ _ (run_sim Exact m nb _ _ _ _ S0) E) as (st2 & E2 & S2). unfold rpn_eval in E'. rewrite E' in E2. injection E2 as <-.
    pose proof (NT B ins st EI E) as F. pose proof (ss_temps _ _ S2) as T2. revert F. induction T2 as [|p r ps rs [P1 _] T2 IH]; intros F; constructor; inversion_clear F as [|? ? F1 F2]; [|auto].
    unfold neutral in *. now rewrite <- (si_o _ _ P1), <- (si_t _ _ P1), <- (si_ts _ _ P1).
Qed.
Theorem engine_algebraic m nb ies inputs env l q outs t s : (nb = true -> 2 <= dim m) -> inputs_are m nb ies inputs env -> bound inputs l ->
  num q <> 0%Z -> (0 < den q)%Z -> forallb (algebraic_node (dim m)) l = true -> list_sum (map (@length R) inputs) <= N.to_nat ind_constant_start ->
  run m env l ([], []) (t, s) -> s <> [] -> compute Exact m nb ies inputs l q = Ok outs ->
  Forall2 (fun e v => entity_is (dim m) e (vscale (rv q) (output m nb v))) outs (rev s).
Proof.
  intros Hn IA BD Q0 Q1 AL LC RUN NE H. destruct (inputs_choose _ _ _ _ _ IA) as (ies' & L & SI & IR).
  exact (engine_algebraic0 m nb ies' inputs env l q outs t s Hn IR BD Q0 Q1 AL LC RUN NE (eq_trans (eq_sym (compute_sim Exact m nb ies ies' inputs l q L SI)) H)).
Qed.
