(** Rounded evaluation of programs with temporaries. *)
From Coq Require Import ZArith NArith List Bool Arith Lia ZifyBool ZifyN ZifyNat Reals Lra.
From Verif Require Import Base Model_Numeric Model_Blade Model_Sort Model_MV Model_Product Model_Expr Model_Dfa Model_Reshape Model_Engine Model_Compute Model_Float
  Spec_Numeric Spec_Clifford Spec_Basis Spec_MV Spec_Expr Spec_Build Spec_Dfa Spec_Engine Spec_Reshape Spec_Compute
  Proof_Numeric Proof_Layout Proof_Sum Proof_Ops3 Proof_Safe Proof_Basis Proof_ProductVal Proof_Val Proof_Ops Proof_Proper Proof_MVAlg Proof_MVFlat Proof_Dfa Proof_Dfa2 Proof_Ids Proof_Engine Proof_Engine2 Proof_Sim Proof_Engine3
  Proof_Float Proof_Float2.
From Verif Require Import Spec_MV Spec_Engine Spec_Float.
Import ListNotations.
Local Open Scope nat_scope.

Section Rounded.
Variable u : R.
Hypothesis u0 : (0 <= u)%R.
Hypothesis u1 : (u < 1)%R.
Variable fl : R -> res R.
Hypothesis FL : rounds u fl.
Lemma mon_vals_ext (P : N -> Prop) rho rho' ms : (forall i, P i -> rho' i = rho i) -> idsl P ms -> map (mon_val rho') ms = map (mon_val rho) ms.
Proof.
  intros H I. apply map_ext_in. intros s Hs. unfold mon_val. f_equal. unfold inds_val. f_equal. apply map_ext_in.
  intros i Hi. unfold idsl in I. rewrite Forall_forall in I. specialize (I s Hs). rewrite Forall_forall in I. now rewrite (H _ (I i Hi)).
Qed.
Lemma writeF_ok x data0 tx (c : N) : packed x tx -> keep tx -> idsl (below c) (all_mons tx) -> length data0 <= N.to_nat ind_constant_start -> (c <= ind_constant_start)%N ->
  forall ts pre data data', tx = pre ++ ts -> same_below c data0 data ->
    write_tempF fl x (lay_terms (length (all_mons pre)) ts) (c + N.of_nat (length pre)) data = Ok data' ->
    length data' = length data /\
    (forall j, j < N.to_nat c + length pre -> nth j data' 0%R = nth j data 0%R) /\
    (mop x = mop_id -> forall k t, nth_error ts k = Some t -> N.to_nat c + length pre + k < length data /\
       exists ys, Forall2 (rel u (sum_roundings (snd t))) ys (map (mon_val (valuation data0)) (snd t)) /\ nth (N.to_nat c + length pre + k) data' 0%R = Rsum ys).
Proof.
  intros P K I L LC. induction ts as [|t ts IH]; intros pre data data' Et SB H; cbn [lay_terms write_tempF] in H.
  - injection H as <-. repeat split; auto. all: destruct k; discriminate.
  - minv H. rename v into a. minv H. rename v into d1. apply set_ok in E0 as [LI ->].
    pose proof (proj1 SB) as LS.
    assert (IT : idsl (below c) (snd t)). { rewrite Et, all_mons_app, all_mons_cons in I. apply idsl_app in I as [_ I]. now apply idsl_app in I as [I _]. }
    assert (SB' : same_below c data0 (upd data (N.to_nat (c + N.of_nat (length pre))) a)).
    { split; [rewrite upd_length; apply SB|]. intros i Hi. rewrite upd_nth by exact LI. replace (_ =? _) with false by lia. now apply SB. }
    replace (length (all_mons pre) + length (snd t)) with (length (all_mons (pre ++ [t]))) in H
      by (rewrite all_mons_app, app_length; f_equal; unfold all_mons; cbn [flat_map]; now rewrite app_nil_r).
    replace (c + N.of_nat (length pre) + 1)%N with (c + N.of_nat (length (pre ++ [t])))%N in H by (rewrite app_length; cbn [length]; lia).
    destruct (IH (pre ++ [t]) _ data' ltac:(now rewrite <- app_assoc) SB' H) as (I1 & I2 & I3).
    rewrite upd_length in I1, I3. rewrite app_length in I2, I3. cbn [length] in I2, I3.
    split; [exact I1|]. split.
    + intros j Hj. rewrite I2 by lia. rewrite upd_nth by exact LI. now replace (_ =? _) with false by lia.
    + intros O. apply (cterm_rel u u0 u1 fl FL x data tx pre t ts a ltac:(lia) O P K Et) in E.
      rewrite (mon_vals_ext (below c) (valuation data0)) in E; [|intros i Hi; now apply (same_val c)|exact IT].
      intros [|k] t' Ht; cbn in Ht.
      * injection Ht as <-. split; [lia|]. destruct E as (ys & Y & ->). exists ys. split; [exact Y|]. rewrite I2 by lia. rewrite upd_nth by exact LI. now replace (_ =? _) with true by lia.
      * destruct (I3 O k t' Ht) as [J1 (ys & J2 & J3)]. split; [lia|]. exists ys. split; [exact J2|]. rewrite <- J3. f_equal. lia.
Qed.
Lemma finalizeF_ok m nb temps : (nb = true -> 2 <= dim m) -> (nb = true -> Forall (fun p => neutral m (fst p)) temps) ->
  forall c c' data data', chain m c temps c' -> (c' <= ind_constant_start)%N -> length data <= N.to_nat ind_constant_start ->
  finalize_tempsF fl Exact m nb temps data = Ok data' ->
  exists ts, mapM (fun p => y <- result_mv Exact m nb (fst p);; Ok (y, snd p)) temps = Ok ts /\ same_below c data data' /\
    Forall (fun p : mv * N => exists tx, packed (fst p) tx /\ (mop (fst p) = mop_id -> forall k t, nth_error tx k = Some t -> few_roundings u one (snd t) ->
      computed_for u (valuation data') one (snd t) (valuation data' (snd p + N.of_nat k)%N))) ts.
Proof.
  intros Hn. induction temps as [|[x i] temps IH]; intros NE c c' data data' CH LC L H; cbn [finalize_tempsF] in H.
  - injection H as <-. exists []. split; [reflexivity|]. split; [apply same_refl|constructor].
  - cbn [chain fst snd] in CH. destruct CH as (-> & LT & (tx & P & SS & DD & K & I) & CH). minv H. rename v into y.
    destruct (neutral_result m nb x tx y (below c) Hn ltac:(intros B; specialize (NE B); now inversion NE) P K I E) as (ty & PY & KY & IY & LY & VY).
    pose proof (chain_le m false ltac:(discriminate) _ _ _ CH) as LE. pose proof (pk_tsz _ _ P) as TS.
    minv H. rename v into d1. unfold compute_tempF in E0. rewrite (packed_slice _ _ PY) in E0. cbn [bind] in E0.
    destruct (writeF_ok y data ty c PY KY IY L ltac:(lia) ty [] data d1 eq_refl (same_refl _ _) ltac:(rewrite N.add_0_r; exact E0)) as (W1 & W2 & W3).
    cbn [length] in W2, W3. rewrite Nat.add_0_r in W2, W3.
    destruct (IH ltac:(intros B; specialize (NE B); now inversion NE) _ _ d1 data' CH LC ltac:(rewrite W1; exact L) H) as (ts & I0 & I1 & I2).
    assert (SB : same_below c data d1). { split; [exact W1|]. intros j Hj. apply W2. lia. }
    exists ((y, c) :: ts). split; [cbn [mapM fst snd]; rewrite E; cbn [bind]; now rewrite I0|].
    split; [eapply same_trans; [|exact SB|exact I1]; lia|]. constructor; [|exact I2].
    cbn [fst snd]. exists ty. split; [exact PY|]. intros O k t Ht FR. destruct (W3 O k t Ht) as [X1 (ys & X2 & X3)].
    assert (KL : k < length ty) by (apply nth_error_Some; congruence).
    assert (IT : idsl (below c) (snd t)). { apply nth_error_split in Ht as (a & b & -> & _). rewrite all_mons_app, all_mons_cons in IY. apply idsl_app in IY as [_ IY]. now apply idsl_app in IY as [IY _]. }
    assert (VE : valuation data' (c + N.of_nat k)%N = Rsum ys).
    { rewrite <- X3. unfold valuation. replace (_ =? _)%N with false by lia. replace (_ =? _)%N with false by lia. rewrite (proj2 I1) by lia. f_equal. lia. }
    rewrite VE. unfold computed_for. apply (computed u u0 u1); [exact FR|].
    replace (map (Rmult (rv one)) (map (mon_val (valuation data')) (snd t))) with (map (mon_val (valuation data)) (snd t)).
    + unfold roundings. change (coefficient_roundings one) with 0. now rewrite Nat.add_0_r.
    + rewrite <- (mon_vals_ext (below c) (valuation data) (valuation data')); [|intros j Hj; apply (same_val c); [lia|eapply same_trans; [|exact SB|exact I1]; lia|exact Hj|exact L]|exact IT].
      rewrite map_map. apply map_ext. intros s. rewrite rv_one. ring.
Qed.
Lemma results_temps m nb q data args outs P : (nb = true -> 2 <= dim m) -> length data <= N.to_nat ind_constant_start -> num q <> 0%Z -> (0 < den q)%Z ->
  Forall (syn (dim m) P) args -> mapM (finalize_entityF fl Exact m nb q data) args = Ok outs ->
  exists ys, mapM (result_mv Exact m nb) args = Ok ys /\
    Forall2 (fun e y => exists tx, packed y tx /\ proper (dim m) tx /\ (mop y = mop_id -> Forall (fun t : sterm => few_roundings u q (snd t)) tx -> entity_computed u (valuation data) q e tx)) outs ys.
Proof.
  intros Hn L Q0 Q1 F. revert outs. induction F as [|x args Fx F IH]; intros outs H; cbn [mapM] in H.
  - injection H as <-. exists []. repeat split; constructor.
  - minv H. rename v into e. minv H. rename v into es. injection H as <-. destruct (IH es E0) as (ys & I1 & I2).
    unfold finalize_entityF in E. minv E. rename v into y. destruct Fx as (tx & PX & PR & ID).
    assert (M : exists ty, packed y ty /\ proper (dim m) ty).
    { unfold result_mv in E1. destruct nb; [|injection E1 as <-; eauto]. rewrite <- (dim_N m) in E1. unfold to_null_basis in E1. destruct (change_flat _ _ _ _ _ PX E1) as (t & E2 & Z).
      exists t. split; [exact Z|]. pose proof (Hn eq_refl) as N2. exact (change_proper _ _ _ _ (null_ok _ N2) (null_pos _ N2) (null_dim _ N2) PR E2). }
    destruct M as (ty & PY & PRY). exists (y :: ys). cbn [mapM]. rewrite E1. cbn [bind]. rewrite I1. split; [reflexivity|]. constructor; [|exact I2].
    exists ty. split; [exact PY|]. split; [exact PRY|]. intros MO FR. exact (entity_rel u u0 u1 fl FL y q data ty e L MO PY (proper_keep _ _ PRY) Q0 Q1 FR E).
Qed.
Theorem temps_rounded0 m nb ies inputs env l q outs : (nb = true -> 2 <= dim m) -> inputs_rep m nb ies inputs env -> bound inputs l ->
  num q <> 0%Z -> (0 < den q)%Z -> applicable m nb ies (list_sum (map (@length R) inputs)) l -> stores_on_top l ->
  neutral_temps m nb ies (list_sum (map (@length R) inputs)) l -> computeF fl Exact m nb ies inputs l q = Ok outs ->
  exists ys ts data, compiled Exact m nb ies (list_sum (map (@length R) inputs)) l = Ok (ys, ts) /\
    (forall j, j < list_sum (map (@length R) inputs) -> nth j data 0%R = nth j (concat inputs) 0%R) /\
    Forall (fun p : mv * N => exists tx, packed (fst p) tx /\ (mop (fst p) = mop_id -> forall k t, nth_error tx k = Some t -> few_roundings u one (snd t) ->
      computed_for u (valuation data) one (snd t) (valuation data (snd p + N.of_nat k)%N))) ts /\
    (ys = [] /\ outs = [[]] \/ Forall2 (fun e y => exists tx, packed y tx /\ proper (dim m) tx /\ (mop y = mop_id -> Forall (fun t : sterm => few_roundings u q (snd t)) tx -> entity_computed u (valuation data) q e tx)) outs ys).
Proof.
  intros Hn IA BD Q0 Q1 AP TOP NT H. unfold computeF in H. unfold compiled. set (cnt := list_sum (map (@length R) inputs)) in *.
  minv H. rename v into ins. rewrite E. cbn [bind]. destruct (AP ins E) as [FI LC]. minv H. rename v into st. rewrite E0. cbn [bind]. specialize (LC st E0). pose proof E0 as E0'. unfold rpn_eval in E0.
  pose proof (inputs_fresh _ _ _ _ _ _ _ IA BD E) as F0. fold cnt in F0.
  assert (FR0 : fresh m (N.of_nat cnt) (mkrs ins [] [] (N.of_nat cnt))) by (split; [reflexivity|split; [constructor|exact F0]]).
  pose proof (fits_fresh m nb Hn l _ FI _ _ st (Nat.lt_succ_diag_r _) E0 TOP FR0) as (CH & SY & _).
  pose proof (chain_le m nb Hn _ _ _ CH) as LE.
  minv H. rename v into data. minv H. rename v into data'.
  rewrite repeat_app in E1. pose proof (fill_ok inputs [] (repeat 0%R (N.to_nat (r_cnt st - N.of_nat cnt))) (repeat 0%R cnt) (repeat_length _ _)) as FO.
  cbn [app length] in FO. rewrite FO in E1. injection E1 as <-. pose proof (concat_len inputs) as LCT. fold cnt in LCT.
  assert (LD : length (concat inputs ++ repeat 0%R (N.to_nat (r_cnt st - N.of_nat cnt))) <= N.to_nat ind_constant_start) by (rewrite app_length, repeat_length, LCT; lia).
  destruct (finalizeF_ok m nb (r_temps st) Hn (fun B => NT B ins st E E0') _ _ _ _ CH LC LD E2) as (ts & T1 & SB & T2). rewrite T1. cbn [bind].
  assert (IN : forall j, j < cnt -> nth j data' 0%R = nth j (concat inputs) 0%R).
  { intros j J. rewrite <- (Nat2N.id j). rewrite (proj2 SB) by lia. rewrite Nat2N.id. now rewrite app_nth1 by lia. }
  destruct (r_args st) as [|x args] eqn:EA.
  - injection H as <-. exists [], ts, data'. cbn [rev mapM bind]. split; [reflexivity|]. split; [exact IN|]. split; [exact T2|]. left. split; reflexivity.
  - assert (FA : Forall (syn (dim m) (below (r_cnt st))) (rev (x :: args))) by now apply Forall_rev.
    destruct (results_temps m nb q data' (rev (x :: args)) outs _ Hn ltac:(rewrite (proj1 SB); exact LD) Q0 Q1 FA H) as (ys & Y1 & Y2).
    rewrite Y1. cbn [bind]. exists ys, ts, data'. split; [reflexivity|]. split; [exact IN|]. split; [exact T2|]. right. exact Y2.
Qed.
Theorem temps_rounded m nb ies inputs env l q outs : (nb = true -> 2 <= dim m) -> inputs_are m nb ies inputs env -> bound inputs l ->
  num q <> 0%Z -> (0 < den q)%Z -> applicable m nb ies (list_sum (map (@length R) inputs)) l -> stores_on_top l ->
  neutral_temps m nb ies (list_sum (map (@length R) inputs)) l -> computeF fl Exact m nb ies inputs l q = Ok outs ->
  exists ys ts data, compiled Exact m nb ies (list_sum (map (@length R) inputs)) l = Ok (ys, ts) /\
    (forall j, j < list_sum (map (@length R) inputs) -> nth j data 0%R = nth j (concat inputs) 0%R) /\
    Forall (temp_computed u (valuation data)) ts /\
    (ys = [] /\ outs = [[]] \/ Forall2 (fun e y => exists tx, shows y tx /\ proper (dim m) tx /\ (mop y = mop_id -> Forall (fun t : sterm => few_roundings u q (snd t)) tx -> entity_computed u (valuation data) q e tx)) outs ys).
Proof.
  intros Hn IA BD Q0 Q1 AP TOP NT H. destruct (inputs_choose _ _ _ _ _ IA) as (ies' & L & SI & IR).
  pose proof (eq_trans (eq_sym (computeF_sim fl Exact m nb ies ies' inputs l q L SI)) H) as H'.
  assert (G : applicable m nb ies' (list_sum (map (@length R) inputs)) l /\ neutral_temps m nb ies' (list_sum (map (@length R) inputs)) l).
  { unfold computeF in H; destruct (rpn_inputs ies (rpn_ids l)) as [ins|] eqn:EI; [|discriminate]; cbn [bind] in H.
    destruct (to_use _ _ _ _ (rpn_inputs_sim ies ies' l L SI) EI) as (ins2 & EI2 & SS).
    assert (S0 : ssim (mkrs ins [] [] (N.of_nat (list_sum (map (@length R) inputs)))) (mkrs ins2 [] [] (N.of_nat (list_sum (map (@length R) inputs))))) by (constructor; cbn; auto; constructor).
    split.
    - intros ins' EI'. rewrite EI' in EI2. injection EI2 as <-. destruct (AP ins EI) as [FI LC].
      split; [eapply fits_sim; eauto|]. intros st' E'. destruct (rpn_eval Exact m nb l ins (N.of_nat (list_sum (map (@length R) inputs)))) as [st|] eqn:E; [|discriminate].
      destruct (to_use _ _ _ _ (run_sim Exact m nb _ _ _ _ S0) E) as (st2 & E2 & S2). unfold rpn_eval in E'. rewrite E' in E2. injection E2 as <-. rewrite <- (ss_cnt _ _ S2). now apply LC.
    - intros B ins' st' EI' E'. rewrite EI' in EI2. injection EI2 as <-. destruct (rpn_eval Exact m nb l ins (N.of_nat (list_sum (map (@length R) inputs)))) as [st|] eqn:E; [|discriminate].
      destruct (to_use _ _ _ _ (run_sim Exact m nb _ _ _ _ S0) E) as (st2 & E2 & S2). unfold rpn_eval in E'. rewrite E' in E2. injection E2 as <-.
      pose proof (NT B ins st EI E) as F. pose proof (ss_temps _ _ S2) as T2. revert F. induction T2 as [|p r ps rs [P1 _] T2 IH]; intros F; constructor; inversion_clear F as [|? ? F1 F2]; [|auto].
      unfold neutral in *. now rewrite <- (si_o _ _ P1), <- (si_t _ _ P1), <- (si_ts _ _ P1). }
  destruct G as [AP' NT']. destruct (temps_rounded0 m nb ies' inputs env l q outs Hn IR BD Q0 Q1 AP' TOP NT' H') as (ys' & ts' & data & A & B & C & D).
  pose proof (compiled_sim Exact m nb ies ies' (list_sum (map (@length R) inputs)) l L SI) as CS. rewrite A in CS.
  destruct (compiled Exact m nb ies _ l) as [[ys ts]|e]; cbn [to] in CS; [|discriminate]. destruct CS as ([a b] & E & S1 & S2). injection E as <- <-. cbn [fst snd] in *.
  exists ys, ts, data. split; [reflexivity|]. split; [exact B|]. split.
  - clear -S2 C. induction S2 as [|p p' ts ts' [P1 P2] S2 IH]; inversion_clear C as [|? ? (tx & T1 & T2) C']; constructor; [|auto]. exists tx. split; [eexists; eauto|]. rewrite (si_o _ _ P1), P2. exact T2.
  - destruct D as [[-> ->]|D]; [left; inversion S1; auto|right]. clear -S1 D. revert outs D. induction S1 as [|x y ys ys' S S1 IH]; intros outs D; inversion_clear D as [|e ? es ? (tx & T1 & T2 & T3) D']; constructor; [|auto].
    exists tx. split; [eexists; eauto|]. split; [exact T2|]. rewrite (si_o _ _ S). exact T3.
Qed.
End Rounded.
