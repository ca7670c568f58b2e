(** Applicable programs are evaluated, or fail for an arithmetic reason. *)
From Coq Require Import ZArith NArith List Bool Arith Lia ZifyBool ZifyN ZifyNat Reals.
From Verif Require Import Base Model_Numeric Model_Blade Model_MV Model_Product Model_Stack Model_Expr Model_Dfa Model_Reshape Model_Engine Model_Entity Model_Compute.
From Verif Require Import Spec_Numeric Spec_Clifford Spec_MV Spec_Basis Spec_Expr Spec_Build Spec_Dfa Spec_Engine Spec_Entity Spec_Reshape Spec_Compute Spec_Scan.
From Verif Require Import Proof_Numeric Proof_Expr Proof_Expr2 Proof_Expr5 Proof_Expr6 Proof_Nodes Proof_Util Proof_Reshape Proof_Reshape2 Proof_Reshape4 Proof_Reshape5 Proof_Emit2
  Proof_Layout Proof_Val Proof_Safe Proof_Ops Proof_Poly Proof_Proper Proof_MVAlg Proof_MVFlat Proof_Sim Proof_Tight Proof_Dfa Proof_Dfa2 Proof_Ids Proof_Engine Proof_Engine2 Proof_Engine3 Proof_Compute Proof_Shared Proof_Progress Proof_Total.
From Verif Require Import Proof_Expr5.
Import ListNotations.
Local Open Scope nat_scope.

Lemma fits_runs md m nb l st : Spec_Dfa.fits md m nb l st -> forall f, length l < f -> exists st', rpn_run md m nb f l st = Ok st'.
Proof.
  induction 1 as [st|n l st st' N1 MS FT ST F IH|n k l st st1 st2 MS K FT ST FT2 ST2 F IH|n b l st sub st' N1 LB Q FB IHB RB CL F IH]; intros [|f] L; try (cbn in L; lia); cbn [rpn_run].
  - eauto.
  - cbn [length] in L. replace (no n =? op_se)%N with false by (symmetry; now apply N.eqb_neq). rewrite ST. cbn [bind]. apply IH. lia.
  - cbn [length] in L. destruct f as [|f]; [lia|]. replace (no n =? op_se)%N with false.
    2:{ symmetry. apply N.eqb_neq. intros E. unfold must_store, is_fn in MS. rewrite E in MS. discriminate MS. }
    rewrite ST. cbn [bind rpn_run]. rewrite K. cbn [N.eqb]. rewrite ST2. change (op_noop =? op_se)%N with false. cbn iota. cbn [bind]. apply IH. lia.
  - cbn [length] in L. rewrite app_length in L. rewrite N1, N.eqb_refl, app_length. replace (_ <? _) with false by (symmetry; apply Nat.ltb_ge; lia).
    rewrite LB. rewrite firstn_app, Nat.sub_diag, firstn_all. cbn [firstn]. rewrite app_nil_r. rewrite skipn_app, Nat.sub_diag, skipn_all. cbn [skipn app].
    rewrite (run_fuel md m nb b f (S (length b)) (rpn_open st) ltac:(lia) ltac:(lia)), RB. cbn [bind]. rewrite CL. cbn [bind]. apply IH. lia.
Qed.
Lemma keep_wkt P tx : keep tx -> idsl P (all_mons tx) -> wkt P tx.
Proof. intros (K1 & _ & K2) I. split; [now apply mv_ok_tdegs|]. auto. Qed.
Lemma chain_chainw m ts : forall c c', chain m c ts c' -> chainw c ts c'.
Proof.
  induction ts as [|p ts IH]; intros c c'; cbn; [auto|]. intros (A & B & (tx & P & _ & _ & K & I) & D). split; [exact A|]. split; [exact B|]. split; [|auto]. exists tx. split; [exact P|]. now apply keep_wkt.
Qed.
(** temporaries whose coefficients are the same in both bases *)
Lemma temps_neutral m nb ts : (nb = true -> 2 <= dim m) -> (nb = true -> Forall (fun p => neutral m (fst p)) ts) ->
  forall c c' data, (c' <= ind_constant_start)%N -> chain m c ts c' -> (c' <= N.of_nat (length data))%N ->
  good (fun d => length d = length data) (finalize_temps Exact m nb ts data).
Proof.
  intros Hn. induction ts as [|[x i] ts IH]; intros NE c c' data LC H L; [now apply good_ok|]. cbn [chain fst snd] in H. destruct H as (-> & FT & (tx & P & SS & DD & K & I) & H).
  pose proof (chain_le m false ltac:(discriminate) _ _ _ H) as LE. pose proof (pk_tsz _ _ P) as TS. cbn [finalize_temps].
  apply (good_bind (fun y => result_mv Exact m nb x = Ok y)).
  { pose proof (result_good Exact m nb c x (ex_intro _ tx (conj P (keep_wkt _ _ K I)))) as [G1 _]. split; [exact G1|auto]. }
  intros y _ E. destruct (neutral_result m nb x tx y (below c) Hn ltac:(intros B; specialize (NE B); now inversion NE) P K I E) as (ty & PY & KY & IY & LY & _).
  apply (good_bind (fun d => length d = length data)).
  - unfold compute_temp. rewrite (packed_slice _ _ PY). cbn [bind].
    pose proof (write_good c y c ty ltac:(lia) PY (keep_wkt _ _ KY IY) ty [] data eq_refl ltac:(unfold enough; lia) ltac:(lia)) as G. cbn [length all_mons flat_map N.of_nat] in G. now rewrite N.add_0_r in G.
  - intros d _ Ld. eapply good_imp; [apply (IH ltac:(intros B; specialize (NE B); now inversion NE) _ c' d LC H); lia|]. intros d' L'. congruence.
Qed.
Theorem engine_safe0 m nb ies inputs env l q t s : (nb = true -> 2 <= dim m) -> inputs_rep m nb ies inputs env -> length env <= length ies -> bound inputs l ->
  applicable m nb ies (list_sum (map (@length R) inputs)) l -> stores_on_top l -> neutral_temps m nb ies (list_sum (map (@length R) inputs)) l ->
  run m env l ([], []) (t, s) -> memory_safe (compute Exact m nb ies inputs l q).
Proof.
  intros Hn IR LE BD AP TOP NT RUN. set (cnt := list_sum (map (@length R) inputs)) in *. unfold compute. fold cnt.
  pose proof (inputs_good ies env l LE (run_input _ _ _ _ _ RUN)) as [I1 I2]. apply safe_bind; [exact I1|]. intros ins EI. specialize (I2 ins EI). destruct (AP ins EI) as [FI LC].
  pose proof (inputs_fresh _ _ _ _ _ _ _ IR BD EI) as F0. fold cnt in F0.
  assert (FR0 : fresh m (N.of_nat cnt) (mkrs ins [] [] (N.of_nat cnt))) by (split; [reflexivity|split; [constructor|exact F0]]).
  destruct (fits_runs _ _ _ _ _ FI (S (length l)) (Nat.lt_succ_diag_r _)) as (st & ES). unfold rpn_eval. rewrite ES. cbn [bind].
  pose proof (fits_fresh m nb Hn l _ FI _ _ st (Nat.lt_succ_diag_r _) ES TOP FR0) as (CH & WA & _). specialize (LC st ES). pose proof (chain_le m nb Hn _ _ _ CH) as LE2.
  rewrite repeat_app. pose proof (fill_ok inputs [] (repeat 0%R (N.to_nat (r_cnt st - N.of_nat cnt))) (repeat 0%R cnt) (repeat_length _ _)) as FO.
  cbn [app length] in FO. rewrite FO. cbn [bind].
  assert (LCT : length (concat inputs) = cnt).
  { unfold cnt. clear. induction inputs as [|d ds IH]; cbn; [reflexivity|]. rewrite app_length. unfold list_sum in *. now rewrite IH. }
  set (data := concat inputs ++ repeat 0%R (N.to_nat (r_cnt st - N.of_nat cnt))).
  assert (LD : N.of_nat (length data) = r_cnt st) by (unfold data; rewrite app_length, repeat_length, LCT; lia).
  pose proof (temps_neutral m nb (r_temps st) Hn (fun B => NT B ins st EI ES) _ _ data LC CH ltac:(lia)) as [T1 T2]. apply safe_bind; [exact T1|]. intros data' ED. specialize (T2 data' ED).
  destruct (r_args st) as [|x r] eqn:EA; [apply safe_ok|]. apply safe_mapM_in. intros y Hy. rewrite Forall_forall in WA. apply in_rev in Hy. specialize (WA y Hy). apply syn_wk in WA.
  unfold finalize_entity. pose proof (result_good Exact m nb _ _ WA) as [R1 R2]. apply safe_bind; [exact R1|]. intros z Ez. eapply entity_safe; [|exact LC|exact (R2 z Ez)]. unfold enough. lia.
Qed.
Theorem engine_safe m nb ies inputs env l q t s : (nb = true -> 2 <= dim m) -> inputs_are m nb ies inputs env -> length env = length inputs -> bound inputs l ->
  applicable m nb ies (list_sum (map (@length R) inputs)) l -> stores_on_top l -> neutral_temps m nb ies (list_sum (map (@length R) inputs)) l ->
  run m env l ([], []) (t, s) -> memory_safe (compute Exact m nb ies inputs l q).
Proof.
  intros Hn IA LE BD AP TOP NT RUN. pose proof (proj1 IA) as LI. destruct (inputs_choose _ _ _ _ _ IA) as (ies' & L & SI & IR).
  rewrite (compute_sim Exact m nb ies ies' inputs l q L SI).
  pose proof (inputs_good ies env l ltac:(lia) (run_input _ _ _ _ _ RUN)) as [I1 _].
  destruct (rpn_inputs ies (rpn_ids l)) as [ins|er] eqn:EI.
  2:{ intros e E. unfold compute in E. destruct (rpn_inputs ies' (rpn_ids l)) as [ins2|e2] eqn:EI2.
      - exfalso. pose proof (rpn_inputs_sim ies ies' l L SI) as T. rewrite EI, EI2 in T. cbn in T. discriminate T.
      - cbn [bind] in E. injection E as <-. pose proof (rpn_inputs_sim ies ies' l L SI) as T. rewrite EI, EI2 in T. cbn in T. injection T as ->. now apply I1. }
  destruct (to_use _ _ _ _ (rpn_inputs_sim ies ies' l L SI) EI) as (ins2 & EI2 & SS).
  assert (S0 : ssim (mkrs ins [] [] (N.of_nat (list_sum (map (@length R) inputs)))) (mkrs ins2 [] [] (N.of_nat (list_sum (map (@length R) inputs))))) by (constructor; cbn; auto; constructor).
  apply (engine_safe0 m nb ies' inputs env l q t s); auto; [lia| |].
  - intros ins' EI'. rewrite EI' in EI2. injection EI2 as <-. destruct (AP ins EI) as [FI LC].
    split; [eapply fits_sim; eauto|]. intros st' E'. destruct (fits_runs _ _ _ _ _ FI (S (length l)) (Nat.lt_succ_diag_r _)) as (st & E).
    destruct (to_use _ _ _ _ (run_sim Exact m nb _ _ _ _ S0) E) as (st2 & E2 & S2). unfold rpn_eval in E'. rewrite E' in E2. injection E2 as <-. rewrite <- (ss_cnt _ _ S2). now apply LC.
  - intros B ins' st' EI' E'. rewrite EI' in EI2. injection EI2 as <-. destruct (AP ins EI) as [FI _]. destruct (fits_runs _ _ _ _ _ FI (S (length l)) (Nat.lt_succ_diag_r _)) as (st & E).
    destruct (to_use _ _ _ _ (run_sim Exact m nb _ _ _ _ S0) E) as (st2 & E2 & S2). unfold rpn_eval in E'. rewrite E' in E2. injection E2 as <-.
    pose proof (NT B ins st EI E) as F. pose proof (ss_temps _ _ S2) as T2. revert F. induction T2 as [|p r ps rs [P1 _] T2 IH]; intros F; constructor; inversion_clear F as [|? ? F1 F2]; [|auto].
    unfold neutral in *. now rewrite <- (si_o _ _ P1), <- (si_t _ _ P1), <- (si_ts _ _ P1).
Qed.
Theorem compute_general_total m nb ies inputs env u v : (nb = true -> 2 <= dim m) -> inputs <> [] -> inputs_are m nb ies inputs env -> length env = length inputs ->
  list_sum (map (@length R) inputs) <= N.to_nat ind_constant_start -> guarded Exact (lambda_inputs inputs) u -> faithful m env (lambda_inputs inputs) u -> regular (lambda_inputs inputs) u ->
  (forall e, build Exact (lambda_inputs inputs) u = Ok e -> short e /\ identified (rnodes e) /\ counted e /\ unnested (rnodes e) /\
    on1 (fun y => applicable m nb ies (list_sum (map (@length R) inputs)) (rnodes y) /\ neutral_temps m nb ies (list_sum (map (@length R) inputs)) (rnodes y)) (reshape e)) -> means m env u v ->
  (exists e, compute_one Exact m nb ies inputs u = Ok [e] /\ entity_is (dim m) e (output m nb v)) \/
  exists er, compute_one Exact m nb ies inputs u = Err er /\ (er = Overflow \/ er = DivZero \/ er = Rounded).
Proof.
  intros Hn NE IA LE LC GU FA RG ON ME. destruct (build_bounds _ _ GU) as [BS BL].
  destruct (compute_one Exact m nb ies inputs u) as [outs|er] eqn:E.
  - left. destruct (build Exact (lambda_inputs inputs) u) as [x|] eqn:EB; [|unfold compute_one in E; rewrite EB in E; discriminate].
    destruct (compute_general m nb ies inputs env u outs v Hn IA LE FA RG) as (e & -> & EE); auto; [|eauto]. rewrite EB. destruct (ON x eq_refl) as (A1 & A2 & A3 & _ & A4). cbn [on1]. auto.
  - right. exists er. split; [reflexivity|]. unfold compute_one in E. destruct (build Exact (lambda_inputs inputs) u) as [x|e0] eqn:EB; cbn [bind] in E; [|injection E as <-; now apply BS].
    destruct (ON x eq_refl) as ([S1 S2] & ID & CN & UN & AP). specialize (BL x eq_refl). unfold compute_rpn, some_input in E. destruct inputs as [|d0 inputs0] eqn:EI; [congruence|]. rewrite <- EI in *. cbn [bind] in E.
    destruct (lambda_sound m env inputs u x v LE FA EB ME) as [DE [Q1 Q2]]. destruct DE as [[E1 E2]|(w & ND & _ & EV)].
    + destruct (reshape_none x E1) as (y & EY). rewrite EY in E. cbn [bind] in E. rewrite (reshape_empty x y E1 EY) in E. exact (empty_safe _ _ _ _ _ _ _ IA LE LC _ E).
    + destruct (reshape_total m env x w S2 BL ND ID UN) as (y & EY). rewrite EY in E, AP. cbn [bind on1] in E, AP. destruct AP as [AP NT].
      assert (OK : expr_ok (fun _ => True) (off inputs) x).
      { assert (G : gives (expr_ok (fun _ => True) (off inputs)) (build Exact (lambda_inputs inputs) u)); [|exact (G x EB)]. apply build_ok; [exact I| |now apply regular_needs]. apply lambda_ok; exact I. }
      destruct OK as [OK P]. destruct (reshape_full m env x y w S1 S2 ND ID CN EY) as (EQ & (t & RUN) & TOP & OR).
      refine (engine_safe m nb ies inputs env (rnodes y) (rq y) t [w] Hn IA LE _ AP TOP NT RUN er E). eapply origin_bound; [|exact OR]. eapply node_bound; exact OK.
Qed.
