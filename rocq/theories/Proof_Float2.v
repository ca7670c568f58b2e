(** Rounded evaluation of whole programs. *)
From Coq Require Import ZArith NArith List Bool Arith Lia ZifyBool ZifyN ZifyNat Reals Lra.
From Verif Require Import Base Model_Numeric Model_Blade Model_Sort Model_MV Model_Product Model_Expr Model_Dfa Model_Reshape Model_Engine Model_Compute Model_Float
  Spec_Numeric Spec_Clifford Spec_Basis Spec_MV Spec_Expr Spec_Build Spec_Dfa Spec_Engine Spec_Reshape Spec_Compute
  Proof_Numeric Proof_Layout Proof_Sum Proof_Safe Proof_Basis Proof_ProductVal Proof_Proper Proof_MVFlat Proof_Dfa Proof_Dfa2 Proof_Ids Proof_Engine Proof_Engine2 Proof_Sim Proof_Engine3
  Proof_Reshape4 Proof_Reshape5 Proof_Reshape6 Proof_Expr5 Proof_Expr6 Proof_Compute Proof_Float.
From Verif Require Import Spec_MV Spec_Engine Spec_Float.
Import ListNotations.
Local Open Scope nat_scope.

(** ** the offsets of empty monomials do not matter *)
Section Sim.
Variable fl : R -> res R.
Variable md : mode.
Variable m : metric.
Variable nb : bool.
Lemma cmonF_sim x y data a b : sim x y -> mon_sim (isz y) a b -> to eq (cmon_valueF fl x data a) (cmon_valueF fl y data b).
Proof.
  intros X (A1 & A2 & A3 & A4). unfold cmon_valueF. rewrite A1, A3, (si_o _ _ X), (si_is _ _ X). destruct (is_zero _); [now apply to_ok|].
  destruct (Nat.eqb_spec (mcount b) 0) as [E|E]; [apply to_same|]. destruct A4 as [A4|[A4 _]]; [|contradiction]. rewrite A4. apply to_same.
Qed.
Lemma ctermF_sim x y data t : sim x y -> to eq (cterm_valueF fl x data t) (cterm_valueF fl y data t).
Proof.
  intros X. unfold cterm_valueF. apply (to_bind (Forall2 (mon_sim (isz y)))).
  { apply slice_sim, (si_ms _ _ X). }
  intros a b F. eapply to_bind; [eapply mapM_to; [exact F|]; intros; eapply cmonF_sim; eauto|]. intros vs ? <-. apply to_same.
Qed.
Lemma writeF_sim x y ts : sim x y -> forall off data, to eq (write_tempF fl x ts off data) (write_tempF fl y ts off data).
Proof.
  intros X. induction ts as [|t ts IH]; intros off data; cbn [write_tempF]; [now apply to_ok|]. eapply to_bind; [now apply ctermF_sim|]. intros v ? <-.
  apply (to_bind eq); [apply to_same|]. intros d ? <-. apply IH.
Qed.
Lemma tempsF_sim u v : Forall2 (fun p q : mv * N => sim (fst p) (fst q) /\ snd p = snd q) u v -> forall data, to eq (finalize_tempsF fl md m nb u data) (finalize_tempsF fl md m nb v data).
Proof.
  induction 1 as [|[x i] [y j] u v [X E] F IH]; intros data; cbn [finalize_tempsF]; [now apply to_ok|]. cbn [fst snd] in *. subst j. eapply to_bind; [now apply result_sim|].
  intros a b A. apply (to_bind eq); [|intros d ? <-; apply IH]. unfold compute_tempF. rewrite (si_ts _ _ A), (si_t _ _ A). apply (to_bind eq); [apply to_same|].
  intros ts ? <-. now apply writeF_sim.
Qed.
Lemma entityF_sim q data x y : sim x y -> to eq (finalize_entityF fl md m nb q data x) (finalize_entityF fl md m nb q data y).
Proof.
  intros X. unfold finalize_entityF. eapply to_bind; [now apply result_sim|]. intros a b A. unfold compute_entityF. rewrite (si_ts _ _ A), (si_t _ _ A).
  apply (to_bind eq); [apply to_same|]. intros ts ? <-. apply (mapM_to eq); [clear; induction ts; constructor; auto|]. intros t ? <-.
  eapply to_bind; [now apply ctermF_sim|]. intros v ? <-. apply to_same.
Qed.
Lemma computeF_sim ies ies' inputs l q : length ies = length ies' ->
  (forall k f g o, nth_error ies k = Some f -> nth_error ies' k = Some g -> sim (f o) (g o)) ->
  computeF fl md m nb ies inputs l q = computeF fl md m nb ies' inputs l q.
Proof.
  intros L H. cut (to eq (computeF fl md m nb ies inputs l q) (computeF fl md m nb ies' inputs l q)).
  { destruct (computeF fl md m nb ies inputs l q); cbn [to]; [|congruence]. intros (? & E' & <-). congruence. }
  unfold computeF. eapply to_bind; [now apply rpn_inputs_sim|].
  intros ins ins' I. eapply to_bind; [apply run_sim; constructor; cbn; auto; constructor|]. intros s t [A B C D]. rewrite <- D.
  apply (to_bind eq); [apply to_same|]. intros data ? <-. eapply to_bind; [apply tempsF_sim; exact B|]. intros data' ? <-.
  destruct C as [|x y us vs X C]; [now apply to_ok|]. apply (mapM_to sim); [apply sims_rev; now constructor|]. intros. now apply entityF_sim.
Qed.
Lemma mapM_sims {A B C D} (R : A -> B -> Prop) (S : C -> D -> Prop) (f : A -> res C) (g : B -> res D) l k : Forall2 R l k -> (forall a b, R a b -> to S (f a) (g b)) -> to (Forall2 S) (mapM f l) (mapM g k).
Proof.
  intros F G. induction F as [|a b l k X F IH]; cbn [mapM]; [now apply to_ok|]. eapply to_bind; [now apply G|]. intros c d CD. eapply to_bind; [exact IH|]. intros cs ds CDS. apply to_ok. now constructor.
Qed.
Lemma compiled_sim ies ies' cnt l : length ies = length ies' ->
  (forall k f g o, nth_error ies k = Some f -> nth_error ies' k = Some g -> sim (f o) (g o)) ->
  to (fun a b => Forall2 sim (fst a) (fst b) /\ Forall2 (fun p q : mv * N => sim (fst p) (fst q) /\ snd p = snd q) (snd a) (snd b)) (compiled md m nb ies cnt l) (compiled md m nb ies' cnt l).
Proof.
  intros L H. unfold compiled. eapply to_bind; [now apply rpn_inputs_sim|].
  intros ins ins' I. eapply to_bind; [apply run_sim; constructor; cbn; auto; constructor|]. intros s t [A B C D].
  eapply (to_bind (Forall2 (fun p q : mv * N => sim (fst p) (fst q) /\ snd p = snd q))).
  { eapply mapM_sims; [exact B|]. intros [x i] [y j] [X E]. cbn [fst snd] in *. eapply to_bind; [now apply result_sim|]. intros a b AB. apply to_ok. auto. }
  intros ts ts' TS. eapply to_bind; [eapply mapM_sims; [apply sims_rev; exact C|]; intros; now apply result_sim|]. intros ys ys' YS. apply to_ok. auto.
Qed.
End Sim.

(** ** programs over the algebraic operators *)
Section Rounded.
Variable u : R.
Hypothesis u0 : (0 <= u)%R.
Hypothesis u1 : (u < 1)%R.
Variable fl : R -> res R.
Hypothesis FL : rounds u fl.

Lemma results_rounded m nb q data args vs outs : (nb = true -> 2 <= dim m) -> length data <= N.to_nat ind_constant_start -> num q <> 0%Z -> (0 < den q)%Z ->
  Forall2 (mv_means (valuation data) (dim m)) args vs -> mapM (finalize_entityF fl Exact m nb q data) args = Ok outs ->
  exists ys txs, mapM (result_mv Exact m nb) args = Ok ys /\ Forall2 packed ys txs /\ Forall (proper (dim m)) txs /\
    Forall2 (fun tx v => forall b, val (valuation data) tx b = output m nb v b) txs vs /\
    Forall2 (fun e tx => Forall (fun t : sterm => few_roundings u q (snd t)) tx -> entity_computed u (valuation data) q e tx) outs txs.
Proof.
  intros Hn L Q0 Q1 F. revert outs. induction F as [|x v args vs Fx F IH]; intros outs H; cbn [mapM] in H.
  - injection H as <-. exists [], []. repeat split; constructor.
  - minv H. rename v0 into e. minv H. rename v0 into es. injection H as <-. destruct (IH es E0) as (ys & txs & I1 & I2 & I3 & I4 & I5).
    unfold finalize_entityF in E. minv E. rename v0 into y.
    assert (M : mv_means (valuation data) (dim m) y (output m nb v)).
    { unfold result_mv in E1. unfold output. destruct nb.
      - rewrite <- (dim_N m) in E1 |- *. exact (null_means _ _ _ _ _ (Hn eq_refl) Fx E1).
      - injection E1 as <-. exact Fx. }
    destruct M as (tx & P & MO & PR & DF & VV). exists (y :: ys), (tx :: txs). cbn [mapM]. rewrite E1. cbn [bind]. rewrite I1. cbn [bind].
    split; [reflexivity|]. repeat (split; [constructor; assumption|]). constructor; [|assumption].
    intros FR. exact (entity_rel u u0 u1 fl FL y q data tx e L MO P (proper_keep _ _ PR) Q0 Q1 FR E).
Qed.
Lemma concat_len (inputs : list (list R)) : length (concat inputs) = list_sum (map (@length R) inputs).
Proof. induction inputs as [|d ds IH]; cbn; [reflexivity|]. rewrite app_length. unfold list_sum in *. now rewrite IH. Qed.
Theorem engine_rounded0 m nb ies inputs env l q outs t s : (nb = true -> 2 <= dim m) -> inputs_rep m nb ies inputs env -> bound inputs l ->
  num q <> 0%Z -> (0 < den q)%Z -> forallb (algebraic_node (dim m)) l = true -> list_sum (map (@length R) inputs) <= N.to_nat ind_constant_start ->
  run m env l ([], []) (t, s) -> s <> [] -> computeF fl Exact m nb ies inputs l q = Ok outs ->
  exists ys txs, compiled Exact m nb ies (list_sum (map (@length R) inputs)) l = Ok (ys, []) /\ Forall2 packed ys txs /\ Forall (proper (dim m)) txs /\
    Forall2 (fun tx v => forall b, val (valuation (concat inputs)) tx b = output m nb v b) txs (rev s) /\
    Forall2 (fun e tx => Forall (fun t : sterm => few_roundings u q (snd t)) tx -> entity_computed u (valuation (concat inputs)) q e tx) outs txs.
Proof.
  intros Hn IA BD Q0 Q1 AL LC RUN NE H. unfold computeF in H. set (cnt := list_sum (map (@length R) inputs)) in *.
  assert (NN : forall n, In n l -> no n <> op_noop) by (intros n; now apply algebraic_no_store with (1 := AL)).
  minv H. rename v into ins. minv H. rename v into st. pose proof E0 as E0'. unfold rpn_eval in E0.
  pose proof (algebraic_fits m nb l _ _ _ AL (Nat.lt_succ_diag_r _) E0) as FI.
  pose proof (run_cnt m nb _ _ _ _ _ NN E0) as [RC RT]. cbn [r_cnt r_temps] in RC, RT. rewrite RC, RT in H. cbn [finalize_tempsF] in H.
  rewrite N.sub_diag, Nat.add_0_r in H. pose proof (fill_ok inputs [] [] (repeat 0%R cnt) (repeat_length _ _)) as FO. cbn [app length] in FO. rewrite !app_nil_r in FO. rewrite FO in H. cbn [bind] in H.
  assert (LD : length (concat inputs) <= N.to_nat ind_constant_start) by (rewrite concat_len; exact LC).
  assert (IM : inputs_mean (valuation (concat inputs)) m nb env l ins).
  { eapply inputs_meant; eauto. }
  destruct (fits_sound m nb env (valuation (concat inputs)) (valuation_pi _) (valuation_e _) Hn l _ FI _ st [] [] t s [] ins (Nat.lt_succ_diag_r _) E0 RUN) as (_ & ST & _).
  - constructor.
  - constructor.
  - rewrite RT. constructor.
  - now rewrite app_nil_r.
  - exact IM.
  - pose proof (Forall2_len _ _ _ ST) as LS.
    assert (MM : mapM (finalize_entityF fl Exact m nb q (concat inputs)) (rev (r_args st)) = Ok outs) by (destruct (r_args st); [destruct s; [contradiction|discriminate]|exact H]).
    destruct (results_rounded m nb q (concat inputs) (rev (r_args st)) (rev s) outs Hn LD Q0 Q1 (Forall2_rev' _ _ _ ST) MM) as (ys & txs & A1 & A2).
    exists ys, txs. split; [|exact A2]. unfold compiled. rewrite E. cbn [bind]. rewrite E0'. cbn [bind]. rewrite RT. cbn [mapM bind]. now rewrite A1.
Qed.
Theorem engine_rounded m nb ies inputs env l q outs t s : (nb = true -> 2 <= dim m) -> inputs_are m nb ies inputs env -> bound inputs l ->
  num q <> 0%Z -> (0 < den q)%Z -> forallb (algebraic_node (dim m)) l = true -> list_sum (map (@length R) inputs) <= N.to_nat ind_constant_start ->
  run m env l ([], []) (t, s) -> s <> [] -> computeF fl Exact m nb ies inputs l q = Ok outs ->
  exists ys txs, compiled Exact m nb ies (list_sum (map (@length R) inputs)) l = Ok (ys, []) /\ Forall2 shows ys txs /\ Forall (proper (dim m)) txs /\
    Forall2 (fun tx v => forall b, val (valuation (concat inputs)) tx b = output m nb v b) txs (rev s) /\
    Forall2 (fun e tx => Forall (fun t : sterm => few_roundings u q (snd t)) tx -> entity_computed u (valuation (concat inputs)) q e tx) outs txs.
Proof.
  intros Hn IA BD Q0 Q1 AL LC RUN NE H. destruct (inputs_choose _ _ _ _ _ IA) as (ies' & L & SI & IR).
  rewrite (computeF_sim fl Exact m nb ies ies' inputs l q L SI) in H.
  destruct (engine_rounded0 m nb ies' inputs env l q outs t s Hn IR BD Q0 Q1 AL LC RUN NE H) as (ys' & txs & A & B & C).
  pose proof (compiled_sim Exact m nb ies ies' (list_sum (map (@length R) inputs)) l L SI) as CS. rewrite A in CS.
  destruct (compiled Exact m nb ies _ l) as [[ys ts]|e]; cbn [to] in CS; [|discriminate]. destruct CS as ([a b] & E & S1 & S2). injection E as <- <-. cbn [fst snd] in *.
  inversion S2. subst. exists ys, txs. split; [reflexivity|]. split; [|exact C].
  clear -S1 B. revert txs B. induction S1 as [|x y xs ys S S1 IH]; intros txs B; inversion_clear B; constructor; [|auto]. eexists; eauto.
Qed.
End Rounded.
