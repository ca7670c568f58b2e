(** The symbolic and the numeric evaluation access no array out of bounds and never lack an operand. *)
From Coq Require Import ZArith NArith List Bool Arith Lia ZifyBool ZifyN ZifyNat Reals.
From Verif Require Import Base Model_Numeric Model_Blade Model_MV Model_Product Model_Expr Model_Dfa Model_Engine Model_Compute.
From Verif Require Import Spec_Numeric Spec_Clifford Spec_MV Spec_Basis Spec_Expr Spec_Build Spec_Dfa Spec_Engine Spec_Reshape Spec_Compute.
From Verif Require Import Proof_Numeric Proof_Safe Proof_Layout Proof_Sum Proof_Val Proof_Collate Proof_Product Proof_CollateVal Proof_ProductVal Proof_Ops Proof_Ops2 Proof_Basis Proof_Ops3 Proof_Div Proof_Proper Proof_MVAlg Proof_MVFlat Proof_Dfa Proof_Dfa2 Proof_Ids
  Proof_Engine Proof_Sim Proof_Engine3 Proof_Tight Proof_Shared.
From Verif Require Import Proof_Expr5.
Import ListNotations.
Local Open Scope nat_scope.

(** ** multivectors whose terms are not empty, with indeterminates in [P] *)
Definition full_terms (tx : list sterm) : Prop := Forall (fun t : sterm => snd t <> []) tx.
Definition wkt (P : N -> Prop) (tx : list sterm) : Prop := tdegs_ok tx /\ full_terms tx /\ idsl P (all_mons tx).
Definition wk (P : N -> Prop) (x : mv) : Prop := exists tx, packed x tx /\ wkt P tx.
Lemma wk_imp (P Q : N -> Prop) x : (forall i, P i -> Q i) -> wk P x -> wk Q x.
Proof. intros H (tx & A & B & C & D). exists tx. split; [exact A|]. split; [exact B|]. split; [exact C|]. eapply idsl_imp; eauto. Qed.
Lemma syn_wk n P x : syn n P x -> wk P x.
Proof. intros (tx & A & B & C). exists tx. split; [exact A|]. destruct (proper_keep _ _ B) as (K1 & _ & K2). split; [now apply mv_ok_tdegs|]. auto. Qed.
Lemma wkt_keys P a b : keys_in (all_mons a) (all_mons b) -> full_terms a -> wkt P b -> wkt P a.
Proof. intros K F (A & _ & C). split; [eapply keys_in_tdegs; eauto|]. split; [exact F|]. eapply idsl_keys; eauto. Qed.
Lemma canonical_full t : canonical t -> full_terms t.
Proof. intros [_ C]. eapply Forall_impl; [|exact C]. intros a H. apply H. Qed.
Lemma ss_full md ls rs : forall t, full_terms ls -> full_terms rs -> ss_terms md ls rs = Ok t -> full_terms t.
Proof.
  revert ls rs. apply (merge_ind (fun ls rs => forall t, full_terms ls -> full_terms rs -> ss_terms md ls rs = Ok t -> full_terms t)).
  - intros rs t A B H. rewrite ss_terms_nil_l in H. now injection H as <-.
  - intros ls t A B H. rewrite ss_terms_nil_r in H. now injection H as <-.
  - intros l ls r rs I1 I2 I3 t A B H. rewrite ss_terms_cons in H. inversion A as [|? ? A1 A2]; subst. inversion B as [|? ? B1 B2]; subst.
    destruct (_ =? _)%N.
    + minv H. rename v into a. minv H. rename v into b. injection H as <-. specialize (I3 b A2 B2 E0). destruct a; [exact I3|]. constructor; [discriminate|exact I3].
    + destruct (_ <? _)%N; minv H; injection H as <-; (constructor; [assumption|]); [exact (I1 v A2 B E)|exact (I2 v A B2 E)].
Qed.
Lemma push_full md s e t t' : snd t <> [] -> s_push md s e t = Ok t' -> snd t' <> [].
Proof. intros N0 H. apply s_push_shape in H as (_ & L & _). intros E. rewrite E in L. destruct (snd t); [contradiction|discriminate]. Qed.
Lemma dist_full md d ts : forall r, full_terms ts -> s_dist md d ts = Ok r -> full_terms (fst r) /\ full_terms (snd r).
Proof.
  induction ts as [|t ts IH]; intros r F H; cbn [s_dist] in H; [injection H as <-; split; constructor|]. inversion_clear F as [|? ? F1 F2]. destruct (d (fst t)).
  - minv H. rename v into a. minv H. injection H as <-. apply IH in E0 as [A B]; [|exact F2]. cbn [fst snd]. split; [constructor; [eapply push_full; eauto|exact A]|exact B].
  - minv H. rename v into a. minv H. rename v into b. minv H. injection H as <-. apply IH in E1 as [A B]; [|exact F2]. cbn [fst snd]. split; [exact A|].
    constructor; [eapply push_full; eauto|]. constructor; [eapply push_full; eauto|exact B].
Qed.
Lemma change_full md d ts t : tdegs_ok ts -> full_terms ts -> s_change md d ts = Ok t -> full_terms t.
Proof.
  intros D F H. unfold s_change in H. minv H. minv H. destruct (dist_full _ _ _ _ F E) as [A B]. pose proof (s_dist_keys _ _ _ _ E) as [_ K].
  pose proof (sc_canon _ _ _ (keys_in_tdegs _ _ K D) E0) as (C & _). eapply ss_full; [exact A|apply canonical_full; exact C|exact H].
Qed.
Lemma find_wk md P e ts : forall t, wkt P ts -> s_find md e ts = Ok t -> wkt P t.
Proof.
  induction ts as [|a ts IH]; intros t W H; cbn [s_find] in H; [injection H as <-; repeat constructor|]. destruct W as (A & B & C).
  inversion A as [|? ? A1 A2]; subst. inversion B as [|? ? B1 B2]; subst. rewrite all_mons_cons in C. apply idsl_app in C as [C1 C2]. destruct (_ =? _)%N.
  - minv H. injection H as <-. apply (wkt_keys P _ [a]).
    + rewrite !all_mons_cons. cbn. rewrite !app_nil_r. eapply s_push_keys; eauto.
    + constructor; [eapply push_full; eauto|constructor].
    + split; [constructor; [exact A1|constructor]|]. split; [constructor; [exact B1|constructor]|]. rewrite all_mons_cons. cbn. now rewrite app_nil_r.
  - apply IH; [|exact H]. split; [exact A2|]. split; [exact B2|exact C2].
Qed.

Section Ops.
Context (md : mode) (m : metric) (P : N -> Prop).
Local Notation W := (wk P).
Lemma shrink_good x : W x -> good W (shrink x).
Proof.
  intros (tx & A & B). split.
  - destruct (resize_packed x tx (mkcaps (isz x) (msz x) (tsz x)) A) as (z & E & _); cbn [ci cm ct].
    + rewrite (pk_isz _ _ A). unfold tilen, ilen. lia.
    + rewrite (pk_msz _ _ A). unfold tmlen. lia.
    + rewrite (pk_tsz _ _ A). lia.
    + unfold shrink. rewrite E. apply safe_ok.
  - intros z H. exists tx. split; [exact (proj1 (shrink_packed _ _ _ A H))|exact B].
Qed.
Lemma sum_good x y : W x -> W y -> good W (sum md x y).
Proof.
  intros (tx & A & B1 & B2 & B3) (ty & A' & B1' & B2' & B3'). split; [eapply f_sum_safe; eauto|]. intros z H. destruct (sum_flat _ _ _ _ _ _ A A' H) as (t & E & Z0). exists t.
  split; [exact Z0|]. pose proof (ss_terms_keys _ _ _ _ E) as K. split.
  - apply tdegs_all. eapply keys_in_degs; [exact K|]. apply Forall_app. split; now apply tdegs_all.
  - split; [eapply ss_full; [| |exact E]; assumption|]. eapply idsl_keys; [exact K|]. apply idsl_app. auto.
Qed.
Lemma product_good k x y : W x -> W y -> good W (product md k x y).
Proof.
  intros (tx & A & B1 & B2 & B3) (ty & A' & B1' & B2' & B3'). split; [eapply f_product_safe; eauto|]. intros z H. destruct (product_flat _ _ _ _ _ _ _ A A' H) as (t & E & Z0). exists t.
  split; [exact Z0|]. pose proof (s_product_canon k md tx ty t B1 B1' E) as (C1 & C2 & _). split; [exact C2|]. split; [now apply canonical_full|].
  unfold s_product in E. minv E. pose proof (s_pterms_degs k md tx ty _ B1 B1' E0) as [D0 _]. pose proof (sc_canon _ _ _ D0 E) as (_ & _ & _ & K).
  eapply idsl_keys; [exact K|]. exact (pterms_ids md P _ _ _ _ B3 B3' E0).
Qed.
Lemma mapt_wk f ts t : wkt P ts -> s_mapt f ts = Ok t -> wkt P t.
Proof. intros W H. apply (wkt_keys P t ts); [eapply s_mapt_keys; eauto| |exact W]. eapply mapt_nonempty; [|exact H]. apply W. Qed.
Lemma reverse_good x : W x -> good W (reverse x).
Proof.
  intros (tx & A & B). split; [apply (f_unary_safe x tx A Code zero)|]. intros z H. destruct (reverse_flat _ _ _ A H) as (t & E & Z0). exists t. split; [exact Z0|]. eapply mapt_wk; eauto.
Qed.
Lemma scale_good q x : W x -> good W (Model_MV.scale md q x).
Proof.
  intros (tx & A & B). split; [apply (f_unary_safe x tx A md q)|]. intros z H. destruct (scale_flat _ _ _ _ _ A H) as (t & E & Z0). exists t. split; [exact Z0|]. eapply mapt_wk; eauto.
Qed.
Lemma fn_good o q x : W x -> good W (Model_MV.fn md o q x).
Proof. intros (tx & A & B). apply scale_good. exists tx. split; [now apply with_op_packed|exact B]. Qed.
Lemma dual_good d x : W x -> good W (poincare_dual md d x).
Proof.
  intros (tx & A & B). split; [eapply f_dual_safe; eauto|]. intros z H. destruct (dual_flat _ _ _ _ _ A H) as (t & E & Z0). exists t. split; [exact Z0|].
  pose proof (s_dual_canon md d tx t (proj1 B) E) as (C1 & C2 & K & _). apply (wkt_keys P t tx); auto. now apply canonical_full.
Qed.
Lemma change_good d x : W x -> good W (change_basis md d x).
Proof.
  intros (tx & A & B). split; [eapply f_change_safe; eauto|]. intros z H. destruct (change_flat _ _ _ _ _ A H) as (t & E & Z0). exists t. split; [exact Z0|].
  apply (wkt_keys P t tx); auto; [eapply s_change_keys; [apply B|exact E]|]. eapply change_full; [apply B|apply B|exact E].
Qed.
Lemma component_good x e : W x -> good W (component md x e).
Proof.
  intros (tx & A & B). split; [apply (f_select_safe x tx A md e [] 0%N)|]. intros z H. rewrite (component_eq md x tx e A) in H. minv H. injection H as <-.
  eexists. split; [apply pack_packed|]. eapply find_wk; eauto.
Qed.
Lemma grade_good x g : W x -> good W (select_grade x g).
Proof.
  intros (tx & A & B1 & B2 & B3). rewrite (select_grade_eq x tx g A). apply good_ok. exists (s_grade g tx). split; [apply pack_packed|].
  assert (K : forall t, In t (s_grade g tx) -> In t tx) by (intros t; apply s_grade_in). split; [|split].
  - unfold tdegs_ok in *. rewrite Forall_forall in *. auto.
  - unfold full_terms in *. rewrite Forall_forall in *. auto.
  - unfold idsl in *. rewrite Forall_forall in *. intros s Hs. apply B3. unfold all_mons in *. apply in_flat_map in Hs as (t & It & Is). apply in_flat_map. eauto.
Qed.
Lemma fold_sum_good xs : xs <> [] -> Forall W xs -> good W (fold_sum md xs).
Proof.
  induction xs as [|x xs IH]; intros N0 F; [contradiction|]. inversion_clear F as [|? ? Fx Fs]. destruct xs as [|x' xs]; [now apply good_ok|].
  change (fold_sum md (x :: x' :: xs)) with (y <- fold_sum md (x' :: xs);; sum md x y). apply (good_bind W); [apply IH; [discriminate|exact Fs]|]. intros y _ Wy. now apply sum_good.
Qed.
Lemma fold_ep_good xs : xs <> [] -> Forall W xs -> good W (fold_ep md m xs).
Proof.
  induction xs as [|x xs IH]; intros N0 F; [contradiction|]. inversion_clear F as [|? ? Fx Fs]. destruct xs as [|x' xs]; [now apply good_ok|].
  change (fold_ep md m (x :: x' :: xs)) with (y <- fold_ep md m (x' :: xs);; product md (blade_product m Exterior) x y). apply (good_bind W); [apply IH; [discriminate|exact Fs]|]. intros y _ Wy. now apply product_good.
Qed.
Lemma zero_wk : W zero_mv. Proof. apply (syn_wk 0). apply zero_syn. Qed.
Lemma blade_wk g : W (blade_mv g).
Proof.
  exists [(g, [mks one zero []])]. split; [constructor; try (exists []; reflexivity); reflexivity|].
  split; [repeat constructor; cbn; auto; try lia; try discriminate|]. split; repeat constructor. discriminate.
Qed.
Lemma float_wk i : P i -> W (float_ie i).
Proof. intros H. apply (syn_wk 0). now apply float_syn. Qed.
Lemma ref_wk (Q : N -> Prop) x i : length (terms x) = tsz x -> wk Q x -> (forall k, k < tsz x -> P (i + N.of_nat k)%N) -> W (create_ref x i).
Proof.
  intros L (tx & A & B) H. rewrite (pk_tsz _ _ A) in L, H. exists (refs i tx). split; [exact (proj1 (create_ref_packed x tx i A L))|]. split; [|split].
  - apply tdegs_all. rewrite refs_mons. apply Forall_forall. intros s Hs. apply in_map_iff in Hs as (k & <- & _). repeat constructor.
  - clear. revert i. induction tx as [|t tx IH]; intros i; cbn [refs]; constructor; [discriminate|apply IH].
  - unfold idsl. rewrite refs_mons. apply Forall_forall. intros s Hs. apply in_map_iff in Hs as (k & <- & Hk). apply in_seq in Hk. constructor; [|constructor]. cbn. apply H. lia.
Qed.
Lemma one_good (f : res mv) s n : good W f -> Forall W s -> length s = n -> good (fun l => Forall W l /\ length l = S n) (y <- f;; Ok (y :: s)).
Proof. intros G F L. apply (good_bind W); [exact G|]. intros y _ Wy. apply good_ok. split; [now constructor|]. cbn. now f_equal. Qed.
Lemma shrunk_good (f : res mv) s n : good W f -> Forall W s -> length s = n -> good (fun l => Forall W l /\ length l = S n) (y <- f;; z <- shrink y;; Ok (z :: s)).
Proof. intros G F L. apply (good_bind W); [exact G|]. intros y _ Wy. apply one_good; auto. now apply shrink_good. Qed.
End Ops.
Ltac gcodes := repeat match goal with
  | |- context [N.eqb ?a ?b] => let c := eval vm_compute in (N.eqb a b) in match c with true => idtac | false => idtac end; change (N.eqb a b) with c; cbv iota
  | |- context [N.ltb ?a ?b] => let c := eval vm_compute in (N.ltb a b) in match c with true => idtac | false => idtac end; change (N.ltb a b) with c; cbv iota
  end.
Ltac gcode C := unfold apply_op; rewrite C; gcodes.

Section Machine.
Context (md : mode) (m : metric) (nb : bool) (env : list V).
Lemma apply_good (P : N -> Prop) nd t s t' s' args : step m env nd (t, s) (t', s') -> no nd <> op_id -> no nd <> op_cse -> no nd <> op_noop -> no nd <> op_div ->
  (forall i, (ind_constant_start <= i < ind_constant_start + 2)%N -> P i) -> Forall (wk P) args -> length args = length s ->
  good (fun l => Forall (wk P) l /\ length l = length s') (apply_op md m nd args).
Proof.
  intros S N1 N2 N3 N4 PC A LA.
  inversion S as [nd0 t0 s0 v C NE|nd0 t0 s0 v C NE|nd0 t0 s0 v C|nd0 t0 s0 v C|nd0 t0 s0 v C|nd0 t0 s0 v w k C|nd0 t0 s0 l C L0 L1|nd0 t0 s0 l C L0 L1
    |nd0 t0 s0 v C|nd0 t0 s0 v C|nd0 t0 s0 v w C|nd0 t0 s0 v f C|nd0 t0 s0 C|nd0 t0 s0 C|nd0 t0 s0 C|nd0 t0 s0 C]; subst; try contradiction; cbn [length] in LA |- *.
  - gcode C. destruct args as [|x r]; [discriminate|]. inversion_clear A. cbn [top1 bind]. apply one_good; auto. now apply reverse_good.
  - gcode C. destruct args as [|x r]; [discriminate|]. inversion_clear A. cbn [top1 bind]. apply one_good; auto. now apply dual_good.
  - destruct args as [|y [|x r]]; try discriminate. inversion_clear A as [|? ? A1 A2]. inversion_clear A2 as [|? ? A3 A4]. cbn [length] in LA. unfold binop in C.
    destruct (N.eqb_spec (no nd) op_gp) as [C1|_]; [|destruct (N.eqb_spec (no nd) op_lc) as [C1|_]; [|destruct (N.eqb_spec (no nd) op_sip) as [C1|_]; [|discriminate]]];
    gcode C1; cbn [Model_Dfa.top2 bind]; apply shrunk_good; auto; first [now apply product_good|lia].
  - gcode C. assert (LL : length l <> 0) by (destruct l; [contradiction|discriminate]). rewrite app_length, rev_length in LA. unfold topn. replace (nex nd =? 0) with false by lia.
    replace (length args <? nex nd) with false by lia. cbn [orb bind]. rewrite <- (firstn_skipn (nex nd) args) in A. apply Forall_app in A as [A1 A2].
    apply shrunk_good; [|exact A2|rewrite skipn_length; lia]. apply fold_sum_good; [|exact A1]. intros E. apply (f_equal (@length mv)) in E. rewrite firstn_length in E. cbn in E. lia.
  - gcode C. assert (LL : length l <> 0) by (destruct l; [contradiction|discriminate]). rewrite app_length, rev_length in LA. unfold topn. replace (nex nd =? 0) with false by lia.
    replace (length args <? nex nd) with false by lia. cbn [orb bind]. rewrite <- (firstn_skipn (nex nd) args) in A. apply Forall_app in A as [A1 A2].
    apply shrunk_good; [|exact A2|rewrite skipn_length; lia]. apply fold_ep_good; [|now apply Forall_rev]. intros E. apply (f_equal (@length mv)) in E. rewrite rev_length, firstn_length in E. cbn in E. lia.
  - gcode C. destruct args as [|x r]; [discriminate|]. inversion_clear A. cbn [top1 bind]. apply shrunk_good; auto. now apply component_good.
  - gcode C. destruct args as [|x r]; [discriminate|]. inversion_clear A. cbn [top1 bind]. apply shrunk_good; auto. now apply grade_good.
  - destruct args as [|x r]; [discriminate|]. inversion_clear A. unfold Spec_Expr.fn in C.
    destruct (N.eqb_spec (no nd) op_sqrt) as [C1|_]; [|destruct (N.eqb_spec (no nd) op_sin) as [C1|_]; [|destruct (N.eqb_spec (no nd) op_cos) as [C1|_]; [|destruct (N.eqb_spec (no nd) op_tan) as [C1|_]; [|discriminate]]]];
    gcode C1; cbn [top1 bind]; apply one_good; auto; now apply fn_good.
  - gcode C. apply good_ok. split; [constructor; [apply zero_wk|exact A]|cbn; now rewrite LA].
  - gcode C. apply good_ok. split; [constructor; [|exact A]|cbn; now rewrite LA]. apply (float_wk P ind_constant_start). apply PC. lia.
  - gcode C. apply good_ok. split; [constructor; [|exact A]|cbn; now rewrite LA]. apply (float_wk P (ind_constant_start + 1)). apply PC. lia.
  - assert (NO : forall o, (o < c_scalar)%N -> (no nd =? o)%N = false) by (intros; lia).
    unfold apply_op. rewrite !NO by reflexivity. replace (no nd <? c_const_end)%N with false by (unfold c_const_end, c_scalar in *; lia).
    apply good_ok. split; [constructor; [apply blade_wk|exact A]|cbn; now rewrite LA].
Qed.

(** ** states *)
Fixpoint chainw (c : N) (ts : list (mv * N)) (c' : N) : Prop :=
  match ts with
  | [] => c = c'
  | p :: ts' => snd p = c /\ length (terms (fst p)) = tsz (fst p) /\ wk (below c) (fst p) /\ chainw (c + N.of_nat (tsz (fst p))) ts' c'
  end.
Lemma chainw_le ts : forall c c', chainw c ts c' -> (c <= c')%N.
Proof. induction ts as [|p ts IH]; cbn; intros c c' H; [lia|]. destruct H as (_ & _ & _ & H). apply IH in H. lia. Qed.
Lemma chainw_snoc ts x : forall c c', chainw c ts c' -> length (terms x) = tsz x -> wk (below c') x -> chainw c (ts ++ [(x, c')]) (c' + N.of_nat (tsz x)).
Proof.
  induction ts as [|p ts IH]; intros c c' H L S0; cbn [app chainw] in *.
  - subst c'. cbn. auto.
  - destruct H as (A & B & C & D). repeat (split; [assumption|]). apply IH; auto.
Qed.
Lemma chainw_nth ts : forall c c' k x i, chainw c ts c' -> nth_error ts k = Some (x, i) ->
  length (terms x) = tsz x /\ wk (below c') x /\ (i + N.of_nat (tsz x) <= c')%N.
Proof.
  induction ts as [|p ts IH]; intros c c' k x i H E; [destruct k; discriminate|]. cbn [chainw] in H. destruct H as (A & B & C & D).
  destruct k as [|k]; cbn in E; [|eapply IH; eauto]. injection E as ->. cbn [fst snd] in *. subst i. pose proof (chainw_le _ _ _ D).
  split; [exact B|]. split; [|lia]. eapply wk_imp; [|exact C]. intros i. apply below_imp. lia.
Qed.
Definition wst (c0 : N) (st : rstate) : Prop :=
  chainw c0 (r_temps st) (r_cnt st) /\ Forall (wk (below (r_cnt st))) (r_args st) /\ Forall (wk (below c0)) (r_in st).
(** the sizes of the stacks are those of the stack machine *)
Definition sized (st : rstate) (ts : list V * list V) : Prop := length (r_temps st) = length (fst ts) /\ length (r_args st) = length (snd ts).
Definition ids (l : list node) : nat := length (filter is_id l).

Lemma step_good c0 nd st t s t' s' : wst c0 st -> sized st (t, s) -> step m env nd (t, s) (t', s') -> no nd <> op_div ->
  (no nd = op_noop -> forall x r, r_args st = x :: r -> length (terms x) = tsz x) -> ids [nd] <= length (r_in st) ->
  good (fun st' => wst c0 st' /\ sized st' (t', s') /\ length (r_in st') + ids [nd] = length (r_in st)) (rpn_step md m nb nd st).
Proof.
  intros (F1 & F2 & F3) [Z1 Z2] S ND FULL LI. cbn [fst snd] in Z1, Z2. pose proof (chainw_le _ _ _ F1) as LE. unfold rpn_step, ids in *. cbn [filter] in *. unfold is_id in *.
  destruct (N.eqb_spec (no nd) op_id) as [C|C].
  { cbn [length] in LI. destruct (r_in st) as [|x rest] eqn:EI; [cbn in LI; lia|]. inversion_clear F3 as [|? ? G1 G2]. cbn [top1 bind].
    assert (G3 : wk (below (r_cnt st)) x) by (eapply wk_imp; [|exact G1]; intros i; apply below_imp; exact LE).
    assert (EQ : t' = t /\ length s' = Datatypes.S (length s)).
    { inversion S as [a1 a2 a3 v C' NE|a1 a2 a3 v C' NE|a1 a2 a3 v C'|a1 a2 a3 v C'|a1 a2 a3 v C'|a1 a2 a3 v w k C'|a1 a2 a3 l C' L0 L1|a1 a2 a3 l C' L0 L1
        |a1 a2 a3 v C'|a1 a2 a3 v C'|a1 a2 a3 v w C' SC W0|a1 a2 a3 v f C'|a1 a2 a3 C'|a1 a2 a3 C'|a1 a2 a3 C'|a1 a2 a3 C']; subst; try (rewrite C in C'; discriminate C');
        try (unfold Spec_Expr.fn, binop in C'; rewrite C in C'; discriminate C'); try (rewrite C in C'; unfold c_scalar, op_id in C'; lia). auto. }
    destruct EQ as [-> EQ]. apply (good_bind (wk (below (r_cnt st)))).
    - destruct nb; [now apply change_good|now apply good_ok].
    - intros y _ Wy. apply good_ok. split; [split; [exact F1|split; [now constructor|exact G2]]|]. split; [split; cbn; lia|]. cbn. lia. }
  destruct (N.eqb_spec (no nd) op_cse) as [C1|C1].
  { inversion S as [a1 a2 a3 v C' NE|a1 a2 a3 v C' NE|a1 a2 a3 v C'|a1 a2 a3 v C'|a1 a2 a3 v C'|a1 a2 a3 v w k C'|a1 a2 a3 l C' L0 L1|a1 a2 a3 l C' L0 L1
        |a1 a2 a3 v C'|a1 a2 a3 v C'|a1 a2 a3 v w C' SC W0|a1 a2 a3 v f C'|a1 a2 a3 C'|a1 a2 a3 C'|a1 a2 a3 C'|a1 a2 a3 C']; subst; try (rewrite C1 in C'; discriminate C');
        try (unfold Spec_Expr.fn, binop in C'; rewrite C1 in C'; discriminate C'); try (rewrite C1 in C'; unfold c_scalar, op_cse in C'; lia).
    assert (LT : nex nd < length (r_temps st)) by (rewrite Z1; apply nth_error_Some; congruence).
    destruct (nth_error (r_temps st) (nex nd)) as [[x i]|] eqn:EN; [|apply nth_error_None in EN; lia].
    apply good_ok. destruct (chainw_nth _ _ _ _ _ _ F1 EN) as (A1 & A2 & A3). split; [split; [exact F1|split; [|exact F3]]|].
    - constructor; [|exact F2]. eapply ref_wk; [exact A1|exact A2|]. intros k K. left. cbn [r_cnt]. lia.
    - split; [split; cbn; lia|]. cbn. lia. }
  destruct (N.eqb_spec (no nd) op_noop) as [C2|C2].
  { inversion S as [a1 a2 a3 v C' NE|a1 a2 a3 v C' NE|a1 a2 a3 v C'|a1 a2 a3 v C'|a1 a2 a3 v C'|a1 a2 a3 v w k C'|a1 a2 a3 l C' L0 L1|a1 a2 a3 l C' L0 L1
        |a1 a2 a3 v C'|a1 a2 a3 v C'|a1 a2 a3 v w C' SC W0|a1 a2 a3 v f C'|a1 a2 a3 C'|a1 a2 a3 C'|a1 a2 a3 C'|a1 a2 a3 C']; subst; try (rewrite C2 in C'; discriminate C');
        try (unfold Spec_Expr.fn, binop in C'; rewrite C2 in C'; discriminate C'); try (rewrite C2 in C'; unfold c_scalar, op_noop in C'; lia).
    destruct (r_args st) as [|x r] eqn:EA; [discriminate|]. cbn [top1 bind]. inversion_clear F2 as [|? ? G1 G2]. pose proof (FULL C2 x r eq_refl) as FX. apply good_ok. split; [split; [|split; [|exact F3]]|].
    - cbn [r_temps r_cnt]. now apply chainw_snoc.
    - cbn [r_args r_cnt]. eapply Forall_impl; [|exact G2]. intros y. apply wk_imp. intros i. apply below_imp. lia.
    - split; [split; cbn [r_temps r_args fst snd]; [rewrite !app_length; cbn; lia|cbn in Z2; lia]|]. cbn. lia. }
  assert (TT : t' = t).
  { inversion S; subst; try reflexivity; try contradiction. }
  subst t'. apply (good_bind (fun l => Forall (wk (below (r_cnt st))) l /\ length l = length s')).
  - eapply apply_good; eauto. intros i Hi. now right.
  - intros l _ [L1 L2]. apply good_ok. split; [split; [exact F1|split; [exact L1|exact F3]]|]. split; [split; cbn; [exact Z1|exact L2]|]. cbn. lia.
Qed.
Lemma close_good c0 nd st sub t t1 s v w : wst c0 st -> wst c0 sub -> sized st (t, s) -> sized sub (t1, [v]) -> r_cnt sub = r_cnt st -> r_temps sub = r_temps st ->
  good (fun st' => wst c0 st' /\ sized st' (t1, w :: s) /\ r_in st' = r_in sub) (rpn_close md nd st sub).
Proof.
  intros (F1 & F2 & F3) (G1 & G2 & G3) [Z1 Z2] [Y1 Y2] E1 E2. cbn [fst snd length] in *. unfold rpn_close. destruct (r_args sub) as [|x r]; [discriminate|]. cbn [top1 bind].
  inversion_clear G2 as [|? ? G4 _]. rewrite E1 in G4. apply (good_bind (wk (below (r_cnt st)))); [destruct (_ =? _)%Z; [now apply good_ok|now apply scale_good]|].
  intros y _ Wy. apply good_ok. split; [split; [cbn [r_temps r_cnt]; rewrite E2; exact F1|split; [now constructor|exact G3]]|]. split; [split; cbn; [exact Y1|lia]|reflexivity].
Qed.

(** ** programs *)
Section Run.
Context (c0 : N) (J : rstate -> Prop) (okn : node -> Prop).
Hypothesis J_step : forall nd st st', okn nd -> no nd <> op_se -> J st -> rpn_step md m nb nd st = Ok st' -> J st'.
Hypothesis J_open : forall st, J st -> J (rpn_open st).
Hypothesis J_close : forall nd st sub st', okn nd -> no nd = op_se -> J st -> J sub -> rpn_close md nd st sub = Ok st' -> J st'.
Hypothesis J_full : forall nd st x r, okn nd -> no nd = op_noop -> J st -> r_args st = x :: r -> length (terms x) = tsz x.
Theorem run_good l a b : run m env l a b -> forall f st, Forall okn l -> (forall nd, In nd l -> no nd <> op_div) -> stores_on_top l -> wst c0 st -> J st -> sized st a ->
  ids l <= length (r_in st) -> length l < f ->
  good (fun st' => wst c0 st' /\ J st' /\ sized st' b /\ length (r_in st') + ids l = length (r_in st)) (rpn_run md m nb f l st).
Proof.
  induction 1 as [a|nd l a b c NS S R IH|nd b l t t1 s v c NS NX RB IHB RL IHL]; intros f st OK ND TOP WS HJ SZ LI LF; (destruct f as [|f]; [cbn in LF; lia|]); cbn [rpn_run].
  - apply good_ok. unfold ids. cbn. repeat (split; [assumption|]). lia.
  - replace (no nd =? op_se)%N with false by lia. destruct a as [t s], b as [t1 s1]. inversion OK as [|? ? OK1 OK2]; subst. cbn [length] in LF.
    assert (SP : ids (nd :: l) = ids [nd] + ids l) by (unfold ids; cbn [filter]; destruct (is_id nd); reflexivity). rewrite SP in *.
    pose proof (step_good c0 nd st t s t1 s1 WS SZ S (ND nd (or_introl eq_refl)) (fun C x r => J_full nd st x r OK1 C HJ) ltac:(lia)) as G.
    eapply good_bind; [exact G|]. intros st1 E (W1 & Z1 & L1). eapply good_imp; [apply (IH f st1)|]; auto.
    + intros k K. apply ND. now right.
    + intros x k Ix. apply TOP. cbn [bodies]. destruct (_ =? _)%N; [right|]; exact Ix.
    + eapply J_step; eauto.
    + lia.
    + lia.
    + intros st' (A1 & A2 & A3 & A4). repeat (split; [assumption|]). lia.
  - rewrite NS, N.eqb_refl. cbn [length] in LF. rewrite app_length in LF. rewrite NX, app_length. replace (length b + length l <? length b) with false by lia.
    rewrite firstn_app, Nat.sub_diag, firstn_all, firstn_O, app_nil_r, skipn_app, Nat.sub_diag, skipn_all, skipn_O. cbn [app].
    assert (NB : forall k, In k b -> no k <> op_noop).
    { intros k K. apply (TOP b k); [|exact K]. cbn [bodies]. rewrite NS, N.eqb_refl, NX. left. now rewrite firstn_app, Nat.sub_diag, firstn_all, firstn_O, app_nil_r. }
    inversion OK as [|? ? OK1 OK2]; subst. apply Forall_app in OK2 as [OK2 OK3].
    assert (SP : ids (nd :: b ++ l) = ids b + ids l) by (unfold ids, is_id; cbn [filter]; rewrite NS; gcodes; rewrite filter_app, app_length; reflexivity). rewrite SP in *.
    assert (G : good (fun sub => wst c0 sub /\ J sub /\ sized sub (t1, [v]) /\ length (r_in sub) + ids b = length (r_in st)) (rpn_run md m nb f b (rpn_open st))).
    { apply (IHB f (rpn_open st)); auto.
      - intros k K. apply ND. right. apply in_or_app. now left.
      - intros c1 k Ic Ik. apply NB. clear - Ic Ik. revert Ic. induction b as [|x b IH]; cbn [bodies]; [intros []|]. destruct (_ =? _)%N.
        + intros [<-|Ic]; right; [|auto]. rewrite <- (firstn_skipn (nex x) b). apply in_or_app. now left.
        + intros Ic. right. auto.
      - destruct WS as (F1 & F2 & F3). split; [exact F1|]. split; [constructor|exact F3].
      - destruct SZ as [Z1 Z2]. split; [exact Z1|reflexivity].
      - cbn. lia.
      - lia. }
    eapply good_bind; [exact G|]. intros sub ES (W1 & J1 & Z1 & L1). destruct (run_cnt m nb md f b _ _ NB ES) as [C1 C2]. cbn [rpn_open r_cnt r_temps] in C1, C2.
    eapply good_bind; [exact (close_good c0 nd st sub t t1 s v (se_scale (nq nd) v) WS W1 SZ Z1 C1 C2)|]. intros st1 EC (W2 & Z2 & L2).
    eapply good_imp; [apply (IHL f st1)|]; auto.
    + intros k K. apply ND. right. apply in_or_app. now right.
    + intros c1 k Ic. apply TOP. cbn [bodies]. rewrite NS, N.eqb_refl. right. now apply bodies_app.
    + eapply J_close; [exact OK1|exact NS|exact HJ|exact J1|exact EC].
    + rewrite L2. lia.
    + lia.
    + intros st' (A1 & A2 & A3 & A4). repeat (split; [assumption|]). rewrite L2 in A4. lia.
Qed.
End Run.

(** ** the numeric evaluation *)
Definition enough (c : N) (data : list R) : Prop := (c <= N.of_nat (length data))%N.
Lemma safe_mapM_in {A B} (f : A -> res B) l : (forall a, In a l -> memory_safe (f a)) -> memory_safe (mapM f l).
Proof.
  induction l as [|a l IH]; intros H; cbn [mapM]; [apply safe_ok|]. apply safe_bind; [apply H; now left|]. intros b _. apply safe_bind; [apply IH; intros; apply H; now right|]. intros; apply safe_ok.
Qed.
Lemma get_safe {A} (l : list A) i : i < length l -> memory_safe (get l i).
Proof. intros L. unfold get. destruct (nth_error l i) eqn:E; [apply safe_ok|]. apply nth_error_None in E. lia. Qed.
Lemma data_safe c data i : enough c data -> (c <= ind_constant_start)%N -> below c i -> memory_safe (data_value data i).
Proof.
  intros EN LC [B|B]; unfold data_value, enough in *.
  - replace (ind_constant_start <=? i)%N with false by lia. apply get_safe. lia.
  - replace (ind_constant_start <=? i)%N with true by lia. apply get_safe. cbn [ind_constants length]. lia.
Qed.
Lemma fold_right1_safe f l : l <> [] -> memory_safe (fold_right1 f l).
Proof.
  induction l as [|x l IH]; intros N0; [contradiction|]. destruct l as [|y l]; [apply safe_ok|]. change (fold_right1 f (x :: y :: l)) with (z <- fold_right1 f (y :: l);; Ok (f x z)).
  apply safe_bind; [apply IH; discriminate|]. intros; apply safe_ok.
Qed.
Lemma mapM_length {A B} (f : A -> res B) l : forall l', mapM f l = Ok l' -> length l' = length l.
Proof. induction l as [|a l IH]; intros l' H; cbn [mapM] in H; [now injection H as <-|]. minv H. minv H. injection H as <-. cbn. f_equal. now apply IH. Qed.
Lemma cmon_safe c x data s o : enough c data -> (c <= ind_constant_start)%N -> Forall (fun i => below c (id i)) (sinds s) -> slice (inds x) o (length (sinds s)) = Ok (sinds s) ->
  memory_safe (cmon_value x data (mkmon (sq s) (sdeg s) (length (sinds s)) o)).
Proof.
  intros EN LC B SL. unfold cmon_value. cbn [mq mcount ioff]. destruct (is_zero _); [apply safe_ok|]. destruct (length (sinds s) =? 0) eqn:EL; [apply safe_ok|].
  rewrite SL. cbn [bind]. apply safe_bind.
  - apply safe_mapM_in. intros i Hi. unfold factor_value. apply safe_bind; [|intros; destruct (_ && _); [apply safe_ok|apply safe_err_o]]. rewrite Forall_forall in B. eapply data_safe; eauto.
  - intros vs EV. apply mapM_length in EV. apply safe_bind; [apply fold_right1_safe; intros ->; cbn in EV; lia|]. intros p _. destruct (_ <? _)%Z; destruct (scales _); apply safe_ok.
Qed.
Lemma cmons_safe c x data rest : enough c data -> (c <= ind_constant_start)%N -> forall ms pre, idsl (below c) ms -> inds x = pre ++ all_inds ms ++ rest ->
  memory_safe (mapM (cmon_value x data) (lay_mons (length pre) ms)).
Proof.
  intros EN LC. induction ms as [|s ms IH]; intros pre B E; cbn [lay_mons mapM]; [apply safe_ok|]. inversion_clear B as [|? ? B1 B2].
  change (all_inds (s :: ms)) with (sinds s ++ all_inds ms) in E. rewrite <- app_assoc in E. apply safe_bind.
  - apply (cmon_safe c); auto. rewrite E. apply slice_app.
  - intros a _. apply safe_bind; [|intros; apply safe_ok]. replace (length pre + length (sinds s)) with (length (pre ++ sinds s)) by apply app_length. apply IH; [exact B2|]. now rewrite <- app_assoc.
Qed.
Lemma cterm_safe c x data tx pre t post : enough c data -> (c <= ind_constant_start)%N -> packed x tx -> wkt (below c) tx -> tx = pre ++ t :: post ->
  memory_safe (cterm_value x data (mkterm (length (snd t)) (length (all_mons pre)) (fst t))).
Proof.
  intros EN LC P (_ & K2 & K3) ->. unfold cterm_value. cbn [moff tcount].
  destruct (pk_mons _ _ P) as [rm Em]. destruct (pk_inds _ _ P) as [ri Ei].
  rewrite all_mons_app, all_mons_cons in *. rewrite !all_inds_app in Ei. rewrite !lay_mons_app in Em. rewrite Em.
  replace (length (all_mons pre)) with (length (lay_mons 0 (all_mons pre))) by apply lay_mons_length.
  replace (slice _ _ (length (snd t))) with (Ok (lay_mons (0 + length (all_inds (all_mons pre))) (snd t))).
  2:{ symmetry. rewrite <- !app_assoc. replace (length (snd t)) with (length (lay_mons (0 + length (all_inds (all_mons pre))) (snd t))) by apply lay_mons_length. apply slice_app. }
  cbn [bind]. rewrite <- !app_assoc in Ei. apply idsl_app in K3 as [_ K3]. apply idsl_app in K3 as [K3 _].
  apply safe_bind; [eapply cmons_safe; [exact EN|exact LC|exact K3|exact Ei]|]. intros vs EV. apply mapM_length in EV. rewrite lay_mons_length in EV. apply fold_right1_safe. intros ->.
  apply Forall_app in K2 as [_ K2]. inversion_clear K2 as [|? ? K4 _]. destruct (snd t); [contradiction|discriminate].
Qed.
Lemma entity_safe c x q data : enough c data -> (c <= ind_constant_start)%N -> wk (below c) x -> memory_safe (compute_entity x q data).
Proof.
  intros EN LC (tx & P & W). unfold compute_entity. rewrite (packed_slice _ _ P). cbn [bind].
  assert (G : forall ts pre, tx = pre ++ ts -> memory_safe (mapM (fun t => v <- cterm_value x data t;; Ok (elem t, scale_by q v)) (lay_terms (length (all_mons pre)) ts))).
  { induction ts as [|t ts IH]; intros pre Et; cbn [lay_terms mapM]; [apply safe_ok|]. apply safe_bind.
    - apply safe_bind; [eapply cterm_safe; eauto|]. intros; apply safe_ok.
    - intros a _. apply safe_bind; [|intros; apply safe_ok]. replace (length (all_mons pre) + length (snd t)) with (length (all_mons (pre ++ [t]))).
      + apply IH. now rewrite <- app_assoc.
      + rewrite all_mons_app, app_length. f_equal. unfold all_mons. cbn [flat_map]. now rewrite app_nil_r. }
  exact (G tx [] eq_refl).
Qed.
Lemma write_good c x off tx : (c <= ind_constant_start)%N -> packed x tx -> wkt (below c) tx ->
  forall ts pre data, tx = pre ++ ts -> enough c data -> (off + N.of_nat (length tx) <= N.of_nat (length data))%N ->
  good (fun d => length d = length data) (write_temp x (lay_terms (length (all_mons pre)) ts) (off + N.of_nat (length pre)) data).
Proof.
  intros LC P W. induction ts as [|t ts IH]; intros pre data Et EN OF; cbn [lay_terms write_temp]; [now apply good_ok|].
  apply (good_bind (fun _ => True)); [apply good_any; eapply (cterm_safe c); eauto|]. intros a _ _.
  assert (LT : N.to_nat (off + N.of_nat (length pre)) < length data) by (rewrite Et, app_length in OF; cbn [length] in OF; lia).
  unfold set. replace (_ <? _) with true by lia. cbn [bind]. 
  replace (length (all_mons pre) + length (snd t)) with (length (all_mons (pre ++ [t]))) by (rewrite all_mons_app, app_length; f_equal; unfold all_mons; cbn [flat_map]; now rewrite app_nil_r).
  replace (off + N.of_nat (length pre) + 1)%N with (off + N.of_nat (length (pre ++ [t])))%N by (rewrite app_length; cbn [length]; lia).
  eapply good_imp; [apply IH|].
  - now rewrite <- app_assoc.
  - unfold enough in *. now rewrite upd_length.
  - now rewrite upd_length.
  - intros d L. now rewrite L, upd_length.
Qed.
Lemma result_good c x : wk (below c) x -> good (fun y => wk (below c) y) (result_mv md m nb x).
Proof. intros W. unfold result_mv. destruct nb; [now apply change_good|now apply good_ok]. Qed.
(** temporaries have as many terms in the null basis as references to them *)
Lemma temps_good ts : (nb = true -> ts = []) -> forall c c' data, (c' <= ind_constant_start)%N -> chainw c ts c' -> (c' <= N.of_nat (length data))%N ->
  good (fun d => length d = length data) (finalize_temps md m nb ts data).
Proof.
  destruct nb; [intros E; rewrite (E eq_refl); intros; now apply good_ok|]. intros _.
  induction ts as [|[x i] ts IH]; intros c c' data LC H L; [now apply good_ok|]. cbn [chainw fst snd] in H. destruct H as (-> & FT & (tx & P & W) & H). pose proof (chainw_le _ _ _ H) as LE.
  cbn [finalize_temps result_mv bind]. apply (good_bind (fun d => length d = length data)).
  - unfold compute_temp. rewrite (packed_slice _ _ P). cbn [bind]. rewrite (pk_tsz _ _ P) in *.
    pose proof (write_good c x c tx ltac:(lia) P W tx [] data eq_refl ltac:(unfold enough; lia) ltac:(lia)) as G. cbn [length all_mons flat_map N.of_nat] in G. now rewrite N.add_0_r in G.
  - intros d _ Ld. eapply good_imp; [apply (IH _ c' d LC H); lia|]. intros d' L'. congruence.
Qed.
End Machine.

(** ** compute *)
Lemma run_input m env l a b : run m env l a b -> forall nd, In nd l -> no nd = op_id -> nex nd < length env.
Proof.
  induction 1 as [a|nd l a b c NS S R IH|nd b l t t1 s v c NS NX RB IHB RL IHL]; intros k K C.
  - destruct K.
  - destruct K as [<-|K]; [|auto]. inversion S as [a1 a2 a3 v C' NE|a1 a2 a3 v C' NE|a1 a2 a3 v C'|a1 a2 a3 v C'|a1 a2 a3 v C'|a1 a2 a3 v w k C'|a1 a2 a3 l' C' L0 L1|a1 a2 a3 l' C' L0 L1
        |a1 a2 a3 v C'|a1 a2 a3 v C'|a1 a2 a3 v w C' SC W0|a1 a2 a3 v f C'|a1 a2 a3 C'|a1 a2 a3 C'|a1 a2 a3 C'|a1 a2 a3 C']; subst; try (rewrite C in C'; discriminate C');
        try (unfold Spec_Expr.fn, binop in C'; rewrite C in C'; discriminate C'); try (rewrite C in C'; unfold c_scalar, op_id in C'; lia). apply nth_error_Some. congruence.
  - destruct K as [<-|K]; [rewrite NS in C; discriminate C|]. apply in_app_iff in K as [K|K]; auto.
Qed.
Lemma inputs_good ies (env : list V) l : length env <= length ies -> (forall nd, In nd l -> no nd = op_id -> nex nd < length env) ->
  good (fun ins => length ins = ids l) (rpn_inputs ies (rpn_ids l)).
Proof.
  intros LE H. split.
  - unfold rpn_inputs, rpn_ids. apply safe_mapM_in. intros p Hp. apply in_map_iff in Hp as (nd & <- & Hn). apply filter_In in Hn as [I1 I2]. cbn [snd fst]. unfold is_id in I2. apply N.eqb_eq in I2.
    specialize (H nd I1 I2). destruct (nth_error ies (nex nd)) eqn:E; [apply safe_ok|]. apply nth_error_None in E. lia.
  - intros ins E. unfold rpn_inputs in E. apply mapM_length in E. rewrite E. unfold rpn_ids, ids. apply map_length.
Qed.
Section Compute.
Context (md : mode) (m : metric) (nb : bool) (env : list V) (J : rstate -> Prop) (okn : node -> Prop).
Hypothesis J_step : forall nd st st', okn nd -> no nd <> op_se -> J st -> rpn_step md m nb nd st = Ok st' -> J st'.
Hypothesis J_open : forall st, J st -> J (rpn_open st).
Hypothesis J_close : forall nd st sub st', okn nd -> no nd = op_se -> J st -> J sub -> rpn_close md nd st sub = Ok st' -> J st'.
Hypothesis J_full : forall nd st x r, okn nd -> no nd = op_noop -> J st -> r_args st = x :: r -> length (terms x) = tsz x.
Lemma compute_good ies inputs l q t s : inputs_rep m nb ies inputs env -> length env <= length ies -> bound inputs l -> Forall okn l -> (forall nd, In nd l -> no nd <> op_div) -> stores_on_top l ->
  (forall ins, rpn_inputs ies (rpn_ids l) = Ok ins -> J (mkrs ins [] [] (N.of_nat (list_sum (map (@length R) inputs))))) ->
  (forall ins st, rpn_inputs ies (rpn_ids l) = Ok ins -> rpn_eval md m nb l ins (N.of_nat (list_sum (map (@length R) inputs))) = Ok st -> J st ->
     (r_cnt st <= ind_constant_start)%N /\ (nb = true -> r_temps st = [])) ->
  run m env l ([], []) (t, s) -> memory_safe (compute md m nb ies inputs l q).
Proof.
  intros IR LE BD OK ND TOP J0 LC RUN. set (cnt := list_sum (map (@length R) inputs)) in *. unfold compute. fold cnt.
  pose proof (inputs_good ies env l LE (run_input _ _ _ _ _ RUN)) as [I1 I2]. apply safe_bind; [exact I1|]. intros ins EI. specialize (I2 ins EI).
  assert (W0 : wst (N.of_nat cnt) (mkrs ins [] [] (N.of_nat cnt))).
  { split; [reflexivity|]. split; [constructor|]. cbn [r_in]. eapply Forall_impl; [|exact (inputs_fresh _ _ _ _ _ _ _ IR BD EI)]. intros x. apply syn_wk. }
  pose proof (run_good md m nb env (N.of_nat cnt) J okn J_step J_open J_close J_full l _ _ RUN (S (length l)) _ OK ND TOP W0 (J0 ins EI) (conj eq_refl eq_refl)
    ltac:(cbn [r_in]; lia) (Nat.lt_succ_diag_r _)) as [G1 G2].
  apply safe_bind; [exact G1|]. intros st ES. destruct (G2 st ES) as ((CH & WA & _) & HJ & _ & _). destruct (LC ins st EI ES HJ) as [LC1 NT].
  pose proof (chainw_le _ _ _ CH) as LE2.
  rewrite repeat_app. pose proof (fill_ok inputs [] (repeat 0%R (N.to_nat (r_cnt st - N.of_nat cnt))) (repeat 0%R cnt) (repeat_length _ _)) as FO.
  cbn [app length] in FO. rewrite FO. cbn [bind].
  assert (LCT : length (concat inputs) = cnt).
  { unfold cnt. clear. induction inputs as [|d ds IH]; cbn; [reflexivity|]. rewrite app_length. unfold list_sum in *. now rewrite IH. }
  set (data := concat inputs ++ repeat 0%R (N.to_nat (r_cnt st - N.of_nat cnt))).
  assert (LD : N.of_nat (length data) = r_cnt st) by (unfold data; rewrite app_length, repeat_length, LCT; lia).
  pose proof (temps_good md m nb (r_temps st) NT _ _ data LC1 CH ltac:(lia)) as [T1 T2]. apply safe_bind; [exact T1|]. intros data' ED. specialize (T2 data' ED).
  destruct (r_args st) as [|x r] eqn:EA; [apply safe_ok|]. apply safe_mapM_in. intros y Hy. rewrite Forall_forall in WA. apply in_rev in Hy. specialize (WA y Hy).
  unfold finalize_entity. pose proof (result_good md m nb _ _ WA) as [R1 R2]. apply safe_bind; [exact R1|]. intros z Ez. eapply entity_safe; [|exact LC1|exact (R2 z Ez)]. unfold enough. lia.
Qed.
End Compute.

(** programs without temporaries and division *)
Theorem compute_safe md m nb ies inputs env l q t s : inputs_are m nb ies inputs env -> length env = length inputs -> bound inputs l ->
  (forall nd, In nd l -> no nd <> op_div /\ no nd <> op_noop) -> list_sum (map (@length R) inputs) <= N.to_nat ind_constant_start ->
  run m env l ([], []) (t, s) -> memory_safe (compute md m nb ies inputs l q).
Proof.
  intros IA LE BD OK LC RUN. pose proof (proj1 IA) as LI. destruct (inputs_choose _ _ _ _ _ IA) as (ies' & L & SI & IR).
  rewrite (compute_sim md m nb ies ies' inputs l q L SI).
  apply (compute_good md m nb env (fun st => r_temps st = [] /\ r_cnt st = N.of_nat (list_sum (map (@length R) inputs))) (fun nd => no nd <> op_noop)) with (t := t) (s := s); auto.
  - intros nd st st' N0 _ [J1 J2] H. destruct (step_cnt m nb md nd st st' N0 H) as [-> ->]. auto.
  - intros nd st sub st' _ _ [J1 J2] [J3 J4] H. pose proof (close_temps md nd st sub st' H) as [-> _]. split; [exact J3|]. unfold rpn_close in H. binds. destruct a. binds. exact J2.
  - intros nd st x r N0 N1. contradiction.
  - lia.
  - apply Forall_forall. intros nd I. now apply OK.
  - intros nd I. now apply OK.
  - intros b k Ib Ik. apply OK. clear - Ib Ik. induction l as [|x l IH]; cbn [bodies] in Ib; [destruct Ib|]. destruct (_ =? _)%N; [destruct Ib as [<-|Ib]|]; right; auto.
    rewrite <- (firstn_skipn (nex x) l). apply in_or_app. now left.
  - intros ins st _ _ [J1 J2]. rewrite J1, J2. split; [lia|auto].
Qed.
(** programs with temporaries *)
Theorem compute_safe_shared m ies inputs env l q t s : filled ies -> inputs_are m false ies inputs env -> length env = length inputs -> bound inputs l ->
  forallb (shared_node m) l = true -> stores_on_top l ->
  (N.of_nat (list_sum (map (@length R) inputs)) + N.of_nat (length l) * 2 ^ N.of_nat (dim m) <= ind_constant_start)%N ->
  run m env l ([], []) (t, s) -> memory_safe (compute Exact m false ies inputs l q).
Proof.
  intros FI IA LE BD AL TOP LC RUN. pose proof (proj1 IA) as LI. destruct (inputs_choose _ _ _ _ _ IA) as (ies' & L & SI & IR).
  rewrite (compute_sim Exact m false ies ies' inputs l q L SI). rewrite forallb_forall in AL.
  assert (T0 : forall ins, rpn_inputs ies' (rpn_ids l) = Ok ins -> tst m (mkrs ins [] [] (N.of_nat (list_sum (map (@length R) inputs))))).
  { intros ins EI. pose proof (inputs_tight m ies ies' inputs env l ins FI L SI IR EI) as TI. constructor; cbn; auto. }
  apply (compute_good Exact m false env (tst m) (fun nd => shared_node m nd = true)) with (t := t) (s := s); auto.
  - intros nd st st' N0 N1 J H. exact (proj1 (proj2 (proj2 (step_tight m nd st st' N0 N1 J H)))).
  - intros st [J1 J2 J3]. constructor; cbn; auto.
  - intros nd st sub st' N0 N1 J1 J2 H. refine (proj1 (close_tight m nd st sub st' _ N1 J1 J2 H)). unfold shared_node in N0. rewrite N1 in N0. now rewrite orb_false_r in N0.
  - intros nd st x r _ _ [_ _ J] E. rewrite E in J. inversion_clear J. now apply (tight_fit m).
  - lia.
  - now apply Forall_forall.
  - intros nd I. specialize (AL nd I). intros E. unfold shared_node, algebraic_node in AL. rewrite E in AL. discriminate AL.
  - intros ins st EI ES _. split; [|discriminate]. unfold rpn_eval in ES.
    destruct (shared_fits m l _ _ _ (proj2 (forallb_forall _ _) AL) (Nat.lt_succ_diag_r _) (T0 ins EI) ES) as (_ & _ & CB). cbn [r_cnt] in CB. lia.
Qed.
