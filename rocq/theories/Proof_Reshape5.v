(** Reshaping of programs in which nothing is shared. *)
From Coq Require Import ZArith NArith List Bool Arith Lia ZifyBool ZifyN ZifyNat Reals.
From Verif Require Import Base Model_Numeric Model_Blade Model_Stack Model_Expr Model_Dfa Model_Reshape.
From Verif Require Import Spec_Numeric Spec_Clifford Spec_MV Spec_Basis Spec_Expr Spec_Reshape Spec_Engine.
From Verif Require Import Proof_Numeric Proof_Expr Proof_Util Proof_Reshape Proof_Reshape2 Proof_Reshape3 Proof_Reshape4.
Import ListNotations.
Local Open Scope nat_scope.

(** ** counting *)
Lemma references_in nodes stop : forall fuel j k, In k (references fuel nodes j stop) -> exists p n, nth_error nodes p = Some n /\ no n = op_cse /\ nex n = k.
Proof.
  induction fuel as [|f IH]; intros j k H; [destruct H|]. cbn [references] in H. destruct (_ =? _)%N; [destruct H|]. destruct (nth_error nodes (N.to_nat j)) as [n|] eqn:E; [|destruct H].
  destruct (N.eqb_spec (no n) op_cse) as [C|C]; [destruct H as [<-|H]; eauto|eauto].
Qed.
Lemma counts_stored ses len : forall kk i nodes, i + kk <= length ses -> (forall p n, nth_error nodes p = Some n -> no n = op_cse -> stored_at ses (nex n) = true) ->
  (forall j c, j < i + kk -> nth_error ses j = Some c -> o_ c < length nodes) -> counts kk i nodes ses len = true.
Proof.
  induction kk as [|kk IH]; intros i nodes LE ST OF; cbn [counts].
  - apply forallb_forall. intros k K. apply references_in in K as (p & n & A & B & <-). eauto.
  - destruct (nth_error ses i) as [c|] eqn:E; [|apply nth_error_None in E; lia]. destruct (stored c) eqn:SC.
    + apply andb_true_iff. split; [apply forallb_forall; intros k K; apply references_in in K as (p & n & A & B & <-); eauto|].
      assert (LO : N.to_nat (c_off c) < length nodes) by (apply (OF i c); [lia|exact E]). destruct (nth_error nodes (N.to_nat (c_off c))) as [n|] eqn:EN; [|apply nth_error_None in EN; lia].
      apply IH; [lia| |intros j d J D; rewrite upd_len; apply (OF j d); [lia|exact D]].
      intros p k. rewrite nth_upd by exact LO. destruct (_ =? _); [|apply ST]. intros X. injection X as <-. cbn [nex]. intros _. unfold stored_at. now rewrite E.
    + apply IH; [lia|exact ST|]. intros j d J. apply OF. lia.
Qed.
Section Nice.
Context (m : metric) (env : list V).
Notation nden := (nden m env). Notation run := (run m env).
Lemma distinct_nodes L i nodes ses kc : distinct L -> inv m env L i nodes ses kc -> forall p n, nth_error nodes p = Some n -> no n <> op_cse.
Proof.
  intros D IV p n E O. destruct (Nat.lt_ge_cases p (length L)) as [LT|GE]; [|exact (iv_pad _ _ _ _ _ _ _ IV p n GE E O)].
  destruct (iv_node _ _ _ _ _ _ _ IV p n LT E) as [[_ X]|(_ & c & e & X1 & X2 & X3 & X4 & X5 & X6)]; [contradiction|].
  pose proof (iv_early _ _ _ _ _ _ _ IV p n c LT E O X1) as EA. destruct (iv_cse _ _ _ _ _ _ _ IV _ c X1 X2) as ((w & G1) & G2 & G3 & G4 & G5 & G6 & G7). pose proof (nden_operand m env _ _ G1) as OP.
  rewrite <- X6 in X5. assert (Y : p = o_ c); [|lia]. apply (D p (o_ c) (k_ c)); auto; try lia; rewrite X5; assumption || reflexivity.
Qed.
Lemma distinct_identified l : distinct l -> identified l.
Proof.
  intros D p q k K P Q OP OQ R E. replace q with p; [reflexivity|]. exact (D p q k K P Q OP OQ R E).
Qed.
Theorem counted_distinct x v : (N.of_nat (length (rnodes x)) < 2 ^ 32)%N -> (N.of_nat (rcap x) < 2 ^ 32)%N -> nden (rnodes x) v -> distinct (rnodes x) -> counted x.
Proof.
  intros S1 S2 ND D s E. pose proof (distinct_identified _ D) as ID. destruct (first_pass_ok m env x v s S1 S2 ND ID E) as [K _]. apply counts_stored.
  - apply (iv_kc _ _ _ _ _ _ _ K).
  - intros p n X O. exfalso. eapply (distinct_nodes _ _ _ _ _ D K); eauto.
  - intros j c J X. pose proof (iv_len _ _ _ _ _ _ _ K). destruct (iv_cse _ _ _ _ _ _ _ K j c X J) as (_ & G2 & _ & _ & G5 & _). lia.
Qed.

(** ** emission keeps the operations *)
Lemma map_upd {A B} (f : A -> B) l : forall i a b, nth_error l i = Some b -> f a = f b -> map f (upd l i a) = map f l.
Proof. induction l as [|x l IH]; intros [|i] a b H E; try discriminate; cbn in *; [injection H as <-; now rewrite E|]. f_equal. eapply IH; eauto. Qed.
Definition op_sum_of (n : node) := (no n, ncs n).
Lemma fix_lengths_ops : forall k j st out out', fix_lengths k j st out = Ok out' -> map op_sum_of out' = map op_sum_of out.
Proof.
  induction k as [|k IH]; intros j st out out' H; cbn [fix_lengths] in H; [now injection H as <-|]. minv H. destruct v as [p off]. minv H. destruct v as [p' next]. destruct p as [a|]; [|discriminate].
  minv H. apply get_ok in E1. minv H. apply set_ok in E2 as [_ ->]. apply IH in H. rewrite H. eapply map_upd; [exact E1|reflexivity].
Qed.
Lemma emit_node_ops cap n e e' : emit_node cap n e = Ok e' -> map op_sum_of (em_out e') = map op_sum_of (em_out e) ++ [op_sum_of n].
Proof.
  intros H. unfold emit_node in H. minv H. apply append_ok in E as [-> _]. destruct (_ =? _)%N; [minv H; injection H as <-; cbn [em_out]; now rewrite map_app|].
  destruct (_ || _); [|injection H as <-; cbn [em_out]; now rewrite map_app]. minv H. minv H. apply fix_lengths_ops in E0. minv H. destruct v1 as [f st']. minv H. apply get_ok in E2. minv H. apply set_ok in E3 as [_ ->].
  injection H as <-. cbn [em_out]. rewrite (map_upd op_sum_of v0 _ _ v1 E2) by reflexivity. rewrite E0, map_app. reflexivity.
Qed.
Lemma emits_ops cap l : forall e e', emits cap l e = Ok e' -> map op_sum_of (em_out e') = map op_sum_of (em_out e) ++ map op_sum_of l.
Proof.
  induction l as [|n l IH]; intros e e' H; cbn [emits] in H; [injection H as <-; now rewrite app_nil_r|]. minv H. apply emit_node_ops in E. rewrite (IH _ _ H), E, <- app_assoc. reflexivity.
Qed.
Lemma known_fresh cap k : forall i fin nodes ses e r, (forall j c, N.to_nat i <= j < N.to_nat i + k -> nth_error ses j = Some c -> stored c = false) ->
  emit_known cap k i fin nodes ses e = Ok r -> r = (nodes, ses, e).
Proof.
  induction k as [|k IH]; intros i fin nodes ses e r F H; cbn [emit_known] in H; [now injection H as <-|]. minv H. apply nget_ok in E as [E _]. fold (stored v) in H.
  rewrite (F (N.to_nat i) v) in H by (auto; lia). eapply IH; [|exact H]. intros j c J. apply F. lia.
Qed.
Lemma path_plain L nodes stop : (stop <= N.of_nat (length L))%N -> (forall p n, nth_error nodes p = Some n -> no n <> op_cse) -> (forall p n, p < length L -> nth_error nodes p = Some n -> nth_error L p = Some n) ->
  forall j l, path nodes stop j l -> (j <= stop)%N /\ l = sub L (N.to_nat j) (N.to_nat stop - N.to_nat j).
Proof.
  intros ST NC SA. induction 1.
  - split; [lia|]. rewrite Nat.sub_diag. reflexivity.
  - exfalso. eapply NC; eauto.
  - destruct IHpath as [LE ->]. split; [lia|]. rewrite (sub_split (N.to_nat j) (S (N.to_nat j))) by lia. replace (S (N.to_nat j) - N.to_nat j) with 1 by lia.
    rewrite (sub_one _ n) by (apply SA; [lia|assumption]). cbn [app]. now replace (N.to_nat (j + 1)) with (S (N.to_nat j)) by lia.
Qed.
Lemma fixg_nocse g l : (forall n, In n l -> no n <> op_cse) -> map (fixg g) l = l.
Proof. intros H. rewrite <- (map_id l) at 2. apply map_ext_in. intros n I. unfold fixg. now rewrite (proj2 (N.eqb_neq _ _) (H n I)). Qed.
(** nothing is moved: all nodes are written in order *)
Lemma nice_emits x y s : nice (rnodes x) -> keeps m env (rnodes x) (length (rnodes x)) s -> first_pass x = Ok s -> reshape x = Ok y -> (forall n, In n (rnodes x) -> no n <> op_cse) ->
  rq y = rq x /\ exists e', emits (3 * rcap x) (rnodes x) (mkemit [] (mk_stack (repeat (None, 0%N) (rcap x)) 0)) = Ok e' /\ rnodes y = em_out e'.
Proof.
  intros NI [K FR] FP H NC. unfold reshape in H. rewrite FP in H. cbn [bind] in H. minv H. pose proof (fun F => known_fresh _ _ _ _ _ _ _ _ F E) as KF.
  rewrite KF in H by (intros j c J X; eapply (FR NI); [exact X|lia]). cbn [em_out mapM bind em_st] in H. minv H. injection H as <-. cbn [rq rnodes]. split; [reflexivity|]. exists v0. split; [|reflexivity].
  destruct (rest_path _ _ _ _ (iv_small _ _ _ _ _ _ _ K) _ _ _ _ E0) as (l & PA & EM & _).
  destruct (path_plain (rnodes x) _ _ (N.le_refl _) (distinct_nodes _ _ _ _ _ (proj1 NI) K)) with (2 := PA) as [_ ->].
  - intros p n P X. destruct (iv_node _ _ _ _ _ _ _ K p n P X) as [[Q _]|(Q & _)]; [exact Q|]. exfalso. eapply (distinct_nodes _ _ _ _ _ (proj1 NI) K); eauto.
  - rewrite Nat.sub_0_r, Nat2N.id in EM. unfold sub in EM. change (N.to_nat 0) with 0 in EM. rewrite skipn_O, firstn_all in EM. rewrite (fixg_nocse _ _ NC) in EM. exact EM.
Qed.
Lemma frun_trun T l s s' : frun m env l s s' -> trun m env T l s s'.
Proof. induction 1; [constructor|econstructor; eauto]. Qed.

Theorem nice_single x y v : (N.of_nat (length (rnodes x)) < 2 ^ 32)%N -> (N.of_nat (rcap x) < 2 ^ 32)%N -> nden (rnodes x) v -> distinct (rnodes x) -> direct (rnodes x) ->
  reshape x = Ok y -> map op_sum_of (rnodes y) = map op_sum_of (rnodes x).
Proof.
  intros S1 S2 ND D DI H. pose proof (distinct_identified _ D) as ID. destruct (first_pass x) as [s|] eqn:E; [|unfold reshape in H; rewrite E in H; discriminate].
  destruct (nice_emits x y s (conj D DI) (first_pass_ok m env x v s S1 S2 ND ID E) E H (frun_nocse m env _ [] _ (nden_frun m env _ v ND []))) as (_ & e' & EM & ->).
  exact (emits_ops _ _ _ _ EM).
Qed.

(** ** tuples *)
Lemma emits_app cap a b : forall e, emits cap (a ++ b) e = (e' <- emits cap a e;; emits cap b e').
Proof. induction a as [|n a IH]; intros e; [reflexivity|]. cbn [app emits]. destruct (emit_node cap n e); [|reflexivity]. cbn [bind]. apply IH. Qed.
Lemma body_emits cap b v e e' below L : (N.of_nat cap < 2 ^ 64)%N -> nden b v -> incl b L -> rep (em_st e) below -> emits cap b e = Ok e' ->
  exists b', em_out e' = em_out e ++ b' /\ rep (em_st e') below /\ length b' = length b /\ Forall (origin L) b' /\ forall t s, run b' (t, s) (t, v :: s).
Proof.
  intros CAP ND IL R E. pose proof (emits_ops _ _ _ _ E) as OPS.
  assert (QL : Forall (origin L) b) by (apply Forall_forall; intros n I; right; exists n; auto).
  assert (G : forall t, exists b', em_out e' = em_out e ++ b' /\ rep (em_st e') below /\ Forall (origin L) b' /\ forall s, run b' (t, s) (t, v :: s)).
  { intros t. destruct (emits_ok m env (origin L) (fun k w => nth_error t k = Some w) (fun k => k) t cap (origin_se L) (origin_poly L) CAP ltac:(auto) b [] [EV v] (frun_trun _ _ _ _ (nden_frun m env b v ND [])) QL
      (em_out e) below e [] e' ltac:(split; [cbn; now rewrite app_nil_r|exact R]) ltac:(constructor) eq_refl E) as (segs & Q1 & Q2 & Q3).
    destruct (seg_one _ _ _ _ _ _ _ _ _ _ Q1 Q2 Q3) as (b' & B1 & BQ & B2). exists b'. split; [exact B1|]. split; [|split; [exact BQ|intros s; specialize (B2 s); now rewrite fixg_id in B2]].
    destruct segs as [|[x w] [|]]; try discriminate. cbn in Q3. injection Q3 as ->. exact (si_rep _ _ _ _ Q1). }
  destruct (G []) as (b' & B1 & B2 & B3 & _). exists b'. split; [exact B1|]. split; [exact B2|]. split.
  - rewrite B1, map_app in OPS. apply app_inv_head in OPS. apply (f_equal (@length _)) in OPS. now rewrite !map_length in OPS.
  - split; [exact B3|]. intros t s. destruct (G t) as (b2 & C1 & _ & _ & C2). rewrite B1 in C1. apply app_inv_head in C1. subst b2. apply C2.
Qed.
Lemma items_emits cap k its : forall e e' below L, (N.of_nat cap < 2 ^ 64)%N -> ses m env k its -> incl (flat_map render its) L -> rep (em_st e) below -> emits cap (flat_map render its) e = Ok e' ->
  exists l, em_out e' = em_out e ++ l /\ Forall (origin L) l /\ forall t s, run l (t, s) (t, rev (map item_val its) ++ s).
Proof.
  intros e e' below L CAP H. revert e e' below. induction H as [|k i its NB QI H IH]; intros e e' below IL R E.
  - cbn in E. injection E as <-. exists []. rewrite app_nil_r. split; [reflexivity|]. split; [constructor|]. intros. constructor.
  - cbn [flat_map] in E, IL. unfold render at 1 in E. unfold render at 1 in IL. cbn [app] in E, IL. set (n := mknode op_se (i_cs i) (length (i_body i)) (i_q i)) in *. cbn [emits] in E. minv E.
    assert (X : exists below', em_out v = em_out e ++ [n] /\ rep (em_st v) below').
    { unfold emit_node in E0. minv E0. apply append_ok in E1 as [-> _]. change (no n =? op_se)%N with true in E0. cbv iota in E0. minv E0. injection E0 as <-. apply push_ok with (l := below) in E1 as (R1 & _); [|exact R]. eauto. }
    destruct X as (below' & X1 & X2). rewrite emits_app in E. minv E.
    destruct (body_emits cap (i_body i) (i_val i) v v0 below' L CAP NB ltac:(intros z Z1; apply IL; right; apply in_or_app; now left) X2 E1) as (b' & B1 & B2 & B3 & B4 & B5).
    destruct (IH v0 e' below' ltac:(intros z Z1; apply IL; right; apply in_or_app; now right) B2 E) as (l & L1 & L2 & L3).
    exists (n :: b' ++ l). split; [rewrite L1, B1, X1, <- !app_assoc; reflexivity|]. split.
    + constructor; [right; exists n; split; [apply IL; now left|auto]|]. apply Forall_app. auto.
    + intros t s. eapply run_se; [reflexivity|symmetry; exact B3|apply B5|]. cbn [map rev]. rewrite <- app_assoc. apply L3.
Qed.
Theorem nice_tuple k its x y : (N.of_nat (length (rnodes x)) < 2 ^ 32)%N -> (N.of_nat (rcap x) < 2 ^ 32)%N -> rnodes x = flat_map render its -> ses m env k its ->
  distinct (rnodes x) -> direct (rnodes x) -> reshape x = Ok y ->
  rq y = rq x /\ run (rnodes y) ([], []) ([], rev (map item_val its)) /\ map op_sum_of (rnodes y) = map op_sum_of (rnodes x) /\ Forall (origin (rnodes x)) (rnodes y).
Proof.
  intros S1 S2 EX SE D DI H. pose proof (distinct_identified _ D) as ID. destruct (first_pass x) as [s|] eqn:E; [|unfold reshape in H; rewrite E in H; discriminate].
  assert (NC : forall n, In n (rnodes x) -> no n <> op_cse).
  { rewrite EX. clear - SE. induction SE as [|k i l NB _ _ IH]; intros n I; [destruct I|]. cbn [flat_map] in I. apply in_app_or in I as [I|I]; [|auto]. destruct I as [<-|I]; [intros Q; vm_compute in Q; discriminate|].
    exact (frun_nocse m env _ [] _ (nden_frun m env _ _ NB []) n I). }
  assert (K : keeps m env (rnodes x) (length (rnodes x)) s).
  { pose proof (first_start m env x S1 S2 NC) as K0. unfold first_pass in E. rewrite EX in E at 1. destruct (ses_scans m env (rnodes x) ID S1 k its SE [] [] _ s [] ltac:(now rewrite app_nil_r) K0) with (2 := E) as [K1 _].
    - cbn [sc_offs]. apply fresh_rep. rewrite repeat_length. lia.
    - cbn [length Nat.add] in K1. now rewrite <- EX in K1. }
  destruct (nice_emits x y s (conj D DI) K E H NC) as (RQ & e' & EM & ->). pose proof (emits_ops _ _ _ _ EM) as OPS. split; [exact RQ|].
  rewrite EX in EM. destruct (items_emits (3 * rcap x) k its (mkemit [] (mk_stack (repeat (None, 0%N) (rcap x)) 0)) e' [] (rnodes x) ltac:(lia) SE ltac:(rewrite EX; apply incl_refl) ltac:(cbn [em_st]; apply fresh_rep; rewrite repeat_length; lia) EM) as (l & L1 & L2 & L3).
  cbn [em_out app] in L1, OPS. rewrite <- L1 in *. split; [|split; [exact OPS|exact L2]]. specialize (L3 [] []). now rewrite app_nil_r in L3.
Qed.
End Nice.
