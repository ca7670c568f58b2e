(** Multivectors on the symbolic stack fill their term arrays, so that temporaries can be stored:
    algebraic programs with temporaries are applicable. *)
From Coq Require Import ZArith NArith List Bool Arith Lia ZifyBool ZifyN ZifyNat Reals Lra Sorting.Sorted Sorting.Permutation.
From Verif Require Import Base Model_Numeric Model_Blade Model_Sort Model_MV Model_Product Model_Expr Model_Dfa
  Spec_Numeric Spec_Sort Spec_Clifford Spec_Basis
  Proof_Numeric Proof_Gens Proof_Blade Proof_Blade2 Proof_Blade3 Proof_Blade4 Spec_MV Spec_Expr Spec_Dfa Model_Engine Spec_Engine
  Proof_Sort Proof_SortMap Proof_Layout Proof_Sum Proof_Val Proof_Collate Proof_Product Proof_CollateVal
  Proof_ProductVal Proof_Ops Proof_Ops2 Proof_Basis Proof_Ops3 Proof_Div Proof_Safe Proof_Poly Proof_Proper Proof_MVAlg Proof_MVFlat Proof_Dfa Proof_Dfa2
  Proof_Ids Proof_Engine Proof_Sim Proof_Engine3.
Import ListNotations.
Local Open Scope nat_scope.

(** ** leaving out a blade *)
Definition without (b : N) (ts : list sterm) : list sterm := filter (fun t : sterm => negb (fst t =? b)%N) ts.
Lemma without_in b ts t : In t (without b ts) -> In t ts.
Proof. unfold without. intros H. now apply filter_In in H. Qed.
Lemma without_mons b ts s : In s (all_mons (without b ts)) -> In s (all_mons ts).
Proof. unfold all_mons. intros H. apply in_flat_map in H as (t & I & J). apply in_flat_map. exists t. split; [eapply without_in; eauto|exact J]. Qed.
Lemma without_proper n b ts : proper n ts -> proper n (without b ts).
Proof.
  intros [[C1 C1'] C2 C3 C4 C5]. constructor.
  - split.
    + clear - C1. induction ts as [|t ts IH]; [constructor|]. cbn in C1. inversion_clear C1 as [|? ? S F]. specialize (IH S). cbn [without filter].
      change (filter (fun t0 : sterm => negb (fst t0 =? b)%N) ts) with (without b ts).
      destruct (negb _); [|exact IH]. cbn [map]. constructor; [exact IH|]. apply Forall_forall. intros e He. apply in_map_iff in He as (u & <- & Hu).
      rewrite Forall_forall in F. apply F. apply in_map. eapply without_in; eauto.
    + rewrite Forall_forall in *. intros t I. apply C1'. eapply without_in; eauto.
  - unfold mv_ok in *. rewrite Forall_forall in *. intros s I. apply C2. eapply without_mons; eauto.
  - rewrite Forall_forall in *. intros s I. apply C3. eapply without_mons; eauto.
  - rewrite Forall_forall in *. intros s I. apply C4. eapply without_mons; eauto.
  - unfold in_dim in *. rewrite Forall_forall in *. intros t I. apply C5. eapply without_in; eauto.
Qed.
Lemma without_val rho b ts e : val rho (without b ts) e = if (e =? b)%N then 0%R else val rho ts e.
Proof.
  destruct (N.eqb_spec e b) as [->|NE].
  - apply val_absent. intros H. apply in_map_iff in H as (t & E & I). unfold without in I. apply filter_In in I as [_ I]. rewrite E, N.eqb_refl in I. discriminate.
  - induction ts as [|t ts IH]; [reflexivity|]. cbn [without filter]. change (filter (fun t0 : sterm => negb (fst t0 =? b)%N) ts) with (without b ts). rewrite (val_cons rho t ts).
    destruct (N.eqb_spec (fst t) b) as [E|E]; cbn [negb].
    + rewrite IH. replace (fst t =? e)%N with false by (symmetry; apply N.eqb_neq; congruence). lra.
    + rewrite val_cons, IH. reflexivity.
Qed.
(** a blade of a proper multivector has a value somewhere *)
Lemma blade_not_zero n ts b : proper n ts -> (forall rho, (forall i, (0 < rho i)%R) -> val rho ts b = 0%R) -> ~ In b (map fst ts).
Proof.
  intros P Z0 I. assert (E : ts = without b ts).
  { apply (values_identify n n); [exact P|now apply without_proper|]. intros rho PO e. rewrite without_val. destruct (N.eqb_spec e b) as [->|]; [now apply Z0|reflexivity]. }
  rewrite E in I. apply in_map_iff in I as (t & F & I). unfold without in I. apply filter_In in I as [_ I]. rewrite F, N.eqb_refl in I. discriminate.
Qed.
Lemma sorted_nodup l : StronglySorted N.lt l -> NoDup l.
Proof.
  induction 1 as [|a l S IH F]; constructor; [|exact IH]. intros I. rewrite Forall_forall in F. specialize (F a I). lia.
Qed.
Lemma pc_snd e n : snd (poincare_complement e n) = 1%Z \/ snd (poincare_complement e n) = (-1)%Z.
Proof. unfold poincare_complement, sign_of. cbn [snd]. destruct (N.even _) || destruct (N.odd _) || destruct (_ =? _)%N; auto. Qed.
(** the dual has as many terms as the original *)
Lemma dual_count n tx t : proper n tx -> s_dual Exact (N.of_nat n) tx = Ok t -> length t = length tx.
Proof.
  intros P E. pose proof (dual_proper _ _ _ P E) as Q.
  pose (co := fun b => fst (poincare_complement b (N.of_nat n))).
  assert (CI : forall b, co (co b) = b).
  { intros b. unfold co. rewrite !pc_fst. rewrite <- N.lxor_assoc, N.lxor_nilpotent. apply N.lxor_0_l. }
  assert (SG : forall b, IZR (snd (poincare_complement b (N.of_nat n))) <> 0%R).
  { intros b. destruct (pc_snd b (N.of_nat n)) as [-> | ->]; lra. }
  assert (V : forall rho e, val rho t (co e) = (IZR (snd (poincare_complement e (N.of_nat n))) * val rho tx e)%R)
    by (intros rho; exact (proj1 (s_dual_val rho (N.of_nat n) tx t (pr_ok _ _ P) E))).
  cut (length (map fst t) = length (map co (map fst tx))); [now rewrite !map_length|]. apply Nat.le_antisymm.
  - apply NoDup_incl_length; [apply sorted_nodup, Q|]. intros c Hc. rewrite <- (CI c). apply in_map.
    destruct (in_dec N.eq_dec (co c) (map fst tx)) as [I|I]; [exact I|]. exfalso. refine (blade_not_zero n t c Q _ Hc). intros rho _.
    rewrite <- (CI c), V, (val_absent rho tx _ I). ring.
  - apply NoDup_incl_length.
    + apply FinFun.Injective_map_NoDup; [|apply sorted_nodup, P]. intros a b H. rewrite <- (CI a), <- (CI b). now f_equal.
    + intros c Hc. apply in_map_iff in Hc as (b & <- & Hb). destruct (in_dec N.eq_dec (co b) (map fst t)) as [I|I]; [exact I|]. exfalso.
      refine (blade_not_zero n tx b P _ Hb). intros rho _. pose proof (V rho b) as W. rewrite (val_absent rho t _ I) in W.
      specialize (SG b). symmetry in W. apply Rmult_integral in W as [W|W]; [contradiction|exact W].
Qed.
(** the number of terms *)
Lemma proper_count n tx : proper n tx -> (N.of_nat (length tx) <= 2 ^ N.of_nat n)%N.
Proof.
  intros P. assert (L : length (map fst tx) <= length (map N.of_nat (seq 0 (N.to_nat (2 ^ N.of_nat n))))).
  { apply NoDup_incl_length; [apply sorted_nodup, P|]. intros b Hb. pose proof (in_dim_in n tx b (pr_dim _ _ P) Hb). apply in_map_iff. exists (N.to_nat b).
    split; [apply N2Nat.id|]. apply in_seq. lia. }
  rewrite !map_length, seq_length in L. assert (L2 : length tx <= N.to_nat (2 ^ N.of_nat n)) by exact L. clear L. lia.
Qed.

Lemma refs_length ts : forall i, length (refs i ts) = length ts.
Proof. induction ts as [|t ts IH]; intros i; [reflexivity|]. cbn [refs length]. now rewrite IH. Qed.
(** ** tight multivectors *)
Section Tight.
Context (m : metric).
Local Notation n := (dim m).
Local Notation any := (fun _ : N => True).
Definition tight (x : mv) : Prop := exists tx, packed x tx /\ proper n tx /\ length (terms x) = length tx.
Lemma tight_syn x : tight x -> syn n any x.
Proof.
  intros (tx & A & B & _). exists tx. split; [exact A|]. split; [exact B|]. unfold idsl. apply Forall_forall. intros s _. apply Forall_forall. intros i _. exact I.
Qed.
Lemma tight_fit x : tight x -> length (terms x) = tsz x.
Proof. intros (tx & A & _ & L). now rewrite L, (pk_tsz _ _ A). Qed.
Lemma tight_small x : tight x -> (N.of_nat (tsz x) <= 2 ^ N.of_nat n)%N.
Proof. intros (tx & A & B & _). rewrite (pk_tsz _ _ A). now apply proper_count. Qed.
Lemma syns l : Forall tight l -> Forall (syn n any) l.
Proof. intros F. eapply Forall_impl; [|exact F]. apply tight_syn. Qed.
Lemma shrink_tight x z : syn n any x -> shrink x = Ok z -> tight z.
Proof. intros (tx & A & B & C) H. destruct (shrink_packed _ _ _ A H) as [P L]. exists tx. auto. Qed.
Lemma with_mons_tight x z (P : N -> Prop) : tight x -> terms z = terms x -> tsz z = tsz x -> syn n P z -> tight z.
Proof.
  intros (tx & A & B & L) E1 E2 (tz & A' & B' & _). exists tz. split; [exact A'|]. split; [exact B'|]. rewrite E1, L, <- (pk_tsz _ _ A), <- E2. apply (pk_tsz _ _ A').
Qed.
Lemma reverse_tight x z : tight x -> reverse x = Ok z -> tight z.
Proof.
  intros T H. eapply with_mons_tight; [exact T| | |eapply reverse_syn; [apply tight_syn; exact T|exact H]]; unfold reverse in H; minv H; minv H; injection H as <-; reflexivity.
Qed.
Lemma scale_tight q x z : num q <> 0%Z -> (0 < den q)%Z -> tight x -> Model_MV.scale Exact q x = Ok z -> tight z.
Proof.
  intros Q D T H. eapply with_mons_tight; [exact T| | |eapply scale_syn; [exact Q|exact D|apply tight_syn; exact T|exact H]]; unfold Model_MV.scale in H; minv H; injection H as <-; reflexivity.
Qed.
Lemma dual_tight x z : tight x -> poincare_dual Exact (dimension m) x = Ok z -> tight z.
Proof.
  intros (tx & A & B & L) H. rewrite <- dim_N in H. destruct (rr_ok _ _ _ _ (poincare_dual_eq Exact (N.of_nat n) x tx A) H) as (t & E & Z0 & CP). exists t. split; [exact Z0|].
  split; [exact (dual_proper _ _ _ B E)|]. destruct CP as (_ & _ & CP). rewrite CP. cbn [ct caps_of]. rewrite (dual_count _ _ _ B E). exact L.
Qed.
Lemma ref_tight x i : tight x -> tight (create_ref x i).
Proof.
  intros (tx & A & B & L). exists (refs i tx). destruct (create_ref_packed x tx i A L) as [P Q]. split; [exact P|]. destruct B as [[B1 _] _ _ _ B5].
  split; [now apply refs_proper|]. rewrite refs_length. unfold caps_of in Q. now injection Q as _ _ Q.
Qed.
Lemma float_tight i : tight (float_ie i).
Proof.
  destruct (float_syn n any i I) as (tx & A & B & _). exists tx. split; [exact A|]. split; [exact B|]. rewrite <- (pk_tsz _ _ A). reflexivity.
Qed.
Lemma blade_tight g : (g < 2 ^ N.of_nat n)%N -> tight (blade_mv g).
Proof.
  intros G. destruct (blade_syn n any g G) as (tx & A & B & _). exists tx. split; [exact A|]. split; [exact B|]. rewrite <- (pk_tsz _ _ A). reflexivity.
Qed.
Lemma zero_tight : tight zero_mv.
Proof. destruct (zero_syn n any) as (tx & A & B & _). exists tx. split; [exact A|]. split; [exact B|]. rewrite <- (pk_tsz _ _ A). reflexivity. Qed.
Lemma apply_tight nd args args' : algebraic_node n nd = true -> no nd <> op_se -> no nd <> op_id -> no nd <> op_cse ->
  apply_op Exact m nd args = Ok args' -> Forall tight args -> Forall tight args'.
Proof.
  intros AL N0 N1 N2 H A. unfold algebraic_node in AL. rewrite (proj2 (N.eqb_neq _ _) N0) in AL. unfold apply_op in H.
  destruct (N.eqb_spec (no nd) op_rev) as [C0|C0].
  - destruct args as [|x s]; [discriminate|]. cbn [top1 bind] in H. binds. inversion_clear A. constructor; [|assumption]. eapply reverse_tight; eauto.
  - destruct (N.eqb_spec (no nd) op_pd) as [C|C].
    { destruct args as [|x s]; [discriminate|]. cbn [top1 bind] in H. binds. inversion_clear A. constructor; [|assumption]. eapply dual_tight; eauto. }
    destruct (N.eqb_spec (no nd) op_sum) as [C1|C1].
    { minv H. destruct v as [a r]. destruct (topn_all _ _ _ _ A E) as [F1 F2]. binds. constructor; [|exact F2]. eapply shrink_tight; [|eassumption]. eapply fold_sum_syn; [|eassumption]. now apply syns. }
    destruct (N.eqb_spec (no nd) op_gp) as [C2|C2].
    { destruct args as [|y [|x s]]; try discriminate. cbn [Model_Dfa.top2 bind] in H. binds. inversion_clear A as [|? ? A1 A2]. inversion_clear A2 as [|? ? A3 A4].
      constructor; [|assumption]. eapply shrink_tight; [|eassumption]. eapply product_syn; [apply tight_syn; exact A3|apply tight_syn; exact A1|eassumption]. }
    destruct (N.eqb_spec (no nd) op_ep) as [C3|C3].
    { minv H. destruct v as [a r]. destruct (topn_all _ _ _ _ A E) as [F1 F2]. binds. constructor; [|exact F2]. eapply shrink_tight; [|eassumption].
      eapply fold_ep_syn; [|eassumption]. apply Forall_rev. now apply syns. }
    destruct (N.eqb_spec (no nd) op_lc) as [C4|C4].
    { destruct args as [|y [|x s]]; try discriminate. cbn [Model_Dfa.top2 bind] in H. binds. inversion_clear A as [|? ? A1 A2]. inversion_clear A2 as [|? ? A3 A4].
      constructor; [|assumption]. eapply shrink_tight; [|eassumption]. eapply product_syn; [apply tight_syn; exact A3|apply tight_syn; exact A1|eassumption]. }
    destruct (N.eqb_spec (no nd) op_sip) as [C5|C5].
    { destruct args as [|y [|x s]]; try discriminate. cbn [Model_Dfa.top2 bind] in H. binds. inversion_clear A as [|? ? A1 A2]. inversion_clear A2 as [|? ? A3 A4].
      constructor; [|assumption]. eapply shrink_tight; [|eassumption]. eapply product_syn; [apply tight_syn; exact A3|apply tight_syn; exact A1|eassumption]. }
    destruct (N.eqb_spec (no nd) op_div) as [D1|D1]; [rewrite D1 in AL; discriminate AL|]. destruct (N.eqb_spec (no nd) op_sqrt) as [D2|D2]; [rewrite D2 in AL; discriminate AL|].
    destruct (N.eqb_spec (no nd) op_sin) as [D3|D3]; [rewrite D3 in AL; discriminate AL|]. destruct (N.eqb_spec (no nd) op_cos) as [D4|D4]; [rewrite D4 in AL; discriminate AL|].
    destruct (N.eqb_spec (no nd) op_tan) as [D5|D5]; [rewrite D5 in AL; discriminate AL|].
    destruct (N.eqb_spec (no nd) op_comp) as [C6|C6].
    { destruct args as [|x s]; [discriminate|]. cbn [top1 bind] in H. binds. inversion_clear A. constructor; [|assumption].
      eapply shrink_tight; [|eassumption]. eapply component_syn; [apply tight_syn; eassumption|eassumption]. }
    destruct (N.eqb_spec (no nd) op_grd) as [C7|C7]; [rewrite C7 in AL; discriminate AL|].
    destruct (N.eqb_spec (no nd) c_zero) as [C8|C8]; [binds; constructor; [apply zero_tight|assumption]|].
    destruct (N.ltb_spec (no nd) c_const_end) as [C9|C9]; binds; (constructor; [|assumption]).
    + apply float_tight.
    + apply blade_tight. destruct (N.leb_spec c_scalar (no nd)) as [C10|C10].
      * apply orb_true_iff in AL as [AL|AL]; [|now apply N.ltb_lt in AL]. apply existsb_exists in AL as (o & Io & Eo). apply N.eqb_eq in Eo. exfalso. rewrite Eo in *. clear - Io C10.
        repeat (destruct Io as [<-|Io]; [vm_compute in C10; now apply C10|]). destruct Io.
      * replace (no nd - c_scalar)%N with 0%N by (clear - C10; lia). apply N.neq_0_lt_0, N.pow_nonzero. discriminate.
Qed.
(** ** programs with temporaries *)
Definition shared_node (nd : node) : bool := algebraic_node n nd || (no nd =? op_noop)%N.
Record tst (st : rstate) : Prop := { ts_in : Forall tight (r_in st); ts_temps : Forall (fun p => tight (fst p)) (r_temps st); ts_args : Forall tight (r_args st) }.
Lemma step_tight nd st st' : shared_node nd = true -> no nd <> op_se -> tst st -> rpn_step Exact m false nd st = Ok st' ->
  fit n nd (r_args st) = true /\ must_store nd = false /\ tst st' /\ (r_cnt st' <= r_cnt st + 2 ^ N.of_nat n)%N.
Proof.
  intros AL N0 [T1 T2 T3] H. unfold shared_node in AL. unfold rpn_step in H.
  assert (FIT : no nd <> op_noop -> algebraic_node n nd = true /\ must_store nd = false /\ fit n nd (r_args st) = true).
  { intros NN. rewrite (proj2 (N.eqb_neq _ _) NN), orb_false_r in AL. split; [exact AL|]. unfold algebraic_node in AL. rewrite (proj2 (N.eqb_neq _ _) N0) in AL.
    apply orb_true_iff in AL as [AL|AL]; [now apply (plain_fit n nd)|]. apply andb_true_iff in AL as [A3 A4]. unfold must_store, fit, is_fn.
    repeat match goal with |- context [(no nd =? ?k)%N] => replace (no nd =? k)%N with false by (symmetry; apply N.eqb_neq; intros X; rewrite X in A3; vm_compute in A3; discriminate A3) end. cbn [orb]. rewrite A3. auto. }
  destruct (N.eqb_spec (no nd) op_id) as [C|C].
  { destruct FIT as (_ & F1 & F2); [rewrite C; discriminate|]. destruct (r_in st) as [|x rest] eqn:EI; [discriminate|]. cbn [top1 bind] in H. injection H as <-. inversion_clear T1 as [|? ? G1 G2].
    split; [exact F2|]. split; [exact F1|]. split; [constructor; cbn; auto|cbn; lia]. }
  destruct (N.eqb_spec (no nd) op_cse) as [C1|C1].
  { destruct FIT as (_ & F1 & F2); [rewrite C1; discriminate|]. destruct (nth_error (r_temps st) (nex nd)) as [[x i]|] eqn:EN; [|discriminate]. injection H as <-.
    split; [exact F2|]. split; [exact F1|]. split; [|cbn; lia]. constructor; cbn [r_in r_temps r_args]; auto. constructor; [|exact T3]. apply ref_tight.
    rewrite Forall_forall in T2. exact (T2 _ (nth_error_In _ _ EN)). }
  destruct (N.eqb_spec (no nd) op_noop) as [C2|C2].
  { destruct (r_args st) as [|x s] eqn:EA; [discriminate|]. cbn [top1 bind] in H. injection H as <-. inversion_clear T3 as [|? ? G1 G2].
    split; [unfold fit; rewrite C2; apply Nat.eqb_eq, tight_fit; exact G1|]. split; [unfold must_store, is_fn; rewrite C2; reflexivity|]. split.
    - constructor; cbn [r_in r_temps r_args]; auto. apply Forall_app. split; [exact T2|]. constructor; [exact G1|constructor].
    - cbn [r_cnt]. pose proof (tight_small _ G1). lia. }
  destruct (FIT C2) as (F0 & F1 & F2). minv H. injection H as <-. split; [exact F2|]. split; [exact F1|]. split; [|cbn; lia]. constructor; cbn [r_in r_temps r_args]; auto.
  eapply apply_tight; eauto.
Qed.
Lemma close_tight nd st sub st' : algebraic_node n nd = true -> no nd = op_se -> tst st -> tst sub -> rpn_close Exact nd st sub = Ok st' -> tst st' /\ r_cnt st' = r_cnt st.
Proof.
  intros AL C [T1 T2 T3] [S1 S2 S3] H. unfold rpn_close in H. destruct (r_args sub) as [|x s] eqn:EA; [discriminate|]. cbn [top1 bind] in H. minv H. injection H as <-. rename v into y.
  inversion_clear S3 as [|? ? G1 G2]. unfold algebraic_node in AL. rewrite C in AL. codes AL. split; [|reflexivity]. constructor; cbn [r_in r_temps r_args]; auto. constructor; [|exact T3].
  destruct (Z.eqb_spec (num (nq nd)) 0) as [Z0|Z0]; [injection E as <-; exact G1|]. cbn [orb] in AL. apply Z.ltb_lt in AL. eapply scale_tight; eauto.
Qed.
Lemma shared_fits l : forall f st st', forallb shared_node l = true -> length l < f -> tst st -> rpn_run Exact m false f l st = Ok st' ->
  fits Exact m false l st /\ tst st' /\ (r_cnt st' <= r_cnt st + N.of_nat (length l) * 2 ^ N.of_nat n)%N.
Proof.
  remember (length l) as k eqn:K. revert l K. induction k as [k IH] using lt_wf_ind. intros l -> f st st' A LF T H.
  destruct f as [|f]; [lia|]. cbn [rpn_run] in H. destruct l as [|nd l]; [injection H as <-; split; [constructor|]; split; [exact T|lia]|]. cbn [forallb length] in *. apply andb_true_iff in A as [A1 A2].
  destruct (N.eqb_spec (no nd) op_se) as [C|C].
  - destruct (Nat.ltb_spec (length l) (nex nd)) as [L|L]; [discriminate|]. minv H. rename v into sub. minv H. rename v into st1.
    assert (AN : algebraic_node n nd = true) by (unfold shared_node in A1; rewrite C in A1; now rewrite orb_false_r in A1).
    assert (LB : length (firstn (nex nd) l) = nex nd) by (apply firstn_length_le; lia).
    assert (A3 : forallb shared_node (firstn (nex nd) l) = true /\ forallb shared_node (skipn (nex nd) l) = true).
    { rewrite <- (firstn_skipn (nex nd) l), forallb_app in A2. now apply andb_true_iff in A2. }
    destruct A3 as [A3 A4].
    assert (TO : tst (rpn_open st)) by (destruct T; constructor; cbn; auto).
    destruct (IH (length (firstn (nex nd) l)) ltac:(lia) _ eq_refl f (rpn_open st) sub A3 ltac:(lia) TO E) as (F1 & TS & _).
    destruct (close_tight nd st sub st1 AN C T TS E0) as [T1 CE].
    assert (LS : length (skipn (nex nd) l) = length l - nex nd) by (apply skipn_length).
    destruct (IH (length (skipn (nex nd) l)) ltac:(lia) _ eq_refl f st1 st' A4 ltac:(lia) T1 H) as (F2 & TT & CB).
    split; [|split; [exact TT|]].
    + rewrite <- (firstn_skipn (nex nd) l). eapply fits_se.
      * exact C.
      * now rewrite LB.
      * unfold algebraic_node in AN. rewrite C in AN. codes AN. lia.
      * exact F1.
      * rewrite <- E. apply run_fuel; lia.
      * exact E0.
      * exact F2.
    + rewrite CE in CB. etransitivity; [exact CB|]. apply N.add_le_mono_l. apply N.mul_le_mono_r. lia.
  - minv H. rename v into st1. destruct (step_tight nd st st1 A1 C T E) as (G1 & G2 & T1 & CB). destruct (IH (length l) ltac:(lia) l eq_refl f st1 st' A2 ltac:(lia) T1 H) as (F2 & TT & CB2).
    split; [eapply fits_step; eauto|]. split; [exact TT|]. lia.
Qed.
End Tight.
