(** The symbolic evaluation computes what the stack machine computes: whole programs. *)
From Coq Require Import ZArith NArith List Bool Arith Lia ZifyBool ZifyN ZifyNat Reals Lra Sorting.Sorted Sorting.Permutation.
From Verif Require Import Base Model_Numeric Model_Blade Model_Sort Model_MV Model_Product Model_Expr Model_Dfa
  Spec_Numeric Spec_Sort Spec_Clifford Spec_Basis Spec_MV Spec_Expr Spec_Dfa Proof_Layout Proof_Basis Proof_Proper Proof_Dfa.
Import ListNotations.
Local Open Scope nat_scope.

Ltac codes H := repeat match type of H with
  | context [N.eqb ?a ?b] => let c := eval vm_compute in (N.eqb a b) in match c with true => idtac | false => idtac end; change (N.eqb a b) with c in H; cbv iota in H
  | context [N.ltb ?a ?b] => let c := eval vm_compute in (N.ltb a b) in match c with true => idtac | false => idtac end; change (N.ltb a b) with c in H; cbv iota in H
  | context [N.leb ?a ?b] => let c := eval vm_compute in (N.leb a b) in match c with true => idtac | false => idtac end; change (N.leb a b) with c in H; cbv iota in H
  end.
Ltac binds := repeat match goal with
  | H : bind ?r _ = Ok _ |- _ => let E := fresh "B" in destruct r eqn:E; cbn [bind] in H; [|discriminate H]
  | H : Ok _ = Ok _ |- _ => injection H as <- end.
Ltac use_code C R := unfold rpn_step, apply_op in R; rewrite C in R; codes R.


Local Notation means := mv_means.

(** ** the run of the program *)
Section Run.
Context (md : mode) (m : metric) (nb : bool).
Lemma run_fuel l : forall f f' st, length l < f -> length l < f' -> rpn_run md m nb f l st = rpn_run md m nb f' l st.
Proof.
  remember (length l) as k eqn:K. revert l K. induction k as [k IH] using lt_wf_ind. intros l -> f f' st F F'.
  destruct f as [|f]; [lia|]. destruct f' as [|f']; [lia|]. cbn [rpn_run]. destruct l as [|n l]; [reflexivity|]. cbn [length] in *.
  destruct (no n =? op_se)%N.
  - destruct (Nat.ltb_spec (length l) (nex n)) as [L|L]; [reflexivity|].
    pose proof (firstn_length (nex n) l). pose proof (skipn_length (nex n) l).
    rewrite (IH (length (firstn (nex n) l)) ltac:(lia) _ eq_refl f f') by lia.
    destruct (rpn_run md m nb f' (firstn (nex n) l) (rpn_open st)) as [sub|]; [|reflexivity]. cbn [bind].
    destruct (rpn_close md n st sub); [|reflexivity]. cbn [bind]. apply (IH (length (skipn (nex n) l))); lia.
  - destruct (rpn_step md m nb n st); [|reflexivity]. cbn [bind]. apply (IH (length l)); lia.
Qed.
Lemma step_temps n st st' : rpn_step md m nb n st = Ok st' -> exists r, r_temps st' = r_temps st ++ r.
Proof.
  unfold rpn_step. intros H. destruct (_ =? _)%N.
  - mop_bind H. destruct u as [x rest]. mop_bind H. injection H as <-. exists []. now rewrite app_nil_r.
  - destruct (_ =? _)%N.
    + destruct (nth_error _ _) as [[x i]|]; [|discriminate]. injection H as <-. exists []. now rewrite app_nil_r.
    + destruct (_ =? _)%N.
      * mop_bind H. destruct u as [x s]. injection H as <-. eexists. reflexivity.
      * mop_bind H. injection H as <-. exists []. now rewrite app_nil_r.
Qed.
Lemma close_temps n st sub st' : rpn_close md n st sub = Ok st' -> r_temps st' = r_temps sub /\ r_in st' = r_in sub.
Proof. unfold rpn_close. intros H. mop_bind H. destruct u as [x s]. mop_bind H. injection H as <-. auto. Qed.
Lemma run_temps f : forall l st st', rpn_run md m nb f l st = Ok st' -> exists r, r_temps st' = r_temps st ++ r.
Proof.
  induction f as [|f IH]; intros l st st' H; [discriminate|]. cbn [rpn_run] in H. destruct l as [|n l].
  - injection H as <-. exists []. now rewrite app_nil_r.
  - destruct (_ =? _)%N.
    + destruct (_ <? _); [discriminate|]. mop_bind H. rename u into sub, u0 into st1. apply IH in E as [r1 E1].
      apply close_temps in E0 as [C _]. apply IH in H as [r2 E2]. exists (r1 ++ r2). rewrite E2, C, E1. now rewrite app_assoc.
    + mop_bind H. apply step_temps in E as [r1 E1]. apply IH in H as [r2 E2]. exists (r1 ++ r2). rewrite E2, E1. now rewrite app_assoc.
Qed.
End Run.

(** ** values *)
Section Sound.
Context (m : metric) (nb : bool) (env : list V) (rho : N -> R).
Local Notation n := (dim m).
Hypothesis Hpi : rho ind_constant_start = PI.
Hypothesis He : rho (ind_constant_start + 1)%N = exp 1.
Hypothesis Hn : nb = true -> 2 <= n.

Lemma dim_N : N.of_nat n = dimension m. Proof. unfold dim. apply N2Nat.id. Qed.
(** the value of a sum does not depend on the order *)
Lemma vsum_app l r b : vsum (l ++ r) b = (vsum l b + vsum r b)%R.
Proof. unfold vsum. induction l as [|v l IH]; cbn [app fold_right]; unfold vadd, vzero in *; [ring|]. rewrite IH. ring. Qed.
Lemma vsum_rev l b : vsum (rev l) b = vsum l b.
Proof. induction l as [|v l IH]; [reflexivity|]. cbn [rev]. rewrite vsum_app, IH. unfold vsum. cbn [fold_right]. unfold vadd, vzero. ring. Qed.
Lemma fold_sum_means xs : forall vs z, Forall2 (means rho n) xs vs -> fold_sum Exact xs = Ok z -> means rho n z (vsum vs).
Proof.
  induction xs as [|x xs IH]; intros vs z F H; [discriminate|]. inversion_clear F as [|? v ? vs' Fx Fs]. destruct xs as [|x' xs].
  - inversion_clear Fs. injection H as <-. apply (means_ext rho n x v); [|exact Fx]. intros b. unfold vsum. cbn [fold_right]. unfold vadd, vzero. ring.
  - cbn [fold_sum] in H. mop_bind H. apply (sum_means rho n x u); auto.
Qed.
Lemma fold_ep_means xs : forall vs z, Forall2 (means rho n) xs vs -> fold_ep Exact m xs = Ok z -> means rho n z (vwedge m vs).
Proof.
  induction xs as [|x xs IH]; intros vs z F H; [discriminate|]. inversion_clear F as [|? v ? vs' Fx Fs]. destruct xs as [|x' xs].
  - inversion_clear Fs. injection H as <-. exact Fx.
  - cbn [fold_ep] in H. mop_bind H. assert (NE : vs' <> []) by (inversion_clear Fs; discriminate).
    destruct vs' as [|v' vs']; [contradiction|]. cbn [vwedge]. apply (product_means rho n m Exterior x u z); [reflexivity|exact Fx|exact (IH (v' :: vs') u Fs E)|exact H].
Qed.
Lemma topn_means k args l s t r : Forall2 (means rho n) args (l ++ s) -> length l = k -> topn k args = Ok (t, r) ->
  Forall2 (means rho n) t l /\ Forall2 (means rho n) r s.
Proof.
  intros F L H. unfold topn in H. destruct (_ || _); [discriminate|]. injection H as <- <-.
  apply Forall2_app_inv_r in F as (a1 & a2 & F1 & F2 & ->). pose proof (Forall2_len _ _ _ F1) as LL. subst k. rewrite <- LL.
  rewrite firstn_app, skipn_app, firstn_all, skipn_all, Nat.sub_diag. cbn. rewrite app_nil_r. auto.
Qed.
Lemma Forall2_rev' {A B} (P : A -> B -> Prop) l r : Forall2 P l r -> Forall2 P (rev l) (rev r).
Proof. induction 1; cbn; [constructor|]. apply Forall2_app; auto. Qed.

(** the invariant *)
Definition temps_mean (ts : list (mv * N)) (t : list V) : Prop := Forall2 (fun p v => means rho n (create_ref (fst p) (snd p)) v) ts t.
Definition stack_means (args : list mv) (s : list V) : Prop := Forall2 (means rho n) args s.

Lemma step_sound nd st st' t s t' s' : must_store nd = false -> fit n nd (r_args st) = true ->
  rpn_step Exact m nb nd st = Ok st' -> step m env nd (t, s) (t', s') ->
  temps_mean (r_temps st) t -> stack_means (r_args st) s -> Forall (temp_holds rho) (r_temps st') ->
  (is_id nd = true -> exists x rest v, r_in st = x :: rest /\ nth_error env (nex nd) = Some v /\ input_means rho m nb x v) ->
  temps_mean (r_temps st') t' /\ stack_means (r_args st') s' /\ r_in st' = (if is_id nd then tl (r_in st) else r_in st).
Proof.
  intros MS FT R S T A TH IN.
  inversion S as [nd0 t0 s0 v C NE|nd0 t0 s0 v C NE|nd0 t0 s0 v C|nd0 t0 s0 v C|nd0 t0 s0 v C|nd0 t0 s0 v w k C|nd0 t0 s0 l C L0 L1|nd0 t0 s0 l C L0 L1
    |nd0 t0 s0 v C|nd0 t0 s0 v C|nd0 t0 s0 v w C|nd0 t0 s0 v f C|nd0 t0 s0 C|nd0 t0 s0 C|nd0 t0 s0 C|nd0 t0 s0 C]; subst.
  - (* id *) use_code C R. unfold is_id in *. rewrite C in IN |- *. codes IN. destruct (IN eq_refl) as (x & rest & v' & E1 & E2 & E3).
    rewrite E1 in *. cbn [top1 bind] in R. rewrite NE in E2. injection E2 as <-. mop_bind R. injection R as <-. cbn. split; [exact T|]. split; [|reflexivity].
    constructor; [|exact A]. unfold input_means in E3. destruct nb.
    + destruct E3 as (w & W1 & W2). apply (means_ext rho n u (fun b => if (b <? 2 ^ N.of_nat n)%N then linear n (outermorphism n (null_to_natural n)) w b else 0%R)).
      * intros b. rewrite W2, dim_N. reflexivity.
      * apply (natural_means rho n x u w); [auto|exact W1|]. rewrite dim_N. exact E.
    + injection E as <-. exact E3.
  - (* cse *) use_code C R. destruct (nth_error (r_temps st) (nex nd)) as [[x i]|] eqn:NX; [|discriminate]. injection R as <-. cbn.
    unfold is_id. rewrite C. split; [exact T|]. split; [|reflexivity]. constructor; [|exact A].
    clear -T NX NE. revert t' T NX NE. generalize (nex nd). induction (r_temps st) as [|p ps IH]; intros k t' T NX NE; [destruct k; discriminate|].
    inversion T as [|? v0 ? t0 T1 T2]; subst. destruct k as [|k]; cbn in *; [|eapply IH; eauto]. injection NX as ->. injection NE as ->. exact T1.
  - (* noop *) use_code C R. unfold is_id. rewrite C. codes FT. unfold fit in FT. rewrite C in FT. codes FT.
    inversion A as [|x ? args ? Ax As EQ]; subst. rewrite <- EQ in *. cbn [top1 bind] in R. injection R as <-. cbn in TH |- *. split; [|auto].
    apply Forall2_app; [exact T|]. constructor; [|constructor]. cbn [fst snd]. apply Forall_app in TH as [_ TH]. inversion_clear TH.
    apply ref_means; [lia|now apply means_stores|assumption].
  - (* rev *) use_code C R. unfold is_id. rewrite C. inversion A as [|x ? args ? Ax As EQ]; subst. rewrite <- EQ in *. cbn [top1 bind] in R. mop_bind R.
    injection R as <-. mop_bind E. injection E as <-. cbn. split; [exact T|]. split; [|reflexivity]. constructor; [|exact As]. eapply reverse_means; eauto.
  - (* pd *) use_code C R. unfold is_id. rewrite C. inversion A as [|x ? args ? Ax As EQ]; subst. rewrite <- EQ in *. cbn [top1 bind] in R. mop_bind R.
    injection R as <-. mop_bind E. injection E as <-. cbn. split; [exact T|]. split; [|reflexivity]. constructor; [|exact As]. rewrite <- dim_N in E0. eapply dual_means; eauto.
  - (* binary *) 
    inversion A as [|y ? args1 ? Ay A1 EQ]; subst. inversion A1 as [|x ? args ? Ax As EQ1]; subst. rewrite <- EQ in *.
    assert (G : forall z z', product Exact (blade_product m k) x y = Ok z -> shrink z = Ok z' -> means rho n z' (vprod m k v w)).
    { intros z z' P1 P2. eapply shrink_means; [|exact P2]. eapply product_means; eauto. }
    unfold binop in C.
    destruct (N.eqb_spec (no nd) op_gp) as [C1|_]; [|destruct (N.eqb_spec (no nd) op_lc) as [C1|_]; [|destruct (N.eqb_spec (no nd) op_sip) as [C1|_]; [|discriminate]]];
    injection C as <-; use_code C1 R; unfold is_id; rewrite C1; rewrite <- EQ in R; cbn [Model_Dfa.top2 bind] in R; binds; cbn;
    (split; [exact T|]); (split; [|reflexivity]); (constructor; [|exact As]); eauto.
  - (* sum *) use_code C R. unfold is_id. rewrite C. mop_bind R. injection R as <-. mop_bind E. destruct u0 as [a r]. mop_bind E. injection E as <-. cbn.
    destruct (topn_means _ _ (rev l) s0 _ _ A (eq_trans (rev_length l) L1) E0) as [F1 F2].
    split; [exact T|]. split; [|reflexivity]. constructor; [|exact F2]. eapply shrink_means; [|eassumption].
    apply (means_ext rho n _ (vsum (rev l))); [apply vsum_rev|]. eapply fold_sum_means; eauto.
  - (* ep *) use_code C R. unfold is_id. rewrite C. mop_bind R. injection R as <-. mop_bind E. destruct u0 as [a r]. mop_bind E. injection E as <-. cbn.
    destruct (topn_means _ _ (rev l) s0 _ _ A (eq_trans (rev_length l) L1) E0) as [F1 F2].
    split; [exact T|]. split; [|reflexivity]. constructor; [|exact F2]. eapply shrink_means; [|eassumption].
    apply Forall2_rev' in F1. rewrite rev_involutive in F1. eapply fold_ep_means; eauto.
  - (* component *) use_code C R. unfold is_id. rewrite C. inversion A as [|x ? args ? Ax As EQ]; subst. rewrite <- EQ in *. cbn [top1 bind] in R. mop_bind R.
    injection R as <-. mop_bind E. injection E as <-. cbn. split; [exact T|]. split; [|reflexivity]. constructor; [|exact As].
    eapply shrink_means; [|eassumption]. eapply component_means; eauto.
  - (* grade *) use_code C R. unfold is_id. rewrite C. unfold fit in FT. rewrite C in FT. codes FT. inversion A as [|x ? args ? Ax As EQ]; subst. rewrite <- EQ in *. cbn [top1 bind] in R. mop_bind R.
    injection R as <-. mop_bind E. injection E as <-. cbn. split; [exact T|]. split; [|reflexivity]. constructor; [|exact As].
    eapply shrink_means; [|eassumption]. eapply grade_means; eauto.
  - (* div *) unfold must_store in MS. rewrite C in MS. discriminate.
  - (* fn *) unfold must_store, is_fn in MS. unfold Spec_Expr.fn in C. destruct (no nd =? op_sqrt)%N, (no nd =? op_sin)%N, (no nd =? op_cos)%N, (no nd =? op_tan)%N; rewrite ?orb_true_r in MS; discriminate.
  - (* zero *) use_code C R. unfold is_id. rewrite C. cbn [bind] in R. injection R as <-. cbn. split; [exact T|]. split; [|reflexivity]. constructor; [|exact A]. apply zero_means.
  - (* pi *) use_code C R. unfold is_id. rewrite C. cbn [bind] in R. injection R as <-. cbn [r_temps r_args r_in]. split; [exact T|]. split; [|reflexivity]. constructor; [|exact A].
    rewrite <- Hpi. change (constant_mv c_pi) with (float_ie ind_constant_start). apply float_means.
  - (* e *) use_code C R. unfold is_id. rewrite C. cbn [bind] in R. injection R as <-. cbn [r_temps r_args r_in]. split; [exact T|]. split; [|reflexivity]. constructor; [|exact A].
    rewrite <- He. change (constant_mv c_e) with (float_ie (ind_constant_start + 1)). apply float_means.
  - (* blade *)
    assert (NO : forall o, (o < c_scalar)%N -> (no nd =? o)%N = false) by (intros; lia).
    unfold fit in FT. unfold is_id. unfold rpn_step, apply_op in R. unfold is_fn in FT.
    rewrite !NO in R by reflexivity. rewrite !NO in FT by reflexivity. rewrite NO by reflexivity. replace (no nd <? c_const_end)%N with false in R by (unfold c_const_end, c_scalar in *; lia).
    cbn [orb] in FT. replace (c_scalar <=? no nd)%N with true in FT by lia. cbn [bind] in R. injection R as <-. cbn [r_temps r_args r_in].
    split; [exact T|]. split; [|reflexivity]. constructor; [|exact A]. apply blade_means. lia.
Qed.

Lemma store_sound nd st st1 t s t1 s1 : must_store nd = true -> fit n nd (r_args st) = true ->
  rpn_step Exact m nb nd st = Ok st1 -> step m env nd (t, s) (t1, s1) -> stack_means (r_args st) s ->
  exists x args v s0, r_args st1 = x :: args /\ s1 = v :: s0 /\ mv_stores rho n x v /\ stack_means args s0 /\
    r_temps st1 = r_temps st /\ r_cnt st1 = r_cnt st /\ t1 = t /\ r_in st1 = r_in st.
Proof.
  intros MS FT R S A. unfold must_store in MS.
  assert (CC : no nd = op_div \/ no nd = op_sqrt \/ no nd = op_sin \/ no nd = op_cos \/ no nd = op_tan) by (unfold is_fn in MS; lia).
  destruct CC as [C|CC].
  - use_code C R. unfold fit in FT. rewrite C in FT. codes FT. apply andb_true_iff in FT as [FT DV]. apply andb_true_iff in FT as [Q1 Q2].
    inversion S as [a1 a2 a3 v C' NE|a1 a2 a3 v C' NE|a1 a2 a3 v C'|a1 a2 a3 v C'|a1 a2 a3 v C'|a1 a2 a3 v w k C'|a1 a2 a3 l C' L0 L1|a1 a2 a3 l C' L0 L1
      |a1 a2 a3 v C'|a1 a2 a3 v C'|a1 a2 a3 v w C' SC W0|a1 a2 a3 v f C'|a1 a2 a3 C'|a1 a2 a3 C'|a1 a2 a3 C'|a1 a2 a3 C']; subst;
      try (rewrite C in C'; discriminate C'); try (unfold Spec_Expr.fn in C'; rewrite C in C'; discriminate C');
      try (rewrite C in C'; unfold c_scalar, op_div in C'; lia).
    inversion A as [|y ? args1 ? Ay A1 EQ]; subst. inversion A1 as [|x ? args ? Ax As EQ1]; subst. rewrite <- EQ in R, DV. cbn [Model_Dfa.top2 bind] in R. binds.
    exists a0, args, (vscale (rv (nq nd) / w 0%N) v), a3. repeat (split; [reflexivity|]). split; [|repeat (split; [first [exact As|reflexivity]|]); reflexivity].
    apply (divide_ok rho n x y (nq nd) a0 v w); auto; lia.
  - assert (FF : exists o, Spec_Expr.fn (no nd) = Some (op_fun o) /\
      rpn_step Exact m nb nd st = (args <- (' (x, s) <- top1 (r_args st);; y <- Model_MV.fn Exact o (nq nd) x;; Ok (y :: s));; Ok (mkrs (r_in st) (r_temps st) args (r_cnt st))) /\
      fit n nd (r_args st) = (0 <? den (nq nd))%Z && negb (num (nq nd) =? 0)%Z &&
        match r_args st with x :: _ => mono_scalar x || ((tsz x =? 0) && negb match o with mop_cos => true | _ => false end) | [] => true end /\
      fn (no nd) <> None /\ binop (no nd) = None /\ (no nd < c_scalar)%N).
    { destruct CC as [C|[C|[C|C]]]; [exists mop_sqrt|exists mop_sin|exists mop_cos|exists mop_tan]; unfold Spec_Expr.fn, rpn_step, apply_op, fit, is_fn, binop; rewrite C;
      (split; [reflexivity|]); (split; [reflexivity|]); (split; [|split; [discriminate|split; reflexivity]]); cbn -[mono_scalar];
      (destruct (r_args st) as [|x r]; [reflexivity|]); destruct (mono_scalar x), (tsz x =? 0); reflexivity. }
    destruct FF as (o & FO & RR & FI & FN & FB & FS). rewrite RR in R. rewrite FI in FT. apply andb_true_iff in FT as [FT DV]. apply andb_true_iff in FT as [Q1 Q2].
    inversion S as [a1 a2 a3 v C' NE|a1 a2 a3 v C' NE|a1 a2 a3 v C'|a1 a2 a3 v C'|a1 a2 a3 v C'|a1 a2 a3 v w k C'|a1 a2 a3 l C' L0 L1|a1 a2 a3 l C' L0 L1
      |a1 a2 a3 v C'|a1 a2 a3 v C'|a1 a2 a3 v w C' SC W0|a1 a2 a3 v f C' SC|a1 a2 a3 C'|a1 a2 a3 C'|a1 a2 a3 C'|a1 a2 a3 C']; subst;
      try (exfalso; apply FN; unfold Spec_Expr.fn; rewrite C'; reflexivity); try congruence; try (exfalso; lia).
    rewrite FO in C'. injection C' as <-. inversion A as [|x ? args ? Ax As EQ]; subst. rewrite <- EQ in R, DV. cbn [top1 bind] in R. binds.
    exists a0, args, (vscalar (op_fun o (rv (nq nd) * v 0%N))), a3. repeat (split; [reflexivity|]). split; [|repeat (split; [first [exact As|reflexivity]|]); reflexivity].
    apply (fn_ok rho n o (nq nd) x a0 v); auto; lia.
Qed.

Lemma app_same_length {A} (a b c d : list A) : length a = length c -> a ++ b = c ++ d -> a = c /\ b = d.
Proof.
  revert c. induction a as [|x a IH]; intros [|y c] L E; cbn in L; try lia; [auto|]. cbn in E. injection E as -> E.
  destruct (IH c ltac:(lia) E) as [-> ->]. auto.
Qed.
Lemma forall_prefix {A} (P : A -> Prop) a b c : a = b ++ c -> Forall P a -> Forall P b.
Proof. intros -> F. now apply Forall_app in F. Qed.

Theorem fits_sound l st : fits Exact m nb l st -> forall f st' t s t' s' rest ins, length l < f -> rpn_run Exact m nb f l st = Ok st' ->
  run m env l (t, s) (t', s') -> temps_mean (r_temps st) t -> stack_means (r_args st) s -> Forall (temp_holds rho) (r_temps st') ->
  r_in st = ins ++ rest -> inputs_mean rho m nb env l ins ->
  temps_mean (r_temps st') t' /\ stack_means (r_args st') s' /\ r_in st' = rest.
Proof.
  intros FT. induction FT as [st|nd l st st1 NS MS F R FT IH|nd k l st st1 st2 MS KN F R FK RK FT IH|nd b l st sub st1 NS NX QQ FB IHB RB RC FT IH];
    intros f st' t s t' s' rest ins LF RUN S T A TH IE IN; (destruct f as [|f]; [lia|]); cbn [rpn_run] in RUN.
  - injection RUN as <-. inversion S; subst. inversion IN; subst. auto.
  - replace (no nd =? op_se)%N with false in RUN by lia. rewrite R in RUN. cbn [bind] in RUN.
    inversion S as [|nd' l' sa sb sc NS' S1 S2|]; [subst|congruence]. destruct sb as [t1 s1].
    destruct (run_temps _ _ _ _ _ _ _ RUN) as [r Er].
    assert (IS : exists ins', r_in st1 = ins' ++ rest /\ inputs_mean rho m nb env l ins' /\ temps_mean (r_temps st1) t1 /\ stack_means (r_args st1) s1).
    { unfold inputs_mean in IN. cbn [filter] in IN. destruct (is_id nd) eqn:ID.
      - inversion IN as [|? x ? ins' (v & V1 & V2) IN']; subst ins. destruct (step_sound nd st st1 t s t1 s1 MS F R S1 T A) as (G1 & G2 & G3).
        + eapply forall_prefix; eauto.
        + intros _. exists x, (ins' ++ rest), v. auto.
        + rewrite ID, IE in G3. exists ins'. auto.
      - destruct (step_sound nd st st1 t s t1 s1 MS F R S1 T A) as (G1 & G2 & G3).
        + eapply forall_prefix; eauto.
        + rewrite ID. discriminate.
        + rewrite ID, IE in G3. exists ins. auto. }
    destruct IS as (ins' & I1 & I2 & I3 & I4). apply (IH f st' t1 s1 t' s' rest ins'); auto. cbn [length] in LF. lia.
  - assert (NS : no nd <> op_se) by (intros E; unfold must_store, is_fn in MS; rewrite E in MS; discriminate).
    replace (no nd =? op_se)%N with false in RUN by lia. rewrite R in RUN. cbn [bind] in RUN. destruct f as [|f]; [discriminate|]. cbn [rpn_run] in RUN.
    rewrite KN in RUN. codes RUN. rewrite RK in RUN. cbn [bind] in RUN.
    inversion S as [|nd' l' sa sb sc NS' S1 S2|]; [subst|congruence]. destruct sb as [t1 s1].
    destruct (store_sound nd st st1 t s t1 s1 MS F R S1 A) as (x & args & v & s0 & E1 & -> & SV & SA & E2 & E3 & -> & E4).
    inversion S2 as [|nd' l' sa sb sc NS2 S3 S4|n1 b1 l1 t2 t3 s2 v1 st3 N1 N2 N3 N4]; [subst|exfalso; subst; rewrite KN in N1; discriminate N1]. clear S2.
    use_code KN RK. rewrite E1 in RK. cbn [top1 bind] in RK. injection RK as <-. unfold fit in FK. rewrite KN, E1 in FK. codes FK.
    destruct (run_temps _ _ _ _ _ _ _ RUN) as [r Er]. cbn [r_temps] in Er.
    assert (TX : temp_holds rho (x, r_cnt st1)). { rewrite Er in TH. apply Forall_app in TH as [TH _]. apply Forall_app in TH as [_ TH]. now inversion_clear TH. }
    assert (SB : sb = (t ++ [v], s0)). { inversion S3 as [a1 a2 a3 v' C' NE|a1 a2 a3 v' C' NE|a1 a2 a3 v' C'|a1 a2 a3 v' C'|a1 a2 a3 v' C'|a1 a2 a3 v' w k' C'|a1 a2 a3 l' C' L0 L1|a1 a2 a3 l' C' L0 L1
      |a1 a2 a3 v' C'|a1 a2 a3 v' C'|a1 a2 a3 v' w C' SC W0|a1 a2 a3 v' f' C' SC|a1 a2 a3 C'|a1 a2 a3 C'|a1 a2 a3 C'|a1 a2 a3 C']; subst; try (rewrite KN in C'; discriminate C'); try reflexivity;
      try (unfold Spec_Expr.fn, binop in C'; rewrite KN in C'; discriminate C'). rewrite KN in C'. unfold c_scalar, op_noop in C'. lia. }
    subst sb. apply (IH f st' (t ++ [v]) s0 t' s' rest ins); auto.
    + cbn [length] in LF. lia.
    + cbn [r_temps]. rewrite E2. apply Forall2_app; [exact T|]. constructor; [|constructor]. cbn [fst snd]. apply ref_means; auto. lia.
    + cbn [r_in]. congruence.
    + assert (N1 : is_id k = false) by (unfold is_id; now rewrite KN).
      assert (N2 : is_id nd = false). { apply N.eqb_neq. intros E. unfold must_store, is_fn in MS. rewrite E in MS. discriminate. }
      unfold inputs_mean in *. cbn [filter] in IN. rewrite N2 in IN. cbn [filter] in IN. rewrite N1 in IN. exact IN.
  - rewrite NS in RUN. codes RUN. destruct (Nat.ltb_spec (length (b ++ l)) (nex nd)) as [L|L]; [discriminate|].
    rewrite NX in RUN. rewrite firstn_app, skipn_app, firstn_all, skipn_all, Nat.sub_diag in RUN. cbn [firstn skipn] in RUN. rewrite app_nil_r in RUN. cbn [app] in RUN.
    cbn [length] in LF. rewrite app_length in LF. rewrite (run_fuel _ _ _ b f (Datatypes.S (length b))) in RUN by lia. rewrite RB in RUN. cbn [bind] in RUN. rewrite RC in RUN. cbn [bind] in RUN.
    inversion S as [|nd' l' sa sb sc NS' S1 S2|nd' b' l' t0 t1 s0 v sc NS' NX' S1 S2 EQ]; [congruence|]. subst nd' t0 s0 sc. match goal with EQ : b' ++ l' = b ++ l |- _ => destruct (app_same_length b' l' b l ltac:(lia) EQ) as [-> ->]; clear EQ end. clear S.
    pose proof (close_temps _ _ _ _ _ RC) as [CT CI]. destruct (run_temps _ _ _ _ _ _ _ RUN) as [r Er].
    assert (N1 : is_id nd = false) by (unfold is_id; now rewrite NS).
    unfold inputs_mean in IN. cbn [filter] in IN. rewrite N1 in IN. rewrite filter_app in IN.
    apply Forall2_app_inv_l in IN as (i1 & i2 & IN1 & IN2 & ->).
    destruct (IHB (Datatypes.S (length b)) sub t [] t1 [v] (i2 ++ rest) i1 ltac:(lia) RB S1) as (G1 & G2 & G3); auto.
    + constructor.
    + eapply forall_prefix; [|exact TH]. rewrite Er, CT. reflexivity.
    + cbn. now rewrite IE, app_assoc.
    + inversion G2 as [|x ? args ? Gx Gs EQ]. subst. inversion Gs. subst. unfold rpn_close in RC. rewrite <- EQ in RC. cbn [top1 bind] in RC. mop_bind RC. injection RC as <-.
      apply (IH f st' t1 (se_scale (nq nd) v :: s) t' s' rest i2); auto; [lia|].
      cbn [r_args]. constructor; [|exact A]. unfold se_scale. destruct (Z.eqb_spec (num (nq nd)) 0) as [Z0|Z0].
      * injection E as <-. exact Gx.
      * apply (scale_means rho n (nq nd) x); auto. destruct QQ; [contradiction|assumption].
Qed.
End Sound.
