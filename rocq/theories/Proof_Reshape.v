(** Reshaping: a stack machine without windows, on which both programs are compared. *)
From Coq Require Import ZArith NArith List Bool Arith Lia ZifyBool ZifyN ZifyNat Reals.
From Verif Require Import Base Model_Numeric Model_Blade Model_Stack Model_Expr Model_Dfa Model_Reshape.
From Verif Require Import Spec_Numeric Spec_Clifford Spec_MV Spec_Basis Spec_Expr Spec_Reshape.
From Verif Require Import Proof_Expr Proof_Util.
Import ListNotations.
Local Open Scope nat_scope.

Section Flat.
Context (m : metric) (env : list V).
Notation step := (step m env). Notation run := (run m env). Notation nden := (nden m env). Notation ses := (ses m env).

(** ** nodes that neither open nor close a window *)
Definition special (o : N) : bool := existsb (N.eqb o) [op_se; op_sum; op_ep; op_cse; op_noop].
Definition poly (o : N) : bool := ((o =? op_sum) || (o =? op_ep))%N.
Ltac spec_no H := vm_compute in H; discriminate H.
Lemma step_plain_frame n vs w t s : special (no n) = false -> step n ([], vs) ([], [w]) -> length vs = arity (no n) -> step n (t, vs ++ s) (t, w :: s).
Proof.
  intros SP H L. inversion H; subst; cbn [app]; try (match goal with E : no n = _ |- _ => rewrite E in SP; spec_no SP end).
  - now apply st_id.
  - now apply st_rev.
  - now apply st_pd.
  - now apply st_bin.
  - now apply st_comp.
  - now apply st_grd.
  - now apply st_div.
  - now apply st_fn.
  - now apply st_zero.
  - now apply st_pi.
  - now apply st_e.
  - now apply st_blade.
Qed.

(** ** entries of the stack: values and the markers of summands and factors *)
Inductive entry := EV (v : V) | EM (q : rat).
Definition ev_of (p : rat * V) : list entry := [EV (snd p); EM (fst p)].
Definition pval (p : rat * V) : V := se_scale (fst p) (snd p).
(** top first *)
Definition stacked (l : list (rat * V)) : list entry := flat_map ev_of (rev l).
Inductive fstep : node -> list entry -> list entry -> Prop :=
| fs_plain n vs w s : special (no n) = false -> length vs = arity (no n) -> step n ([], vs) ([], [w]) -> fstep n (map EV vs ++ s) (EV w :: s)
| fs_se n s : no n = op_se -> fstep n s (EM (nq n) :: s)
| fs_sum n s l : no n = op_sum -> l <> [] -> length l = nex n -> fstep n (stacked l ++ s) (EV (vsum (map pval l)) :: s)
| fs_ep n s l : no n = op_ep -> l <> [] -> length l = nex n -> fstep n (stacked l ++ s) (EV (vwedge m (map pval l)) :: s).
Inductive frun : list node -> list entry -> list entry -> Prop :=
| fr_nil s : frun [] s s
| fr_cons n l s s' s'' : fstep n s s' -> frun l s' s'' -> frun (n :: l) s s''.
Lemma frun_app a b s s' s'' : frun a s s' -> frun b s' s'' -> frun (a ++ b) s s''.
Proof. induction 1; [auto|]. intros H1. cbn. econstructor; eauto. Qed.
Lemma frun_split a : forall b s s'', frun (a ++ b) s s'' -> exists s', frun a s s' /\ frun b s' s''.
Proof.
  induction a as [|n a IH]; intros b s s'' H; [exists s; split; [constructor|exact H]|]. cbn in H. inversion H; subst. match goal with X : frun (a ++ b) _ _ |- _ => apply IH in X as (s1 & A & B) end.
  exists s1. split; [econstructor; eauto|exact B].
Qed.
Lemma map_EV_inj a : forall b s t, length a = length b -> map EV a ++ s = map EV b ++ t -> a = b /\ s = t.
Proof.
  induction a as [|x a IH]; intros [|y b] s t L E; try discriminate; [auto|]. cbn in E. injection E as <- E. injection L as L. destruct (IH _ _ _ L E) as [<- <-]. auto.
Qed.
Lemma stacked_inj_aux a : forall b s t, length a = length b -> flat_map ev_of a ++ s = flat_map ev_of b ++ t -> a = b /\ s = t.
Proof.
  induction a as [|[q v] a IH]; intros [|[q' v'] b] s t L E; try discriminate; [auto|]. cbn in E. injection E as <- <- E. injection L as L. destruct (IH _ _ _ L E) as [<- <-]. auto.
Qed.
Lemma stacked_inj a b s t : length a = length b -> stacked a ++ s = stacked b ++ t -> a = b /\ s = t.
Proof.
  intros L E. apply stacked_inj_aux in E; [|rewrite !rev_length; exact L]. destruct E as [E ->]. split; [|reflexivity].
  apply (f_equal (@rev _)) in E. now rewrite !rev_involutive in E.
Qed.
Lemma fstep_det n s a b : fstep n s a -> fstep n s b -> a = b.
Proof.
  intros A B. inversion A; subst; inversion B; subst; try reflexivity;
    try (match goal with E : no n = _, E' : special (no n) = false |- _ => rewrite E in E'; spec_no E' end);
    try (match goal with E : no n = _, E' : no n = _ |- _ => rewrite E in E'; spec_no E' end).
  - match goal with H : map EV ?x ++ _ = map EV ?y ++ _ |- _ => apply map_EV_inj in H; [|congruence]; destruct H as [-> ->] end.
    match goal with H : step n _ ([], [?x]), H' : step n _ ([], [?y]) |- _ => pose proof (step_det _ _ _ _ _ _ H H') as Q; injection Q as -> end. reflexivity.
  - match goal with H : stacked _ ++ _ = stacked _ ++ _ |- _ => apply stacked_inj in H; [|congruence]; destruct H as [-> ->] end. reflexivity.
  - match goal with H : stacked _ ++ _ = stacked _ ++ _ |- _ => apply stacked_inj in H; [|congruence]; destruct H as [-> ->] end. reflexivity.
Qed.
Lemma frun_det l s a : frun l s a -> forall b, frun l s b -> a = b.
Proof. induction 1; intros b B; inversion B; subst; [reflexivity|]. apply IHfrun. match goal with H : fstep n s ?x, H' : fstep n s ?y |- _ => now rewrite (fstep_det _ _ _ _ H H') end. Qed.

(** ** grammatical programs *)
Lemma frun_one n s s' : fstep n s s' -> frun [n] s s'. Proof. intros H. econstructor; [exact H|constructor]. Qed.
Lemma plain_leaf n v s : special (no n) = false -> arity (no n) = 0 -> step n ([], []) ([], [v]) -> fstep n s (EV v :: s).
Proof. intros A B C. exact (fs_plain n [] v s A (eq_sym B) C). Qed.
Lemma plain_un n v w s : special (no n) = false -> arity (no n) = 1 -> step n ([], [v]) ([], [w]) -> fstep n (EV v :: s) (EV w :: s).
Proof. intros A B C. exact (fs_plain n [v] w s A (eq_sym B) C). Qed.
Lemma plain_bin n v w u s : special (no n) = false -> arity (no n) = 2 -> step n ([], [w; v]) ([], [u]) -> fstep n (EV w :: EV v :: s) (EV u :: s).
Proof. intros A B C. exact (fs_plain n [w; v] u s A (eq_sym B) C). Qed.
Lemma binop_cases o k : binop o = Some k -> o = op_gp \/ o = op_lc \/ o = op_sip.
Proof. unfold binop. destruct (N.eqb_spec o op_gp); [auto|]. destruct (N.eqb_spec o op_lc); [auto|]. destruct (N.eqb_spec o op_sip); [auto|discriminate]. Qed.
Lemma fn_cases o k : fn o = Some k -> o = op_sqrt \/ o = op_sin \/ o = op_cos \/ o = op_tan.
Proof. unfold fn. destruct (N.eqb_spec o op_sqrt); [auto|]. destruct (N.eqb_spec o op_sin); [auto|]. destruct (N.eqb_spec o op_cos); [auto|]. destruct (N.eqb_spec o op_tan); [auto|discriminate]. Qed.
Lemma high_plain o : (c_scalar <= o)%N -> special o = false /\ arity o = 0.
Proof.
  intros H. assert (E : forall k, (k <= 17)%N -> (o =? k)%N = false) by (intros; apply N.eqb_neq; unfold c_scalar in H; lia).
  unfold special, arity. cbn [existsb]. rewrite !E by (unfold op_se, op_sum, op_ep, op_cse, op_noop, op_rev, op_pd, op_comp, op_grd, op_sqrt, op_sin, op_cos, op_tan, op_gp, op_lc, op_sip, op_div; lia). auto.
Qed.
Definition item_pair (i : item) : rat * V := (i_q i, i_val i).
Lemma pval_item l : map pval (map item_pair l) = map item_val l.
Proof. rewrite map_map. now apply map_ext. Qed.
Lemma nden_frun l v : nden l v -> forall s, frun l s (EV v :: s).
Proof.
  intros H. apply (nden_mind m env (fun l v => forall s, frun l s (EV v :: s)) (fun _ L => forall s, frun (flat_map render L) s (stacked (map item_pair L) ++ s)))
    with (l := l) (v := v); try exact H; clear l v H.
  - intros. apply frun_one. apply plain_leaf; [reflexivity|reflexivity|now apply st_id].
  - intros. apply frun_one. apply plain_leaf; [reflexivity|reflexivity|now apply st_pi].
  - intros o cs ex q H s. destruct (high_plain o H). apply frun_one. apply plain_leaf; [assumption|assumption|]. now apply (st_blade m env (mknode o cs ex q)).
  - intros. eapply frun_app; [apply H0|]. apply frun_one. apply plain_un; [reflexivity|reflexivity|now apply st_rev].
  - intros. eapply frun_app; [apply H0|]. apply frun_one. apply plain_un; [reflexivity|reflexivity|now apply st_pd].
  - intros. eapply frun_app; [apply H1|]. eapply frun_app; [apply H3|]. apply frun_one. destruct (binop_cases _ _ H) as [E|[E|E]]; subst o;
    (apply plain_bin; [reflexivity|reflexivity|now apply st_bin]).
  - intros. eapply frun_app; [apply H0|]. apply frun_one. rewrite <- pval_item. apply fs_sum; [reflexivity| |now rewrite map_length]. destruct l; [congruence|discriminate].
  - intros. eapply frun_app; [apply H0|]. apply frun_one. rewrite <- pval_item. apply fs_ep; [reflexivity| |now rewrite map_length]. destruct l; [congruence|discriminate].
  - intros. eapply frun_app; [apply H0|]. apply frun_one. apply plain_un; [reflexivity|reflexivity|]. exact (st_comp m env (mknode op_comp cs ex q) [] [] v eq_refl).
  - intros. eapply frun_app; [apply H0|]. apply frun_one. apply plain_un; [reflexivity|reflexivity|]. exact (st_grd m env (mknode op_grd cs ex q) [] [] v eq_refl).
  - intros. eapply frun_app; [apply H0|]. eapply frun_app; [apply H2|]. apply frun_one. apply plain_bin; [reflexivity|reflexivity|].
    exact (st_div m env (mknode op_div cs ex q) [] [] v w eq_refl H3 H4).
  - intros. eapply frun_app; [apply H1|]. apply frun_one. destruct (fn_cases _ _ H) as [E|[E|[E|E]]]; subst o;
    (apply plain_un; [reflexivity|reflexivity|]; exact (st_fn m env (mknode _ cs ex q) [] [] v f H H2)).
  - intros. constructor.
  - intros k i L Hb IHb Hq HL IHL s. cbn [flat_map]. unfold render at 1. cbn [app]. econstructor; [apply fs_se; reflexivity|]. eapply frun_app; [apply IHb|].
    cbn [map nq]. replace (stacked (item_pair i :: map item_pair L) ++ s) with (stacked (map item_pair L) ++ EV (i_val i) :: EM (i_q i) :: s); [apply IHL|].
    unfold stacked. cbn [rev]. rewrite flat_map_app. cbn. now rewrite <- app_assoc.
Qed.
(** the depth of the stack *)
Lemma stacked_length l : length (stacked l) = 2 * length l.
Proof. unfold stacked. rewrite <- (rev_length l). induction (rev l) as [|a r IH]; [reflexivity|]. cbn [flat_map ev_of app length]. lia. Qed.
Lemma fstep_depth n s s' : fstep n s s' -> depth_step (length s) n = Some (length s').
Proof.
  intros H. unfold depth_step. inversion H; subst.
  - replace ((no n =? op_sum) || (no n =? op_ep))%N with false.
    + rewrite app_length, map_length. replace (_ <=? _) with true by lia. f_equal. cbn [length]. lia.
    + symmetry. unfold special in H0. cbn [existsb] in H0. lia.
  - rewrite H0. cbn. f_equal. lia.
  - rewrite H0. change ((op_sum =? op_sum)%N || (op_sum =? op_ep)%N) with true. cbv iota. rewrite app_length, stacked_length, <- H2. replace (_ <=? _) with true by lia. f_equal. cbn [length]. lia.
  - rewrite H0. change ((op_ep =? op_sum)%N || (op_ep =? op_ep)%N) with true. cbv iota. rewrite app_length, stacked_length, <- H2. replace (_ <=? _) with true by lia. f_equal. cbn [length]. lia.
Qed.
Lemma frun_depth l s s' : frun l s s' -> depth (length s) l = Some (length s').
Proof. induction 1; [reflexivity|]. cbn [depth]. now rewrite (fstep_depth _ _ _ H). Qed.
Lemma nden_operand l v : nden l v -> operand l = true.
Proof. intros H. unfold operand. change 0 with (length (@nil entry)). now rewrite (frun_depth _ _ _ (nden_frun l v H [])). Qed.
End Flat.
