(** The operators of expr.hpp build programs with the right values. *)
From Coq Require Import ZArith NArith List Bool Arith Lia ZifyBool ZifyN ZifyNat Reals Lra FunctionalExtensionality.
From Verif Require Import Base Model_Numeric Model_Blade Model_Crc Model_Expr Spec_Numeric Spec_Clifford Spec_MV Spec_Basis Spec_Expr
  Proof_Numeric Proof_Val Proof_Div Proof_ProductVal Proof_Basis Proof_MVAlg Proof_MVFlat.
Import ListNotations.
Local Open Scope nat_scope.

(** ** algebra of values *)
Ltac vext := apply functional_extensionality; intro.
Lemma vadd_comm v w : vadd v w = vadd w v. Proof. vext. unfold vadd. ring. Qed.
Lemma vadd_assoc u v w : vadd (vadd u v) w = vadd u (vadd v w). Proof. vext. unfold vadd. ring. Qed.
Lemma vadd_0_l v : vadd vzero v = v. Proof. vext. unfold vadd, vzero. ring. Qed.
Lemma vadd_0_r v : vadd v vzero = v. Proof. vext. unfold vadd, vzero. ring. Qed.
Lemma vscale_add r v w : vscale r (vadd v w) = vadd (vscale r v) (vscale r w). Proof. vext. unfold vadd, vscale. ring. Qed.
Lemma vscale_plus r s v : vscale (r + s) v = vadd (vscale r v) (vscale s v). Proof. vext. unfold vadd, vscale. ring. Qed.
Lemma vscale_vscale r s v : vscale r (vscale s v) = vscale (r * s) v. Proof. vext. unfold vscale. ring. Qed.
Lemma vscale_1 v : vscale 1 v = v. Proof. vext. unfold vscale. ring. Qed.
Lemma vscale_0 v : vscale 0 v = vzero. Proof. vext. unfold vscale, vzero. ring. Qed.
Lemma vscale_zero r : vscale r vzero = vzero. Proof. vext. unfold vscale, vzero. ring. Qed.
Lemma vsum_app a b : vsum (a ++ b) = vadd (vsum a) (vsum b).
Proof. induction a; cbn [app vsum fold_right]; [now rewrite vadd_0_l|]. unfold vsum in *. now rewrite IHa, vadd_assoc. Qed.
Lemma vscale_sum r l : vscale r (vsum l) = vsum (map (vscale r) l).
Proof. induction l; cbn [map vsum fold_right]; [apply vscale_zero|]. unfold vsum in *. now rewrite vscale_add, IHl. Qed.
Lemma vprod_scale_l m k r v w : vprod m k (vscale r v) w = vscale r (vprod m k v w).
Proof.
  vext. unfold vprod, vscale, bilinear. rewrite <- Rsum_mult_l. apply Rsum_ext. intros a _. rewrite <- Rsum_mult_l. apply Rsum_ext. intros b _.
  destruct (_ =? _)%N; ring.
Qed.
Lemma vprod_scale_r m k r v w : vprod m k v (vscale r w) = vscale r (vprod m k v w).
Proof.
  vext. unfold vprod, vscale, bilinear. rewrite <- Rsum_mult_l. apply Rsum_ext. intros a _. rewrite <- Rsum_mult_l. apply Rsum_ext. intros b _.
  destruct (_ =? _)%N; ring.
Qed.
Lemma vprod_0_l m k w : vprod m k vzero w = vzero.
Proof. rewrite <- (vscale_0 vzero) at 1. now rewrite vprod_scale_l, vscale_0. Qed.
Lemma vprod_0_r m k v : vprod m k v vzero = vzero.
Proof. rewrite <- (vscale_0 vzero) at 1. now rewrite vprod_scale_r, vscale_0. Qed.
Lemma vrev_scale r v : vrev (vscale r v) = vscale r (vrev v). Proof. vext. unfold vrev, vscale. ring. Qed.
Lemma vdual_scale n r v : vdual n (vscale r v) = vscale r (vdual n v).
Proof. vext. unfold vdual, vscale. destruct (_ <? _)%N; ring. Qed.
Lemma vcomp_scale e r v : vcomp e (vscale r v) = vscale r (vcomp e v).
Proof. vext. unfold vcomp, vscalar, vscale. destruct (_ =? _)%N; ring. Qed.
Lemma vgrade_scale g r v : vgrade g (vscale r v) = vscale r (vgrade g v).
Proof. vext. unfold vgrade, vscale. destruct (_ =? _)%N; ring. Qed.
Lemma vrev_rev v : vrev (vrev v) = v.
Proof.
  vext. unfold vrev. rewrite <- Rmult_assoc, <- mult_IZR.
  rewrite Proof_Blade2.rev_sign_sq. ring.
Qed.
Lemma vwedge_assoc m u v w : vprod m Exterior (vprod m Exterior u v) w = vprod m Exterior u (vprod m Exterior v w).
Proof.
  vext. unfold vprod. apply bil_assoc; [apply blade_product_closed|]. exact assoc_exterior.
Qed.
Lemma vwedge_cons m v l : l <> [] -> vwedge m (v :: l) = vprod m Exterior v (vwedge m l).
Proof. destruct l; [congruence|reflexivity]. Qed.
Lemma vwedge_app m a b : a <> [] -> b <> [] -> vwedge m (a ++ b) = vprod m Exterior (vwedge m a) (vwedge m b).
Proof.
  intros A B. induction a as [|v a IH]; [congruence|]. destruct a as [|v' a].
  - cbn [app]. rewrite vwedge_cons by assumption. reflexivity.
  - rewrite <- app_comm_cons. rewrite vwedge_cons by discriminate. rewrite IH by discriminate.
    rewrite (vwedge_cons m v (v' :: a)) by discriminate. now rewrite vwedge_assoc.
Qed.

(** ** numbers *)
Lemma rv_nz q : q_ok q -> rv q <> 0%R.
Proof.
  intros [A B]. unfold rv. apply Rmult_integral_contrapositive. split; [now apply not_0_IZR|]. apply Rinv_neq_0_compat. now apply not_0_IZR.
Qed.
Lemma rv_one : rv one = 1%R. Proof. unfold rv, one; cbn [num den]. lra. Qed.
Lemma rv_num_nz q : den q <> 0%Z -> rv q <> 0%R -> num q <> 0%Z.
Proof. intros A B C. apply B. unfold rv. rewrite C. lra. Qed.
Lemma rv_mul_assign a b r : den a <> 0%Z -> den b <> 0%Z -> rmul_assign a b = Ok r -> rv r = (rv a * rv b)%R /\ den r <> 0%Z.
Proof.
  intros A B H. destruct (rmul_assign_good a b r A B H) as [F _]. split; [|apply F].
  rewrite (rv_feq _ _ _ F). unfold rv. rewrite !mult_IZR.
  pose proof (IZR_ne0 _ A). pose proof (IZR_ne0 _ B). field. auto.
Qed.
Lemma rv_recip q : q_ok q -> rv (reciprocal q) = (/ rv q)%R.
Proof. intros [A B]. unfold rv, reciprocal; cbn [num den]. field. split; now apply IZR_ne0. Qed.

(** ** the machine is deterministic *)
Section Sem.
Context (m : metric) (env : list V).
Lemma app_len_inj {A} (a b c d : list A) : length a = length c -> a ++ b = c ++ d -> a = c /\ b = d.
Proof.
  revert c. induction a; destruct c; cbn [length app]; intros L E; try discriminate; [auto|].
  injection E as <- E. apply IHa in E as [<- <-]; auto.
Qed.
Lemma step_det n st a b : step m env n st a -> step m env n st b -> a = b.
Proof.
  intros A B. inversion A; subst; inversion B; subst; try congruence;
    try (match goal with H : no n = ?x, H' : no n = ?y |- _ => rewrite H in H'; vm_compute in H'; discriminate H' end);
    try (match goal with H : no n = _, H' : binop (no n) = _ |- _ => rewrite H in H'; vm_compute in H'; discriminate H' end);
    try (match goal with H : no n = _, H' : fn (no n) = _ |- _ => rewrite H in H'; vm_compute in H'; discriminate H' end);
    try (match goal with H : no n = _, H' : (c_scalar <= no n)%N |- _ => rewrite H in H'; vm_compute in H'; exfalso; apply H'; reflexivity end);
    try (match goal with H : rev ?l ++ _ = rev ?k ++ _ |- _ =>
      apply app_len_inj in H as [H ?]; [|rewrite !rev_length; congruence];
      apply (f_equal (@rev V)) in H; rewrite !rev_involutive in H; subst; reflexivity end);
    unfold binop, fn in *;
    repeat match goal with H : context [if (?a =? ?b)%N then _ else _] |- _ => destruct (N.eqb_spec a b) end; try discriminate; try congruence;
    try (match goal with H : no n = ?x, H' : no n = ?y |- _ => rewrite H in H'; vm_compute in H'; discriminate H' end);
    try (match goal with H : no n = _, H' : (c_scalar <= no n)%N |- _ => rewrite H in H'; vm_compute in H'; exfalso; apply H'; reflexivity end).
Qed.
Lemma run_det l st a : run m env l st a -> forall b, run m env l st b -> a = b.
Proof.
  induction 1 as [|n l st st' st'' N S H IH|n b l t t' s v st N L Hb IHb Hl IHl]; intros x R.
  - inversion R; auto.
  - inversion R; subst; [|congruence].
    assert (st' = st'0) as <- by (eapply step_det; eauto). auto.
  - inversion R; subst; [congruence|].
    match goal with H : b0 ++ l0 = b ++ l |- _ => apply app_len_inj in H as [-> ->]; [|congruence] end.
    match goal with H : run m env b (t, []) (?t2, [?v2]) |- _ => apply IHb in H; injection H as <- <- end. auto.
Qed.

(** ** grammatical programs push their value *)
Scheme nden_mind := Minimality for nden Sort Prop with ses_mind := Minimality for ses Sort Prop.
Definition pushes (l : list node) (v : V) : Prop :=
  forall t s k st, run m env k (t, v :: s) st -> run m env (l ++ k) (t, s) st.
Lemma rstep n k t s st' st : no n <> op_se -> step m env n (t, s) st' -> run m env k st' st -> run m env ([n] ++ k) (t, s) st.
Proof. intros. cbn [app]. econstructor; eauto. Qed.
Lemma nden_pushes l v : nden m env l v -> pushes l v.
Proof.
  intros H.
  apply (nden_mind m env pushes (fun _ L => forall t s k st, run m env k (t, rev (map item_val L) ++ s) st -> run m env (flat_map render L ++ k) (t, s) st))
    with (l := l) (v := v); try exact H; clear l v H; unfold pushes.
  - intros. eapply rstep; eauto; [discriminate|]. apply st_id; auto.
  - intros. eapply rstep; eauto; [discriminate|]. apply st_pi; auto.
  - intros. eapply rstep; eauto; [cbn; unfold c_scalar, op_se in *; lia|]. apply st_blade; auto.
  - intros. rewrite <- app_assoc. apply H0. eapply rstep; eauto; [discriminate|]. apply st_rev; auto.
  - intros. rewrite <- app_assoc. apply H0. eapply rstep; eauto; [discriminate|]. apply st_pd; auto.
  - intros. rewrite <- !app_assoc. apply H1. apply H3. eapply rstep; eauto.
    + cbn. intros ->. discriminate H.
    + apply st_bin with (k := k); auto.
  - intros. rewrite <- app_assoc. apply H0. eapply rstep; eauto; [discriminate|].
    apply st_sum; auto; [|now rewrite map_length]. destruct l; [congruence|discriminate].
  - intros. rewrite <- app_assoc. apply H0. eapply rstep; eauto; [discriminate|].
    apply st_ep; auto; [|now rewrite map_length]. destruct l; [congruence|discriminate].
  - intros. rewrite <- app_assoc. apply H0. eapply rstep; eauto; [discriminate|]. apply st_comp; auto.
  - intros. rewrite <- app_assoc. apply H0. eapply rstep; eauto; [discriminate|]. apply st_grd; auto.
  - intros. rewrite <- !app_assoc. apply H0. apply H2. eapply rstep; eauto; [discriminate|]. apply st_div; auto.
  - intros. rewrite <- app_assoc. apply H1. eapply rstep; eauto.
    + cbn. intros ->. discriminate H.
    + apply st_fn; auto.
  - intros. assumption.
  - intros k i L Hb IHb Hq HL IHL t s k0 st R. cbn [flat_map]. unfold render at 1. cbn [app]. rewrite <- app_assoc.
    apply run_se with (t' := t) (v := i_val i); [reflexivity|reflexivity| |].
    + specialize (IHb t [] [] (t, [i_val i])). rewrite app_nil_r in IHb. apply IHb. constructor.
    + cbn [nq]. apply IHL. cbn [map rev] in R. rewrite <- app_assoc in R. exact R.
Qed.
Lemma nden_run l v t s : nden m env l v -> run m env l (t, s) (t, v :: s).
Proof. intros H. rewrite <- (app_nil_r l). apply (nden_pushes l v H). constructor. Qed.
Lemma nden_det l v w : nden m env l v -> nden m env l w -> v = w.
Proof.
  intros A B. pose proof (run_det _ _ _ (nden_run l v [] [] A) _ (nden_run l w [] [] B)) as E. congruence.
Qed.
End Sem.
