(** Every faithful expression denotes what the user meant. *)
From Coq Require Import ZArith NArith List Bool Reals Lia Lra ZifyBool ZifyN ZifyNat FunctionalExtensionality.
From Verif Require Import Base Model_Numeric Model_Blade Model_Expr Spec_Numeric Spec_Clifford Spec_MV Spec_Basis Spec_Expr Spec_Build.
From Verif Require Import Proof_Numeric Proof_Val Proof_Div Proof_Blade Proof_Blade2 Proof_Blade4 Proof_ProductVal Proof_Expr Proof_Expr2 Proof_Expr3.
Import ListNotations.
Local Open Scope nat_scope.

(** scalars commute *)
Lemma bil_pair m v w c : vprod m Geometric v w c =
  Rsum (map (fun a => Rsum (map (fun b => v a * w b * (if (fst (geometric m a b) =? c)%N then IZR (snd (geometric m a b)) else 0))%R (blades (dim m)))) (blades (dim m))).
Proof. unfold vprod, bilinear. apply Rsum_ext. intros a _. apply Rsum_ext. intros b _. cbn [blade_product]. destruct (_ =? _)%N; ring. Qed.
Lemma scalar_commutes m r v : vprod m Geometric (vscalar r) v = vprod m Geometric v (vscalar r).
Proof.
  apply functional_extensionality. intros c. rewrite !bil_pair, Proof_Basis.Rsum_swap.
  apply Rsum_ext. intros b _. apply Rsum_ext. intros a _. unfold vscalar. destruct (N.eqb_spec a 0) as [->|N]; [|ring].
  destruct (geometric_unit m b) as [E1 E2]. rewrite E1, E2. ring.
Qed.
(** scaling a constant before or after its conversion is the same *)
Lemma scale_const n c : n <> 0%Z -> e_scale n (rc_convert c) = (c' <- rc_scale n c;; Ok (rc_convert c')).
Proof.
  intros N. unfold e_scale, rc_scale, rescale. replace (n =? 0)%Z with false by lia. cbn [rnodes rc_convert length Nat.eqb orb rq rcap rc_q].
  destruct (rmul_assign _ _); reflexivity.
Qed.
Lemma divz_const d c : e_divz (rc_convert c) d = (c' <- rc_div c d;; Ok (rc_convert c')).
Proof. unfold e_divz, rc_div, rescale. cbn [rnodes rc_convert length Nat.ltb Nat.leb rq rcap rc_q]. destruct (rmul_assign _ _); reflexivity. Qed.

Section Sem.
Context (m : metric) (env : list V).
Notation nden := (nden m env).
Notation denotes := (denotes m env).
Notation sound := (sound m env).
Lemma q_ok_one : q_ok one. Proof. split; discriminate. Qed.
Lemma q_ok_of_rv q : den q <> 0%Z -> rv q <> 0%R -> q_ok q.
Proof. intros D R. split; [now apply rv_num_nz|assumption]. Qed.
Lemma q_ok_mul a b q : q_ok a -> q_ok b -> rmul Exact a b = Ok q -> q_ok q.
Proof.
  intros A B H. destruct (rv_mul _ _ _ (proj2 A) (proj2 B) H) as [V0 D]. apply q_ok_of_rv; [assumption|].
  rewrite V0. apply Rmult_integral_contrapositive_currified; now apply rv_nz.
Qed.
Lemma q_ok_mul_assign a b q : q_ok a -> q_ok b -> rmul_assign a b = Ok q -> q_ok q.
Proof.
  intros A B H. destruct (rv_mul_assign _ _ _ (proj2 A) (proj2 B) H) as [V0 D]. apply q_ok_of_rv; [assumption|].
  rewrite V0. apply Rmult_integral_contrapositive_currified; now apply rv_nz.
Qed.
Lemma rpne_of_q cap l q e : rpne_of cap l q = Ok e -> q_ok q -> q_ok (rq e).
Proof. intros H Q. apply rpne_of_ok in H as (_ & -> & _). exact Q. Qed.
Ltac break H := match type of H with
  | (x <- ?r;; _) = Ok _ => let E := fresh "E" in destruct r eqn:E; cbn [bind] in H; [|discriminate H]
  | (if ?b then _ else _) = Ok _ => let E := fresh "E" in destruct b eqn:E
  | match ?l with [] => _ | _ :: _ => _ end = Ok _ => let E := fresh "E" in destruct l eqn:E
  end.
Ltac q_done H := first [ injection H as <-; exact q_ok_one | exact (rpne_of_q _ _ _ _ H q_ok_one) ].
Lemma prod_q o l r e : q_ok (rq l) -> q_ok (rq r) -> e_prod Exact o l r = Ok e -> q_ok (rq e).
Proof.
  intros A B H. unfold e_prod in H. repeat break H; try q_done H.
  apply (rpne_of_q _ _ _ _ H). exact (q_ok_mul _ _ _ A B E1).
Qed.
Lemma sip_q l r e : q_ok (rq l) -> q_ok (rq r) -> e_sip Exact l r = Ok e -> q_ok (rq e).
Proof.
  intros A B H. unfold e_sip in H. repeat break H; try q_done H.
  apply (rpne_of_q _ _ _ _ H). exact (q_ok_mul _ _ _ A B E1).
Qed.
Lemma scalar_product_q l r e : q_ok (rq l) -> q_ok (rq r) -> e_scalar_product Exact l r = Ok e -> q_ok (rq e).
Proof.
  intros A B H. unfold e_scalar_product in H. repeat break H; try q_done H.
  apply (rpne_of_q _ _ _ _ H). exact (q_ok_mul _ _ _ A B E1).
Qed.
Lemma ep_q l r e : q_ok (rq l) -> q_ok (rq r) -> e_ep Exact l r = Ok e -> q_ok (rq e).
Proof.
  intros A B H. unfold e_ep in H. break H; [q_done H|]. do 5 break H.
  apply (rpne_of_q _ _ _ _ H). break E4; [injection E4 as <-; exact q_ok_one|]. exact (q_ok_mul _ _ _ A B E4).
Qed.
Lemma rev_q x e : e_rev x = Ok e -> q_ok (rq e).
Proof. intros H. unfold e_rev in H. repeat break H; q_done H. Qed.
Lemma dual_q x e : e_dual x = Ok e -> rq e = one.
Proof. intros H. unfold e_dual in H. repeat break H; [injection H as <-; reflexivity|]. now apply rpne_of_ok in H as (_ & -> & _). Qed.
Lemma fn_q o x e : e_fn o x = Ok e -> q_ok (rq e).
Proof. intros H. unfold e_fn in H. repeat break H; q_done H. Qed.
Lemma comp_q x i e : q_ok (rq x) -> e_comp x i = Ok e -> q_ok (rq e).
Proof. intros A H. unfold e_comp in H. repeat break H. exact (rpne_of_q _ _ _ _ H A). Qed.
Lemma grade_q x i e : q_ok (rq x) -> e_grade x i = Ok e -> q_ok (rq e).
Proof. intros A H. unfold e_grade in H. repeat break H. exact (rpne_of_q _ _ _ _ H A). Qed.
Lemma rescale_q x q e : q_ok (rq x) -> q_ok q -> rescale x q = Ok e -> q_ok (rq e).
Proof. intros A B H. unfold rescale in H. break H. injection H as <-. exact (q_ok_mul_assign _ _ _ A B E). Qed.
Lemma scale_q n x e : q_ok (rq x) -> e_scale n x = Ok e -> q_ok (rq e).
Proof.
  intros A H. unfold e_scale in H. break H; [injection H as <-; exact A|]. apply (rescale_q _ _ _ A) in H; [exact H|].
  apply orb_false_iff in E as [E _]. split; cbn [num den]; [lia|discriminate].
Qed.
Lemma neg_q x e : q_ok (rq x) -> e_neg x = Ok e -> q_ok (rq e).
Proof. intros A H. unfold e_neg in H. break H; [|injection H as <-; exact A]. apply (rescale_q _ _ _ A) in H; [exact H|]. split; discriminate. Qed.
Lemma divz_q x d e : d <> 0%Z -> q_ok (rq x) -> e_divz x d = Ok e -> q_ok (rq e).
Proof. intros D A H. unfold e_divz in H. break H; [|injection H as <-; exact A]. apply (rescale_q _ _ _ A) in H; [exact H|]. split; [discriminate|exact D]. Qed.
Lemma div_q x y e : e_div Exact x y = Ok e -> q_ok (rq e).
Proof. intros H. unfold e_div in H. repeat break H; q_done H. Qed.
Lemma zdiv_q n y e : e_zdiv n y = Ok e -> q_ok (rq e).
Proof. intros H. unfold e_zdiv in H. repeat break H; q_done H. Qed.

(** ** sums *)
Lemma denotes_empty e v : denotes e v -> ~ nonempty e -> v = vzero.
Proof.
  intros [[_ D]|(w & W & _)] N; [exact D|]. exfalso. apply N. unfold nonempty. intros E0. rewrite E0 in W. exact (nden_nonempty _ _ _ _ W eq_refl).
Qed.
Lemma empty_dec e : nonempty e \/ ~ nonempty e.
Proof. unfold nonempty. destruct (rnodes e); [right|left]; congruence. Qed.
Lemma denotes_unscaled x v e : denotes x v -> unscaled x -> rnodes e = rnodes x -> rq e = one -> denotes e v.
Proof.
  intros D U N Q. destruct (empty_dec x) as [Ex|Ex].
  - apply denotes_inv in D as (w & W & _ & ->); [|exact Ex]. rewrite (U Ex), vscale_1. right. exists w. rewrite N, Q, rv_one, vscale_1. split; [assumption|]. split; [discriminate|reflexivity].
  - left. split; [rewrite N; unfold nonempty in Ex; destruct (rnodes x); [reflexivity|exfalso; apply Ex; discriminate]|exact (denotes_empty _ _ D Ex)].
Qed.
Theorem add_sound l r v w e : sound l v -> sound r w -> add_right l r -> e_add Exact l r = Ok e -> sound e (vadd v w).
Proof.
  intros [Dl Ql] [Dr Qr] (A1 & A2 & A3) H.
  destruct (empty_dec l) as [El|El]; [destruct (empty_dec r) as [Er|Er]|].
  - destruct (A3 El Er) as (Ag & F & C). rewrite H in C. cbn [on1] in C.
    destruct (add_val m env _ _ _ _ _ El Er Dl Dr Ql Qr Ag F H) as [|[X _]]; [assumption|contradiction].
  - rewrite (denotes_empty _ _ Dr Er), vadd_0_r. specialize (A2 Er). unfold e_add in H.
    destruct (rnodes l) as [|l0 ln] eqn:L; [exfalso; exact (El L)|]. destruct (rnodes r) as [|r0 rn] eqn:R; [|exfalso; apply Er; unfold nonempty; rewrite R; discriminate].
    apply rpne_of_ok in H as (N & Q & _). split; [|rewrite Q; exact q_ok_one]. apply (denotes_unscaled l); [assumption|assumption|congruence|assumption].
  - rewrite (denotes_empty _ _ Dl El), vadd_0_l. specialize (A1 El). unfold e_add in H.
    destruct (rnodes l) as [|l0 ln] eqn:L; [|exfalso; apply El; unfold nonempty; rewrite L; discriminate].
    apply rpne_of_ok in H as (N & Q & _). split; [|rewrite Q; exact q_ok_one]. apply (denotes_unscaled r); assumption.
Qed.
Lemma neg_sound x v e : sound x v -> e_neg x = Ok e -> sound e (vneg v).
Proof. intros [D Q] H. split; [exact (neg_val _ _ _ _ _ D H)|exact (neg_q _ _ Q H)]. Qed.
Lemma const_sound n : n <> 0%Z -> sound (e_const n 1) (vscalar (IZR n)).
Proof.
  intros N. split; [|split; [exact N|discriminate]]. replace (IZR n) with (IZR n / IZR 1)%R by lra. now apply const_val.
Qed.
Lemma ep_one_q x y e : ~ is_wedge x -> ~ is_wedge y -> rq x = one -> rq y = one -> e_ep Exact x y = Ok e -> rq e = one.
Proof.
  intros Wx Wy Qx Qy H. unfold e_ep in H. break H; [injection H as <-; reflexivity|]. do 5 break H.
  assert (no a =? op_ep = false)%N by (apply N.eqb_neq; intros X; apply Wx; exists a; auto).
  assert (no a0 =? op_ep = false)%N by (apply N.eqb_neq; intros X; apply Wy; exists a0; auto).
  rewrite H0, H1 in *. cbn [orb] in E4. rewrite Qx, Qy in E4. vm_compute in E4. injection E4 as <-.
  now apply rpne_of_ok in H as (_ & -> & _).
Qed.
Lemma dual_not_wedge x e : e_dual x = Ok e -> ~ is_wedge e.
Proof.
  intros H (n & B & O). unfold e_dual in H. break H; [injection H as <-; discriminate|]. break H.
  apply append_ok in E0 as [cs ->]. apply rpne_of_ok in H as (N & _). rewrite N, back_app in B. injection B as <-. discriminate.
Qed.
Lemma const_scalar u v : is_const u = true -> means m env u v -> v = vscalar (v 0%N).
Proof.
  revert v. induction u; intros v C H; cbn [is_const] in C; try discriminate; inversion H; subst.
  - reflexivity.
  - reflexivity.
  - rewrite (IHu v0 C) by assumption. apply functional_extensionality. intros b. unfold vscale, vscalar. cbn [N.eqb]. destruct (_ =? _)%N; ring.
  - rewrite (IHu v0 C) by assumption. apply functional_extensionality. intros b. unfold vscale, vscalar. cbn [N.eqb]. destruct (_ =? _)%N; ring.
Qed.
Lemma fcl_l l r : first_checksum_less l r -> rnodes l <> [].
Proof. intros (a & b & A & B & _) E. rewrite E in A. discriminate. Qed.
Lemma fcl_r l r : first_checksum_less l r -> rnodes r <> [].
Proof. intros (a & b & A & B & _) E. rewrite E in B. discriminate. Qed.
Lemma prod_nonempty o l r e : q_ok (rq l) -> q_ok (rq r) -> rnodes l <> [] -> rnodes r <> [] -> e_prod Exact o l r = Ok e -> rnodes e <> [].
Proof.
  intros Ql Qr Nl Nr H. unfold e_prod in H. destruct (rnodes l) as [|l0 ln]; [congruence|]. destruct (rnodes r) as [|r0 rn]; [congruence|].
  break H. pose proof (q_ok_mul _ _ _ Ql Qr E) as [Q _]. break H; [unfold is_zero in E0; lia|]. do 2 break H.
  apply rpne_of_ok in H as (-> & _). discriminate.
Qed.
Lemma rev_nonempty x v e : rnodes x <> [] -> denotes x v -> e_rev x = Ok e -> rnodes e <> [].
Proof.
  intros N D H. apply denotes_inv in D as (w & W & _ & _); [|exact N].
  unfold e_rev in H. destruct (rnodes x) as [|x0 xn] eqn:Ex; [congruence|]. rewrite <- Ex in *.
  do 2 break H.
  - apply N.eqb_eq in E0. destruct (nden_rev_inv _ _ _ _ _ W E E0) as (l' & u & El & Hu & ->). rewrite El, removelast_snoc in H.
    apply rpne_of_ok in H as (-> & _). exact (nden_nonempty _ _ _ _ Hu).
  - break H. apply append_ok in E1 as [cs ->]. apply rpne_of_ok in H as (-> & _). rewrite Ex. discriminate.
Qed.
Ltac mean IH D Q := lazymatch type of IH with forall e v, faithful m env ?ins ?u -> _ =>
  match goal with
  | Hm : means m env u _, Hf : faithful m env ins u |- _ => destruct (IH _ _ Hf eq_refl Hm) as [D Q]
  end end.
Theorem build_sound ins : length ins = length env -> (forall i e, nth_error ins i = Some e -> exists cid, e = e_input cid i) ->
  forall u e v, faithful m env ins u -> build Exact ins u = Ok e -> means m env u v -> sound e v.
Proof.
  intros Len Ins. induction u; intros x v F H M; cbn [faithful] in F; cbn [build] in H; inversion M; subst; clear M.
  all: unfold bind1, bind2 in H.
  all: repeat match type of F with _ /\ _ => let G := fresh "G" in destruct F as [G F] end.
  all: repeat break H.
  - (* input *)
    destruct (nth_error ins i) as [e|] eqn:E; [|discriminate]. injection H as <-. destruct (Ins _ _ E) as [cid ->].
    split; [now apply input_val|exact q_ok_one].
  - injection H as <-. split; [apply blade_val|]. split; [exact F|discriminate].
  - injection H as <-. split; [|exact q_ok_one]. replace PI with (rv (rc_q c_PI) * PI)%R by (cbn [c_PI rc_q]; rewrite rv_one; ring). apply pi_val. discriminate.
  - destruct F.
  - (* + *) cbn [on2] in F. exact (add_sound _ _ _ _ _ (IHu1 _ _ G eq_refl H2) (IHu2 _ _ G0 eq_refl H4) F H).
  - (* - *) cbn [on2] in F. unfold e_sub in H. break H. cbn [on1] in F.
    exact (add_sound _ _ _ _ _ (IHu1 _ _ G eq_refl H2) (neg_sound _ _ _ (IHu2 _ _ G0 eq_refl H4) E1) F H).
  - exact (neg_sound _ _ _ (IHu _ _ F eq_refl H1) H).
  - mean IHu D Q. split; [exact (scale_val _ _ _ _ _ _ D H)|exact (scale_q _ _ _ Q H)].
  - mean IHu D Q. assert (N0 : d <> 0%Z) by assumption. split; [exact (divz_val _ _ _ _ _ _ N0 D H)|exact (divz_q _ _ _ N0 Q H)].
  - mean IHu D Q. split; [|exact (zdiv_q _ _ _ H)]. subst n. replace (1 / v0 0%N)%R with (/ v0 0%N)%R by (field; assumption).
    apply (zdiv_val _ _ 1 _ _ _ D); assumption.
  - mean IHu1 D Q. mean IHu2 D' Q'. split; [|exact (div_q _ _ _ H)]. apply (div_val _ _ _ _ _ _ x D D'); assumption.
  - mean IHu D Q. exact (add_sound _ _ _ _ _ (const_sound n G0) (conj D Q) F H).
  - mean IHu D Q. cbn [on1] in F. unfold e_zsub in H. break H.
    exact (add_sound _ _ _ _ _ (const_sound n G0) (neg_sound _ _ _ (conj D Q) E0) F H).
  - mean IHu D Q. cbn [on1] in F. unfold e_subz in H. break H. rewrite vadd_comm, <- opp_IZR.
    assert (a0 = (- n)%Z) as -> by (unfold ineg, chk in E0; destruct (in_int32 _); [now injection E0|discriminate]).
    exact (add_sound _ _ _ _ _ (const_sound (- n) ltac:(lia)) (conj D Q) F H).
  - mean IHu D Q. split; [exact (rev_val _ _ _ _ _ D H F)|exact (rev_q _ _ H)].
  - mean IHu D Q. split; [exact (dual_val _ _ _ _ _ D H F)|rewrite (dual_q _ _ H); exact q_ok_one].
  - mean IHu D Q. split; [apply (fn_val _ _ o _ _ _ x ltac:(eassumption) D); assumption|exact (fn_q _ _ _ H)].
  - (* constant first *)
    mean IHu1 D Q. mean IHu2 D' Q'. match goal with Hm : means m env u1 ?w |- _ => pose proof (const_scalar _ _ E Hm) as SC; rewrite SC, scalar_commutes, <- SC end.
    split; [exact (prod_val _ _ op_gp Geometric _ _ _ _ _ eq_refl F G1 D' D H)|exact (prod_q _ _ _ _ Q' Q H)].
  - mean IHu1 D Q. mean IHu2 D' Q'. split; [exact (prod_val _ _ op_gp Geometric _ _ _ _ _ eq_refl G1 F D D' H)|exact (prod_q _ _ _ _ Q Q' H)].
  - mean IHu1 D Q. mean IHu2 D' Q'. split; [exact (prod_val _ _ op_lc Contract _ _ _ _ _ eq_refl G1 F D D' H)|exact (prod_q _ _ _ _ Q Q' H)].
  - mean IHu1 D Q. mean IHu2 D' Q'. cbn [on2] in F. split; [|exact (sip_q _ _ _ Q Q' H)].
    apply (sip_val _ _ _ _ _ _ _ (fcl_l _ _ F) (fcl_r _ _ F) D D' H). exact F.
  - mean IHu1 D Q. mean IHu2 D' Q'. split; [exact (ep_val _ _ _ _ _ _ _ D D' H F)|exact (ep_q _ _ _ Q Q' H)].
  - mean IHu1 D Q. mean IHu2 D' Q'. unfold e_vee in H. do 3 break H.
    assert (U : rq a3 = one) by exact (ep_one_q _ _ _ (dual_not_wedge _ _ E1) (dual_not_wedge _ _ E2) (dual_q _ _ E1) (dual_q _ _ E2) E3).
    split; [|rewrite (dual_q _ _ H); exact q_ok_one].
    refine (dual_val _ _ _ _ _ _ H _); [|intros _; rewrite U; exact rv_one].
    refine (ep_val _ _ _ _ _ _ _ (dual_val _ _ _ _ _ D E1 G1) (dual_val _ _ _ _ _ D' E2 F) E3 _).
    intros _. rewrite (dual_q _ _ E1), (dual_q _ _ E2), rv_one. ring.
  - mean IHu1 D Q. mean IHu2 D' Q'. unfold e_sandwich in H. do 2 break H. cbn [on1] in *.
    pose proof (prod_val _ _ op_gp Geometric _ _ _ _ _ eq_refl G2 G1 D' D E1) as D2. pose proof (prod_q _ _ _ _ Q' Q E1) as Q2.
    split; [|exact (prod_q _ _ _ _ Q2 (rev_q _ _ E2) H)].
    refine (prod_val _ _ op_gp Geometric _ _ _ _ _ eq_refl _ _ D2 (rev_val _ _ _ _ _ D' E2 F) H).
    + exact (prod_nonempty _ _ _ _ Q' Q G2 G1 E1).
    + exact (rev_nonempty _ _ _ G2 D' E2).
  - mean IHu1 D Q. mean IHu2 D' Q'. split; [|exact (scalar_product_q _ _ _ Q Q' H)].
    apply (scalar_product_val _ _ _ _ _ _ _ G1 G2 D D' H). apply F; assumption.
  - mean IHu D Q. split; [exact (comp_val _ _ _ _ _ _ D H)|exact (comp_q _ _ _ Q H)].
  - mean IHu D Q. split; [exact (grade_val _ _ _ _ _ _ D H)|exact (grade_q _ _ _ Q H)].
Qed.
End Sem.
