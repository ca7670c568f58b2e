(** operator+ on expressions. *)
From Coq Require Import ZArith NArith List Bool Arith Lia ZifyBool ZifyN ZifyNat Reals Lra FunctionalExtensionality.
From Verif Require Import Base Model_Numeric Model_Blade Model_Crc Model_Expr Spec_Numeric Spec_Clifford Spec_MV Spec_Basis Spec_Expr
  Proof_Numeric Proof_Val Proof_Expr.
Import ListNotations.
Local Open Scope nat_scope.

Notation fm := (flat_map render).
Notation vs L := (vsum (map item_val L)).
Section Sem.
Context (m : metric) (env : list V).
Notation nden := (nden m env).
Notation ses := (ses m env).
Lemma ses_app k a b : ses k a -> ses k b -> ses k (a ++ b).
Proof. induction 1; cbn [app]; auto. intros. constructor; auto. Qed.
Lemma ses_inv k i l : ses k (i :: l) -> nden (i_body i) (i_val i) /\ q_for k (i_q i) /\ ses k l.
Proof. intros H. inversion H; auto. Qed.
Lemma ses_one k i : nden (i_body i) (i_val i) -> q_for k (i_q i) -> ses k [i].
Proof. intros. constructor; auto. constructor. Qed.
Lemma fm_app a b : fm (a ++ b) = fm a ++ fm b. Proof. apply flat_map_app. Qed.
Lemma fm_cons i l : fm (i :: l) = mknode op_se (i_cs i) (length (i_body i)) (i_q i) :: i_body i ++ fm l.
Proof. reflexivity. Qed.
Lemma vs_app a b : vs (a ++ b) = vadd (vs a) (vs b). Proof. rewrite map_app. apply vsum_app. Qed.
Lemma vs_cons i l : vs (i :: l) = vadd (item_val i) (vs l). Proof. reflexivity. Qed.
Lemma vs_one i : vs [i] = item_val i. Proof. rewrite vs_cons. apply vadd_0_r. Qed.
Lemma take_body b l : take (length b) (b ++ l) = Ok (b, l).
Proof.
  unfold take. rewrite app_length. replace (length b <=? length b + length l) with true by lia.
  rewrite firstn_app, firstn_all, Nat.sub_diag, app_nil_r, skipn_app, skipn_all, Nat.sub_diag. reflexivity.
Qed.
Lemma item_val_sum i : q_for true (i_q i) -> item_val i = vscale (rv (i_q i)) (i_val i).
Proof. intros [A _]. unfold item_val, se_scale. replace (num (i_q i) =? 0)%Z with false by lia. reflexivity. Qed.
Lemma fm_nil_iff l : fm l = [] -> l = [].
Proof. destruct l; [reflexivity|discriminate]. Qed.
Definition rescaled (q : rat) (i : item) : item := mkitem (i_cs i) q (i_body i) (i_val i).
Lemma scale_node_ok n q n' : scale_node n q = Ok n' -> exists q', rmul_assign (nq n) q = Ok q' /\ n' = mknode (no n) (ncs n) (nex n) q'.
Proof. unfold scale_node. destruct (rmul_assign (nq n) q) as [q'|]; cbn [bind]; [|discriminate]. intros H. injection H as <-. eauto. Qed.
Lemma rescaled_ok i q q' : q_for true (i_q i) -> q_ok q -> rmul_assign (i_q i) q = Ok q' ->
  q_for true (i_q (rescaled q' i)) /\ item_val (rescaled q' i) = vscale (rv q) (item_val i).
Proof.
  intros A B H. destruct (rv_mul_assign _ _ _ (proj2 A) (proj2 B) H) as [E D].
  assert (q_for true q').
  { split; [|exact D]. apply rv_num_nz; [exact D|]. rewrite E. apply Rmult_integral_contrapositive. split; apply rv_nz; assumption. }
  split; [assumption|]. rewrite !item_val_sum by assumption. cbn [rescaled i_q i_val]. rewrite vscale_vscale, E. f_equal. ring.
Qed.

Lemma copy_rest_val q : q_ok q -> forall fuel L O out k, ses true L -> ses true O ->
  copy_rest fuel q (fm L) (fm O) (length O) = Ok (out, k) ->
  exists O', ses true O' /\ out = fm O' /\ k = length O' /\ vs O' = vadd (vs O) (vscale (rv q) (vs L)).
Proof.
  intros Q. induction fuel as [|f IH]; intros L O out k SL SO H; cbn [copy_rest] in H; [discriminate|].
  destruct L as [|i L].
  - cbn [flat_map] in H. injection H as <- <-. exists O. split; [assumption|]. split; [reflexivity|]. split; [reflexivity|].
    cbn [map vsum fold_right]. now rewrite vscale_zero, vadd_0_r.
  - rewrite fm_cons in H. apply ses_inv in SL as (Hb & Hq & SL).
    destruct (scale_node _ q) as [s'|] eqn:E; cbn [bind] in H; [|discriminate].
    apply scale_node_ok in E as (q' & E & ->). cbn [no ncs nex nq] in *.
    rewrite take_body in H. cbn [bind] in H.
    destruct (rescaled_ok i q q' Hq Q E) as [Q' V'].
    assert (H' : copy_rest f q (fm L) (fm (O ++ [rescaled q' i])) (length (O ++ [rescaled q' i])) = Ok (out, k)).
    { rewrite fm_app, app_length, Nat.add_1_r. cbn [flat_map rescaled render i_cs i_q i_body]. rewrite app_nil_r. exact H. }
    apply IH in H' as (O' & S' & -> & -> & W); [|assumption|apply ses_app; [assumption|now apply ses_one]].
    exists O'. split; [assumption|]. split; [reflexivity|]. split; [reflexivity|].
    rewrite W, vs_app, vs_one, V', vs_cons, vscale_add. now rewrite vadd_assoc.
Qed.

Definition lead (L R : list item) : Prop := forall a, In a L -> (i_cs a < last (map i_cs R) 0)%N.
Definition vagree (L R : list item) : Prop :=
  forall a b, In a L -> In b R -> nodes_eq (i_body a) (i_body b) = true -> i_val a = i_val b.
Lemma nodes_eq_len l : forall r, nodes_eq l r = true -> length l = length r.
Proof.
  induction l; destruct r; cbn [nodes_eq length]; intros; try discriminate; [reflexivity|].
  apply andb_true_iff in H as [_ H]. now rewrite (IHl _ H).
Qed.
Lemma merge_sums_val ql qr : q_ok ql -> q_ok qr -> forall fuel L R O out k, ses true L -> ses true R -> ses true O ->
  (rv ql = rv qr \/ lead L R) -> vagree L R ->
  merge_sums Exact fuel ql qr (fm L) (fm R) (fm O) (length O) = Ok (out, k) ->
  exists O', ses true O' /\ out = fm O' /\ k = length O' /\
    vs O' = vadd (vs O) (vadd (vscale (rv ql) (vs L)) (vscale (rv qr) (vs R))).
Proof.
  intros Ql Qr. induction fuel as [|f IH]; intros L R O out k SL SR SO F A H; cbn [merge_sums] in H; [discriminate|].
  destruct L as [|s L].
  { cbn [flat_map] in H. apply (copy_rest_val qr Qr) in H as (O' & S' & E & K & W); [|assumption|assumption].
    exists O'. split; [assumption|]. split; [assumption|]. split; [assumption|].
    rewrite W. cbn [map vsum fold_right]. now rewrite vscale_zero, vadd_0_l. }
  destruct R as [|t R].
  { change (copy_rest f qr (fm (s :: L)) (fm O) (length O) = Ok (out, k)) in H.
    apply (copy_rest_val qr Qr) in H as (O' & S' & E & K & W); [|assumption|assumption].
    exists O'. split; [assumption|]. split; [assumption|]. split; [assumption|].
    rewrite W. cbn [map vsum fold_right]. rewrite vscale_zero, vadd_0_r.
    destruct F as [->|F]; [reflexivity|]. specialize (F s (or_introl eq_refl)). cbn in F. lia. }
  rewrite !fm_cons in H. cbn [nex ncs nq] in H. rewrite !take_body in H. cbn [bind] in H.
  apply ses_inv in SL as (Hb & Hq & SL). apply ses_inv in SR as (Hb' & Hq' & SR).
  assert (FL : rv ql = rv qr \/ lead L (t :: R)).
  { destruct F as [F|F]; [now left|right]. intros a I. apply F. now right. }
  assert (AL : vagree L (t :: R)) by (intros a b Ia Ib; apply A; [now right|assumption]).
  assert (AR : vagree (s :: L) R) by (intros a b Ia Ib; apply A; [assumption|now right]).
  assert (ALR : vagree L R) by (intros a b Ia Ib; apply A; [now right|now right]).
  assert (FR : (i_cs t <= i_cs s)%N -> rv ql = rv qr \/ lead (s :: L) R).
  { intros C. destruct F as [F|F]; [now left|right]. intros a I. specialize (F a I) as G.
    destruct R as [|t2 R]; [|exact G]. exfalso. specialize (F s (or_introl eq_refl)). cbn in F. lia. }
  destruct (_ && _ && _) eqn:E.
  - apply andb_true_iff in E as [E E3]. apply andb_true_iff in E as [E1 E2].
    destruct (rmul Exact (i_q s) ql) as [a|] eqn:Ea; cbn [bind] in H; [|discriminate].
    destruct (rmul Exact (i_q t) qr) as [b|] eqn:Eb; cbn [bind] in H; [|discriminate].
    destruct (radd Exact a b) as [q|] eqn:Eq; cbn [bind] in H; [|discriminate].
    destruct (rv_mul _ _ _ (proj2 Hq) (proj2 Ql) Ea) as [Va Da]. destruct (rv_mul _ _ _ (proj2 Hq') (proj2 Qr) Eb) as [Vb Db].
    destruct (rv_add _ _ _ Da Db Eq) as [Vq Dq].
    assert (Vst : i_val t = i_val s) by (symmetry; apply A; [now left|now left|assumption]).
    assert (FLR : rv ql = rv qr \/ lead L R).
    { destruct (FR ltac:(lia)) as [G|G]; [now left|right]. intros x I. apply G. now right. }
    assert (VV : vadd (vscale (rv ql) (item_val s)) (vscale (rv qr) (item_val t)) = vscale (rv q) (i_val s)).
    { rewrite !item_val_sum, Vst, !vscale_vscale, Vq, Va, Vb, vscale_plus by assumption. f_equal; f_equal; ring. }
    assert (RE : forall o, vadd (vadd o (vscale (rv q) (i_val s))) (vadd (vscale (rv ql) (vs L)) (vscale (rv qr) (vs R))) =
       vadd o (vadd (vscale (rv ql) (vs (s :: L))) (vscale (rv qr) (vs (t :: R))))).
    { intros o. rewrite <- VV, !vs_cons, !vscale_add. apply functional_extensionality. intro. unfold vadd. ring. }
    destruct (is_zero q) eqn:Z0.
    + apply IH in H as (O' & S' & E' & K & W); try assumption.
      exists O'. split; [assumption|]. split; [assumption|]. split; [assumption|].
      rewrite W, <- RE. f_equal. rewrite rv_zero by (unfold is_zero in Z0; lia). now rewrite vscale_0, vadd_0_r.
    + pose (i := rescaled q s).
      assert (q_for true (i_q i)) by (split; [unfold is_zero in Z0; cbn; lia|exact Dq]).
      assert (H' : merge_sums Exact f ql qr (fm L) (fm R) (fm (O ++ [i])) (length (O ++ [i])) = Ok (out, k)).
      { rewrite fm_app, app_length, Nat.add_1_r. cbn [flat_map render i rescaled i_cs i_q i_body]. rewrite app_nil_r. exact H. }
      apply IH in H' as (O' & S' & E' & K & W); try assumption; [|apply ses_app; [assumption|now apply ses_one]].
      exists O'. split; [assumption|]. split; [assumption|]. split; [assumption|].
      rewrite W, <- RE, vs_app, vs_one, item_val_sum by assumption. reflexivity.
  - destruct (i_cs s <? i_cs t)%N eqn:C.
    + destruct (scale_node _ ql) as [s'|] eqn:E0; cbn [bind] in H; [|discriminate].
      apply scale_node_ok in E0 as (q' & E0 & ->). cbn [no ncs nex nq] in *.
      destruct (rescaled_ok s ql q' Hq Ql E0) as [Q' V'].
      pose (i := rescaled q' s).
      assert (H' : merge_sums Exact f ql qr (fm L) (fm (t :: R)) (fm (O ++ [i])) (length (O ++ [i])) = Ok (out, k)).
      { rewrite fm_app, app_length, Nat.add_1_r. cbn [flat_map render i rescaled i_cs i_q i_body]. rewrite app_nil_r. exact H. }
      apply IH in H' as (O' & S' & E' & K & W); try assumption; [|constructor; assumption|apply ses_app; [assumption|now apply ses_one]].
      exists O'. split; [assumption|]. split; [assumption|]. split; [assumption|].
      rewrite W, vs_app, vs_one. unfold i. rewrite V', (vs_cons s L), vscale_add. apply functional_extensionality. intro. unfold vadd. ring.
    + destruct (scale_node _ qr) as [t'|] eqn:E0; cbn [bind] in H; [|discriminate].
      apply scale_node_ok in E0 as (q' & E0 & ->). cbn [no ncs nex nq] in *.
      destruct (rescaled_ok t qr q' Hq' Qr E0) as [Q' V'].
      pose (i := rescaled q' t).
      assert (H' : merge_sums Exact f ql qr (fm (s :: L)) (fm R) (fm (O ++ [i])) (length (O ++ [i])) = Ok (out, k)).
      { rewrite fm_app, app_length, Nat.add_1_r. cbn [flat_map render i rescaled i_cs i_q i_body]. rewrite app_nil_r. exact H. }
      apply IH in H' as (O' & S' & E' & K & W); try assumption; [|constructor; assumption|apply ses_app; [assumption|now apply ses_one]|apply FR; lia].
      exists O'. split; [assumption|]. split; [assumption|]. split; [assumption|].
      rewrite W, vs_app, vs_one. unfold i. rewrite V', (vs_cons t R), vscale_add. apply functional_extensionality. intro. unfold vadd. ring.
Qed.

Lemma merge_one_val sq_ nsq fin ns w : q_ok sq_ -> q_ok nsq -> nden ns w -> forall fuel written L O out k, ses true L -> ses true O ->
  (forall a, In a L -> nodes_eq (i_body a) ns = true -> i_val a = w) ->
  merge_one Exact fuel sq_ nsq fin ns written (fm L) (fm O) (length O) = Ok (out, k) ->
  exists O', ses true O' /\ out = fm O' /\ k = length O' /\
    vs O' = vadd (vs O) (vadd (vscale (rv sq_) (vs L)) (if written then vzero else vscale (rv nsq) w)).
Proof.
  intros Qs Qn Hn. induction fuel as [|f IH]; intros written L O out k SL SO A H; cbn [merge_one] in H; [discriminate|].
  pose (i0 := mkitem (ncs fin) nsq ns w).
  assert (Q0 : q_for true (i_q i0)) by exact Qn.
  assert (V0 : item_val i0 = vscale (rv nsq) w) by (rewrite item_val_sum by assumption; reflexivity).
  destruct L as [|s L].
  - cbn [flat_map] in H. destruct written.
    + injection H as <- <-. exists O. split; [assumption|]. split; [reflexivity|]. split; [reflexivity|].
      cbn [map vsum fold_right]. now rewrite vscale_zero, !vadd_0_r.
    + injection H as <- <-. exists (O ++ [i0]). split; [apply ses_app; [assumption|now apply ses_one]|].
      split; [rewrite fm_app; cbn [flat_map]; rewrite app_nil_r; reflexivity|]. split; [rewrite app_length; cbn [length]; lia|].
      rewrite vs_app, vs_one, V0. cbn [map vsum fold_right]. now rewrite vscale_zero, vadd_0_l.
  - rewrite fm_cons in H. cbn [nex ncs nq] in H. rewrite take_body in H. cbn [bind] in H.
    apply ses_inv in SL as (Hb & Hq & SL).
    assert (AL : forall a, In a L -> nodes_eq (i_body a) ns = true -> i_val a = w) by (intros a I; apply A; now right).
    destruct (_ && _ && _ && _) eqn:E.
    + apply andb_true_iff in E as [E E4]. apply andb_true_iff in E as [E E3]. apply andb_true_iff in E as [E1 E2].
      destruct written; [discriminate|].
      destruct (rmul Exact (i_q s) sq_) as [a|] eqn:Ea; cbn [bind] in H; [|discriminate].
      destruct (radd Exact a nsq) as [q|] eqn:Eq; cbn [bind] in H; [|discriminate].
      destruct (rv_mul _ _ _ (proj2 Hq) (proj2 Qs) Ea) as [Va Da].
      destruct (rv_add _ _ _ Da (proj2 Qn) Eq) as [Vq Dq].
      assert (Vs : i_val s = w) by (apply A; [now left|assumption]).
      assert (VV : vadd (vscale (rv sq_) (item_val s)) (vscale (rv nsq) w) = vscale (rv q) w).
      { rewrite item_val_sum, Vs, vscale_vscale, Vq, Va, vscale_plus by assumption. f_equal; f_equal; ring. }
      assert (RE : forall o, vadd (vadd o (vscale (rv q) w)) (vadd (vscale (rv sq_) (vs L)) vzero) =
         vadd o (vadd (vscale (rv sq_) (vs (s :: L))) (vscale (rv nsq) w))).
      { intros o. rewrite <- VV, !vs_cons, !vscale_add. apply functional_extensionality. intro. unfold vadd, vzero. ring. }
      destruct (is_zero q) eqn:Z0.
      * apply IH in H as (O' & S' & E' & K & W); try assumption.
        exists O'. split; [assumption|]. split; [assumption|]. split; [assumption|].
        rewrite W, <- RE. f_equal. rewrite rv_zero by (unfold is_zero in Z0; lia). now rewrite vscale_0, vadd_0_r.
      * pose (i := mkitem (ncs fin) q ns w).
        assert (q_for true (i_q i)) by (split; [unfold is_zero in Z0; cbn; lia|exact Dq]).
        assert (H' : merge_one Exact f sq_ nsq fin ns true (fm L) (fm (O ++ [i])) (length (O ++ [i])) = Ok (out, k)).
        { rewrite fm_app, app_length, Nat.add_1_r. cbn [flat_map render i i_cs i_q i_body]. rewrite app_nil_r. exact H. }
        apply IH in H' as (O' & S' & E' & K & W); try assumption; [|apply ses_app; [assumption|now apply ses_one]].
        exists O'. split; [assumption|]. split; [assumption|]. split; [assumption|].
        rewrite W, <- RE, vs_app, vs_one, item_val_sum by assumption. reflexivity.
    + destruct (negb written && (ncs fin <? i_cs s)%N) eqn:C.
      * destruct written; [discriminate|].
        assert (H' : merge_one Exact f sq_ nsq fin ns true (fm (s :: L)) (fm (O ++ [i0])) (length (O ++ [i0])) = Ok (out, k)).
        { rewrite fm_app, app_length, Nat.add_1_r. cbn [flat_map render i0 i_cs i_q i_body]. rewrite app_nil_r. exact H. }
        apply IH in H' as (O' & S' & E' & K & W); try assumption; [|constructor; assumption|apply ses_app; [assumption|now apply ses_one]].
        exists O'. split; [assumption|]. split; [assumption|]. split; [assumption|].
        rewrite W, vs_app, vs_one, V0. apply functional_extensionality. intro. unfold vadd, vzero. ring.
      * destruct (scale_node _ sq_) as [s'|] eqn:E0; cbn [bind] in H; [|discriminate].
        apply scale_node_ok in E0 as (q' & E0 & ->). cbn [no ncs nex nq] in *.
        destruct (rescaled_ok s sq_ q' Hq Qs E0) as [Q' V'].
        pose (i := rescaled q' s).
        assert (H' : merge_one Exact f sq_ nsq fin ns written (fm L) (fm (O ++ [i])) (length (O ++ [i])) = Ok (out, k)).
        { rewrite fm_app, app_length, Nat.add_1_r. cbn [flat_map render i rescaled i_cs i_q i_body]. rewrite app_nil_r. exact H. }
        apply IH in H' as (O' & S' & E' & K & W); try assumption; [|apply ses_app; [assumption|now apply ses_one]].
        exists O'. split; [assumption|]. split; [assumption|]. split; [assumption|].
        rewrite W, vs_app, vs_one. unfold i. rewrite V', (vs_cons s L), vscale_add. apply functional_extensionality. intro. unfold vadd. ring.
Qed.

(** ** the whole operator *)
Lemma back_app l n : back (l ++ [n]) = Ok n.
Proof. unfold back. destruct (l ++ [n]) eqn:E; [destruct l; discriminate|]. rewrite <- E. now rewrite last_last. Qed.
Lemma back_app2 l r n : back (l ++ r ++ [n]) = Ok n.
Proof. rewrite app_assoc. apply back_app. Qed.
Lemma back_ok l n : back l = Ok n -> exists l', l = l' ++ [n].
Proof.
  unfold back. destruct l as [|a l]; [discriminate|]. intros H.
  apply (f_equal (fun r => match r with Ok x => x | Err _ => n end)) in H. cbv beta iota in H. rewrite <- H.
  exists (removelast (a :: l)). apply app_removelast_last. discriminate.
Qed.
Lemma nden_nonempty l v : nden l v -> l <> [].
Proof. intros H. inversion H; subst; try discriminate; intros E; destruct l0; try discriminate; try (destruct r; discriminate); destruct (fm _); discriminate. Qed.
Lemma nden_back l v : nden l v -> exists n, back l = Ok n.
Proof. intros H. pose proof (nden_nonempty _ _ H). unfold back. destruct l; [congruence|eauto]. Qed.
Ltac backs H := cbn [back last] in H; rewrite ?back_app, ?back_app2 in H; injection H as <-.
Lemma nden_sum_inv l v n : nden l v -> back l = Ok n -> no n = op_sum ->
  exists L, ses true L /\ L <> [] /\ l = fm L ++ [n] /\ v = vs L.
Proof.
  intros H B S. inversion H; subst; backs B; cbn [no] in S;
    try discriminate S; try (subst; vm_compute in H0; congruence); try (subst; discriminate); try (subst o; vm_compute in H0; discriminate H0).
  exists l0. auto.
Qed.
Lemma nden_ep_inv l v n : nden l v -> back l = Ok n -> no n = op_ep ->
  exists L, ses false L /\ L <> [] /\ l = fm L ++ [n] /\ v = vwedge m (map item_val L) /\ nex n = length L.
Proof.
  intros H B S. inversion H; subst; backs B; cbn [no] in S;
    try discriminate S; try (subst; vm_compute in H0; congruence); try (subst; discriminate); try (subst o; vm_compute in H0; discriminate H0).
  exists l0. auto.
Qed.
Lemma nden_rev_inv l v n : nden l v -> back l = Ok n -> no n = op_rev -> exists l' w, l = l' ++ [n] /\ nden l' w /\ v = vrev w.
Proof.
  intros H B S. inversion H; subst; backs B; cbn [no] in S;
    try discriminate S; try (subst; vm_compute in H0; congruence); try (subst; discriminate); try (subst o; vm_compute in H0; discriminate H0).
  eauto.
Qed.
Lemma removelast_snoc {A} (l : list A) x : removelast (l ++ [x]) = l.
Proof. apply removelast_last. Qed.
Lemma bodies_suffix b : forall r x, In x (bodies r) -> In x (bodies (b ++ r)).
Proof. induction b as [|n b IH]; intros r x H; [exact H|]. cbn [app bodies]. destruct (_ =? _)%N; [right|]; now apply IH. Qed.
Lemma body_in L tl a : In a L -> In (i_body a) (bodies (fm L ++ tl)).
Proof.
  induction L as [|i L IH]; [easy|]. intros [->|H]; rewrite fm_cons; cbn [app bodies].
  - left. cbn [nex]. rewrite <- !app_assoc, firstn_app, firstn_all, Nat.sub_diag. apply app_nil_r.
  - right. rewrite <- app_assoc. apply bodies_suffix. now apply IH.
Qed.
Lemma ses_in k L a : ses k L -> In a L -> nden (i_body a) (i_val a).
Proof. induction 1; [easy|]. intros [->|]; auto. Qed.
Lemma tops_fm L : forall f, length L <= f -> tops f (fm L) = map i_cs L.
Proof.
  induction L as [|i L IH]; intros f Hf; [destruct f; reflexivity|]. destruct f; [cbn in Hf; lia|].
  rewrite fm_cons. cbn [tops ncs nex map]. rewrite skipn_app, skipn_all, Nat.sub_diag. cbn [app skipn]. rewrite IH; [reflexivity|cbn in Hf; lia].
Qed.
Lemma fm_length L : length L <= length (fm L).
Proof. induction L; [reflexivity|]. rewrite fm_cons. cbn [length]. rewrite app_length. lia. Qed.
Lemma rpne_of_ok cap l q e : rpne_of cap l q = Ok e -> rnodes e = l /\ rq e = q /\ rcap e = cap /\ length l <= cap.
Proof. unfold rpne_of. destruct (length l <=? cap) eqn:E; [|discriminate]. intros H. injection H as <-. cbn. repeat split. lia. Qed.
Definition sound (e : rpne) (v : V) : Prop := denotes m env e v /\ q_ok (rq e).
Lemma finish_sum_val cap O e : ses true O -> finish_sum cap (fm O, length O) = Ok e ->
  sound e (vs O) \/ (cancelled e /\ vs O = vzero).
Proof.
  intros S H. unfold finish_sum in H. destruct (length O =? 1) eqn:E.
  - destruct O as [|i [|j O]]; cbn [length] in E; try discriminate. apply ses_inv in S as (Hb & Hq & _).
    destruct (rpne_of _ _ one) as [x|]; cbn [bind] in H; [|discriminate].
    rewrite fm_cons in H. cbn [flat_map] in H. rewrite app_nil_r in H. cbn [nq] in H.
    apply rpne_of_ok in H as (N & Q & _). left. split; [|rewrite Q; exact Hq]. right. exists (i_val i). rewrite N, Q. split; [assumption|]. split; [apply Hq|].
    rewrite vs_one. now apply item_val_sum.
  - apply rpne_of_ok in H as (N & Q & _). destruct O as [|i O].
    + right. split; [|reflexivity]. eexists. split; [exact N|]. split; reflexivity.
    + left. split; [|rewrite Q; split; discriminate]. right. exists (vs (i :: O)). rewrite N, Q. split; [|split].
      * apply nd_sum; [assumption|discriminate].
      * discriminate.
      * now rewrite rv_one, vscale_1.
Qed.
Lemma nodes_eq_sym l : forall r, nodes_eq l r = nodes_eq r l.
Proof. induction l; destruct r; cbn [nodes_eq]; auto. rewrite IHl. f_equal. unfold node_eq. rewrite (N.eqb_sym (no n)), (N.eqb_sym (ncs n)), (Nat.eqb_sym (nex n)). reflexivity. Qed.
Lemma agree_sym l r : agree l r -> agree r l.
Proof. intros H b c Ib Ic E. symmetry. apply H; auto. now rewrite nodes_eq_sym. Qed.
Lemma one_merge cap f l r v w q q' ln fin e : nden ln v -> back ln = Ok l -> no l = op_sum -> nden r w -> q_ok q -> q_ok q' -> agree ln r ->
  (p <- merge_one Exact f q q' fin r false (removelast ln) [] 0;; finish_sum cap p) = Ok e ->
  sound e (vadd (vscale (rv q) v) (vscale (rv q') w)) \/ (cancelled e /\ vadd (vscale (rv q) v) (vscale (rv q') w) = vzero).
Proof.
  intros Hl Bl Sl Hr Q Q' A H. destruct (nden_sum_inv _ _ _ Hl Bl Sl) as (L & SL & NL & -> & ->).
  rewrite removelast_snoc in H.
  destruct (merge_one _ _ _ _ _ _ _ _ _ _) as [[out k]|] eqn:E; cbn [bind] in H; [|discriminate].
  apply (merge_one_val q q' fin r w Q Q' Hr f false L []) in E as (O & SO & -> & -> & W); [| assumption|constructor|].
  - cbn [map vsum fold_right] in W. rewrite vadd_0_l in W. rewrite <- W. now apply finish_sum_val with (cap := cap).
  - intros a I En. assert (EB : i_body a = r).
    { apply A; [right; now apply body_in|now left|assumption]. }
    pose proof (ses_in _ _ _ SL I) as Ha. rewrite EB in Ha. exact (nden_det _ _ _ _ _ Ha Hr).
Qed.
Theorem add_val l r v w e : rnodes l <> [] -> rnodes r <> [] -> denotes m env l v -> denotes m env r w ->
  q_ok (rq l) -> q_ok (rq r) -> agree (rnodes l) (rnodes r) -> merge_fair l r -> e_add Exact l r = Ok e ->
  sound e (vadd v w) \/ (cancelled e /\ vadd v w = vzero).
Proof.
  intros Nl Nr Dl Dr Ql Qr A F H.
  destruct Dl as [[? _]|(vl & Hl & _ & ->)]; [congruence|]. destruct Dr as [[? _]|(vr & Hr & _ & ->)]; [congruence|].
  unfold e_add in H.
  destruct (nden_back _ _ Hl) as [lf Bl]. destruct (nden_back _ _ Hr) as [rf Br].
  destruct (rnodes l) as [|l0 ln] eqn:El; [congruence|]. destruct (rnodes r) as [|r0 rn] eqn:Er; [congruence|].
  rewrite Bl, Br in H. cbn [bind] in H.
  destruct (N.eqb_spec (no lf) op_sum) as [Sl|Sl]; destruct (N.eqb_spec (no rf) op_sum) as [Sr|Sr]; cbn [andb] in H.
  - destruct (nden_sum_inv _ _ _ Hl Bl Sl) as (L & SL & NL & EL & ->). destruct (nden_sum_inv _ _ _ Hr Br Sr) as (R & SR & NR & ER & ->).
    rewrite EL, ER, !removelast_snoc in H.
    destruct (merge_sums _ _ _ _ _ _ _ _) as [[out k]|] eqn:E; cbn [bind] in H; [|discriminate].
    change (merge_sums Exact (length (fm L ++ [lf]) + length (fm R ++ [rf])) (rq l) (rq r) (fm L) (fm R) (fm []) (length (@nil item)) = Ok (out, k)) in E.
    apply (merge_sums_val _ _ Ql Qr) in E as (O & SO & -> & -> & W); try assumption.
    + cbn [map vsum fold_right] in W. rewrite vadd_0_l in W. rewrite <- W. now apply finish_sum_val with (cap := rcap l + rcap r + 3).
    + constructor.
    + destruct (F ltac:(exists lf; rewrite El; auto) ltac:(exists rf; rewrite Er; auto)) as [F'|F']; [now left|right]. clear F. rename F' into F. intros a I.
      rewrite El, Er, EL, ER, !removelast_snoc, !tops_fm in F by (rewrite app_length; pose proof (fm_length L); pose proof (fm_length R); lia).
      apply F. now apply in_map.
    + intros a b Ia Ib En. assert (EB : i_body a = i_body b).
      { apply A; [right; rewrite EL; now apply body_in|right; rewrite ER; now apply body_in|assumption]. }
      pose proof (ses_in _ _ _ SL Ia) as Ha. rewrite EB in Ha. exact (nden_det _ _ _ _ _ Ha (ses_in _ _ _ SR Ib)).
  - exact (one_merge _ _ lf _ _ _ _ _ _ rf e Hl Bl Sl Hr Ql Qr A H).
  - rewrite vadd_comm. exact (one_merge _ _ rf _ _ _ _ _ _ lf e Hr Br Sr Hl Qr Ql (agree_sym _ _ A) H).
  - destruct (_ && _ && _) eqn:E.
    + apply andb_true_iff in E as [_ E].
      assert (El' : l0 :: ln = r0 :: rn) by (apply A; [now left|now left|assumption]).
      rewrite El' in Hl. rewrite (nden_det _ _ _ _ _ Hr Hl) in *.
      destruct (radd Exact (rq l) (rq r)) as [q|] eqn:Eq; cbn [bind] in H; [|discriminate].
      destruct (rv_add _ _ _ (proj2 Ql) (proj2 Qr) Eq) as [Vq Dq]. rewrite <- vscale_plus, <- Vq.
      destruct (is_zero q) eqn:Z0.
      * injection H as <-. left. split; [|split; discriminate]. left. split; [reflexivity|]. rewrite rv_zero by (unfold is_zero in Z0; lia). apply vscale_0.
      * apply rpne_of_ok in H as (N & Q & _). left. split; [|rewrite Q; split; [unfold is_zero in Z0; lia|exact Dq]]. right. exists vl. rewrite N, Q, El'. auto.
    + pose (i := mkitem (ncs lf) (rq l) (l0 :: ln) vl). pose (j := mkitem (ncs rf) (rq r) (r0 :: rn) vr).
      assert (Qi : q_for true (i_q i)) by exact Ql. assert (Qj : q_for true (i_q j)) by exact Qr.
      assert (Vi : item_val i = vscale (rv (rq l)) vl) by (rewrite item_val_sum by assumption; reflexivity).
      assert (Vj : item_val j = vscale (rv (rq r)) vr) by (rewrite item_val_sum by assumption; reflexivity).
      assert (Si : ses true [i]) by (apply ses_one; assumption). assert (Sj : ses true [j]) by (apply ses_one; assumption).
      rewrite <- Vi, <- Vj.
      destruct (ncs lf <? ncs rf)%N.
      * replace (vadd (item_val i) (item_val j)) with (vs [i; j]) by (rewrite vs_cons, vs_one; reflexivity).
        apply finish_sum_val with (cap := rcap l + rcap r + 3); [exact (ses_app _ [i] [j] Si Sj)|].
        rewrite <- H. unfold fm. cbn [flat_map]. now rewrite app_nil_r.
      * replace (vadd (item_val i) (item_val j)) with (vs [j; i]) by (rewrite vs_cons, vs_one, vadd_comm; reflexivity).
        apply finish_sum_val with (cap := rcap l + rcap r + 3); [exact (ses_app _ [j] [i] Sj Si)|].
        rewrite <- H. unfold fm. cbn [flat_map]. now rewrite app_nil_r.
Qed.
End Sem.
