(** Proper multivectors stay proper; consequently laws of the algebra hold as identities of
    multivectors, not only of values. *)
From Coq Require Import ZArith NArith List Bool Arith Lia ZifyBool ZifyN ZifyNat Reals Lra Sorting.Sorted Sorting.Permutation.
From Verif Require Import Base Model_Numeric Model_Blade Model_Sort Model_MV Model_Product Spec_Numeric Spec_Sort Spec_Clifford
  Proof_Numeric Proof_Gens Proof_Blade Proof_Blade2 Proof_Blade3 Spec_MV
  Proof_Sort Proof_SortMap Proof_Layout Proof_Sum Proof_Val Proof_Collate Proof_Product Proof_CollateVal
  Proof_ProductVal Proof_Ops Proof_Ops2 Proof_Basis Proof_Ops3 Proof_Poly.
Import ListNotations.
Local Open Scope nat_scope.

(** ** coefficients in lowest terms *)
Definition low (r : rat) : Prop := (0 < den r)%Z /\ lowest r.
Lemma lowest_1 n : lowest (mkrat n 1).
Proof. unfold lowest. cbn [num den]. apply Z.gcd_1_r. Qed.
Lemma radd_low a b r : (0 < den a)%Z -> (0 < den b)%Z -> radd Exact a b = Ok r -> low r.
Proof.
  intros A B H. assert (AB : (0 < den a * den b)%Z) by nia. pose proof (radd_exact a b r ltac:(lia) ltac:(lia) H) as [_ P].
  split; [auto|]. unfold radd in H. inv_all. subst.
  destruct (_ =? 0)%Z; [injection H as <-; reflexivity|]. inv_all. subst.
  destruct (1 <? den a * den b)%Z eqn:D; [apply gate_exact in H; [apply H|cbn; clear -AB; set (x := (den a * den b)%Z) in *; lia]|apply Z.ltb_ge in D].
  injection H as <-. replace (den a * den b)%Z with 1%Z by (clear -AB D; lia). apply lowest_1.
Qed.
Lemma rmul_low a b r : (0 < den a)%Z -> (0 < den b)%Z -> rmul Exact a b = Ok r -> low r.
Proof.
  intros A B H. assert (AB : (0 < den a * den b)%Z) by nia. pose proof (rmul_exact a b r ltac:(lia) ltac:(lia) H) as [_ P].
  split; [auto|]. unfold rmul in H. inv_all. subst.
  destruct (_ =? 0)%Z; [injection H as <-; reflexivity|].
  destruct (1 <? den a * den b)%Z eqn:D; [apply gate_exact in H; [apply H|cbn; clear -AB; set (x := (den a * den b)%Z) in *; lia]|apply Z.ltb_ge in D].
  injection H as <-. replace (den a * den b)%Z with 1%Z by (clear -AB D; lia). apply lowest_1.
Qed.
Lemma rneg_low a r : low a -> rneg a = Ok r -> low r.
Proof. intros [A B] H. apply rneg_ok in H. subst r. split; [exact A|]. unfold lowest in *. cbn. now rewrite Z.gcd_opp_l. Qed.
Lemma rscale_pos k a r : (0 < den a)%Z -> rscale_int k a = Ok r -> (0 < den r)%Z.
Proof.
  unfold rscale_int. intros A H. destruct ((k =? 0)%Z || (num a =? 0)%Z); [injection H as <-; cbn; lia|].
  minv H. injection H as <-. exact A.
Qed.
Lemma rscale_low k a r : (k = 1 \/ k = -1)%Z -> low a -> rscale_int k a = Ok r -> low r.
Proof.
  unfold rscale_int. intros K [A B] H. destruct ((k =? 0)%Z || (num a =? 0)%Z); [injection H as <-; split; cbn; [lia|reflexivity]|].
  minv H. injection H as <-. unfold imul in E. apply chk_ok in E as [-> _]. split; [exact A|]. unfold lowest in *. cbn.
  destruct K as [->| ->]; [now rewrite Z.mul_1_r|]. replace (num a * -1)%Z with (- num a)%Z by ring. now rewrite Z.gcd_opp_l.
Qed.
Definition lows (ms : list smon) : Prop := Forall coef_ok ms.
Lemma coef_low m : coef_ok m = low (sq m). Proof. reflexivity. Qed.
Lemma ss_mons_low ls rs : forall t, lows ls -> lows rs -> ss_mons Exact ls rs = Ok t -> lows t.
Proof.
  revert ls rs. apply (merge_ind (fun ls rs => forall t, lows ls -> lows rs -> ss_mons Exact ls rs = Ok t -> lows t)).
  - intros rs t _ B. rewrite ss_mons_nil_l. intros E; injection E as <-. exact B.
  - intros ls t A _. rewrite ss_mons_nil_r. intros E; injection E as <-. exact A.
  - intros l ls r rs I1 I2 I3 t A B H. rewrite ss_mons_cons in H.
    inversion A as [|? ? A1 A2]; subst. inversion B as [|? ? B1 B2]; subst.
    destruct (s_side l r) as [s|]; cbn [bind] in H; [|discriminate]. destruct s.
    + minv H. injection H as <-. constructor; [assumption|]. apply (I1 _ A2 B E).
    + minv H. injection H as <-. constructor; [assumption|]. apply (I2 _ A B2 E).
    + minv H. rename v into q. minv H. injection H as <-. specialize (I3 _ A2 B2 E0).
      destruct (is_zero q); [exact I3|]. constructor; [|exact I3]. rewrite coef_low. cbn. eapply radd_low; [apply A1|apply B1|exact E].
Qed.
Lemma lows_cons t ts : lows (all_mons (t :: ts)) <-> lows (snd t) /\ lows (all_mons ts).
Proof. unfold lows. rewrite all_mons_cons. apply Forall_app. Qed.
Lemma ss_terms_low ls rs : forall t, lows (all_mons ls) -> lows (all_mons rs) -> ss_terms Exact ls rs = Ok t -> lows (all_mons t).
Proof.
  revert ls rs. apply (merge_ind (fun ls rs => forall t, lows (all_mons ls) -> lows (all_mons rs) -> ss_terms Exact ls rs = Ok t -> lows (all_mons t))).
  - intros rs t _ B. rewrite ss_terms_nil_l. intros E; injection E as <-. exact B.
  - intros ls t A _. rewrite ss_terms_nil_r. intros E; injection E as <-. exact A.
  - intros l ls r rs I1 I2 I3 t A B H. rewrite ss_terms_cons in H.
    pose proof A as A0. pose proof B as B0. apply lows_cons in A as [A1 A2]. apply lows_cons in B as [B1 B2].
    destruct (fst r =? fst l)%N; [|destruct (fst l <? fst r)%N].
    + minv H. rename v into m. minv H. injection H as <-. specialize (I3 _ A2 B2 E0). apply ss_mons_low in E; auto.
      destruct m; [exact I3|]. apply lows_cons. auto.
    + minv H. injection H as <-. apply lows_cons. split; [assumption|]. apply (I1 _ A2 B0 E).
    + minv H. injection H as <-. apply lows_cons. split; [assumption|]. apply (I2 _ A0 B2 E).
Qed.
Lemma run_low cur l : forall q p, low q -> lows l -> s_run Exact cur l q = Ok p -> low (fst p) /\ lows (snd p).
Proof.
  induction l as [|x l IH]; intros q p Q F; cbn [s_run]; intros H.
  - injection H as <-. auto.
  - inversion F as [|? ? F1 F2]; subst. destruct (s_eq cur x); [|injection H as <-; auto].
    minv H. apply IH in H; auto. eapply radd_low; [apply Q|apply F1|exact E].
Qed.
Lemma merge_low fuel : forall l t, lows l -> s_merge Exact fuel l = Ok t -> lows t.
Proof.
  induction fuel as [|fu IH]; intros l t F H; [discriminate|]. cbn [s_merge] in H. destruct l as [|m l]; [injection H as <-; constructor|].
  inversion_clear F as [|? ? F1 F2]. minv H. destruct v as [q rest]. apply run_low in E as [E1 E2]; auto. cbn [fst snd] in *.
  minv H. injection H as <-. apply IH in E; auto. destruct (is_zero q); [assumption|]. constructor; auto.
Qed.
Lemma gather_low e ts : forall r l, lows (all_mons ts) -> s_gather e ts = (r, l) -> lows (all_mons r) /\ lows l.
Proof.
  induction ts as [|t ts IH]; intros r l F H; cbn [s_gather] in H; [injection H as <- <-; split; constructor|].
  pose proof F as F0. apply lows_cons in F as [F1 F2].
  destruct (fst t =? e)%N; [|injection H as <- <-; split; [exact F0|constructor]].
  destruct (s_gather e ts) as [r0 l0]. injection H as <- <-. destruct (IH _ _ F2 eq_refl) as [A B]. split; [assumption|].
  apply Forall_app. auto.
Qed.
Lemma sort_perm {A} (less : A -> A -> res bool) l l' : sort_range less l 0 (length l) = Ok l' -> Permutation l l'.
Proof.
  intros H. pose proof (sort_safe less [] l []) as S0. cbn [app length] in S0. rewrite Nat.add_0_l, app_nil_r in S0.
  destruct S0 as [(s' & E & P)|(a & b & e & _ & E)]; [|congruence]. rewrite E, app_nil_r in H. injection H as <-. exact P.
Qed.
Lemma collate_low fuel : forall ts t, lows (all_mons ts) -> s_collate Exact fuel ts = Ok t -> lows (all_mons t).
Proof.
  induction fuel as [|fu IH]; intros ts t F H; [discriminate|]. cbn [s_collate] in H. destruct ts as [|t0 ts]; [injection H as <-; constructor|].
  destruct (s_gather (fst t0) (t0 :: ts)) as [rest l] eqn:G. apply gather_low in G as [G1 G2]; auto.
  minv H. rename v into l'. minv H. rename v into m. minv H. rename v into r. injection H as <-.
  apply sort_perm in E. assert (L : lows l') by (eapply Permutation_Forall; eauto).
  apply merge_low in E0; auto. apply IH in E1; auto. destruct m; [assumption|]. apply lows_cons. auto.
Qed.
Lemma all_mons_perm a b : Permutation a b -> Permutation (all_mons a) (all_mons b).
Proof. intros P. unfold all_mons. induction P; cbn; eauto using Permutation_app_head, Permutation_trans.
  rewrite !app_assoc. apply Permutation_app_tail, Permutation_app_comm. Qed.
Lemma sc_low ts t : lows (all_mons ts) -> s_sort_collate Exact ts = Ok t -> lows (all_mons t).
Proof.
  intros F H. unfold s_sort_collate in H. minv H. apply sort_perm in E. apply collate_low in H; auto.
  eapply Permutation_Forall; [apply all_mons_perm; eassumption|exact F].
Qed.
Lemma pmons_low k ls rs : forall t, lows ls -> lows rs -> s_pmons Exact k ls rs = Ok t -> lows t.
Proof.
  induction ls as [|l ls IH]; intros t A B H; cbn [s_pmons] in H; [injection H as <-; constructor|].
  inversion_clear A as [|? ? A1 A2]. minv H. rename v into a. minv H. injection H as <-. apply Forall_app. split; [|eapply IH; eauto].
  clear - A1 B E. revert a E. induction rs as [|r rs IH]; intros a E; cbn [s_prow] in E; [injection E as <-; constructor|].
  inversion_clear B as [|? ? B1 B2]. minv E. rename v into m. minv E. injection E as <-. constructor; [|auto].
  unfold s_pmon in E0. minv E0. destruct v0 as [t d]. minv E0. rename v0 into q1. minv E0. injection E0 as <-.
  rewrite coef_low. cbn. eapply rmul_low; [eapply rscale_pos; [apply A1|eassumption]|apply B1|eassumption].
Qed.
Lemma all_mons_app a b : all_mons (a ++ b) = all_mons a ++ all_mons b.
Proof. apply flat_map_app. Qed.
Lemma pterms_low P ls rs : forall t, lows (all_mons ls) -> lows (all_mons rs) -> s_pterms Exact P ls rs = Ok t -> lows (all_mons t).
Proof.
  induction ls as [|l ls IH]; intros t A B H; cbn [s_pterms] in H; [injection H as <-; constructor|].
  apply lows_cons in A as [A1 A2]. minv H. rename v into a. minv H. injection H as <-. rewrite all_mons_app. apply Forall_app.
  split; [|eapply IH; eauto]. clear - A1 B E. revert a E. induction rs as [|r rs IH]; intros a E; cbn [s_ptrow] in E; [injection E as <-; constructor|].
  apply lows_cons in B as [B1 B2]. minv E. rename v into m. minv E. injection E as <-. rewrite all_mons_app. apply Forall_app. split; [|auto].
  unfold s_pterm in E0. destruct (P (fst l) (fst r)) as [e k]. destruct (k =? 0)%Z; [injection E0 as <-; constructor|].
  destruct (s_pmons Exact k (snd l) (snd r)) as [pm|] eqn:EM; cbn [bind] in E0; [|discriminate].
  injection E0 as <-. cbn [all_mons flat_map snd]. rewrite app_nil_r. apply pmons_low in EM; assumption.
Qed.
Lemma smapq_low (g : rat -> res rat) ms : (forall p q, low p -> g p = Ok q -> low q) -> forall l, lows ms -> smapq g ms = Ok l -> lows l.
Proof.
  intros G. induction ms as [|m ms IH]; intros l F Q; [injection Q as <-; constructor|].
  rewrite smapq_cons in Q. minv Q. rename v into q. minv Q. injection Q as <-. inversion_clear F as [|? ? F1 F2].
  constructor; [|apply IH; assumption]. rewrite coef_low. cbn. apply (G (sq m)); [exact F1|exact E].
Qed.
Lemma mapt_low f ts : (forall e g p q, f e = Some g -> low p -> g p = Ok q -> low q) -> forall t, lows (all_mons ts) ->
  s_mapt f ts = Ok t -> lows (all_mons t).
Proof.
  intros G. induction ts as [|s ts IH]; intros t F H; [injection H as <-; constructor|]. rewrite s_mapt_cons in H.
  apply lows_cons in F as [F1 F2]. minv H. rename v into a. minv H. injection H as <-. apply lows_cons. split; [|eapply IH; eauto].
  unfold s_upd in E. destruct (f (fst s)) as [g|] eqn:Ef; [|injection E as <-; exact F1].
  destruct (smapq g (snd s)) as [l|] eqn:Q; cbn [bind] in E; [|discriminate]. injection E as <-. cbn [snd].
  eapply smapq_low; [intros p q; apply (G _ _ _ _ Ef)|exact F1|exact Q].
Qed.
Lemma sign_of_unit b : (sign_of b = 1 \/ sign_of b = -1)%Z.
Proof. unfold sign_of. destruct (_ =? _)%N; auto. Qed.
Lemma poincare_unit e n : (snd (poincare_complement e n) = 1 \/ snd (poincare_complement e n) = -1)%Z.
Proof. unfold poincare_complement. cbn [snd]. apply sign_of_unit. Qed.
Lemma dual_raw_low n ts : forall t, lows (all_mons ts) -> s_dual_raw n ts = Ok t -> lows (all_mons t).
Proof.
  induction ts as [|a ts IH]; intros t F H; unfold s_dual_raw in H; cbn [mapM] in H; [injection H as <-; constructor|].
  apply lows_cons in F as [F1 F2]. minv H. rename v into b. minv H. injection H as <-. apply lows_cons. split; [|eapply IH; eauto].
  unfold s_dual_term in E. pose proof (poincare_unit (fst a) n) as U. destruct (poincare_complement (fst a) n) as [g k]. cbn [snd] in U.
  destruct (smapq (rscale_int k) (snd a)) as [l|] eqn:Q; cbn [bind] in E; [|discriminate]. injection E as <-. cbn [snd].
  eapply smapq_low; [intros p q Lp Hq; exact (rscale_low k p q U Lp Hq)|exact F1|exact Q].
Qed.
Lemma push_low s e t t' : (0 < den s)%Z -> lows (snd t) -> s_push Exact s e t = Ok t' -> lows (snd t').
Proof.
  intros S0 F H. unfold s_push in H. destruct (smapq _ (snd t)) as [l|] eqn:Q; cbn [bind] in H; [|discriminate]. injection H as <-. cbn [snd].
  eapply smapq_low; [|exact F|exact Q]. intros p q Lp Hq. eapply rmul_low; [apply Lp|exact S0|exact Hq].
Qed.
Definition dest_pos (d : N -> dest) : Prop :=
  forall a, match d a with Keep => True | Split q1 _ q2 _ => (0 < den q1)%Z /\ (0 < den q2)%Z end.
Lemma dist_low d ts : dest_pos d -> forall r, lows (all_mons ts) -> s_dist Exact d ts = Ok r ->
  lows (all_mons (fst r)) /\ lows (all_mons (snd r)).
Proof.
  intros D. induction ts as [|t ts IH]; intros r F H; cbn [s_dist] in H; [injection H as <-; split; constructor|].
  apply lows_cons in F as [F1 F2]. pose proof (D (fst t)) as Dt. destruct (d (fst t)) as [|q1 e1 q2 e2].
  - destruct (s_push Exact one (fst t) t) as [a|] eqn:Ea; cbn [bind] in H; [|discriminate].
    destruct (s_dist Exact d ts) as [p|]; cbn [bind] in H; [|discriminate]. injection H as <-. cbn [fst snd].
    destruct (IH p F2 eq_refl) as [A B]. split; [|assumption]. apply lows_cons. split; [|assumption].
    eapply push_low; [|exact F1|exact Ea]. cbn. lia.
  - destruct (s_push Exact q1 e1 t) as [a|] eqn:Ea; cbn [bind] in H; [|discriminate].
    destruct (s_push Exact q2 e2 t) as [b|] eqn:Eb; cbn [bind] in H; [|discriminate].
    destruct (s_dist Exact d ts) as [p|]; cbn [bind] in H; [|discriminate]. injection H as <-. cbn [fst snd].
    destruct (IH p F2 eq_refl) as [A B]. split; [assumption|]. apply lows_cons. split; [eapply push_low; [exact (proj1 Dt)|exact F1|exact Ea]|].
    apply lows_cons. split; [eapply push_low; [exact (proj2 Dt)|exact F1|exact Eb]|assumption].
Qed.
Lemma change_low d ts t : dest_pos d -> lows (all_mons ts) -> s_change Exact d ts = Ok t -> lows (all_mons t).
Proof.
  intros D F H. unfold s_change in H. minv H. rename v into r. minv H. rename v into c.
  apply dist_low in E as [A B]; auto. apply sc_low in E0; [|assumption]. exact (ss_terms_low _ _ _ A E0 H).
Qed.

(** ** proper multivectors *)
Lemma keys_sorted a b : keys_in a b -> Forall mon_sorted b -> Forall mon_sorted a.
Proof.
  intros K F. apply Forall_forall. intros m Hm. destruct (K m Hm) as (z & Iz & E1 & E2). rewrite Forall_forall in F.
  specialize (F z Iz). unfold mon_sorted in *. now rewrite E1, E2.
Qed.
Lemma in_dim_elems n t : (forall e, In e (map fst t) -> (e < 2 ^ N.of_nat n)%N) -> in_dim n t.
Proof. intros H. apply Forall_forall. intros u Hu. apply H. now apply in_map. Qed.
Lemma in_dim_in n t e : in_dim n t -> In e (map fst t) -> (e < 2 ^ N.of_nat n)%N.
Proof. intros D H. apply in_map_iff in H as (u & <- & Hu). unfold in_dim in D. rewrite Forall_forall in D. auto. Qed.
Lemma sum_proper n tx ty t : proper n tx -> proper n ty -> ss_terms Exact tx ty = Ok t -> proper n t.
Proof.
  intros [A1 A2 A3 A4 A5] [B1 B2 B3 B4 B5] H. constructor.
  - eapply ss_terms_canon; [..|exact H]; auto using mv_ok_tdegs.
  - exact (proj2 (ss_terms_val (fun _ => 0%R) 0%N tx ty t A2 B2 H)).
  - eapply keys_sorted; [eapply ss_terms_keys; exact H|]. apply Forall_app; auto.
  - exact (ss_terms_low tx ty t A4 B4 H).
  - apply in_dim_elems. intros e He. destruct (ss_terms_elems _ _ _ _ H _ He); eauto using in_dim_in.
Qed.
Lemma product_proper P n tx ty t : (forall a b, (a < 2 ^ N.of_nat n)%N -> (b < 2 ^ N.of_nat n)%N -> (fst (P a b) < 2 ^ N.of_nat n)%N) ->
  proper n tx -> proper n ty -> s_product Exact P tx ty = Ok t -> proper n t.
Proof.
  intros D [A1 A2 A3 A4 A5] [B1 B2 B3 B4 B5] H.
  pose proof (s_product_canon P Exact tx ty t (mv_ok_tdegs _ A2) (mv_ok_tdegs _ B2) H) as (C1 & C2 & C3 & C4).
  assert (N0 : forall ts, defined (fun _ => 1%R) ts) by (intros ts m i _ _; left; apply R1_neq_R0).
  constructor; auto.
  - exact (proj1 (proj2 (s_product_val P (fun _ => 1%R) n 0%N tx ty t A2 B2 (N0 _) (N0 _) A5 B5 H))).
  - unfold s_product in H. minv H. exact (sc_low _ _ (pterms_low _ _ _ _ A4 B4 E) H).
  - apply in_dim_elems. intros e He. destruct (C4 _ He) as (l & r & Il & Ir & ->). apply D; [exact (in_dim_in _ _ _ A5 (in_map fst _ _ Il))|exact (in_dim_in _ _ _ B5 (in_map fst _ _ Ir))].
Qed.
Lemma s_mapt_keys f ts : forall t, s_mapt f ts = Ok t -> keys_in (all_mons t) (all_mons ts).
Proof.
  induction ts as [|s ts IH]; intros t H; [injection H as <-; intros m []|]. rewrite s_mapt_cons in H.
  minv H. rename v into a. minv H. injection H as <-. rewrite !all_mons_cons. apply keys_in_app; [|apply keys_in_app_r; auto].
  apply keys_in_app_l. unfold s_upd in E. destruct (f (fst s)) as [g|]; [|injection E as <-; apply keys_in_refl].
  destruct (smapq g (snd s)) as [l|] eqn:Q; cbn [bind] in E; [|discriminate]. injection E as <-. eapply smapq_keys; eauto.
Qed.
Lemma rmul_keeps q : num q <> 0%Z -> keeps_nz (rmul Exact q).
Proof.
  intros Q p r P H. unfold rmul in H. inv_all. subst. destruct (Z.eqb_spec (num q * num p) 0) as [X|X]; [nia|].
  destruct (1 <? den q * den p)%Z eqn:D; [|injection H as <-; exact X].
  apply gate_exact in H as [(D1 & D2 & F) _]; cbn [num den] in *; nia.
Qed.
Lemma mapt_proper f n ts t : (forall e g, f e = Some g -> keeps_nz g /\ (forall p q, low p -> g p = Ok q -> low q)) ->
  proper n ts -> s_mapt f ts = Ok t -> proper n t.
Proof.
  intros K [A1 A2 A3 A4 A5] H. pose proof (s_mapt_shape _ _ _ H) as (_ & _ & _ & _ & M).
  assert (L : lows (all_mons t)) by (eapply mapt_low; [|exact A4|exact H]; intros; eapply K; eauto).
  assert (KI : keys_in (all_mons t) (all_mons ts)) by (eapply s_mapt_keys; exact H).
  constructor; auto.
  - eapply s_mapt_canon; [|exact A1|exact H]. intros e g E. apply (K e g E).
  - unfold mv_ok. apply Forall_forall. intros m Hm. destruct (KI m Hm) as (z & Iz & E1 & E2).
    unfold mv_ok in A2. rewrite Forall_forall in A2. destruct (A2 z Iz) as (_ & I1 & I2). unfold lows in L. rewrite Forall_forall in L.
    destruct (L m Hm) as [P _]. repeat split; [lia|now rewrite E1|now rewrite E2].
  - eapply keys_sorted; eauto.
  - apply in_dim_elems. rewrite M. intros e He. eapply in_dim_in; eauto.
Qed.
Lemma negate_proper n ts t : proper n ts -> s_negate ts = Ok t -> proper n t.
Proof.
  apply mapt_proper. intros e g E. injection E as <-. split; [apply rneg_keeps|]. intros p q. apply rneg_low.
Qed.
Lemma reverse_proper n ts t : proper n ts -> s_reverse ts = Ok t -> proper n t.
Proof.
  apply mapt_proper. intros e g E. destruct (reverse_negates e); [|discriminate]. injection E as <-.
  split; [apply rneg_keeps|]. intros p q. apply rneg_low.
Qed.
Lemma scale_proper n k ts t : num k <> 0%Z -> (0 < den k)%Z -> proper n ts ->
  s_mapt (fun _ => Some (rmul Exact k)) ts = Ok t -> proper n t.
Proof.
  intros K D. apply mapt_proper. intros e g E. injection E as <-. split; [now apply rmul_keeps|].
  intros p q Lp. apply rmul_low; [exact D|apply Lp].
Qed.
Lemma dual_proper n ts t : proper n ts -> s_dual Exact (N.of_nat n) ts = Ok t -> proper n t.
Proof.
  intros [A1 A2 A3 A4 A5] H. pose proof (s_dual_canon Exact (N.of_nat n) ts t (mv_ok_tdegs _ A2) H) as (C1 & _ & C3 & C4).
  constructor; auto.
  - exact (proj2 (s_dual_val (fun _ => 0%R) _ _ _ A2 H)).
  - eapply keys_sorted; eauto.
  - unfold s_dual in H. minv H. eapply sc_low; [|exact H]. eapply dual_raw_low; eauto.
  - apply in_dim_elems. intros e He. destruct (C4 e He) as (a & Ia & ->). apply complement_lt. eapply in_dim_in; eauto.
Qed.
Lemma change_proper d n ts t : dest_ok d -> dest_pos d -> (forall a, (a < 2 ^ N.of_nat n)%N -> in_n n (dcomb d a)) ->
  proper n ts -> s_change Exact d ts = Ok t -> proper n t.
Proof.
  intros DO DP DD [A1 A2 A3 A4 A5] H. constructor.
  - eapply s_change_canon; eauto.
  - exact (proj2 (s_change_val (fun _ => 0%R) d ts t 0%N DO A2 H)).
  - eapply keys_sorted; [eapply s_change_keys; [|exact H]|]; auto using mv_ok_tdegs.
  - eapply change_low; eauto.
  - eapply s_change_dim; [exact DD|exact A5| |exact H]. now apply mv_ok_tdegs.
Qed.
