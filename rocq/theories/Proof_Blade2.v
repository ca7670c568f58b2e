(** Closed forms and laws of the blade products. *)
From Coq Require Import ZArith NArith List Bool Lia ZifyBool ZifyN ZifyNat Sorted Permutation.
From Verif Require Import Base Model_Numeric Model_Blade Spec_Clifford Proof_Gens Proof_Blade.
Import ListNotations.
Open Scope N_scope.

(** ** inversions *)
Lemma inversions_cons i u v :
  inversions (i :: u) v = (length (filter (fun j => (j <? i)%N) v) + inversions u v)%nat.
Proof.
  unfold inversions. simpl. rewrite filter_app, app_length. f_equal.
  induction v as [|y v IH]; simpl; [reflexivity|]. destruct (y <? i); simpl; now rewrite IH.
Qed.

Lemma inversions_nil_r u : inversions u [] = 0%nat.
Proof. induction u; [reflexivity|]. rewrite inversions_cons. simpl. assumption. Qed.

Lemma inversions_app u u' v : inversions (u ++ u') v = (inversions u v + inversions u' v)%nat.
Proof. induction u as [|i u IH]; simpl; [reflexivity|]. rewrite !inversions_cons, IH. lia. Qed.

Lemma inversions_ext_r u v v' :
  (forall i, In i u -> length (filter (fun j => (j <? i)%N) v) = length (filter (fun j => (j <? i)%N) v')) ->
  inversions u v = inversions u v'.
Proof.
  induction u as [|i u IH]; intros H; [reflexivity|].
  rewrite !inversions_cons. rewrite (H i) by now left. f_equal. apply IH. intros k Hk. apply H. now right.
Qed.

Lemma inversions_cons_r u j v :
  inversions u (j :: v) = (length (filter (fun i => (j <? i)%N) u) + inversions u v)%nat.
Proof.
  induction u as [|i u IH]; [reflexivity|].
  rewrite !inversions_cons, IH. simpl. destruct (j <? i); simpl; lia.
Qed.

Lemma inversions_flip u : forall v, (forall i, In i u -> ~ In i v) ->
  (inversions u v + inversions v u = length u * length v)%nat.
Proof.
  induction u as [|i u IH]; intros v H.
  - rewrite inversions_nil_r. reflexivity.
  - rewrite inversions_cons, inversions_cons_r. simpl.
    rewrite <- IH by (intros k Hk; apply H; now right).
    assert (E : (length (filter (fun j => (j <? i)%N) v) + length (filter (fun j => (i <? j)%N) v) = length v)%nat).
    { specialize (H i (or_introl eq_refl)). clear IH. induction v as [|y v IHv]; [reflexivity|].
      simpl. assert (y <> i) by (intros ->; apply H; now left).
      assert (H' : ~ In i v) by (intros Hi; apply H; now right). specialize (IHv H').
      destruct (N.ltb_spec y i), (N.ltb_spec i y); simpl; lia. }
    lia.
Qed.

(** filter of gens below i, as [lo] *)
Lemma lo_def i b : filter (fun j => (j <? i)%N) (gens b) = lo i b.
Proof. reflexivity. Qed.

(** ** closed form *)
Lemma squares_app q u v : squares q (u ++ v) = (squares q u * squares q v)%Z.
Proof.
  induction u as [|x u IH]; [symmetry; apply Z.mul_1_l|].
  change (squares q ((x :: u) ++ v)) with (q x * squares q (u ++ v))%Z.
  change (squares q (x :: u)) with (q x * squares q u)%Z. rewrite IH. ring.
Qed.

Lemma clr_log2_lt a i : a <> 0 -> In i (gens (clr a (N.log2 a))) -> i < N.log2 a.
Proof.
  intros H Hi. apply gens_In in Hi. rewrite clr_spec in Hi. apply andb_true_iff in Hi. destruct Hi as [H1 H2].
  destruct (N.lt_trichotomy i (N.log2 a)) as [?|[?|?]]; [assumption|lia|].
  rewrite N.bits_above_log2 in H1 by assumption. discriminate.
Qed.


Lemma cl_closed_form_aux q : forall n a b, (N.to_nat (N.size a) < n)%nat ->
  cl_eq q (1%Z, gens a ++ gens b) (cl_coef q a b, gens (N.lxor a b)).
Proof.
  induction n as [|n IH]; intros a b Hn; [lia|].
  destruct (N.eq_dec a 0) as [->|Ha].
  { unfold cl_coef. simpl. apply cl_refl. }
  pose proof (size_clr_log2 a Ha) as Hs. pose proof (N.bit_log2 a Ha) as Hb.
  pose proof (fun i => clr_log2_lt a i Ha) as Hlt.
  set (l := N.log2 a) in *.
  assert (G : gens a = gens (clr a l) ++ [l]) by (unfold clr; now apply gens_log2).
  destruct (N.testbit b l) eqn:T.
  - pose proof (cl_remove q l b 1 T) as R.
    apply (cl_cong_l _ _ _ _ _ (gens (clr a l))) in R. rewrite app_assoc, <- G in R.
    eapply cl_trans; [exact R|].
    pose proof (IH (clr a l) (clr b l) ltac:(lia)) as H.
    apply (cl_scale _ _ _ _ _ (1 * sign_of (pop_below b l) * q l)) in H.
    rewrite Z.mul_1_r, lxor_step_clr in H by assumption.
    eapply cl_trans; [exact H|].
    match goal with |- cl_eq _ (?x, _) (?y, _) => replace y with x; [apply cl_refl|] end.
    unfold cl_coef. rewrite G, inversions_app, neg1_pow_add.
    rewrite inversions_cons. change (inversions [] _) with 0%nat. rewrite Nat.add_0_r, lo_def.
    rewrite pop_below_lo, sign_of_neg1_pow, Nat2N.id.
    rewrite (inversions_ext_r (gens (clr a l)) (gens (clr b l)) (gens b)).
    2:{ intros i Hi. rewrite !lo_def. f_equal. apply lo_ext. intros x Hx. apply testbit_clr_ne.
        apply Hlt in Hi. lia. }
    assert (E : gens (N.land a b) = gens (N.land (clr a l) (clr b l)) ++ [l]).
    { apply sorted_ext; [apply gens_sorted|apply sorted_app; [apply gens_sorted|repeat constructor|]|].
      - intros i j Hi [<-|[]]. apply Hlt. apply gens_In in Hi. rewrite N.land_spec in Hi.
        apply gens_In. now apply andb_true_iff in Hi.
      - intros i. rewrite in_app_iff, !gens_In, !N.land_spec, !clr_spec. simpl.
        destruct (N.eqb_spec l i) as [<-|Hne].
        + rewrite Hb, T. simpl. intuition.
        + simpl. rewrite !andb_true_r. intuition. }
    rewrite E, squares_app. change (squares q [l]) with (q l * 1)%Z. ring.
  - pose proof (cl_insert q l b 1 T) as R.
    apply (cl_cong_l _ _ _ _ _ (gens (clr a l))) in R. rewrite app_assoc, <- G in R.
    eapply cl_trans; [exact R|].
    pose proof (IH (clr a l) (setb b l) ltac:(lia)) as H.
    apply (cl_scale _ _ _ _ _ (1 * sign_of (pop_below b l))) in H.
    rewrite Z.mul_1_r, lxor_step_set in H by assumption.
    eapply cl_trans; [exact H|].
    match goal with |- cl_eq _ (?x, _) (?y, _) => replace y with x; [apply cl_refl|] end.
    unfold cl_coef. rewrite G, inversions_app, neg1_pow_add.
    rewrite inversions_cons. change (inversions [] _) with 0%nat. rewrite Nat.add_0_r, lo_def.
    rewrite pop_below_lo, sign_of_neg1_pow, Nat2N.id.
    rewrite (inversions_ext_r (gens (clr a l)) (gens (setb b l)) (gens b)).
    2:{ intros i Hi. rewrite !lo_def. f_equal. apply lo_ext. intros x Hx. apply testbit_setb_ne.
        apply Hlt in Hi. lia. }
    assert (E : N.land (clr a l) (setb b l) = N.land a b).
    { apply N.bits_inj. intros i. rewrite !N.land_spec, clr_spec, setb_spec.
      destruct (N.eqb_spec l i) as [<-|]; simpl; [now rewrite T, !andb_false_r|].
      now rewrite andb_true_r, orb_false_r. }
    rewrite E. ring.
Qed.

Lemma cl_closed_form q a b :
  cl_eq q (1%Z, gens a ++ gens b) (cl_coef q a b, gens (N.lxor a b)).
Proof. apply (cl_closed_form_aux q (S (N.to_nat (N.size a)))). lia. Qed.

(** The code computes the closed form. *)
Lemma geometric_closed m a b :
  geometric m a b =
  if (cl_coef (sq m) a b =? 0)%Z then (0, 0%Z) else (N.lxor a b, cl_coef (sq m) a b).
Proof.
  pose proof (geometric_derivable m a b) as D.
  pose proof (cl_closed_form (sq m) a b) as C.
  assert (E : cl_eq (sq m) (snd (geometric m a b), gens (fst (geometric m a b)))
                    (cl_coef (sq m) a b, gens (N.lxor a b)))
    by (eapply cl_trans; [apply cl_sym; exact D|exact C]).
  assert (Z0 : snd (geometric m a b) = 0%Z -> geometric m a b = (0, 0%Z)).
  { unfold geometric. destruct (a =? 0); [discriminate|]. destruct (b =? 0); [discriminate|].
    destruct (geo_loop m (fuel_for a) a b 0); [|reflexivity]. simpl. unfold sign_of.
    destruct (_ =? 0); discriminate. }
  apply cl_eq_unique in E. destruct E as [[E1 E2]|[E1 E2]].
  - rewrite <- E1 at 1. destruct (Z.eqb_spec (snd (geometric m a b)) 0) as [Hz|Hz].
    + now apply Z0.
    + rewrite <- E1, <- E2. now destruct (geometric m a b).
  - rewrite E2. simpl. now apply Z0.
Qed.

(** ** laws *)
Lemma geometric_assoc m a b c :
  let '(ab, s1) := geometric m a b in
  let '(l, s2) := geometric m ab c in
  let '(bc, t1) := geometric m b c in
  let '(r, t2) := geometric m a bc in
  (s1 * s2 = t1 * t2)%Z /\ ((s1 * s2)%Z <> 0%Z -> l = r).
Proof.
  pose proof (geometric_derivable m a b) as D1.
  destruct (geometric m a b) as [ab s1]. simpl in D1.
  pose proof (geometric_derivable m ab c) as D2.
  destruct (geometric m ab c) as [l s2]. simpl in D2.
  pose proof (geometric_derivable m b c) as D3.
  destruct (geometric m b c) as [bc t1]. simpl in D3.
  pose proof (geometric_derivable m a bc) as D4.
  destruct (geometric m a bc) as [r t2]. simpl in D4.
  assert (E : cl_eq (sq m) ((s1 * s2)%Z, gens l) ((t1 * t2)%Z, gens r)).
  { eapply cl_trans; [|eapply cl_trans].
    - apply cl_sym, cl_scale. exact D2.
    - rewrite Z.mul_1_r. apply cl_sym. eapply cl_cong_r. exact D1.
    - rewrite <- app_assoc. eapply cl_trans.
      + eapply cl_cong_l. exact D3.
      + replace t1 with (t1 * 1)%Z at 1 by lia. apply cl_scale. exact D4. }
  apply cl_eq_unique in E. destruct E as [[E1 E2]|[E1 E2]].
  - split; [assumption|]. intros _. assumption.
  - rewrite E1, E2. split; [reflexivity|]. intros H. now elim H.
Qed.

Lemma gens_eq_1 i : gens (2 ^ i) = [i]. Proof. apply gens_pow2. Qed.

Lemma geometric_gen_square m i : geometric m (2 ^ i) (2 ^ i) = (0, sq m i).
Proof.
  rewrite geometric_closed.
  assert (C : cl_coef (sq m) (2 ^ i) (2 ^ i) = sq m i).
  { unfold cl_coef. rewrite N.land_diag, gens_pow2.
    rewrite inversions_cons. simpl. rewrite N.ltb_irrefl. change (squares (sq m) [i]) with (sq m i * 1)%Z.
    change (neg1_pow _) with 1%Z. ring. }
  rewrite C, N.lxor_nilpotent.
  destruct (Z.eqb_spec (sq m i) 0) as [E|E]; [now rewrite E|reflexivity].
Qed.

Lemma geometric_gen_anticomm m i j : i <> j ->
  fst (geometric m (2 ^ i) (2 ^ j)) = fst (geometric m (2 ^ j) (2 ^ i)) /\
  (snd (geometric m (2 ^ i) (2 ^ j)) = - snd (geometric m (2 ^ j) (2 ^ i)))%Z /\
  snd (geometric m (2 ^ i) (2 ^ j)) <> 0%Z.
Proof.
  intros H. rewrite !geometric_closed. unfold cl_coef. rewrite (N.land_comm (2 ^ j)), (N.lxor_comm (2 ^ j)).
  assert (E : N.land (2 ^ i) (2 ^ j) = 0).
  { apply N.bits_inj. intros x. rewrite N.land_spec, !pow2_bits, N.bits_0.
    destruct (N.eqb_spec i x), (N.eqb_spec j x); try reflexivity. congruence. }
  rewrite E, !gens_pow2. unfold inversions, squares, neg1_pow. simpl.
  rewrite (ltb_flip i j H). destruct (j <? i); simpl; repeat split; lia.
Qed.

(** a blade is the ordered product of its generators *)
Lemma geometric_low_gen m b l : (forall i, N.testbit b i = true -> l < i) ->
  geometric m (2 ^ l) b = (setb b l, 1%Z).
Proof.
  intros H. rewrite geometric_closed. unfold cl_coef.
  assert (E : N.land (2 ^ l) b = 0).
  { apply N.bits_inj. intros x. rewrite N.land_spec, pow2_bits, N.bits_0.
    destruct (N.eqb_spec l x) as [<-|]; [|reflexivity]. destruct (N.testbit b l) eqn:T; [|reflexivity].
    apply H in T. lia. }
  rewrite E, gens_pow2, inversions_cons. change (inversions [] _) with 0%nat.
  rewrite lo_def. replace (lo l b) with (@nil N).
  - unfold squares, neg1_pow. simpl. f_equal.
    unfold setb. rewrite N.lor_comm. rewrite N.lxor_lor by assumption. reflexivity.
  - symmetry. apply sorted_ext; [apply sorted_filter, gens_sorted|constructor|].
    intros i. unfold lo. rewrite filter_In, gens_In. simpl. split; [|tauto]. intros [H1 H2]. apply H in H1. lia.
Qed.

(** ** grades *)
Lemma gens_land a b : gens (N.land a b) = filter (N.testbit b) (gens a).
Proof.
  apply sorted_ext; [apply gens_sorted|apply sorted_filter, gens_sorted|].
  intros i. now rewrite filter_In, !gens_In, N.land_spec, andb_true_iff.
Qed.
Lemma gens_ldiff a b : gens (N.ldiff a b) = filter (fun i => negb (N.testbit b i)) (gens a).
Proof.
  apply sorted_ext; [apply gens_sorted|apply sorted_filter, gens_sorted|].
  intros i. now rewrite filter_In, !gens_In, N.ldiff_spec, andb_true_iff.
Qed.
Lemma filter_partition {A} (f : A -> bool) l :
  (length (filter f l) + length (filter (fun x => negb (f x)) l) = length l)%nat.
Proof. induction l; simpl; [reflexivity|]. destruct (f a); simpl; lia. Qed.

Lemma sorted_NoDup u : StronglySorted N.lt u -> NoDup u.
Proof.
  induction 1 as [|x u Hu IH Hx]; constructor; [|assumption].
  intros Hi. rewrite Forall_forall in Hx. specialize (Hx _ Hi). lia.
Qed.

Lemma grade_land_ldiff a b : (grade (N.land a b) + grade (N.ldiff a b) = grade a)%nat.
Proof. unfold grade. rewrite gens_land, gens_ldiff. apply filter_partition. Qed.

Lemma grade_lxor a b : (grade (N.lxor a b) + 2 * grade (N.land a b) = grade a + grade b)%nat.
Proof.
  assert (E : grade (N.lxor a b) = (grade (N.ldiff a b) + grade (N.ldiff b a))%nat).
  { unfold grade. rewrite <- app_length. apply Permutation_length. apply NoDup_Permutation.
    - apply sorted_NoDup, gens_sorted.
    - apply NoDup_app_iff || idtac. 
      assert (D : forall i, In i (gens (N.ldiff a b)) -> ~ In i (gens (N.ldiff b a))).
      { intros i. rewrite !gens_In, !N.ldiff_spec, !andb_true_iff. intros [H1 H2] [H3 H4].
        rewrite H3 in H2. discriminate. }
      pose proof (sorted_NoDup _ (gens_sorted (N.ldiff a b))) as N1.
      pose proof (sorted_NoDup _ (gens_sorted (N.ldiff b a))) as N2.
      induction N1 as [|x u Hx Hu IH]; [assumption|]. simpl. constructor.
      + rewrite in_app_iff. intros [?|?]; [contradiction|]. apply (D x); [now left|assumption].
      + apply IH. intros i Hi. apply D. now right.
    - intros i. rewrite in_app_iff, !gens_In, N.lxor_spec, !N.ldiff_spec.
      destruct (N.testbit a i), (N.testbit b i); simpl; intuition discriminate. }
  pose proof (grade_land_ldiff a b) as H1. pose proof (grade_land_ldiff b a) as H2.
  rewrite (N.land_comm b a) in H2. lia.
Qed.

Lemma filter_all {A} (f : A -> bool) l : length (filter f l) = length l -> forall x, In x l -> f x = true.
Proof.
  induction l as [|y l IH]; simpl; intros H x Hx; [contradiction|].
  assert (L : (length (filter f l) <= length l)%nat).
  { clear. induction l; simpl; [lia|]. destruct (f a); simpl; lia. }
  destruct (f y) eqn:E; simpl in H; [|lia].
  destruct Hx as [<-|Hx]; [assumption|]. apply IH; [lia|assumption].
Qed.

Lemma grade_land_full a b : grade (N.land a b) = grade a -> N.land a b = a.
Proof.
  unfold grade. rewrite gens_land. intros H. pose proof (filter_all _ _ H) as F.
  apply N.bits_inj. intros i. rewrite N.land_spec.
  destruct (N.testbit a i) eqn:E; [|reflexivity]. apply gens_In in E. now rewrite (F i E).
Qed.

Lemma pop_count_grade a : pop_count a = N.of_nat (grade a).
Proof. apply pop_count_gens. Qed.

Lemma grade_0 a : grade a = 0%nat -> a = 0.
Proof. unfold grade. intros H. apply gens_inj. simpl. now apply length_zero_iff_nil. Qed.

(** ** exterior product *)
Lemma ext_loop_sound q : forall fuel g1 g2 s,
  (N.to_nat (N.size g1) < fuel)%nat -> N.land g1 g2 = 0 ->
  cl_eq q (sign_of s, gens g1 ++ gens g2) (sign_of (ext_loop fuel g1 g2 s), gens (N.lor g1 g2)).
Proof.
  induction fuel as [|f IH]; intros g1 g2 s Hf D; [lia|].
  cbn [ext_loop]. destruct (0 <? g1) eqn:E.
  2:{ replace g1 with 0 by lia. simpl. apply cl_refl. }
  assert (Hg : g1 <> 0) by lia.
  pose proof (size_clr_log2 g1 Hg) as Hs. assert (Hb := N.bit_log2 g1 Hg).
  unfold leading_set_index. set (l := N.log2 g1) in *.
  assert (G : gens g1 = gens (clr g1 l) ++ [l]) by (unfold clr; now apply gens_log2).
  assert (T : N.testbit g2 l = false).
  { assert (B : N.testbit (N.land g1 g2) l = false) by (rewrite D; apply N.bits_0).
    rewrite N.land_spec, Hb in B. assumption. }
  pose proof (cl_insert q l g2 1 T) as R.
  apply (cl_cong_l _ _ _ _ _ (gens (clr g1 l))) in R. rewrite app_assoc, <- G in R.
  apply (cl_scale _ _ _ _ _ (sign_of s)) in R. rewrite Z.mul_1_r, Z.mul_1_l in R.
  eapply cl_trans; [exact R|].
  replace (sign_of s * sign_of (pop_below g2 l))%Z with (sign_of (wrap8 (s + pop_below g2 l)))
    by now rewrite sign_of_wrap8, sign_of_add.
  replace (N.lor g1 g2) with (N.lor (clr g1 l) (setb g2 l)).
  - apply IH; [lia|].
    apply N.bits_inj. intros i. rewrite N.land_spec, clr_spec, setb_spec, N.bits_0.
    assert (B : N.testbit (N.land g1 g2) i = false) by (rewrite D; apply N.bits_0).
    rewrite N.land_spec in B.
    destruct (N.eqb_spec l i); simpl; [now rewrite andb_false_r|]. now rewrite andb_true_r, orb_false_r.
  - apply N.bits_inj. intros i. rewrite !N.lor_spec, clr_spec, setb_spec.
    destruct (N.eqb_spec l i) as [<-|]; simpl.
    + now rewrite Hb, andb_false_r, orb_true_r.
    + now rewrite andb_true_r, orb_false_r.
Qed.

Lemma cl_coef_disjoint q a b : N.land a b = 0 -> cl_coef q a b = neg1_pow (inversions (gens a) (gens b)).
Proof. intros H. unfold cl_coef. rewrite H. unfold squares. simpl. lia. Qed.

Lemma exterior_closed a b :
  exterior a b = if N.land a b =? 0 then (N.lxor a b, neg1_pow (inversions (gens a) (gens b)))
                 else (0, 0%Z).
Proof.
  unfold exterior.
  destruct (N.eqb_spec a 0) as [->|Ha]; [reflexivity|].
  destruct (N.eqb_spec b 0) as [->|Hb].
  { rewrite N.land_0_r. simpl. rewrite N.lxor_0_r, inversions_nil_r. reflexivity. }
  destruct (N.eqb_spec (N.land a b) 0) as [E|E]; [|reflexivity]. cbn [negb].
  rewrite N.lxor_lor by assumption. f_equal.
  pose proof (ext_loop_sound (fun _ => 1%Z) (fuel_for a) a b 0 (fuel_for_ok a) E) as H.
  change (sign_of 0) with 1%Z in H.
  pose proof (cl_closed_form (fun _ => 1%Z) a b) as C.
  rewrite cl_coef_disjoint, N.lxor_lor in C by assumption.
  assert (F : cl_eq (fun _ => 1%Z) (sign_of (ext_loop (fuel_for a) a b 0), gens (N.lor a b))
     (neg1_pow (inversions (gens a) (gens b)), gens (N.lor a b)))
    by (eapply cl_trans; [apply cl_sym; exact H|exact C]).
  apply cl_eq_unique in F. destruct F as [[F _]|[F1 F2]]; [assumption|].
  destruct (neg1_pow_cases (inversions (gens a) (gens b))); lia.
Qed.

(** the exterior product is the product of the algebra with e_i e_i = 0 *)
Lemma exterior_derivable a b :
  cl_eq (fun _ => 0%Z) (1%Z, gens a ++ gens b) (snd (exterior a b), gens (fst (exterior a b))).
Proof.
  pose proof (cl_closed_form (fun _ => 0%Z) a b) as C. rewrite exterior_closed.
  destruct (N.eqb_spec (N.land a b) 0) as [E|E].
  - rewrite cl_coef_disjoint in C by assumption. exact C.
  - eapply cl_trans; [exact C|]. simpl fst; simpl snd.
    replace (cl_coef (fun _ => 0%Z) a b) with 0%Z; [apply cl_zero|].
    unfold cl_coef. destruct (gens (N.land a b)) eqn:G.
    + elim E. now apply gens_inj.
    + unfold squares. simpl. lia.
Qed.

Lemma exterior_assoc a b c :
  let '(ab, s1) := exterior a b in
  let '(l, s2) := exterior ab c in
  let '(bc, t1) := exterior b c in
  let '(r, t2) := exterior a bc in
  (s1 * s2 = t1 * t2)%Z /\ ((s1 * s2)%Z <> 0%Z -> l = r).
Proof.
  pose proof (exterior_derivable a b) as D1.
  destruct (exterior a b) as [ab s1]. simpl in D1.
  pose proof (exterior_derivable ab c) as D2.
  destruct (exterior ab c) as [l s2]. simpl in D2.
  pose proof (exterior_derivable b c) as D3.
  destruct (exterior b c) as [bc t1]. simpl in D3.
  pose proof (exterior_derivable a bc) as D4.
  destruct (exterior a bc) as [r t2]. simpl in D4.
  assert (E : cl_eq (fun _ => 0%Z) ((s1 * s2)%Z, gens l) ((t1 * t2)%Z, gens r)).
  { eapply cl_trans; [|eapply cl_trans].
    - apply cl_sym, cl_scale. exact D2.
    - rewrite Z.mul_1_r. apply cl_sym. eapply cl_cong_r. exact D1.
    - rewrite <- app_assoc. eapply cl_trans.
      + eapply cl_cong_l. exact D3.
      + replace t1 with (t1 * 1)%Z at 1 by lia. apply cl_scale. exact D4. }
  apply cl_eq_unique in E. destruct E as [[E1 E2]|[E1 E2]].
  - split; [assumption|]. intros _. assumption.
  - rewrite E1, E2. split; [reflexivity|]. intros H. now elim H.
Qed.

Lemma disjoint_gens a b : N.land a b = 0 -> forall i, In i (gens a) -> ~ In i (gens b).
Proof.
  intros H i Ha Hb. apply gens_In in Ha, Hb.
  assert (B : N.testbit (N.land a b) i = true) by now rewrite N.land_spec, Ha, Hb.
  rewrite H, N.bits_0 in B. discriminate.
Qed.

Lemma exterior_anticomm a b :
  fst (exterior a b) = fst (exterior b a) /\
  snd (exterior a b) = (neg1_pow (grade a * grade b) * snd (exterior b a))%Z.
Proof.
  rewrite !exterior_closed, (N.land_comm b a), (N.lxor_comm b a).
  destruct (N.eqb_spec (N.land a b) 0) as [E|E]; simpl; [|lia].
  split; [reflexivity|].
  unfold grade. rewrite <- (inversions_flip (gens a) (gens b)) by now apply disjoint_gens.
  rewrite neg1_pow_add, <- Z.mul_assoc, neg1_pow_sq. lia.
Qed.

(** grade(a)+grade(b) part of the geometric product, for every metric *)
Lemma exterior_is_top_grade m a b :
  exterior a b =
  if Nat.eqb (grade (N.lxor a b)) (grade a + grade b) then geometric m a b else (0, 0%Z).
Proof.
  rewrite exterior_closed, geometric_closed.
  pose proof (grade_lxor a b) as G.
  destruct (N.eqb_spec (N.land a b) 0) as [E|E].
  - rewrite E in G. unfold grade in G at 2. simpl in G.
    replace (Nat.eqb _ _) with true by (symmetry; apply Nat.eqb_eq; lia).
    rewrite cl_coef_disjoint by assumption.
    destruct (neg1_pow_cases (inversions (gens a) (gens b))) as [->| ->]; reflexivity.
  - replace (Nat.eqb _ _) with false; [reflexivity|]. symmetry. apply Nat.eqb_neq. intros H.
    apply E, grade_0. lia.
Qed.

(** ** contraction *)
Lemma subset_bits a b : N.land a b = a <-> (forall i, N.testbit a i = true -> N.testbit b i = true).
Proof.
  split.
  - intros H i Hi. rewrite <- H, N.land_spec in Hi. now apply andb_true_iff in Hi.
  - intros H. apply N.bits_inj. intros i. rewrite N.land_spec.
    destruct (N.testbit a i) eqn:E; [|reflexivity]. now rewrite (H i E).
Qed.

Lemma con_loop_geo m : forall fuel g1 g2 s,
  (N.to_nat (N.size g1) < fuel)%nat ->
  con_loop m fuel g1 g2 s =
  if N.land g1 g2 =? g1 then option_map (fun s' => (N.lxor g1 g2, s')) (geo_loop m fuel g1 g2 s) else None.
Proof.
  induction fuel as [|f IH]; intros g1 g2 s Hf; [lia|].
  cbn [con_loop geo_loop]. destruct (0 <? g1) eqn:E.
  2:{ replace g1 with 0 by lia. simpl. reflexivity. }
  assert (Hg : g1 <> 0) by lia.
  pose proof (size_clr_log2 g1 Hg) as Hs. assert (Hb := N.bit_log2 g1 Hg).
  unfold leading_set_index. rewrite intercept_spec. set (l := N.log2 g1) in *.
  destruct (N.testbit g2 l) eqn:T.
  - replace (Z.of_N l =? -1)%Z with false by lia. rewrite N2Z.id. cbn [orb].
    destruct (sq m l =? 0)%Z eqn:D0; [now destruct (_ =? _)|].
    rewrite IH by lia. rewrite lxor_step_clr by assumption.
    replace (N.land (clr g1 l) (clr g2 l) =? clr g1 l) with (N.land g1 g2 =? g1); [reflexivity|].
    apply eq_iff_eq_true. rewrite !N.eqb_eq, !subset_bits. split; intros H i.
    + rewrite !clr_spec, !andb_true_iff. intros [H1 H2]. split; auto.
    + intros Hi. destruct (N.eqb_spec l i) as [<-|Hn]; [assumption|].
      specialize (H i). rewrite !testbit_clr_ne in H by assumption. auto.
  - simpl (_ =? _)%Z. cbn [orb].
    destruct (N.eqb_spec (N.land g1 g2) g1) as [H|H]; [|reflexivity].
    rewrite subset_bits in H. apply H in Hb. congruence.
Qed.

Lemma contract_subset m a b :
  contract m a b = if N.land a b =? a then geometric m a b else (0, 0%Z).
Proof.
  unfold contract, geometric.
  destruct (N.eqb_spec a 0) as [->|Ha]; [reflexivity|].
  destruct (N.eqb_spec b 0) as [->|Hb].
  - rewrite N.land_0_r. destruct (N.eqb_spec 0 a); [congruence|].
    replace (pop_count 0 <? pop_count a) with true; [reflexivity|].
    symmetry. apply N.ltb_lt. rewrite (pop_count_grade a). change (pop_count 0) with 0.
    destruct (grade a) eqn:G; [apply grade_0 in G; contradiction|lia].
  - destruct (N.ltb_spec (pop_count b) (pop_count a)) as [L|L].
    + destruct (N.eqb_spec (N.land a b) a) as [E|E]; [|reflexivity].
      exfalso. rewrite !pop_count_grade in L. pose proof (grade_land_ldiff b a) as G.
      rewrite N.land_comm, E in G. lia.
    + rewrite con_loop_geo by apply fuel_for_ok.
      destruct (N.land a b =? a); [|reflexivity].
      destruct (geo_loop _ _ _ _ _); reflexivity.
Qed.

Lemma contract_grade m a b :
  contract m a b =
  if Nat.eqb (grade (N.lxor a b) + grade a) (grade b) then geometric m a b else (0, 0%Z).
Proof.
  rewrite contract_subset. pose proof (grade_lxor a b) as G. pose proof (grade_land_ldiff a b) as G2.
  destruct (N.eqb_spec (N.land a b) a) as [E|E].
  - rewrite E in G. replace (Nat.eqb _ _) with true; [reflexivity|]. symmetry. apply Nat.eqb_eq. lia.
  - replace (Nat.eqb _ _) with false; [reflexivity|]. symmetry. apply Nat.eqb_neq. intros H.
    apply E, grade_land_full. lia.
Qed.

(** ** symmetric inner product *)
Lemma symmetric_inner_subset m a b :
  symmetric_inner m a b =
  if negb (a =? 0) && negb (b =? 0) && ((N.land a b =? a) || (N.land a b =? b))
  then geometric m a b else (0, 0%Z).
Proof.
  unfold symmetric_inner.
  destruct (N.eqb_spec a 0) as [->|Ha]; [reflexivity|].
  destruct (N.eqb_spec b 0) as [->|Hb]; [reflexivity|]. cbn [orb negb andb].
  rewrite geometric_closed.
  destruct (cl_coef (sq m) a b =? 0)%Z eqn:Z0.
  - simpl. now destruct (_ || _).
  - rewrite Z0. rewrite !pop_count_grade.
    pose proof (grade_lxor a b) as G. pose proof (grade_land_ldiff a b) as G1.
    pose proof (grade_land_ldiff b a) as G2. rewrite (N.land_comm b a) in G2.
    match goal with |- (if ?x then _ else _) = (if ?y then _ else _) => replace y with x; [reflexivity|] end.
    apply eq_iff_eq_true. rewrite orb_true_iff, !N.eqb_eq, Z.eqb_eq. split.
    + intros H. destruct (Nat.le_ge_cases (grade a) (grade b)).
      * left. apply grade_land_full. lia.
      * right. rewrite N.land_comm. apply grade_land_full. rewrite N.land_comm. lia.
    + intros [H|H]; rewrite H in *; lia.
Qed.

Lemma symmetric_inner_grade m a b :
  symmetric_inner m a b =
  if negb (a =? 0) && negb (b =? 0) &&
     Z.eqb (Z.of_nat (grade (N.lxor a b))) (Z.abs (Z.of_nat (grade a) - Z.of_nat (grade b)))
  then geometric m a b else (0, 0%Z).
Proof.
  rewrite symmetric_inner_subset. 
  pose proof (grade_lxor a b) as G. pose proof (grade_land_ldiff a b) as G1.
  pose proof (grade_land_ldiff b a) as G2. rewrite (N.land_comm b a) in G2.
  match goal with |- (if _ && ?x then _ else _) = (if _ && ?y then _ else _) => replace y with x; [reflexivity|] end.
  apply eq_iff_eq_true. rewrite orb_true_iff, !N.eqb_eq, Z.eqb_eq. split.
  - intros [H|H]; rewrite H in *; lia.
  - intros H. destruct (Nat.le_ge_cases (grade a) (grade b)).
    * left. apply grade_land_full. lia.
    * right. rewrite N.land_comm. apply grade_land_full. rewrite N.land_comm. lia.
Qed.

(** ** reversion *)
Lemma cl_eq_rev q x y : cl_eq q x y -> cl_eq q (fst x, rev (snd x)) (fst y, rev (snd y)).
Proof.
  induction 1; simpl.
  - apply cl_refl.
  - now apply cl_sym.
  - eapply cl_trans; eassumption.
  - replace (rev (u ++ i :: j :: v)) with (rev v ++ [j; i] ++ rev u)
      by (rewrite rev_app_distr; simpl; rewrite <- !app_assoc; reflexivity).
    replace (rev (u ++ j :: i :: v)) with (rev v ++ [i; j] ++ rev u)
      by (rewrite rev_app_distr; simpl; rewrite <- !app_assoc; reflexivity).
    apply (cl_swap q c (rev v) (rev u) j i). congruence.
  - replace (rev (u ++ i :: i :: v)) with (rev v ++ [i; i] ++ rev u)
      by (rewrite rev_app_distr; simpl; rewrite <- !app_assoc; reflexivity).
    rewrite rev_app_distr. apply (cl_square q c (rev v) (rev u) i).
  - apply cl_zero.
Qed.

Lemma rev_sign_S k : rev_sign (S k) = (rev_sign k * neg1_pow k)%Z.
Proof.
  unfold rev_sign. rewrite <- neg1_pow_add. apply f_equal.
  assert (E : (S k * (S k - 1) = k * (k - 1) + k * 2)%nat).
  { destruct k as [|k]; [reflexivity|].
    replace (S (S k) - 1)%nat with (S k) by lia. replace (S k - 1)%nat with k by lia. lia. }
  rewrite E. now rewrite Nat.div_add by lia.
Qed.

Lemma cl_rev_word q : forall u, NoDup u -> cl_eq q (1%Z, rev u) (rev_sign (length u), u).
Proof.
  induction u as [|x u IH]; intros H; [apply cl_refl|].
  inversion H; subst. simpl rev. simpl length. rewrite rev_sign_S.
  eapply cl_trans.
  - apply cl_cong_r. apply IH. assumption.
  - apply cl_sym. change (x :: u) with ([x] ++ u ++ []) || idtac.
    pose proof (cl_move q x u (rev_sign (length u) * neg1_pow (length u)) [] ltac:(assumption)) as M.
    rewrite !app_nil_r in M. simpl in M.
    rewrite <- Z.mul_assoc, neg1_pow_sq, Z.mul_1_r in M. simpl. rewrite ?app_nil_r. exact M.
Qed.

Lemma rev_sign_sq k : (rev_sign k * rev_sign k = 1)%Z.
Proof. apply neg1_pow_sq. Qed.

Lemma cl_coef_rev q a b :
  (cl_coef q a b * rev_sign (grade (N.lxor a b)) =
   rev_sign (grade a) * rev_sign (grade b) * cl_coef q b a)%Z.
Proof.
  pose proof (cl_closed_form q a b) as A. apply cl_eq_rev in A. simpl in A.
  rewrite rev_app_distr in A.
  assert (RA : forall x, cl_eq q (1%Z, rev (gens x)) (rev_sign (grade x), gens x))
    by (intros x; apply cl_rev_word, sorted_NoDup, gens_sorted).
  assert (L : cl_eq q (1%Z, rev (gens b) ++ rev (gens a))
               ((rev_sign (grade a) * rev_sign (grade b) * cl_coef q b a)%Z, gens (N.lxor a b))).
  { eapply cl_trans; [eapply cl_cong_r; apply RA|].
    pose proof (cl_cong_gen q _ _ (RA a) (rev_sign (grade b)) (gens b) []) as H. simpl in H.
    rewrite !app_nil_r, Z.mul_1_r in H. eapply cl_trans; [exact H|].
    pose proof (cl_scale q _ _ _ _ (rev_sign (grade b) * rev_sign (grade a)) (cl_closed_form q b a)) as H2.
    rewrite Z.mul_1_r, (N.lxor_comm b a) in H2. rewrite (Z.mul_comm (rev_sign (grade a))). exact H2. }
  assert (R : cl_eq q (cl_coef q a b, rev (gens (N.lxor a b)))
               ((cl_coef q a b * rev_sign (grade (N.lxor a b)))%Z, gens (N.lxor a b))).
  { pose proof (cl_scale q _ _ _ _ (cl_coef q a b) (RA (N.lxor a b))) as H. now rewrite Z.mul_1_r in H. }
  assert (E : cl_eq q ((cl_coef q a b * rev_sign (grade (N.lxor a b)))%Z, gens (N.lxor a b))
    ((rev_sign (grade a) * rev_sign (grade b) * cl_coef q b a)%Z, gens (N.lxor a b))).
  { eapply cl_trans; [apply cl_sym; exact R|]. eapply cl_trans; [apply cl_sym; exact A|exact L]. }
  apply cl_eq_unique in E. lia.
Qed.

Lemma reverse_negates_sign e : (if reverse_negates e then -1 else 1)%Z = rev_sign (grade e).
Proof.
  unfold reverse_negates. destruct (N.eqb_spec e 0) as [->|H]; [reflexivity|].
  rewrite pop_count_grade. unfold rev_sign, neg1_pow.
  set (k := grade e).
  replace (N.of_nat k * (N.of_nat k - 1) / 2) with (N.of_nat (k * (k - 1) / 2)).
  2:{ rewrite Nat2N.inj_div, Nat2N.inj_mul, Nat2N.inj_sub. reflexivity. }
  generalize (k * (k - 1) / 2)%nat. intros n.
  pose proof (sign_of_neg1_pow (N.of_nat n)) as S. unfold sign_of, neg1_pow in S. rewrite Nat2N.id in S.
  assert (M : N.of_nat n mod 2 < 2) by (apply N.mod_lt; lia).
  destruct (Nat.even n); destruct (N.eqb_spec (N.of_nat n mod 2) 0); try discriminate;
    destruct (N.eqb_spec (N.of_nat n mod 2) 1); lia.
Qed.

(** ~(e_a e_b) = ~e_b ~e_a, in terms of what the code computes *)
Lemma reverse_antiautomorphism m a b :
  let '(ab, s) := geometric m a b in
  let '(ba, t) := geometric m b a in
  let rs e := (if reverse_negates e then -1 else 1)%Z in
  ab = ba /\ (s * rs ab = rs b * rs a * t)%Z.
Proof.
  rewrite !geometric_closed.
  pose proof (cl_coef_rev (sq m) a b) as R. rewrite (N.lxor_comm b a).
  assert (RC : forall k, (rev_sign k = 1 \/ rev_sign k = -1)%Z) by (intros; apply neg1_pow_cases).
  pose proof (RC (grade a)) as Ra. pose proof (RC (grade b)) as Rb. pose proof (RC (grade (N.lxor a b))) as Rab. clear RC.
  destruct (Z.eqb_spec (cl_coef (sq m) a b) 0) as [E1|E1];
  destruct (Z.eqb_spec (cl_coef (sq m) b a) 0) as [E2|E2].
  - split; [reflexivity|]. lia.
  - exfalso. destruct Ra as [Ra|Ra], Rb as [Rb|Rb], Rab as [Rab|Rab]; rewrite Ra, Rb, Rab in R; lia.
  - exfalso. destruct Ra as [Ra|Ra], Rb as [Rb|Rb], Rab as [Rab|Rab]; rewrite Ra, Rb, Rab in R; lia.
  - split; [reflexivity|]. rewrite !reverse_negates_sign. rewrite R. ring.
Qed.
