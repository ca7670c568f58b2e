(** The blade products agree with the Clifford relations. *)
From Coq Require Import ZArith NArith List Bool Lia ZifyBool ZifyN ZifyNat Sorted.
From Verif Require Import Base Model_Numeric Model_Blade Spec_Clifford Proof_Gens.
Import ListNotations.
Open Scope N_scope.

(** ** signs *)
Lemma neg1_pow_S n : neg1_pow (S n) = (- neg1_pow n)%Z.
Proof. unfold neg1_pow. rewrite Nat.even_succ, <- Nat.negb_even. now destruct (Nat.even n). Qed.

Lemma neg1_pow_add a b : neg1_pow (a + b) = (neg1_pow a * neg1_pow b)%Z.
Proof. unfold neg1_pow. rewrite Nat.even_add. now destruct (Nat.even a), (Nat.even b). Qed.

Lemma neg1_pow_sq a : (neg1_pow a * neg1_pow a = 1)%Z.
Proof. unfold neg1_pow. now destruct (Nat.even a). Qed.

Lemma neg1_pow_cases a : (neg1_pow a = 1 \/ neg1_pow a = -1)%Z.
Proof. unfold neg1_pow. destruct (Nat.even a); auto. Qed.

Lemma sign_of_neg1_pow s : sign_of s = neg1_pow (N.to_nat s).
Proof.
  unfold sign_of, neg1_pow.
  assert (E : (s mod 2 =? 0) = Nat.even (N.to_nat s)).
  { rewrite <- (N2Nat.id s) at 1. generalize (N.to_nat s). clear s. intros n.
    destruct (Nat.even n) eqn:E.
    - apply Nat.even_spec in E. destruct E as [k ->]. 
      replace (N.of_nat (2 * k)) with (N.of_nat k * 2) by lia. now rewrite N.mod_mul.
    - assert (O : Nat.odd n = true) by (unfold Nat.odd; now rewrite E).
      apply Nat.odd_spec in O. destruct O as [k ->].
      replace (N.of_nat (2 * k + 1)) with (1 + N.of_nat k * 2) by lia.
      now rewrite N.mod_add. }
  now rewrite E.
Qed.

Lemma sign_of_wrap8 s : sign_of (wrap8 s) = sign_of s.
Proof.
  unfold sign_of, wrap8. f_equal.
  assert (H : (s mod 256) mod 2 = s mod 2).
  { rewrite (N.div_mod s 256) at 2 by lia.
    replace (256 * (s / 256) + s mod 256) with (s mod 256 + (128 * (s / 256)) * 2) by lia.
    now rewrite N.mod_add by lia. }
  now rewrite H.
Qed.

Lemma sign_of_add a b : sign_of (a + b) = (sign_of a * sign_of b)%Z.
Proof. rewrite !sign_of_neg1_pow, N2Nat.inj_add. apply neg1_pow_add. Qed.

Lemma lo_notin l b : ~ In l (lo l b).
Proof. unfold lo. rewrite filter_In. lia. Qed.

Lemma clr_spec g l i : N.testbit (clr g l) i = N.testbit g i && negb (l =? i).
Proof. unfold clr. now rewrite N.ldiff_spec, pow2_bits. Qed.
Lemma setb_spec g l i : N.testbit (setb g l) i = N.testbit g i || (l =? i).
Proof. unfold setb. now rewrite N.lor_spec, pow2_bits. Qed.

Lemma pop_below_lo g l : pop_below g l = N.of_nat (length (lo l g)).
Proof. unfold pop_below. now rewrite pop_count_gens, lo_gens_land. Qed.

Lemma lo_length_set b i j : i <> j -> N.testbit b i = false ->
  N.of_nat (length (lo j (setb b i))) = N.of_nat (length (lo j b)) + (if i <? j then 1 else 0).
Proof.
  intros Hn Hb. destruct (N.ltb_spec i j) as [Hl|Hl].
  - assert (E : lo j (setb b i) = lo i b ++ [i] ++ filter (fun x => i <? x) (lo j b)).
    { apply sorted_ext.
      - apply sorted_filter, gens_sorted.
      - apply sorted_app; [apply sorted_filter, gens_sorted|apply sorted_app; [repeat constructor|apply sorted_filter, sorted_filter, gens_sorted|]|].
        + intros x y [<-|[]] Hy. rewrite filter_In in Hy. lia.
        + intros x y Hx Hy. unfold lo in *. rewrite in_app_iff, !filter_In in *. simpl in Hy. lia.
      - intros x. unfold lo. rewrite !in_app_iff, !filter_In, !gens_In, setb_spec, orb_true_iff. simpl.
        split.
        + intros [[H1|H1] H2]; [|right; left; left; lia].
          destruct (N.lt_trichotomy x i) as [?|[?|?]]; [left|right;left;left; lia|right;right]; repeat split; try assumption; lia.
        + intros [[H1 H2]|[[<-|[]]|[[H1 H2] H3]]]; (split; [|lia]); [now left|right; lia|now left]. }
    assert (E2 : lo j b = lo i b ++ filter (fun x => i <? x) (lo j b)).
    { apply sorted_ext.
      - apply sorted_filter, gens_sorted.
      - apply sorted_app; [apply sorted_filter, gens_sorted|apply sorted_filter, sorted_filter, gens_sorted|].
        intros x y Hx Hy. unfold lo in *. rewrite !filter_In in *. lia.
      - intros x. unfold lo. rewrite !in_app_iff, !filter_In, !gens_In.
        split.
        + intros [H1 H2].
          destruct (N.lt_trichotomy x i) as [?|[?|?]]; [left|subst; congruence|right]; repeat split; try assumption; lia.
        + intros [[H1 H2]|[[H1 H2] H3]]; split; (assumption || lia). }
    rewrite E. rewrite E2 at 2. rewrite !app_length. simpl. lia.
  - rewrite (lo_ext j (setb b i) b); [lia|].
    intros x Hx. rewrite setb_spec. replace (i =? x) with false by lia. apply orb_false_r.
Qed.

Lemma sign_below_set b i j : i <> j -> N.testbit b i = false ->
  sign_of (pop_below (setb b i) j) = (sign_of (pop_below b j) * (if (i <? j)%N then -1 else 1))%Z.
Proof.
  intros Hn Hb. rewrite !pop_below_lo, lo_length_set by assumption.
  rewrite sign_of_add. f_equal. destruct (i <? j); reflexivity.
Qed.

Lemma setb_clr b i : N.testbit b i = true -> setb (clr b i) i = b.
Proof.
  intros H. apply N.bits_inj. intros x. rewrite setb_spec, clr_spec.
  destruct (N.eqb_spec i x) as [<-|]; simpl; [now rewrite H, orb_true_r|].
  now rewrite andb_true_r, orb_false_r.
Qed.
Lemma clr_setb b i : N.testbit b i = false -> clr (setb b i) i = b.
Proof.
  intros H. apply N.bits_inj. intros x. rewrite clr_spec, setb_spec.
  destruct (N.eqb_spec i x) as [<-|]; simpl; [now rewrite H, andb_false_r|].
  now rewrite andb_true_r, orb_false_r.
Qed.

Lemma sign_below_clr b i j : i <> j -> N.testbit b i = true ->
  sign_of (pop_below (clr b i) j) = (sign_of (pop_below b j) * (if (i <? j)%N then -1 else 1))%Z.
Proof.
  intros Hn Hb.
  assert (H : N.testbit (clr b i) i = false) by now rewrite clr_spec, N.eqb_refl, andb_false_r.
  pose proof (sign_below_set (clr b i) i j Hn H) as E. rewrite (setb_clr b i Hb) in E. rewrite E.
  destruct (i <? j); lia.
Qed.

Lemma testbit_setb_ne b i j : i <> j -> N.testbit (setb b i) j = N.testbit b j.
Proof. intros H. rewrite setb_spec. replace (i =? j) with false by lia. apply orb_false_r. Qed.
Lemma testbit_clr_ne b i j : i <> j -> N.testbit (clr b i) j = N.testbit b j.
Proof. intros H. rewrite clr_spec. replace (i =? j) with false by lia. apply andb_true_r. Qed.

Lemma set_set b i j : setb (setb b i) j = setb (setb b j) i.
Proof. unfold setb. rewrite <- !N.lor_assoc. f_equal. apply N.lor_comm. Qed.
Lemma clr_clr b i j : clr (clr b i) j = clr (clr b j) i.
Proof. apply N.bits_inj. intros x. rewrite !clr_spec. rewrite <- !andb_assoc. f_equal. apply andb_comm. Qed.
Lemma set_clr b i j : i <> j -> setb (clr b i) j = clr (setb b j) i.
Proof.
  intros H. apply N.bits_inj. intros x. rewrite setb_spec, !clr_spec, setb_spec.
  destruct (N.eqb_spec i x), (N.eqb_spec j x); subst; try congruence; simpl; try now rewrite ?andb_false_r, ?andb_true_r, ?orb_true_r, ?orb_false_r.
Qed.

Lemma ltb_flip i j : i <> j -> (i <? j) = negb (j <? i).
Proof. lia. Qed.

Lemma sign_of_sq s : (sign_of s * sign_of s = 1)%Z.
Proof. unfold sign_of. now destruct (s mod 2 =? 0). Qed.

Lemma pop_below_clr_same b i : pop_below (clr b i) i = pop_below b i.
Proof.
  rewrite !pop_below_lo. f_equal. f_equal. apply lo_ext. intros x Hx. apply testbit_clr_ne. lia.
Qed.
Lemma pop_below_set_same b i : pop_below (setb b i) i = pop_below b i.
Proof.
  rewrite !pop_below_lo. f_equal. f_equal. apply lo_ext. intros x Hx. apply testbit_setb_ne. lia.
Qed.

(** ** congruence of the Clifford relations *)
Section Cl.
Variable q : N -> Z.
Notation "x == y" := (cl_eq q x y) (at level 70).

Lemma cl_cong_gen x y : x == y -> forall k u v,
  ((k * fst x)%Z, u ++ snd x ++ v) == ((k * fst y)%Z, u ++ snd y ++ v).
Proof.
  induction 1; intros k u' v'; simpl.
  - apply cl_refl.
  - apply cl_sym, IHcl_eq.
  - eapply cl_trans; [apply IHcl_eq1|apply IHcl_eq2].
  - rewrite <- !app_assoc. simpl.
    replace (k * - c)%Z with (- (k * c))%Z by lia.
    rewrite !(app_assoc u' u). apply (cl_swap q (k * c) (u' ++ u) (v ++ v')). assumption.
  - rewrite <- !app_assoc. simpl. rewrite !(app_assoc u' u).
    rewrite Z.mul_assoc. apply (cl_square q (k * c) (u' ++ u) (v ++ v')).
  - rewrite Z.mul_0_r. apply cl_zero.
Qed.

Lemma cl_cong c w c' w' k u v :
  (c, w) == (c', w') -> ((k * c)%Z, u ++ w ++ v) == ((k * c')%Z, u ++ w' ++ v).
Proof. intros H. exact (cl_cong_gen _ _ H k u v). Qed.

Lemma cl_cong_l c w c' w' u :
  (c, w) == (c', w') -> (c, u ++ w) == (c', u ++ w').
Proof.
  intros H. apply (cl_cong _ _ _ _ 1 u []) in H.
  now rewrite !app_nil_r, !Z.mul_1_l in H.
Qed.

Lemma cl_cong_r c w c' w' v :
  (c, w) == (c', w') -> (c, w ++ v) == (c', w' ++ v).
Proof.
  intros H. apply (cl_cong _ _ _ _ 1 [] v) in H.
  now rewrite !Z.mul_1_l in H.
Qed.

Lemma cl_scale c w c' w' k :
  (c, w) == (c', w') -> ((k * c)%Z, w) == ((k * c')%Z, w').
Proof.
  intros H. apply (cl_cong _ _ _ _ k [] []) in H. simpl in H.
  now rewrite !app_nil_r in H.
Qed.

(** moving a generator to the right across distinct ones *)
Lemma cl_move l : forall u c v, ~ In l u ->
  (c, [l] ++ u ++ v) == ((c * neg1_pow (length u))%Z, u ++ [l] ++ v).
Proof.
  induction u as [|x u IH]; intros c v H; simpl.
  - unfold neg1_pow. simpl. rewrite Z.mul_1_r. apply cl_refl.
  - eapply cl_trans.
    + apply (cl_swap q c [] (u ++ v) l x). intros ->. apply H. now left.
    + simpl. change (x :: l :: u ++ v) with ([x] ++ ([l] ++ u ++ v)).
      change (x :: u ++ l :: v) with ([x] ++ (u ++ [l] ++ v)).
      rewrite neg1_pow_S. replace (c * - neg1_pow (length u))%Z with (- c * neg1_pow (length u))%Z by lia.
      apply cl_cong_l. apply IH. intros Hin. apply H. now right.
Qed.

(** e_l * e_b, exterior case *)
Lemma cl_insert l b c : N.testbit b l = false ->
  (c, [l] ++ gens b) == ((c * sign_of (pop_below b l))%Z, gens (setb b l)).
Proof.
  intros H. rewrite (gens_split_notin l b H).
  assert (H' : N.testbit (setb b l) l = true) by now rewrite setb_spec, N.eqb_refl, orb_true_r.
  rewrite (gens_split_in l _ H').
  rewrite (lo_ext l (setb b l) b), (hi_ext l (setb b l) b).
  - rewrite pop_below_lo, sign_of_neg1_pow, Nat2N.id. apply cl_move, lo_notin.
  - intros i Hi. rewrite setb_spec. replace (l =? i) with false by lia. apply orb_false_r.
  - intros i Hi. rewrite setb_spec. replace (l =? i) with false by lia. apply orb_false_r.
Qed.

(** e_l * e_b, contraction case *)
Lemma cl_remove l b c : N.testbit b l = true ->
  (c, [l] ++ gens b) == ((c * sign_of (pop_below b l) * q l)%Z, gens (clr b l)).
Proof.
  intros H. rewrite (gens_split_in l b H).
  assert (H' : N.testbit (clr b l) l = false) by now rewrite clr_spec, N.eqb_refl, andb_false_r.
  rewrite (gens_split_notin l _ H').
  rewrite (lo_ext l (clr b l) b), (hi_ext l (clr b l) b).
  - rewrite pop_below_lo, sign_of_neg1_pow, Nat2N.id.
    eapply cl_trans; [apply cl_move, lo_notin|].
    apply (cl_square q (c * neg1_pow (length (lo l b))) (lo l b) (hi l b) l).
  - intros i Hi. rewrite clr_spec. replace (l =? i) with false by lia. apply andb_true_r.
  - intros i Hi. rewrite clr_spec. replace (l =? i) with false by lia. apply andb_true_r.
Qed.
End Cl.

(** ** the geometric product loop *)
Definition sq (m : metric) (i : N) : Z := dot m i i.

Lemma dot_cases m i : (sq m i = 0 \/ sq m i = 1 \/ sq m i = -1)%Z.
Proof. unfold sq, dot. rewrite N.eqb_refl. simpl. destruct (i <? mr m), (mr m + mp m <=? i); auto. Qed.

Lemma intercept_spec m e b :
  intercept m e b = if N.testbit b e then (Z.of_N e, sq m e) else ((-1)%Z, 0%Z).
Proof.
  unfold intercept, sq.
  assert (E : negb (N.land b (2 ^ e) =? 0) = N.testbit b e).
  { destruct (N.testbit b e) eqn:T.
    - apply negb_true_iff, N.eqb_neq. intros Z.
      assert (N.testbit (N.land b (2 ^ e)) e = true)
        by now rewrite N.land_spec, T, pow2_bits, N.eqb_refl.
      rewrite Z, N.bits_0 in H. discriminate.
    - apply negb_false_iff, N.eqb_eq. apply N.bits_inj. intros i.
      rewrite N.land_spec, pow2_bits, N.bits_0.
      destruct (N.eqb_spec e i) as [<-|]; [now rewrite T|apply andb_false_r]. }
  now rewrite E.
Qed.

Lemma size_clr_log2 g : g <> 0 -> N.size (clr g (N.log2 g)) < N.size g.
Proof.
  intros H. unfold clr.
  rewrite (N.size_log2 g H).
  pose proof (ldiff_log2_lt g H) as L.
  destruct (N.eq_dec (N.ldiff g (2 ^ N.log2 g)) 0) as [E|E].
  - rewrite E. simpl. lia.
  - rewrite N.size_log2 by assumption.
    apply N.log2_lt_pow2 in L; lia.
Qed.

Lemma lxor_step_set g1 g2 l : N.testbit g1 l = true -> N.testbit g2 l = false ->
  N.lxor (clr g1 l) (setb g2 l) = N.lxor g1 g2.
Proof.
  intros H1 H2. apply N.bits_inj. intros i.
  rewrite !N.lxor_spec, clr_spec, setb_spec.
  destruct (N.eqb_spec l i) as [<-|]; simpl.
  - now rewrite H1, H2.
  - now rewrite andb_true_r, orb_false_r.
Qed.

Lemma lxor_step_clr g1 g2 l : N.testbit g1 l = true -> N.testbit g2 l = true ->
  N.lxor (clr g1 l) (clr g2 l) = N.lxor g1 g2.
Proof.
  intros H1 H2. apply N.bits_inj. intros i.
  rewrite !N.lxor_spec, !clr_spec.
  destruct (N.eqb_spec l i) as [<-|]; simpl.
  - now rewrite H1, H2.
  - now rewrite !andb_true_r.
Qed.

Lemma geo_loop_sound m : forall fuel g1 g2 s,
  (N.to_nat (N.size g1) < fuel)%nat ->
  match geo_loop m fuel g1 g2 s with
  | None => cl_eq (sq m) (1%Z, gens g1 ++ gens g2) (0%Z, [])
  | Some s' => cl_eq (sq m) (sign_of s, gens g1 ++ gens g2) (sign_of s', gens (N.lxor g1 g2))
  end.
Proof.
  induction fuel as [|f IH]; intros g1 g2 s Hf; [lia|].
  cbn [geo_loop].
  destruct (0 <? g1) eqn:E.
  2:{ replace g1 with 0 by lia. simpl. apply cl_refl. }
  assert (Hg : g1 <> 0) by lia.
  pose proof (size_clr_log2 g1 Hg) as Hs.
  assert (Hb := N.bit_log2 g1 Hg).
  unfold leading_set_index. rewrite intercept_spec.
  set (l := N.log2 g1) in *.
  assert (G : gens g1 = gens (clr g1 l) ++ [l]) by (unfold clr; now apply gens_log2).
  destruct (N.testbit g2 l) eqn:T.
  - replace (Z.of_N l =? -1)%Z with false by lia.
    rewrite N2Z.id.
    pose proof (cl_remove (sq m) l g2 1 T) as R.
    apply (cl_cong_l _ _ _ _ _ (gens (clr g1 l))) in R.
    rewrite app_assoc, <- G in R.
    destruct (sq m l =? 0)%Z eqn:D0.
    + replace (sq m l) with 0%Z in R by lia. rewrite Z.mul_0_r in R.
      eapply cl_trans; [exact R|apply cl_zero].
    + pose proof (IH (clr g1 l) (clr g2 l)
         (if (sq m l =? -1)%Z then wrap8 (wrap8 (s + pop_below g2 l) + 1) else wrap8 (s + pop_below g2 l))) as H.
      destruct (geo_loop _ _ _ _ _) as [s'|] eqn:Lp.
      * rewrite lxor_step_clr in H by assumption.
        eapply cl_trans; [|apply H; lia].
        apply (cl_scale _ _ _ _ _ (sign_of s)) in R. rewrite Z.mul_1_r in R.
        eapply cl_trans; [exact R|].
        match goal with |- cl_eq _ (?a, _) (?b, _) => replace b with a; [apply cl_refl|] end.
        destruct (dot_cases m l) as [D|[D|D]]; rewrite D in *; [discriminate| |].
        -- change (1 =? -1)%Z with false. cbv iota. rewrite sign_of_wrap8, sign_of_add. ring.
        -- change (-1 =? -1)%Z with true. cbv iota. rewrite sign_of_wrap8, sign_of_add, sign_of_wrap8, sign_of_add.
           change (sign_of 1) with (-1)%Z. ring.
      * eapply cl_trans; [exact R|].
        specialize (H ltac:(lia)).
        apply (cl_scale _ _ _ _ _ (1 * sign_of (pop_below g2 l) * sq m l)) in H.
        now rewrite Z.mul_1_r, Z.mul_0_r in H.
  - simpl (_ =? _)%Z.
    pose proof (cl_insert (sq m) l g2 1 T) as R.
    apply (cl_cong_l _ _ _ _ _ (gens (clr g1 l))) in R.
    rewrite app_assoc, <- G in R.
    pose proof (IH (clr g1 l) (setb g2 l) (wrap8 (s + pop_below g2 l))) as H.
    destruct (geo_loop _ _ _ _ _) as [s'|] eqn:Lp.
    + rewrite lxor_step_set in H by assumption.
      eapply cl_trans; [|apply H; lia].
      apply (cl_scale _ _ _ _ _ (sign_of s)) in R. rewrite Z.mul_1_r in R.
      eapply cl_trans; [exact R|].
      match goal with |- cl_eq _ (?a, _) (?b, _) => replace b with a; [apply cl_refl|] end.
      rewrite sign_of_wrap8, sign_of_add. lia.
    + eapply cl_trans; [exact R|].
      specialize (H ltac:(lia)).
      apply (cl_scale _ _ _ _ _ (1 * sign_of (pop_below g2 l))) in H.
      now rewrite Z.mul_1_r, Z.mul_0_r in H.
Qed.

Lemma fuel_for_ok g : (N.to_nat (N.size g) < fuel_for g)%nat.
Proof. unfold fuel_for. lia. Qed.

(** The code's geometric product is derivable from the Clifford relations. *)
Lemma geometric_derivable m a b :
  cl_eq (sq m) (1%Z, gens a ++ gens b)
        (snd (geometric m a b), gens (fst (geometric m a b))).
Proof.
  unfold geometric.
  destruct (N.eqb_spec a 0) as [->|Ha]; [apply cl_refl|].
  destruct (N.eqb_spec b 0) as [->|Hb]; [simpl; rewrite app_nil_r; apply cl_refl|].
  pose proof (geo_loop_sound m (fuel_for a) a b 0 (fuel_for_ok a)) as H.
  destruct (geo_loop _ _ _ _ _); simpl; exact H.
Qed.

(** ** soundness of the relations: the closed form is an invariant *)
Section Sound.
Variable q : N -> Z.

(** left multiplication by a generator on formal scaled blades *)
Definition act (i : N) (x : Z * N) : Z * N :=
  let '(c, b) := x in
  if N.testbit b i then ((c * sign_of (pop_below b i) * q i)%Z, clr b i)
  else ((c * sign_of (pop_below b i))%Z, setb b i).
Arguments act : simpl never.
Definition word_val (w : list N) (x : Z * N) : Z * N := fold_right act x w.
(** equality of formal scaled blades: 0*a = 0*b *)
Definition sb_eq (x y : Z * N) : Prop := x = y \/ (fst x = 0 /\ fst y = 0)%Z.

Lemma sb_refl x : sb_eq x x. Proof. now left. Qed.
Lemma sb_sym x y : sb_eq x y -> sb_eq y x.
Proof. intros [->|[? ?]]; [now left|right; now split]. Qed.
Lemma sb_trans x y z : sb_eq x y -> sb_eq y z -> sb_eq x z.
Proof. intros [->|[H1 H2]] [->|[H3 H4]]; unfold sb_eq; auto. Qed.

Lemma act_eq i x y : sb_eq x y -> sb_eq (act i x) (act i y).
Proof.
  intros [->|[H1 H2]]; [apply sb_refl|]. right. destruct x as [c b], y as [c' b']. simpl in *. subst. unfold act.
  destruct (N.testbit b i), (N.testbit b' i); simpl; auto.
Qed.

Lemma word_val_eq w x y : sb_eq x y -> sb_eq (word_val w x) (word_val w y).
Proof. induction w; simpl; auto using act_eq. Qed.

Lemma act_scale i k c b : act i ((k * c)%Z, b) = ((k * fst (act i (c, b)))%Z, snd (act i (c, b))).
Proof. unfold act. destruct (N.testbit b i); simpl; f_equal; lia. Qed.

Lemma word_val_scale w k c b :
  word_val w ((k * c)%Z, b) = ((k * fst (word_val w (c, b)))%Z, snd (word_val w (c, b))).
Proof.
  induction w as [|i w IH]; simpl; [reflexivity|].
  rewrite IH. destruct (word_val w (c, b)) as [c' b']. simpl. apply act_scale.
Qed.

Lemma act_swap i j x : i <> j ->
  act i (act j x) = ((- fst (act j (act i x)))%Z, snd (act j (act i x))).
Proof.
  intros H. assert (H' : j <> i) by congruence.
  destruct x as [c b]. unfold act.
  destruct (N.testbit b j) eqn:Bj, (N.testbit b i) eqn:Bi.
  - rewrite !testbit_clr_ne by assumption. rewrite Bi, Bj.
    rewrite !sign_below_clr by assumption. simpl. f_equal; [|now rewrite clr_clr].
    rewrite (ltb_flip i j H). destruct (j <? i); simpl; lia.
  - rewrite testbit_clr_ne, testbit_setb_ne by assumption. rewrite Bi, Bj.
    rewrite sign_below_clr, sign_below_set by assumption. simpl. f_equal; [|now apply set_clr].
    rewrite (ltb_flip i j H). destruct (j <? i); simpl; lia.
  - rewrite testbit_clr_ne, testbit_setb_ne by assumption. rewrite Bi, Bj.
    rewrite sign_below_clr, sign_below_set by assumption. simpl. f_equal; [|symmetry; now apply set_clr].
    rewrite (ltb_flip i j H). destruct (j <? i); simpl; lia.
  - rewrite !testbit_setb_ne by assumption. rewrite Bi, Bj.
    rewrite !sign_below_set by assumption. simpl. f_equal; [|now rewrite set_set].
    rewrite (ltb_flip i j H). destruct (j <? i); simpl; lia.
Qed.

Lemma act_square i x : act i (act i x) = ((q i * fst x)%Z, snd x).
Proof.
  destruct x as [c b]. unfold act. destruct (N.testbit b i) eqn:B.
  - rewrite clr_spec, N.eqb_refl, andb_false_r. rewrite pop_below_clr_same, setb_clr by assumption.
    simpl. f_equal. pose proof (sign_of_sq (pop_below b i)) as E.
    transitivity ((sign_of (pop_below b i) * sign_of (pop_below b i)) * (q i * c))%Z; [ring|rewrite E; ring].
  - rewrite setb_spec, N.eqb_refl, orb_true_r. rewrite pop_below_set_same, clr_setb by assumption.
    simpl. f_equal. pose proof (sign_of_sq (pop_below b i)) as E.
    transitivity ((sign_of (pop_below b i) * sign_of (pop_below b i)) * (q i * c))%Z; [ring|rewrite E; ring].
Qed.

(** value of a scaled word acting on the scalar 1 *)
Definition val (x : Z * list N) : Z * N := word_val (snd x) (fst x, 0).

Lemma word_val_app u v x : word_val (u ++ v) x = word_val u (word_val v x).
Proof. unfold word_val. apply fold_right_app. Qed.

Lemma cl_eq_sound x y : cl_eq q x y -> sb_eq (val x) (val y).
Proof.
  induction 1; unfold val in *; simpl in *.
  - apply sb_refl.
  - now apply sb_sym.
  - eapply sb_trans; eassumption.
  - rewrite !word_val_app. simpl. left.
    set (X := word_val v (c, 0)).
    replace (word_val v ((- c)%Z, 0)) with ((- fst X)%Z, snd X).
    2:{ replace (- c)%Z with (-1 * c)%Z by lia. rewrite word_val_scale. fold X. f_equal; ring. }
    rewrite (act_swap i j X) by assumption.
    destruct X as [xc xb]. simpl fst. simpl snd.
    replace (act i ((- xc)%Z, xb)) with ((- fst (act i (xc, xb)))%Z, snd (act i (xc, xb))).
    2:{ replace (- xc)%Z with (-1 * xc)%Z by lia. rewrite act_scale. f_equal; ring. }
    destruct (act i (xc, xb)) as [yc yb]. simpl fst; simpl snd.
    replace (- yc)%Z with (-1 * yc)%Z by lia. rewrite act_scale. apply f_equal. apply f_equal2; [ring|reflexivity].
  - rewrite !word_val_app. simpl. left. rewrite act_square.
    f_equal. replace (c * q i)%Z with (q i * c)%Z by lia. now rewrite word_val_scale.
  - replace (0%Z, 0) with ((0 * 0)%Z, 0) by reflexivity.
    rewrite !word_val_scale. right. simpl. lia.
Qed.

Lemma sorted_head_val l v : StronglySorted N.lt (l :: v) -> forall b,
  (forall i, N.testbit b i = true <-> In i v) -> N.testbit b l = false /\ pop_below b l = 0 /\
  (forall i, N.testbit (setb b l) i = true <-> In i (l :: v)).
Proof.
  intros Hs b Hb. inversion Hs as [|? ? Hs' Hf]; subst. rewrite Forall_forall in Hf.
  split; [|split].
  - destruct (N.testbit b l) eqn:E; [|reflexivity]. apply Hb, Hf in E. lia.
  - rewrite pop_below_lo. replace (lo l b) with (@nil N); [reflexivity|].
    symmetry. apply sorted_ext; [apply sorted_filter, gens_sorted|constructor|].
    intros i. unfold lo. rewrite filter_In, gens_In, Hb. simpl. split; [|tauto].
    intros [Hi Hl]. apply Hf in Hi. lia.
  - intros i. rewrite setb_spec, orb_true_iff, Hb, N.eqb_eq. simpl. intuition.
Qed.

Lemma word_val_sorted v : StronglySorted N.lt v -> forall c,
  exists b, word_val v (c, 0) = (c, b) /\ forall i, N.testbit b i = true <-> In i v.
Proof.
  induction v as [|l v IH]; intros Hs c.
  - exists 0. split; [reflexivity|]. intros i. rewrite N.bits_0. simpl. intuition discriminate.
  - inversion Hs; subst. destruct (IH ltac:(assumption) c) as [b [E Hb]].
    destruct (sorted_head_val l v Hs b Hb) as [H3 [H4 H5]].
    exists (setb b l). split; [|assumption].
    simpl. rewrite E. unfold act. rewrite H3, H4. f_equal. change (sign_of 0) with 1%Z. lia.
Qed.

Lemma val_gens c a : val (c, gens a) = (c, a).
Proof.
  unfold val. simpl.
  destruct (word_val_sorted (gens a) (gens_sorted a) c) as [b [E Hb]].
  rewrite E. f_equal. apply N.bits_inj. intros i.
  specialize (Hb i). rewrite gens_In in Hb.
  destruct (N.testbit a i), (N.testbit b i); intuition.
Qed.

(** normal forms are unique *)
Lemma cl_eq_unique c a c' a' :
  cl_eq q (c, gens a) (c', gens a') -> (c = c' /\ a = a') \/ (c = 0 /\ c' = 0)%Z.
Proof.
  intros H. apply cl_eq_sound in H. rewrite !val_gens in H.
  destruct H as [H|[H1 H2]]; [left; now injection H|right; now split].
Qed.

End Sound.
