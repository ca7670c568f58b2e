(** Proper multivectors with the same values are the same. *)
From Coq Require Import ZArith NArith List Bool Arith Lia ZifyBool ZifyN ZifyNat Reals Lra Sorting.Sorted.
From Verif Require Import Base Model_Numeric Model_MV Spec_Numeric Spec_MV
  Proof_Numeric Proof_Layout Proof_Sum Proof_Val Proof_CollateVal Proof_ProductVal.
Import ListNotations.
Local Open Scope nat_scope.

(** ** one variable *)
Lemma powerRZ_powerRZ x a b : (0 < x)%R -> powerRZ (powerRZ x a) b = powerRZ x (a * b).
Proof.
  intros X. rewrite (powerRZ_Rpower (powerRZ x a)) by now apply powerRZ_lt.
  rewrite (powerRZ_Rpower x a), (powerRZ_Rpower x (a * b)) by assumption. now rewrite Rpower_mult, mult_IZR.
Qed.
Lemma powerRZ_mono x a b : (1 <= x)%R -> (a <= b)%Z -> (powerRZ x a <= powerRZ x b)%R.
Proof.
  intros X H. replace b with (a + (b - a))%Z by ring. rewrite powerRZ_add by lra.
  assert (1 <= powerRZ x (b - a))%R.
  { rewrite <- (Z2Nat.id (b - a)), <- pow_powerRZ by lia. now apply pow_R1_Rle. }
  assert (0 < powerRZ x a)%R by (apply powerRZ_lt; lra). nra.
Qed.
Lemma desc_zero (c : Z -> R) es : StronglySorted (fun a b => (b < a)%Z) es ->
  (forall x, (1 < x)%R -> Rsum (map (fun e => c e * powerRZ x e)%R es) = 0%R) -> Forall (fun e => c e = 0%R) es.
Proof.
  induction 1 as [|e0 es Ss IH F]; intros H; [constructor|].
  assert (B : forall x, (1 < x)%R ->
    (Rabs (Rsum (map (fun e => c e * powerRZ x e) es)) <= Rsum (map (fun e => Rabs (c e)) es) * powerRZ x (e0 - 1))%R).
  { intros x X. clear -F X. induction F as [|e es Fe F IH]; cbn [map].
    - change (Rsum []) with 0%R. rewrite Rabs_R0. lra.
    - change (Rsum (?a :: ?y)) with (a + Rsum y)%R. eapply Rle_trans; [apply Rabs_triang|].
      rewrite Rabs_mult, (Rabs_pos_eq (powerRZ x e)) by (apply powerRZ_le; lra).
      assert (powerRZ x e <= powerRZ x (e0 - 1))%R by (apply powerRZ_mono; [lra|lia]).
      pose proof (Rabs_pos (c e)). nra. }
  assert (M0 : (0 <= Rsum (map (fun e => Rabs (c e)) es))%R).
  { clear. induction es as [|e es IH]; cbn [map]; change (Rsum []) with 0%R; [lra|].
    change (Rsum (?a :: ?y)) with (a + Rsum y)%R. pose proof (Rabs_pos (c e)). lra. }
  assert (C0 : c e0 = 0%R).
  { destruct (Req_dec (c e0) 0) as [|NZ]; [assumption|exfalso].
    set (M := Rsum (map (fun e => Rabs (c e)) es)) in *. pose proof (Rabs_pos_lt _ NZ) as P.
    set (x := (2 + M / Rabs (c e0))%R).
    assert (Q : (0 <= M / Rabs (c e0))%R) by (apply Rmult_le_pos; [assumption|left; now apply Rinv_0_lt_compat]).
    assert (X : (1 < x)%R) by (unfold x; lra). specialize (H x X). specialize (B x X). cbn [map] in H.
    change (Rsum (?a :: ?y)) with (a + Rsum y)%R in H.
    assert (E : Rsum (map (fun e => (c e * powerRZ x e)%R) es) = (- (c e0 * powerRZ x e0))%R) by lra.
    rewrite E, Rabs_Ropp, Rabs_mult, (Rabs_pos_eq (powerRZ x e0)) in B by (apply powerRZ_le; lra).
    replace e0 with ((e0 - 1) + 1)%Z in B at 2 by ring. rewrite powerRZ_add, powerRZ_1 in B by lra.
    assert (Y : (0 < powerRZ x (e0 - 1))%R) by (apply powerRZ_lt; lra).
    assert (W : (Rabs (c e0) * x <= M)%R).
    { apply (Rmult_le_reg_r (powerRZ x (e0 - 1))); [assumption|]. lra. }
    unfold x in W. rewrite Rmult_plus_distr_l in W.
    replace (Rabs (c e0) * (M / Rabs (c e0)))%R with M in W by (field; lra). lra. }
  constructor; [assumption|]. apply IH. intros x X. specialize (H x X). cbn [map] in H.
  change (Rsum (?a :: ?y)) with (a + Rsum y)%R in H. rewrite C0 in H. lra.
Qed.
Definition range (K : Z) : list Z := map (fun k => (K - Z.of_nat k)%Z) (seq 0 (Z.to_nat (2 * K + 1))).
Lemma range_in K e : In e (range K) <-> (0 <= K /\ - K <= e <= K)%Z.
Proof.
  unfold range. rewrite in_map_iff. split.
  - intros (k & <- & H). apply in_seq in H. lia.
  - intros H. exists (Z.to_nat (K - e)). split; [lia|]. apply in_seq. lia.
Qed.
Lemma range_sorted K : StronglySorted (fun a b => (b < a)%Z) (range K).
Proof.
  unfold range. generalize 0%nat as s. induction (Z.to_nat (2 * K + 1)) as [|n IH]; intros s; cbn; constructor; [apply IH|].
  apply Forall_forall. intros e He. apply in_map_iff in He as (k & <- & H). apply in_seq in H. lia.
Qed.
Lemma sorted_NoDup es : StronglySorted (fun a b => (b < a)%Z) es -> NoDup es.
Proof.
  induction 1 as [|e es _ IH F]; constructor; [|assumption]. intros I. rewrite Forall_forall in F. specialize (F e I). lia.
Qed.
Lemma Rsum_singleZ (h : Z -> R) e l : NoDup l -> In e l -> Rsum (map (fun a => if (e =? a)%Z then h a else 0%R) l) = h e.
Proof.
  induction 1 as [|a l Na _ IH]; intros []; cbn [map]; change (Rsum (?a :: ?y)) with (a + Rsum y)%R.
  - subst a. rewrite Z.eqb_refl, Rsum_0; [ring|]. intros b Hb. destruct (Z.eqb_spec e b); [subst; contradiction|reflexivity].
  - rewrite IH by assumption. destruct (Z.eqb_spec e a); [subst; contradiction|ring].
Qed.
(** coefficient of exponent [e] *)
Definition group (l : list (R * Z)) (e : Z) : R := Rsum (map (fun p : R * Z => if (snd p =? e)%Z then fst p else 0%R) l).
Definition poly (l : list (R * Z)) (x : R) : R := Rsum (map (fun p : R * Z => (fst p * powerRZ x (snd p))%R) l).
Lemma poly_group K l x : Forall (fun p : R * Z => (- K <= snd p <= K)%Z) l -> (0 <= K)%Z ->
  poly l x = Rsum (map (fun e => (group l e * powerRZ x e)%R) (range K)).
Proof.
  intros F K0. unfold poly, group. induction F as [|p l Fp F IH]; cbn [map].
  - change (Rsum []) with 0%R. symmetry. apply Rsum_0. intros. ring.
  - change (Rsum (?a :: ?y)) with (a + Rsum y)%R. rewrite IH.
    rewrite <- (Rsum_singleZ (fun e => (fst p * powerRZ x e)%R) (snd p) (range K)).
    + rewrite <- Rsum_plus. apply Rsum_ext. intros e _. change (Rsum (?a :: ?y)) with (a + Rsum y)%R.
      destruct (snd p =? e)%Z; ring.
    + apply sorted_NoDup, range_sorted.
    + apply range_in. lia.
Qed.
Lemma poly_zero l : (forall x, (1 < x)%R -> poly l x = 0%R) -> forall e, group l e = 0%R.
Proof.
  intros H e.
  assert (exists K, (0 <= K)%Z /\ Forall (fun p : R * Z => (- K <= snd p <= K)%Z) l) as (K & K0 & F).
  { clear. induction l as [|p l (K & K0 & F)]; [exists 0%Z; split; [lia|constructor]|].
    exists (Z.max K (Z.abs (snd p))). split; [lia|]. constructor; [lia|]. eapply Forall_impl; [|exact F]. cbn. lia. }
  pose proof (desc_zero (group l) (range K) (range_sorted K)) as D.
  assert (D' : Forall (fun e => group l e = 0%R) (range K)).
  { apply D. intros x X. rewrite <- (poly_group K) by assumption. now apply H. }
  destruct (Z_le_dec (- K) e) as [A|A]; [destruct (Z_le_dec e K) as [B|B]|].
  - rewrite Forall_forall in D'. apply D', range_in. lia.
  - unfold group. apply Rsum_0. intros p Hp. rewrite Forall_forall in F. specialize (F p Hp). destruct (Z.eqb_spec (snd p) e); [lia|reflexivity].
  - unfold group. apply Rsum_0. intros p Hp. rewrite Forall_forall in F. specialize (F p Hp). destruct (Z.eqb_spec (snd p) e); [lia|reflexivity].
Qed.

(** ** weights that separate monomials *)
Definition wt B (k : list (N * Z)) : Z := fold_right (fun p s => snd p * B ^ Z.of_N (fst p) + s)%Z 0%Z k.
Definition keys_ok D (k : list (N * Z)) : Prop :=
  StronglySorted N.lt (map fst k) /\ Forall (fun p : N * Z => snd p <> 0%Z /\ (Z.abs (snd p) <= D)%Z) k.
Lemma keys_ok_cons D p k : keys_ok D (p :: k) -> keys_ok D k /\ Forall (N.lt (fst p)) (map fst k) /\ snd p <> 0%Z /\ (Z.abs (snd p) <= D)%Z.
Proof. intros [A B]. cbn in A. inversion_clear A. inversion_clear B. unfold keys_ok. intuition. Qed.
Lemma wt_divide B i k : (0 < B)%Z -> Forall (N.le i) (map fst k) -> (B ^ Z.of_N i | wt B k)%Z.
Proof.
  intros P. induction k as [|p k IH]; cbn [map wt fold_right]; intros F; [apply Z.divide_0_r|]. inversion_clear F as [|? ? F1 F2].
  apply Z.divide_add_r; [|now apply IH]. apply Z.divide_mul_r. exists (B ^ (Z.of_N (fst p) - Z.of_N i))%Z.
  rewrite <- Z.pow_add_r by lia. f_equal. lia.
Qed.
Lemma wt_head B i k : (0 < B)%Z -> Forall (N.lt i) (map fst k) -> exists z, wt B k = (B ^ Z.of_N i * (B * z))%Z.
Proof.
  intros P F. destruct (wt_divide B (N.succ i) k P) as [z E].
  { eapply Forall_impl; [|exact F]. cbn. lia. }
  exists z. rewrite E, N2Z.inj_succ, Z.pow_succ_r by lia. ring.
Qed.
Lemma small_mult B z d : (0 < B)%Z -> (Z.abs d < B)%Z -> d = (B * z)%Z -> d = 0%Z.
Proof. intros P L E. assert (z = 0 \/ 1 <= Z.abs z)%Z as [->|Z1] by lia; [lia|]. rewrite E, Z.abs_mul in L. nia. Qed.
Lemma wt_inj B D : (0 <= D)%Z -> (2 * D < B)%Z -> forall k1 k2, keys_ok D k1 -> keys_ok D k2 -> wt B k1 = wt B k2 -> k1 = k2.
Proof.
  intros D0 DB. apply (merge_ind (fun k1 k2 => keys_ok D k1 -> keys_ok D k2 -> wt B k1 = wt B k2 -> k1 = k2)).
  - intros [|p k2] K1 K2 E; [reflexivity|exfalso]. apply keys_ok_cons in K2 as (K & F & NZ & L).
    destruct (wt_head B (fst p) k2 ltac:(lia) F) as [z Ez]. cbn [wt fold_right] in E. fold (wt B k2) in E. rewrite Ez in E.
    assert (0 < B ^ Z.of_N (fst p))%Z by (apply Z.pow_pos_nonneg; lia).
    apply NZ. apply (small_mult B (- z)); [lia|lia|]. nia.
  - intros [|p k1] K1 K2 E; [reflexivity|exfalso]. apply keys_ok_cons in K1 as (K & F & NZ & L).
    destruct (wt_head B (fst p) k1 ltac:(lia) F) as [z Ez]. cbn [wt fold_right] in E. fold (wt B k1) in E. rewrite Ez in E.
    assert (0 < B ^ Z.of_N (fst p))%Z by (apply Z.pow_pos_nonneg; lia).
    apply NZ. apply (small_mult B (- z)); [lia|lia|]. nia.
  - intros p k1 r k2 _ _ IH K1 K2 E. pose proof K1 as K1'. pose proof K2 as K2'.
    apply keys_ok_cons in K1 as (K1 & F1 & NZ1 & L1). apply keys_ok_cons in K2 as (K2 & F2 & NZ2 & L2).
    assert (P1 : (0 < B ^ Z.of_N (fst p))%Z) by (apply Z.pow_pos_nonneg; lia).
    assert (P2 : (0 < B ^ Z.of_N (fst r))%Z) by (apply Z.pow_pos_nonneg; lia).
    destruct (wt_head B (fst p) k1 ltac:(lia) F1) as [z1 E1]. destruct (wt_head B (fst r) k2 ltac:(lia) F2) as [z2 E2].
    destruct (N.lt_trichotomy (fst p) (fst r)) as [L|[L|L]].
    + exfalso. destruct (wt_head B (fst p) (r :: k2) ltac:(lia)) as [z E3].
      { cbn [map]. constructor; [assumption|]. eapply Forall_impl; [|exact F2]. cbn. lia. }
      rewrite E3 in E. cbn [wt fold_right] in E. fold (wt B k1) in E. rewrite E1 in E.
      apply NZ1. apply (small_mult B (z - z1)); [lia|lia|]. nia.
    + destruct p as [i d1], r as [i' d2]. cbn [fst snd] in *. subst i'. cbn [wt fold_right fst snd] in E. fold (wt B k1) (wt B k2) in E.
      assert (d1 - d2 = 0)%Z by (apply (small_mult B (z2 - z1)); [lia|lia|]; rewrite E1, E2 in E; nia).
      assert (d1 = d2) by lia. subst d2. f_equal. apply IH; auto. lia.
    + exfalso. destruct (wt_head B (fst r) (p :: k1) ltac:(lia)) as [z E3].
      { cbn [map]. constructor; [assumption|]. eapply Forall_impl; [|exact F1]. cbn. lia. }
      rewrite E3 in E. cbn [wt fold_right] in E. fold (wt B k2) in E. rewrite E2 in E.
      apply NZ2. apply (small_mult B (z - z2)); [lia|lia|]. nia.
Qed.

(** ** monomials *)
Definition mkey (m : smon) : list (N * Z) := map ind_key (sinds m).
Definition rhoB (B : Z) (x : R) (i : N) : R := powerRZ x (B ^ Z.of_N i).
Lemma inds_val_wt B x l : (0 < x)%R -> Forall (fun i => integral (ideg i)) l -> inds_val (rhoB B x) l = powerRZ x (wt B (map ind_key l)).
Proof.
  intros X F. induction F as [|i l Fi F IH]; [reflexivity|]. rewrite inds_val_cons, IH, dpow_int by assumption.
  unfold rhoB at 1. cbn [map wt fold_right]. fold (wt B (map ind_key l)). rewrite powerRZ_powerRZ, powerRZ_add by lra.
  f_equal. f_equal. cbn. ring.
Qed.
Definition image B (ms : list smon) : list (R * Z) := map (fun m => (rv (sq m), wt B (mkey m))) ms.
Lemma mons_val_poly B x ms : (0 < x)%R -> Forall mon_ok ms -> mons_val (rhoB B x) ms = poly (image B ms) x.
Proof.
  intros X F. unfold mons_val, poly, image. rewrite map_map. apply Rsum_ext. intros m Hm.
  rewrite Forall_forall in F. destruct (F m Hm) as (_ & _ & I). unfold mon_val. cbn [fst snd]. now rewrite inds_val_wt.
Qed.
Definition mons_at (ts : list sterm) (b : N) : list smon := flat_map (fun t : sterm => if (fst t =? b)%N then snd t else []) ts.
Lemma val_mons_at rho ts b : val rho ts b = mons_val rho (mons_at ts b).
Proof.
  unfold val, mons_val, mons_at. induction ts as [|t ts IH]; [reflexivity|]. cbn [map flat_map]. rewrite map_app, Rsum_app.
  change (Rsum (?a :: ?y)) with (a + Rsum y)%R. rewrite IH. destruct (fst t =? b)%N; reflexivity.
Qed.
Lemma mons_at_in ts b m : In m (mons_at ts b) -> In m (all_mons ts).
Proof.
  unfold mons_at, all_mons. rewrite !in_flat_map. intros (t & A & B). exists t. destruct (fst t =? b)%N; [auto|destruct B].
Qed.
(** what the argument needs of the monomials of one blade *)
Record good_mons (ms : list smon) : Prop := {
  gm_srt : StronglySorted smon_lt ms;
  gm_nz : Forall (fun m => num (sq m) <> 0%Z) ms;
  gm_ok : Forall mon_ok ms;
  gm_ms : Forall mon_sorted ms;
  gm_cf : Forall coef_ok ms }.
Lemma mkey_eq a b : mon_ok a -> mon_ok b -> mon_sorted a -> mon_sorted b -> mkey a = mkey b -> sdeg a = sdeg b /\ sinds a = sinds b.
Proof.
  intros (_ & A1 & A2) (_ & B1 & B2) (_ & _ & A3) (_ & _ & B3) E. unfold mkey in E.
  assert (I : sinds a = sinds b).
  { clear A3 B3. revert E A2 B2. generalize (sinds a) as l, (sinds b) as r. induction l as [|[i [n d]] l IH]; intros [|[i' [n' d']] r] E F G;
      try discriminate; [reflexivity|]. cbn in E. injection E as -> -> E. inversion_clear F as [|? ? F1 F2]. inversion_clear G as [|? ? G1 G2].
    unfold integral in F1, G1. cbn in F1, G1. subst. f_equal. now apply IH. }
  split; [|assumption]. rewrite I in A3. unfold integral in *. destruct (sdeg a), (sdeg b). cbn in *. congruence.
Qed.
Lemma rv_inj a b : (0 < den a)%Z -> (0 < den b)%Z -> lowest a -> lowest b -> rv a = rv b -> a = b.
Proof.
  unfold lowest, rv. intros A B La Lb E. destruct a as [n d], b as [n' d']. cbn [num den] in *.
  assert (X : (n * d' = n' * d)%Z).
  { apply eq_IZR. rewrite !mult_IZR. assert (IZR d <> 0 /\ IZR d' <> 0)%R as [D D'] by (split; apply IZR_ne0; lia).
    apply (Rmult_eq_compat_r (IZR d * IZR d')) in E. replace (IZR n / IZR d * (IZR d * IZR d'))%R with (IZR n * IZR d')%R in E by (field; auto).
    rewrite E. field; auto. }
  assert (D1 : (d | d')%Z). { apply (Z.gauss _ n); [exists n'; lia|rewrite Z.gcd_comm; exact La]. }
  assert (D2 : (d' | d)%Z). { apply (Z.gauss _ n'); [exists n; lia|rewrite Z.gcd_comm; exact Lb]. }
  assert (d = d') by (apply Z.divide_antisym_nonneg; auto; lia). subst d'. f_equal. nia.
Qed.
Lemma group_single B D ms m : (0 <= D)%Z -> (2 * D < B)%Z -> good_mons ms -> Forall (fun m => keys_ok D (mkey m)) ms -> keys_ok D (mkey m) ->
  mon_ok m -> mon_sorted m ->
  (exists m', In m' ms /\ sdeg m' = sdeg m /\ sinds m' = sinds m /\ group (image B ms) (wt B (mkey m)) = rv (sq m')) \/
  group (image B ms) (wt B (mkey m)) = 0%R.
Proof.
  intros D0 DB [A1 A2 A3 A4 A5] K Km Ok Srt. unfold group, image. rewrite map_map.
  induction ms as [|a ms IH]; [right; reflexivity|].
  inversion A1 as [|? ? A1' A1f]; subst. inversion A2; subst. inversion A3; subst. inversion A4; subst. inversion A5; subst. inversion K; subst.
  cbn [map]. change (Rsum (?a :: ?y)) with (a + Rsum y)%R. cbn [fst snd] in *.
  destruct (Z.eqb_spec (wt B (mkey a)) (wt B (mkey m))) as [E|E].
  - left. apply (wt_inj B D) in E; auto. exists a. split; [now left|]. destruct (mkey_eq a m) as [E1 E2]; auto. repeat split; auto.
    rewrite Rsum_0; [ring|]. intros c Hc. destruct (Z.eqb_spec (wt B (mkey c)) (wt B (mkey m))) as [E3|]; [exfalso|reflexivity].
    rewrite Forall_forall in *. apply (wt_inj B D) in E3; auto. destruct (mkey_eq c m) as [E4 E5]; auto.
    specialize (A1f c Hc). apply (smon_lt_irrefl c). unfold smon_lt in *. rewrite E1, E2 in A1f. rewrite E4, E5 in *. exact A1f.
  - destruct IH as [(m' & I & E1 & E2 & E3)|E3]; auto.
    + left. exists m'. split; [now right|]. repeat split; auto. rewrite E3. ring.
    + right. rewrite E3. ring.
Qed.
Lemma sorted_unique {A} (R : A -> A -> Prop) : (forall a, ~ R a a) -> (forall a b c, R a b -> R b c -> R a c) ->
  forall l r, StronglySorted R l -> StronglySorted R r -> (forall a, In a l <-> In a r) -> l = r.
Proof.
  intros Irr Tr. induction l as [|a l IH]; intros r Sl Sr E.
  - destruct r as [|b r]; [reflexivity|]. destruct (proj2 (E b) (or_introl eq_refl)).
  - destruct r as [|b r]; [destruct (proj1 (E a) (or_introl eq_refl))|].
    inversion_clear Sl as [|? ? Sl' Fl]. inversion_clear Sr as [|? ? Sr' Fr]. rewrite Forall_forall in Fl, Fr.
    assert (a = b).
    { destruct (proj1 (E a) (or_introl eq_refl)) as [|H1]; [auto|]. destruct (proj2 (E b) (or_introl eq_refl)) as [|H2]; [auto|].
      destruct (Irr a). eapply Tr; eauto. }
    subst b. f_equal. apply IH; auto. intros c. split; intros Hc.
    + destruct (proj1 (E c) (or_intror Hc)) as [<-|]; [destruct (Irr a); auto|assumption].
    + destruct (proj2 (E c) (or_intror Hc)) as [<-|]; [destruct (Irr a); auto|assumption].
Qed.
Lemma group_app a b e : group (a ++ b) e = (group a e + group b e)%R.
Proof. unfold group. now rewrite map_app, Rsum_app. Qed.
Lemma poly_app a b e : poly (a ++ b) e = (poly a e + poly b e)%R.
Proof. unfold poly. now rewrite map_app, Rsum_app. Qed.
Definition opp (l : list (R * Z)) := map (fun p : R * Z => (- fst p, snd p)%R) l.
Lemma group_opp l e : group (opp l) e = (- group l e)%R.
Proof.
  unfold group, opp. rewrite map_map. induction l as [|p l IH]; cbn [map]; [change (Rsum []) with 0%R; ring|].
  change (Rsum (?a :: ?y)) with (a + Rsum y)%R. rewrite IH. cbn [fst snd]. destruct (snd p =? e)%Z; ring.
Qed.
Lemma poly_opp l e : poly (opp l) e = (- poly l e)%R.
Proof.
  unfold poly, opp. rewrite map_map. induction l as [|p l IH]; cbn [map]; [change (Rsum []) with 0%R; ring|].
  change (Rsum (?a :: ?y)) with (a + Rsum y)%R. rewrite IH. cbn [fst snd]. ring.
Qed.
Lemma key_bound ms : Forall mon_sorted ms -> exists D, (0 <= D)%Z /\ Forall (fun m => keys_ok D (mkey m)) ms.
Proof.
  induction 1 as [|m ms (A & B & _) F (D & D0 & IH)]; [exists 0%Z; split; [lia|constructor]|].
  assert (exists D', (0 <= D')%Z /\ Forall (fun i => (Z.abs (num (ideg i)) <= D')%Z) (sinds m)) as (D' & D0' & F').
  { clear. induction (sinds m) as [|i l (D & D0 & IH)]; [exists 0%Z; split; [lia|constructor]|].
    exists (Z.max D (Z.abs (num (ideg i)))). split; [lia|]. constructor; [lia|]. eapply Forall_impl; [|exact IH]. cbn. lia. }
  exists (Z.max D D'). split; [lia|]. constructor.
  - split; [unfold mkey; rewrite map_map; exact A|]. unfold mkey. rewrite Forall_map. rewrite Forall_forall in *.
    intros i Hi. cbn. split; [now apply B|]. specialize (F' i Hi). cbn in F'. lia.
  - eapply Forall_impl; [|exact IH]. intros a [P Q]. split; [exact P|]. eapply Forall_impl; [|exact Q]. cbn. lia.
Qed.
Lemma mons_identity xs ys : good_mons xs -> good_mons ys ->
  (forall rho, (forall i, (0 < rho i)%R) -> mons_val rho xs = mons_val rho ys) -> xs = ys.
Proof.
  intros X Y V. destruct (key_bound (xs ++ ys)) as (D & D0 & K). { apply Forall_app. split; [apply X|apply Y]. }
  apply Forall_app in K as [Kx Ky]. set (B := (2 * D + 1)%Z).
  assert (G : forall e, group (image B xs) e = group (image B ys) e).
  { intros e. assert (Z : group (image B xs ++ opp (image B ys)) e = 0%R).
    { apply poly_zero. intros x X1. rewrite poly_app, poly_opp, <- !mons_val_poly by (first [lra|apply X|apply Y]).
      rewrite V; [ring|]. intros i. apply powerRZ_lt. lra. }
    rewrite group_app, group_opp in Z. lra. }
  assert (Sub : forall us vs, good_mons us -> good_mons vs -> Forall (fun m => keys_ok D (mkey m)) us -> Forall (fun m => keys_ok D (mkey m)) vs ->
    (forall e, group (image B us) e = group (image B vs) e) -> forall m, In m us -> In m vs).
  { clear -D0. intros us vs U W Ku Kw G m Hm.
    assert (P : keys_ok D (mkey m) /\ mon_ok m /\ mon_sorted m /\ num (sq m) <> 0%Z /\ coef_ok m).
    { destruct U as [U1 U2 U3 U4 U5]. rewrite !Forall_forall in *. split; [auto|]. split; [auto|]. split; [auto|]. split; auto. }
    destruct P as (P1 & P2 & P3 & P4 & P5).
    assert (Gm : group (image B us) (wt B (mkey m)) = rv (sq m)).
    { apply in_split in Hm as (u1 & u2 & ->). unfold image. rewrite map_app, group_app. cbn [map].
      assert (Z : forall us', (forall c, In c us' -> In c (u1 ++ m :: u2) /\ (smon_lt c m \/ smon_lt m c)) -> group (image B us') (wt B (mkey m)) = 0%R).
      { intros us' I. unfold group, image. rewrite map_map. apply Rsum_0. intros c Hc. cbn [fst snd].
        destruct (Z.eqb_spec (wt B (mkey c)) (wt B (mkey m))) as [E|]; [exfalso|reflexivity].
        destruct (I c Hc) as [I1 I2]. destruct U as [_ _ U3 U4 _]. rewrite !Forall_forall in *.
        apply (wt_inj B D) in E; auto; [|unfold B; lia]. destruct (mkey_eq c m) as [E4 E5]; auto.
        apply (smon_lt_irrefl c). unfold smon_lt in *. rewrite E4, E5 in *. tauto. }
      unfold image in Z. destruct U as [U1 _ _ _ _]. 
      assert (S1 : forall c, In c u1 -> smon_lt c m).
      { intros c Hc. clear -U1 Hc. induction u1 as [|a u1 IH]; [destruct Hc|]. cbn in U1. inversion_clear U1 as [|? ? U F].
        destruct Hc as [<-|Hc]; [|auto]. rewrite Forall_forall in F. apply F. apply in_or_app. right. now left. }
      assert (S2 : forall c, In c u2 -> smon_lt m c).
      { intros c Hc. clear -U1 Hc. induction u1 as [|a u1 IH]; cbn in U1; inversion_clear U1 as [|? ? U F]; [|auto].
        rewrite Forall_forall in F. auto. }
      unfold group. cbn [map]. fold (group (map (fun m => (rv (sq m), wt B (mkey m))) u1) (wt B (mkey m))).
      change (Rsum (?a :: ?y)) with (a + Rsum y)%R. fold (group (map (fun m => (rv (sq m), wt B (mkey m))) u2) (wt B (mkey m))).
      rewrite (Z u1), (Z u2).
      - cbn [fst snd]. rewrite Z.eqb_refl. ring.
      - intros c Hc. split; [apply in_or_app; right; now right|auto].
      - intros c Hc. split; [apply in_or_app; now left|auto]. }
    destruct (group_single B D vs m) as [(m' & I & E1 & E2 & E3)|E3]; auto; [unfold B; lia| |].
    - rewrite <- G, Gm in E3. replace m with m'; [assumption|]. destruct W as [_ _ _ _ W5]. rewrite Forall_forall in W5.
      destruct (W5 m' I) as [C1 C2]. destruct P5 as [C3 C4]. symmetry in E3. apply rv_inj in E3; auto.
      destruct m, m'. cbn in *. congruence.
    - exfalso. rewrite <- G, Gm in E3. unfold rv in E3. apply Rmult_integral in E3 as [E3|E3].
      + apply eq_IZR in E3. contradiction.
      + revert E3. apply Rinv_neq_0_compat, IZR_ne0. apply P2. }
  apply (sorted_unique smon_lt).
  - exact smon_lt_irrefl.
  - exact smon_lt_trans.
  - apply X.
  - apply Y.
  - intros m. split; [apply (Sub xs ys)|apply (Sub ys xs)]; auto.
Qed.
Lemma good_at n ts b : proper n ts -> good_mons (mons_at ts b).
Proof.
  intros [C O M F _].
  assert (P : forall Q : smon -> Prop, Forall Q (all_mons ts) -> Forall Q (mons_at ts b)).
  { intros Q H. rewrite Forall_forall in *. intros m Hm. apply H. now apply mons_at_in in Hm. }
  assert (CC : StronglySorted smon_lt (mons_at ts b) /\ Forall (fun m => num (sq m) <> 0%Z) (mons_at ts b)).
  { clear -C. destruct C as [Bl Ft]. unfold mons_at. induction Ft as [|t ts (N & S1 & Z) Ft IH]; [split; constructor|].
    cbn [map] in Bl. inversion_clear Bl as [|? ? Bl' F]. cbn [flat_map]. destruct (N.eqb_spec (fst t) b) as [E|E]; [|apply IH; assumption].
    replace (flat_map _ ts) with (@nil smon); [rewrite app_nil_r; auto|].
    clear -F E. induction ts as [|u ts IH]; [reflexivity|]. cbn in *. inversion_clear F.
    destruct (N.eqb_spec (fst u) b); [lia|]. now rewrite <- IH. }
  constructor; auto; apply CC.
Qed.
Lemma terms_from_mons : forall tx ty, canonical tx -> canonical ty -> (forall b, mons_at tx b = mons_at ty b) -> tx = ty.
Proof.
  assert (Hd : forall t ts, canonical (t :: ts) -> forall b, mons_at (t :: ts) b = if (fst t =? b)%N then snd t else mons_at ts b).
  { intros t ts [Bl _] b. unfold mons_at. cbn [flat_map]. destruct (N.eqb_spec (fst t) b) as [E|E]; [|reflexivity].
    cbn [map] in Bl. inversion_clear Bl as [|? ? _ F]. replace (flat_map _ ts) with (@nil smon); [apply app_nil_r|].
    clear -F E. induction ts as [|u ts IH]; [reflexivity|]. cbn in *. inversion_clear F.
    destruct (N.eqb_spec (fst u) b); [lia|]. now rewrite <- IH. }
  assert (Lo : forall t ts b, canonical (t :: ts) -> (b < fst t)%N -> mons_at (t :: ts) b = []).
  { intros t ts b [Bl _] L. unfold mons_at. clear Hd. cbn [map] in Bl. inversion_clear Bl as [|? ? _ F].
    assert (G : Forall (fun u : sterm => (b < fst u)%N) (t :: ts)).
    { constructor; [assumption|]. rewrite Forall_map in F. eapply Forall_impl; [|exact F]. cbn. lia. }
    clear -G. induction G as [|u us Gu G IH]; [reflexivity|]. cbn. destruct (N.eqb_spec (fst u) b); [lia|]. exact IH. }
  assert (Ne : forall t ts, canonical (t :: ts) -> snd t <> []).
  { intros t ts [_ F]. inversion_clear F as [|? ? [N _] _]. exact N. }
  induction tx as [|t tx IH]; intros ty Cx Cy E.
  - destruct ty as [|u ty]; [reflexivity|]. exfalso. apply (Ne _ _ Cy). specialize (E (fst u)). rewrite (Hd _ _ Cy), N.eqb_refl in E. now symmetry.
  - destruct ty as [|u ty].
    + exfalso. apply (Ne _ _ Cx). specialize (E (fst t)). rewrite (Hd _ _ Cx), N.eqb_refl in E. exact E.
    + destruct (N.lt_trichotomy (fst t) (fst u)) as [L|[L|L]].
      * exfalso. apply (Ne _ _ Cx). specialize (E (fst t)). rewrite (Hd _ _ Cx), N.eqb_refl, (Lo _ _ _ Cy L) in E. exact E.
      * assert (Et : t = u).
        { specialize (E (fst t)). rewrite (Hd _ _ Cx), (Hd _ _ Cy), <- L, N.eqb_refl in E. destruct t, u. cbn in *. congruence. }
        subst u. f_equal. apply canonical_cons in Cx as Cx'. destruct Cx' as [[Fx _] Cx']. apply canonical_cons in Cy as Cy'. destruct Cy' as [[Fy _] Cy'].
        apply IH; auto. intros b. specialize (E b). rewrite (Hd _ _ Cx), (Hd _ _ Cy) in E.
        destruct (N.eqb_spec (fst t) b) as [Eb|Eb]; [|exact E].
        assert (Z : forall ts, Forall (N.lt (fst t)) (map fst ts) -> mons_at ts b = []).
        { clear -Eb. intros ts F. unfold mons_at. induction ts as [|u ts IH]; [reflexivity|]. cbn in *. inversion_clear F.
          destruct (N.eqb_spec (fst u) b); [lia|]. auto. }
        now rewrite !Z.
      * exfalso. apply (Ne _ _ Cy). specialize (E (fst u)). rewrite (Hd _ _ Cy), N.eqb_refl, (Lo _ _ _ Cx L) in E. now symmetry.
Qed.
(** equal values at all positive inputs: the same multivector *)
Lemma values_identify n m tx ty : proper n tx -> proper m ty ->
  (forall rho, (forall i, (0 < rho i)%R) -> forall b, val rho tx b = val rho ty b) -> tx = ty.
Proof.
  intros X Y V. apply terms_from_mons; [apply X|apply Y|]. intros b. apply mons_identity; [eapply good_at; eauto..|].
  intros rho P. rewrite <- !val_mons_at. now apply V.
Qed.
