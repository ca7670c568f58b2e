(** The numeric evaluation computes the values of the symbolic multivectors. *)
From Coq Require Import ZArith NArith List Bool Arith Lia ZifyBool ZifyN ZifyNat Reals Lra Sorting.Sorted Sorting.Permutation.
From Verif Require Import Base Model_Numeric Model_Blade Model_Sort Model_MV Model_Product Model_Expr Model_Dfa Model_Engine
  Spec_Numeric Spec_Sort Spec_Clifford Spec_Basis
  Proof_Numeric Proof_Gens Proof_Blade Proof_Blade2 Proof_Blade3 Proof_Blade4 Spec_MV Spec_Expr Spec_Dfa Spec_Engine
  Proof_Sort Proof_SortMap Proof_Layout Proof_Sum Proof_Val Proof_Collate Proof_Product Proof_CollateVal
  Proof_ProductVal Proof_Ops Proof_Ops2 Proof_Basis Proof_Ops3 Proof_Div Proof_Safe Proof_Poly Proof_Proper Proof_MVAlg Proof_MVFlat Proof_Dfa Proof_Dfa2 Proof_Ids.
Import ListNotations.
Local Open Scope nat_scope.

(** ** coefficients *)
Lemma data_value_ok data i v : length data <= N.to_nat ind_constant_start -> data_value data i = Ok v -> v = valuation data i.
Proof.
  intros L H. unfold data_value in H. unfold valuation. destruct (N.leb_spec ind_constant_start i) as [A|A].
  - destruct (N.eqb_spec i ind_constant_start) as [->|B]; [rewrite N.sub_diag in H; now injection H|].
    destruct (N.eqb_spec i (ind_constant_start + 1)) as [->|C].
    { replace (N.to_nat (ind_constant_start + 1 - ind_constant_start)) with 1 in H by lia. now injection H. }
    unfold get in H. destruct (nth_error _ _) eqn:E; [|discriminate]. assert (nth_error ind_constants (N.to_nat (i - ind_constant_start)) <> None) by congruence.
    apply nth_error_Some in H0. cbn [ind_constants length] in H0. lia.
  - replace (i =? ind_constant_start)%N with false by lia. replace (i =? ind_constant_start + 1)%N with false by lia.
    unfold get in H. destruct (nth_error data (N.to_nat i)) eqn:E; [|discriminate]. injection H as <-. symmetry. now apply nth_error_nth.
Qed.
Lemma factor_ok data i v : length data <= N.to_nat ind_constant_start -> integral (ideg i) -> num (ideg i) <> 0%Z -> factor_value data i = Ok v ->
  v = dpow (valuation data (id i)) (ideg i).
Proof.
  intros L I N0 H. unfold factor_value in H. minv H. apply data_value_ok in E as ->; [|exact L]. destruct (_ && _) eqn:E; [|discriminate]. injection H as <-.
  rewrite dpow_int by exact I. rewrite I. apply gal_pow_int; [exact N0|lia].
Qed.
Lemma fold_prod l : forall p, fold_right1 Rmult l = Ok p -> p = Rprod l.
Proof.
  induction l as [|x l IH]; intros p H; [discriminate|]. destruct l as [|y l].
  - injection H as <-. unfold Rprod. cbn [fold_right]. ring.
  - cbn [fold_right1] in H. minv H. injection H as <-. rewrite (IH v E). reflexivity.
Qed.
Lemma fold_plus l : forall p, fold_right1 Rplus l = Ok p -> p = Rsum l.
Proof.
  induction l as [|x l IH]; intros p H; [discriminate|]. destruct l as [|y l].
  - injection H as <-. unfold Rsum. cbn [fold_right]. ring.
  - cbn [fold_right1] in H. minv H. injection H as <-. rewrite (IH v E). reflexivity.
Qed.
Lemma factors_ok data l : forall vs, length data <= N.to_nat ind_constant_start -> Forall (fun i => integral (ideg i)) l -> Forall (fun i => num (ideg i) <> 0%Z) l ->
  mapM (factor_value data) l = Ok vs -> Rprod vs = inds_val (valuation data) l.
Proof.
  induction l as [|i l IH]; intros vs L A B H; cbn [mapM] in H; [injection H as <-; reflexivity|].
  inversion_clear A as [|? ? A1 A2]. inversion_clear B as [|? ? B1 B2]. minv H. minv H. injection H as <-.
  unfold inds_val, Rprod in *. cbn [map fold_right]. rewrite (factor_ok data i v L A1 B1 E). now rewrite (IH v0).
Qed.
Lemma apply_fun o x : apply_mv_op o x = op_fun o x. Proof. destruct o; reflexivity. Qed.
Lemma abs_le1 (d : Z) : (0 < d)%Z -> (1 <? Z.abs d)%Z = false -> d = 1%Z. Proof. lia. Qed.
Lemma scales_one (d : Z) : d <> 0%Z -> scales d = false -> d = 1%Z. Proof. unfold scales. lia. Qed.
Lemma scale_by_ok q v : num q <> 0%Z -> (0 < den q)%Z -> scale_by q v = (rv q * v)%R.
Proof.
  intros N0 D0. unfold scale_by, rv. destruct (1 <? Z.abs (den q))%Z eqn:E.
  - destruct (scales (num q)) eqn:E'; [reflexivity|]. rewrite (scales_one _ N0 E'). unfold Rdiv. ring.
  - rewrite (abs_le1 _ D0 E). destruct (scales (num q)) eqn:E'; [field|]. rewrite (scales_one _ N0 E'). field.
Qed.
Lemma cmon_ok x data s o v : length data <= N.to_nat ind_constant_start -> storable s -> mon_ok s -> slice (inds x) o (length (sinds s)) = Ok (sinds s) ->
  cmon_value x data (mkmon (sq s) (sdeg s) (length (sinds s)) o) = Ok v -> v = op_fun (mop x) (mon_val (valuation data) s).
Proof.
  intros L (S1 & S2 & S3) (M1 & M2 & M3) SL H. unfold cmon_value in H. cbn [mq mcount ioff] in H. unfold is_zero in H.
  replace (num (sq s) =? 0)%Z with false in H by lia. unfold mon_val.
  destruct (length (sinds s) =? 0) eqn:EL.
  - apply Nat.eqb_eq in EL. destruct (sinds s); [|discriminate]. injection H as <-. rewrite apply_fun. f_equal. unfold inds_val, Rprod, rat_cast, rv. cbn [map fold_right]. ring.
  - rewrite SL in H. cbn [bind] in H. minv H. rename v0 into vs. minv H. rename v0 into p. apply fold_prod in E0. subst p. rewrite (factors_ok data _ vs L M3 S3 E) in H.
    set (p := inds_val _ _) in *.
    assert (G : scale_by (sq s) p = (rv (sq s) * p)%R) by (apply scale_by_ok; assumption). unfold scale_by in G.
    rewrite <- G. destruct (1 <? Z.abs (den (sq s)))%Z; destruct (scales (num (sq s))); injection H as <-; rewrite apply_fun; reflexivity.
Qed.
Lemma cmons_ok x data rest : forall ms pre vs, length data <= N.to_nat ind_constant_start -> Forall storable ms -> Forall mon_ok ms ->
  inds x = pre ++ all_inds ms ++ rest -> mapM (cmon_value x data) (lay_mons (length pre) ms) = Ok vs ->
  Rsum vs = marked_val (valuation data) (mop x) ms.
Proof.
  induction ms as [|s ms IH]; intros pre vs L A B E H; cbn [lay_mons mapM] in H; [injection H as <-; reflexivity|].
  inversion_clear A as [|? ? A1 A2]. inversion_clear B as [|? ? B1 B2]. minv H. rename v into a. minv H. rename v into r. injection H as <-.
  change (all_inds (s :: ms)) with (sinds s ++ all_inds ms) in E. rewrite <- app_assoc in E.
  unfold marked_val, Rsum in *. cbn [map fold_right]. rewrite (cmon_ok x data s (length pre) a L A1 B1); [| |assumption].
  - f_equal. apply (IH (pre ++ sinds s) r L A2 B2); [now rewrite <- app_assoc|]. now rewrite app_length.
  - rewrite E. apply slice_app.
Qed.
Lemma cterm_ok x data tx pre t post v : length data <= N.to_nat ind_constant_start -> packed x tx -> keep tx -> tx = pre ++ t :: post ->
  cterm_value x data (mkterm (length (snd t)) (length (all_mons pre)) (fst t)) = Ok v -> v = marked_val (valuation data) (mop x) (snd t).
Proof.
  intros L P (K1 & K2 & K3) -> H. unfold cterm_value in H. cbn [moff tcount] in H.
  destruct (pk_mons _ _ P) as [rm Em]. destruct (pk_inds _ _ P) as [ri Ei].
  rewrite all_mons_app, all_mons_cons in *. rewrite !all_inds_app in Ei. rewrite !lay_mons_app in Em. rewrite Em in H.
  replace (length (all_mons pre)) with (length (lay_mons 0 (all_mons pre))) in H by apply lay_mons_length.
  replace (length (snd t)) with (length (lay_mons (0 + length (all_inds (all_mons pre))) (snd t))) in H by apply lay_mons_length.
  rewrite <- !app_assoc, slice_app in H. cbn [bind] in H. minv H. rename v0 into vs. apply fold_plus in H. subst v.
  rewrite <- !app_assoc in Ei. apply Forall_app in K2 as [_ K2]. apply Forall_app in K2 as [K2 _].
  unfold mv_ok in K1. rewrite all_mons_app, all_mons_cons in K1. apply Forall_app in K1 as [_ K1]. apply Forall_app in K1 as [K1 _].
  eapply cmons_ok; [exact L|exact K2|exact K1|exact Ei|exact E].
Qed.
Lemma packed_slice x tx : packed x tx -> slice (terms x) 0 (tsz x) = Ok (lay_terms 0 tx).
Proof.
  intros P. destruct (pk_terms _ _ P) as [rt Et]. rewrite (pk_tsz _ _ P), Et. replace (length tx) with (length (lay_terms 0 tx)) by apply lay_terms_length.
  exact (slice_app [] (lay_terms 0 tx) rt).
Qed.
(** ** entities *)
Lemma entity_ok x q data tx e : length data <= N.to_nat ind_constant_start -> packed x tx -> keep tx -> num q <> 0%Z -> (0 < den q)%Z ->
  compute_entity x q data = Ok e ->
  map fst e = map fst tx /\ forall b, entity_val e b = (rv q * store_val (valuation data) (mop x) tx b)%R.
Proof.
  intros L P K Q0 Q1 H. unfold compute_entity in H. rewrite (packed_slice _ _ P) in H. cbn [bind] in H.
  assert (G : forall ts pre e, tx = pre ++ ts ->
    mapM (fun t => v <- cterm_value x data t;; Ok (elem t, scale_by q v)) (lay_terms (length (all_mons pre)) ts) = Ok e ->
    map fst e = map fst ts /\ forall b, entity_val e b = (rv q * store_val (valuation data) (mop x) ts b)%R).
  { clear H e. induction ts as [|t ts IH]; intros pre e Et H; cbn [lay_terms mapM] in H.
    - injection H as <-. split; [reflexivity|]. intros b. unfold entity_val, store_val, Rsum. cbn [map fold_right]. ring.
    - minv H. rename v into a. minv H. rename v into r. injection H as <-. minv E. injection E as <-. cbn [map fst elem].
      assert (Er : mapM (fun t => v <- cterm_value x data t;; Ok (elem t, scale_by q v)) (lay_terms (length (all_mons (pre ++ [t]))) ts) = Ok r).
      { rewrite all_mons_app, app_length. replace (length (all_mons [t])) with (length (snd t)); [assumption|]. unfold all_mons. cbn [flat_map]. now rewrite app_nil_r. }
      destruct (IH (pre ++ [t]) r ltac:(now rewrite <- app_assoc) Er) as [I1 I2]. split; [now rewrite I1|]. intros b.
      unfold entity_val, store_val, Rsum in *. cbn [map fold_right fst snd]. rewrite I2.
      rewrite (cterm_ok x data tx pre t ts v L P K Et E1). rewrite (scale_by_ok _ _ Q0 Q1). destruct (_ =? _)%N; ring. }
  exact (G tx [] e eq_refl H).
Qed.

(** ** writing cells *)
Lemma upd_length {A} (l : list A) : forall i a, length (upd l i a) = length l.
Proof. induction l as [|x l IH]; intros [|i] a; cbn; auto. Qed.
Lemma upd_nth {A} (l : list A) d : forall i j a, i < length l -> nth j (upd l i a) d = if j =? i then a else nth j l d.
Proof.
  induction l as [|x l IH]; intros [|i] j a L; cbn in L; try lia; destruct j as [|j]; cbn; auto. apply IH. lia.
Qed.
Lemma set_ok {A} (l : list A) i a l' : set l i a = Ok l' -> i < length l /\ l' = upd l i a.
Proof. unfold set. destruct (i <? length l) eqn:E; [|discriminate]. intros H. injection H as <-. split; [lia|reflexivity]. Qed.
(** cells below [c] are the same *)
Definition same_below (c : N) (a b : list R) : Prop := length b = length a /\ forall i, (i < c)%N -> nth (N.to_nat i) b 0%R = nth (N.to_nat i) a 0%R.
Lemma same_refl c a : same_below c a a. Proof. split; auto. Qed.
Lemma same_trans c d a b e : (c <= d)%N -> same_below c a b -> same_below d b e -> same_below c a e.
Proof. intros L [A1 A2] [B1 B2]. split; [congruence|]. intros i Hi. rewrite B2 by lia. now apply A2. Qed.
Lemma same_val c a b i : (c <= ind_constant_start)%N -> same_below c a b -> below c i -> length a <= N.to_nat ind_constant_start -> valuation b i = valuation a i.
Proof.
  intros LC [S1 S2] B L. unfold valuation. destruct (N.eqb_spec i ind_constant_start); [reflexivity|]. destruct (N.eqb_spec i (ind_constant_start + 1)); [reflexivity|].
  destruct B as [B|B]; [now apply S2|]. rewrite !nth_overflow; [reflexivity| |]; lia.
Qed.
Lemma marked_ext (P : N -> Prop) rho rho' o ms : (forall i, P i -> rho' i = rho i) -> idsl P ms -> marked_val rho' o ms = marked_val rho o ms.
Proof.
  intros H I. unfold marked_val. f_equal. apply map_ext_in. intros s Hs. f_equal. unfold mon_val. f_equal. unfold inds_val. f_equal. apply map_ext_in.
  intros i Hi. unfold idsl in I. rewrite Forall_forall in I. specialize (I s Hs). rewrite Forall_forall in I. now rewrite (H _ (I i Hi)).
Qed.
Lemma write_ok x data0 tx (c : N) : packed x tx -> keep tx -> idsl (below c) (all_mons tx) -> length data0 <= N.to_nat ind_constant_start -> (c <= ind_constant_start)%N ->
  forall ts pre data data', tx = pre ++ ts -> same_below c data0 data ->
    write_temp x (lay_terms (length (all_mons pre)) ts) (c + N.of_nat (length pre)) data = Ok data' ->
    length data' = length data /\
    (forall j, j < N.to_nat c + length pre -> nth j data' 0%R = nth j data 0%R) /\
    (forall k t, nth_error ts k = Some t -> N.to_nat c + length pre + k < length data /\
       nth (N.to_nat c + length pre + k) data' 0%R = marked_val (valuation data0) (mop x) (snd t)).
Proof.
  intros P K I L LC. induction ts as [|t ts IH]; intros pre data data' Et SB H; cbn [lay_terms write_temp] in H.
  - injection H as <-. repeat split; auto. all: destruct k; discriminate.
  - minv H. rename v into a. minv H. rename v into d1. apply set_ok in E0 as [LI ->].
    pose proof (proj1 SB) as LS.
    apply (cterm_ok x data tx pre t ts a ltac:(lia) P K Et) in E.
    assert (IT : idsl (below c) (snd t)). { rewrite Et, all_mons_app, all_mons_cons in I. apply idsl_app in I as [_ I]. now apply idsl_app in I as [I _]. }
    rewrite (marked_ext (below c) (valuation data0)) in E; [|intros i Hi; now apply (same_val c)|exact IT].
    assert (SB' : same_below c data0 (upd data (N.to_nat (c + N.of_nat (length pre))) a)).
    { split; [rewrite upd_length; apply SB|]. intros i Hi. rewrite upd_nth by exact LI. replace (_ =? _) with false by lia. now apply SB. }
    replace (length (all_mons pre) + length (snd t)) with (length (all_mons (pre ++ [t]))) in H
      by (rewrite all_mons_app, app_length; f_equal; unfold all_mons; cbn [flat_map]; now rewrite app_nil_r).
    replace (c + N.of_nat (length pre) + 1)%N with (c + N.of_nat (length (pre ++ [t])))%N in H by (rewrite app_length; cbn [length]; lia).
    destruct (IH (pre ++ [t]) _ data' ltac:(now rewrite <- app_assoc) SB' H) as (I1 & I2 & I3).
    rewrite upd_length in I1, I3. rewrite app_length in I2, I3. cbn [length] in I2, I3.
    split; [exact I1|]. split.
    + intros j Hj. rewrite I2 by lia. rewrite upd_nth by exact LI. now replace (_ =? _) with false by lia.
    + intros [|k] t' Ht; cbn in Ht.
      * injection Ht as <-. split; [lia|]. rewrite I2 by lia. rewrite upd_nth by exact LI. replace (_ =? _) with true by lia. exact E.
      * destruct (I3 k t' Ht) as [J1 J2]. split; [lia|]. rewrite <- J2. f_equal. lia.
Qed.
(** a change of basis that keeps every blade *)
Lemma dist_keep d tx : Forall (fun t : sterm => d (fst t) = Keep) tx -> forall p, s_dist Exact d tx = Ok p ->
  snd p = [] /\ Forall2 (fun a b => s_push Exact one (fst a) a = Ok b) tx (fst p).
Proof.
  induction 1 as [|t tx K F IH]; intros p H; cbn [s_dist] in H; [injection H as <-; split; [reflexivity|constructor]|].
  rewrite K in H. minv H. minv H. injection H as <-. destruct (IH _ E0) as [A B]. cbn [fst snd]. split; [exact A|]. constructor; assumption.
Qed.
Lemma change_keep d tx t : Forall (fun t : sterm => d (fst t) = Keep) tx -> s_change Exact d tx = Ok t ->
  Forall2 (fun a b => s_push Exact one (fst a) a = Ok b) tx t.
Proof.
  intros F H. unfold s_change in H. minv H. rename v into p. destruct (dist_keep d tx F p E) as [A B]. rewrite A in H.
  minv H. rename v into r. injection E0 as <-. destruct (fst p) as [|u us]; cbn [ss_terms] in H; injection H as <-; exact B.
Qed.
Lemma push_storable t t' : Forall storable (snd t) -> s_push Exact one (fst t) t = Ok t' -> Forall storable (snd t').
Proof.
  intros F H. unfold s_push in H. minv H. injection H as <-. cbn [snd]. eapply smapq_storable; [|exact F|exact E]. intros p r A B C.
  apply rmul_exact in C as [C1 C2]; try (cbn; lia). cbn in C1, C2. unfold feq in C1. split; [intros Z0; rewrite Z0 in C1; cbn in C1; lia|apply C2; cbn; lia].
Qed.
Lemma push_keys t t' : s_push Exact one (fst t) t = Ok t' -> keys_in (snd t') (snd t).
Proof. intros H. unfold s_push in H. minv H. injection H as <-. cbn [snd]. eapply smapq_keys; exact E. Qed.
Lemma keep_same tx t : Forall2 (fun a b => s_push Exact one (fst a) a = Ok b) tx t -> keep tx ->
  keep t /\ length t = length tx /\ keys_in (all_mons t) (all_mons tx) /\
  forall rho k a, nth_error tx k = Some a -> exists b, nth_error t k = Some b /\ mons_val rho (snd b) = mons_val rho (snd a).
Proof.
  induction 1 as [|a b tx t P F IH]; intros (K1 & K2 & K3).
  - split; [split; [constructor|split; constructor]|]. split; [reflexivity|]. split; [intros x []|]. intros rho [|k] a A; discriminate.
  - rewrite all_mons_cons in K2. apply Forall_app in K2 as [K2 K2']. inversion_clear K3 as [|? ? K3' K3'']. apply mv_ok_cons in K1 as [K1 K1'].
    destruct (IH ltac:(repeat split; assumption)) as ((I1 & I2 & I3) & I4 & I5 & I6).
    assert (MO : Forall mon_ok (snd b)) by (apply (s_push_val (fun _ => 0%R)) in P as (_ & _ & W); [exact W|cbn; lia|exact K1]).
    split; [split; [now apply mv_ok_cons|split; [rewrite all_mons_cons; apply Forall_app; split; [eapply push_storable; eauto|exact I2]|constructor; [|exact I3]]]|].
    + intros N0. unfold s_push in P. minv P. injection P as <-. cbn [snd] in N0. subst. apply smapq_shape in E as (E & _). destruct (snd a); [contradiction|discriminate E].
    + split; [cbn [length]; congruence|]. split; [rewrite !all_mons_cons; apply keys_in_app; [apply keys_in_app_l; now apply push_keys|now apply keys_in_app_r]|].
      intros rho [|k] c A; cbn in A |- *; [|now apply I6]. injection A as <-. exists b. split; [reflexivity|].
      apply (s_push_val rho) in P as (_ & V & _); [|cbn; lia|exact K1]. rewrite V, rv_one. ring.
Qed.
(** the multivector written for a temporary has the same coefficients *)
Lemma neutral_result m nb x tx y (P : N -> Prop) : (nb = true -> 2 <= dim m) -> (nb = true -> neutral m x) -> packed x tx -> keep tx -> idsl P (all_mons tx) -> result_mv Exact m nb x = Ok y ->
  exists ty, packed y ty /\ keep ty /\ idsl P (all_mons ty) /\ length ty = length tx /\
    forall rho k a, nth_error tx k = Some a -> exists b, nth_error ty k = Some b /\ marked_val rho (mop y) (snd b) = marked_val rho (mop x) (snd a).
Proof.
  intros Hn NE PX K I H. unfold result_mv in H. destruct nb; [|injection H as <-; exists tx; repeat (split; [assumption|]); split; [reflexivity|]; intros rho k a A; exists a; auto].
  destruct (NE eq_refl) as [MO BL]. unfold to_null_basis in H. destruct (change_flat _ _ _ _ _ PX H) as (t & E & PT).
  assert (KD : Forall (fun u : sterm => null_dest (dimension m) (fst u) = Keep) tx).
  { apply Forall_forall. intros u Hu. rewrite <- (dim_N m). rewrite null_dest_eq by now apply Hn. rewrite (dim_N m). rewrite (BL (fst u)).
    - now destruct (N.testbit (fst u) (dimension m - 1)).
    - rewrite (packed_elems _ _ PX). now apply in_map. }
  apply change_keep in E; [|exact KD]. destruct (keep_same _ _ E K) as (KT & LT & KS & VS). exists t. split; [exact PT|]. split; [exact KT|]. split; [eapply idsl_keys; eauto|]. split; [exact LT|].
  intros rho k a A. destruct (VS rho k a A) as (b & B & V). exists b. split; [exact B|]. rewrite MO, (change_mop _ _ _ _ H). exact V.
Qed.
Lemma finalize_ok m nb temps : (nb = true -> 2 <= dim m) -> (nb = true -> Forall (fun p => neutral m (fst p)) temps) ->
  forall c c' data data', chain m c temps c' -> (c' <= ind_constant_start)%N -> length data <= N.to_nat ind_constant_start ->
  finalize_temps Exact m nb temps data = Ok data' -> same_below c data data' /\ Forall (temp_holds (valuation data')) temps.
Proof.
  intros Hn. induction temps as [|[x i] temps IH]; intros NE c c' data data' CH LC L H; cbn [finalize_temps] in H.
  - injection H as <-. split; [apply same_refl|constructor].
  - cbn [chain fst snd] in CH. destruct CH as (-> & LT & (tx & P & SS & DD & K & I) & CH). minv H. rename v into y.
    destruct (neutral_result m nb x tx y (below c) Hn ltac:(intros B; specialize (NE B); now inversion NE) P K I E) as (ty & PY & KY & IY & LY & VY). clear E.
    pose proof (chain_le m false ltac:(discriminate) _ _ _ CH) as LE. pose proof (pk_tsz _ _ P) as TS.
    minv H. rename v into d1. unfold compute_temp in E. rewrite (packed_slice _ _ PY) in E. cbn [bind] in E.
    destruct (write_ok y data ty c PY KY IY L ltac:(lia) ty [] data d1 eq_refl (same_refl _ _) ltac:(rewrite N.add_0_r; exact E)) as (W1 & W2 & W3).
    cbn [length] in W2, W3. rewrite Nat.add_0_r in W2, W3.
    destruct (IH ltac:(intros B; specialize (NE B); now inversion NE) _ _ d1 data' CH LC ltac:(rewrite W1; exact L) H) as [I1 I2].
    assert (SB : same_below c data d1). { split; [exact W1|]. intros i Hi. apply W2. lia. }
    split; [eapply same_trans; [|exact SB|exact I1]; lia|]. constructor; [|exact I2].
    intros tx' k t P' Ht. cbn [fst snd] in *. rewrite <- (packed_unique _ _ _ P P') in Ht. destruct (VY (valuation data) k t Ht) as (b & Hb & Vb). destruct (W3 k b Hb) as [X1 X2].
    assert (KL : k < length tx) by (apply nth_error_Some; congruence).
    rewrite (marked_ext (below c) (valuation data)); [|intros i Hi; apply (same_val c); [lia|eapply same_trans; [|exact SB|exact I1]; lia|exact Hi|exact L]|].
    + rewrite <- Vb, <- X2. unfold valuation. replace (_ =? _)%N with false by lia. replace (_ =? _)%N with false by lia.
      rewrite (proj2 I1) by lia. f_equal. lia.
    + apply nth_error_split in Ht as (u & v & -> & _). rewrite all_mons_app, all_mons_cons in I. apply idsl_app in I as [_ I]. now apply idsl_app in I as [I _].
Qed.

(** ** inputs *)
Lemma fill_one_ok d : forall a b c, length c = length d -> fill_one (a ++ c ++ b) (length a) d = Ok (a ++ d ++ b).
Proof.
  induction d as [|x d IH]; intros a b c L; destruct c as [|y c]; try discriminate L; cbn [fill_one]; [reflexivity|].
  unfold set. rewrite app_length. cbn [app length]. replace (_ <? _) with true by lia. cbn [bind].
  replace (upd (a ++ y :: c ++ b) (length a) x) with ((a ++ [x]) ++ c ++ b).
  - replace (length a + 1) with (length (a ++ [x])) by (rewrite app_length; reflexivity). rewrite IH by (cbn in L; lia). now rewrite <- app_assoc.
  - rewrite <- app_assoc. cbn [app]. clear. induction a as [|z a IH]; cbn; [reflexivity|]. now rewrite IH.
Qed.
Lemma fill_ok ds : forall a b c, length c = list_sum (map (@length R) ds) -> fill_inputs (a ++ c ++ b) (length a) ds = Ok (a ++ concat ds ++ b).
Proof.
  induction ds as [|d ds IH]; intros a b c L; cbn [fill_inputs map list_sum concat] in *.
  - destruct c; [reflexivity|discriminate].
  - change (length c = length d + list_sum (map (@length R) ds)) in L. rewrite <- (firstn_skipn (length d) c), <- app_assoc.
    rewrite fill_one_ok by (rewrite firstn_length; lia). cbn [bind]. rewrite <- !app_assoc.
    replace (length a + length d) with (length (a ++ d)) by apply app_length.
    rewrite (app_assoc a d), (app_assoc a d). apply IH. rewrite skipn_length. lia.
Qed.
Lemma offset_concat inputs : forall k d, nth_error inputs k = Some d -> forall j, j < length d -> nth (offset inputs k + j) (concat inputs) 0%R = nth j d 0%R.
Proof.
  induction inputs as [|e inputs IH]; intros [|k] d H j J; try discriminate; cbn in H.
  - injection H as ->. cbn. now rewrite app_nth1.
  - unfold offset. cbn [firstn map concat]. change (list_sum (length e :: ?l)) with (length e + list_sum l). rewrite app_nth2 by lia.
    replace (length e + list_sum (map (@length R) (firstn k inputs)) + j - length e) with (offset inputs k + j) by (unfold offset; lia). now apply IH.
Qed.
Lemma offset_le inputs : forall k d, nth_error inputs k = Some d -> offset inputs k + length d <= list_sum (map (@length R) inputs).
Proof.
  induction inputs as [|e inputs IH]; intros [|k] d H; try discriminate; cbn in H.
  - injection H as ->. unfold offset. cbn. lia.
  - unfold offset. cbn [firstn map]. change (list_sum (length e :: ?l)) with (length e + list_sum l). specialize (IH k d H). unfold offset in IH. lia.
Qed.

(** ** the whole computation *)
Lemma null_means rho n x z w : 2 <= n -> mv_means rho n x w -> to_null_basis Exact (N.of_nat n) x = Ok z ->
  mv_means rho n z (fun b => if (b <? 2 ^ N.of_nat n)%N then linear n (outermorphism n (natural_to_null n)) w b else 0%R).
Proof.
  intros N2 (tx & A & B & C & D & F) H. destruct (change_flat _ _ _ _ _ A H) as (t & E & Z). exists t. split; [assumption|].
  split; [eapply change_mop; eauto|].
  pose proof (change_proper _ _ _ _ (null_ok n N2) (null_pos n N2) (null_dim n N2) C E) as PT. split; [exact PT|].
  split; [eapply keys_in_def; [eapply s_change_keys; [exact (mv_ok_tdegs _ (pr_ok _ _ C))|exact E]|assumption]|].
  intros b. destruct (N.ltb_spec b (2 ^ N.of_nat n)) as [L|L].
  - rewrite (proj1 (s_null_val n N2 rho tx t b (pr_ok _ _ C) (pr_dim _ _ C) E L)). apply linear_ext_f. intros a _. apply F.
  - apply val_absent. intros HI. pose proof (in_dim_in n t b (pr_dim _ _ PT) HI). lia.
Qed.
(** inputs in packed form *)
Definition inputs_rep (m : metric) (nb : bool) (ies : list (N -> mv)) (inputs : list (list R)) (env : list V) : Prop :=
  length inputs = length ies /\
  forall k ie, nth_error ies k = Some ie -> exists d v, nth_error inputs k = Some d /\ nth_error env k = Some v /\ represents m nb ie d v.
Lemma inputs_fresh m nb ies inputs env l ins : inputs_rep m nb ies inputs env -> bound inputs l -> rpn_inputs ies (rpn_ids l) = Ok ins ->
  Forall (syn (dim m) (below (N.of_nat (list_sum (map (@length R) inputs))))) ins.
Proof.
  intros [LI IA] BD H. unfold rpn_inputs, rpn_ids in H. revert ins H. induction l as [|n l IH]; intros ins H; [injection H as <-; constructor|].
  inversion_clear BD as [|? ? B1 B2]. cbn [filter] in H. destruct (is_id n) eqn:EI; [|now apply IH]. cbn [map mapM fst snd] in H.
  minv H. minv H. injection H as <-. constructor; [|now apply IH]. destruct (nth_error ies (nex n)) as [ie|] eqn:EN; [|discriminate]. injection E as <-.
  destruct (IA _ _ EN) as (d & v & E1 & E2 & RP). unfold is_id in EI. apply N.eqb_eq in EI. rewrite (B1 EI).
  destruct (RP (N.of_nat (offset inputs (nex n)))) as (_ & tx & P & PR & ID). exists tx. split; [exact P|]. split; [exact PR|].
  pose proof (offset_le _ _ _ E1). apply Forall_forall. intros s Hs. apply Forall_forall. intros i Hi. left. specialize (ID s i Hs Hi). lia.
Qed.
Lemma inputs_meant m nb ies inputs env l ins data : inputs_rep m nb ies inputs env -> bound inputs l -> rpn_inputs ies (rpn_ids l) = Ok ins ->
  list_sum (map (@length R) inputs) <= N.to_nat ind_constant_start ->
  (forall j, j < list_sum (map (@length R) inputs) -> nth j data 0%R = nth j (concat inputs) 0%R) ->
  inputs_mean (valuation data) m nb env l ins.
Proof.
  intros [LI IA] BD H LC HD. unfold rpn_inputs, rpn_ids in H. unfold inputs_mean. revert ins H. induction l as [|n l IH]; intros ins H; [injection H as <-; constructor|].
  inversion_clear BD as [|? ? B1 B2]. cbn [filter] in *. destruct (is_id n) eqn:EI; [|now apply IH]. cbn [map mapM fst snd] in H.
  minv H. minv H. injection H as <-. constructor; [|now apply IH]. destruct (nth_error ies (nex n)) as [ie|] eqn:EN; [|discriminate]. injection E as <-.
  destruct (IA _ _ EN) as (d & v & E1 & E2 & RP). unfold is_id in EI. apply N.eqb_eq in EI. rewrite (B1 EI). exists v. split; [exact E2|].
  apply RP. intros j J. pose proof (offset_le _ _ _ E1). unfold valuation. replace (_ =? _)%N with false by lia. replace (_ =? _)%N with false by lia.
  replace (N.to_nat _) with (offset inputs (nex n) + j) by lia. rewrite HD by lia. now apply offset_concat.
Qed.
Lemma valuation_pi data : valuation data ind_constant_start = PI.
Proof. unfold valuation. now rewrite N.eqb_refl. Qed.
Lemma valuation_e data : valuation data (ind_constant_start + 1) = exp 1.
Proof. unfold valuation. replace (_ =? _)%N with false by (symmetry; apply N.eqb_neq; discriminate). now rewrite N.eqb_refl. Qed.
(** what is computed for the symbolic stack *)
Lemma results_ok m nb q data args vs outs : (nb = true -> 2 <= dim m) -> length data <= N.to_nat ind_constant_start -> num q <> 0%Z -> (0 < den q)%Z ->
  Forall2 (mv_means (valuation data) (dim m)) args vs -> mapM (finalize_entity Exact m nb q data) args = Ok outs ->
  Forall2 (fun e v => entity_is (dim m) e (vscale (rv q) (output m nb v))) outs vs.
Proof.
  intros Hn L Q0 Q1 F H. apply mapM_ok in H. revert outs H. induction F as [|x v args vs Fx F IH]; intros outs H; inversion_clear H as [|? e ? outs' H1 H2]; constructor; [|auto].
  unfold finalize_entity in H1. minv H1. rename v0 into y.
  assert (M : mv_means (valuation data) (dim m) y (output m nb v)).
  { unfold result_mv in E. unfold output. destruct nb.
    - rewrite <- (dim_N m) in E |- *. exact (null_means _ _ _ _ _ (Hn eq_refl) Fx E).
    - injection E as <-. exact Fx. }
  destruct M as (tx & P & MO & PR & DF & VV). destruct (entity_ok y q data tx e L P (proper_keep _ _ PR) Q0 Q1 H1) as [M1 M2].
  split; [rewrite M1; apply PR|]. split.
  - apply Forall_forall. intros p Hp. pose proof (pr_dim _ _ PR) as D. eapply in_dim_in; [exact D|]. rewrite <- M1. now apply in_map.
  - intros b. rewrite M2, MO, store_id, VV. reflexivity.
Qed.
Theorem engine_sound0 m nb ies inputs env l q outs t s : (nb = true -> 2 <= dim m) -> inputs_rep m nb ies inputs env -> bound inputs l ->
  num q <> 0%Z -> (0 < den q)%Z -> applicable m nb ies (list_sum (map (@length R) inputs)) l -> stores_on_top l ->
  neutral_temps m nb ies (list_sum (map (@length R) inputs)) l ->
  run m env l ([], []) (t, s) -> s <> [] -> compute Exact m nb ies inputs l q = Ok outs ->
  Forall2 (fun e v => entity_is (dim m) e (vscale (rv q) (output m nb v))) outs (rev s).
Proof.
  intros Hn IA BD Q0 Q1 AP TOP NT RUN NE H. unfold compute in H. set (cnt := list_sum (map (@length R) inputs)) in *.
  minv H. rename v into ins. destruct (AP ins E) as [FI LC]. minv H. rename v into st. specialize (LC st E0). unfold rpn_eval in E0.
  pose proof (inputs_fresh _ _ _ _ _ _ _ IA BD E) as F0. fold cnt in F0.
  assert (FR0 : fresh m (N.of_nat cnt) (mkrs ins [] [] (N.of_nat cnt))) by (split; [reflexivity|split; [constructor|exact F0]]).
  pose proof (fits_fresh m nb Hn l _ FI _ _ st (Nat.lt_succ_diag_r _) E0 TOP FR0) as (CH & _ & _).
  pose proof (chain_le m nb Hn _ _ _ CH) as LE.
  minv H. rename v into data. minv H. rename v into data'.
  rewrite repeat_app in E1. pose proof (fill_ok inputs [] (repeat 0%R (N.to_nat (r_cnt st - N.of_nat cnt))) (repeat 0%R cnt) (repeat_length _ _)) as FO.
  cbn [app length] in FO. rewrite FO in E1. injection E1 as <-.
  assert (LD : length (concat inputs ++ repeat 0%R (N.to_nat (r_cnt st - N.of_nat cnt))) <= N.to_nat ind_constant_start).
  { rewrite app_length, repeat_length. replace (length (concat inputs)) with cnt; [lia|]. unfold cnt. clear. induction inputs as [|d ds IH]; cbn; [reflexivity|].
    rewrite app_length. unfold list_sum in *. now rewrite IH. }
  assert (LCT : length (concat inputs) = cnt).
  { unfold cnt. clear. induction inputs as [|d ds IH]; cbn; [reflexivity|]. rewrite app_length. unfold list_sum in *. now rewrite IH. }
  assert (FT : same_below (N.of_nat cnt) (concat inputs ++ repeat 0%R (N.to_nat (r_cnt st - N.of_nat cnt))) data' /\ Forall (temp_holds (valuation data')) (r_temps st)).
  { eapply (finalize_ok m nb); eauto. }
  destruct FT as [SB TH].
  assert (IM : inputs_mean (valuation data') m nb env l ins).
  { eapply inputs_meant; eauto; [fold cnt; lia|]. fold cnt. intros j J. rewrite <- (Nat2N.id j). rewrite (proj2 SB) by lia. rewrite Nat2N.id. rewrite app_nth1 by lia. reflexivity. }
  destruct (fits_sound m nb env (valuation data') (valuation_pi data') (valuation_e data') Hn l _ FI _ st [] [] t s [] ins (Nat.lt_succ_diag_r _) E0 RUN) as (_ & ST & _).
  - constructor.
  - constructor.
  - exact TH.
  - now rewrite app_nil_r.
  - exact IM.
  - pose proof (Forall2_len _ _ _ ST) as LS. destruct (r_args st) as [|x args] eqn:EA; [destruct s; [contradiction|discriminate]|].
    eapply results_ok; [exact Hn| |exact Q0|exact Q1| |exact H].
    + rewrite (proj1 SB). exact LD.
    + apply Forall2_rev'. exact ST.
Qed.

(** ** algebraic programs are applicable *)
Lemma plain_fit dim n args : existsb (N.eqb (no n)) plain_ops = true -> no n <> op_se /\ must_store n = false /\ fit dim n args = true.
Proof.
  intros H. unfold fit. rewrite H. apply existsb_exists in H as (o & I & E). apply N.eqb_eq in E. unfold must_store. rewrite E.
  split; [intros ->; vm_compute in I; intuition discriminate|].
  repeat (destruct I as [<-|I]; [split; reflexivity|]). destruct I.
Qed.
Lemma algebraic_fits m nb l : forall f st st', forallb (algebraic_node (dim m)) l = true -> length l < f -> rpn_run Exact m nb f l st = Ok st' -> fits Exact m nb l st.
Proof.
  remember (length l) as k eqn:K. revert l K. induction k as [k IH] using lt_wf_ind. intros l -> f st st' A LF H.
  destruct f as [|f]; [lia|]. cbn [rpn_run] in H. destruct l as [|n l]; [constructor|]. cbn [forallb length] in *. apply andb_true_iff in A as [A1 A2].
  destruct (N.eqb_spec (no n) op_se) as [C|C].
  - destruct (Nat.ltb_spec (length l) (nex n)) as [L|L]; [discriminate|]. minv H. rename v into sub. minv H. rename v into st1.
    rewrite <- (firstn_skipn (nex n) l). assert (LB : length (firstn (nex n) l) = nex n) by (apply firstn_length_le; lia).
    rewrite <- (firstn_skipn (nex n) l), forallb_app in A2. apply andb_true_iff in A2 as [A3 A4].
    eapply fits_se.
    + exact C.
    + now rewrite LB.
    + unfold algebraic_node in A1. rewrite C in A1. codes A1. lia.
    + eapply (IH (length (firstn (nex n) l))); [lia|reflexivity|exact A3| |exact E]. lia.
    + rewrite <- E. apply run_fuel; lia.
    + exact E0.
    + eapply (IH (length (skipn (nex n) l))); [rewrite skipn_length; lia|reflexivity|exact A4| |exact H]. rewrite skipn_length. lia.
  - minv H. rename v into st1. assert (G : must_store n = false /\ fit (dim m) n (r_args st) = true).
    { unfold algebraic_node in A1. rewrite (proj2 (N.eqb_neq _ _) C) in A1. apply orb_true_iff in A1 as [A1|A1]; [now apply (plain_fit (dim m) n)|].
      apply andb_true_iff in A1 as [A3 A4]. unfold must_store, fit, is_fn.
      repeat match goal with |- context [(no n =? ?k)%N] => replace (no n =? k)%N with false by (symmetry; apply N.eqb_neq; intros X; rewrite X in A3; vm_compute in A3; discriminate A3) end. cbn [orb]. rewrite A3. auto. }
    destruct G as [G1 G2]. eapply fits_step; eauto. eapply (IH (length l)); [lia|reflexivity|exact A2| |exact H]. lia.
Qed.
Lemma algebraic_no_store dim l n : forallb (algebraic_node dim) l = true -> In n l -> no n <> op_noop.
Proof.
  intros A I E. rewrite forallb_forall in A. specialize (A n I). unfold algebraic_node in A. rewrite E in A. vm_compute in A. discriminate.
Qed.
Lemma bodies_in l : forall b k, In b (bodies l) -> In k b -> In k l.
Proof.
  induction l as [|x l IH]; cbn [bodies]; [intros b k []|]. intros b k. destruct (_ =? _)%N.
  - intros [<-|Ib] K; right; [|eauto]. rewrite <- (firstn_skipn (nex x) l). apply in_or_app. now left.
  - intros Ib K. right. eauto.
Qed.
Lemma no_store_neutral m nb ies cnt l : (nb = true -> forall n, In n l -> no n <> op_noop) -> neutral_temps m nb ies cnt l.
Proof. intros NN B ins st _ E. pose proof (run_cnt m nb _ _ _ _ _ (NN B) E) as [_ T0]. cbn [r_temps] in T0. rewrite T0. constructor. Qed.
Theorem engine_algebraic0 m nb ies inputs env l q outs t s : (nb = true -> 2 <= dim m) -> inputs_rep m nb ies inputs env -> bound inputs l ->
  num q <> 0%Z -> (0 < den q)%Z -> forallb (algebraic_node (dim m)) l = true -> list_sum (map (@length R) inputs) <= N.to_nat ind_constant_start ->
  run m env l ([], []) (t, s) -> s <> [] -> compute Exact m nb ies inputs l q = Ok outs ->
  Forall2 (fun e v => entity_is (dim m) e (vscale (rv q) (output m nb v))) outs (rev s).
Proof.
  intros Hn IA BD Q0 Q1 AL LC RUN NE H.
  assert (NN : forall n, In n l -> no n <> op_noop) by (intros n; now apply algebraic_no_store with (1 := AL)).
  eapply engine_sound0; eauto.
  - intros ins EI. unfold compute in H. rewrite EI in H. cbn [bind] in H. minv H. split.
    + eapply algebraic_fits; eauto.
    + intros st E'. pose proof (run_cnt m nb _ _ _ _ _ NN E') as [-> _]. cbn [r_cnt]. lia.
  - intros b k Ib Ik. apply NN. eapply bodies_in; eauto.
  - now apply no_store_neutral.
Qed.
