(** extract, Poincare dual, references, resize and division. *)
From Coq Require Import ZArith NArith List Bool Arith Lia ZifyBool ZifyN ZifyNat Reals Lra Sorting.Permutation Sorting.Sorted.
From Verif Require Import Base Model_Numeric Model_Blade Model_Sort Model_MV Model_Product Spec_Numeric Spec_Sort Spec_MV
  Proof_Numeric Proof_Sort Proof_SortMap Proof_Layout Proof_Sum Proof_Val Proof_Collate Proof_Product Proof_CollateVal
  Proof_ProductVal Proof_Ops.
Import ListNotations.
Local Open Scope nat_scope.

(** ** extract *)
Definition blade_of (v : vterm) : N := elem (fst v).
Lemma extract_skip md c e es vs w : Forall (fun v => (e < blade_of v)%N) vs ->
  extract_loop md c (e :: es) vs w = extract_loop md c es vs w.
Proof.
  intros H. destruct vs as [|v vs]; [destruct es; reflexivity|]. rewrite extract_loop_cons.
  inversion_clear H as [|? ? H1 _]. unfold blade_of in H1. now replace (e <? elem (fst v))%N with true by lia.
Qed.
Lemma s_extract_skip md e es ts : Forall (fun t : sterm => (e < fst t)%N) ts ->
  s_extract md (e :: es) ts = s_extract md es ts.
Proof.
  intros H. destruct ts as [|t ts]; [destruct es; reflexivity|]. rewrite s_extract_cons.
  inversion_clear H as [|? ? H1 _]. now replace (e <? fst t)%N with true by lia.
Qed.
Lemma s_push_shape md s e t t' : s_push md s e t = Ok t' -> fst t' = e /\ length (snd t') = length (snd t) /\
  ilen (snd t') = ilen (snd t).
Proof. unfold s_push. intros H. minv H. injection H as <-. apply smapq_shape in E as (A & B & _). unfold ilen. cbn [fst snd]. rewrite B. auto. Qed.
Lemma extract_loop_eq md c es : forall vs w, Forall vterm_ok vs -> StronglySorted N.lt (map blade_of vs) ->
  room c w (tilen (map sterm_of vs)) (tmlen (map sterm_of vs)) (length es) ->
  extract_loop md c es vs w = (t <- s_extract md es (map sterm_of vs);; Ok (ext_t w t)).
Proof.
  induction es as [|e es IHe]; intros vs w V S R0.
  { destruct vs; cbn; now rewrite ext_t_nil. }
  revert w R0. induction vs as [|v vs IHv]; intros w R0; [cbn; now rewrite ext_t_nil|].
  rewrite extract_loop_cons. cbn [map]. rewrite s_extract_cons. cbn [fst sterm_of].
  cbn [length] in R0.
  destruct (N.ltb_spec e (elem (fst v))) as [L|L].
  { rewrite (IHe (v :: vs) w V S) by (apply (room_le _ _ _ _ _ _ _ _ R0); lia). reflexivity. }
  inversion_clear V as [|? ? V1 V2]. cbn [map] in S. inversion_clear S as [|? ? S1 S2].
  cbn [map] in R0. rewrite tilen_cons, tmlen_cons in R0. cbn [snd sterm_of] in R0. rewrite map_length in R0.
  destruct (N.ltb_spec (elem (fst v)) e) as [L'|L'].
  { apply IHv; auto. apply (room_le _ _ _ _ _ _ _ _ R0); cbn [length]; lia. }
  rewrite push_ok by (first [exact V1|apply (room_le _ _ _ _ _ _ _ _ R0); cbn [snd sterm_of]; lia]).
  destruct (s_push md one e (sterm_of v)) as [a|] eqn:E; cbn [bind]; [|reflexivity].
  apply s_push_shape in E as (_ & A & B). cbn [snd sterm_of] in A, B. rewrite map_length in A.
  assert (G : Forall (fun v => (e < blade_of v)%N) vs).
  { apply Forall_forall. intros u Hu. rewrite Forall_forall in S2. specialize (S2 _ (in_map blade_of _ _ Hu)).
    unfold blade_of in *. lia. }
  rewrite extract_skip by assumption. rewrite s_extract_skip.
  2:{ clear - G. induction G; cbn; constructor; auto. }
  rewrite IHe; auto.
  2:{ apply room_ext_t. cbn [all_mons flat_map]. rewrite app_nil_r. unfold ilen in *. rewrite A, B. exact R0. }
  dsub; cbn [bind]; [now rewrite ext_t_app|reflexivity].
Qed.
Lemma view_blades ts : forall a b, map blade_of (view_terms a b ts) = map fst ts.
Proof. induction ts; cbn; intros; [reflexivity|]. now f_equal. Qed.
Lemma extract_eq md x ts es : packed x ts -> StronglySorted N.lt (map fst ts) ->
  extract md x es = (t <- s_extract md es ts;; Ok (pack (mkcaps (length (inds x)) (length (mons x)) (length es)) t)).
Proof.
  intros X S. pose proof (packed_caps _ _ X) as (A & B & C). unfold extract. rewrite (packed_read _ _ X). cbn [bind].
  rewrite extract_loop_eq; auto using view_terms_ok.
  - rewrite view_terms_sterm. destruct (s_extract md es ts); reflexivity.
  - now rewrite view_blades.
  - rewrite view_terms_sterm. unfold room. cbn. auto.
Qed.
Lemma val_absent rho ts b : ~ In b (map fst ts) -> val rho ts b = 0%R.
Proof.
  intros H. unfold val. apply Rsum_0. intros t Ht. destruct (N.eqb_spec (fst t) b) as [<-|]; [|reflexivity].
  destruct H. now apply in_map.
Qed.
Lemma s_extract_val rho es : forall ts t, StronglySorted N.lt es -> StronglySorted N.lt (map fst ts) -> mv_ok ts ->
  s_extract Exact es ts = Ok t ->
  (forall b, (In b es -> val rho t b = val rho ts b) /\ (~ In b es -> val rho t b = 0%R)) /\ mv_ok t.
Proof.
  induction es as [|e es IHe]; intros ts t Se St F H.
  { destruct ts; injection H as <-; (split; [intros b; split; [intros []|reflexivity]|constructor]). }
  revert t H. induction ts as [|a ts IHt]; intros t H.
  { injection H as <-. split; [intros b; split; reflexivity|constructor]. }
  rewrite s_extract_cons in H. inversion Se as [|? ? Se1 Se2]; subst. rewrite Forall_forall in Se2.
  pose proof St as St0. cbn in St. inversion_clear St as [|? ? St1 St2]. rewrite Forall_forall in St2.
  destruct (N.ltb_spec e (fst a)) as [L|L].
  { destruct (IHe (a :: ts) t Se1 St0 F H) as [V W]. split; [|assumption]. intros b. destruct (V b) as [V1 V2]. split.
    - intros [<-|I]; [|auto]. rewrite V2; [|intros I; specialize (Se2 _ I); lia].
      symmetry. apply val_absent. cbn. intros [E|I]; [lia|]. specialize (St2 _ I). lia.
    - intros NI. apply V2. intros I. apply NI. now right. }
  apply mv_ok_cons in F as [F1 F2].
  destruct (N.ltb_spec (fst a) e) as [L'|L'].
  { destruct (IHt St1 F2 _ H) as [V W]. split; [|assumption]. intros b. destruct (V b) as [V1 V2]. split; [|auto].
    intros I. rewrite (V1 I), val_cons. destruct (N.eqb_spec (fst a) b) as [E|]; [|ring].
    destruct I as [I|I]; [lia|]. specialize (Se2 _ I). lia. }
  repeat minv H. injection H as <-. apply (s_push_val rho) in E as (A & B & C); auto; [|cbn; lia].
  rewrite s_extract_skip in E0 by (apply Forall_forall; intros u Hu; specialize (St2 _ (in_map fst _ _ Hu)); lia).
  destruct (IHe ts _ Se1 St1 F2 E0) as [V W]. assert (EA : fst a = e) by lia.
  split; [|apply mv_ok_cons; auto]. intros b. destruct (V b) as [V1 V2]. rewrite !val_cons, A, B, rv_one, EA. split.
  - intros [<-|I].
    + rewrite N.eqb_refl. rewrite V2 by (intros I; specialize (Se2 _ I); lia).
      rewrite (val_absent rho ts e) by (intros I; specialize (St2 _ I); lia). ring.
    + rewrite (V1 I). specialize (Se2 _ I). replace (e =? b)%N with false by lia. ring.
  - intros NI. rewrite V2 by (intros I; apply NI; now right).
    destruct (N.eqb_spec e b) as [E|]; [exfalso; apply NI; now left|ring].
Qed.

(** ** Poincare dual *)
Definition s_dual_term (dim : N) (t : sterm) : res sterm :=
  let '(g, parity) := poincare_complement (fst t) dim in
  l <- smapq (rscale_int parity) (snd t);; Ok (g, l).
Definition s_dual_raw (dim : N) (ts : list sterm) : res (list sterm) := mapM (s_dual_term dim) ts.
Lemma dual_mon_ok c k w v nt : vmon_ok v -> room c w (length (snd v)) 1 nt ->
  dual_mon c k w v = (q <- rscale_int k (mq (fst v));; Ok (ext w [mks q (mdeg (fst v)) (snd v)])).
Proof.
  intros V R0. unfold dual_mon. destruct (rscale_int k (mq (fst v))) as [q|]; cbn [bind]; [|reflexivity].
  rewrite (put_mon_ok c w _ 0 (length (snd v)) nt) by exact R0. cbn [bind].
  destruct R0 as (A & B & C).
  rewrite (put_inds_ok c (snd v) _ 0 nt) by (repeat split; cbn; rewrite ?app_length; cbn; lia).
  unfold ext. cbn. now rewrite V, app_nil_r.
Qed.
Lemma dual_mons_ok c k vs : forall w nt, Forall vmon_ok vs -> room c w (ilen (map smon_of vs)) (length vs) nt ->
  dual_mons c k w vs = (t <- smapq (rscale_int k) (map smon_of vs);; Ok (ext w t)).
Proof.
  induction vs as [|v vs IH]; intros w nt V R0; cbn [dual_mons map].
  - cbn. now rewrite ext_nil.
  - inversion_clear V as [|? ? V1 V2]. cbn [map] in R0. rewrite ilen_cons in R0. cbn [length sinds smon_of] in R0.
    rewrite (dual_mon_ok c k w v nt) by (first [exact V1|apply (room_le _ _ _ _ _ _ _ _ R0); lia]).
    rewrite smapq_cons. cbn [sq smon_of]. destruct (rscale_int k (mq (fst v))) as [q|]; cbn [bind]; [|reflexivity].
    rewrite (IH _ nt V2). 2:{ apply room_ext. cbn [length]. unfold ilen at 1. cbn. rewrite app_nil_r. exact R0. }
    dsub; cbn [bind]; [now rewrite ext_app|reflexivity].
Qed.
Lemma dual_terms_eq c dim vs : forall w, Forall vterm_ok vs ->
  room c w (tilen (map sterm_of vs)) (tmlen (map sterm_of vs)) (length vs) ->
  dual_terms c dim w vs = (t <- s_dual_raw dim (map sterm_of vs);; Ok (ext_t w t)).
Proof.
  induction vs as [|v vs IH]; intros w V R0; cbn [dual_terms map].
  - cbn. now rewrite ext_t_nil.
  - inversion_clear V as [|? ? [V0 V1] V2]. cbn [map] in R0. rewrite tilen_cons, tmlen_cons in R0.
    cbn [length snd sterm_of] in R0. rewrite map_length in R0.
    unfold s_dual_raw. cbn [mapM]. unfold s_dual_term at 1. cbn [fst sterm_of].
    destruct (poincare_complement (elem (fst v)) dim) as [g k].
    rewrite (put_term_ok c w _ (length (snd v)) 0 0) by (apply (room_le _ _ _ _ _ _ _ _ R0); lia). cbn [bind].
    rewrite (dual_mons_ok c k (snd v) _ 0 V1).
    2:{ destruct R0 as (A & B & C). unfold room. cbn. rewrite ?app_length. cbn. lia. }
    cbn [snd sterm_of]. destruct (smapq (rscale_int k) (map smon_of (snd v))) as [l|] eqn:E; cbn [bind]; [|reflexivity].
    apply smapq_shape in E as (L & I & _). rewrite map_length in L.
    replace (ext _ l) with (ext_t w [(g, l)]) by (unfold ext, ext_t; cbn; rewrite !app_nil_r, V0, L; reflexivity).
    rewrite IH; auto.
    2:{ apply room_ext_t. cbn [all_mons flat_map snd]. rewrite app_nil_r. unfold ilen in *. rewrite I, L. exact R0. }
    fold (s_dual_raw dim (map sterm_of vs)). dsub; cbn [bind]; [now rewrite ext_t_app|reflexivity].
Qed.
Lemma s_dual_raw_shape dim ts : forall t, s_dual_raw dim ts = Ok t ->
  length t = length ts /\ tmlen t = tmlen ts /\ tilen t = tilen ts.
Proof.
  induction ts as [|a ts IH]; intros t H; unfold s_dual_raw in H; cbn [mapM] in H.
  - injection H as <-. auto.
  - repeat minv H. injection H as <-. apply IH in E0 as (A & B & C). unfold s_dual_term in E.
    destruct (poincare_complement (fst a) dim). minv E. injection E as <-. apply smapq_shape in E0 as (L & I & _).
    rewrite !tmlen_cons, !tilen_cons. cbn [snd length]. unfold ilen. rewrite I. lia.
Qed.
Definition s_dual (md : mode) (dim : N) (ts : list sterm) : res (list sterm) :=
  t <- s_dual_raw dim ts;; s_sort_collate md t.
Lemma poincare_dual_eq md dim x ts : packed x ts ->
  rr (fun z t => packed z t /\ same_caps z (caps_of x)) (poincare_dual md dim x) (s_dual md dim ts).
Proof.
  intros X. pose proof (packed_caps _ _ X) as (A & B & C). unfold poincare_dual, s_dual. rewrite (packed_read _ _ X). cbn [bind].
  rewrite dual_terms_eq; auto using view_terms_ok.
  2:{ rewrite view_terms_sterm, view_terms_length. unfold room. cbn. auto. }
  rewrite view_terms_sterm. destruct (s_dual_raw dim ts) as [t|] eqn:E; cbn [bind]; [|reflexivity].
  apply s_dual_raw_shape in E as (L1 & L2 & L3). destruct X as [_ _ _ _ Sm St]. rewrite Sm, St.
  unfold finish. cbn [mons terms inds wm wt wi ext_t wr0 app length]. unfold fill.
  fold (tmlen ts). rewrite <- L2. unfold tmlen.
  match goal with |- context [slice (lay_mons 0 (all_mons t) ++ ?r) 0 (length (all_mons t))] =>
    assert (SL : slice (lay_mons 0 (all_mons t) ++ r) 0 (length (all_mons t)) = Ok (lay_mons 0 (all_mons t)))
  end.
  { pose proof (fun r => slice_app [] (lay_mons 0 (all_mons t)) r) as SL. rewrite lay_mons_length in SL. apply SL. }
  rewrite SL.
  cbn [bind]. rewrite <- L1. apply sort_collate_eq.
  - rewrite L3. exact A.
  - rewrite L2. exact B.
  - rewrite L1. exact C.
Qed.
Definition sgn_dual (n a b : N) : R :=
  let '(g, k) := poincare_complement a n in if (g =? b)%N then IZR k else 0%R.
Lemma s_dual_raw_val rho n ts b : forall t, mv_ok ts -> s_dual_raw n ts = Ok t ->
  val rho t b = Rsum (map (fun t : sterm => mons_val rho (snd t) * sgn_dual n (fst t) b)%R ts) /\ mv_ok t.
Proof.
  induction ts as [|a ts IH]; intros t F H; unfold s_dual_raw in H; cbn [mapM] in H.
  - injection H as <-. split; [reflexivity|constructor].
  - repeat minv H. injection H as <-. apply mv_ok_cons in F as [F1 F2]. apply IH in E0 as [V W]; auto.
    unfold s_dual_term in E. cbn [map]. rewrite val_cons, V. unfold sgn_dual at 2.
    change (Rsum (?x :: ?y)) with (x + Rsum y)%R.
    destruct (poincare_complement (fst a) n) as [g k]. minv E. injection E as <-.
    apply (smapq_val rho _ (IZR k)) in E0 as [V1 W1]; auto using multiplies_int. cbn [fst snd].
    split; [|apply mv_ok_cons; auto]. rewrite V1. destruct (g =? b)%N; ring.
Qed.
Lemma pc_fst e n : fst (poincare_complement e n) = N.lxor (2 ^ n - 1) e.
Proof. reflexivity. Qed.
Lemma lxor_cancel a b c : N.lxor a b = N.lxor a c -> b = c.
Proof.
  intros H. apply (f_equal (N.lxor a)) in H. now rewrite <- !N.lxor_assoc, N.lxor_nilpotent, !N.lxor_0_l in H.
Qed.
Lemma s_dual_val rho dim ts t : mv_ok ts -> s_dual Exact dim ts = Ok t ->
  (forall e, val rho t (fst (poincare_complement e dim)) = (IZR (snd (poincare_complement e dim)) * val rho ts e)%R) /\ mv_ok t.
Proof.
  intros F H. unfold s_dual in H. minv H. rename v into r.
  pose proof (fun b => s_dual_raw_val rho dim ts b _ F E) as RV.
  destruct (RV 0%N) as [_ W].
  split; [|exact (proj2 (sc_val rho 0%N _ _ W H))].
  intros e. destruct (sc_val rho (fst (poincare_complement e dim)) _ _ W H) as [V _]. rewrite V.
  rewrite (proj1 (RV _)). unfold val. rewrite <- Rsum_mult_l. f_equal. apply map_ext. intros a.
  unfold sgn_dual. destruct (poincare_complement (fst a) dim) as [g k] eqn:P.
  assert (G : g = N.lxor (2 ^ dim - 1) (fst a)) by (change g with (fst (g, k)); rewrite <- P; apply pc_fst).
  rewrite pc_fst, G. destruct (N.eqb_spec (N.lxor (2 ^ dim - 1) (fst a)) (N.lxor (2 ^ dim - 1) e)) as [Q|Q].
  - apply lxor_cancel in Q. subst e. rewrite N.eqb_refl, P. cbn [snd]. ring.
  - destruct (N.eqb_spec (fst a) e) as [EE|]; [subst e; contradiction|ring].
Qed.
Lemma s_dual_raw_degs dim ts : forall t, s_dual_raw dim ts = Ok t ->
  (tdegs_ok ts -> tdegs_ok t) /\ map fst t = map (fun e => fst (poincare_complement e dim)) (map fst ts) /\
  keys_in (all_mons t) (all_mons ts).
Proof.
  induction ts as [|a ts IH]; intros t H; unfold s_dual_raw in H; cbn [mapM] in H.
  - injection H as <-. repeat split; auto. intros m [].
  - minv H. rename v into ta. minv H. rename v into tr. injection H as <-. apply IH in E0 as (A & B & C). unfold s_dual_term in E.
    destruct (poincare_complement (fst a) dim) as [g k] eqn:P. destruct (smapq (rscale_int k) (snd a)) as [l|] eqn:Q; cbn [bind] in E; [|discriminate]. injection E as <-.
    pose proof (smapq_shape _ _ _ Q) as (L & _ & D & I).
    assert (K : keys_in l (snd a)).
    { clear - D I L. intros m Hm. destruct (In_nth _ _ m Hm) as (i & Hi & Ei).
      exists (nth i (snd a) m). split; [apply nth_In; lia|].
      split.
      - rewrite <- (map_nth sdeg (snd a)), <- D, map_nth. now rewrite Ei.
      - rewrite <- (map_nth sinds (snd a)), <- I, map_nth. now rewrite Ei. }
    split; [|split].
    + intros T. inversion_clear T as [|? ? T1 T2]. constructor; [|exact (A T2)]. cbn [snd]. exact (keys_in_degs _ _ K T1).
    + cbn [map fst]. rewrite P, B. reflexivity.
    + intros m Hm. change (all_mons ((g, l) :: tr)) with (l ++ all_mons tr) in Hm.
      change (all_mons (a :: ts)) with (snd a ++ all_mons ts).
      apply in_app_or in Hm as [Hm|Hm].
      * destruct (K m Hm) as (z & Iz & Ez). exists z. split; [apply in_or_app; now left|assumption].
      * destruct (C m Hm) as (z & Iz & Ez). exists z. split; [apply in_or_app; now right|assumption].
Qed.
Lemma s_dual_canon md dim ts t : tdegs_ok ts -> s_dual md dim ts = Ok t ->
  canonical t /\ tdegs_ok t /\ keys_in (all_mons t) (all_mons ts) /\
  (forall e, In e (map fst t) -> exists a, In a (map fst ts) /\ e = fst (poincare_complement a dim)).
Proof.
  intros F H. unfold s_dual in H. minv H. apply s_dual_raw_degs in E as (A & B & C).
  apply sc_canon in H as (D & G & I & K); auto. repeat split; auto; try apply D.
  - intros m Hm. destruct (K m Hm) as (z & Iz & Ez). destruct (C z Iz) as (y & Iy & Ey). exists y. split; [assumption|].
    destruct Ez, Ey. split; congruence.
  - intros e He. apply I in He. rewrite B in He. apply in_map_iff in He as (a & Ea & Ia). eauto.
Qed.

(** ** Change of basis *)
Fixpoint s_dist md (d : N -> dest) (ts : list sterm) : res (list sterm * list sterm) :=
  match ts with
  | [] => Ok ([], [])
  | t :: ts' =>
    match d (fst t) with
    | Keep => a <- s_push md one (fst t) t;; p <- s_dist md d ts';; Ok (a :: fst p, snd p)
    | Split q1 e1 q2 e2 =>
      a <- s_push md q1 e1 t;; b <- s_push md q2 e2 t;; p <- s_dist md d ts';; Ok (fst p, a :: b :: snd p)
    end
  end.
Lemma s_dist_shape md d ts : forall p, s_dist md d ts = Ok p ->
  tilen (fst p) <= tilen ts /\ tmlen (fst p) <= tmlen ts /\ length (fst p) <= length ts /\
  tilen (snd p) <= 2 * tilen ts /\ tmlen (snd p) <= 2 * tmlen ts /\ length (snd p) <= 2 * length ts.
Proof.
  induction ts as [|t ts IH]; intros p H; cbn [s_dist] in H.
  - injection H as <-. cbn. lia.
  - destruct (d (fst t)).
    + repeat minv H. injection H as <-. apply IH in E0. apply s_push_shape in E as (_ & A & B).
      cbn [fst snd]. rewrite !tilen_cons, !tmlen_cons. cbn [length]. lia.
    + repeat minv H. injection H as <-. apply IH in E1. apply s_push_shape in E as (_ & A & B).
      apply s_push_shape in E0 as (_ & A' & B'). cbn [fst snd]. rewrite !tilen_cons, !tmlen_cons. cbn [length]. lia.
Qed.
Lemma distribute_eq md d c c2 vs : forall lhs temp, Forall vterm_ok vs ->
  room c lhs (tilen (map sterm_of vs)) (tmlen (map sterm_of vs)) (length vs) ->
  room c2 temp (2 * tilen (map sterm_of vs)) (2 * tmlen (map sterm_of vs)) (2 * length vs) ->
  distribute md d c c2 vs lhs temp =
  (p <- s_dist md d (map sterm_of vs);; Ok (ext_t lhs (fst p), ext_t temp (snd p))).
Proof.
  induction vs as [|v vs IH]; intros lhs temp V R1 R2; cbn [distribute map s_dist].
  - cbn. now rewrite !ext_t_nil.
  - inversion_clear V as [|? ? V1 V2]. cbn [map] in R1, R2. rewrite tilen_cons, tmlen_cons in R1, R2.
    cbn [length snd sterm_of] in R1, R2. rewrite map_length in R1, R2. cbn [fst sterm_of].
    destruct (d (elem (fst v))).
    + rewrite push_ok by (first [exact V1|apply (room_le _ _ _ _ _ _ _ _ R1); cbn [snd sterm_of]; lia]).
      fold (sterm_of v).
      destruct (s_push md one (elem (fst v)) (sterm_of v)) as [a|] eqn:E; cbn [bind]; [|reflexivity].
      apply s_push_shape in E as (_ & A & B). cbn [snd sterm_of] in A, B. rewrite map_length in A.
      rewrite IH; auto.
      * dsub; cbn [bind fst snd]; [now rewrite ext_t_app|reflexivity].
      * apply room_ext_t. cbn [all_mons flat_map]. rewrite app_nil_r. unfold ilen in *. rewrite A, B. exact R1.
      * apply (room_le _ _ _ _ _ _ _ _ R2); lia.
    + rewrite push_ok by (first [exact V1|apply (room_le _ _ _ _ _ _ _ _ R2); cbn [snd sterm_of]; lia]).
      fold (sterm_of v).
      destruct (s_push md q1 e1 (sterm_of v)) as [a|] eqn:E; cbn [bind]; [|reflexivity].
      apply s_push_shape in E as (_ & A & B). cbn [snd sterm_of] in A, B. rewrite map_length in A.
      assert (R3 : room c2 (ext_t temp [a]) (ilen (map smon_of (snd v)) + 2 * tilen (map sterm_of vs))
         (length (snd v) + 2 * tmlen (map sterm_of vs)) (1 + 2 * length vs)).
      { apply room_ext_t. cbn [all_mons flat_map]. rewrite app_nil_r. unfold ilen in *. rewrite A, B.
        apply (room_le _ _ _ _ _ _ _ _ R2); cbn [length]; lia. }
      rewrite push_ok by (first [exact V1|apply (room_le _ _ _ _ _ _ _ _ R3); cbn [snd sterm_of]; lia]).
      destruct (s_push md q2 e2 (sterm_of v)) as [a'|] eqn:E'; cbn [bind]; [|reflexivity].
      apply s_push_shape in E' as (_ & A' & B'). cbn [snd sterm_of] in A', B'. rewrite map_length in A'.
      rewrite IH; auto.
      * dsub; cbn [bind fst snd]; [now rewrite !ext_t_app|reflexivity].
      * apply (room_le _ _ _ _ _ _ _ _ R1); lia.
      * apply room_ext_t. cbn [all_mons flat_map]. rewrite app_nil_r. unfold ilen in *. rewrite A', B'.
        apply (room_le _ _ _ _ _ _ _ _ R3); cbn [length]; lia.
Qed.
Definition s_change md (d : N -> dest) (ts : list sterm) : res (list sterm) :=
  p <- s_dist md d ts;; r <- s_sort_collate md (snd p);; ss_terms md (fst p) r.
Lemma change_basis_eq md d x ts : packed x ts ->
  rr (fun z t => packed z t) (change_basis md d x) (s_change md d ts).
Proof.
  intros X. pose proof (packed_caps _ _ X) as (A & B & C). unfold change_basis, s_change. rewrite (packed_read _ _ X). cbn [bind].
  rewrite distribute_eq; auto using view_terms_ok.
  2:{ rewrite view_terms_sterm, view_terms_length. unfold room. cbn. auto. }
  2:{ rewrite view_terms_sterm, view_terms_length. unfold room. cbn [wr0 wi wm wt ci cm ct caps_of length]. unfold tilen, tmlen, ilen in *. lia. }
  rewrite view_terms_sterm. destruct (s_dist md d ts) as [[l r]|] eqn:E; cbn [bind fst snd]; [|reflexivity].
  apply s_dist_shape in E as (_ & _ & _ & A2 & B2 & C2). cbn [fst snd] in *.
  set (c := caps_of x). set (c2 := mkcaps (2 * ci c) (2 * cm c) (2 * ct c)).
  pose proof (sort_collate_eq md c2 r [] []) as SC. rewrite !app_nil_r in SC.
  specialize (SC ltac:(cbn [c2 c ci caps_of]; unfold tilen, tmlen, ilen in *; lia) ltac:(cbn [c2 c cm caps_of]; unfold tilen, tmlen, ilen in *; lia) ltac:(cbn [c2 c ct caps_of]; lia)).
  change (finish c (ext_t wr0 l)) with (pack c l).
  cbn [ext_t wr0 wt wm wi app length] in *. rewrite lay_terms_length.
  destruct (sort_terms r []) as (raw & Er & PM & _). rewrite !app_nil_r in Er. rewrite Er in SC |- *. cbn [bind] in *.
  rewrite <- (lay_terms_length r 0), (Permutation_length PM), slice_all in SC. cbn [bind] in SC.
  eapply rr_bind; [exact SC|]. intros y t [P _]. cbn beta.
  rewrite (sum_eq md _ _ _ _ (pack_packed c l) P). destruct (ss_terms md l t); cbn; [apply pack_packed|reflexivity].
Qed.
