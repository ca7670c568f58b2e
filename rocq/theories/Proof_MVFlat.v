(** The multivector theorems stated for the flat arrays. *)
From Coq Require Import ZArith NArith List Bool Arith Lia ZifyBool ZifyN ZifyNat Reals Lra Sorting.Sorted Sorting.Permutation.
From Verif Require Import Base Model_Numeric Model_Blade Model_Sort Model_MV Model_Product Spec_Numeric Spec_Sort Spec_Clifford Spec_Basis
  Proof_Numeric Proof_Gens Proof_Blade Proof_Blade2 Proof_Blade3 Proof_Blade4 Spec_MV
  Proof_Sort Proof_SortMap Proof_Layout Proof_Sum Proof_Val Proof_Collate Proof_Product Proof_CollateVal
  Proof_ProductVal Proof_Ops Proof_Ops2 Proof_Basis Proof_Ops3 Proof_Div Proof_Safe Proof_Poly Proof_Proper Proof_MVAlg.
Import ListNotations.
Local Open Scope nat_scope.

Section F.
Context (x y z : mv) (tx ty : list sterm) (X : packed x tx) (Y : packed y ty).
Local Notation ok1 rhs := (mv_ok tx -> exists tz, packed z tz /\ mv_ok tz /\ forall rho b, val rho tz b = rhs rho b).

Lemma f_sum_val : mv_ok tx -> mv_ok ty -> sum Exact x y = Ok z ->
  exists tz, packed z tz /\ mv_ok tz /\ forall rho b, val rho tz b = (val rho tx b + val rho ty b)%R.
Proof.
  intros A B H. destruct (sum_flat _ _ _ _ _ _ X Y H) as (t & E & Z). exists t. split; [assumption|].
  split; [exact (proj2 (ss_terms_val (fun _ => 0%R) 0%N tx ty t A B E))|]. intros rho b. exact (proj1 (ss_terms_val rho b tx ty t A B E)).
Qed.
Lemma f_sum_canon md : mv_ok tx -> mv_ok ty -> canonical tx -> canonical ty -> sum md x y = Ok z ->
  exists tz, packed z tz /\ canonical tz.
Proof.
  intros A B C D H. destruct (sum_flat _ _ _ _ _ _ X Y H) as (t & E & Z). exists t. split; [assumption|].
  eapply ss_terms_canon; [..|exact E]; auto using mv_ok_tdegs.
Qed.
Lemma f_sum_safe md : memory_safe (sum md x y).
Proof.
  rewrite (sum_eq md x y tx ty X Y). apply safe_bind; [apply safe_ss_terms|]. intros. apply safe_ok.
Qed.
Lemma f_product_val P n : mv_ok tx -> mv_ok ty -> in_dim n tx -> in_dim n ty -> product Exact P x y = Ok z ->
  exists tz, packed z tz /\ mv_ok tz /\
    forall rho, defined rho tx -> defined rho ty -> defined rho tz /\ forall c, val rho tz c = bilinear P n (val rho tx) (val rho ty) c.
Proof.
  intros A B C D H. destruct (product_flat _ _ _ _ _ _ _ X Y H) as (t & E & Z). exists t. split; [assumption|].
  assert (N0 : forall ts, defined (fun _ => 1%R) ts) by (intros ts m i _ _; left; apply R1_neq_R0).
  split; [exact (proj1 (proj2 (s_product_val P (fun _ => 1%R) n 0%N tx ty t A B (N0 _) (N0 _) C D E)))|].
  intros rho D1 D2. split; [exact (proj2 (proj2 (s_product_val P rho n 0%N tx ty t A B D1 D2 C D E)))|].
  intros c. exact (proj1 (s_product_val P rho n c tx ty t A B D1 D2 C D E)).
Qed.
Lemma f_product_canon md P : mv_ok tx -> mv_ok ty -> product md P x y = Ok z ->
  exists tz, packed z tz /\ canonical tz /\
    (Forall mon_sorted (all_mons tx) -> Forall mon_sorted (all_mons ty) -> Forall mon_sorted (all_mons tz)).
Proof.
  intros A B H. destruct (product_flat _ _ _ _ _ _ _ X Y H) as (t & E & Z). exists t. split; [assumption|].
  destruct (s_product_canon P md tx ty t (mv_ok_tdegs _ A) (mv_ok_tdegs _ B) E) as (C1 & _ & C3 & _). auto.
Qed.
Lemma f_product_safe md P : memory_safe (product md P x y).
Proof. eapply safe_rr; [exact (product_eq md P x y tx ty X Y)|apply safe_product]. Qed.
Lemma f_negate_val : mv_ok tx -> negate x = Ok z ->
  exists tz, packed z tz /\ mv_ok tz /\ forall rho b, val rho tz b = (- val rho tx b)%R.
Proof.
  intros A H. destruct (negate_flat _ _ _ X H) as (t & E & Z). exists t. split; [assumption|].
  split; [exact (proj2 (negate_val (fun _ => 0%R) tx t 0%N A E))|]. intros rho b. exact (proj1 (negate_val rho tx t b A E)).
Qed.
Lemma f_reverse_val : mv_ok tx -> reverse x = Ok z ->
  exists tz, packed z tz /\ mv_ok tz /\ forall rho b, val rho tz b = (IZR (rev_sign (grade b)) * val rho tx b)%R.
Proof.
  intros A H. destruct (reverse_flat _ _ _ X H) as (t & E & Z). exists t. split; [assumption|].
  split; [exact (proj2 (reverse_val (fun _ => 0%R) tx t 0%N A E))|]. intros rho b. exact (proj1 (reverse_val rho tx t b A E)).
Qed.
Lemma f_scale_val q : den q <> 0%Z -> mv_ok tx -> scale Exact q x = Ok z ->
  exists tz, packed z tz /\ mv_ok tz /\ forall rho b, val rho tz b = (rv q * val rho tx b)%R.
Proof.
  intros D A H. destruct (scale_flat _ _ _ _ _ X H) as (t & E & Z). exists t. split; [assumption|].
  split; [exact (proj2 (scale_val (fun _ => 0%R) q tx t 0%N D A E))|]. intros rho b. exact (proj1 (scale_val rho q tx t b D A E)).
Qed.
Lemma f_shift_val q : den q <> 0%Z -> mv_ok tx -> shift Exact q x = Ok z ->
  exists tz, packed z tz /\ mv_ok tz /\ forall rho b, val rho tz b = (val rho tx b + (if (b =? 0)%N then rv q else 0))%R.
Proof.
  intros D A H. rewrite (shift_eq Exact q x tx X) in H. destruct (ss_terms Exact tx _) as [t|] eqn:E; cbn [bind] in H; [|discriminate].
  injection H as <-. exists t. split; [apply pack_packed|].
  split; [exact (proj2 (shift_val (fun _ => 0%R) q tx t 0%N D A E))|]. intros rho b. exact (proj1 (shift_val rho q tx t b D A E)).
Qed.
Lemma f_unary_safe md q : memory_safe (negate x) /\ memory_safe (reverse x) /\ memory_safe (scale md q x) /\ memory_safe (shift md q x).
Proof.
  repeat split.
  - eapply safe_rr; [exact (negate_eq x tx X)|]. apply safe_mapt. intros e g p E. injection E as <-. apply safe_rneg.
  - eapply safe_rr; [exact (reverse_eq x tx X)|]. apply safe_mapt. intros e g p E. destruct (reverse_negates e); [|discriminate].
    injection E as <-. apply safe_rneg.
  - eapply safe_rr; [exact (scale_eq md q x tx X)|]. apply safe_mapt. intros e g p E. injection E as <-. apply safe_rmul.
  - rewrite (shift_eq md q x tx X). apply safe_bind; [apply safe_ss_terms|]. intros. apply safe_ok.
Qed.
Lemma f_negate_canon : canonical tx -> negate x = Ok z -> exists tz, packed z tz /\ canonical tz.
Proof.
  intros C H. destruct (negate_flat _ _ _ X H) as (t & E & Z). exists t. split; [assumption|].
  eapply s_mapt_canon; [|exact C|exact E]. intros e g G. cbn beta in G. injection G as <-. apply rneg_keeps.
Qed.
Lemma f_reverse_canon : canonical tx -> reverse x = Ok z -> exists tz, packed z tz /\ canonical tz.
Proof.
  intros C H. destruct (reverse_flat _ _ _ X H) as (t & E & Z). exists t. split; [assumption|].
  eapply s_mapt_canon; [|exact C|exact E]. intros e g G. cbn beta in G. destruct (reverse_negates e); [|discriminate]. injection G as <-. apply rneg_keeps.
Qed.
Lemma f_scale_canon q : num q <> 0%Z -> canonical tx -> scale Exact q x = Ok z -> exists tz, packed z tz /\ canonical tz.
Proof.
  intros Q C H. destruct (scale_flat _ _ _ _ _ X H) as (t & E & Z). exists t. split; [assumption|].
  eapply s_mapt_canon; [|exact C|exact E]. intros e g G. cbn beta in G. injection G as <-. now apply rmul_keeps.
Qed.
Lemma f_dual_val dim : mv_ok tx -> poincare_dual Exact dim x = Ok z ->
  exists tz, packed z tz /\ mv_ok tz /\ canonical tz /\
    forall rho e, val rho tz (fst (poincare_complement e dim)) = (IZR (snd (poincare_complement e dim)) * val rho tx e)%R.
Proof.
  intros A H. destruct (dual_flat _ _ _ _ _ X H) as (t & E & Z). exists t. split; [assumption|].
  split; [exact (proj2 (s_dual_val (fun _ => 0%R) dim tx t A E))|].
  split; [exact (proj1 (s_dual_canon Exact dim tx t (mv_ok_tdegs _ A) E))|].
  intros rho. exact (proj1 (s_dual_val rho dim tx t A E)).
Qed.
Lemma f_dual_safe md dim : memory_safe (poincare_dual md dim x).
Proof. eapply safe_rr; [exact (poincare_dual_eq md dim x tx X)|apply safe_dual]. Qed.
Lemma f_component_val e : canonical tx -> mv_ok tx -> component Exact x e = Ok z ->
  exists tz, packed z tz /\ mv_ok tz /\ forall rho b, val rho tz b = if (b =? 0)%N then val rho tx e else 0%R.
Proof.
  intros [C _] A H. rewrite (component_eq Exact x tx e X) in H. destruct (s_find Exact e tx) as [t|] eqn:E; cbn [bind] in H; [|discriminate].
  injection H as <-. exists t. split; [apply pack_packed|].
  split; [exact (proj2 (s_find_val (fun _ => 0%R) e tx C t A E))|]. intros rho. exact (proj1 (s_find_val rho e tx C t A E)).
Qed.
Lemma f_extract_val es : canonical tx -> mv_ok tx -> StronglySorted N.lt es -> extract Exact x es = Ok z ->
  exists tz, packed z tz /\ mv_ok tz /\
    forall rho b, (In b es -> val rho tz b = val rho tx b) /\ (~ In b es -> val rho tz b = 0%R).
Proof.
  intros [C _] A S0 H. rewrite (extract_eq Exact x tx es X C) in H. destruct (s_extract Exact es tx) as [t|] eqn:E; cbn [bind] in H; [|discriminate].
  injection H as <-. exists t. split; [apply pack_packed|].
  split; [exact (proj2 (s_extract_val (fun _ => 0%R) es tx t S0 C A E))|]. intros rho. exact (proj1 (s_extract_val rho es tx t S0 C A E)).
Qed.
Lemma f_grade_val g : grade_reachable g (map fst tx) ->
  exists z' tz, select_grade x g = Ok z' /\ packed z' tz /\ forall rho b, val rho tz b = if (pop_count b =? g)%N then val rho tx b else 0%R.
Proof.
  intros G. exists (pack (caps_of x) (s_grade g tx)), (s_grade g tx). split; [exact (select_grade_eq x tx g X)|].
  split; [apply pack_packed|]. intros rho b. now apply s_grade_val.
Qed.
Lemma f_select_safe md e es g : memory_safe (component md x e) /\ memory_safe (select_grade x g) /\
  (canonical tx -> memory_safe (extract md x es)).
Proof.
  repeat split.
  - rewrite (component_eq md x tx e X). apply safe_bind; [apply safe_find|]. intros. apply safe_ok.
  - rewrite (select_grade_eq x tx g X). apply safe_ok.
  - intros [C _]. rewrite (extract_eq md x tx es X C). apply safe_bind; [apply safe_extract|]. intros. apply safe_ok.
Qed.
Lemma f_change_safe md d : memory_safe (change_basis md d x).
Proof. eapply safe_rr; [exact (change_basis_eq md d x tx X)|apply safe_change]. Qed.
End F.

(** ** change of basis *)
Section Basis.
Context (n : nat) (n2 : 2 <= n).
Let dim := N.of_nat n.
Lemma natural_pos : dest_pos (natural_dest dim).
Proof. intros a. unfold natural_dest. repeat match goal with |- context [if ?b then _ else _] => destruct b end; cbn; lia. Qed.
Lemma null_pos : dest_pos (null_dest dim).
Proof. intros a. unfold null_dest. repeat match goal with |- context [if ?b then _ else _] => destruct b end; cbn; lia. Qed.
Lemma s_round d d' tx t t' : dest_ok d -> dest_ok d' -> dest_pos d -> dest_pos d' ->
  (forall a, (a < 2 ^ dim)%N -> in_n n (dcomb d a)) -> (forall a, (a < 2 ^ dim)%N -> in_n n (dcomb d' a)) ->
  (forall a c, (a < 2 ^ dim)%N -> linear n (dmat d') (dmat d a) c = delta a c) ->
  proper n tx -> s_change Exact d tx = Ok t -> s_change Exact d' t = Ok t' -> t' = tx.
Proof.
  intros D D' Q Q' I I' INV X H H'. pose proof (change_proper d n tx t D Q I X H) as PT. pose proof (change_proper d' n t t' D' Q' I' PT H') as PT'.
  apply (values_identify n n); auto. intros rho _ b. destruct (N.ltb_spec b (2 ^ dim)) as [L|L].
  - exact (round_trip n rho d d' tx t t' b D D' (pr_ok _ _ X) (pr_dim _ _ X) (pr_dim _ _ PT) INV H H' L).
  - assert (O : forall ts, in_dim n ts -> val rho ts b = 0%R).
    { intros ts HD. apply val_absent. intros HI. pose proof (in_dim_in n ts b HD HI). unfold dim in L. lia. }
    rewrite (O _ (pr_dim _ _ PT')), (O _ (pr_dim _ _ X)). reflexivity.
Qed.
Lemma f_natural_val x z tx : packed x tx -> mv_ok tx -> in_dim n tx -> to_natural_basis Exact dim x = Ok z ->
  exists tz, packed z tz /\ mv_ok tz /\ in_dim n tz /\ forall rho b, (b < 2 ^ dim)%N ->
    val rho tz b = linear n (outermorphism n (null_to_natural n)) (val rho tx) b.
Proof.
  intros X A I H. destruct (change_flat _ _ _ _ _ X H) as (t & E & Z). exists t. split; [assumption|].
  assert (P0 : (0 < 2 ^ dim)%N) by (apply N.neq_0_lt_0, N.pow_nonzero; lia).
  split; [exact (proj2 (s_natural_val n n2 (fun _ => 0%R) tx t 0%N A I E P0))|].
  split; [eapply s_change_dim; [apply (natural_dim n n2)|exact I|now apply mv_ok_tdegs|exact E]|].
  intros rho b Hb. exact (proj1 (s_natural_val n n2 rho tx t b A I E Hb)).
Qed.
Lemma f_null_val x z tx : packed x tx -> mv_ok tx -> in_dim n tx -> to_null_basis Exact dim x = Ok z ->
  exists tz, packed z tz /\ mv_ok tz /\ in_dim n tz /\ forall rho b, (b < 2 ^ dim)%N ->
    val rho tz b = linear n (outermorphism n (natural_to_null n)) (val rho tx) b.
Proof.
  intros X A I H. destruct (change_flat _ _ _ _ _ X H) as (t & E & Z). exists t. split; [assumption|].
  assert (P0 : (0 < 2 ^ dim)%N) by (apply N.neq_0_lt_0, N.pow_nonzero; lia).
  split; [exact (proj2 (s_null_val n n2 (fun _ => 0%R) tx t 0%N A I E P0))|].
  split; [eapply s_change_dim; [apply (null_dim n n2)|exact I|now apply mv_ok_tdegs|exact E]|].
  intros rho b Hb. exact (proj1 (s_null_val n n2 rho tx t b A I E Hb)).
Qed.
Lemma f_null_natural x y z tx : packed x tx -> proper n tx -> to_null_basis Exact dim x = Ok y -> to_natural_basis Exact dim y = Ok z -> packed z tx.
Proof.
  intros X A H H'. destruct (change_flat _ _ _ _ _ X H) as (t & E & Z). destruct (change_flat _ _ _ _ _ Z H') as (t' & E' & Z').
  rewrite <- (s_round _ _ _ _ _ (null_ok n n2) (natural_ok n n2) null_pos natural_pos (null_dim n n2) (natural_dim n n2) (null_natural n n2) A E E'). exact Z'.
Qed.
Lemma f_natural_null x y z tx : packed x tx -> proper n tx -> to_natural_basis Exact dim x = Ok y -> to_null_basis Exact dim y = Ok z -> packed z tx.
Proof.
  intros X A H H'. destruct (change_flat _ _ _ _ _ X H) as (t & E & Z). destruct (change_flat _ _ _ _ _ Z H') as (t' & E' & Z').
  rewrite <- (s_round _ _ _ _ _ (natural_ok n n2) (null_ok n n2) natural_pos null_pos (natural_dim n n2) (null_dim n n2) (natural_null n n2) A E E'). exact Z'.
Qed.
End Basis.

(** ** division *)
Lemma f_divide_const x y z tx q m r : packed x tx -> mv_ok tx -> inds y = [] -> mons y = m :: r -> terms y <> [] ->
  den q <> 0%Z -> den (mq m) <> 0%Z -> num (mq m) <> 0%Z -> divide Exact x y q = Ok z ->
  exists tz, packed z tz /\ mv_ok tz /\ forall rho b, val rho tz b = (rv q * val rho tx b / rv (mq m))%R.
Proof.
  intros X A I M T D1 D2 D3 H. destruct (rr_ok _ _ _ _ (divide_const_eq Exact x y q m tx X I (ex_intro _ r M) T) H) as (t & E & Z & _).
  exists t. split; [assumption|]. split; [exact (proj2 (divide_const_val (fun _ => 0%R) q m tx t 0%N D1 D2 D3 A E))|].
  intros rho b. exact (proj1 (divide_const_val rho q m tx t b D1 D2 D3 A E)).
Qed.
Lemma f_divide_ind x y z tx q m r d : packed x tx -> mv_ok tx -> inds y = [d] -> mons y = m :: r -> terms y <> [] ->
  (forall s i, In s (all_mons tx) -> In i (sinds s) -> id i <> id d) -> integral (ideg d) ->
  den q <> 0%Z -> den (mq m) <> 0%Z -> num (mq m) <> 0%Z -> divide Exact x y q = Ok z ->
  exists tz, packed z tz /\ mv_ok tz /\
    forall rho b, rho (id d) <> 0%R -> val rho tz b = (rv q * val rho tx b / (rv (mq m) * dpow (rho (id d)) (ideg d)))%R.
Proof.
  intros X A I M T FR DI D1 D2 D3 H.
  assert (F : free_of (id d) tx).
  { unfold free_of. apply Forall_forall. intros s Hs. unfold absent. intros HI. apply in_map_iff in HI. destruct HI as (i & Ei & Hi). exact (FR s i Hs Hi Ei). }
  destruct (rr_ok _ _ _ _ (divide_ind_eq Exact x y q m d tx X I (ex_intro _ r M) T F) H) as (t & E & Z).
  exists t. split; [assumption|]. split; [exact (proj2 (s_divide_val (fun _ => 1%R) q d (mq m) tx t 0%N D1 DI D2 D3 A R1_neq_R0 E))|].
  intros rho b R0. exact (proj1 (s_divide_val rho q d (mq m) tx t b D1 DI D2 D3 A R0 E)).
Qed.

(** ** laws *)
Section Laws.
Context (n : nat) (x y z : mv) (tx ty tz : list sterm) (X : packed x tx) (Y : packed y ty) (ZZ : packed z tz)
  (PX : proper n tx) (PY : proper n ty) (PZ : proper n tz).
Lemma f_sum_neg md w a : mv_ok tx -> negate x = Ok w -> sum md x w = Ok a -> packed a [].
Proof using X.
  intros A H H'. destruct (negate_flat _ _ _ X H) as (t & E & W). destruct (sum_flat _ _ _ _ _ _ X W H') as (t' & E' & W').
  now rewrite (s_sum_neg md tx t t' (mv_ok_tdegs _ A) E E') in W'.
Qed.
Lemma f_identify m : proper m ty -> (forall rho, (forall i, (0 < rho i)%R) -> forall b, val rho tx b = val rho ty b) ->
  exists t, packed x t /\ packed y t.
Proof using X Y PX. intros P V. pose proof (values_identify n m tx ty PX P V) as E. exists tx. split; [assumption|]. now rewrite E. Qed.
Lemma f_sum_comm a b : sum Exact x y = Ok a -> sum Exact y x = Ok b -> exists t, packed a t /\ packed b t /\ proper n t.
Proof using X Y PX PY.
  intros A B. destruct (sum_flat _ _ _ _ _ _ X Y A) as (t & E & W). destruct (sum_flat _ _ _ _ _ _ Y X B) as (t' & E' & W').
  pose proof (s_sum_comm n tx ty t t' PX PY E E'). subst t'. exists t. split; [assumption|]. split; [assumption|]. exact (sum_proper n _ _ _ PX PY E).
Qed.
Lemma f_sum_assoc xy l yz r : sum Exact x y = Ok xy -> sum Exact xy z = Ok l -> sum Exact y z = Ok yz -> sum Exact x yz = Ok r ->
  exists t, packed l t /\ packed r t /\ proper n t.
Proof using All.
  intros A B C D. destruct (sum_flat _ _ _ _ _ _ X Y A) as (t1 & E1 & W1). destruct (sum_flat _ _ _ _ _ _ W1 ZZ B) as (t2 & E2 & W2).
  destruct (sum_flat _ _ _ _ _ _ Y ZZ C) as (t3 & E3 & W3). destruct (sum_flat _ _ _ _ _ _ X W3 D) as (t4 & E4 & W4).
  pose proof (s_sum_assoc n _ _ _ _ _ _ _ PX PY PZ E1 E2 E3 E4). subst t4. exists t2. split; [assumption|]. split; [assumption|].
  exact (sum_proper n _ _ _ (sum_proper n _ _ _ PX PY E1) PZ E2).
Qed.
Context (P : N -> N -> N * Z) (C : closed n P).
Lemma f_product_assoc xy l yz r : assoc_blades P ->
  product Exact P x y = Ok xy -> product Exact P xy z = Ok l -> product Exact P y z = Ok yz -> product Exact P x yz = Ok r ->
  exists t, packed l t /\ packed r t /\ proper n t.
Proof using All.
  intros AS A B C0 D. destruct (product_flat _ _ _ _ _ _ _ X Y A) as (t1 & E1 & W1). destruct (product_flat _ _ _ _ _ _ _ W1 ZZ B) as (t2 & E2 & W2).
  destruct (product_flat _ _ _ _ _ _ _ Y ZZ C0) as (t3 & E3 & W3). destruct (product_flat _ _ _ _ _ _ _ X W3 D) as (t4 & E4 & W4).
  pose proof (s_product_assoc n P C _ _ _ _ _ _ _ AS PX PY PZ E1 E2 E3 E4). subst t4. exists t2. split; [assumption|]. split; [assumption|].
  exact (product_proper P n _ _ _ C (product_proper P n _ _ _ C PX PY E1) PZ E2).
Qed.
Lemma f_distr_l yz l xy xz r :
  sum Exact y z = Ok yz -> product Exact P x yz = Ok l -> product Exact P x y = Ok xy -> product Exact P x z = Ok xz -> sum Exact xy xz = Ok r ->
  exists t, packed l t /\ packed r t /\ proper n t.
Proof using All.
  intros A B C0 D E. destruct (sum_flat _ _ _ _ _ _ Y ZZ A) as (t1 & E1 & W1). destruct (product_flat _ _ _ _ _ _ _ X W1 B) as (t2 & E2 & W2).
  destruct (product_flat _ _ _ _ _ _ _ X Y C0) as (t3 & E3 & W3). destruct (product_flat _ _ _ _ _ _ _ X ZZ D) as (t4 & E4 & W4).
  destruct (sum_flat _ _ _ _ _ _ W3 W4 E) as (t5 & E5 & W5).
  pose proof (s_product_distr_l n P C _ _ _ _ _ _ _ _ PX PY PZ E1 E2 E3 E4 E5). subst t5. exists t2. split; [assumption|]. split; [assumption|].
  exact (product_proper P n _ _ _ C PX (sum_proper n _ _ _ PY PZ E1) E2).
Qed.
Lemma f_distr_r xy l xz yz r :
  sum Exact x y = Ok xy -> product Exact P xy z = Ok l -> product Exact P x z = Ok xz -> product Exact P y z = Ok yz -> sum Exact xz yz = Ok r ->
  exists t, packed l t /\ packed r t /\ proper n t.
Proof using All.
  intros A B C0 D E. destruct (sum_flat _ _ _ _ _ _ X Y A) as (t1 & E1 & W1). destruct (product_flat _ _ _ _ _ _ _ W1 ZZ B) as (t2 & E2 & W2).
  destruct (product_flat _ _ _ _ _ _ _ X ZZ C0) as (t3 & E3 & W3). destruct (product_flat _ _ _ _ _ _ _ Y ZZ D) as (t4 & E4 & W4).
  destruct (sum_flat _ _ _ _ _ _ W3 W4 E) as (t5 & E5 & W5).
  pose proof (s_product_distr_r n P C _ _ _ _ _ _ _ _ PX PY PZ E1 E2 E3 E4 E5). subst t5. exists t2. split; [assumption|]. split; [assumption|].
  exact (product_proper P n _ _ _ C (sum_proper n _ _ _ PX PY E1) PZ E2).
Qed.
Lemma f_reverse_involutive a b : reverse x = Ok a -> reverse a = Ok b -> packed b tx.
Proof using X PX.
  intros A B. destruct (reverse_flat _ _ _ X A) as (t & E & W). destruct (reverse_flat _ _ _ W B) as (t' & E' & W').
  now rewrite (s_reverse_involutive n tx t t' PX E E') in W'.
Qed.
Lemma f_reverse_product m xy l rx ry r : product Exact (geometric m) x y = Ok xy -> reverse xy = Ok l ->
  reverse x = Ok rx -> reverse y = Ok ry -> product Exact (geometric m) ry rx = Ok r -> exists t, packed l t /\ packed r t.
Proof using X Y PX PY.
  intros A B C0 D E. destruct (product_flat _ _ _ _ _ _ _ X Y A) as (t1 & E1 & W1). destruct (reverse_flat _ _ _ W1 B) as (t2 & E2 & W2).
  destruct (reverse_flat _ _ _ X C0) as (t3 & E3 & W3). destruct (reverse_flat _ _ _ Y D) as (t4 & E4 & W4).
  destruct (product_flat _ _ _ _ _ _ _ W4 W3 E) as (t5 & E5 & W5).
  pose proof (s_reverse_product n m _ _ _ _ _ _ _ PX PY E1 E2 E3 E4 E5). subst t5. eauto.
Qed.
Lemma f_dual_double a b : poincare_dual Exact (N.of_nat n) x = Ok a -> poincare_dual Exact (N.of_nat n) a = Ok b ->
  exists t, packed b t /\ proper n t /\ forall rho e, (e < 2 ^ N.of_nat n)%N -> val rho t e = (IZR (neg1_pow (grade e * (n - grade e))) * val rho tx e)%R.
Proof using X PX.
  intros A B. destruct (dual_flat _ _ _ _ _ X A) as (t & E & W). destruct (dual_flat _ _ _ _ _ W B) as (t' & E' & W').
  exists t'. split; [assumption|]. split; [exact (dual_proper n _ _ (dual_proper n _ _ PX E) E')|].
  intros rho. exact (s_dual_double rho n tx t t' (pr_ok _ _ PX) E E').
Qed.
End Laws.
Lemma assoc_geometric m : assoc_blades (geometric m).
Proof.
  intros a b c. pose proof (geometric_assoc_sb m (a, 1%Z) (b, 1%Z) (c, 1%Z)) as H. revert H. unfold sbmul. cbn [fst snd].
  destruct (geometric m a b) as [ab s1], (geometric m b c) as [bc s2]. cbn [fst snd]. now rewrite ?Z.mul_1_l.
Qed.
Lemma assoc_exterior : assoc_blades exterior.
Proof.
  intros a b c. pose proof (exterior_assoc_sb (a, 1%Z) (b, 1%Z) (c, 1%Z)) as H. revert H. unfold sbmul. cbn [fst snd].
  destruct (exterior a b) as [ab s1], (exterior b c) as [bc s2]. cbn [fst snd]. now rewrite ?Z.mul_1_l.
Qed.

Lemma lxor_lt a b n : (a < 2 ^ n)%N -> (b < 2 ^ n)%N -> (N.lxor a b < 2 ^ n)%N.
Proof.
  intros Ha Hb. assert (P : (2 ^ n <> 0)%N) by (apply N.pow_nonzero; lia).
  destruct (N.eq_dec (N.lxor a b) 0) as [->|Hx]; [lia|].
  apply N.log2_lt_pow2; [lia|].
  destruct (N.eq_dec a 0) as [->|Hna]. { rewrite N.lxor_0_l in *. apply N.log2_lt_pow2; lia. }
  destruct (N.eq_dec b 0) as [->|Hnb]. { rewrite N.lxor_0_r in *. apply N.log2_lt_pow2; lia. }
  pose proof (N.log2_lxor a b). apply N.log2_lt_pow2 in Ha; [|lia]. apply N.log2_lt_pow2 in Hb; lia.
Qed.
Lemma blade_product_closed m k n : closed n (blade_product m k).
Proof.
  intros a b Ha Hb. assert (P0 : (0 < 2 ^ N.of_nat n)%N) by (apply N.neq_0_lt_0, N.pow_nonzero; lia).
  destruct k; cbn [blade_product].
  - now apply geometric_closed_dim.
  - rewrite exterior_closed. destruct (_ =? _)%N; cbn [fst]; [now apply lxor_lt|assumption].
  - rewrite contract_subset. destruct (_ =? _)%N; [now apply geometric_closed_dim|assumption].
  - unfold symmetric_inner. destruct (_ || _); [assumption|]. pose proof (geometric_closed_dim m a b _ Ha Hb) as G.
    destruct (geometric m a b) as [g mu]. cbn [fst] in G. destruct (_ =? _)%Z; [assumption|]. destruct (_ =? _)%Z; assumption.
Qed.
Lemma f_create_ref x tx i0 : packed x tx -> length (terms x) = length tx ->
  exists t, packed (create_ref x i0) t /\ mv_ok t /\ map fst t = map fst tx /\
    (StronglySorted N.lt (map fst tx) -> canonical t) /\
    forall rho sigma, (forall k e ms, nth_error tx k = Some (e, ms) -> sigma (i0 + N.of_nat k)%N = mons_val rho ms) ->
      forall b, val sigma t b = val rho tx b.
Proof.
  intros X L. exists (refs i0 tx). split; [exact (proj1 (create_ref_packed x tx i0 X L))|].
  assert (M : forall ts i, mv_ok (refs i ts)).
  { induction ts as [|t ts IH]; intros; [constructor|]. cbn [refs]. apply mv_ok_cons. split; [|apply IH]. repeat constructor. cbn. discriminate. }
  split; [apply M|]. split. { clear. revert i0. induction tx; intros; cbn; f_equal; auto. }
  split; [intros S0; exact (proj1 (refs_canon tx i0 S0))|]. intros rho sigma H b. apply refs_val. intros k [e ms] E. now apply (H k e ms).
Qed.
