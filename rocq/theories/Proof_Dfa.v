(** The symbolic evaluation computes what the stack machine computes: one operation. *)
From Coq Require Import ZArith NArith List Bool Arith Lia ZifyBool ZifyN ZifyNat Reals Lra Sorting.Sorted Sorting.Permutation.
From Verif Require Import Base Model_Numeric Model_Blade Model_Sort Model_MV Model_Product Model_Expr Model_Dfa
  Spec_Numeric Spec_Sort Spec_Clifford Spec_Basis
  Proof_Numeric Proof_Gens Proof_Blade Proof_Blade2 Proof_Blade3 Proof_Blade4 Spec_MV Spec_Expr Spec_Dfa
  Proof_Sort Proof_SortMap Proof_Layout Proof_Sum Proof_Val Proof_Collate Proof_Product Proof_CollateVal
  Proof_ProductVal Proof_Ops Proof_Ops2 Proof_Basis Proof_Ops3 Proof_Div Proof_Safe Proof_Poly Proof_Proper Proof_MVAlg Proof_MVFlat.
Import ListNotations.
Local Open Scope nat_scope.

Local Notation means := mv_means.

(** ** the mark of the results *)
Ltac mop_bind H := repeat match type of H with
  | bind ?r _ = Ok _ => let v := fresh "u" in let E := fresh "E" in destruct r as [v|] eqn:E; cbn [bind] in H; [|discriminate H] end.
Lemma sum_mop md x y z : sum md x y = Ok z -> mop z = mop_id.
Proof. unfold sum. intros H. mop_bind H. injection H as <-. reflexivity. Qed.
Lemma collate_mop md c ts ms is z : collate md c ts ms is = Ok z -> mop z = mop_id.
Proof. unfold collate. intros H. mop_bind H. destruct u as [[[? ?] ?] ?]. injection H as <-. reflexivity. Qed.
Lemma product_mop md P x y z : product md P x y = Ok z -> mop z = mop_id.
Proof. unfold product. intros H. mop_bind H. eapply collate_mop; eauto. Qed.
Lemma dual_mop md d x z : poincare_dual md d x = Ok z -> mop z = mop_id.
Proof. unfold poincare_dual. intros H. mop_bind H. eapply collate_mop; eauto. Qed.
Lemma change_mop md d x z : change_basis md d x = Ok z -> mop z = mop_id.
Proof. unfold change_basis. intros H. mop_bind H. destruct u0 as [lhs temp]. mop_bind H. eapply sum_mop; eauto. Qed.
Lemma component_mop md x e z : component md x e = Ok z -> mop z = mop_id.
Proof. unfold component. intros H. mop_bind H. injection H as <-. reflexivity. Qed.
Lemma grade_mop x g z : select_grade x g = Ok z -> mop z = mop_id.
Proof. unfold select_grade. intros H. mop_bind H. injection H as <-. reflexivity. Qed.
Lemma with_mons_mop x ms : mop (with_mons x ms) = mop x. Proof. reflexivity. Qed.
Lemma scale_mop md q x z : Model_MV.scale md q x = Ok z -> mop z = mop x.
Proof. unfold Model_MV.scale. intros H. mop_bind H. injection H as <-. reflexivity. Qed.
Lemma reverse_mop x z : reverse x = Ok z -> mop z = mop x.
Proof. unfold reverse. intros H. mop_bind H. injection H as <-. reflexivity. Qed.
Lemma resize_mop x c z : resize x c = Ok z -> mop x = mop_id -> mop z = mop_id.
Proof. unfold resize. destruct (_ && _); intros H M; [injection H as <-; exact M|]. mop_bind H. injection H as <-. reflexivity. Qed.

(** ** selections of proper multivectors *)
Lemma s_grade_in g ts t : In t (s_grade g ts) -> In t ts.
Proof.
  induction ts as [|s ts IH]; cbn [s_grade]; [auto|]. destruct (g <? _)%N; [intros []|]. destruct (_ <? g)%N; cbn; intuition.
Qed.
Lemma s_grade_proper n g ts : proper n ts -> proper n (s_grade g ts).
Proof.
  intros [[A1 A1'] A2 A3 A4 A5].
  assert (IM : forall s, In s (all_mons (s_grade g ts)) -> In s (all_mons ts)).
  { intros s Hs. unfold all_mons in *. apply in_flat_map in Hs as (t & It & Is). apply in_flat_map. exists t. split; [now apply s_grade_in in It|assumption]. }
  assert (SS : StronglySorted N.lt (map fst (s_grade g ts))).
  { clear -A1. induction ts as [|s ts IH]; cbn [s_grade map]; [constructor|]. cbn in A1. inversion_clear A1 as [|? ? S1 S2].
    destruct (g <? _)%N; [constructor|]. destruct (_ <? g)%N; [auto|]. cbn. constructor; [auto|]. rewrite Forall_forall in *.
    intros e He. apply S2. apply in_map_iff in He as (t & <- & It). apply in_map. now apply s_grade_in in It. }
  constructor.
  - split; [exact SS|]. rewrite Forall_forall in *. intros t Ht. apply A1'. now apply s_grade_in in Ht.
  - unfold mv_ok in *. rewrite Forall_forall in *. auto.
  - rewrite Forall_forall in *. auto.
  - rewrite Forall_forall in *. auto.
  - unfold in_dim in *. rewrite Forall_forall in *. intros t Ht. apply A5. now apply s_grade_in in Ht.
Qed.
Lemma s_grade_def rho g ts : defined rho ts -> defined rho (s_grade g ts).
Proof.
  intros D s i Hs Hi. apply (D s i); [|assumption]. unfold all_mons in *. apply in_flat_map in Hs as (t & It & Is).
  apply in_flat_map. exists t. split; [now apply s_grade_in in It|assumption].
Qed.
Lemma s_find_proper n e ts t : proper n ts -> s_find Exact e ts = Ok t -> proper n t /\ keys_in (all_mons t) (all_mons ts).
Proof.
  intros P. revert t. pose proof P as [[A1 A1'] A2 A3 A4 A5]. clear P. induction ts as [|a ts IH]; intros t H; cbn [s_find] in H.
  - injection H as <-. split; [|intros m []]. constructor; try constructor; constructor.
  - inversion_clear A1' as [|? ? B1 B2]. cbn in A1. inversion_clear A1 as [|? ? S1 S2]. apply mv_ok_cons in A2 as [C1 C2].
    rewrite all_mons_cons in A3, A4. apply Forall_app in A3 as [D1 D2]. apply Forall_app in A4 as [E1 E2].
    unfold in_dim in A5. inversion_clear A5 as [|? ? F1 F2].
    destruct (N.eqb_spec (fst a) e) as [E|E].
    + minv H. rename v into a'. injection H as <-. pose proof (s_push_keys _ _ _ _ _ E0) as K.
      pose proof E0 as E0'. unfold s_push in E0'. minv E0'. rename v into l. injection E0' as <-. cbn [snd] in K.
      assert (M : all_mons (@cons sterm (0%N, l) nil) = l) by (unfold all_mons; cbn; apply app_nil_r).
      assert (KN : keeps_nz (fun q => rmul Exact q one)).
      { intros p r P H. unfold rmul in H. inv_all. subst. cbn [num den one] in *. rewrite Z.mul_1_r in *.
        destruct (Z.eqb_spec (num p) 0) as [X|X]; [contradiction|]. destruct (1 <? den p * 1)%Z eqn:D; [|injection H as <-; exact X].
        apply gate_exact in H as [(G1 & G2 & G3) _]; cbn [num den] in *; nia. }
      destruct B1 as (B1 & B1' & B1''). pose proof (smapq_canon (fun q => rmul Exact q one) (snd a) KN l (conj B1' B1'') E3) as [CC _].
      assert (NE : l <> []). { apply smapq_shape in E3 as (L & _). intros ->. destruct (snd a); [contradiction|discriminate]. }
      split; [|rewrite M, all_mons_cons; now apply keys_in_app_l].
      constructor.
      * split; [repeat constructor|]. constructor; [|constructor]. cbn [snd]. destruct CC. auto.
      * apply mv_ok_cons. split; [|constructor]. apply (s_push_val (fun _ => 0%R)) in E0 as (_ & _ & W); [exact W|cbn; lia|exact C1].
      * rewrite M. eapply keys_sorted; eauto.
      * rewrite M. eapply (push_low one 0%N a (0%N, l)); [cbn; lia|exact E1|exact E0].
      * constructor; [|constructor]. cbn [fst]. apply N.neq_0_lt_0, N.pow_nonzero. lia.
    + destruct (IH S1 B2 C2 D2 E2 F2 t H) as [I1 I2]. split; [exact I1|]. rewrite all_mons_cons. now apply keys_in_app_r.
Qed.

(** ** one operation *)
Section Ops.
Context (rho : N -> R) (n : nat).
Lemma means_ext x v w : (forall b, v b = w b) -> means rho n x v -> means rho n x w.
Proof. intros E (tx & A & B & C & D & F). exists tx. repeat (split; [assumption|]). intros b. now rewrite F. Qed.
Lemma means_out x v b : means rho n x v -> (2 ^ N.of_nat n <= b)%N -> v b = 0%R.
Proof.
  intros (tx & _ & _ & P & _ & F) L. rewrite <- F. apply val_absent. intros HI. pose proof (in_dim_in n tx b (pr_dim _ _ P) HI). lia.
Qed.
Lemma shrink_packed x tx z : packed x tx -> shrink x = Ok z -> packed z tx /\ length (terms z) = length tx.
Proof.
  intros X H. destruct (resize_packed x tx (mkcaps (isz x) (msz x) (tsz x)) X) as (z' & E & P & C).
  - cbn. rewrite (pk_isz _ _ X). unfold tilen, ilen. lia.
  - cbn. rewrite (pk_msz _ _ X). unfold tmlen. lia.
  - cbn. rewrite (pk_tsz _ _ X). lia.
  - unfold shrink in H. rewrite E in H. injection H as <-. split; [exact P|]. unfold caps_of in C. injection C as _ _ C. rewrite C. apply (pk_tsz _ _ X).
Qed.
Lemma shrink_means x z v : means rho n x v -> shrink x = Ok z -> means rho n z v.
Proof.
  intros (tx & A & B & C & D & F) H. pose proof (shrink_packed _ _ _ A H) as [P _]. exists tx. repeat (split; [assumption||(eapply resize_mop; eauto; fail)|]).
  assumption.
Qed.
Lemma sum_means x y z v w : means rho n x v -> means rho n y w -> sum Exact x y = Ok z -> means rho n z (vadd v w).
Proof.
  intros (tx & A & B & C & D & F) (ty & A' & B' & C' & D' & F') H. destruct (sum_flat _ _ _ _ _ _ A A' H) as (t & E & Z).
  exists t. split; [assumption|]. split; [eapply sum_mop; eauto|]. split; [exact (sum_proper _ _ _ _ C C' E)|]. split.
  - pose proof (ss_terms_keys _ _ _ _ E) as K. intros s i Hs Hi. destruct (K s Hs) as (s' & I' & E1 & E2).
    rewrite E2 in Hi. apply in_app_or in I' as [I'|I']; [exact (D s' i I' Hi)|exact (D' s' i I' Hi)].
  - intros b. rewrite (proj1 (ss_terms_val rho b tx ty t (pr_ok _ _ C) (pr_ok _ _ C') E)), F, F'. reflexivity.
Qed.
Lemma product_means m k x y z v w : dim m = n -> means rho n x v -> means rho n y w -> product Exact (blade_product m k) x y = Ok z ->
  means rho n z (vprod m k v w).
Proof.
  intros DM (tx & A & B & C & D & F) (ty & A' & B' & C' & D' & F') H. destruct (product_flat _ _ _ _ _ _ _ A A' H) as (t & E & Z).
  pose proof (fun c => s_product_val (blade_product m k) rho n c tx ty t (pr_ok _ _ C) (pr_ok _ _ C') D D' (pr_dim _ _ C) (pr_dim _ _ C') E) as PV.
  exists t. split; [assumption|]. split; [eapply product_mop; eauto|].
  split; [exact (product_proper _ _ _ _ _ (blade_product_closed m k n) C C' E)|].
  split; [exact (proj2 (proj2 (PV 0%N)))|]. intros b. rewrite (proj1 (PV b)). unfold vprod. rewrite DM.
  apply bil_ext; auto.
Qed.
Lemma reverse_means x z v : means rho n x v -> reverse x = Ok z -> means rho n z (vrev v).
Proof.
  intros (tx & A & B & C & D & F) H. destruct (reverse_flat _ _ _ A H) as (t & E & Z). exists t. split; [assumption|].
  split; [rewrite (reverse_mop _ _ H); exact B|]. split; [exact (reverse_proper _ _ _ C E)|].
  split; [eapply keys_in_def; [eapply s_mapt_keys; exact E|assumption]|].
  intros b. rewrite (proj1 (reverse_val rho tx t b (pr_ok _ _ C) E)), F. reflexivity.
Qed.
Lemma scale_means q x z v : num q <> 0%Z -> (0 < den q)%Z -> means rho n x v -> Model_MV.scale Exact q x = Ok z -> means rho n z (vscale (rv q) v).
Proof.
  intros Q D0 (tx & A & B & C & D & F) H. destruct (scale_flat _ _ _ _ _ A H) as (t & E & Z). exists t. split; [assumption|].
  split; [rewrite (scale_mop _ _ _ _ H); exact B|]. split; [exact (scale_proper _ _ _ _ Q D0 C E)|].
  split; [eapply keys_in_def; [eapply s_mapt_keys; exact E|assumption]|].
  intros b. rewrite (proj1 (scale_val rho q tx t b ltac:(lia) (pr_ok _ _ C) E)), F. reflexivity.
Qed.
Lemma dual_means x z v : means rho n x v -> poincare_dual Exact (N.of_nat n) x = Ok z -> means rho n z (vdual n v).
Proof.
  intros M H. pose proof M as (tx & A & B & C & D & F). destruct (dual_flat _ _ _ _ _ A H) as (t & E & Z). exists t. split; [assumption|].
  split; [eapply dual_mop; eauto|]. pose proof (dual_proper _ _ _ C E) as PT. split; [exact PT|].
  pose proof (s_dual_canon Exact (N.of_nat n) tx t (mv_ok_tdegs _ (pr_ok _ _ C)) E) as (_ & _ & K & _).
  split; [eapply keys_in_def; eauto|].
  intros b. unfold vdual. destruct (N.ltb_spec b (2 ^ N.of_nat n)) as [L|L].
  - destruct (s_dual_val rho _ _ _ (pr_ok _ _ C) E) as [VD _]. specialize (VD (co_blade n b)).
    assert (LC : (co_blade n b < 2 ^ N.of_nat n)%N) by now apply complement_lt.
    pose proof (poincare_sign (co_blade n b) (N.of_nat n) LC) as PS.
    assert (PF : fst (poincare_complement (co_blade n b) (N.of_nat n)) = b).
    { unfold poincare_complement, co_blade. cbn [fst]. rewrite <- N.lxor_assoc, N.lxor_nilpotent. apply N.lxor_0_l. }
    rewrite PF, PS in VD. rewrite VD, F. f_equal. f_equal. f_equal. f_equal. f_equal. unfold co_blade.
    rewrite <- N.lxor_assoc, N.lxor_nilpotent. apply N.lxor_0_l.
  - apply val_absent. intros HI. pose proof (in_dim_in n t b (pr_dim _ _ PT) HI). lia.
Qed.
Lemma component_means x z v e : means rho n x v -> component Exact x e = Ok z -> means rho n z (vcomp e v).
Proof.
  intros (tx & A & B & C & D & F) H. pose proof H as H0. rewrite (component_eq Exact x tx e A) in H.
  destruct (s_find Exact e tx) as [t|] eqn:E; cbn [bind] in H; [|discriminate]. injection H as <-. exists t. split; [apply pack_packed|].
  split; [eapply component_mop; eauto|]. destruct (s_find_proper n e tx t C E) as [P K]. split; [exact P|]. split; [eapply keys_in_def; eauto|].
  intros b. destruct (s_find_val rho e tx (proj1 (pr_canon _ _ C)) t (pr_ok _ _ C) E) as [VV _]. rewrite VV. unfold vcomp, vscalar.
  destruct (_ =? _)%N; [apply F|reflexivity].
Qed.
Lemma grade_before_ok g l : grade_before g l = true -> grade_reachable g l.
Proof.
  unfold grade_reachable. induction l as [|a l IH]; intros H; constructor; cbn [grade_before] in H; apply andb_true_iff in H as [H1 H2]; [auto|].
  apply Forall_forall. intros b Hb E. apply orb_true_iff in H2 as [H2|H2]; [lia|]. rewrite forallb_forall in H2. specialize (H2 b Hb). lia.
Qed.
Lemma packed_elems x tx : packed x tx -> map elem (firstn (tsz x) (terms x)) = map fst tx.
Proof.
  intros [_ _ [r E] _ _ L]. rewrite L, E, <- (lay_terms_length tx 0), firstn_pre. generalize 0.
  clear. induction tx as [|t tx IH]; intros o; cbn; f_equal; auto.
Qed.
Lemma grade_means x z v g : grade_before g (map elem (firstn (tsz x) (terms x))) = true -> means rho n x v -> select_grade x g = Ok z ->
  means rho n z (vgrade g v).
Proof.
  intros G (tx & A & B & C & D & F) H. pose proof H as H0. rewrite (select_grade_eq x tx g A) in H. injection H as <-.
  exists (s_grade g tx). split; [apply pack_packed|]. split; [eapply grade_mop; eauto|]. split; [now apply s_grade_proper|].
  split; [now apply s_grade_def|]. intros b. rewrite (packed_elems _ _ A) in G. rewrite (s_grade_val rho g tx b (grade_before_ok _ _ G)).
  unfold vgrade. rewrite pop_count_grade. destruct (_ =? _)%N; [apply F|reflexivity].
Qed.
Lemma zero_means : means rho n zero_mv vzero.
Proof.
  exists []. split; [constructor; try (exists []; reflexivity); reflexivity|]. split; [reflexivity|].
  split; [constructor; repeat constructor|]. split; [intros s i []|]. reflexivity.
Qed.
Lemma blade_means g : (g < 2 ^ N.of_nat n)%N -> means rho n (blade_mv g) (delta g).
Proof.
  intros G. exists [(g, [mks one zero []])]. split; [constructor; try (exists []; reflexivity); reflexivity|]. split; [reflexivity|].
  split. { constructor; repeat constructor; cbn; auto; try lia; try discriminate. }
  split; [intros s i [<-|[]] []|].
  intros b. unfold val, mons_val, mon_val, inds_val. cbn [map fst snd sq sinds Rsum Rprod fold_right]. rewrite rv_one. unfold delta.
  destruct (g =? b)%N; ring.
Qed.
Lemma dpow_one x : dpow x one = x.
Proof. unfold dpow. cbn [den one num Z.eqb Pos.eqb]. change (powerRZ x 1) with (x * 1)%R. ring. Qed.
Lemma float_means i : means rho n (float_ie i) (vscalar (rho i)).
Proof.
  exists [(0%N, [mks one one [mkind i one]])]. split; [constructor; try (exists []; reflexivity); reflexivity|]. split; [reflexivity|].
  assert (P0 : (0 < 2 ^ N.of_nat n)%N) by (apply N.neq_0_lt_0, N.pow_nonzero; lia).
  split. { constructor; repeat constructor; cbn; auto; try lia; try discriminate. }
  split; [intros s j [<-|[]] [<-|[]]; right; cbn; lia|].
  intros b. unfold val, mons_val, mon_val, inds_val. cbn [map fst snd sq sinds Rsum Rprod fold_right id ideg]. rewrite rv_one. unfold vscalar.
  rewrite (N.eqb_sym 0 b). rewrite dpow_one. destruct (b =? 0)%N; ring.
Qed.

(** ** inputs of conformal algebras *)
Lemma natural_means x z w : 2 <= n -> means rho n x w -> to_natural_basis Exact (N.of_nat n) x = Ok z ->
  means rho n z (fun b => if (b <? 2 ^ N.of_nat n)%N then linear n (outermorphism n (null_to_natural n)) w b else 0%R).
Proof.
  intros N2 (tx & A & B & C & D & F) H. destruct (change_flat _ _ _ _ _ A H) as (t & E & Z). exists t. split; [assumption|].
  split; [eapply change_mop; eauto|].
  pose proof (change_proper _ _ _ _ (natural_ok n N2) (natural_pos n N2) (natural_dim n N2) C E) as PT. split; [exact PT|].
  split; [eapply keys_in_def; [eapply s_change_keys; [exact (mv_ok_tdegs _ (pr_ok _ _ C))|exact E]|assumption]|].
  intros b. destruct (N.ltb_spec b (2 ^ N.of_nat n)) as [L|L].
  - rewrite (proj1 (s_natural_val n N2 rho tx t b (pr_ok _ _ C) (pr_dim _ _ C) E L)). apply linear_ext_f. intros a _. apply F.
  - apply val_absent. intros HI. pose proof (in_dim_in n t b (pr_dim _ _ PT) HI). lia.
Qed.

(** ** temporaries *)
Definition store_val (rho : N -> R) (o : mv_op) (tx : list sterm) (b : N) : R :=
  Rsum (map (fun t : sterm => if (fst t =? b)%N then marked_val rho o (snd t) else 0%R) tx).
Lemma store_id tx b : store_val rho mop_id tx b = val rho tx b.
Proof. reflexivity. Qed.
Lemma means_stores x v : means rho n x v -> mv_stores rho n x v.
Proof.
  intros (tx & A & B & C & D & F). exists tx. destruct C as [[C1 C1'] C2 C3 C4 C5]. repeat (split; [assumption|]).
  split; [|split].
  - rewrite Forall_forall in *. intros s Hs. specialize (C4 s Hs). specialize (C3 s Hs). unfold all_mons in Hs. apply in_flat_map in Hs as (t & It & Is).
    destruct (C1' t It) as (_ & _ & N0). rewrite Forall_forall in N0. split; [exact (N0 s Is)|]. split; [apply C4|].
    apply C3.
  - rewrite Forall_forall in *. intros t It. apply (C1' t It).
  - intros b. rewrite B. apply F.
Qed.
Lemma refs_proper ts : forall i0, StronglySorted N.lt (map fst ts) -> in_dim n ts -> proper n (refs i0 ts).
Proof.
  intros i0 S0 D. destruct (refs_canon ts i0 S0) as [A B]. constructor; auto.
  - clear. revert i0. induction ts as [|t ts IH]; intros; [constructor|]. cbn [refs]. rewrite all_mons_cons. apply Forall_app.
    split; [|apply IH]. constructor; [|constructor]. repeat constructor; discriminate.
  - clear. revert i0. induction ts as [|t ts IH]; intros; [constructor|]. cbn [refs]. rewrite all_mons_cons. apply Forall_app.
    split; [|apply IH]. constructor; [|constructor]. split; reflexivity.
  - unfold in_dim in *. clear A B S0. revert i0. induction D as [|t ts Dt D IH]; intros; cbn; constructor; auto.
Qed.
Lemma refs_store o ts b : forall i0,
  (forall k t, nth_error ts k = Some t -> rho (i0 + N.of_nat k)%N = marked_val rho o (snd t)) ->
  val rho (refs i0 ts) b = store_val rho o ts b.
Proof.
  unfold store_val. induction ts as [|t ts IH]; intros i0 H; [reflexivity|]. cbn [refs map]. rewrite val_cons.
  change (Rsum (?x :: ?y)) with (x + Rsum y)%R. f_equal.
  - cbn [fst snd]. destruct (_ =? _)%N; [|reflexivity]. specialize (H 0 t eq_refl). rewrite N.add_0_r in H. rewrite <- H.
    rewrite mons_val_cons. change (mons_val rho []) with 0%R. unfold mon_val, inds_val. cbn [sq sinds map Rprod fold_right id ideg].
    rewrite dpow_one. rewrite rv_one. ring.
  - apply IH. intros k u Hk. specialize (H (S k) u Hk). rewrite <- H. f_equal. lia.
Qed.
Lemma ref_means x i v : length (terms x) = tsz x -> mv_stores rho n x v -> temp_holds rho (x, i) -> means rho n (create_ref x i) v.
Proof.
  intros L (tx & A & S0 & D & M & Q & E & F) H. rewrite (pk_tsz _ _ A) in L. exists (refs i tx).
  split; [exact (proj1 (create_ref_packed x tx i A L))|]. split; [reflexivity|]. split; [now apply refs_proper|]. split.
  - intros s j Hs Hj. right. rewrite refs_mons in Hs. apply in_map_iff in Hs as (k & <- & _). destruct Hj as [<-|[]]. cbn. lia.
  - intros b. rewrite <- F. apply refs_store. intros k t Hk. exact (H tx k t A Hk).
Qed.

(** ** division and functions *)
Lemma mono_scalar_shape x tx : packed x tx -> mono_scalar x = true -> exists s, tx = [(0%N, [s])].
Proof.
  intros A H. unfold mono_scalar in H. apply andb_true_iff in H as [H1 H2]. destruct (pk_terms _ _ A) as [r E]. pose proof (pk_tsz _ _ A) as T.
  destruct tx as [|[e ms] [|u tx]]; cbn [length] in T; try lia. rewrite E in H2. cbn [lay_terms app elem tcount fst snd] in H2.
  destruct ms as [|s [|s' ms]]; cbn [length] in H2; try lia. exists s. f_equal. f_equal. lia.
Qed.
Lemma scale_keep q p r : num q <> 0%Z -> (0 < den q)%Z -> num p <> 0%Z -> (0 < den p)%Z -> rmul Exact q p = Ok r -> num r <> 0%Z /\ (0 < den r)%Z.
Proof. intros A B C D H. split; [exact (rmul_keeps q A p r C H)|exact (proj1 (rmul_low q p r B D H))]. Qed.
Lemma div_keep a b r : num a <> 0%Z -> (0 < den a)%Z -> num b <> 0%Z -> (0 < den b)%Z -> rdiv Exact a b = Ok r -> num r <> 0%Z /\ (0 < den r)%Z.
Proof.
  intros A B C D H. apply rdiv_exact in H as [F P]; try lia. split; [|exact P]. unfold feq in F. intros Z. rewrite Z in F. nia.
Qed.
Definition storable (s : smon) : Prop := (num (sq s) <> 0 /\ 0 < den (sq s) /\ Forall (fun i => num (ideg i) <> 0) (sinds s))%Z.
Lemma smapq_storable g ms : (forall p r, num p <> 0%Z -> (0 < den p)%Z -> g p = Ok r -> num r <> 0%Z /\ (0 < den r)%Z) ->
  forall l, Forall storable ms -> smapq g ms = Ok l -> Forall storable l.
Proof.
  intros G. induction ms as [|s ms IH]; intros l F H; [injection H as <-; constructor|]. rewrite smapq_cons in H. minv H. minv H. injection H as <-.
  inversion_clear F as [|? ? (F1 & F2 & F3) F4]. constructor; [|now apply IH]. destruct (G _ _ F1 F2 E). repeat split; auto.
Qed.
Lemma mapt_storable g ts : (forall p r, num p <> 0%Z -> (0 < den p)%Z -> g p = Ok r -> num r <> 0%Z /\ (0 < den r)%Z) ->
  forall t, Forall storable (all_mons ts) -> s_mapt (fun _ => Some g) ts = Ok t -> Forall storable (all_mons t).
Proof.
  intros G. induction ts as [|s ts IH]; intros t F H; [injection H as <-; constructor|]. rewrite s_mapt_cons in H. minv H. minv H. injection H as <-.
  rewrite all_mons_cons in *. apply Forall_app in F as [F1 F2]. apply Forall_app. split; [|now apply IH].
  unfold s_upd in E. minv E. injection E as <-. cbn [snd]. match goal with X : smapq _ _ = Ok _ |- _ => exact (smapq_storable g (snd s) G _ F1 X) end.
Qed.
Lemma mapt_nonempty f ts : forall t, Forall (fun t : sterm => snd t <> []) ts -> s_mapt f ts = Ok t -> Forall (fun t : sterm => snd t <> []) t.
Proof.
  induction ts as [|s ts IH]; intros t F H; [injection H as <-; constructor|]. rewrite s_mapt_cons in H. minv H. minv H. injection H as <-.
  inversion_clear F as [|? ? F1 F2]. constructor; [|now apply IH]. unfold s_upd in E. destruct (f (fst s)); [|injection E as <-; exact F1].
  minv E. injection E as <-. cbn [snd]. apply smapq_shape in E1 as (L & _). intros ->. destruct (snd s); [contradiction|discriminate].
Qed.
Lemma divide_ok x y q z v w : num q <> 0%Z -> (0 < den q)%Z -> means rho n x v -> means rho n y w -> w 0%N <> 0%R ->
  divisor_for x y = true -> divide Exact x y q = Ok z -> mv_stores rho n z (vscale (rv q / w 0%N) v).
Proof.
  intros Q0 Q1 X Y W0 DV H. pose proof Y as (ty & A' & B' & C' & D' & F'). unfold divisor_for in DV. apply andb_true_iff in DV as [MS DV].
  destruct (mono_scalar_shape y ty A' MS) as [s ->]. destruct (pk_mons _ _ A') as [rm Em]. destruct (pk_inds _ _ A') as [ri Ei].
  destruct (pk_terms _ _ A') as [rt Et].
  assert (T0 : terms y <> []) by (rewrite Et; discriminate). change (all_mons [(0%N, [s])]) with [s] in *. cbn [lay_mons app] in Em. cbn [all_inds flat_map app] in Ei.
  rewrite app_nil_r in Ei. rewrite Em in DV.
  assert (NS : num (sq s) <> 0%Z). { destruct C' as [[_ C1] _ _ _ _]. inversion_clear C1 as [|? ? (_ & _ & N0) _]. now inversion_clear N0. }
  assert (DS : (0 < den (sq s))%Z). { destruct C' as [_ _ _ C1 _]. change (all_mons [(0%N, [s])]) with [s] in C1. inversion_clear C1 as [|? ? [? _] _]. assumption. }
  assert (W : w 0%N = mon_val rho s). { rewrite <- F'. unfold val, mons_val. cbn. ring. }
  pose proof (means_stores x v X) as (tx & A & S1 & S2 & S3 & S4 & S5 & S6). fold storable in S4.
  pose proof X as (tx' & A2 & B & C & D & F). pose proof (packed_unique _ _ _ A A2) as <-. clear A2.
  destruct (inds y) as [|d [|]] eqn:EI; [| |discriminate DV].
  - (* a number *)
    assert (SI : sinds s = []) by (destruct (sinds s); [reflexivity|discriminate]).
    destruct (rr_ok _ _ _ _ (divide_const_eq Exact x y q _ tx A EI (ex_intro _ rm Em) T0) H) as (t & E & Z & _ & MZ). cbn [mq] in E.
    exists t. split; [assumption|]. split; [now rewrite (proj2 (proj2 (proj2 (proj2 (s_mapt_shape _ _ _ E)))))|].
    split. { apply in_dim_elems. rewrite (proj2 (proj2 (proj2 (proj2 (s_mapt_shape _ _ _ E))))). intros e He. eapply in_dim_in; eauto. }
    pose proof (fun b => divide_const_val rho q (mkmon (sq s) (sdeg s) (length (sinds s)) 0) tx t b ltac:(lia) ltac:(cbn; lia) ltac:(cbn; lia) S3 E) as VV.
    split; [exact (proj2 (VV 0%N))|].
    split. { eapply mapt_storable; [|exact S4|exact E]. intros p r P1 P2 Hr. cbn beta in Hr. minv Hr. destruct (scale_keep q p _ Q0 Q1 P1 P2 E0) as [K1 K2].
      exact (div_keep _ (sq s) r K1 K2 NS DS Hr). }
    split; [eapply mapt_nonempty; eauto|].
    intros b. change (store_val rho (mop z) t b = vscale (rv q / w 0%N) v b). rewrite MZ, B, store_id, (proj1 (VV b)), F, W.
    unfold mon_val, inds_val. rewrite SI. cbn. unfold vscale, Rdiv. rewrite Rmult_1_r. ring.
  - (* an indeterminate *)
    apply andb_true_iff in DV as [MC FR]. cbn [mcount] in MC. destruct (sinds s) as [|d' [|]] eqn:SI; cbn [length] in MC; try lia.
    cbn [app] in Ei. injection Ei as -> <-.
    assert (FF : free_of (id d') tx).
    { apply Forall_forall. intros u Hu Hin. apply in_map_iff in Hin as (i & Ei & Hi).
      assert (IN : In i (firstn (isz x) (inds x))).
      { destruct (pk_inds _ _ A) as [r Er]. rewrite (pk_isz _ _ A), Er. unfold tilen, ilen. rewrite firstn_pre.
        unfold all_inds. apply in_flat_map. eauto. }
      rewrite forallb_forall in FR. specialize (FR i IN). lia. }
    destruct (rr_ok _ _ _ _ (divide_ind_eq Exact x y q _ d' tx A EI (ex_intro _ rm Em) T0 FF) H) as (t & E & Z). cbn [mq] in E.
    assert (DI : integral (ideg d')). { pose proof (pr_ok _ _ C') as M. unfold mv_ok in M. change (all_mons [(0%N, [s])]) with [s] in M.
      inversion_clear M as [|? ? (_ & _ & M1) _]. rewrite SI in M1. now inversion_clear M1. }
    assert (DN : num (ideg d') <> 0%Z). { pose proof (pr_sorted _ _ C') as M. change (all_mons [(0%N, [s])]) with [s] in M.
      inversion_clear M as [|? ? (_ & M1 & _) _]. rewrite SI in M1. now inversion_clear M1. }
    assert (R0 : rho (id d') <> 0%R).
    { intros R0. apply W0. rewrite W. unfold mon_val, inds_val. rewrite SI. cbn [map Rprod fold_right]. rewrite dpow_int by exact DI.
      rewrite R0. assert (Z0 : powerRZ 0 (num (ideg d')) = 0%R).
      { destruct (D' s d') as [NZ|P].
        - change (all_mons [(0%N, [s])]) with [s]. now left.
        - rewrite SI. now left.
        - contradiction.
        - destruct (num (ideg d')) as [|p|p]; [contradiction| |lia]. cbn. apply pow_i. lia. }
      rewrite Z0. ring. }
    pose proof (fun b => s_divide_val rho q d' (sq s) tx t b ltac:(lia) DI ltac:(lia) ltac:(lia) S3 R0 E) as VV.
    unfold s_divide in E. minv E. rename v0 into nd. minv E. rename v0 into t1. apply rneg_ok in E0. subst nd.
    assert (M1 : map fst t1 = map fst tx).
    { clear -E1. revert t1 E1. unfold s_div_terms. induction tx as [|u tx IH]; intros t1 E1; cbn [mapM] in E1; [injection E1 as <-; reflexivity|].
      minv E1. minv E1. injection E1 as <-. cbn. f_equal; [|now apply IH]. minv E. injection E as <-. reflexivity. }
    assert (S4' : Forall storable (all_mons t1) /\ Forall (fun t : sterm => snd t <> []) t1).
    { clear -E1 S4 S5 NS DS DN. revert t1 E1. unfold s_div_terms. induction tx as [|u tx IH]; intros t1 E1; cbn [mapM] in E1; [injection E1 as <-; split; constructor|].
      minv E1. rename v into u1. minv E1. rename v into t2. injection E1 as <-. rewrite all_mons_cons in S4. apply Forall_app in S4 as [S41 S42].
      inversion_clear S5 as [|? ? S51 S52]. destruct (IH S42 S52 t2 E0) as [I1 I2]. rewrite all_mons_cons. minv E. rename v into l.
      injection E as <-. cbn [snd]. pose proof (s_div_shape _ _ _ _ _ E1) as [LL _].
      split; [apply Forall_app; split; [|exact I1]|constructor; [|exact I2]; cbn; intros ->; destruct (snd u); [contradiction|discriminate]].
      clear -E1 S41 NS DS DN. revert l E1. unfold s_div. induction (snd u) as [|a ms IH]; intros l E1; cbn [mapM] in E1; [injection E1 as <-; constructor|].
      inversion_clear S41 as [|? ? (K1 & K2 & K3) S42]. minv E1. rename v into b. minv E1. rename v into r. injection E1 as <-. constructor; [|now apply IH].
      minv E. minv E. injection E as <-. destruct (div_keep _ _ _ K1 K2 NS DS E2) as [L1 L2]. repeat split; cbn; auto.
      clear -K3 DN. induction K3 as [|i is Ki K IH]; cbn; [constructor; [cbn; lia|constructor]|].
      destruct (_ <? _)%N; (constructor; [first [exact Ki|cbn; lia]|]); [constructor; auto|exact IH]. }
    destruct S4' as [S41 S51].
    exists t. split; [assumption|]. pose proof (s_mapt_shape _ _ _ E) as (_ & _ & _ & _ & M2).
    split; [now rewrite M2, M1|]. split. { apply in_dim_elems. rewrite M2, M1. intros e He. eapply in_dim_in; eauto. }
    split; [exact (proj2 (VV 0%N))|].
    split. { eapply mapt_storable; [|exact S41|exact E]. intros p r P1 P2 Hr. exact (scale_keep q p r Q0 Q1 P1 P2 Hr). }
    split; [eapply mapt_nonempty; eauto|].
    assert (MZ : mop z = mop_id).
    { clear -H Em EI. unfold divide in H. destruct (_ || _); [discriminate|]. rewrite Em, EI in H. cbn [get nth_error bind length] in H.
      minv H. minv H. minv H. apply scale_mop in H. rewrite H. reflexivity. }
    intros b. change (store_val rho (mop z) t b = vscale (rv q / w 0%N) v b). rewrite MZ, store_id, (proj1 (VV b)), F, W.
    unfold mon_val, inds_val. rewrite SI. cbn [map Rprod fold_right]. unfold vscale, Rdiv. rewrite Rmult_1_r. ring.
Qed.
Lemma with_op_packed x o tx : packed x tx -> packed (with_op x o) tx.
Proof. intros [A B C D E F]. constructor; assumption. Qed.
Lemma fn_ok o q x z v : num q <> 0%Z -> (0 < den q)%Z -> means rho n x v -> is_scalar v ->
  mono_scalar x || ((tsz x =? 0) && negb match o with mop_cos => true | _ => false end) = true -> Model_MV.fn Exact o q x = Ok z ->
  mv_stores rho n z (vscalar (op_fun o (rv q * v 0%N))).
Proof.
  intros Q0 Q1 X SV G H. pose proof (means_stores x v X) as (tx & A & S1 & S2 & S3 & S4 & S5 & S6). fold storable in S4.
  pose proof X as (tx' & A2 & B & C & D & F). pose proof (packed_unique _ _ _ A A2) as <-. clear A2.
  unfold Model_MV.fn in H. pose proof (scale_mop _ _ _ _ H) as MZ. cbn [with_op mop] in MZ.
  destruct (scale_flat _ _ _ _ _ (with_op_packed x o tx A) H) as (t & E & Z). exists t. split; [assumption|].
  pose proof (s_mapt_shape _ _ _ E) as (_ & _ & _ & _ & M2).
  split; [now rewrite M2|]. split. { apply in_dim_elems. rewrite M2. intros e He. eapply in_dim_in; eauto. }
  pose proof (fun b => scale_val rho q tx t b ltac:(lia) S3 E) as VV.
  split; [exact (proj2 (VV 0%N))|].
  split. { eapply mapt_storable; [|exact S4|exact E]. intros p r P1 P2 Hr. exact (scale_keep q p r Q0 Q1 P1 P2 Hr). }
  split; [eapply mapt_nonempty; eauto|].
  intros b. rewrite MZ. apply orb_true_iff in G as [G|G].
  - destruct (mono_scalar_shape x tx A G) as [s ->]. pose proof (proj1 (VV 0%N)) as V0. rewrite F in V0. rewrite s_mapt_cons in E.
    unfold s_upd in E. cbn [fst snd] in E. rewrite smapq_cons in E. destruct (rmul Exact q (sq s)) as [r|]; [|discriminate].
    cbn [smapq mapM s_mapt bind fst snd] in E. cbn in E. injection E as <-. unfold vscalar. cbn [map fst snd]. rewrite (N.eqb_sym 0 b). destruct (N.eqb_spec b 0) as [->|]; [|cbn; ring].
    rewrite <- V0. unfold val, mons_val, marked_val. cbn. rewrite !Rplus_0_r. reflexivity.
  - apply andb_true_iff in G as [G1 G2]. pose proof (pk_tsz _ _ A) as T. destruct tx; [|cbn in T; lia]. injection E as <-.
    unfold vscalar. rewrite <- F. unfold val. cbn [map Rsum fold_right]. rewrite Rmult_0_r. destruct (_ =? _)%N; [|reflexivity].
    destruct o; try discriminate G2; cbn [op_fun]; first [reflexivity|symmetry; first [apply sin_0|apply tan_0|apply sqrt_0]].
Qed.
End Ops.
