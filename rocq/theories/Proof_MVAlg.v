(** The algebra of multivectors: laws of the values, and from them identities between the
    multivectors computed. *)
From Coq Require Import ZArith NArith List Bool Arith Lia ZifyBool ZifyN ZifyNat Reals Lra Sorting.Sorted Sorting.Permutation.
From Verif Require Import Base Model_Numeric Model_Blade Model_Sort Model_MV Model_Product Spec_Numeric Spec_Sort Spec_Clifford Spec_Basis
  Proof_Numeric Proof_Gens Proof_Blade Proof_Blade2 Proof_Blade3 Proof_Blade4 Spec_MV
  Proof_Sort Proof_SortMap Proof_Layout Proof_Sum Proof_Val Proof_Collate Proof_Product Proof_CollateVal
  Proof_ProductVal Proof_Ops Proof_Ops2 Proof_Basis Proof_Ops3 Proof_Poly Proof_Proper.
Import ListNotations.
Local Open Scope nat_scope.

(** ** laws of the bilinear extension *)
Section Bil.
Context (n : nat).
Notation inn a := (a < 2 ^ N.of_nat n)%N.
Definition closed (P : N -> N -> N * Z) : Prop := forall a b, inn a -> inn b -> inn (fst (P a b)).
Lemma bil_kernel P f g c : bilinear P n f g c =
  Rsum (map (fun a => f a * Rsum (map (fun b => g b * kP P a b c)%R (blades n)))%R (blades n)).
Proof.
  unfold bilinear. apply Rsum_ext. intros a _. rewrite <- Rsum_mult_l. apply Rsum_ext. intros b _.
  unfold kP. destruct (_ =? _)%N; ring.
Qed.
Lemma Rsum_mult_r {A} k (f : A -> R) l : Rsum (map (fun a => f a * k)%R l) = (Rsum (map f l) * k)%R.
Proof. rewrite Rmult_comm, <- Rsum_mult_l. apply Rsum_ext. intros. ring. Qed.
Lemma kernel_pick P a b (L : N -> R) : inn (fst (P a b)) ->
  Rsum (map (fun x => kP P a b x * L x)%R (blades n)) = (IZR (snd (P a b)) * L (fst (P a b)))%R.
Proof.
  intros H. rewrite <- (Rsum_single (fun x => IZR (snd (P a b)) * L x)%R (fst (P a b)) (blades n) (blades_nodup n)).
  - apply Rsum_ext. intros x _. unfold kP. destruct (_ =? _)%N; ring.
  - now apply blades_in.
Qed.
(** linear functional of a product *)
Lemma bil_functional P f g (L : N -> R) : closed P ->
  Rsum (map (fun x => bilinear P n f g x * L x)%R (blades n)) =
  Rsum (map (fun a => Rsum (map (fun b => f a * g b * (IZR (snd (P a b)) * L (fst (P a b))))%R (blades n))) (blades n)).
Proof.
  intros C.
  transitivity (Rsum (map (fun x => Rsum (map (fun a => Rsum (map (fun b => f a * g b * (kP P a b x * L x))%R (blades n))) (blades n))) (blades n))).
  { apply Rsum_ext. intros x _. rewrite bil_kernel, <- Rsum_mult_r. apply Rsum_ext. intros a _.
    rewrite Rmult_assoc, <- Rsum_mult_r, <- Rsum_mult_l. apply Rsum_ext. intros b _. ring. }
  rewrite Rsum_swap. apply Rsum_ext. intros a Ha. rewrite Rsum_swap. apply Rsum_ext. intros b Hb.
  rewrite Rsum_mult_l. f_equal. apply kernel_pick. apply C; now apply blades_in.
Qed.
Definition assoc_blades (P : N -> N -> N * Z) : Prop :=
  forall a b c, same_blade (sbmul P (P a b) (c, 1%Z)) (sbmul P (a, 1%Z) (P b c)).
Lemma bil_assoc P f g h c : closed P -> assoc_blades P ->
  bilinear P n (bilinear P n f g) h c = bilinear P n f (bilinear P n g h) c.
Proof.
  intros C A. rewrite bil_kernel, (bil_functional P f g) by exact C. rewrite bil_kernel. apply Rsum_ext. intros a _.
  rewrite (bil_functional P g h (fun y => kP P a y c)) by exact C. rewrite <- Rsum_mult_l. apply Rsum_ext. intros b _.
  rewrite <- !Rsum_mult_l. apply Rsum_ext. intros z _.
  specialize (A a b z). unfold sbmul in A. cbn [fst snd] in A. unfold kP.
  destruct (P a b) as [ab s1] eqn:E1, (P b z) as [bz s2] eqn:E2. cbn [fst snd] in *.
  destruct (P ab z) as [l t1], (P a bz) as [r t2]. cbn [fst snd] in *.
  assert (K : (IZR s1 * (if (l =? c)%N then IZR t1 else 0) = IZR s2 * (if (r =? c)%N then IZR t2 else 0))%R).
  { destruct A as [A|[A1 A2]]; cbn [fst snd] in *.
    - pose proof (f_equal fst A) as A1. pose proof (f_equal snd A) as A2. cbn [fst snd] in A1, A2. rewrite A1.
      destruct (r =? c)%N; [|ring]. rewrite <- !mult_IZR. f_equal.
      rewrite Z.mul_1_r, Z.mul_1_l in A2. exact A2.
    - rewrite Z.mul_1_r in A1. rewrite Z.mul_1_l in A2. assert (X : (IZR s1 * IZR t1 = 0)%R) by (rewrite <- mult_IZR; apply (f_equal IZR); lia).
      assert (Y : (IZR s2 * IZR t2 = 0)%R) by (rewrite <- mult_IZR; apply (f_equal IZR); lia).
      destruct (l =? c)%N, (r =? c)%N; rewrite ?X, ?Y; ring. }
  transitivity (f a * g b * h z * (IZR s1 * (if (l =? c)%N then IZR t1 else 0)))%R; [ring|]. rewrite K. ring.
Qed.
Lemma bil_plus_l P f f' g c : bilinear P n (fun x => f x + f' x)%R g c = (bilinear P n f g c + bilinear P n f' g c)%R.
Proof. rewrite !bil_kernel, <- Rsum_plus. apply Rsum_ext. intros. ring. Qed.
Lemma bil_plus_r P f g g' c : bilinear P n f (fun x => g x + g' x)%R c = (bilinear P n f g c + bilinear P n f g' c)%R.
Proof.
  rewrite !bil_kernel, <- Rsum_plus. apply Rsum_ext. intros a _. rewrite <- Rmult_plus_distr_l, <- Rsum_plus. f_equal.
  apply Rsum_ext. intros. ring.
Qed.
(** a signed exchange of the factors *)
Lemma bil_swap P P' (s : N -> R) f g c :
  (forall a b, inn a -> inn b -> fst (P a b) = fst (P' b a) /\
     (IZR (snd (P a b)) * s (fst (P a b)) = s b * s a * IZR (snd (P' b a)))%R) ->
  (s c * bilinear P n f g c)%R = bilinear P' n (fun b => s b * g b)%R (fun a => s a * f a)%R c.
Proof.
  intros H. unfold bilinear. rewrite Rsum_swap, <- Rsum_mult_l. apply Rsum_ext. intros b Hb. rewrite <- Rsum_mult_l.
  apply Rsum_ext. intros a Ha. apply blades_in in Ha, Hb. destruct (H a b Ha Hb) as [E1 E2]. rewrite <- E1.
  destruct (N.eqb_spec (fst (P a b)) c) as [<-|]; [|ring].
  transitivity (f a * g b * (IZR (snd (P a b)) * s (fst (P a b))))%R; [ring|]. rewrite E2. ring.
Qed.
Lemma bil_unit_l P g c : inn c -> (forall b, P 0%N b = (b, 1%Z)) -> bilinear P n (delta 0) g c = g c.
Proof.
  intros Hc U. rewrite bil_kernel.
  rewrite <- (Rsum_single g c (blades n) (blades_nodup n)) by now apply blades_in.
  transitivity (Rsum (map (fun a => if (0 =? a)%N then Rsum (map (fun b => g b * kP P a b c)%R (blades n)) else 0%R) (blades n))).
  { apply Rsum_ext. intros a _. unfold delta. destruct (0 =? a)%N; ring. }
  rewrite (Rsum_single (fun a => Rsum (map (fun b => g b * kP P a b c)%R (blades n)))); [|apply blades_nodup|].
  - apply Rsum_ext. intros b _. unfold kP. rewrite U. cbn [fst snd]. rewrite N.eqb_sym. destruct (_ =? _)%N; ring.
  - apply blades_in. apply N.neq_0_lt_0, N.pow_nonzero. lia.
Qed.
Lemma bil_unit_r P f c : inn c -> (forall b, P b 0%N = (b, 1%Z)) -> bilinear P n f (delta 0) c = f c.
Proof.
  intros Hc U. rewrite bil_kernel.
  rewrite <- (Rsum_single f c (blades n) (blades_nodup n)) by now apply blades_in.
  apply Rsum_ext. intros a _.
  transitivity (f a * Rsum (map (fun b => if (0 =? b)%N then kP P a b c else 0%R) (blades n)))%R.
  { f_equal. apply Rsum_ext. intros b _. unfold delta. destruct (0 =? b)%N; ring. }
  rewrite (Rsum_single (fun b => kP P a b c)); [|apply blades_nodup|].
  - unfold kP. rewrite U. cbn [fst snd]. rewrite N.eqb_sym. destruct (_ =? _)%N; ring.
  - apply blades_in. apply N.neq_0_lt_0, N.pow_nonzero. lia.
Qed.
End Bil.

(** ** from flat to structured *)
Lemma rr_ok {X Y} (Q : X -> Y -> Prop) x y a : rr Q x y -> x = Ok a -> exists b, y = Ok b /\ Q a b.
Proof. intros H ->. destruct y; cbn in H; [eauto|contradiction]. Qed.
Lemma rr_okr {X Y} (Q : X -> Y -> Prop) x y b : rr Q x y -> y = Ok b -> exists a, x = Ok a /\ Q a b.
Proof. intros H ->. destruct x; cbn in H; [eauto|contradiction]. Qed.
Lemma sum_flat md x y z tx ty : packed x tx -> packed y ty -> sum md x y = Ok z ->
  exists tz, ss_terms md tx ty = Ok tz /\ packed z tz.
Proof.
  intros X Y H. rewrite (sum_eq md x y tx ty X Y) in H. destruct (ss_terms md tx ty) as [t|]; cbn [bind] in H; [|discriminate].
  injection H as <-. exists t. split; [reflexivity|apply pack_packed].
Qed.
Lemma product_flat md P x y z tx ty : packed x tx -> packed y ty -> product md P x y = Ok z ->
  exists tz, s_product md P tx ty = Ok tz /\ packed z tz.
Proof. intros X Y H. destruct (rr_ok _ _ _ _ (product_eq md P x y tx ty X Y) H) as (t & E & Z & _). eauto. Qed.
Lemma negate_flat x z tx : packed x tx -> negate x = Ok z -> exists tz, s_negate tx = Ok tz /\ packed z tz.
Proof. intros X H. destruct (rr_ok _ _ _ _ (negate_eq x tx X) H) as (t & E & Z & _). eauto. Qed.
Lemma reverse_flat x z tx : packed x tx -> reverse x = Ok z -> exists tz, s_reverse tx = Ok tz /\ packed z tz.
Proof. intros X H. destruct (rr_ok _ _ _ _ (reverse_eq x tx X) H) as (t & E & Z & _). eauto. Qed.
Lemma scale_flat md q x z tx : packed x tx -> scale md q x = Ok z ->
  exists tz, s_mapt (fun _ => Some (rmul md q)) tx = Ok tz /\ packed z tz.
Proof. intros X H. destruct (rr_ok _ _ _ _ (scale_eq md q x tx X) H) as (t & E & Z & _). eauto. Qed.
Lemma dual_flat md dim x z tx : packed x tx -> poincare_dual md dim x = Ok z ->
  exists tz, s_dual md dim tx = Ok tz /\ packed z tz.
Proof. intros X H. destruct (rr_ok _ _ _ _ (poincare_dual_eq md dim x tx X) H) as (t & E & Z & _). eauto. Qed.
Lemma change_flat md d x z tx : packed x tx -> change_basis md d x = Ok z ->
  exists tz, s_change md d tx = Ok tz /\ packed z tz.
Proof. intros X H. destruct (rr_ok _ _ _ _ (change_basis_eq md d x tx X) H) as (t & E & Z). eauto. Qed.

(** ** values of the operations *)
Lemma negate_val rho tx t b : mv_ok tx -> s_negate tx = Ok t -> val rho t b = (- val rho tx b)%R /\ mv_ok t.
Proof.
  intros F H. apply (s_mapt_val rho _ (fun _ => (-1)%R) tx b) in H as [V W]; auto; [|intros _; apply multiplies_neg].
  rewrite V. split; [ring|assumption].
Qed.
Definition rsgn (b : N) : R := IZR (rev_sign (grade b)).
Lemma reverse_val rho tx t b : mv_ok tx -> s_reverse tx = Ok t -> val rho t b = (rsgn b * val rho tx b)%R /\ mv_ok t.
Proof.
  intros F H. apply (s_mapt_val rho _ rsgn tx b) in H as [V W]; auto.
  intros e. unfold rsgn. rewrite <- reverse_negates_sign. destruct (reverse_negates e); [apply multiplies_neg|reflexivity].
Qed.
Lemma scale_val rho q tx t b : den q <> 0%Z -> mv_ok tx -> s_mapt (fun _ => Some (rmul Exact q)) tx = Ok t ->
  val rho t b = (rv q * val rho tx b)%R /\ mv_ok t.
Proof.
  intros D F H. apply (s_mapt_val rho _ (fun _ => rv q) tx b) in H as [V W]; auto. intros _. now apply multiplies_mul.
Qed.
Lemma defined_pos rho ts : (forall i, (0 < rho i)%R) -> defined rho ts.
Proof. intros H m i _ _. left. specialize (H (id i)). lra. Qed.

(** ** identities between computed multivectors *)
Section Laws.
Context (n : nat) (P : N -> N -> N * Z) (C : closed n P).
Ltac ident := eapply (values_identify n n); [eauto using sum_proper, product_proper|eauto using sum_proper, product_proper|].
Lemma s_sum_comm tx ty a b : proper n tx -> proper n ty -> ss_terms Exact tx ty = Ok a -> ss_terms Exact ty tx = Ok b -> a = b.
Proof.
  intros X Y A B. ident. intros rho _ c. pose proof X as [_ X2 _ _ _]. pose proof Y as [_ Y2 _ _ _].
  rewrite (proj1 (ss_terms_val rho c _ _ _ X2 Y2 A)), (proj1 (ss_terms_val rho c _ _ _ Y2 X2 B)). ring.
Qed.
Lemma s_sum_assoc tx ty tz xy yz l r : proper n tx -> proper n ty -> proper n tz ->
  ss_terms Exact tx ty = Ok xy -> ss_terms Exact xy tz = Ok l -> ss_terms Exact ty tz = Ok yz -> ss_terms Exact tx yz = Ok r -> l = r.
Proof.
  intros X Y Z A B D E. pose proof (sum_proper _ _ _ _ X Y A) as PA. pose proof (sum_proper _ _ _ _ Y Z D) as PD.
  apply (values_identify n n); [exact (sum_proper _ _ _ _ PA Z B)|exact (sum_proper _ _ _ _ X PD E)|].
  intros rho _ c. apply pr_ok in X, Y, Z, PA, PD.
  rewrite (proj1 (ss_terms_val rho c _ _ _ PA Z B)), (proj1 (ss_terms_val rho c _ _ _ X PD E)),
    (proj1 (ss_terms_val rho c _ _ _ X Y A)), (proj1 (ss_terms_val rho c _ _ _ Y Z D)). ring.
Qed.
Lemma product_pos rho tx ty t c : (forall i, (0 < rho i)%R) -> proper n tx -> proper n ty -> s_product Exact P tx ty = Ok t ->
  val rho t c = bilinear P n (val rho tx) (val rho ty) c.
Proof.
  intros R0 X Y H. exact (proj1 (s_product_val P rho n c tx ty t (pr_ok _ _ X) (pr_ok _ _ Y) (defined_pos _ _ R0) (defined_pos _ _ R0)
    (pr_dim _ _ X) (pr_dim _ _ Y) H)).
Qed.
Lemma s_product_assoc tx ty tz xy yz l r : assoc_blades P -> proper n tx -> proper n ty -> proper n tz ->
  s_product Exact P tx ty = Ok xy -> s_product Exact P xy tz = Ok l ->
  s_product Exact P ty tz = Ok yz -> s_product Exact P tx yz = Ok r -> l = r.
Proof.
  intros AS X Y Z A B D E. pose proof (product_proper P _ _ _ _ C X Y A) as PA. pose proof (product_proper P _ _ _ _ C Y Z D) as PD.
  apply (values_identify n n); [exact (product_proper P _ _ _ _ C PA Z B)|exact (product_proper P _ _ _ _ C X PD E)|].
  intros rho R0 c. rewrite (product_pos rho _ _ _ c R0 PA Z B), (product_pos rho _ _ _ c R0 X PD E).
  rewrite (bil_ext n P (val rho xy) (bilinear P n (val rho tx) (val rho ty)) (val rho tz) (val rho tz))
    by (intros; first [reflexivity|now apply product_pos]).
  rewrite (bil_ext n P (val rho tx) (val rho tx) (val rho yz) (bilinear P n (val rho ty) (val rho tz)))
    by (intros; first [reflexivity|now apply product_pos]).
  now apply bil_assoc.
Qed.
Lemma s_product_distr_l tx ty tz yz l xy xz r : proper n tx -> proper n ty -> proper n tz ->
  ss_terms Exact ty tz = Ok yz -> s_product Exact P tx yz = Ok l ->
  s_product Exact P tx ty = Ok xy -> s_product Exact P tx tz = Ok xz -> ss_terms Exact xy xz = Ok r -> l = r.
Proof.
  intros X Y Z A B D E F. pose proof (sum_proper _ _ _ _ Y Z A) as PA.
  pose proof (product_proper P _ _ _ _ C X Y D) as PD. pose proof (product_proper P _ _ _ _ C X Z E) as PE.
  apply (values_identify n n); [exact (product_proper P _ _ _ _ C X PA B)|exact (sum_proper _ _ _ _ PD PE F)|].
  intros rho R0 c. rewrite (product_pos rho _ _ _ c R0 X PA B), (proj1 (ss_terms_val rho c _ _ _ (pr_ok _ _ PD) (pr_ok _ _ PE) F)),
    (product_pos rho _ _ _ c R0 X Y D), (product_pos rho _ _ _ c R0 X Z E), <- bil_plus_r.
  apply bil_ext; [reflexivity|]. intros b _. apply (ss_terms_val rho b _ _ _ (pr_ok _ _ Y) (pr_ok _ _ Z) A).
Qed.
Lemma s_product_distr_r tx ty tz xy l xz yz r : proper n tx -> proper n ty -> proper n tz ->
  ss_terms Exact tx ty = Ok xy -> s_product Exact P xy tz = Ok l ->
  s_product Exact P tx tz = Ok xz -> s_product Exact P ty tz = Ok yz -> ss_terms Exact xz yz = Ok r -> l = r.
Proof.
  intros X Y Z A B D E F. pose proof (sum_proper _ _ _ _ X Y A) as PA.
  pose proof (product_proper P _ _ _ _ C X Z D) as PD. pose proof (product_proper P _ _ _ _ C Y Z E) as PE.
  apply (values_identify n n); [exact (product_proper P _ _ _ _ C PA Z B)|exact (sum_proper _ _ _ _ PD PE F)|].
  intros rho R0 c. rewrite (product_pos rho _ _ _ c R0 PA Z B), (proj1 (ss_terms_val rho c _ _ _ (pr_ok _ _ PD) (pr_ok _ _ PE) F)),
    (product_pos rho _ _ _ c R0 X Z D), (product_pos rho _ _ _ c R0 Y Z E), <- bil_plus_l.
  apply bil_ext; [|reflexivity]. intros b _. apply (ss_terms_val rho b _ _ _ (pr_ok _ _ X) (pr_ok _ _ Y) A).
Qed.
End Laws.

(** ** reversion *)
Lemma rsgn_sq b : (rsgn b * rsgn b = 1)%R.
Proof. unfold rsgn, rev_sign, neg1_pow. destruct (Nat.even _); ring. Qed.
Lemma s_reverse_involutive n tx a b : proper n tx -> s_reverse tx = Ok a -> s_reverse a = Ok b -> b = tx.
Proof.
  intros X A B. pose proof (reverse_proper _ _ _ X A) as PA. apply (values_identify n n); [exact (reverse_proper _ _ _ PA B)|exact X|].
  intros rho _ c. rewrite (proj1 (reverse_val rho _ _ c (pr_ok _ _ PA) B)), (proj1 (reverse_val rho _ _ c (pr_ok _ _ X) A)).
  rewrite <- Rmult_assoc, rsgn_sq. ring.
Qed.
Lemma s_reverse_product n m tx ty xy l rx ry r : proper n tx -> proper n ty ->
  s_product Exact (geometric m) tx ty = Ok xy -> s_reverse xy = Ok l ->
  s_reverse tx = Ok rx -> s_reverse ty = Ok ry -> s_product Exact (geometric m) ry rx = Ok r -> l = r.
Proof.
  intros X Y A B D E F. assert (C : closed n (geometric m)) by (intros a b; apply geometric_closed_dim).
  pose proof (product_proper _ _ _ _ _ C X Y A) as PA.
  pose proof (reverse_proper _ _ _ X D) as PD. pose proof (reverse_proper _ _ _ Y E) as PE.
  apply (values_identify n n); [exact (reverse_proper _ _ _ PA B)|exact (product_proper _ _ _ _ _ C PE PD F)|].
  intros rho R0 c. rewrite (proj1 (reverse_val rho _ _ c (pr_ok _ _ PA) B)), (product_pos n (geometric m) rho _ _ _ c R0 X Y A),
    (product_pos n (geometric m) rho _ _ _ c R0 PE PD F).
  rewrite (bil_swap n (geometric m) (geometric m) rsgn).
  - apply bil_ext; intros b _; symmetry; [apply (reverse_val rho _ _ b (pr_ok _ _ Y) E)|apply (reverse_val rho _ _ b (pr_ok _ _ X) D)].
  - intros a b _ _. pose proof (reverse_antiautomorphism m a b) as R1. destruct (geometric m a b) as [ab s], (geometric m b a) as [ba t].
    cbn [fst snd]. destruct R1 as [E1 E2]. split; [assumption|]. unfold rsgn. rewrite !reverse_negates_sign in E2.
    rewrite <- !mult_IZR. now rewrite E2.
Qed.

(** ** duality *)
Lemma pc_pair e n : poincare_complement e n = (fst (poincare_complement e n), snd (poincare_complement e n)).
Proof. now destruct (poincare_complement e n). Qed.
Lemma s_dual_double rho n tx a b : mv_ok tx -> s_dual Exact (N.of_nat n) tx = Ok a -> s_dual Exact (N.of_nat n) a = Ok b ->
  forall e, (e < 2 ^ N.of_nat n)%N -> val rho b e = (IZR (neg1_pow (grade e * (n - grade e))) * val rho tx e)%R.
Proof.
  intros F A B e He. destruct (s_dual_val rho _ _ _ F A) as [VA FA]. destruct (s_dual_val rho _ _ _ FA B) as [VB _].
  pose proof (poincare_double e (N.of_nat n) He) as D. specialize (VA e). specialize (VB (fst (poincare_complement e (N.of_nat n)))).
  destruct (poincare_complement e (N.of_nat n)) as [c s]. cbn [fst snd] in *.
  destruct (poincare_complement c (N.of_nat n)) as [e' t]. cbn [fst snd] in *. destruct D as [-> D].
  rewrite VB, VA, Nat2N.id in *. rewrite <- D, mult_IZR. ring.
Qed.

(** ** x + (-x) *)
Lemma radd_neg md q q' r : rneg q = Ok q' -> radd md q q' = Ok r -> r = zero.
Proof.
  intros N0 H. apply rneg_ok in N0. subst q'. unfold radd in H. inv_all. subst. cbn [num den] in *.
  replace (num q * den q + - num q * den q =? 0)%Z with true in H by (symmetry; apply Z.eqb_eq; ring). now injection H as <-.
Qed.
Lemma smon_lt_irrefl a b : sdeg a = sdeg b -> sinds a = sinds b -> ~ smon_lt a b.
Proof.
  intros E1 E2 [H|[_ H]]; [rewrite E1 in H; lia|]. rewrite E2 in H. remember (map ind_key (sinds b)) as k. clear - H.
  induction k as [|x k IH]; inversion H; subst; auto. unfold key_lt in *. destruct x; cbn in *; lia.
Qed.
Lemma ss_mons_neg md ms : forall ms' t, Forall degs_ok ms -> smapq rneg ms = Ok ms' -> ss_mons md ms ms' = Ok t -> t = [].
Proof.
  induction ms as [|m ms IH]; intros ms' t F H S0.
  - injection H as <-. rewrite ss_mons_nil_l in S0. now injection S0 as <-.
  - rewrite smapq_cons in H. destruct (rneg (sq m)) as [q|] eqn:Q; cbn [bind] in H; [|discriminate].
    destruct (smapq rneg ms) as [r|]; cbn [bind] in H; [|discriminate]. injection H as <-.
    inversion_clear F as [|? ? F1 F2]. rewrite ss_mons_cons in S0.
    destruct (s_side m _) as [s|] eqn:SS; cbn [bind] in S0; [|discriminate].
    apply s_side_spec in SS; [|exact F1|exact F1]. destruct s.
    + exfalso. revert SS. now apply smon_lt_irrefl.
    + exfalso. revert SS. now apply smon_lt_irrefl.
    + cbn [sq] in S0. destruct (radd md (sq m) q) as [z|] eqn:Z; cbn [bind] in S0; [|discriminate]. apply (radd_neg _ _ _ _ Q) in Z. subst z.
      destruct (ss_mons md ms r) as [u|] eqn:U; cbn [bind] in S0; [|discriminate]. apply (IH _ _ F2 eq_refl) in U. subst u. now injection S0 as <-.
Qed.
Lemma s_sum_neg md ts : forall ts' t, tdegs_ok ts -> s_negate ts = Ok ts' -> ss_terms md ts ts' = Ok t -> t = [].
Proof.
  induction ts as [|a ts IH]; intros ts' t F H S0.
  - injection H as <-. rewrite ss_terms_nil_l in S0. now injection S0 as <-.
  - unfold s_negate in H. rewrite s_mapt_cons in H. unfold s_upd in H. destruct (smapq rneg (snd a)) as [l|] eqn:Q; cbn [bind] in H; [|discriminate].
    destruct (s_mapt _ ts) as [r|] eqn:R0; cbn [bind] in H; [|discriminate]. injection H as <-. inversion_clear F as [|? ? F1 F2].
    rewrite ss_terms_cons in S0. cbn [fst snd] in S0. rewrite N.eqb_refl in S0.
    destruct (ss_mons md (snd a) l) as [u|] eqn:U; cbn [bind] in S0; [|discriminate]. apply (ss_mons_neg _ _ _ _ F1 Q) in U. subst u.
    destruct (ss_terms md ts r) as [w|] eqn:W; cbn [bind] in S0; [|discriminate]. apply (IH _ _ F2 R0) in W. subst w. now injection S0 as <-.
Qed.
