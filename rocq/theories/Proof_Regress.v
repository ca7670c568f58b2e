(** The dual of the wedge of the duals is Grassmann's regressive product up to the sign of the
    double dual. *)
From Coq Require Import ZArith NArith List Bool Arith Lia ZifyBool ZifyN ZifyNat Reals Lra Sorting.Permutation FunctionalExtensionality.
From Verif Require Import Base Model_Numeric Model_Blade Spec_Numeric Spec_Clifford Spec_Basis Spec_MV Spec_Expr Spec_Regress
  Proof_Numeric Proof_Gens Proof_Blade Proof_Blade2 Proof_Blade3 Proof_Blade4 Proof_Val Proof_CollateVal Proof_ProductVal Proof_Basis Proof_MVAlg Proof_MVFlat Proof_Expr.
Import ListNotations.
Local Open Scope nat_scope.

(** ** inversions of unions *)
Lemma inv_perm_l u u' v : Permutation u u' -> inversions u v = inversions u' v.
Proof. induction 1; rewrite ?inversions_cons; lia. Qed.
Lemma inv_perm_r u v v' : Permutation v v' -> inversions u v = inversions u v'.
Proof. induction 1; rewrite ?inversions_cons_r; lia. Qed.
Lemma inv_app_r u v v' : inversions u (v ++ v') = inversions u v + inversions u v'.
Proof. induction v as [|j v IH]; cbn [app]; [rewrite inversions_nil_r; reflexivity|]. rewrite !inversions_cons_r, IH. lia. Qed.
Lemma nodup_app {A} (u v : list A) : NoDup u -> NoDup v -> (forall i, In i u -> ~ In i v) -> NoDup (u ++ v).
Proof.
  induction u as [|i u IH]; intros U W D; cbn [app]; [exact W|]. inversion U as [|? ? NI NU]; subst. constructor.
  - rewrite in_app_iff. intros [X|X]; [exact (NI X)|exact (D i (or_introl eq_refl) X)].
  - apply IH; auto. intros j J. apply D. now right.
Qed.
Lemma gens_union a b : N.land a b = 0%N -> Permutation (gens (N.lor a b)) (gens a ++ gens b).
Proof.
  intros D. apply NoDup_Permutation.
  - apply sorted_NoDup, gens_sorted.
  - apply nodup_app; try apply sorted_NoDup, gens_sorted. exact (disjoint_gens a b D).
  - intros i. rewrite in_app_iff, !gens_In, N.lor_spec, orb_true_iff. reflexivity.
Qed.

(** ** the rule for blades *)
Section Blades.
Variable n : nat.
Notation full := (2 ^ N.of_nat n - 1)%N.
Notation co := (co_blade n).
Notation ok b := (b < 2 ^ N.of_nat n)%N.
Definition sg (a b : N) : Z := neg1_pow (inversions (gens a) (gens b)).
Lemma bit_above a i : ok a -> (N.of_nat n <= i)%N -> N.testbit a i = false.
Proof.
  intros H I. destruct (N.eq_dec a 0) as [->|Z0]; [apply N.bits_0|]. apply N.bits_above_log2. apply N.log2_lt_pow2 in H; lia.
Qed.
Lemma full_bit i : N.testbit full i = (i <? N.of_nat n)%N.
Proof. apply ones_bits. Qed.
Lemma co_bit a i : ok a -> N.testbit (co a) i = ((i <? N.of_nat n)%N && negb (N.testbit a i)).
Proof.
  intros H. unfold co_blade. rewrite N.lxor_spec, full_bit. destruct (N.ltb_spec i (N.of_nat n)); [now destruct (N.testbit a i)|].
  rewrite (bit_above a i) by assumption. reflexivity.
Qed.
Lemma co_ok a : ok a -> ok (co a). Proof. apply complement_lt. Qed.
Lemma co_co a : ok a -> co (co a) = a.
Proof. intros H. unfold co_blade. rewrite <- N.lxor_assoc, N.lxor_nilpotent. apply N.lxor_0_l. Qed.
Lemma co_inj a b : ok a -> ok b -> co a = co b -> a = b.
Proof. intros A B E. rewrite <- (co_co a A), <- (co_co b B). now f_equal. Qed.
(** the union of two blades is everything when their complements are disjoint *)
Lemma lor_full a b : ok a -> ok b -> (N.lor a b = full <-> N.land (co a) (co b) = 0%N).
Proof.
  intros A B. split; intros E.
  - apply N.bits_inj. intros i. rewrite N.land_spec, N.bits_0, !co_bit by assumption. apply (f_equal (fun x => N.testbit x i)) in E.
    rewrite N.lor_spec, full_bit in E. destruct (_ <? _)%N, (N.testbit a i), (N.testbit b i); auto.
  - apply N.bits_inj. intros i. apply (f_equal (fun x => N.testbit x i)) in E.
    rewrite N.land_spec, N.bits_0, !co_bit in E by assumption. rewrite N.lor_spec, full_bit. destruct (N.ltb_spec i (N.of_nat n)).
    + now destruct (N.testbit a i), (N.testbit b i).
    + now rewrite !bit_above by assumption.
Qed.
Lemma diff_co a b : ok a -> ok b -> N.lor a b = full -> co a = N.ldiff b a.
Proof.
  intros A B E. apply N.bits_inj. intros i. rewrite co_bit, N.ldiff_spec by assumption. apply (f_equal (fun x => N.testbit x i)) in E.
  rewrite N.lor_spec, full_bit in E. rewrite <- E. now destruct (N.testbit a i), (N.testbit b i).
Qed.
Lemma co_land a b : ok a -> ok b -> co (N.land a b) = N.lor (co a) (co b).
Proof.
  intros A B. assert (ok (N.land a b)) as AB.
  { destruct (N.eq_dec (N.land a b) 0) as [->|Z0]; [lia|]. apply N.log2_lt_pow2; [lia|]. 
    apply N.lt_nge. intros G. pose proof (N.bit_log2 (N.land a b) Z0) as T. rewrite N.land_spec, (bit_above a) in T by lia. discriminate. }
  apply N.bits_inj. intros i. rewrite N.lor_spec, !co_bit, N.land_spec by assumption. now destruct (_ <? _)%N, (N.testbit a i), (N.testbit b i).
Qed.
Lemma land_ok a b : ok a -> ok (N.land a b).
Proof.
  intros A. destruct (N.eq_dec (N.land a b) 0) as [->|Z0]; [lia|]. apply N.log2_lt_pow2; [lia|]. 
  apply N.lt_nge. intros G. pose proof (N.bit_log2 (N.land a b) Z0) as T. rewrite N.land_spec, (bit_above a) in T by lia. discriminate.
Qed.
Lemma lxor_disjoint a b : N.land a b = 0%N -> N.lxor a b = N.lor a b.
Proof. intros D. now rewrite N.lxor_lor. Qed.
Lemma neg1_even a b : Nat.even a = Nat.even b -> neg1_pow a = neg1_pow b.
Proof. unfold neg1_pow. now intros ->. Qed.
Lemma flip_co a b : N.land a b = 0%N -> inversions (gens a) (gens b) + inversions (gens b) (gens a) = grade a * grade b.
Proof. intros D. apply inversions_flip. exact (disjoint_gens a b D). Qed.
(** dualizing the wedge of the duals of two blades *)
Lemma meet_sign a b : ok a -> ok b -> N.lor a b = full ->
  (sg (N.lor (co a) (co b)) (N.land a b) * (sg a (co a) * sg b (co b) * sg (co a) (co b)) =
   neg1_pow (grade (N.land a b) * (n - grade (N.land a b))) * sg (N.ldiff a b) (N.ldiff b a))%Z.
Proof.
  intros A B E. assert (E' : N.lor b a = full) by now rewrite N.lor_comm. pose proof (proj1 (lor_full a b A B) E) as D.
  rewrite <- (diff_co a b A B E), <- (diff_co b a B A E'). set (p := co a) in *. set (q := co b) in *. set (c := N.land a b) in *.
  assert (ca : N.land c q = 0%N).
  { apply N.bits_inj. intros i. unfold c, q. rewrite !N.land_spec, N.bits_0, co_bit by assumption. now destruct (N.testbit a i), (N.testbit b i), (_ <? _)%N. }
  assert (cb : N.land c p = 0%N).
  { apply N.bits_inj. intros i. unfold c, p. rewrite !N.land_spec, N.bits_0, co_bit by assumption. now destruct (N.testbit a i), (N.testbit b i), (_ <? _)%N. }
  assert (UA : a = N.lor q c).
  { apply N.bits_inj. intros i. unfold c, q. rewrite (diff_co b a B A E'), N.lor_spec, N.ldiff_spec, N.land_spec. now destruct (N.testbit a i), (N.testbit b i). }
  assert (UB : b = N.lor p c).
  { apply N.bits_inj. intros i. unfold c, p. rewrite (diff_co a b A B E), N.lor_spec, N.ldiff_spec, N.land_spec. now destruct (N.testbit a i), (N.testbit b i). }
  pose proof (gens_union q c ltac:(now rewrite N.land_comm)) as GA. rewrite <- UA in GA.
  pose proof (gens_union p c ltac:(now rewrite N.land_comm)) as GB. rewrite <- UB in GB.
  pose proof (gens_union p q D) as GC.
  assert (GR : grade p + grade q + grade c = n).
  { pose proof (grade_complement (N.land a b) (N.of_nat n) (land_ok a b A)) as G. rewrite Nat2N.id in G. change (N.lxor _ (N.land a b)) with (co (N.land a b)) in G.
    rewrite co_land in G by assumption. fold p q c in G. unfold grade in *. apply Permutation_length in GC. rewrite app_length in GC. lia. }
  unfold sg. rewrite (inv_perm_l _ _ _ GC), (inv_perm_l _ _ (gens p) GA), (inv_perm_l _ _ (gens q) GB), !inversions_app.
  pose proof (flip_co c p cb) as F1. pose proof (flip_co c q ca) as F2.
  rewrite <- !neg1_pow_add. apply neg1_even.
  replace (inversions (gens p) (gens c) + inversions (gens q) (gens c) +
     (inversions (gens q) (gens p) + inversions (gens c) (gens p) + (inversions (gens p) (gens q) + inversions (gens c) (gens q)) + inversions (gens p) (gens q)))
    with (grade c * (n - grade c) + inversions (gens q) (gens p) + 2 * inversions (gens p) (gens q)).
  - rewrite Nat.even_add, Nat.even_mul. cbn [Nat.even orb]. now destruct (Nat.even (_ + _)).
  - replace (n - grade c) with (grade p + grade q) by lia. lia.
Qed.
End Blades.

(** ** values *)
Section Values.
Variable n : nat.
Notation full := (2 ^ N.of_nat n - 1)%N.
Notation co := (co_blade n).
Notation ok b := (b < 2 ^ N.of_nat n)%N.
Lemma blades_co : Permutation (map co (blades n)) (blades n).
Proof.
  apply NoDup_Permutation.
  - assert (G : forall l, NoDup l -> (forall a, In a l -> ok a) -> NoDup (map co l)).
    { induction 1 as [|a l NI ND IH]; intros K; cbn [map]; constructor.
      - intros I. apply in_map_iff in I as (b & E & I). apply NI. rewrite <- (co_inj n b a); auto; apply K; [now right|now left].
      - apply IH. intros b I. apply K. now right. }
    apply G; [apply blades_nodup|]. intros a. apply blades_in.
  - apply blades_nodup.
  - intros a. rewrite in_map_iff, blades_in. split.
    + intros (b & <- & I). apply co_ok. now apply blades_in.
    + intros A. exists (co a). split; [now apply co_co|]. apply blades_in. now apply co_ok.
Qed.
Lemma Rsum_co (f : N -> R) : Rsum (map f (blades n)) = Rsum (map (fun a => f (co a)) (blades n)).
Proof. rewrite <- (map_map co f). apply Rsum_perm. apply Permutation_map. symmetry. apply blades_co. Qed.
Lemma vdual_co v a : ok a -> vdual n v (co a) = (IZR (sg a (co a)) * v a)%R.
Proof.
  intros A. unfold vdual. pose proof (co_ok n a A) as C. apply N.ltb_lt in C. rewrite C, co_co by assumption. reflexivity.
Qed.
Definition vvee (m : metric) (v w : V) : V := vdual (dim m) (vprod m Exterior (vdual (dim m) v) (vdual (dim m) w)).
End Values.
Theorem vee_is_twisted_meet m v w : vvee m v w = vtwist (dim m) (vmeet (dim m) v w).
Proof.
  set (n := dim m). apply functional_extensionality. intros c. unfold vvee. fold n. unfold vdual at 1.
  destruct (N.ltb_spec c (2 ^ N.of_nat n)) as [C|C].
  - unfold vprod. fold n. unfold vtwist, vmeet, bilinear. fold (sg (co_blade n c) c). rewrite (Rsum_co n), <- !Rsum_mult_l. apply Rsum_ext. intros a A. apply blades_in in A.
    rewrite (Rsum_co n), <- !Rsum_mult_l. apply Rsum_ext. intros b B. apply blades_in in B.
    rewrite !vdual_co by assumption. cbn [blade_product]. rewrite exterior_closed. unfold meet. fold (sg (N.ldiff a b) (N.ldiff b a)) (sg (co_blade n a) (co_blade n b)).
    pose proof (lor_full n a b A B) as LF. destruct (N.eqb_spec (N.land (co_blade n a) (co_blade n b)) 0) as [D|D].
    + pose proof (proj2 LF D) as E. rewrite E, N.eqb_refl. cbn [fst snd]. rewrite lxor_disjoint, <- co_land by assumption.
      pose proof (land_ok n a b A) as L. destruct (N.eqb_spec (N.land a b) c) as [<-|NE].
      * rewrite N.eqb_refl. pose proof (meet_sign n a b A B E) as M. rewrite <- co_land in M by assumption. apply (f_equal IZR) in M. rewrite !mult_IZR in M.
        transitivity (v a * w b * (IZR (sg (co_blade n (N.land a b)) (N.land a b)) * (IZR (sg a (co_blade n a)) * IZR (sg b (co_blade n b)) * IZR (sg (co_blade n a) (co_blade n b)))))%R; [ring|].
        rewrite M. ring.
      * destruct (N.eqb_spec (co_blade n (N.land a b)) (co_blade n c)) as [X|X]; [|ring]. exfalso. apply NE. exact (co_inj n _ _ L C X).
    + destruct (N.eqb_spec (N.lor a b) (2 ^ N.of_nat n - 1)) as [X|X]; [tauto|]. cbn [fst snd]. destruct (_ =? _)%N, (_ =? _)%N; ring.
  - unfold vtwist, vmeet, bilinear. rewrite Rsum_0; [ring|]. intros a A. apply Rsum_0. intros b B. apply blades_in in A.
    destruct (N.eqb_spec (fst (meet n a b)) c) as [X|X]; [|reflexivity]. exfalso. subst c. unfold meet in C.
    pose proof (land_ok n a b A). destruct (_ =? _)%N; cbn [fst] in C; lia.
Qed.

(** ** the double dual and De Morgan's law *)
Section Laws.
Variable n : nat.
Notation full := (2 ^ N.of_nat n - 1)%N.
Notation co := (co_blade n).
Notation ok b := (b < 2 ^ N.of_nat n)%N.
Lemma grade_co a : ok a -> grade (co a) + grade a = n.
Proof. intros A. pose proof (grade_complement a (N.of_nat n) A) as G. now rewrite Nat2N.id in G. Qed.
Lemma twist_sq b : (IZR (neg1_pow (grade b * (n - grade b))) * IZR (neg1_pow (grade b * (n - grade b))) = 1)%R.
Proof. rewrite <- mult_IZR, neg1_pow_sq. reflexivity. Qed.
Lemma twist_twist v : vtwist n (vtwist n v) = v.
Proof. apply functional_extensionality. intros b. unfold vtwist. rewrite <- Rmult_assoc, twist_sq. ring. Qed.
Lemma twist_dual v : vdual n (vtwist n v) = vtwist n (vdual n v).
Proof.
  apply functional_extensionality. intros b. unfold vdual, vtwist. destruct (N.ltb_spec b (2 ^ N.of_nat n)) as [B|B]; [|ring].
  pose proof (grade_co b B) as G. replace (grade (co b) * (n - grade (co b))) with (grade b * (n - grade b)); [ring|].
  replace (n - grade b) with (grade (co b)) by lia. replace (n - grade (co b)) with (grade b) by lia. lia.
Qed.
Lemma dual_in v : v_in n (vdual n v).
Proof. intros b B. unfold vdual. destruct (N.ltb_spec b (2 ^ N.of_nat n)); [lia|reflexivity]. Qed.
Lemma double_dual v : v_in n v -> vdual n (vdual n v) = vtwist n v.
Proof.
  intros I. apply functional_extensionality. intros b. unfold vtwist. destruct (N.ltb_spec b (2 ^ N.of_nat n)) as [B|B].
  - unfold vdual at 1. replace (b <? _)%N with true by lia. rewrite vdual_co by assumption. rewrite <- Rmult_assoc, <- mult_IZR.
    unfold sg. rewrite <- neg1_pow_add. rewrite flip_co.
    + replace (grade (co b)) with (n - grade b) by (pose proof (grade_co b B); lia). now rewrite Nat.mul_comm.
    + rewrite N.land_comm. now apply complement_disjoint.
  - rewrite (dual_in _ b B), (I b B). ring.
Qed.
Lemma twist_in v : v_in n v -> v_in n (vtwist n v).
Proof. intros I b B. unfold vtwist. rewrite (I b B). ring. Qed.
Lemma meet_in v w : v_in n (vmeet n v w).
Proof.
  intros c C. unfold vmeet, bilinear. apply Rsum_0. intros a A. apply Rsum_0. intros b B. apply blades_in in A.
  destruct (N.eqb_spec (fst (meet n a b)) c) as [X|X]; [|reflexivity]. exfalso. subst c. unfold meet in C.
  pose proof (land_ok n a b A). destruct (_ =? _)%N; cbn [fst] in C; lia.
Qed.
Lemma dual_inj v w : v_in n v -> v_in n w -> vdual n v = vdual n w -> v = w.
Proof.
  intros I J E. apply (f_equal (vdual n)) in E. rewrite !double_dual in E by assumption. apply (f_equal (vtwist n)) in E. now rewrite !twist_twist in E.
Qed.
End Laws.
Lemma prod_in m k v w : v_in (dim m) (vprod m k v w).
Proof.
  intros c C. unfold vprod, bilinear. apply Rsum_0. intros a A. apply Rsum_0. intros b B. apply blades_in in A, B.
  destruct (N.eqb_spec (fst (blade_product m k a b)) c) as [X|X]; [|reflexivity]. exfalso. subst c.
  pose proof (blade_product_closed m k (dim m) a b A B). lia.
Qed.
Theorem de_morgan m v w : vdual (dim m) (vmeet (dim m) v w) = vprod m Exterior (vdual (dim m) v) (vdual (dim m) w).
Proof.
  set (n := dim m). rewrite <- (twist_twist n (vmeet n v w)). unfold n at 2 3. rewrite <- vee_is_twisted_meet. fold n. rewrite twist_dual.
  unfold vvee. fold n. rewrite double_dual by apply prod_in. apply twist_twist.
Qed.
Theorem meet_assoc m u v w : vmeet (dim m) (vmeet (dim m) u v) w = vmeet (dim m) u (vmeet (dim m) v w).
Proof. apply (dual_inj (dim m)); try apply meet_in. now rewrite !de_morgan, vwedge_assoc. Qed.
(** the pseudoscalar is the unit of the meet *)
Lemma meet_full_l n b : (b < 2 ^ N.of_nat n)%N -> meet n (2 ^ N.of_nat n - 1) b = (b, 1%Z).
Proof.
  intros B. unfold meet. assert (L : N.lor (2 ^ N.of_nat n - 1) b = (2 ^ N.of_nat n - 1)%N).
  { apply N.bits_inj. intros i. rewrite N.lor_spec, full_bit. destruct (N.ltb_spec i (N.of_nat n)); [reflexivity|]. now rewrite (bit_above n b) by assumption. }
  rewrite L, N.eqb_refl. f_equal; [now rewrite N.land_comm, lt_pow2_subset|].
  replace (N.ldiff b (2 ^ N.of_nat n - 1)) with 0%N; [now rewrite inversions_nil_r|]. symmetry.
  apply N.bits_inj. intros i. rewrite N.ldiff_spec, full_bit, N.bits_0. destruct (N.ltb_spec i (N.of_nat n)); [now rewrite andb_false_r|]. now rewrite (bit_above n b) by assumption.
Qed.
Lemma meet_full_r n b : (b < 2 ^ N.of_nat n)%N -> meet n b (2 ^ N.of_nat n - 1) = (b, 1%Z).
Proof.
  intros B. unfold meet. assert (L : N.lor b (2 ^ N.of_nat n - 1) = (2 ^ N.of_nat n - 1)%N).
  { apply N.bits_inj. intros i. rewrite N.lor_spec, full_bit. destruct (N.ltb_spec i (N.of_nat n)); [apply orb_true_r|]. now rewrite (bit_above n b) by assumption. }
  rewrite L, N.eqb_refl. f_equal; [now rewrite lt_pow2_subset|].
  replace (N.ldiff b (2 ^ N.of_nat n - 1)) with 0%N; [reflexivity|]. symmetry.
  apply N.bits_inj. intros i. rewrite N.ldiff_spec, full_bit, N.bits_0. destruct (N.ltb_spec i (N.of_nat n)); [now rewrite andb_false_r|]. now rewrite (bit_above n b) by assumption.
Qed.
Theorem meet_unit_l n v : v_in n v -> vmeet n (delta (2 ^ N.of_nat n - 1)) v = v.
Proof.
  intros I. apply functional_extensionality. intros c. destruct (N.ltb_spec c (2 ^ N.of_nat n)) as [C|C]; [|now rewrite (meet_in n _ _ c C), (I c C)].
  unfold vmeet, bilinear. set (F := (2 ^ N.of_nat n - 1)%N) in *. assert (FO : (F < 2 ^ N.of_nat n)%N) by (unfold F; pose proof (N.pow_nonzero 2 (N.of_nat n)); lia).
  transitivity (Rsum (map (fun a => if (F =? a)%N then Rsum (map (fun b => if (c =? b)%N then v b else 0) (blades n)) else 0) (blades n)))%R.
  - apply Rsum_ext. intros a A. unfold delta. destruct (N.eqb_spec F a) as [<-|NE].
    + apply Rsum_ext. intros b B. apply blades_in in B. unfold F. rewrite (meet_full_l n b B). cbn [fst snd]. rewrite N.eqb_sym. destruct (_ =? _)%N; ring.
    + apply Rsum_0. intros b _. destruct (_ =? _)%N; ring.
  - rewrite (Rsum_single (fun _ => Rsum (map (fun b => if (c =? b)%N then v b else 0%R) (blades n)))); [|apply blades_nodup|now apply blades_in].
    apply (Rsum_single v); [apply blades_nodup|now apply blades_in].
Qed.
Theorem meet_unit_r n v : v_in n v -> vmeet n v (delta (2 ^ N.of_nat n - 1)) = v.
Proof.
  intros I. apply functional_extensionality. intros c. destruct (N.ltb_spec c (2 ^ N.of_nat n)) as [C|C]; [|now rewrite (meet_in n _ _ c C), (I c C)].
  unfold vmeet, bilinear. set (F := (2 ^ N.of_nat n - 1)%N) in *. assert (FO : (F < 2 ^ N.of_nat n)%N) by (unfold F; pose proof (N.pow_nonzero 2 (N.of_nat n)); lia).
  rewrite <- (Rsum_single v c (blades n) (blades_nodup n)) by now apply blades_in. apply Rsum_ext. intros a A. apply blades_in in A.
  transitivity (Rsum (map (fun b => if (F =? b)%N then if (c =? a)%N then v a else 0 else 0) (blades n)))%R.
  - apply Rsum_ext. intros b B. unfold delta. destruct (N.eqb_spec F b) as [<-|NE].
    + unfold F. rewrite (meet_full_r n a A). cbn [fst snd]. rewrite N.eqb_sym. destruct (_ =? _)%N; ring.
    + destruct (_ =? _)%N; ring.
  - apply (Rsum_single (fun _ => if (c =? a)%N then v a else 0%R)); [apply blades_nodup|now apply blades_in].
Qed.
(** exchanging the factors *)
Lemma meet_swap n a b : (a < 2 ^ N.of_nat n)%N -> (b < 2 ^ N.of_nat n)%N ->
  fst (meet n a b) = fst (meet n b a) /\ snd (meet n a b) = (neg1_pow ((n - grade a) * (n - grade b)) * snd (meet n b a))%Z.
Proof.
  intros A B. unfold meet. rewrite (N.lor_comm b a), (N.land_comm b a). destruct (N.eqb_spec (N.lor a b) (2 ^ N.of_nat n - 1)) as [E|E]; cbn [fst snd]; [|split; lia].
  split; [reflexivity|]. rewrite <- neg1_pow_add. apply neg1_even.
  assert (D : N.land (N.ldiff a b) (N.ldiff b a) = 0%N).
  { apply N.bits_inj. intros i. rewrite N.land_spec, !N.ldiff_spec, N.bits_0. now destruct (N.testbit a i), (N.testbit b i). }
  pose proof (flip_co _ _ D) as F. rewrite <- (diff_co n a b A B E) in F at 3. assert (E' : N.lor b a = (2 ^ N.of_nat n - 1)%N) by now rewrite N.lor_comm.
  rewrite <- (diff_co n b a B A E') in F at 3. pose proof (grade_co n a A). pose proof (grade_co n b B).
  replace (grade (co_blade n b)) with (n - grade b) in F by lia. replace (grade (co_blade n a)) with (n - grade a) in F by lia.
  rewrite (Nat.mul_comm (n - grade a)), <- F, !Nat.even_add. now destruct (Nat.even (inversions (gens (N.ldiff a b)) _)), (Nat.even (inversions (gens (N.ldiff b a)) _)).
Qed.
Theorem meet_commutes n r s v w : homogeneous r v -> homogeneous s w -> vmeet n v w = vscale (IZR (neg1_pow ((n - r) * (n - s)))) (vmeet n w v).
Proof.
  intros HV HW. apply functional_extensionality. intros c. unfold vscale, vmeet, bilinear. rewrite (Rsum_swap (fun a b => if (fst (meet n b a) =? c)%N then (w b * v a * IZR (snd (meet n b a)))%R else 0%R)).
  rewrite <- Rsum_mult_l. apply Rsum_ext. intros a A. rewrite <- Rsum_mult_l. apply Rsum_ext. intros b B. apply blades_in in A, B.
  destruct (meet_swap n a b A B) as [E1 E2]. rewrite <- E1. destruct (_ =? c)%N; [|ring]. rewrite E2, mult_IZR.
  destruct (Nat.eq_dec (grade a) r) as [<-|N1]; [|rewrite (HV a N1); ring]. destruct (Nat.eq_dec (grade b) s) as [<-|N2]; [ring|rewrite (HW b N2); ring].
Qed.
Lemma twist_odd n v : Nat.odd n = true -> v_in n v -> vtwist n v = v.
Proof.
  intros O I. apply functional_extensionality. intros b. unfold vtwist. destruct (N.ltb_spec b (2 ^ N.of_nat n)) as [B|B]; [|rewrite (I b B); ring].
  pose proof (grade_co n b B) as G. replace (neg1_pow (grade b * (n - grade b))) with 1%Z; [ring|]. unfold neg1_pow.
  rewrite Nat.even_mul. replace n with ((n - grade b) + grade b) in O by lia. rewrite <- Nat.negb_even, Nat.even_add in O.
  now destruct (Nat.even (n - grade b)), (Nat.even (grade b)).
Qed.
