(** Values of the null basis conversions. *)
From Coq Require Import ZArith NArith List Bool Arith Lia ZifyBool ZifyN ZifyNat Reals Lra Sorting.Permutation Sorting.Sorted.
From Verif Require Import Proof_Gens Proof_Blade Proof_Blade2 Proof_Blade3.
From Verif Require Import Base Model_Numeric Model_Blade Model_Sort Model_MV Model_Product Spec_Numeric Spec_Sort Spec_Clifford Spec_MV
  Spec_Basis Proof_Numeric Proof_Sort Proof_SortMap Proof_Layout Proof_Sum Proof_Val Proof_Collate Proof_Product Proof_CollateVal
  Proof_ProductVal Proof_Ops Proof_Ops2.
Import ListNotations.
Local Open Scope nat_scope.

Definition blades_in := Proof_ProductVal.blades_in exterior.
Definition dmat (d : N -> dest) (a b : N) : R :=
  match d a with
  | Keep => delta a b
  | Split q1 e1 q2 e2 => (rv q1 * delta e1 b + rv q2 * delta e2 b)%R
  end.
Definition dest_ok (d : N -> dest) : Prop :=
  forall a, match d a with Keep => True | Split q1 _ q2 _ => den q1 <> 0%Z /\ den q2 <> 0%Z end.
Lemma s_dist_val rho d ts b : dest_ok d -> forall p, mv_ok ts -> s_dist Exact d ts = Ok p ->
  (val rho (fst p) b + val rho (snd p) b)%R =
    Rsum (map (fun t : sterm => mons_val rho (snd t) * dmat d (fst t) b)%R ts) /\ mv_ok (fst p) /\ mv_ok (snd p).
Proof.
  intros D. induction ts as [|t ts IH]; intros p F H; cbn [s_dist] in H.
  - injection H as <-. cbn [fst snd map]. change (val rho [] b) with 0%R. change (Rsum []) with 0%R.
    repeat split; [ring|constructor|constructor].
  - apply mv_ok_cons in F as [F1 F2]. cbn [map]. change (Rsum (?x :: ?y)) with (x + Rsum y)%R.
    specialize (D (fst t)). unfold dmat at 1. destruct (d (fst t)).
    + minv H. rename v into a. minv H. injection H as <-.
      apply (s_push_val rho) in E as (A & B & C); auto; [|cbn; lia]. apply IH in E0 as (V & W1 & W2); auto.
      cbn [fst snd]. rewrite <- V, val_cons, A, B, rv_one. unfold delta.
      repeat split; [destruct (_ =? _)%N; ring|apply mv_ok_cons; auto|auto].
    + minv H. rename v into a. minv H. rename v into a'. minv H. injection H as <-. destruct D as [D1 D2].
      apply (s_push_val rho) in E as (A & B & C); auto. apply (s_push_val rho) in E0 as (A' & B' & C'); auto.
      apply IH in E1 as (V & W1 & W2); auto.
      cbn [fst snd]. rewrite <- V, !val_cons, A, B, A', B'. unfold delta.
      repeat split; [destruct (e1 =? b)%N, (e2 =? b)%N; ring|auto|apply mv_ok_cons; split; auto; apply mv_ok_cons; auto].
Qed.
Lemma s_change_val rho d ts t b : dest_ok d -> mv_ok ts -> s_change Exact d ts = Ok t ->
  val rho t b = Rsum (map (fun t : sterm => mons_val rho (snd t) * dmat d (fst t) b)%R ts) /\ mv_ok t.
Proof.
  intros D F H. unfold s_change in H. minv H. rename v into p. minv H. rename v into r.
  apply (s_dist_val rho d ts b D) in E as (V & W1 & W2); auto.
  apply (sc_val rho b) in E0 as [V' W']; auto. apply (ss_terms_val rho b) in H as [V'' W'']; auto.
  rewrite V'', V', V. auto.
Qed.
Lemma terms_linear rho n (m : N -> N -> R) ts b : in_dim n ts ->
  Rsum (map (fun t : sterm => mons_val rho (snd t) * m (fst t) b)%R ts) = linear n m (val rho ts) b.
Proof. intros I. exact (sum_terms_blades exterior rho n (fun a => m a b) ts I). Qed.

(** ** linear maps *)
Lemma linear_ext n m m' f b : (forall a, (a < 2 ^ N.of_nat n)%N -> m a b = m' a b) -> linear n m f b = linear n m' f b.
Proof. intros H. unfold linear. apply Rsum_ext. intros a I. rewrite H; [reflexivity|now apply blades_in]. Qed.
Lemma linear_ext_f n m f g b : (forall a, (a < 2 ^ N.of_nat n)%N -> f a = g a) -> linear n m f b = linear n m g b.
Proof. intros H. unfold linear. apply Rsum_ext. intros a I. rewrite H; [reflexivity|now apply blades_in]. Qed.
Lemma linear_delta n f b : (b < 2 ^ N.of_nat n)%N -> linear n delta f b = f b.
Proof.
  intros H. unfold linear. rewrite <- (Rsum_single f b (blades n)) by (try apply blades_nodup; now apply blades_in).
  apply Rsum_ext. intros a _. unfold delta. rewrite (N.eqb_sym a b). destruct (N.eqb_spec b a); ring.
Qed.
Lemma Rsum_swap {A B} (h : A -> B -> R) l l' :
  Rsum (map (fun b => Rsum (map (fun a => h a b) l)) l') = Rsum (map (fun a => Rsum (map (fun b => h a b) l')) l).
Proof.
  induction l as [|a l IH]; cbn [map].
  - change (Rsum []) with 0%R. now apply Rsum_0.
  - change (Rsum (?x :: ?y)) with (x + Rsum y)%R. rewrite <- IH, <- Rsum_plus. reflexivity.
Qed.
Lemma linear_comp n m m' f c : linear n m' (linear n m f) c = linear n (fun a => linear n m' (m a)) f c.
Proof.
  unfold linear at 1 3. 
  transitivity (Rsum (map (fun b => Rsum (map (fun a => f a * m a b * m' b c)%R (blades n))) (blades n))).
  { apply Rsum_ext. intros b _. unfold linear. rewrite Rmult_comm, <- Rsum_mult_l. apply Rsum_ext. intros a _. ring. }
  transitivity (Rsum (map (fun a => Rsum (map (fun b => f a * m a b * m' b c)%R (blades n))) (blades n))).
  2:{ apply Rsum_ext. intros a _. unfold linear. rewrite <- Rsum_mult_l. apply Rsum_ext. intros b _. ring. }
  apply (Rsum_swap (fun a b => f a * m a b * m' b c)%R).
Qed.
(** finite combinations of blades *)
Definition comb (l : list (R * N)) (b : N) : R := Rsum (map (fun p => fst p * delta (snd p) b)%R l).
Lemma linear_comb n m l b : Forall (fun p => (snd p < 2 ^ N.of_nat n)%N) l ->
  linear n m (comb l) b = Rsum (map (fun p => fst p * m (snd p) b)%R l).
Proof.
  induction 1 as [|p l D _ IH].
  - apply Rsum_0. intros a _. change (comb [] a) with 0%R. ring.
  - cbn [map]. change (Rsum (?x :: ?y)) with (x + Rsum y)%R. rewrite <- IH. unfold linear.
    rewrite <- (Rsum_single (fun a => fst p * m a b)%R (snd p) (blades n)) by (try apply blades_nodup; now apply blades_in).
    rewrite <- Rsum_plus. apply Rsum_ext. intros a _. change (comb (p :: l) a) with (fst p * delta (snd p) a + comb l a)%R.
    unfold delta. destruct (N.eqb_spec (snd p) a); ring.
Qed.

(** ** the two conversions as maps of blades *)
Section Null.
Variable n : nat.
Hypothesis n2 : 2 <= n.
Let dim := N.of_nat n.
Let p := (dim - 2)%N.
Let q := (dim - 1)%N.
Let pq := N.lxor (2 ^ p) (2 ^ q).
Lemma p_ne_q : p <> q. Proof. unfold p, q, dim. lia. Qed.
Lemma land_pow2 e i : (N.land e (2 ^ i) =? 0)%N = negb (N.testbit e i).
Proof.
  destruct (N.testbit e i) eqn:T; cbn.
  - apply N.eqb_neq. intros H. apply (f_equal (fun x => N.testbit x i)) in H.
    rewrite N.land_spec, T, N.pow2_bits_true, N.bits_0 in H. discriminate.
  - apply N.eqb_eq. apply N.bits_inj. intros j. rewrite N.land_spec, N.bits_0, pow2_bits.
    destruct (N.eqb_spec i j); [subst; now rewrite T|apply andb_false_r].
Qed.
Lemma pq_bits j : N.testbit pq j = ((p =? j) || (q =? j))%N.
Proof.
  unfold pq. rewrite N.lxor_spec, !pow2_bits. pose proof p_ne_q.
  destruct (N.eqb_spec p j), (N.eqb_spec q j); try reflexivity. congruence.
Qed.
Lemma land_pq e : (N.land e pq =? 0)%N = negb (N.testbit e p || N.testbit e q).
Proof.
  destruct (N.testbit e p || N.testbit e q) eqn:T; cbn.
  - apply N.eqb_neq. intros H. apply orb_prop in T as [T|T].
    + apply (f_equal (fun x => N.testbit x p)) in H. rewrite N.land_spec, T, pq_bits, N.eqb_refl, N.bits_0 in H. discriminate.
    + apply (f_equal (fun x => N.testbit x q)) in H. rewrite N.land_spec, T, pq_bits, N.eqb_refl, orb_true_r, N.bits_0 in H. discriminate.
  - apply orb_false_iff in T as [T1 T2]. apply N.eqb_eq. apply N.bits_inj. intros j. rewrite N.land_spec, N.bits_0, pq_bits.
    destruct (N.eqb_spec p j); [subst; now rewrite T1|]. destruct (N.eqb_spec q j); [subst; now rewrite T2|]. apply andb_false_r.
Qed.
Lemma null_dest_eq e : null_dest dim e =
  match N.testbit e p, N.testbit e q with
  | true, false => Split one e minus_one_half (N.lxor e pq)
  | false, true => Split one (N.lxor e pq) one_half e
  | _, _ => Keep
  end.
Proof.
  unfold null_dest. fold p q. fold pq. rewrite land_pq, !land_pow2.
  destruct (N.testbit e p), (N.testbit e q); reflexivity.
Qed.
Lemma natural_dest_eq e : natural_dest dim e =
  match N.testbit e p, N.testbit e q with
  | true, false => Split one_half e one_half (N.lxor e pq)
  | false, true => Split minus_one (N.lxor e pq) one e
  | _, _ => Keep
  end.
Proof.
  unfold natural_dest. fold p q. fold pq. rewrite land_pq, !land_pow2.
  destruct (N.testbit e p), (N.testbit e q); reflexivity.
Qed.
Lemma flip_p e : N.testbit (N.lxor e pq) p = negb (N.testbit e p).
Proof. rewrite N.lxor_spec, pq_bits, N.eqb_refl. cbn. apply xorb_true_r. Qed.
Lemma flip_q e : N.testbit (N.lxor e pq) q = negb (N.testbit e q).
Proof. rewrite N.lxor_spec, pq_bits, N.eqb_refl, orb_true_r. apply xorb_true_r. Qed.
Lemma flip_flip e : N.lxor (N.lxor e pq) pq = e.
Proof. now rewrite N.lxor_assoc, N.lxor_nilpotent, N.lxor_0_r. Qed.
Lemma lt_pow2_bits e m : (e < 2 ^ m)%N <-> (forall j, (m <= j)%N -> N.testbit e j = false).
Proof.
  split.
  - intros H j L. destruct (N.eq_dec e 0) as [->|]; [apply N.bits_0|]. apply N.bits_above_log2.
    apply N.log2_lt_pow2 in H; lia.
  - intros H. destruct (N.eq_dec e 0) as [->|Z]; [apply N.neq_0_lt_0, N.pow_nonzero; lia|].
    apply N.log2_lt_pow2; [lia|]. destruct (N.lt_ge_cases (N.log2 e) m) as [|L]; [assumption|].
    specialize (H _ L). rewrite N.bit_log2 in H by assumption. discriminate.
Qed.
Lemma flip_lt e : (e < 2 ^ dim)%N -> (N.lxor e pq < 2 ^ dim)%N.
Proof.
  rewrite !lt_pow2_bits. intros H j L. rewrite N.lxor_spec, H, pq_bits by assumption.
  unfold p, q, dim in *. destruct (N.eqb_spec (N.of_nat n - 2) j), (N.eqb_spec (N.of_nat n - 1) j); try reflexivity; lia.
Qed.
Definition dcomb (d : N -> dest) (a : N) : list (R * N) :=
  match d a with Keep => [(1%R, a)] | Split q1 e1 q2 e2 => [(rv q1, e1); (rv q2, e2)] end.
Lemma dmat_comb d a b : dmat d a b = comb (dcomb d a) b.
Proof. unfold dmat, dcomb, comb. destruct (d a); cbn; ring. Qed.
Lemma null_ok : dest_ok (null_dest dim).
Proof. intros a. rewrite null_dest_eq. destruct (N.testbit a p), (N.testbit a q); cbn; auto; split; lia. Qed.
Lemma natural_ok : dest_ok (natural_dest dim).
Proof. intros a. rewrite natural_dest_eq. destruct (N.testbit a p), (N.testbit a q); cbn; auto; split; lia. Qed.
Lemma null_dim a : (a < 2 ^ dim)%N -> Forall (fun x => (snd x < 2 ^ dim)%N) (dcomb (null_dest dim) a).
Proof.
  intros H. unfold dcomb. rewrite null_dest_eq. pose proof (flip_lt a H).
  destruct (N.testbit a p), (N.testbit a q); repeat constructor; auto.
Qed.
Lemma natural_dim a : (a < 2 ^ dim)%N -> Forall (fun x => (snd x < 2 ^ dim)%N) (dcomb (natural_dest dim) a).
Proof.
  intros H. unfold dcomb. rewrite natural_dest_eq. pose proof (flip_lt a H).
  destruct (N.testbit a p), (N.testbit a q); repeat constructor; auto.
Qed.
Lemma rv_half : rv one_half = (1 / 2)%R. Proof. unfold rv. cbn. lra. Qed.
Lemma rv_mhalf : rv minus_one_half = (- (1 / 2))%R. Proof. unfold rv. cbn. lra. Qed.
Lemma rv_mone : rv minus_one = (-1)%R. Proof. unfold rv. cbn. lra. Qed.
(** mutually inverse on blades *)
Lemma null_natural a b : (a < 2 ^ dim)%N ->
  linear n (dmat (natural_dest dim)) (dmat (null_dest dim) a) b = delta a b.
Proof.
  intros H. rewrite (linear_ext_f n _ _ (comb (dcomb (null_dest dim) a))) by (intros; apply dmat_comb).
  rewrite linear_comb by (apply (null_dim a H)).
  unfold dcomb. rewrite null_dest_eq. unfold dmat.
  destruct (N.testbit a p) eqn:Tp, (N.testbit a q) eqn:Tq; cbn [map fst snd Rsum fold_right];
    rewrite ?natural_dest_eq, ?flip_p, ?flip_q, ?Tp, ?Tq, ?flip_flip; cbn [negb];
    rewrite ?rv_half, ?rv_mhalf, ?rv_one, ?rv_mone; lra.
Qed.
Lemma natural_null a b : (a < 2 ^ dim)%N ->
  linear n (dmat (null_dest dim)) (dmat (natural_dest dim) a) b = delta a b.
Proof.
  intros H. rewrite (linear_ext_f n _ _ (comb (dcomb (natural_dest dim) a))) by (intros; apply dmat_comb).
  rewrite linear_comb by (apply (natural_dim a H)).
  unfold dcomb. rewrite natural_dest_eq. unfold dmat.
  destruct (N.testbit a p) eqn:Tp, (N.testbit a q) eqn:Tq; cbn [map fst snd Rsum fold_right];
    rewrite ?null_dest_eq, ?flip_p, ?flip_q, ?Tp, ?Tq, ?flip_flip; cbn [negb];
    rewrite ?rv_half, ?rv_mhalf, ?rv_one, ?rv_mone; lra.
Qed.

(** ** the conversions respect the wedge *)
Definition kP (P : N -> N -> N * Z) (a b c : N) : R := if (fst (P a b) =? c)%N then IZR (snd (P a b)) else 0%R.
Lemma bil_linear P f g c : bilinear P n f g c = linear n (fun a c => linear n (kP P a) g c) f c.
Proof.
  unfold bilinear, linear. apply Rsum_ext. intros a _. rewrite <- Rsum_mult_l. apply Rsum_ext. intros b _.
  unfold kP. destruct (_ =? _)%N; ring.
Qed.
Definition in_n (l : list (R * N)) := Forall (fun x : R * N => (snd x < 2 ^ dim)%N) l.
Lemma bil_comb P l r c : in_n l -> in_n r -> bilinear P n (comb l) (comb r) c =
  Rsum (map (fun x => fst x * Rsum (map (fun y => fst y * kP P (snd x) (snd y) c)%R r))%R l).
Proof.
  intros L R0. rewrite bil_linear, linear_comb by exact L. apply Rsum_ext. intros x _. f_equal. now apply linear_comb.
Qed.
Lemma bil_ext P f f' g g' c : (forall b, (b < 2 ^ dim)%N -> f b = f' b) -> (forall b, (b < 2 ^ dim)%N -> g b = g' b) ->
  bilinear P n f g c = bilinear P n f' g' c.
Proof.
  intros F G. unfold bilinear. apply Rsum_ext. intros a Ha. apply Rsum_ext. intros b Hb. apply blades_in in Ha, Hb.
  now rewrite F, G.
Qed.
Definition above (i : N) (y : N) : Prop := forall j, (j <= i)%N -> N.testbit y j = false.
Lemma ext_above i y : above i y -> exterior (2 ^ i) y = (N.lxor (2 ^ i) y, 1%Z).
Proof.
  intros A. rewrite exterior_closed. rewrite N.land_comm, land_pow2, (A i) by lia. cbn [negb].
  f_equal. rewrite gens_pow2, inversions_cons. change (inversions [] (gens y)) with 0. rewrite Nat.add_0_r.
  replace (filter (fun j => (j <? i)%N) (gens y)) with (@nil N); [reflexivity|].
  symmetry.
  assert (G : forall l, (forall j, In j l -> (i < j)%N) -> filter (fun j => (j <? i)%N) l = []).
  { induction l as [|j l IH]; intros H; [reflexivity|]. cbn. replace (j <? i)%N with false by (specialize (H j (or_introl eq_refl)); lia).
    apply IH. intros k Hk. apply H. now right. }
  apply G. intros j Hj. apply gens_In in Hj. destruct (N.lt_ge_cases i j) as [|L]; [assumption|]. rewrite A in Hj by assumption. discriminate.
Qed.
Lemma wedge_step i l b : (i < dim)%N -> in_n l -> Forall (fun x => above i (snd x)) l ->
  bilinear exterior n (delta (2 ^ i)) (comb l) b = comb (map (fun x => (fst x, N.lxor (2 ^ i) (snd x))) l) b.
Proof.
  intros Hi I A. rewrite (bil_ext _ _ (comb [(1%R, (2 ^ i)%N)]) _ (comb l)); [|intros; unfold comb; cbn; ring|reflexivity].
  rewrite bil_comb; auto.
  2:{ repeat constructor. cbn. apply N.pow_lt_mono_r; lia. }
  cbn [map fst snd]. change (Rsum [?x]) with (x + 0)%R. rewrite Rmult_1_l, Rplus_0_r.
  unfold comb. rewrite map_map. apply Rsum_ext. intros x Hx. cbn [fst snd]. rewrite Forall_forall in A.
  unfold kP. rewrite ext_above by auto. unfold delta. cbn [fst snd]. destruct (_ =? _)%N; ring.
Qed.
Definition bits (u : list N) : N := fold_right (fun i acc => N.lxor (2 ^ i) acc) 0%N u.
Lemma bits_spec u j : StronglySorted N.lt u -> N.testbit (bits u) j = true <-> In j u.
Proof.
  induction 1 as [|i u S1 IH S2]; cbn [bits fold_right].
  - rewrite N.bits_0. split; [discriminate|intros []].
  - fold (bits u). rewrite N.lxor_spec, pow2_bits. cbn [In]. rewrite Forall_forall in S2.
    destruct (N.eqb_spec i j) as [<-|Ne].
    + split; [auto|]. intros _. destruct (N.testbit (bits u) i); [|reflexivity].
      exfalso. specialize (S2 i (proj1 IH eq_refl)). lia.
    + rewrite xorb_false_l, IH. split; [auto|]. intros [|]; [contradiction|assumption].
Qed.
Lemma bits_gens u : StronglySorted N.lt u -> gens (bits u) = u.
Proof.
  intros S1. apply sorted_ext; [apply gens_sorted|assumption|]. intros i. rewrite gens_In. now apply bits_spec.
Qed.
Lemma wedge_low img u top l : StronglySorted N.lt u -> Forall (fun i => (i < p)%N) u ->
  (forall i, (i < p)%N -> img i = delta (2 ^ i)) ->
  in_n l -> Forall (fun x : R * N => forall j, (j < p)%N -> N.testbit (snd x) j = false) l ->
  (forall b, (b < 2 ^ dim)%N -> wedge_all n top b = comb l b) ->
  forall b, (b < 2 ^ dim)%N -> wedge_all n (map img u ++ top) b = comb (map (fun x => (fst x, N.lxor (bits u) (snd x))) l) b.
Proof.
  intros S1 F Im I A T. induction S1 as [|i u S1 IH S2]; intros b Hb.
  - cbn [map app]. rewrite T by assumption. unfold comb. rewrite map_map. reflexivity.
  - inversion_clear F as [|? ? F1 F2]. cbn [map app].
    change (wedge_all n (img i :: map img u ++ top) b) with (bilinear exterior n (img i) (wedge_all n (map img u ++ top)) b).
    rewrite Im by assumption.
    rewrite (bil_ext _ _ (delta (2 ^ i)) _ _ b (fun _ _ => eq_refl) (fun c Hc => IH F2 c Hc)).
    rewrite wedge_step.
    + rewrite map_map. cbn [fst snd]. unfold comb. rewrite !map_map. apply Rsum_ext. intros x _. cbn [fst snd].
      now rewrite <- N.lxor_assoc.
    + unfold p in *. lia.
    + apply Forall_forall. intros y Hy. apply in_map_iff in Hy as (x & <- & Hx). cbn [snd].
      unfold in_n in I. rewrite Forall_forall in I. specialize (I x Hx). rewrite lt_pow2_bits in I |- *.
      intros j Hj. rewrite N.lxor_spec, I by assumption. rewrite xorb_false_r.
      destruct (N.testbit (bits u) j) eqn:E; [|reflexivity]. apply bits_spec in E; [|assumption].
      rewrite Forall_forall in F2. specialize (F2 j E). unfold p in *. lia.
    + apply Forall_forall. intros y Hy. apply in_map_iff in Hy as (x & <- & Hx). cbn [snd].
      rewrite Forall_forall in A, S2. intros j Hj. rewrite N.lxor_spec, (A x Hx) by lia. rewrite xorb_false_r.
      destruct (N.testbit (bits u) j) eqn:E; [|reflexivity]. apply bits_spec in E; [|assumption].
      specialize (S2 j E). lia.
Qed.
Lemma bits_app u v : bits (u ++ v) = N.lxor (bits u) (bits v).
Proof. induction u as [|i u IH]; cbn [bits app fold_right]; [reflexivity|]. fold (bits (u ++ v)) (bits u). now rewrite IH, N.lxor_assoc. Qed.
Lemma gens_bits a : bits (gens a) = a.
Proof. apply gens_inj, bits_gens, gens_sorted. Qed.
Lemma hi_p a : (a < 2 ^ dim)%N -> hi p a = if N.testbit a q then [q] else [].
Proof.
  intros H. rewrite lt_pow2_bits in H. apply sorted_ext.
  - apply sorted_filter, gens_sorted.
  - destruct (N.testbit a q); repeat constructor.
  - intros i. unfold hi. rewrite filter_In, gens_In. split.
    + intros [T L]. assert (i = q) as ->; [|rewrite T; now left].
      destruct (N.le_gt_cases dim i) as [G|G]; [rewrite H in T by assumption; discriminate|]. unfold p, q in *. lia.
    + destruct (N.testbit a q) eqn:T; [|intros []]. intros [<-|[]]. split; [assumption|]. unfold p, q, dim in *. lia.
Qed.
Lemma gens_top a : (a < 2 ^ dim)%N -> gens a = lo p a ++
  match N.testbit a p, N.testbit a q with true, true => [p; q] | true, false => [p] | false, true => [q] | _, _ => [] end.
Proof.
  intros H. destruct (N.testbit a p) eqn:T.
  - rewrite (gens_split_in p a T) at 1. rewrite hi_p by assumption. destruct (N.testbit a q); reflexivity.
  - rewrite (gens_split_notin p a T) at 1. rewrite hi_p by assumption. reflexivity.
Qed.
Lemma p_lt : (p < dim)%N. Proof. unfold p, dim. lia. Qed.
Lemma q_lt : (q < dim)%N. Proof. unfold q, dim. lia. Qed.
Lemma pow_p : (2 ^ p < 2 ^ dim)%N. Proof. apply N.pow_lt_mono_r; [lia|apply p_lt]. Qed.
Lemma pow_q : (2 ^ q < 2 ^ dim)%N. Proof. apply N.pow_lt_mono_r; [lia|apply q_lt]. Qed.
Lemma zero_lt : (0 < 2 ^ dim)%N. Proof. pose proof (N.pow_nonzero 2 dim). lia. Qed.
Lemma pq_lt : (pq < 2 ^ dim)%N.
Proof. rewrite <- (N.lxor_0_l pq). apply flip_lt, zero_lt. Qed.
Lemma ext_0_r a : exterior a 0 = (a, 1%Z).
Proof. rewrite exterior_closed, N.land_0_r, N.lxor_0_r. cbn. now rewrite inversions_nil_r. Qed.
Lemma ext_same i : exterior (2 ^ i) (2 ^ i) = (0%N, 0%Z).
Proof. rewrite exterior_closed, land_pow2, N.pow2_bits_true. reflexivity. Qed.
Lemma ext_pq : exterior (2 ^ p) (2 ^ q) = (pq, 1%Z).
Proof.
  rewrite ext_above; [reflexivity|]. intros j L. rewrite pow2_bits. apply N.eqb_neq. unfold p, q, dim in *. lia.
Qed.
Lemma ext_qp : exterior (2 ^ q) (2 ^ p) = (pq, (-1)%Z).
Proof.
  rewrite exterior_closed, land_pow2, pow2_bits. replace (q =? p)%N with false by (pose proof p_ne_q; lia). cbn [negb].
  rewrite !gens_pow2, inversions_cons. cbn. replace (p <? q)%N with true by (unfold p, q, dim; lia).
  cbn. f_equal. unfold pq. apply N.lxor_comm.
Qed.
(** wedge of two vectors with components [xp], [xq] along the last two generators *)
Definition top2 (x y : R) : list (R * N) := [(x, (2 ^ p)%N); (y, (2 ^ q)%N)].
Lemma top2_in x y : in_n (top2 x y).
Proof. repeat constructor; cbn; [apply pow_p|apply pow_q]. Qed.
Lemma one_in : in_n [(1%R, 0%N)].
Proof. repeat constructor. apply zero_lt. Qed.
Lemma wedge_one f x y b : (forall b, f b = comb (top2 x y) b) -> wedge_all n [f] b = comb (top2 x y) b.
Proof.
  intros F. unfold wedge_all. cbn [fold_right].
  rewrite (bil_ext _ f (comb (top2 x y)) (delta 0) (comb [(1%R, 0%N)])) by (intros; auto; unfold comb; cbn; ring).
  rewrite bil_comb by (auto using top2_in, one_in). cbn [top2 map fst snd Rsum fold_right comb].
  unfold kP, comb, delta. rewrite !ext_0_r. cbn [map fst snd Rsum fold_right top2].
  destruct (_ =? _)%N, (_ =? _)%N; ring.
Qed.
Lemma wedge_two f g x y x' y' b : (forall b, f b = comb (top2 x y) b) -> (forall b, g b = comb (top2 x' y') b) ->
  wedge_all n [f; g] b = comb [((x * y' - y * x')%R, pq)] b.
Proof.
  intros F G. change (wedge_all n [f; g] b) with (bilinear exterior n f (wedge_all n [g]) b).
  rewrite (bil_ext _ f (comb (top2 x y)) _ (comb (top2 x' y'))) by (intros; auto using wedge_one).
  rewrite bil_comb by apply top2_in. cbn [top2 map fst snd Rsum fold_right].
  unfold kP, comb, delta. rewrite !ext_same, ext_pq, ext_qp. cbn [map fst snd Rsum fold_right].
  destruct (_ =? _)%N, (_ =? _)%N; ring.
Qed.
Lemma outer_eq img d xp yp xq yq :
  (forall i, (i < p)%N -> img i = delta (2 ^ i)) ->
  (forall b, img p b = comb (top2 xp yp) b) -> (forall b, img q b = comb (top2 xq yq) b) ->
  (xp * yq - yp * xq = 1)%R ->
  (forall e b, dmat d e b = match N.testbit e p, N.testbit e q with
     | true, false => (xp * delta e b + yp * delta (N.lxor e pq) b)%R
     | false, true => (xq * delta (N.lxor e pq) b + yq * delta e b)%R
     | _, _ => delta e b end) ->
  forall a b, (a < 2 ^ dim)%N -> (b < 2 ^ dim)%N -> outermorphism n img a b = dmat d a b.
Proof.
  intros I0 Ip Iq Det D a b Ha Hb. unfold outermorphism. rewrite D. clear D.
  assert (SL : StronglySorted N.lt (lo p a)) by (apply sorted_filter, gens_sorted).
  assert (FL : Forall (fun i => (i < p)%N) (lo p a)).
  { apply Forall_forall. intros i Hi. unfold lo in Hi. rewrite filter_In in Hi. lia. }
  assert (BL : forall x : R * N, (snd x = 0%N \/ snd x = (2 ^ p)%N \/ snd x = (2 ^ q)%N \/ snd x = pq) ->
     forall j, (j < p)%N -> N.testbit (snd x) j = false).
  { intros x Hx j Hj. assert (p <> j /\ q <> j) as [J1 J2] by (unfold p, q in *; lia).
    destruct Hx as [Hx|[Hx|[Hx|Hx]]]; rewrite Hx; clear Hx; rewrite ?N.bits_0, ?pow2_bits, ?pq_bits; try reflexivity;
      rewrite ?(proj2 (N.eqb_neq p j) J1), ?(proj2 (N.eqb_neq q j) J2); reflexivity. }
  pose proof (gens_bits a) as EA. pose proof (gens_top a Ha) as ET. rewrite ET in EA |- *. clear ET.
  rewrite bits_app in EA. rewrite map_app.
  destruct (N.testbit a p), (N.testbit a q); cbn [map].
  - rewrite (wedge_low img (lo p a) _ [(1%R, pq)] SL FL I0); auto.
    + unfold comb. cbn [map fst snd Rsum fold_right]. cbn [bits fold_right] in EA. rewrite N.lxor_0_r in EA.
      fold pq in EA. rewrite EA. ring.
    + repeat constructor. apply pq_lt.
    + repeat constructor. apply BL. auto.
    + intros c _. rewrite (wedge_two _ _ xp yp xq yq) by assumption. now rewrite Det.
  - rewrite (wedge_low img (lo p a) _ (top2 xp yp) SL FL I0); auto.
    + unfold comb. cbn [top2 map fst snd Rsum fold_right]. cbn [bits fold_right] in EA. rewrite N.lxor_0_r in EA.
      rewrite EA. replace (N.lxor (bits (lo p a)) (2 ^ q)) with (N.lxor a pq); [ring|].
      rewrite <- EA at 1. unfold pq. rewrite N.lxor_assoc. f_equal. now rewrite <- N.lxor_assoc, N.lxor_nilpotent.
    + apply top2_in.
    + repeat constructor; apply BL; auto.
    + intros c _. now apply wedge_one.
  - rewrite (wedge_low img (lo p a) _ (top2 xq yq) SL FL I0); auto.
    + unfold comb. cbn [top2 map fst snd Rsum fold_right]. cbn [bits fold_right] in EA. rewrite N.lxor_0_r in EA.
      rewrite EA. replace (N.lxor (bits (lo p a)) (2 ^ p)) with (N.lxor a pq); [ring|].
      rewrite <- EA at 1. unfold pq. rewrite N.lxor_assoc. f_equal.
      now rewrite (N.lxor_comm (2 ^ p)), <- N.lxor_assoc, N.lxor_nilpotent.
    + apply top2_in.
    + repeat constructor; apply BL; auto.
    + intros c _. now apply wedge_one.
  - rewrite (wedge_low img (lo p a) _ [(1%R, 0%N)] SL FL I0).
    + unfold comb. cbn [map fst snd Rsum fold_right]. cbn [bits fold_right] in EA. rewrite EA. ring.
    + apply one_in.
    + constructor; [apply (BL (1%R, 0%N)); auto|constructor].
    + intros c _. unfold wedge_all, comb. cbn. ring.
    + assumption.
Qed.
Lemma natural_outer a b : (a < 2 ^ dim)%N -> (b < 2 ^ dim)%N ->
  outermorphism n (null_to_natural n) a b = dmat (natural_dest dim) a b.
Proof.
  assert (Q1 : (q =? p)%N = false) by (pose proof p_ne_q; lia).
  apply (outer_eq _ _ (1 / 2) (1 / 2) (-1) 1).
  - intros i Hi. unfold null_to_natural. fold dim. fold p q. replace (i =? p)%N with false by lia.
    replace (i =? q)%N with false by (unfold p, q in *; lia). reflexivity.
  - intros c. unfold null_to_natural. fold dim. fold p q. rewrite N.eqb_refl. unfold comb. cbn. lra.
  - intros c. unfold null_to_natural. fold dim. fold p q. rewrite Q1, N.eqb_refl. unfold comb. cbn. lra.
  - lra.
  - intros e c. unfold dmat. rewrite natural_dest_eq. destruct (N.testbit e p), (N.testbit e q); auto;
      rewrite ?rv_half, ?rv_one, ?rv_mone; lra.
Qed.
Lemma null_outer a b : (a < 2 ^ dim)%N -> (b < 2 ^ dim)%N ->
  outermorphism n (natural_to_null n) a b = dmat (null_dest dim) a b.
Proof.
  assert (Q1 : (q =? p)%N = false) by (pose proof p_ne_q; lia).
  apply (outer_eq _ _ 1 (- (1 / 2)) 1 (1 / 2)).
  - intros i Hi. unfold natural_to_null. fold dim. fold p q. replace (i =? p)%N with false by lia.
    replace (i =? q)%N with false by (unfold p, q in *; lia). reflexivity.
  - intros c. unfold natural_to_null. fold dim. fold p q. rewrite N.eqb_refl. unfold comb. cbn. lra.
  - intros c. unfold natural_to_null. fold dim. fold p q. rewrite Q1, N.eqb_refl. unfold comb. cbn. lra.
  - lra.
  - intros e c. unfold dmat. rewrite null_dest_eq. destruct (N.testbit e p), (N.testbit e q); auto;
      rewrite ?rv_half, ?rv_one, ?rv_mhalf; lra.
Qed.

(** ** the conversions of multivectors *)
Lemma s_natural_val rho ts t b : mv_ok ts -> in_dim n ts -> s_change Exact (natural_dest dim) ts = Ok t -> (b < 2 ^ dim)%N ->
  val rho t b = linear n (outermorphism n (null_to_natural n)) (val rho ts) b /\ mv_ok t.
Proof.
  intros F I H Hb. apply (s_change_val rho _ _ _ b natural_ok) in H as [V W]; auto. split; [|assumption].
  rewrite V, (terms_linear rho n) by assumption. apply linear_ext. intros a Ha. symmetry. now apply natural_outer.
Qed.
Lemma s_null_val rho ts t b : mv_ok ts -> in_dim n ts -> s_change Exact (null_dest dim) ts = Ok t -> (b < 2 ^ dim)%N ->
  val rho t b = linear n (outermorphism n (natural_to_null n)) (val rho ts) b /\ mv_ok t.
Proof.
  intros F I H Hb. apply (s_change_val rho _ _ _ b null_ok) in H as [V W]; auto. split; [|assumption].
  rewrite V, (terms_linear rho n) by assumption. apply linear_ext. intros a Ha. symmetry. now apply null_outer.
Qed.
Lemma round_trip rho d d' ts t t' b : dest_ok d -> dest_ok d' -> mv_ok ts -> in_dim n ts -> in_dim n t ->
  (forall a c, (a < 2 ^ dim)%N -> linear n (dmat d') (dmat d a) c = delta a c) ->
  s_change Exact d ts = Ok t -> s_change Exact d' t = Ok t' -> (b < 2 ^ dim)%N -> val rho t' b = val rho ts b.
Proof.
  intros D D' F I I' Inv H H' Hb.
  assert (W : mv_ok t) by exact (proj2 (s_change_val rho d ts t 0%N D F H)).
  apply (s_change_val rho _ _ _ b D') in H' as [V' _]; auto. rewrite V', (terms_linear rho n) by assumption.
  rewrite (linear_ext_f n _ _ (linear n (dmat d) (val rho ts))).
  2:{ intros a _. rewrite (proj1 (s_change_val rho d ts t a D F H)). now rewrite (terms_linear rho n). }
  rewrite linear_comp. rewrite (linear_ext n _ delta) by (intros; now apply Inv). now apply linear_delta.
Qed.
Lemma s_dist_dim md d ts : (forall a, (a < 2 ^ dim)%N -> in_n (dcomb d a)) -> in_dim n ts ->
  forall r, s_dist md d ts = Ok r -> in_dim n (fst r) /\ in_dim n (snd r).
Proof.
  intros K. induction 1 as [|t ts I1 I2 IH]; intros r H; cbn [s_dist] in H.
  - injection H as <-. split; constructor.
  - specialize (K (fst t) I1). unfold dcomb in K. destruct (d (fst t)).
    + minv H. rename v into a. minv H. injection H as <-. apply IH in E0 as [A B]. apply s_push_shape in E as (E & _).
      split; [|assumption]. constructor; [now rewrite E|assumption].
    + minv H. rename v into a. minv H. rename v into a'. minv H. injection H as <-. apply IH in E1 as [A B].
      apply s_push_shape in E as (E & _). apply s_push_shape in E0 as (E0 & _).
      inversion_clear K as [|? ? K1 K2]. inversion_clear K2 as [|? ? K3 _].
      split; [assumption|]. constructor; [now rewrite E|constructor; [now rewrite E0|assumption]].
Qed.
Lemma in_dim_sub ts t : (forall e, In e (map fst t) -> In e (map fst ts)) -> in_dim n ts -> in_dim n t.
Proof.
  intros H I. apply Forall_forall. intros a Ha. specialize (H _ (in_map fst _ _ Ha)). apply in_map_iff in H as (b & <- & Hb).
  unfold in_dim in I. rewrite Forall_forall in I. now apply I.
Qed.
End Null.
