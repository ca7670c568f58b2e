(** Multivectors with the components of an entity, and functions of time. *)
From Coq Require Import ZArith NArith List Bool Arith Reals Lia Lra Sorting.Sorted FunctionalExtensionality ZifyBool ZifyN ZifyNat.
From Coq Require Import Nsatz.
From Verif Require Import Base Model_Numeric Model_Blade Model_MV Model_Expr Model_Engine Model_Entity Spec_Clifford Spec_Basis Spec_MV Spec_Expr Spec_Engine Spec_Entity Spec_Geometry.
Import ListNotations.
Local Open Scope list_scope.
Local Open Scope nat_scope.

(** ** Multivectors given by their components *)
Definition within (n : nat) (e : entity) : bool := forallb (fun p : N * R => (fst p <? 2 ^ N.of_nat n)%N) e.
Lemma Rsum_cons a l : Rsum (a :: l) = (a + Rsum l)%R.
Proof. reflexivity. Qed.
Lemma Rsum_zero {A} (f : A -> R) l : (forall a, In a l -> f a = 0%R) -> Rsum (map f l) = 0%R.
Proof. induction l as [|a l IH]; intros H; [reflexivity|]. cbn [map]. rewrite Rsum_cons, (H a (or_introl eq_refl)), IH by (intros; apply H; now right). ring. Qed.
Lemma val_outside n e b : within n e = true -> (2 ^ N.of_nat n <= b)%N -> entity_val e b = 0%R.
Proof.
  intros W B. apply Rsum_zero. intros p I. unfold within in W. rewrite forallb_forall in W. specialize (W p I).
  destruct (N.eqb_spec (fst p) b); [lia|reflexivity].
Qed.
Lemma in_blades n b : (b < 2 ^ N.of_nat n)%N -> In b (blades n).
Proof.
  intros H. apply in_map_iff. exists (N.to_nat b). split; [lia|]. apply in_seq. split; [lia|]. cbn.
  assert (E : (2 ^ N.of_nat n)%N = N.of_nat (2 ^ n)) by (rewrite Nat2N.inj_pow; reflexivity). lia.
Qed.
Lemma val_ext n e1 e2 : within n e1 = true -> within n e2 = true -> Forall (fun b => entity_val e1 b = entity_val e2 b) (blades n) -> entity_val e1 = entity_val e2.
Proof.
  intros W1 W2 F. apply functional_extensionality. intros b. rewrite Forall_forall in F. destruct (N.ltb_spec b (2 ^ N.of_nat n)) as [B|B].
  - now apply F, in_blades.
  - now rewrite !(val_outside n) by assumption.
Qed.
(** the product component by component *)
Definition eprod (m : metric) (k : prod_kind) (x y : entity) : entity :=
  flat_map (fun p => map (fun q => let c := blade_product m k (fst p) (fst q) in (fst c, (snd p * snd q * IZR (snd c))%R)) y) x.
Lemma Rsum_app l l' : Rsum (l ++ l') = (Rsum l + Rsum l')%R.
Proof. induction l as [|a l IH]; [cbn [app]; change (Rsum []) with 0%R; ring|]. cbn [app]. rewrite !Rsum_cons, IH. ring. Qed.
Lemma Rsum_plus {A} (f g : A -> R) l : Rsum (map (fun a => f a + g a)%R l) = (Rsum (map f l) + Rsum (map g l))%R.
Proof. induction l as [|a l IH]; [cbn [map]; change (Rsum []) with 0%R; ring|]. cbn [map]. rewrite !Rsum_cons, IH. ring. Qed.
Lemma Rsum_single (f : N -> R) n a : (a < 2 ^ N.of_nat n)%N -> (forall b, b <> a -> f b = 0%R) -> Rsum (map f (blades n)) = f a.
Proof.
  intros A F. unfold blades. rewrite map_map. assert (E : (2 ^ N.of_nat n)%N = N.of_nat (2 ^ n)) by (rewrite Nat2N.inj_pow; reflexivity).
  assert (G : forall l s, s <= N.to_nat a < s + l -> Rsum (map (fun x => f (N.of_nat x)) (seq s l)) = f a).
  { induction l as [|l IH]; intros s H; [lia|]. cbn [seq map]. rewrite Rsum_cons. destruct (Nat.eq_dec s (N.to_nat a)) as [->|D].
    - rewrite N2Nat.id. assert (Z0 : Rsum (map (fun x => f (N.of_nat x)) (seq (S (N.to_nat a)) l)) = 0%R).
      { apply Rsum_zero. intros x I. apply in_seq in I. apply F. lia. }
      rewrite Z0. ring.
    - rewrite (F (N.of_nat s)) by lia. rewrite IH by lia. ring. }
  apply G. lia.
Qed.
Lemma val_cons p e b : entity_val (p :: e) b = ((if (fst p =? b)%N then snd p else 0) + entity_val e b)%R.
Proof. reflexivity. Qed.
Lemma val_app e e' b : entity_val (e ++ e') b = (entity_val e b + entity_val e' b)%R.
Proof. unfold entity_val. now rewrite map_app, Rsum_app. Qed.
Lemma prod_zero m k g : vprod m k (entity_val []) g = entity_val [].
Proof.
  apply functional_extensionality. intros c. unfold vprod, bilinear. apply Rsum_zero. intros a _. apply Rsum_zero. intros b _. cbn.
  destruct (_ =? c)%N; ring.
Qed.
Lemma prod_one m k p y : within (dim m) y = true -> (fst p < 2 ^ N.of_nat (dim m))%N ->
  forall c, vprod m k (entity_val [p]) (entity_val y) c = entity_val (eprod m k [p] y) c.
Proof.
  intros W P c. unfold vprod, bilinear.
  rewrite (Rsum_single (fun a => Rsum (map (fun b => if (fst (blade_product m k a b) =? c)%N then (entity_val [p] a * entity_val y b * IZR (snd (blade_product m k a b)))%R else 0%R) (blades (dim m)))) (dim m) (fst p) P).
  2:{ intros a A. apply Rsum_zero. intros b _. rewrite val_cons. destruct (N.eqb_spec (fst p) a); [congruence|]. cbn. destruct (_ =? c)%N; ring. }
  unfold eprod. cbn [flat_map]. rewrite app_nil_r. assert (E : entity_val [p] (fst p) = snd p) by (rewrite val_cons, N.eqb_refl; cbn; ring). rewrite E. clear E.
  induction y as [|q y IH].
  - cbn. apply Rsum_zero. intros b _. destruct (_ =? c)%N; ring.
  - cbn [within forallb] in W. apply andb_prop in W as [W1 W2]. cbn [map]. rewrite val_cons. cbn [fst snd].
    rewrite <- (IH W2). rewrite (map_ext _ (fun b => ((if (fst (blade_product m k (fst p) b) =? c)%N then (if (fst q =? b)%N then snd p * snd q * IZR (snd (blade_product m k (fst p) b)) else 0) else 0) +
      (if (fst (blade_product m k (fst p) b) =? c)%N then (snd p * entity_val y b * IZR (snd (blade_product m k (fst p) b))) else 0))%R)).
    2:{ intros b. rewrite val_cons. destruct (_ =? c)%N; [|ring]. destruct (_ =? b)%N; ring. }
    rewrite Rsum_plus. f_equal.
    rewrite (Rsum_single _ (dim m) (fst q)); [now rewrite N.eqb_refl|lia|].
    intros b B. destruct (_ =? c)%N; [|reflexivity]. destruct (N.eqb_spec (fst q) b); [congruence|reflexivity].
Qed.
Lemma prod_add_l m k f g h c : vprod m k (fun b => f b + g b)%R h c = (vprod m k f h c + vprod m k g h c)%R.
Proof.
  unfold vprod, bilinear. rewrite <- Rsum_plus. f_equal. apply map_ext. intros a. rewrite <- Rsum_plus. f_equal. apply map_ext. intros b. destruct (_ =? c)%N; ring.
Qed.
Theorem prod_val m k x y : within (dim m) x = true -> within (dim m) y = true -> vprod m k (entity_val x) (entity_val y) = entity_val (eprod m k x y).
Proof.
  intros WX WY. induction x as [|p x IH].
  - now rewrite prod_zero.
  - cbn [within forallb] in WX. apply andb_prop in WX as [P WX]. apply functional_extensionality. intros c.
    change (p :: x) with ([p] ++ x) at 2. unfold eprod. rewrite flat_map_app. fold (eprod m k [p] y) (eprod m k x y). rewrite val_app, <- (IH WX), <- prod_one by (auto; lia).
    rewrite <- prod_add_l. f_equal. apply functional_extensionality. intros b. rewrite !val_cons. change (entity_val [] b) with 0%R. ring.
Qed.
Lemma rev_val e : vrev (entity_val e) = entity_val (map (fun p : N * R => (fst p, IZR (rev_sign (grade (fst p))) * snd p)%R) e).
Proof.
  apply functional_extensionality. intros b. unfold vrev. induction e as [|p e IH]; [cbn; ring|].
  cbn [map]. rewrite !val_cons. cbn [fst snd]. rewrite <- IH. destruct (N.eqb_spec (fst p) b) as [->|_]; ring.
Qed.
Lemma delta_val b : delta b = entity_val [(b, 1%R)].
Proof. apply functional_extensionality. intros c. rewrite val_cons. cbn. unfold delta. destruct (b =? c)%N; ring. Qed.

(** ** The components of an exponential as functions of time *)
Definition wave (a b c d u t : R) : R := (a * cos (u * t) + b * sin (u * t) + t * (c * cos (u * t) + d * sin (u * t)))%R.
Lemma wave_derivable a b c d u t : derivable_pt_lim (wave a b c d u) t (wave (b * u + c) (d - a * u) (d * u) (- (c * u)) u t).
Proof.
  assert (U : derivable_pt_lim (fun t => u * t)%R t u).
  { pose proof (derivable_pt_lim_scal (fun t => t) u t 1 (derivable_pt_lim_id t)) as H. rewrite Rmult_1_r in H. exact H. }
  assert (C : derivable_pt_lim (fun t => cos (u * t)) t (- sin (u * t) * u)%R) by apply (derivable_pt_lim_comp _ cos t _ _ U (derivable_pt_lim_cos _)).
  assert (D : derivable_pt_lim (fun t => sin (u * t)) t (cos (u * t) * u)%R) by apply (derivable_pt_lim_comp _ sin t _ _ U (derivable_pt_lim_sin _)).
  replace (wave (b * u + c) (d - a * u) (d * u) (- (c * u)) u t) with
    ((a * (- sin (u * t) * u) + b * (cos (u * t) * u)) + (1 * (c * cos (u * t) + d * sin (u * t)) + t * (c * (- sin (u * t) * u) + d * (cos (u * t) * u))))%R by (unfold wave; ring).
  apply (derivable_pt_lim_plus (fun t => a * cos (u * t) + b * sin (u * t))%R (fun t => t * (c * cos (u * t) + d * sin (u * t)))%R).
  - apply (derivable_pt_lim_plus (fun t => a * cos (u * t))%R (fun t => b * sin (u * t))%R); apply derivable_pt_lim_scal; assumption.
  - apply (derivable_pt_lim_mult (fun t => t) (fun t => c * cos (u * t) + d * sin (u * t))%R); [apply derivable_pt_lim_id|].
    apply (derivable_pt_lim_plus (fun t => c * cos (u * t))%R (fun t => d * sin (u * t))%R); apply derivable_pt_lim_scal; assumption.
Qed.
(** a multivector whose components are such functions: blade, a, b, c, d *)
Definition waves := list (N * (R * R * R * R)).
Definition flow (w : waves) (u t : R) : entity := map (fun p => let '(a, b, c, d) := snd p in (fst p, wave a b c d u t)) w.
Definition slope (w : waves) (u : R) : waves := map (fun p => let '(a, b, c, d) := snd p in (fst p, (b * u + c, d - a * u, d * u, - (c * u))%R)) w.
Lemma flow_derivable w u t b : derivable_pt_lim (fun t => entity_val (flow w u t) b) t (entity_val (flow (slope w u) u t) b).
Proof.
  induction w as [|[e [[[a1 a2] a3] a4]] w IH].
  - cbn. apply (derivable_pt_lim_const 0 t).
  - cbn [flow slope map snd fst]. rewrite val_cons. cbn [fst snd].
    apply (derivable_pt_lim_plus (fun t => if (e =? b)%N then wave a1 a2 a3 a4 u t else 0%R) (fun t => entity_val (flow w u t) b)); [|exact IH].
    destruct (e =? b)%N; [apply wave_derivable|apply (derivable_pt_lim_const 0 t)].
Qed.
(** E = exp(B) when E is the value at 1 of such functions *)
Lemma exp_flow m B w u : within (dim m) B = true -> within (dim m) (flow w u 0) = true ->
  entity_val (flow w u 0) = delta 0 -> (forall t, Forall (fun b => entity_val (eprod m Geometric B (flow w u t)) b = entity_val (flow (slope w u) u t) b) (blades (dim m))) ->
  (forall t, within (dim m) (eprod m Geometric B (flow w u t)) = true) ->
  is_exp m (entity_val B) (entity_val (flow w u 1)).
Proof.
  intros WB WF E0 D WP. exists (fun t => entity_val (flow w u t)). split; [exact E0|]. split; [reflexivity|]. intros t b.
  assert (WT : forall w' t, map fst w' = map fst w -> within (dim m) (flow w' u t) = true).
  { intros w' t' EM. assert (EF : forall l t, map fst (flow l u t) = map fst l).
    { clear. intros l t. unfold flow. rewrite map_map. apply map_ext. intros [e [[[a1 a2] a3] a4]]. reflexivity. }
    assert (EW : forall e e' : entity, map fst e = map fst e' -> within (dim m) e = within (dim m) e').
    { clear. unfold within. induction e as [|p e IH]; intros [|p' e'] H; try discriminate H; [reflexivity|]. cbn in H. injection H as H1 H2. cbn. now rewrite H1, (IH e' H2). }
    rewrite <- WF. apply EW. now rewrite !EF. }
  rewrite (prod_val m Geometric B (flow w u t) WB (WT w t eq_refl)).
  rewrite (val_ext (dim m) (eprod m Geometric B (flow w u t)) (flow (slope w u) u t) (WP t)); [apply flow_derivable| |exact (D t)].
  apply WT. unfold slope. rewrite map_map. apply map_ext. intros [e [[[a1 a2] a3] a4]]. reflexivity.
Qed.
(** the components of the motor for the screw motion u + v I about the normalized line *)
Definition unit_line (n3 n5 n6 n9 n10 n12 : R) : Prop := (n6 * n6 + n10 * n10 + n12 * n12 = 1 /\ n3 * n12 - n5 * n10 + n9 * n6 = 0)%R.
Definition screw_log (u v n3 n5 n6 n9 n10 n12 : R) : entity :=
  combine [3; 5; 6; 9; 10; 12]%N [u * n3 - v * n12; u * n5 + v * n10; u * n6; u * n9 - v * n6; u * n10; u * n12]%R.
Definition screw_motor (u v n3 n5 n6 n9 n10 n12 : R) : entity :=
  combine pga_motor [cos u; sin u * n3 - v * cos u * n12; sin u * n5 + v * cos u * n10; sin u * n6; sin u * n9 - v * cos u * n6; sin u * n10; sin u * n12; - v * sin u]%R.
Definition screw_waves (v n3 n5 n6 n9 n10 n12 : R) : waves :=
  combine pga_motor [(1, 0, 0, 0); (0, n3, - v * n12, 0); (0, n5, v * n10, 0); (0, n6, 0, 0); (0, n9, - v * n6, 0); (0, n10, 0, 0); (0, n12, 0, 0); (0, 0, 0, - v)]%R.
Ltac each_blade :=
  match goal with |- Forall ?P (blades ?n) => let l := eval vm_compute in (blades n) in change (Forall P l) end;
  repeat (apply Forall_cons; [cbv -[IZR Rplus Rmult Ropp Rminus Rinv cos sin sqrt wave]|]); [..|apply Forall_nil].
Theorem screw_exp u v n3 n5 n6 n9 n10 n12 : unit_line n3 n5 n6 n9 n10 n12 ->
  is_exp pga_m (entity_val (screw_log u v n3 n5 n6 n9 n10 n12)) (entity_val (screw_motor u v n3 n5 n6 n9 n10 n12)).
Proof.
  intros [H1 H2].
  replace (entity_val (screw_motor u v n3 n5 n6 n9 n10 n12)) with (entity_val (flow (screw_waves v n3 n5 n6 n9 n10 n12) u 1)).
  2:{ apply (val_ext 4); [reflexivity..|]. each_blade; unfold wave; rewrite ?Rmult_1_r; ring. }
  apply exp_flow; [reflexivity..| | |].
  - rewrite delta_val. apply (val_ext 4); [reflexivity..|]. each_blade; unfold wave; rewrite ?Rmult_0_r, ?cos_0, ?sin_0; ring.
  - intros t. each_blade. all: unfold wave; set (C := cos (u * t)); set (S0 := sin (u * t)); clearbody C S0. all: timeout 20 (clear - H1 H2; try ring). all: nsatz.
  - intros t. reflexivity.
Qed.
