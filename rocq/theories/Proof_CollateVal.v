(** collate keeps values and returns canonical form. *)
From Coq Require Import ZArith NArith List Bool Arith Lia ZifyBool ZifyN ZifyNat Reals Lra Sorting.Permutation Sorting.Sorted.
From Verif Require Import Base Model_Numeric Model_Sort Model_MV Model_Product Spec_Numeric Spec_Sort Spec_MV
  Proof_Numeric Proof_Sort Proof_SortMap Proof_Layout Proof_Sum Proof_Val Proof_Collate Proof_Product.
Import ListNotations.
Local Open Scope nat_scope.

Lemma ss_app_r {A} (R : A -> A -> Prop) a : forall b, StronglySorted R (a ++ b) -> StronglySorted R b.
Proof. induction a; intros b H; [exact H|]. inversion_clear H. auto. Qed.

(** ** the comparator *)
Fixpoint lexb (l r : list (N * Z)) : bool :=
  match l, r with
  | [], [] => false
  | [], _ => true
  | _, [] => false
  | a :: l', b :: r' =>
    (fst a <? fst b)%N || ((fst a =? fst b)%N && ((snd a <? snd b)%Z || ((snd a =? snd b)%Z && lexb l' r')))
  end.
Lemma lexb_spec l : forall r, lexb l r = true <-> lex_lt l r.
Proof.
  induction l as [|[i x] l IH]; intros [|[j y] r]; cbn.
  - split; [discriminate|intros H; inversion H].
  - split; [constructor|reflexivity].
  - split; [discriminate|intros H; inversion H].
  - specialize (IH r). rewrite orb_true_iff, andb_true_iff, orb_true_iff, andb_true_iff, IH,
      N.ltb_lt, N.eqb_eq, Z.ltb_lt, Z.eqb_eq. split.
    + intros [H|[-> [H|[-> H]]]].
      * apply lex_head. now left.
      * apply lex_head. now right.
      * now apply lex_tail.
    + intros H. inversion H as [|? ? ? ? K|]; subst; [destruct K as [K|[K1 K2]]; cbn in *; auto|auto].
Qed.
Definition smon_ltb (a b : smon) : bool :=
  (num (sdeg a) <? num (sdeg b))%Z ||
  ((num (sdeg a) =? num (sdeg b))%Z && lexb (map ind_key (sinds a)) (map ind_key (sinds b))).
Lemma smon_ltb_spec a b : smon_ltb a b = true <-> smon_lt a b.
Proof. unfold smon_ltb, smon_lt. rewrite orb_true_iff, andb_true_iff, lexb_spec, Z.ltb_lt, Z.eqb_eq. reflexivity. Qed.
Lemma lex_total l : forall r, l = r \/ lex_lt l r \/ lex_lt r l.
Proof.
  induction l as [|a l IH]; intros [|b r]; auto using lex_nil.
  assert (D : {a = b} + {a <> b}) by (decide equality; [apply Z.eq_dec|apply N.eq_dec]).
  destruct D as [->|D].
  - destruct (IH r) as [->|[H|H]]; auto using lex_tail.
  - destruct (key_lt_total a b D); auto using lex_head.
Qed.
Definition skey (m : smon) := (num (sdeg m), map ind_key (sinds m)).
Lemma smon_total a b : skey a = skey b \/ smon_lt a b \/ smon_lt b a.
Proof.
  unfold smon_lt, skey. destruct (Z.lt_trichotomy (num (sdeg a)) (num (sdeg b))) as [H|[H|H]]; auto.
  destruct (lex_total (map ind_key (sinds a)) (map ind_key (sinds b))) as [->|[K|K]]; [rewrite H|..]; auto.
Qed.
Lemma smon_lt_key a b a' b' : skey a = skey a' -> skey b = skey b' -> smon_lt a b -> smon_lt a' b'.
Proof. unfold skey, smon_lt. intros E F. injection E as E1 E2. injection F as F1 F2. now rewrite E1, E2, F1, F2. Qed.
Lemma smon_ltb_weak : strict_weak smon_ltb.
Proof.
  constructor.
  - intros a. destruct (smon_ltb a a) eqn:E; [|reflexivity]. apply smon_ltb_spec in E. now apply smon_lt_irrefl in E.
  - intros a b c. rewrite !smon_ltb_spec. apply smon_lt_trans.
  - intros a b c H1 H2. apply not_true_iff_false. rewrite smon_ltb_spec. intros H.
    apply not_true_iff_false in H1, H2. rewrite smon_ltb_spec in H1, H2.
    destruct (smon_total a b) as [E|[E|E]]; [|auto|].
    + apply H2. now apply (smon_lt_key a c b c).
    + destruct (smon_total b c) as [F|[F|F]]; [|auto|].
      * apply H1. now apply (smon_lt_key a c a b).
      * apply (smon_lt_irrefl a). eauto using smon_lt_trans.
Qed.
Lemma inds_lex_spec l : forall r c, Forall (fun i => integral (ideg i)) l -> Forall (fun i => integral (ideg i)) r ->
  inds_lex l r = Ok c ->
  lexb (map ind_key l) (map ind_key r) =
  match c with Some b => b | None => if length l =? length r then false else Nat.min (length l) (length r) =? length l end.
Proof.
  induction l as [|a l IH]; intros [|b r] c A B H; cbn [inds_lex] in H.
  - injection H as <-. reflexivity.
  - injection H as <-. reflexivity.
  - injection H as <-. reflexivity.
  - inversion_clear A as [|? ? A1 A2]. inversion_clear B as [|? ? B1 B2].
    minv H. pose proof (ind_lt_int _ _ _ A1 B1 E) as K. destruct v.
    { injection H as <-. apply lexb_spec. cbn. apply lex_head. now apply K. }
    minv H. pose proof (ind_lt_int _ _ _ B1 A1 E0) as K'. destruct v.
    { injection H as <-. apply not_true_iff_false. rewrite lexb_spec. intros L. cbn in L.
      apply (lex_lt_irrefl (map ind_key (a :: l))). eapply lex_lt_trans; [exact L|]. cbn. apply lex_head. now apply K'. }
    assert (EK : ind_key a = ind_key b).
    { assert (D : {ind_key a = ind_key b} + {ind_key a <> ind_key b}) by (decide equality; [apply Z.eq_dec|apply N.eq_dec]).
      destruct D as [D|D]; [exact D|]. exfalso.
      destruct (key_lt_total _ _ D) as [L|L]; [apply K in L|apply K' in L]; discriminate. }
    specialize (IH r c A2 B2 H). cbn [map lexb length]. rewrite EK, N.ltb_irrefl, N.eqb_refl, Z.ltb_irrefl, Z.eqb_refl.
    cbn. rewrite IH. reflexivity.
Qed.
Lemma s_lt_spec a b x : degs_ok a -> degs_ok b -> s_lt a b = Ok x -> x = smon_ltb a b.
Proof.
  intros [A1 A2] [B1 B2] H. unfold s_lt, mon_lt, view in H. cbn [fst snd mdeg mcount] in H.
  minv H. apply rlt_int in E; auto. subst v. unfold smon_ltb. destruct (Z.ltb_spec (num (sdeg a)) (num (sdeg b))).
  { injection H as <-. reflexivity. }
  minv H. apply rgt_int in E; auto. subst v. destruct (Z.ltb_spec (num (sdeg b)) (num (sdeg a))).
  { injection H as <-. cbn. symmetry. apply andb_false_iff. left. lia. }
  replace (num (sdeg a) =? num (sdeg b))%Z with true by lia. cbn.
  minv H. apply inds_lex_spec in E; auto. rewrite E. destruct v.
  - now injection H as <-.
  - destruct (length (sinds a) =? length (sinds b)); now injection H as <-.
Qed.
Definition degs_okb (m : smon) : bool :=
  (den (sdeg m) =? 1)%Z && forallb (fun i => (den (ideg i) =? 1)%Z) (sinds m).
Lemma degs_okb_spec m : degs_okb m = true <-> degs_ok m.
Proof.
  unfold degs_okb, degs_ok, integral. rewrite andb_true_iff, Z.eqb_eq, forallb_forall, Forall_forall.
  split; intros [A B]; split; auto; intros i Hi; apply Z.eqb_eq; auto; now apply Z.eqb_eq, B.
Qed.
Lemma s_sort_spec l l' : Forall degs_ok l -> sort_range s_lt l 0 (length l) = Ok l' ->
  Permutation l l' /\ sorted smon_ltb l'.
Proof.
  intros D H.
  pose (less := fun a b => if degs_okb a && degs_okb b then s_lt a b else Err IllFormed).
  assert (H' : sort_range less l 0 (length l) = Ok l').
  { destruct (sort_map (fun m : smon => m) degs_ok s_lt less [] l []) as [(s' & E1 & _ & E2)|(e & E1 & E2)].
    - intros a b A B. unfold less. apply degs_okb_spec in A, B. now rewrite A, B.
    - assumption.
    - cbn [app length Nat.add] in E1. rewrite !app_nil_r in E1. rewrite map_id in E2. rewrite H in E1. injection E1 as <-.
      rewrite E2. now rewrite map_id.
    - cbn [app length Nat.add] in E1. rewrite !app_nil_r in E1. congruence. }
  pose proof (sort_partial less smon_ltb) as SP.
  assert (An : answers less smon_ltb).
  { intros a b x E. unfold less in E. destruct (degs_okb a && degs_okb b) eqn:G; [|discriminate].
    apply andb_true_iff in G as [G1 G2]. apply degs_okb_spec in G1, G2. now apply s_lt_spec. }
  destruct (SP An smon_ltb_weak [] l [] l') as (s' & E & P & ST).
  - cbn [app length Nat.add]. now rewrite app_nil_r.
  - cbn [app] in E. rewrite app_nil_r in E. subst. auto.
Qed.
(** without degrees: at least a permutation *)
Lemma s_sort_perm l l' : sort_range s_lt l 0 (length l) = Ok l' -> Permutation l l'.
Proof.
  intros H. destruct (sort_safe s_lt [] l []) as [(s' & E & P)|(a & b & e & _ & E)];
    cbn [app length Nat.add] in E; rewrite app_nil_r in E.
  - rewrite app_nil_r in E. rewrite H in E. injection E as ->. assumption.
  - congruence.
Qed.
Lemma inds_same_eq l : forall r, length l = length r -> (inds_same l r = true <-> l = r).
Proof.
  induction l as [|a l IH]; intros [|b r] L; cbn in *; try lia.
  - split; auto.
  - injection L as L. destruct (ind_ne a b) eqn:E.
    + split; [discriminate|]. intros H. injection H as -> _. unfold ind_ne in E.
      rewrite N.eqb_refl in E. cbn in E. apply rne_true in E. congruence.
    + rewrite IH by assumption. unfold ind_ne in E. apply orb_false_iff in E as [E1 E2].
      apply rne_false in E2. apply negb_false_iff, N.eqb_eq in E1.
      split; [intros ->; destruct a, b; cbn in *; congruence|intros H; now injection H].
Qed.
Lemma s_eq_spec a b : s_eq a b = true <-> same_key a b.
Proof.
  unfold s_eq, mon_eq, view, same_key. cbn [fst snd mdeg mcount].
  destruct (rne (sdeg a) (sdeg b)) eqn:E; cbn.
  - split; [discriminate|]. intros [H _]. now apply rne_true in E.
  - apply rne_false in E. destruct (Nat.eqb_spec (length (sinds a)) (length (sinds b))) as [L|L]; cbn.
    + rewrite inds_same_eq by assumption. tauto.
    + split; [discriminate|]. intros [_ H]. now rewrite H in L.
Qed.

(** ** sums under permutation *)
Lemma Rsum_perm a b : Permutation a b -> Rsum a = Rsum b.
Proof.
  induction 1; [reflexivity|..|congruence].
  - change (x + Rsum l = x + Rsum l')%R. now rewrite IHPermutation.
  - change (y + (x + Rsum l) = x + (y + Rsum l))%R. ring.
Qed.
Lemma mons_val_perm rho a b : Permutation a b -> mons_val rho a = mons_val rho b.
Proof. intros P. unfold mons_val. apply Rsum_perm. now apply Permutation_map. Qed.
Lemma val_perm rho a b e : Permutation a b -> val rho a e = val rho b e.
Proof. intros P. unfold val. apply Rsum_perm. now apply Permutation_map. Qed.
Lemma mv_ok_perm a b : Permutation a b -> mv_ok a -> mv_ok b.
Proof. intros P. unfold mv_ok. apply Permutation_Forall. unfold all_mons. now apply Permutation_flat_map. Qed.
Lemma tdegs_perm a b : Permutation a b -> tdegs_ok a -> tdegs_ok b.
Proof. intros P. unfold tdegs_ok. now apply Permutation_Forall. Qed.

(** ** merging equal monomials *)
Lemma s_run_split md cur l : forall q q' rest, s_run md cur l q = Ok (q', rest) ->
  exists run, l = run ++ rest /\ Forall (same_key cur) run /\
    match rest with [] => True | x :: _ => ~ same_key cur x end.
Proof.
  induction l as [|x l IH]; intros q q' rest H; cbn [s_run] in H.
  - injection H as <- <-. exists []. auto.
  - destruct (s_eq cur x) eqn:E.
    + minv H. apply IH in H as (run & -> & F & R). exists (x :: run). apply s_eq_spec in E. auto.
    + injection H as <- <-. exists []. repeat split; auto. rewrite <- s_eq_spec. congruence.
Qed.
Lemma s_run_val rho cur l : forall q q' rest, den q <> 0%Z -> Forall mon_ok l -> s_run Exact cur l q = Ok (q', rest) ->
  (rv q' * inds_val rho (sinds cur) + mons_val rho rest = rv q * inds_val rho (sinds cur) + mons_val rho l)%R /\
  den q' <> 0%Z /\ Forall mon_ok rest.
Proof.
  induction l as [|x l IH]; intros q q' rest D F H; cbn [s_run] in H.
  - injection H as <- <-. auto.
  - destruct (s_eq cur x) eqn:E; [|injection H as <- <-; auto].
    inversion_clear F as [|? ? F1 F2]. minv H. apply rv_add in E0 as [V W]; auto; [|apply F1].
    apply IH in H as (A & B & C); auto. split; auto. rewrite A, mons_val_cons, V. unfold mon_val.
    apply s_eq_spec in E as [_ E]. rewrite E. ring.
Qed.
Lemma s_merge_val rho fuel : forall l t, Forall mon_ok l -> s_merge Exact fuel l = Ok t ->
  mons_val rho t = mons_val rho l /\ Forall mon_ok t.
Proof.
  induction fuel as [|fuel IH]; intros l t F H; cbn [s_merge] in H; [discriminate|].
  destruct l as [|m l]; [injection H as <-; auto|]. inversion_clear F as [|? ? F1 F2].
  minv H. destruct v as [q rest]. minv H. injection H as <-.
  apply (s_run_val rho) in E as (A & B & C); auto; [|apply F1]. apply IH in E0 as [V W]; auto.
  rewrite mons_val_cons. unfold mon_val at 1. rewrite <- A, <- V. destruct (is_zero q) eqn:Z.
  - unfold is_zero in Z. rewrite (rv_zero q) by lia. split; [ring|auto].
  - split; [reflexivity|]. constructor; auto. split; [exact B|]. apply F1.
Qed.
Lemma s_merge_canon md fuel : forall l t, Forall degs_ok l -> sorted smon_ltb l -> s_merge md fuel l = Ok t ->
  mon_canon t /\ keys_in t l.
Proof.
  induction fuel as [|fuel IH]; intros l t F Srt H; cbn [s_merge] in H; [discriminate|].
  destruct l as [|m l]; [injection H as <-; repeat split; try constructor; intros x []|].
  inversion_clear F as [|? ? F1 F2]. inversion_clear Srt as [|? ? S1 S2].
  minv H. destruct v as [q rest]. minv H. injection H as <-.
  pose proof (s_run_split _ _ _ _ _ _ E) as (run & -> & R1 & R2).
  apply Forall_app in F2 as [_ F3]. apply Forall_app in S2 as [_ S3].
  assert (S4 : StronglySorted (fun a b => smon_ltb b a = false) rest).
  { clear - S1. induction run; [exact S1|]. inversion_clear S1. auto. }
  destruct (IH _ _ F3 S4 E0) as [[C1 C2] K].
  assert (GT : Forall (smon_lt m) rest).
  { destruct rest as [|x rest]; [constructor|].
    assert (Lx : smon_lt m x).
    { inversion_clear S3 as [|? ? G _]. apply not_true_iff_false in G. rewrite smon_ltb_spec in G.
      destruct (smon_total m x) as [EK|[L|L]]; [|assumption|contradiction]. exfalso. apply R2.
      inversion_clear F3 as [|? ? [D1 D2] _]. destruct F1 as [D3 D4]. unfold skey in EK. injection EK as K1 K2.
      split; [apply rat_ext; unfold integral in *; congruence|].
      clear - K2 D2 D4. revert D2 D4 K2. generalize (sinds m), (sinds x).
      induction l as [|a l IHl]; intros [|b r] A B K; try discriminate; [reflexivity|].
      inversion_clear A as [|? ? A1 A2]. inversion_clear B as [|? ? B1 B2]. cbn in K. injection K as K1 K2 K3. f_equal; [|auto].
      destruct a as [ai [an ad]], b as [bi [bn bd]]. unfold integral in *. cbn in *. congruence. }
    constructor; [assumption|]. inversion_clear S4 as [|? ? _ G].
    eapply Forall_impl; [|exact G]. intros y Gy. cbn in Gy. apply not_true_iff_false in Gy. rewrite smon_ltb_spec in Gy.
    destruct (smon_total x y) as [EK|[L|L]]; [|eauto using smon_lt_trans|contradiction].
    now apply (smon_lt_key m x m y). }
  assert (K2 : keys_in v (m :: run ++ rest)).
  { intros y Hy. destruct (K y Hy) as (z & Iz & Ez). exists z. split; [|assumption]. right. apply in_or_app. auto. }
  destruct (is_zero q) eqn:Z.
  - split; [split; assumption|assumption].
  - split; [split|].
    + constructor; [assumption|]. apply Forall_forall. intros y Hy. destruct (K y Hy) as (z & Iz & Ez).
      rewrite Forall_forall in GT. specialize (GT z Iz).
      apply (smon_lt_same m z); auto; [split; reflexivity|]. destruct Ez. split; auto.
    + constructor; [|assumption]. cbn. unfold is_zero in Z. lia.
    + intros y [<-|Hy]; [|auto]. exists m. split; [now left|split; reflexivity].
Qed.

(** ** the loop over terms *)
Lemma s_gather_split e ts : forall r l, s_gather e ts = (r, l) ->
  exists g, ts = g ++ r /\ Forall (fun t : sterm => fst t = e) g /\ l = all_mons g /\
    match r with [] => True | t :: _ => fst t <> e end.
Proof.
  induction ts as [|t ts IH]; intros r l H; cbn [s_gather] in H.
  - injection H as <- <-. exists []. auto.
  - destruct (N.eqb_spec (fst t) e) as [E|E].
    + destruct (s_gather e ts) as [r' l'] eqn:G. injection H as <- <-.
      destruct (IH _ _ eq_refl) as (g & -> & F & -> & R). exists (t :: g). auto.
    + injection H as <- <-. exists []. auto.
Qed.
Lemma gathered_val rho e g b : Forall (fun t : sterm => fst t = e) g ->
  val rho g b = if (e =? b)%N then mons_val rho (all_mons g) else 0%R.
Proof.
  induction 1 as [|t g E F IH].
  - destruct (e =? b)%N; reflexivity.
  - rewrite val_cons, IH, E. change (all_mons (t :: g)) with (snd t ++ all_mons g).
    rewrite mons_val_app. destruct (e =? b)%N; ring.
Qed.
Lemma mv_ok_app a b : mv_ok (a ++ b) <-> mv_ok a /\ mv_ok b.
Proof. unfold mv_ok. rewrite all_mons_app. apply Forall_app. Qed.
Lemma s_collate_val rho b fuel : forall ts t, mv_ok ts -> s_collate Exact fuel ts = Ok t ->
  val rho t b = val rho ts b /\ mv_ok t.
Proof.
  induction fuel as [|fuel IH]; intros ts t F H; [discriminate|]. cbn [s_collate] in H.
  destruct ts as [|t0 ts]; [injection H as <-; auto|].
  destruct (s_gather (fst t0) (t0 :: ts)) as [rest l] eqn:G.
  apply s_gather_split in G as (g & EQ & F1 & -> & _). rewrite EQ in F. apply mv_ok_app in F as [F2 F3].
  repeat minv H. injection H as <-. apply s_sort_perm in E.
  assert (F4 : Forall mon_ok v) by (eapply Permutation_Forall; [exact E|exact F2]).
  apply (s_merge_val rho) in E0 as [V W]; auto. apply IH in E1 as [V' W']; auto.
  rewrite EQ, val_app, (gathered_val rho (fst t0) g) by assumption.
  rewrite (mons_val_perm rho _ _ E), <- V, <- V'.
  destruct v0 as [|m v0].
  - split; [|assumption]. change (mons_val rho []) with 0%R. destruct (_ =? _)%N; ring.
  - split; [now rewrite val_cons|]. apply mv_ok_cons. auto.
Qed.
Lemma s_collate_canon md fuel : forall ts t, tdegs_ok ts -> StronglySorted N.le (map fst ts) ->
  s_collate md fuel ts = Ok t -> canonical t /\ tdegs_ok t /\ (forall e, In e (map fst t) -> In e (map fst ts)) /\
  keys_in (all_mons t) (all_mons ts).
Proof.
  induction fuel as [|fuel IH]; intros ts t F Srt H; [discriminate|]. cbn [s_collate] in H.
  destruct ts as [|t0 ts].
  { injection H as <-. repeat split; try constructor; try easy; intros m []. }
  destruct (s_gather (fst t0) (t0 :: ts)) as [rest l] eqn:G.
  apply s_gather_split in G as (g & EQ & F1 & -> & NE). rewrite EQ in F, Srt |- *.
  apply Forall_app in F as [F2 F3]. rewrite map_app in Srt.
  repeat minv H. injection H as <-.
  assert (D : Forall degs_ok (all_mons g)).
  { apply Forall_forall. intros m Hm. apply in_flat_map in Hm as (t & It & Im).
    rewrite Forall_forall in F2. specialize (F2 t It). rewrite Forall_forall in F2. auto. }
  apply s_sort_spec in E as [P ST]; auto.
  apply s_merge_canon in E0 as [C K]; auto; [|eapply Permutation_Forall; eauto].
  assert (S2 : StronglySorted N.le (map fst rest)).
  { eapply ss_app_r; exact Srt. }
  apply IH in E1 as (C1 & D1 & I1 & K1); auto.
  assert (KM : keys_in v0 (all_mons (g ++ rest))).
  { intros y Hy. destruct (K y Hy) as (z & Iz & Ez). exists z. split; [|assumption].
    rewrite all_mons_app. apply in_or_app. left. eapply Permutation_in; [symmetry; exact P|exact Iz]. }
  assert (KR : keys_in (all_mons v1) (all_mons (g ++ rest))).
  { intros y Hy. destruct (K1 y Hy) as (z & Iz & Ez). exists z. split; [|assumption].
    rewrite all_mons_app. apply in_or_app. auto. }
  assert (GT : Forall (N.lt (fst t0)) (map fst rest)).
  { destruct g as [|g0 g]; [destruct rest as [|x rest]; [discriminate|]; injection EQ as -> ->; congruence|].
    cbn [app] in EQ. injection EQ as -> EQ. cbn [map app] in Srt. inversion_clear Srt as [|? ? _ LE].
    apply Forall_app in LE as [_ LE]. destruct rest as [|x rest]; [constructor|]. cbn [map] in *.
    inversion_clear LE as [|? ? L1 L2]. inversion_clear S2 as [|? ? _ L3].
    constructor; [lia|]. eapply Forall_impl; [|exact L3]. intros; cbn in *. lia. }
  destruct v0 as [|m v0].
  - repeat split; auto; try apply C1. intros e He. rewrite map_app. apply in_or_app. auto.
  - split; [|split; [|split]].
    + apply canonical_cons. split; [|assumption]. split; [|split; [discriminate|assumption]].
      apply Forall_forall. intros e He. rewrite Forall_forall in GT. auto.
    + constructor; [|assumption]. cbn. eapply keys_in_degs; [exact K|]. eapply Permutation_Forall; eauto.
    + cbn [map]. intros e [<-|He]; [|rewrite map_app; apply in_or_app; auto].
      rewrite <- EQ. now left.
    + change (all_mons ((fst t0, m :: v0) :: v1)) with ((m :: v0) ++ all_mons v1).
      intros y Hy. apply in_app_or in Hy as [Hy|Hy]; auto.
Qed.

(** ** sort then collate *)
Lemma t_lt_weak : strict_weak (fun a b : sterm => (fst a <? fst b)%N).
Proof. constructor; intros; rewrite ?N.ltb_lt, ?N.ltb_ge in *; try lia; apply N.ltb_irrefl. Qed.
Lemma t_sort ts : exists ts', sort_range t_lt ts 0 (length ts) = Ok ts' /\ Permutation ts ts' /\
  StronglySorted N.le (map fst ts').
Proof.
  destruct (sort_total _ t_lt_weak [] ts []) as (s & E & P & ST). cbn [app length Nat.add] in E.
  rewrite !app_nil_r in E. exists s. split; [exact E|]. split; [exact P|].
  clear - ST. induction ST as [|a l S IH F]; cbn; constructor; auto.
  apply Forall_forall. intros e He. apply in_map_iff in He as (t & <- & It). rewrite Forall_forall in F.
  specialize (F t It). apply N.ltb_ge in F. exact F.
Qed.
Lemma sc_val rho b ts t : mv_ok ts -> s_sort_collate Exact ts = Ok t ->
  val rho t b = val rho ts b /\ mv_ok t.
Proof.
  intros F H. unfold s_sort_collate in H. destruct (t_sort ts) as (ts' & E & P & _). rewrite E in H. cbn [bind] in H.
  apply (s_collate_val rho b) in H; [|eapply mv_ok_perm; eauto]. now rewrite (val_perm rho ts ts').
Qed.
Lemma keys_in_perm t a b : Permutation a b -> keys_in t a -> keys_in t b.
Proof. intros P K m Hm. destruct (K m Hm) as (z & Iz & Ez). exists z. split; [|assumption]. eapply Permutation_in; eauto. Qed.
Lemma sc_canon md ts t : tdegs_ok ts -> s_sort_collate md ts = Ok t ->
  canonical t /\ tdegs_ok t /\ (forall e, In e (map fst t) -> In e (map fst ts)) /\ keys_in (all_mons t) (all_mons ts).
Proof.
  intros F H. unfold s_sort_collate in H. destruct (t_sort ts) as (ts' & E & P & S). rewrite E in H. cbn [bind] in H.
  apply s_collate_canon in H as (A & B & C & D); auto; [|eapply tdegs_perm; eauto].
  repeat split; auto; try apply A.
  - intros e He. apply C in He. eapply Permutation_in; [|exact He]. apply Permutation_map. now symmetry.
  - eapply keys_in_perm; [|exact D]. unfold all_mons. apply Permutation_flat_map. now symmetry.
Qed.
