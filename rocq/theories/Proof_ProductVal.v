(** Value and form of products. *)
From Coq Require Import ZArith NArith List Bool Arith Lia ZifyBool ZifyN ZifyNat Reals Lra Sorting.Permutation Sorting.Sorted.
From Verif Require Import Base Model_Numeric Model_Blade Model_Sort Model_MV Model_Product Spec_Numeric Spec_Sort Spec_MV
  Proof_Numeric Proof_Sort Proof_SortMap Proof_Layout Proof_Sum Proof_Val Proof_Collate Proof_Product Proof_CollateVal.
Import ListNotations.
Local Open Scope nat_scope.

Lemma radd_int md a b r : integral a -> integral b -> radd md a b = Ok r ->
  integral r /\ num r = (num a + num b)%Z.
Proof.
  unfold integral. intros A B H. unfold radd in H. rewrite A, B in H. inv_all. subst. rewrite !Z.mul_1_r in *.
  destruct (Z.eqb_spec (num a + num b) 0) as [E|E].
  - injection H as <-. cbn. lia.
  - inv_all. subst. cbn in H. injection H as <-. cbn. lia.
Qed.
Lemma radd_assign_int a b r : integral a -> integral b -> radd_assign a b = Ok r ->
  integral r /\ num r = (num a + num b)%Z.
Proof.
  unfold integral. intros A B H. unfold radd_assign in H. rewrite A, B in H. inv_all. subst. rewrite !Z.mul_1_r in *.
  destruct (Z.eqb_spec (num a + num b) 0) as [E|E].
  - injection H as <-. cbn. lia.
  - inv_all. subst. cbn in H. injection H as <-. cbn. lia.
Qed.

(** ** indeterminates *)
Definition degs_int (l : list ind) : Prop := Forall (fun i => integral (ideg i)) l.
Definition def_inds (rho : N -> R) (l : list ind) : Prop :=
  Forall (fun i => rho (id i) <> 0%R \/ (0 <= num (ideg i))%Z) l.
Definition ids_sorted (l : list ind) : Prop :=
  StronglySorted N.lt (map id l) /\ Forall (fun i => num (ideg i) <> 0%Z) l.

Lemma total_degree_cons i l : total_degree (i :: l) = (num (ideg i) + total_degree l)%Z.
Proof. reflexivity. Qed.
Lemma s_rest_deg l : forall deg d, integral deg -> degs_int l -> s_rest deg l = Ok d ->
  integral d /\ num d = (num deg + total_degree l)%Z.
Proof.
  induction l as [|i l IH]; intros deg d A F H; cbn [s_rest] in H.
  - injection H as <-. unfold total_degree. cbn. split; [assumption|lia].
  - inversion_clear F as [|? ? F1 F2]. minv H. apply radd_assign_int in E as [E1 E2]; auto.
    apply IH in H as [H1 H2]; auto. split; [assumption|]. rewrite H2, E2, total_degree_cons. lia.
Qed.
Lemma powerRZ_def_add x a b : x <> 0%R \/ ((0 <= a)%Z /\ (0 <= b)%Z) ->
  powerRZ x (a + b) = (powerRZ x a * powerRZ x b)%R.
Proof.
  intros [H|[A B]]; [now apply powerRZ_add|].
  rewrite <- (Z2Nat.id a), <- (Z2Nat.id b), <- Nat2Z.inj_add, <- !pow_powerRZ by assumption. apply pow_add.
Qed.
Lemma inds_val_cons rho i l : inds_val rho (i :: l) = (dpow (rho (id i)) (ideg i) * inds_val rho l)%R.
Proof. reflexivity. Qed.
Lemma dpow_int x d : integral d -> dpow x d = powerRZ x (num d).
Proof. unfold dpow, integral. intros ->. reflexivity. Qed.

Section Mode.
Variable md : mode.

Lemma s_minds_deg ls rs : forall deg t d, integral deg -> degs_int ls -> degs_int rs -> s_minds md ls rs deg = Ok (t, d) ->
  integral d /\ num d = (num deg + total_degree ls + total_degree rs)%Z /\ degs_int t /\
  total_degree t = (total_degree ls + total_degree rs)%Z.
Proof.
  revert ls rs. apply (merge_ind (fun ls rs => forall deg t d, integral deg -> degs_int ls -> degs_int rs ->
    s_minds md ls rs deg = Ok (t, d) ->
    integral d /\ num d = (num deg + total_degree ls + total_degree rs)%Z /\ degs_int t /\
    total_degree t = (total_degree ls + total_degree rs)%Z)).
  - intros rs deg t d A B C H. rewrite s_minds_nil_l in H. minv H. injection H as <- <-.
    apply s_rest_deg in E as [E1 E2]; auto. change (total_degree []) with 0%Z. repeat split; auto; lia.
  - intros ls deg t d A B C H. rewrite s_minds_nil_r in H. minv H. injection H as <- <-.
    apply s_rest_deg in E as [E1 E2]; auto. change (total_degree []) with 0%Z. repeat split; auto; lia.
  - intros l ls r rs I1 I2 I3 deg t d A B C H. rewrite s_minds_cons in H.
    inversion B as [|? ? B1 B2]; subst. inversion C as [|? ? C1 C2]; subst. rewrite !total_degree_cons.
    destruct (id l =? id r)%N; [|destruct (id l <? id r)%N].
    + minv H. apply radd_int in E as [E1 E2]; auto. minv H. apply radd_assign_int in E as [E3 E4]; auto.
      minv H. destruct v1 as [t1 d1]. apply I3 in E as (F1 & F2 & F3 & F4); auto. injection H as <- <-.
      split; [assumption|]. split; [lia|]. destruct (rne_int v 0) eqn:NE.
      * split; [constructor; assumption|]. rewrite total_degree_cons. cbn. lia.
      * split; [assumption|]. unfold rne_int in NE. unfold integral in E1. lia.
    + minv H. apply radd_assign_int in E as [E3 E4]; auto. minv H. destruct v0 as [t1 d1].
      apply I1 in E as (F1 & F2 & F3 & F4); auto. injection H as <- <-. rewrite !total_degree_cons in *.
      repeat split; auto; try lia. constructor; auto.
    + minv H. apply radd_assign_int in E as [E3 E4]; auto. minv H. destruct v0 as [t1 d1].
      apply I2 in E as (F1 & F2 & F3 & F4); auto. injection H as <- <-. rewrite !total_degree_cons in *.
      repeat split; auto; try lia. constructor; auto.
Qed.
Lemma s_minds_ids ls rs : forall deg t d, s_minds md ls rs deg = Ok (t, d) ->
  forall i, In i (map id t) -> In i (map id ls) \/ In i (map id rs).
Proof.
  revert ls rs. apply (merge_ind (fun ls rs => forall deg t d, s_minds md ls rs deg = Ok (t, d) ->
    forall i, In i (map id t) -> In i (map id ls) \/ In i (map id rs))).
  - intros rs deg t d H. rewrite s_minds_nil_l in H. minv H. injection H as <- <-. auto.
  - intros ls deg t d H. rewrite s_minds_nil_r in H. minv H. injection H as <- <-. auto.
  - intros l ls r rs I1 I2 I3 deg t d H. rewrite s_minds_cons in H. intros i Hi.
    destruct (id l =? id r)%N; [|destruct (id l <? id r)%N]; repeat minv H.
    + destruct v1 as [t1 d1]. injection H as <- <-. specialize (I3 _ _ _ E1 i).
      destruct (rne_int v 0); cbn in *; intuition.
    + destruct v0 as [t1 d1]. injection H as <- <-. specialize (I1 _ _ _ E0 i). cbn in *; intuition.
    + destruct v0 as [t1 d1]. injection H as <- <-. specialize (I2 _ _ _ E0 i). cbn in *; intuition.
Qed.
Lemma ids_cons_inv i l : ids_sorted (i :: l) -> ids_sorted l /\ Forall (N.lt (id i)) (map id l) /\ num (ideg i) <> 0%Z.
Proof. intros [A B]. cbn in A. inversion_clear A. inversion_clear B. repeat split; auto. Qed.
Lemma ids_cons i l : ids_sorted l -> Forall (N.lt (id i)) (map id l) -> num (ideg i) <> 0%Z -> ids_sorted (i :: l).
Proof. intros [A B] F D. split; [cbn; now constructor|now constructor]. Qed.
Lemma s_minds_sorted ls rs : forall deg t d, degs_int ls -> degs_int rs -> ids_sorted ls -> ids_sorted rs ->
  s_minds md ls rs deg = Ok (t, d) -> ids_sorted t.
Proof.
  revert ls rs. apply (merge_ind (fun ls rs => forall deg t d, degs_int ls -> degs_int rs -> ids_sorted ls -> ids_sorted rs ->
    s_minds md ls rs deg = Ok (t, d) -> ids_sorted t)).
  - intros rs deg t d _ _ _ S H. rewrite s_minds_nil_l in H. minv H. injection H as <- <-. assumption.
  - intros ls deg t d _ _ S _ H. rewrite s_minds_nil_r in H. minv H. injection H as <- <-. assumption.
  - intros l ls r rs I1 I2 I3 deg t d B C Sl Sr H. rewrite s_minds_cons in H.
    inversion B as [|? ? B1 B2]; subst. inversion C as [|? ? C1 C2]; subst.
    pose proof (ids_cons_inv _ _ Sl) as (Sl1 & Fl & Dl). pose proof (ids_cons_inv _ _ Sr) as (Sr1 & Fr & Dr).
    rewrite Forall_forall in Fl, Fr.
    destruct (N.eqb_spec (id l) (id r)) as [EI|NI]; [|destruct (N.ltb_spec (id l) (id r)) as [LI|LI]]; repeat minv H.
    + destruct v1 as [t1 d1]. injection H as <- <-. pose proof (s_minds_ids _ _ _ _ _ E1) as I.
      apply I3 in E1; auto. apply radd_int in E as [E2 E3]; auto. destruct (rne_int v 0) eqn:NE; [|assumption].
      apply ids_cons; auto; cbn.
      * apply Forall_forall. intros i Hi. destruct (I i Hi) as [K|K]; [auto|]. rewrite EI. auto.
      * unfold rne_int in NE. unfold integral in E2. lia.
    + destruct v0 as [t1 d1]. injection H as <- <-. pose proof (s_minds_ids _ _ _ _ _ E0) as I.
      apply I1 in E0; auto. apply ids_cons; auto.
      apply Forall_forall. intros i Hi. destruct (I i Hi) as [K|[<-|K]]; auto. specialize (Fr _ K). lia.
    + destruct v0 as [t1 d1]. injection H as <- <-. pose proof (s_minds_ids _ _ _ _ _ E0) as I.
      apply I2 in E0; auto. apply ids_cons; auto.
      apply Forall_forall. intros i Hi. destruct (I i Hi) as [[<-|K]|K]; auto; [lia|]. specialize (Fl _ K). lia.
Qed.
Lemma s_minds_val rho ls rs : forall deg t d, degs_int ls -> degs_int rs -> def_inds rho ls -> def_inds rho rs ->
  s_minds md ls rs deg = Ok (t, d) ->
  inds_val rho t = (inds_val rho ls * inds_val rho rs)%R /\ def_inds rho t.
Proof.
  revert ls rs. apply (merge_ind (fun ls rs => forall deg t d, degs_int ls -> degs_int rs -> def_inds rho ls -> def_inds rho rs ->
    s_minds md ls rs deg = Ok (t, d) ->
    inds_val rho t = (inds_val rho ls * inds_val rho rs)%R /\ def_inds rho t)).
  - intros rs deg t d _ _ _ D H. rewrite s_minds_nil_l in H. minv H. injection H as <- <-.
    change (inds_val rho []) with 1%R. split; [ring|assumption].
  - intros ls deg t d _ _ D _ H. rewrite s_minds_nil_r in H. minv H. injection H as <- <-.
    change (inds_val rho []) with 1%R. split; [ring|assumption].
  - intros l ls r rs I1 I2 I3 deg t d B C Dl Dr H. rewrite s_minds_cons in H.
    inversion B as [|? ? B1 B2]; subst. inversion C as [|? ? C1 C2]; subst.
    inversion Dl as [|? ? G1 G2]; subst. inversion Dr as [|? ? K1 K2]; subst.
    destruct (N.eqb_spec (id l) (id r)) as [EI|NI]; [|destruct (N.ltb_spec (id l) (id r)) as [LI|LI]]; repeat minv H.
    + destruct v1 as [t1 d1]. injection H as <- <-. apply I3 in E1 as [V W]; auto.
      apply radd_int in E as [E2 E3]; auto.
      assert (PW : powerRZ (rho (id l)) (num v) = (dpow (rho (id l)) (ideg l) * dpow (rho (id r)) (ideg r))%R).
      { rewrite !dpow_int, E3, <- EI by assumption. apply powerRZ_def_add. rewrite <- EI in K1.
        destruct G1; auto. destruct K1; auto. }
      assert (Q : (inds_val rho (l :: ls) * inds_val rho (r :: rs) = powerRZ (rho (id l)) (num v) * inds_val rho t1)%R).
      { rewrite PW, V, !inds_val_cons. ring. }
      rewrite Q. destruct (rne_int v 0) eqn:NE.
      * rewrite inds_val_cons. cbn [id ideg]. rewrite dpow_int by assumption. split; [reflexivity|].
        constructor; [|assumption]. cbn. rewrite <- EI in K1. destruct G1, K1; auto. right. lia.
      * unfold rne_int, integral in *. replace (num v) with 0%Z by lia. cbn. split; [ring|assumption].
    + destruct v0 as [t1 d1]. injection H as <- <-. apply I1 in E0 as [V W]; auto.
      rewrite inds_val_cons, V, !inds_val_cons. split; [ring|]. constructor; auto.
    + destruct v0 as [t1 d1]. injection H as <- <-. apply I2 in E0 as [V W]; auto.
      rewrite inds_val_cons, V, !inds_val_cons. split; [ring|]. constructor; auto.
Qed.
End Mode.

(** ** monomials *)
Lemma s_pmon_degs md mult l r m : degs_ok l -> degs_ok r -> s_pmon md mult l r = Ok m ->
  degs_ok m /\ (mon_sorted l -> mon_sorted r -> mon_sorted m).
Proof.
  intros [A1 A2] [B1 B2] H. unfold s_pmon in H. minv H. destruct v as [t deg]. repeat minv H. injection H as <-.
  pose proof (s_minds_deg md _ _ zero _ _ eq_refl A2 B2 E) as (F1 & F2 & F3 & F4).
  split; [split; assumption|]. intros (S1 & S2 & S3) (T1 & T2 & T3).
  destruct (s_minds_sorted md _ _ _ _ _ A2 B2 (conj S1 S2) (conj T1 T2) E) as [U1 U2].
  split; [exact U1|split; [exact U2|]]. cbn [sdeg sinds]. rewrite F2, F4. cbn [num zero]. lia.
Qed.
Lemma s_pmon_val rho mult l r m : mon_ok l -> mon_ok r -> def_inds rho (sinds l) -> def_inds rho (sinds r) ->
  s_pmon Exact mult l r = Ok m ->
  mon_val rho m = (IZR mult * mon_val rho l * mon_val rho r)%R /\ mon_ok m /\ def_inds rho (sinds m).
Proof.
  intros Ol Or Dl Dr H. pose proof (s_pmon_degs _ _ _ _ _ (mon_ok_degs _ Ol) (mon_ok_degs _ Or) H) as [DG _].
  unfold s_pmon in H. minv H. destruct v as [t deg]. repeat minv H. injection H as <-.
  apply (s_minds_val Exact rho) in E as [V W]; auto; try apply Ol; try apply Or.
  apply rv_scale_int in E0 as [V0 W0]; [|apply Ol]. apply rv_mul in E1 as [V1 W1]; auto; [|apply Or].
  unfold mon_val. cbn [sq sinds]. rewrite V, V1, V0. split; [ring|]. split; [split; assumption|assumption].
Qed.
Definition ms_def (rho : N -> R) (l : list smon) : Prop := Forall (fun m => def_inds rho (sinds m)) l.
Lemma s_prow_val rho mult l rs : forall t, mon_ok l -> Forall mon_ok rs -> def_inds rho (sinds l) -> ms_def rho rs ->
  s_prow Exact mult l rs = Ok t ->
  mons_val rho t = (IZR mult * mon_val rho l * mons_val rho rs)%R /\ Forall mon_ok t /\ ms_def rho t.
Proof.
  induction rs as [|r rs IH]; intros t A B C D H; cbn [s_prow] in H.
  - injection H as <-. change (mons_val rho []) with 0%R. split; [ring|split; constructor].
  - inversion_clear B as [|? ? B1 B2]. inversion_clear D as [|? ? D1 D2]. repeat minv H. injection H as <-.
    apply (s_pmon_val rho) in E as (V & W & X); auto. apply IH in E0 as (V' & W' & X'); auto.
    rewrite !mons_val_cons, V, V'. split; [ring|]. split; constructor; auto.
Qed.
Lemma s_pmons_val rho mult ls rs : forall t, Forall mon_ok ls -> Forall mon_ok rs -> ms_def rho ls -> ms_def rho rs ->
  s_pmons Exact mult ls rs = Ok t ->
  mons_val rho t = (IZR mult * mons_val rho ls * mons_val rho rs)%R /\ Forall mon_ok t /\ ms_def rho t.
Proof.
  induction ls as [|l ls IH]; intros t A B C D H; cbn [s_pmons] in H.
  - injection H as <-. change (mons_val rho []) with 0%R. split; [ring|split; constructor].
  - inversion_clear A as [|? ? A1 A2]. inversion_clear C as [|? ? C1 C2]. repeat minv H. injection H as <-.
    apply (s_prow_val rho) in E as (V & W & X); auto. apply IH in E0 as (V' & W' & X'); auto.
    rewrite !mons_val_app, mons_val_cons, V, V'. split; [ring|]. split; apply Forall_app; auto.
Qed.
Lemma s_prow_degs md mult l rs : forall t, degs_ok l -> Forall degs_ok rs -> s_prow md mult l rs = Ok t ->
  Forall degs_ok t /\ (mon_sorted l -> Forall mon_sorted rs -> Forall mon_sorted t).
Proof.
  induction rs as [|r rs IH]; intros t A B H; cbn [s_prow] in H.
  - injection H as <-. auto.
  - inversion_clear B as [|? ? B1 B2]. repeat minv H. injection H as <-. apply s_pmon_degs in E as [D S1]; auto.
    apply IH in E0 as [D' S']; auto. split; [auto|]. intros X Y. inversion_clear Y. auto.
Qed.
Lemma s_pmons_degs md mult ls rs : forall t, Forall degs_ok ls -> Forall degs_ok rs -> s_pmons md mult ls rs = Ok t ->
  Forall degs_ok t /\ (Forall mon_sorted ls -> Forall mon_sorted rs -> Forall mon_sorted t).
Proof.
  induction ls as [|l ls IH]; intros t A B H; cbn [s_pmons] in H.
  - injection H as <-. auto.
  - inversion_clear A as [|? ? A1 A2]. repeat minv H. injection H as <-. apply s_prow_degs in E as [D S1]; auto.
    apply IH in E0 as [D' S']; auto. split; [apply Forall_app; auto|]. intros X Y. inversion_clear X. apply Forall_app. auto.
Qed.

(** ** terms *)
Section Prod.
Variable P : N -> N -> N * Z.
Definition kP (c a b : N) : R := if (fst (P a b) =? c)%N then IZR (snd (P a b)) else 0%R.
Definition ts_def (rho : N -> R) (ts : list sterm) : Prop := Forall (fun t : sterm => ms_def rho (snd t)) ts.
Definition ts_ok (ts : list sterm) : Prop := Forall (fun t : sterm => Forall mon_ok (snd t)) ts.
Lemma mv_ok_ts ts : mv_ok ts <-> ts_ok ts.
Proof.
  unfold mv_ok, ts_ok, all_mons. induction ts as [|t ts IH]; cbn.
  - split; constructor.
  - rewrite Forall_app, IH. split; [intros [A B]; constructor; auto|intros H; inversion H; auto].
Qed.
Lemma defined_ts rho ts : defined rho ts <-> ts_def rho ts.
Proof.
  unfold defined, ts_def, ms_def, def_inds. setoid_rewrite Forall_forall. setoid_rewrite Forall_forall.
  setoid_rewrite Forall_forall. unfold all_mons. setoid_rewrite in_flat_map. firstorder.
Qed.
Lemma s_pterm_val rho c l r t : Forall mon_ok (snd l) -> Forall mon_ok (snd r) -> ms_def rho (snd l) -> ms_def rho (snd r) ->
  s_pterm Exact P l r = Ok t ->
  val rho t c = (mons_val rho (snd l) * mons_val rho (snd r) * kP c (fst l) (fst r))%R /\ mv_ok t /\ ts_def rho t.
Proof.
  intros A B C D H. unfold s_pterm in H. unfold kP. destruct (P (fst l) (fst r)) as [e mult]. cbn [fst snd].
  destruct (Z.eqb_spec mult 0) as [Z|Z].
  - injection H as <-. subst. change (val rho [] c) with 0%R. split; [destruct (e =? c)%N; ring|split; constructor].
  - minv H. injection H as <-. apply (s_pmons_val rho) in E as (V & W & X); auto. rewrite val_cons. cbn [fst snd].
    change (val rho [] c) with 0%R. rewrite V. split; [destruct (e =? c)%N; ring|]. split.
    + apply mv_ok_cons. split; [exact W|constructor].
    + constructor; [exact X|constructor].
Qed.
Lemma s_ptrow_val rho c l rs : forall t, Forall mon_ok (snd l) -> ts_ok rs -> ms_def rho (snd l) -> ts_def rho rs ->
  s_ptrow Exact P l rs = Ok t ->
  val rho t c = (mons_val rho (snd l) * Rsum (map (fun r => mons_val rho (snd r) * kP c (fst l) (fst r)) rs))%R
  /\ mv_ok t /\ ts_def rho t.
Proof.
  induction rs as [|r rs IH]; intros t A B C D H; cbn [s_ptrow] in H.
  - injection H as <-. cbn [map]. change (Rsum []) with 0%R. change (val rho [] c) with 0%R. split; [ring|split; constructor].
  - inversion_clear B as [|? ? B1 B2]. inversion_clear D as [|? ? D1 D2]. repeat minv H. injection H as <-.
    apply (s_pterm_val rho c) in E as (V & W & X); auto. apply IH in E0 as (V' & W' & X'); auto.
    rewrite val_app, V, V'. cbn [map].
    change (Rsum ((mons_val rho (snd r) * kP c (fst l) (fst r))%R :: ?x)) with
      ((mons_val rho (snd r) * kP c (fst l) (fst r)) + Rsum x)%R.
    split; [cbn [map Rsum fold_right]; fold (Rsum (map (fun r => (mons_val rho (snd r) * kP c (fst l) (fst r))%R) rs)); ring|].
    split; [apply mv_ok_app; auto|apply Forall_app; auto].
Qed.
Lemma s_pterms_val rho c ls rs : forall t, ts_ok ls -> ts_ok rs -> ts_def rho ls -> ts_def rho rs ->
  s_pterms Exact P ls rs = Ok t ->
  val rho t c = Rsum (map (fun l => mons_val rho (snd l) *
     Rsum (map (fun r => mons_val rho (snd r) * kP c (fst l) (fst r)) rs))%R ls)
  /\ mv_ok t /\ ts_def rho t.
Proof.
  induction ls as [|l ls IH]; intros t A B C D H; cbn [s_pterms] in H.
  - injection H as <-. split; [reflexivity|split; constructor].
  - inversion_clear A as [|? ? A1 A2]. inversion_clear C as [|? ? C1 C2]. repeat minv H. injection H as <-.
    apply (s_ptrow_val rho c) in E as (V & W & X); auto. apply IH in E0 as (V' & W' & X'); auto.
    rewrite val_app, V, V'. split; [reflexivity|]. split; [apply mv_ok_app; auto|apply Forall_app; auto].
Qed.
Lemma s_pterm_degs md l r t : Forall degs_ok (snd l) -> Forall degs_ok (snd r) -> s_pterm md P l r = Ok t ->
  tdegs_ok t /\ (Forall mon_sorted (snd l) -> Forall mon_sorted (snd r) -> Forall mon_sorted (all_mons t)).
Proof.
  intros A B H. unfold s_pterm in H. destruct (P (fst l) (fst r)) as [e mult]. destruct (mult =? 0)%Z.
  - injection H as <-. split; constructor.
  - minv H. injection H as <-. apply s_pmons_degs in E as [D S1]; auto. split; [constructor; [exact D|constructor]|].
    intros X Y. cbn. rewrite app_nil_r. auto.
Qed.
Lemma s_ptrow_degs md l rs : forall t, Forall degs_ok (snd l) -> tdegs_ok rs -> s_ptrow md P l rs = Ok t ->
  tdegs_ok t /\ (Forall mon_sorted (snd l) -> Forall mon_sorted (all_mons rs) -> Forall mon_sorted (all_mons t)).
Proof.
  induction rs as [|r rs IH]; intros t A B H; cbn [s_ptrow] in H.
  - injection H as <-. split; [constructor|auto].
  - inversion_clear B as [|? ? B1 B2]. repeat minv H. injection H as <-.
    apply s_pterm_degs in E as [D S1]; auto. apply IH in E0 as [D' S']; auto. split; [apply Forall_app; auto|].
    intros X Y. change (all_mons (r :: rs)) with (snd r ++ all_mons rs) in Y. apply Forall_app in Y as [Y1 Y2].
    rewrite all_mons_app. apply Forall_app. auto.
Qed.
Lemma s_pterms_degs md ls rs : forall t, tdegs_ok ls -> tdegs_ok rs -> s_pterms md P ls rs = Ok t ->
  tdegs_ok t /\ (Forall mon_sorted (all_mons ls) -> Forall mon_sorted (all_mons rs) -> Forall mon_sorted (all_mons t)).
Proof.
  induction ls as [|l ls IH]; intros t A B H; cbn [s_pterms] in H.
  - injection H as <-. split; [constructor|auto].
  - inversion_clear A as [|? ? A1 A2]. repeat minv H. injection H as <-.
    apply s_ptrow_degs in E as [D S1]; auto. apply IH in E0 as [D' S']; auto. split; [apply Forall_app; auto|].
    intros Y X. change (all_mons (l :: ls)) with (snd l ++ all_mons ls) in Y. apply Forall_app in Y as [Y1 Y2].
    rewrite all_mons_app. apply Forall_app. auto.
Qed.
Lemma s_pterms_elems md ls rs : forall t, s_pterms md P ls rs = Ok t ->
  forall e, In e (map fst t) -> exists l r, In l ls /\ In r rs /\ e = fst (P (fst l) (fst r)).
Proof.
  assert (R : forall l rs t, s_ptrow md P l rs = Ok t -> forall e, In e (map fst t) ->
    exists r, In r rs /\ e = fst (P (fst l) (fst r))).
  { intros l rs0. induction rs0 as [|r rs0 IH]; intros t H e He; cbn [s_ptrow] in H.
    - injection H as <-. destruct He.
    - repeat minv H. injection H as <-. rewrite map_app in He. apply in_app_or in He as [He|He].
      + exists r. split; [now left|]. unfold s_pterm in E. destruct (P (fst l) (fst r)) as [e' mult].
        destruct (mult =? 0)%Z; [injection E as <-; destruct He|]. minv E. injection E as <-.
        destruct He as [<-|[]]. reflexivity.
      + destruct (IH _ E0 _ He) as (r' & I & Q). exists r'. split; [now right|assumption]. }
  induction ls as [|l ls IH]; intros t H e He; cbn [s_pterms] in H.
  - injection H as <-. destruct He.
  - repeat minv H. injection H as <-. rewrite map_app in He. apply in_app_or in He as [He|He].
    + destruct (R _ _ _ E _ He) as (r & I & Q). exists l, r. split; [now left|auto].
    + destruct (IH _ E0 _ He) as (l' & r & I & J & Q). exists l', r. split; [now right|auto].
Qed.

(** ** sums over terms are sums over blades *)
Lemma Rsum_mult_l {A} k (f : A -> R) l : Rsum (map (fun a => k * f a)%R l) = (k * Rsum (map f l))%R.
Proof.
  induction l as [|a l IH]; cbn [map]; [change (Rsum []) with 0%R; ring|].
  change (Rsum (?x :: ?y)) with (x + Rsum y)%R.
  transitivity (k * f a + Rsum (map (fun a => (k * f a)%R) l))%R; [reflexivity|]. rewrite IH.
  transitivity (k * (f a + Rsum (map f l)))%R; [ring|reflexivity].
Qed.
Lemma Rsum_plus {A} (f g : A -> R) l : Rsum (map (fun a => f a + g a)%R l) = (Rsum (map f l) + Rsum (map g l))%R.
Proof.
  induction l as [|a l IH]; cbn [map]; [change (Rsum []) with 0%R; ring|].
  transitivity (f a + g a + Rsum (map (fun a => (f a + g a)%R) l))%R; [reflexivity|]. rewrite IH.
  transitivity ((f a + Rsum (map f l)) + (g a + Rsum (map g l)))%R; [ring|reflexivity].
Qed.
Lemma Rsum_ext {A} (f g : A -> R) l : (forall a, In a l -> f a = g a) -> Rsum (map f l) = Rsum (map g l).
Proof. intros H. f_equal. now apply map_ext_in. Qed.
Lemma Rsum_0 {A} (f : A -> R) l : (forall a, In a l -> f a = 0%R) -> Rsum (map f l) = 0%R.
Proof.
  intros H. induction l as [|a l IH]; [reflexivity|].
  transitivity (f a + Rsum (map f l))%R; [reflexivity|]. rewrite H by now left. rewrite IH by (intros; apply H; now right). ring.
Qed.
Lemma Rsum_single (h : N -> R) e l : NoDup l -> In e l -> Rsum (map (fun a => if (e =? a)%N then h a else 0%R) l) = h e.
Proof.
  induction l as [|a l IH]; intros ND HI; [destruct HI|].
  inversion_clear ND as [|? ? N1 N2]. cbn [map].
  transitivity ((if (e =? a)%N then h a else 0) + Rsum (map (fun a => if (e =? a)%N then h a else 0%R) l))%R; [reflexivity|].
  destruct (N.eqb_spec e a) as [->|NE].
  - rewrite (Rsum_0 (fun b => if (a =? b)%N then h b else 0%R) l); [ring|].
    intros b Hb. destruct (N.eqb_spec a b) as [->|]; [contradiction|reflexivity].
  - destruct HI as [->|HI]; [congruence|]. rewrite IH by assumption. ring.
Qed.
Lemma blades_nodup n : NoDup (blades n).
Proof. unfold blades. apply FinFun.Injective_map_NoDup; [intros a b; apply Nat2N.inj|apply seq_NoDup]. Qed.
Lemma pow2_nat n : N.of_nat (2 ^ n) = (2 ^ N.of_nat n)%N.
Proof. rewrite Nat2N.inj_pow. reflexivity. Qed.
Lemma blades_in n e : In e (blades n) <-> (e < 2 ^ N.of_nat n)%N.
Proof.
  unfold blades. rewrite in_map_iff. rewrite <- pow2_nat. split.
  - intros (i & <- & Hi). apply in_seq in Hi. lia.
  - intros H. exists (N.to_nat e). split; [lia|]. apply in_seq. lia.
Qed.
Lemma sum_terms_blades rho n (h : N -> R) ts : in_dim n ts ->
  Rsum (map (fun t : sterm => mons_val rho (snd t) * h (fst t))%R ts) =
  Rsum (map (fun a => val rho ts a * h a)%R (blades n)).
Proof.
  induction 1 as [|t ts D F IH].
  - symmetry. cbn [map]. apply Rsum_0. intros. change (val rho [] a) with 0%R. ring.
  - cbn [map]. transitivity (mons_val rho (snd t) * h (fst t) +
      Rsum (map (fun t : sterm => mons_val rho (snd t) * h (fst t))%R ts))%R; [reflexivity|].
    rewrite IH.
    transitivity (Rsum (map (fun a => (if (fst t =? a)%N then mons_val rho (snd t) * h a else 0) + val rho ts a * h a)%R (blades n))).
    + rewrite Rsum_plus. f_equal. symmetry.
      apply (Rsum_single (fun a => (mons_val rho (snd t) * h a)%R)); [apply blades_nodup|]. now apply blades_in.
    + apply Rsum_ext. intros a _. rewrite val_cons. destruct (fst t =? a)%N; ring.
Qed.
Lemma pterms_bilinear rho n c tx ty : in_dim n tx -> in_dim n ty ->
  Rsum (map (fun l => mons_val rho (snd l) *
     Rsum (map (fun r => mons_val rho (snd r) * kP c (fst l) (fst r)) ty))%R tx) =
  bilinear P n (val rho tx) (val rho ty) c.
Proof.
  intros X Y. rewrite (sum_terms_blades rho n (fun a => Rsum (map (fun r => mons_val rho (snd r) * kP c a (fst r))%R ty))) by assumption.
  unfold bilinear. apply Rsum_ext. intros a _. rewrite (sum_terms_blades rho n (kP c a)) by assumption.
  rewrite <- Rsum_mult_l. apply Rsum_ext. intros b _. unfold kP. destruct (_ =? _)%N; ring.
Qed.

Lemma keys_in_def rho t ts : keys_in (all_mons t) (all_mons ts) -> defined rho ts -> defined rho t.
Proof.
  intros K D m i Hm Hi. destruct (K m Hm) as (z & Iz & _ & E). rewrite E in Hi. eauto.
Qed.
Lemma s_product_val rho n c tx ty t : mv_ok tx -> mv_ok ty -> defined rho tx -> defined rho ty ->
  in_dim n tx -> in_dim n ty -> s_product Exact P tx ty = Ok t ->
  val rho t c = bilinear P n (val rho tx) (val rho ty) c /\ mv_ok t /\ defined rho t.
Proof.
  intros A B C D X Y H. apply mv_ok_ts in A, B. apply defined_ts in C, D.
  unfold s_product in H. minv H. apply (s_pterms_val rho c) in E as (V & W & DF); auto.
  pose proof (sc_canon _ _ _ (mv_ok_tdegs _ W) H) as (_ & _ & _ & K).
  apply (sc_val rho c) in H as [V' W']; auto. rewrite V', V. split; [now apply pterms_bilinear|].
  split; [assumption|]. eapply keys_in_def; [exact K|]. now apply defined_ts.
Qed.
Lemma s_product_canon md tx ty t : tdegs_ok tx -> tdegs_ok ty -> s_product md P tx ty = Ok t ->
  canonical t /\ tdegs_ok t /\
  (Forall mon_sorted (all_mons tx) -> Forall mon_sorted (all_mons ty) -> Forall mon_sorted (all_mons t)) /\
  (forall e, In e (map fst t) -> exists l r, In l tx /\ In r ty /\ e = fst (P (fst l) (fst r))).
Proof.
  intros A B H. unfold s_product in H. minv H. pose proof (s_pterms_elems _ _ _ _ E) as EL.
  apply s_pterms_degs in E as [D S1]; auto. apply sc_canon in H as (C & D' & I & K); auto.
  repeat split; auto; try apply C; auto.
  intros X Y. specialize (S1 X Y). apply Forall_forall. intros m Hm. destruct (K m Hm) as (z & Iz & E1 & E2).
  rewrite Forall_forall in S1. specialize (S1 z Iz). unfold mon_sorted in *. now rewrite E1, E2.
Qed.
End Prod.
