(** Values and canonical form of the structured sum. *)
From Coq Require Import ZArith NArith QArith List Bool Arith Lia ZifyBool ZifyN ZifyNat Reals Lra Sorting.Sorted.
From Verif Require Import Base Model_Numeric Model_MV Spec_Numeric Spec_MV Proof_Numeric Proof_Layout Proof_Sum.
Import ListNotations.
Local Open Scope nat_scope.

(** ** rationals as reals *)
Lemma IZR_ne0 d : d <> 0%Z -> IZR d <> 0%R.
Proof. intros H E. apply H. now apply eq_IZR. Qed.
Lemma rv_add a b r : den a <> 0%Z -> den b <> 0%Z -> radd Exact a b = Ok r ->
  rv r = (rv a + rv b)%R /\ den r <> 0%Z.
Proof.
  intros A B H. apply radd_exact in H as [F _]; auto. split; [|apply F].
  rewrite (rv_feq _ _ _ F). unfold rv. rewrite plus_IZR, !mult_IZR.
  pose proof (IZR_ne0 _ A). pose proof (IZR_ne0 _ B). field. auto.
Qed.
Lemma rv_mul a b r : den a <> 0%Z -> den b <> 0%Z -> rmul Exact a b = Ok r ->
  rv r = (rv a * rv b)%R /\ den r <> 0%Z.
Proof.
  intros A B H. apply rmul_exact in H as [F _]; auto. split; [|apply F].
  rewrite (rv_feq _ _ _ F). unfold rv. rewrite !mult_IZR.
  pose proof (IZR_ne0 _ A). pose proof (IZR_ne0 _ B). field. auto.
Qed.
Lemma rv_neg a r : rneg a = Ok r -> rv r = (- rv a)%R /\ den r = den a.
Proof.
  intros H. apply rneg_ok in H. subst. split; [|reflexivity]. unfold rv. cbn. rewrite opp_IZR.
  unfold Rdiv. ring.
Qed.
Lemma rv_scale_int k a r : den a <> 0%Z -> rscale_int k a = Ok r ->
  rv r = (IZR k * rv a)%R /\ den r <> 0%Z.
Proof.
  intros A. unfold rscale_int. destruct ((k =? 0)%Z || (num a =? 0)%Z) eqn:E.
  - intros H; injection H as <-. split; [|cbn; lia]. unfold rv. cbn.
    apply orb_prop in E as [E|E]; apply Z.eqb_eq in E; rewrite E; unfold Rdiv; ring.
  - intros H. inv_all. subst. split; [|exact A]. unfold rv. cbn. rewrite mult_IZR. unfold Rdiv. ring.
Qed.
Lemma rv_zero r : num r = 0%Z -> rv r = 0%R.
Proof. intros H. unfold rv. rewrite H. unfold Rdiv. ring. Qed.

(** ** sums *)
Lemma Rsum_app a b : Rsum (a ++ b) = (Rsum a + Rsum b)%R.
Proof.
  induction a as [|x a IH]; cbn [app].
  - change (Rsum []) with 0%R. ring.
  - change (Rsum (x :: a ++ b)) with (x + Rsum (a ++ b))%R. change (Rsum (x :: a)) with (x + Rsum a)%R. rewrite IH. ring.
Qed.
Lemma mons_val_app rho a b : mons_val rho (a ++ b) = (mons_val rho a + mons_val rho b)%R.
Proof. unfold mons_val. now rewrite map_app, Rsum_app. Qed.
Lemma mons_val_cons rho m a : mons_val rho (m :: a) = (mon_val rho m + mons_val rho a)%R.
Proof. reflexivity. Qed.
Lemma val_app rho a b e : val rho (a ++ b) e = (val rho a e + val rho b e)%R.
Proof. unfold val. now rewrite map_app, Rsum_app. Qed.
Lemma val_cons rho t ts e : val rho (t :: ts) e =
  ((if (fst t =? e)%N then mons_val rho (snd t) else 0) + val rho ts e)%R.
Proof. reflexivity. Qed.

(** ** comparison of monomials with integral degrees *)
Definition degs_ok (m : smon) : Prop := integral (sdeg m) /\ Forall (fun i => integral (ideg i)) (sinds m).
Lemma mon_ok_degs m : mon_ok m -> degs_ok m. Proof. intros [_ H]; exact H. Qed.
Lemma rat_ext a b : num a = num b -> den a = den b -> a = b.
Proof. destruct a, b; cbn; congruence. Qed.
Lemma rne_false a b : rne a b = false -> a = b.
Proof. unfold rne. intros H. apply rat_ext; lia. Qed.
Lemma rne_true a b : rne a b = true -> a <> b.
Proof. unfold rne. intros H ->. lia. Qed.
Lemma rlt_int a b x : integral a -> integral b -> rlt a b = Ok x -> x = (num a <? num b)%Z.
Proof. unfold integral. intros A B H. unfold rlt in H. rewrite A, B in H. inv_all. subst. f_equal; lia. Qed.
Lemma rgt_int a b x : integral a -> integral b -> rgt a b = Ok x -> x = (num b <? num a)%Z.
Proof. unfold integral. intros A B H. unfold rgt in H. rewrite A, B in H. inv_all. subst. f_equal; lia. Qed.
Lemma req_int a b x : integral a -> integral b -> req a b = Ok x -> x = (num a =? num b)%Z.
Proof.
  unfold integral. intros A B H. pose proof (req_integers a b x A B H) as E.
  unfold qval in E. rewrite A, B in E. unfold Qeq in E. cbn in E.
  apply eq_true_iff_eq. rewrite E. lia.
Qed.
Lemma ind_eq_int a b x : integral (ideg a) -> integral (ideg b) -> ind_eq a b = Ok x ->
  if x then a = b else ind_key a <> ind_key b.
Proof.
  intros A B. unfold ind_eq, ind_key. destruct (N.eqb_spec (id a) (id b)) as [E|E].
  - intros H. apply req_int in H; auto. subst x. destruct (Z.eqb_spec (num (ideg a)) (num (ideg b))) as [F|F].
    + destruct a as [ia [na da]], b as [ib [nb db]]. cbn in *. unfold integral in *. cbn in *. congruence.
    + congruence.
  - intros H; injection H as <-. congruence.
Qed.
Lemma ind_lt_int a b x : integral (ideg a) -> integral (ideg b) -> ind_lt a b = Ok x ->
  (x = true <-> key_lt (ind_key a) (ind_key b)).
Proof.
  intros A B. unfold ind_lt, key_lt, ind_key. cbn. destruct (N.ltb_spec (id a) (id b)).
  - intros E; injection E as <-. split; auto.
  - destruct (N.eqb_spec (id a) (id b)).
    + intros E. apply rlt_int in E; auto. subst x. lia.
    + intros E; injection E as <-. lia.
Qed.
Lemma key_lt_total a b : a <> b -> key_lt a b \/ key_lt b a.
Proof. destruct a as [i x], b as [j y]. unfold key_lt. cbn. intros H.
  destruct (N.eq_dec i j) as [->|]; [|lia]. assert (x <> y) by congruence. lia. Qed.
Lemma key_lt_trans a b c : key_lt a b -> key_lt b c -> key_lt a c.
Proof. destruct a as [i x], b as [j y], c as [k z]. unfold key_lt. cbn. lia. Qed.
Lemma key_lt_irrefl a : ~ key_lt a a.
Proof. destruct a. unfold key_lt. cbn. lia. Qed.
Lemma lex_lt_trans a b c : lex_lt a b -> lex_lt b c -> lex_lt a c.
Proof.
  intros H. revert c. induction H as [b l|a b l r K|a l r H IH]; intros c Hc.
  - inversion Hc; constructor.
  - inversion Hc; subst; constructor; eauto using key_lt_trans.
  - inversion Hc; subst; [constructor; assumption|]. apply lex_tail. auto.
Qed.
Lemma lex_lt_irrefl a : ~ lex_lt a a.
Proof. induction a as [|x a IH]; intros H; inversion H; subst; [eapply key_lt_irrefl; eassumption|auto]. Qed.
Lemma smon_lt_trans a b c : smon_lt a b -> smon_lt b c -> smon_lt a c.
Proof.
  unfold smon_lt. intros [H|[H L]] [K|[K M]]; try (left; lia). right. split; [lia|]. eauto using lex_lt_trans.
Qed.
Lemma smon_lt_irrefl a : ~ smon_lt a a.
Proof. unfold smon_lt. intros [H|[_ H]]; [lia|]. eapply lex_lt_irrefl; eauto. Qed.

Lemma lex_side_spec l : forall r s, Forall (fun i => integral (ideg i)) l -> Forall (fun i => integral (ideg i)) r ->
  lex_side l r = Ok s ->
  match s with
  | Same => l = r
  | TakeL => lex_lt (map ind_key l) (map ind_key r)
  | TakeR => lex_lt (map ind_key r) (map ind_key l)
  end.
Proof.
  induction l as [|a l IH]; intros [|b r] s A B H; cbn in H.
  1-3: injection H as <-; try reflexivity; constructor.
  inversion_clear A as [|? ? A1 A2]. inversion_clear B as [|? ? B1 B2].
  destruct (ind_eq a b) as [e|] eqn:E; cbn in H; [|discriminate]. apply ind_eq_int in E; auto. destruct e.
  - subst b. specialize (IH r s A2 B2 H). destruct s; cbn; [now apply lex_tail..|congruence].
  - destruct (ind_lt a b) as [x|] eqn:L; cbn in H; [|discriminate]. apply ind_lt_int in L; auto.
    injection H as <-. destruct x; cbn; apply lex_head.
    + now apply L.
    + destruct (key_lt_total _ _ E) as [K|K]; auto. apply L in K. discriminate.
Qed.
Lemma s_side_spec l r s : degs_ok l -> degs_ok r -> s_side l r = Ok s ->
  match s with
  | Same => sdeg l = sdeg r /\ sinds l = sinds r
  | TakeL => smon_lt l r
  | TakeR => smon_lt r l
  end.
Proof.
  intros [A1 A2] [B1 B2] H. unfold s_side in H. destruct (rne (sdeg l) (sdeg r)) eqn:E.
  - apply rne_true in E. destruct (rlt (sdeg l) (sdeg r)) as [x|] eqn:L; cbn in H; [|discriminate].
    apply rlt_int in L; auto. injection H as <-. subst x. unfold integral in *.
    assert (num (sdeg l) <> num (sdeg r)) by (intros X; apply E, rat_ext; congruence).
    destruct (Z.ltb_spec (num (sdeg l)) (num (sdeg r))); left; lia.
  - apply rne_false in E. apply lex_side_spec in H; auto. destruct s.
    + right. split; [congruence|assumption].
    + right. split; [congruence|assumption].
    + auto.
Qed.

(** ** value of the sum *)
Lemma ss_mons_val rho ls rs : forall t, Forall mon_ok ls -> Forall mon_ok rs -> ss_mons Exact ls rs = Ok t ->
  mons_val rho t = (mons_val rho ls + mons_val rho rs)%R /\ Forall mon_ok t.
Proof.
  revert ls rs. apply (merge_ind (fun ls rs => forall t, Forall mon_ok ls -> Forall mon_ok rs ->
    ss_mons Exact ls rs = Ok t ->
    mons_val rho t = (mons_val rho ls + mons_val rho rs)%R /\ Forall mon_ok t)).
  - intros rs t _ B. rewrite ss_mons_nil_l. intros E; injection E as <-. split; auto. change (mons_val rho []) with 0%R. ring.
  - intros ls t A _. rewrite ss_mons_nil_r. intros E; injection E as <-. split; auto. change (mons_val rho []) with 0%R. ring.
  - intros l ls r rs I1 I2 I3 t A B. rewrite ss_mons_cons.
    destruct (s_side l r) as [s|] eqn:E; cbn [bind]; [|discriminate].
    inversion_clear A as [|? ? A1 A2]. inversion_clear B as [|? ? B1 B2].
    apply s_side_spec in E; auto using mon_ok_degs. destruct s.
    + destruct (ss_mons Exact ls (r :: rs)) as [u|] eqn:U; cbn [bind]; [|discriminate]. intros X; injection X as <-.
      destruct (I1 u) as [V W]; auto. split; [|auto]. rewrite !mons_val_cons in *. lra.
    + destruct (ss_mons Exact (l :: ls) rs) as [u|] eqn:U; cbn [bind]; [|discriminate]. intros X; injection X as <-.
      destruct (I2 u) as [V W]; auto. split; [|auto]. rewrite !mons_val_cons in *. lra.
    + destruct (radd Exact (sq l) (sq r)) as [q|] eqn:Q; cbn [bind]; [|discriminate].
      apply rv_add in Q as [Q D]; [|apply A1|apply B1].
      destruct (ss_mons Exact ls rs) as [u|] eqn:U; cbn [bind]; [|discriminate]. intros X; injection X as <-.
      destruct (I3 u) as [V W]; auto. destruct E as [E1 E2].
      assert (M : (mon_val rho l + mon_val rho r)%R = (rv q * inds_val rho (sinds l))%R).
      { unfold mon_val. rewrite <- E2, Q. ring. }
      destruct (is_zero q) eqn:Z.
      * split; [|auto]. apply Z.eqb_eq in Z. rewrite (rv_zero _ Z) in M. rewrite !mons_val_cons. lra.
      * split.
        -- rewrite !mons_val_cons. unfold mon_val at 1. cbn [sq sinds]. lra.
        -- constructor; auto. destruct A1 as [_ A1]. split; assumption.
Qed.

Lemma mv_ok_cons t ts : mv_ok (t :: ts) <-> Forall mon_ok (snd t) /\ mv_ok ts.
Proof. unfold mv_ok. cbn. apply Forall_app. Qed.
Lemma ss_terms_val rho e ls rs : forall t, mv_ok ls -> mv_ok rs -> ss_terms Exact ls rs = Ok t ->
  val rho t e = (val rho ls e + val rho rs e)%R /\ mv_ok t.
Proof.
  revert ls rs. apply (merge_ind (fun ls rs => forall t, mv_ok ls -> mv_ok rs -> ss_terms Exact ls rs = Ok t ->
    val rho t e = (val rho ls e + val rho rs e)%R /\ mv_ok t)).
  - intros rs t _ B. rewrite ss_terms_nil_l. intros E; injection E as <-. split; auto. change (val rho [] e) with 0%R. ring.
  - intros ls t A _. rewrite ss_terms_nil_r. intros E; injection E as <-. split; auto. change (val rho [] e) with 0%R. ring.
  - intros l ls r rs I1 I2 I3 t A B. rewrite ss_terms_cons.
    apply mv_ok_cons in A as A'. apply mv_ok_cons in B as B'. destruct A' as [A1 A2], B' as [B1 B2].
    destruct (N.eqb_spec (fst r) (fst l)) as [E|E]; [|destruct (fst l <? fst r)%N].
    + destruct (ss_mons Exact (snd l) (snd r)) as [m|] eqn:M; cbn [bind]; [|discriminate].
      apply (ss_mons_val rho) in M as [V W]; auto.
      destruct (ss_terms Exact ls rs) as [u|] eqn:U; cbn [bind]; [|discriminate]. intros X; injection X as <-.
      destruct (I3 u) as [V3 W3]; auto.
      assert (P : (if (fst l =? e)%N then mons_val rho m else 0%R) =
        ((if (fst l =? e)%N then mons_val rho (snd l) else 0) + (if (fst r =? e)%N then mons_val rho (snd r) else 0))%R).
      { rewrite E. destruct (fst l =? e)%N; lra. }
      destruct m as [|x m].
      * split; [|auto]. rewrite !val_cons. unfold mons_val at 1 in P. cbn in P. destruct (fst l =? e)%N; lra.
      * split; [|apply mv_ok_cons; auto]. rewrite !val_cons. cbn [fst snd]. lra.
    + destruct (ss_terms Exact ls (r :: rs)) as [u|] eqn:U; cbn [bind]; [|discriminate]. intros X; injection X as <-.
      destruct (I1 u) as [V W]; auto. split; [|apply mv_ok_cons; auto]. rewrite !val_cons in *. lra.
    + destruct (ss_terms Exact (l :: ls) rs) as [u|] eqn:U; cbn [bind]; [|discriminate]. intros X; injection X as <-.
      destruct (I2 u) as [V W]; auto. split; [|apply mv_ok_cons; auto]. rewrite !val_cons in *. lra.
Qed.

(** ** canonical form of the sum *)
Definition same_key (a b : smon) : Prop := sdeg a = sdeg b /\ sinds a = sinds b.
Lemma smon_lt_same a b a' b' : same_key a a' -> same_key b b' -> smon_lt a b -> smon_lt a' b'.
Proof. unfold smon_lt. intros [E1 E2] [E3 E4] H. now rewrite E1, E2, E3, E4 in H. Qed.
Definition mon_canon (l : list smon) : Prop := StronglySorted smon_lt l /\ Forall (fun m => num (sq m) <> 0%Z) l.
Definition keys_in (t l : list smon) : Prop := forall m, In m t -> exists m', In m' l /\ same_key m m'.
Lemma same_key_refl m : same_key m m. Proof. split; reflexivity. Qed.
Lemma keys_in_degs t l : keys_in t l -> Forall degs_ok l -> Forall degs_ok t.
Proof.
  intros K H. apply Forall_forall. intros m Hm. destruct (K m Hm) as (m' & I & E1 & E2).
  rewrite Forall_forall in H. specialize (H m' I). unfold degs_ok in *. now rewrite E1, E2.
Qed.
Lemma sorted_cons_inv (l : smon) ls : StronglySorted smon_lt (l :: ls) ->
  StronglySorted smon_lt ls /\ Forall (smon_lt l) ls.
Proof. intros H. inversion H; auto. Qed.

Lemma ss_mons_keys md ls rs : forall t, ss_mons md ls rs = Ok t -> keys_in t (ls ++ rs).
Proof.
  revert ls rs. apply (merge_ind (fun ls rs => forall t, ss_mons md ls rs = Ok t -> keys_in t (ls ++ rs))).
  - intros rs t. rewrite ss_mons_nil_l. intros E; injection E as <-. intros m Hm. exists m. auto using same_key_refl.
  - intros ls t. rewrite ss_mons_nil_r. intros E; injection E as <-. rewrite app_nil_r.
    intros m Hm. exists m. auto using same_key_refl.
  - intros l ls r rs I1 I2 I3 t. rewrite ss_mons_cons.
    destruct (s_side l r) as [s|] eqn:E; cbn [bind]; [|discriminate]. destruct s.
    + destruct (ss_mons md ls (r :: rs)) as [u|] eqn:U; cbn [bind]; [|discriminate]. intros X; injection X as <-.
      intros m [<-|Hm]; [exists l; split; [now left|apply same_key_refl]|].
      destruct (I1 u eq_refl m Hm) as (m' & I & S'). exists m'. split; [now right|assumption].
    + destruct (ss_mons md (l :: ls) rs) as [u|] eqn:U; cbn [bind]; [|discriminate]. intros X; injection X as <-.
      intros m [<-|Hm]; [exists r; split; [apply in_or_app; right; now left|apply same_key_refl]|].
      destruct (I2 u eq_refl m Hm) as (m' & I & S'). exists m'. split; [|assumption].
      apply in_app_or in I. apply in_or_app. destruct I; [now left|right; now right].
    + destruct (radd md (sq l) (sq r)) as [q|] eqn:Q; cbn [bind]; [|discriminate].
      destruct (ss_mons md ls rs) as [u|] eqn:U; cbn [bind]; [|discriminate]. intros X; injection X as <-.
      assert (K : keys_in u ((l :: ls) ++ r :: rs)).
      { intros m Hm. destruct (I3 u eq_refl m Hm) as (m' & I & S'). exists m'. split; [|assumption].
        apply in_app_or in I. apply in_or_app. destruct I; [left; now right|right; now right]. }
      destruct (is_zero q); [exact K|]. intros m [<-|Hm]; [|auto].
      exists l. split; [now left|split; reflexivity].
Qed.
Lemma ss_mons_canon md ls rs : forall t, Forall degs_ok ls -> Forall degs_ok rs -> mon_canon ls -> mon_canon rs ->
  ss_mons md ls rs = Ok t -> mon_canon t.
Proof.
  revert ls rs. apply (merge_ind (fun ls rs => forall t, Forall degs_ok ls -> Forall degs_ok rs ->
    mon_canon ls -> mon_canon rs -> ss_mons md ls rs = Ok t -> mon_canon t)).
  - intros rs t _ _ _ C. rewrite ss_mons_nil_l. intros E; injection E as <-. exact C.
  - intros ls t _ _ C _. rewrite ss_mons_nil_r. intros E; injection E as <-. exact C.
  - intros l ls r rs I1 I2 I3 t DL DR [SL NL] [SR NR] H. rewrite ss_mons_cons in H.
    destruct (s_side l r) as [s|] eqn:E; cbn [bind] in H; [|discriminate].
    inversion_clear DL as [|? ? DL1 DL2]. inversion_clear DR as [|? ? DR1 DR2].
    apply sorted_cons_inv in SL as SL'. destruct SL' as [SL1 SL2].
    apply sorted_cons_inv in SR as SR'. destruct SR' as [SR1 SR2].
    inversion_clear NL as [|? ? NL1 NL2]. inversion_clear NR as [|? ? NR1 NR2].
    apply s_side_spec in E; auto. destruct s.
    + destruct (ss_mons md ls (r :: rs)) as [u|] eqn:U; cbn [bind] in H; [|discriminate]. injection H as <-.
      destruct (I1 u) as [C1 C2]; auto; [split; auto|split; auto|]. split; [|auto]. constructor; [auto|].
      apply Forall_forall. intros m Hm. destruct (ss_mons_keys _ _ _ _ U m Hm) as (m' & I & S').
      apply (smon_lt_same l m' l m); [apply same_key_refl|destruct S'; now split|].
      apply in_app_or in I. rewrite Forall_forall in SL2, SR2. destruct I as [I|[<-|I]]; auto.
      eapply smon_lt_trans; eauto.
    + destruct (ss_mons md (l :: ls) rs) as [u|] eqn:U; cbn [bind] in H; [|discriminate]. injection H as <-.
      destruct (I2 u) as [C1 C2]; auto; [split; auto|split; auto|]. split; [|auto]. constructor; [auto|].
      apply Forall_forall. intros m Hm. destruct (ss_mons_keys _ _ _ _ U m Hm) as (m' & I & S').
      apply (smon_lt_same r m' r m); [apply same_key_refl|destruct S'; now split|].
      apply in_app_or in I. rewrite Forall_forall in SL2, SR2. destruct I as [[<-|I]|I]; auto.
      eapply smon_lt_trans; eauto.
    + destruct (radd md (sq l) (sq r)) as [q|] eqn:Q; cbn [bind] in H; [|discriminate].
      destruct (ss_mons md ls rs) as [u|] eqn:U; cbn [bind] in H; [|discriminate]. injection H as <-.
      destruct (I3 u) as [C1 C2]; auto; [split; auto|split; auto|].
      destruct (is_zero q) eqn:Z; [split; auto|]. split.
      * constructor; [auto|]. apply Forall_forall. intros m Hm.
        destruct (ss_mons_keys _ _ _ _ U m Hm) as (m' & I & S').
        apply (smon_lt_same l m'); [split; reflexivity|destruct S'; now split|].
        apply in_app_or in I. rewrite Forall_forall in SL2, SR2. destruct I as [I|I]; auto.
        apply (smon_lt_same r m'); [destruct E; split; cbn; congruence|apply same_key_refl|auto].
      * constructor; [|auto]. unfold is_zero in Z. cbn. lia.
Qed.

Definition tdegs_ok (ts : list sterm) : Prop := Forall (fun t : sterm => Forall degs_ok (snd t)) ts.
Lemma mv_ok_tdegs ts : mv_ok ts -> tdegs_ok ts.
Proof.
  unfold mv_ok, tdegs_ok, all_mons. intros H. apply Forall_forall. intros t Ht. apply Forall_forall. intros m Hm.
  apply mon_ok_degs. rewrite Forall_forall in H. apply H. apply in_flat_map. eauto.
Qed.
Lemma ss_terms_elems md ls rs : forall t, ss_terms md ls rs = Ok t -> forall e, In e (map fst t) ->
  In e (map fst ls) \/ In e (map fst rs).
Proof.
  revert ls rs. apply (merge_ind (fun ls rs => forall t, ss_terms md ls rs = Ok t -> forall e, In e (map fst t) ->
    In e (map fst ls) \/ In e (map fst rs))).
  - intros rs t. rewrite ss_terms_nil_l. intros E; injection E as <-. auto.
  - intros ls t. rewrite ss_terms_nil_r. intros E; injection E as <-. auto.
  - intros l ls r rs I1 I2 I3 t. rewrite ss_terms_cons.
    destruct (fst r =? fst l)%N; [|destruct (fst l <? fst r)%N].
    + destruct (ss_mons md (snd l) (snd r)) as [m|]; cbn [bind]; [|discriminate].
      destruct (ss_terms md ls rs) as [u|]; cbn [bind]; [|discriminate]. intros X; injection X as <-.
      intros e He. specialize (I3 u eq_refl e). cbn. destruct m; [destruct I3; auto|].
      destruct He as [<-|He]; [auto|destruct I3; auto].
    + destruct (ss_terms md ls (r :: rs)) as [u|]; cbn [bind]; [|discriminate]. intros X; injection X as <-.
      intros e [<-|He]; cbn; [auto|]. destruct (I1 u eq_refl e He); auto.
    + destruct (ss_terms md (l :: ls) rs) as [u|]; cbn [bind]; [|discriminate]. intros X; injection X as <-.
      intros e [<-|He]; cbn; [auto|]. destruct (I2 u eq_refl e He); auto.
Qed.
Lemma canonical_cons t ts : canonical (t :: ts) <->
  (Forall (N.lt (fst t)) (map fst ts) /\ snd t <> [] /\ mon_canon (snd t)) /\ canonical ts.
Proof.
  unfold canonical, mon_canon. cbn. split.
  - intros [S1 F]. inversion_clear S1. inversion_clear F. tauto.
  - intros [(A & B & C) [D E]]. split; constructor; tauto.
Qed.
Lemma ss_terms_canon md ls rs : forall t, tdegs_ok ls -> tdegs_ok rs -> canonical ls -> canonical rs ->
  ss_terms md ls rs = Ok t -> canonical t /\ tdegs_ok t.
Proof.
  revert ls rs. apply (merge_ind (fun ls rs => forall t, tdegs_ok ls -> tdegs_ok rs -> canonical ls -> canonical rs ->
    ss_terms md ls rs = Ok t -> canonical t /\ tdegs_ok t)).
  - intros rs t _ D _ C. rewrite ss_terms_nil_l. intros E; injection E as <-. auto.
  - intros ls t D _ C _. rewrite ss_terms_nil_r. intros E; injection E as <-. auto.
  - intros l ls r rs I1 I2 I3 t DL DR CL CR H. rewrite ss_terms_cons in H.
    inversion DL as [|? ? DL1 DL2]; subst. inversion DR as [|? ? DR1 DR2]; subst.
    apply canonical_cons in CL as CL'. destruct CL' as [(LL & NL & ML) CL2].
    apply canonical_cons in CR as CR'. destruct CR' as [(LR & NR & MR) CR2].
    rewrite Forall_forall in LL, LR.
    destruct (N.eqb_spec (fst r) (fst l)) as [E|E]; [|destruct (N.ltb_spec (fst l) (fst r)) as [E'|E']].
    + destruct (ss_mons md (snd l) (snd r)) as [m|] eqn:M; cbn [bind] in H; [|discriminate].
      destruct (ss_terms md ls rs) as [u|] eqn:U; cbn [bind] in H; [|discriminate]. injection H as <-.
      destruct (I3 u) as [C D]; auto.
      pose proof (ss_mons_canon _ _ _ _ DL1 DR1 ML MR M) as MC.
      pose proof (keys_in_degs _ _ (ss_mons_keys _ _ _ _ M) ltac:(apply Forall_app; auto)) as MD.
      destruct m as [|x m]; [auto|]. split; [|constructor; auto].
      apply canonical_cons. split; [|auto]. cbn [fst snd]. split; [|split; [discriminate|auto]].
      apply Forall_forall. intros e He. destruct (ss_terms_elems _ _ _ _ U e He); [auto|]. rewrite <- E. auto.
    + destruct (ss_terms md ls (r :: rs)) as [u|] eqn:U; cbn [bind] in H; [|discriminate]. injection H as <-.
      destruct (I1 u) as [C D]; auto. split; [|constructor; auto].
      apply canonical_cons. split; [|auto]. split; [|auto].
      apply Forall_forall. intros e He. destruct (ss_terms_elems _ _ _ _ U e He) as [X|[<-|X]]; auto.
      specialize (LR e X). lia.
    + destruct (ss_terms md (l :: ls) rs) as [u|] eqn:U; cbn [bind] in H; [|discriminate]. injection H as <-.
      destruct (I2 u) as [C D]; auto. split; [|constructor; auto].
      apply canonical_cons. split; [|auto]. split; [|auto].
      apply Forall_forall. intros e He. destruct (ss_terms_elems _ _ _ _ U e He) as [[<-|X]|X]; auto; [lia|].
      specialize (LL e X). lia.
Qed.
