(** Coefficient-wise operations, selections, resize and references. *)
From Coq Require Import ZArith NArith List Bool Arith Lia ZifyBool ZifyN ZifyNat Reals Lra Sorting.Permutation Sorting.Sorted.
From Verif Require Import Base Model_Numeric Model_Blade Model_Sort Model_MV Model_Product Spec_Numeric Spec_Sort Spec_MV
  Proof_Numeric Proof_Sort Proof_SortMap Proof_Layout Proof_Sum Proof_Val Proof_Collate Proof_Product Proof_CollateVal
  Proof_ProductVal.
Import ListNotations.
Local Open Scope nat_scope.

Lemma get_at {A} (p : list A) x q : get (p ++ x :: q) (length p) = Ok x.
Proof. unfold get. now rewrite nth_error_app2, Nat.sub_diag by lia. Qed.
Lemma upd_at {A} (p : list A) x q y : upd (p ++ x :: q) (length p) y = p ++ y :: q.
Proof. induction p; cbn; [reflexivity|now f_equal]. Qed.
Lemma set_at {A} (p : list A) x q y : set (p ++ x :: q) (length p) y = Ok (p ++ y :: q).
Proof. rewrite set_upd by (rewrite app_length; cbn; lia). now rewrite upd_at. Qed.

(** ** in-place updates of coefficients *)
Definition smapq (f : rat -> res rat) (ms : list smon) : res (list smon) :=
  mapM (fun m => q <- f (sq m);; Ok (mks q (sdeg m) (sinds m))) ms.
Definition s_upd (f : N -> option (rat -> res rat)) (t : sterm) : res sterm :=
  match f (fst t) with Some g => ms <- smapq g (snd t);; Ok (fst t, ms) | None => Ok t end.
Definition s_mapt f (ts : list sterm) : res (list sterm) := mapM (s_upd f) ts.

Lemma smapq_cons f m ms : smapq f (m :: ms) =
  (q <- f (sq m);; t <- smapq f ms;; Ok (mks q (sdeg m) (sinds m) :: t)).
Proof. unfold smapq. cbn. destruct (f (sq m)); reflexivity. Qed.
Lemma smapq_shape f ms : forall t, smapq f ms = Ok t ->
  length t = length ms /\ all_inds t = all_inds ms /\ map sdeg t = map sdeg ms /\ map sinds t = map sinds ms.
Proof.
  induction ms as [|m ms IH]; intros t H.
  - injection H as <-. auto.
  - rewrite smapq_cons in H. repeat minv H. injection H as <-. apply IH in E0 as (A & B & C & D). cbn.
    unfold all_inds in *. cbn. rewrite A, B, C, D. auto.
Qed.
Lemma upd_q_lay f ms : forall o p r, upd_q f (length p) (length ms) (p ++ lay_mons o ms ++ r) =
  (t <- smapq f ms;; Ok (p ++ lay_mons o t ++ r)).
Proof.
  induction ms as [|m ms IH]; intros o p r; [reflexivity|].
  cbn [length upd_q lay_mons app]. rewrite get_at. cbn [bind mq mdeg mcount ioff]. rewrite smapq_cons.
  destruct (f (sq m)) as [q|]; cbn [bind]; [|reflexivity]. rewrite set_at. cbn [bind].
  specialize (IH (o + length (sinds m)) (p ++ [mkmon q (sdeg m) (length (sinds m)) o]) r).
  rewrite app_length, Nat.add_1_r, <- !app_assoc in IH. cbn [app] in IH. rewrite IH.
  destruct (smapq f ms); cbn [bind]; [|reflexivity]. now rewrite <- app_assoc.
Qed.
Lemma s_mapt_cons f t ts : s_mapt f (t :: ts) = (a <- s_upd f t;; r <- s_mapt f ts;; Ok (a :: r)).
Proof. reflexivity. Qed.
Lemma s_upd_shape f t t' : s_upd f t = Ok t' ->
  fst t' = fst t /\ length (snd t') = length (snd t) /\ all_inds (snd t') = all_inds (snd t).
Proof.
  unfold s_upd. destruct (f (fst t)); intros H.
  - minv H. injection H as <-. apply smapq_shape in E as (A & B & _). auto.
  - injection H as <-. auto.
Qed.
Lemma upd_terms_lay f ts : forall o p r,
  upd_terms (fun t => f (elem t)) (lay_terms (length p) ts) (p ++ lay_mons o (all_mons ts) ++ r) =
  (t <- s_mapt f ts;; Ok (p ++ lay_mons o (all_mons t) ++ r)).
Proof.
  induction ts as [|t ts IH]; intros o p r; [reflexivity|].
  cbn [lay_terms upd_terms elem moff tcount]. rewrite s_mapt_cons. unfold s_upd at 1.
  change (all_mons (t :: ts)) with (snd t ++ all_mons ts). rewrite lay_mons_app, <- app_assoc.
  assert (K : forall l' o', length l' = length (snd t) -> o' = o + length (all_inds (snd t)) -> all_inds l' = all_inds (snd t) ->
     upd_terms (fun t => f (elem t)) (lay_terms (length p + length (snd t)) ts) (p ++ lay_mons o l' ++ lay_mons o' (all_mons ts) ++ r)
     = (t0 <- (r0 <- s_mapt f ts;; Ok ((fst t, l') :: r0));; Ok (p ++ lay_mons o (all_mons t0) ++ r))).
  { intros l' o' L -> I. specialize (IH (o + length (all_inds (snd t))) (p ++ lay_mons o l') r).
    rewrite app_length, lay_mons_length, L, <- !app_assoc in IH. rewrite IH.
    destruct (s_mapt f ts) as [r0|]; cbn [bind]; [|reflexivity]. change (all_mons ((fst t, l') :: r0)) with (l' ++ all_mons r0).
    rewrite lay_mons_app, I, <- !app_assoc. reflexivity. }
  destruct (f (fst t)) as [g|]; cbn [bind].
  - rewrite upd_q_lay. destruct (smapq g (snd t)) as [l'|] eqn:E; cbn [bind]; [|reflexivity].
    apply smapq_shape in E as (A & B & _). now apply K.
  - destruct t as [e l]. cbn [fst snd] in *. now apply K.
Qed.
Lemma s_mapt_shape f ts : forall t, s_mapt f ts = Ok t ->
  (forall o, lay_terms o t = lay_terms o ts) /\ all_inds (all_mons t) = all_inds (all_mons ts) /\
  length t = length ts /\ length (all_mons t) = length (all_mons ts) /\ map fst t = map fst ts.
Proof.
  induction ts as [|a ts IH]; intros t H.
  - injection H as <-. auto.
  - rewrite s_mapt_cons in H. repeat minv H. injection H as <-. apply s_upd_shape in E as (A & B & C).
    apply IH in E0 as (F & G & K & L & M).
    change (all_mons (v :: v0)) with (snd v ++ all_mons v0). change (all_mons (a :: ts)) with (snd a ++ all_mons ts).
    rewrite !all_inds_app, !app_length, C, G, L, B. cbn. rewrite A, B, K, M. repeat split; auto.
    intros o. now rewrite F.
Qed.
Lemma with_mons_packed x ts f t rest : packed x ts -> s_mapt f ts = Ok t ->
  packed (with_mons x (lay_mons 0 (all_mons t) ++ rest)) t.
Proof.
  intros [I M T S1 S2 S3] H. apply s_mapt_shape in H as (F & G & K & L & _).
  constructor; cbn; rewrite ?F, ?G, ?K, ?L; eauto.
Qed.
Lemma upd_terms_packed f x ts : packed x ts ->
  rr (fun z t => packed z t /\ same_caps z (caps_of x) /\ mop z = mop x)
    (tt <- slice (terms x) 0 (tsz x);; ms <- upd_terms (fun t => f (elem t)) tt (mons x);; Ok (with_mons x ms))
    (s_mapt f ts).
Proof.
  intros X. pose proof X as [_ [rm Em] [rt Et] _ _ Es]. rewrite Es, Et.
  replace (slice (lay_terms 0 ts ++ rt) 0 (length ts)) with (Ok (lay_terms 0 ts)).
  2:{ symmetry. rewrite <- (lay_terms_length ts 0). apply (slice_app [] (lay_terms 0 ts) rt). }
  cbn [bind]. rewrite Em. pose proof (upd_terms_lay f ts 0 [] rm) as U. cbn [app length] in U. rewrite U.
  destruct (s_mapt f ts) as [t|] eqn:E; cbn [bind rr]; [|reflexivity]. split; [eapply with_mons_packed; eauto|].
  apply s_mapt_shape in E as (_ & _ & _ & L & _). split; [|reflexivity].
  unfold same_caps, caps_of. cbn. rewrite Em, !app_length, !lay_mons_length, L. auto.
Qed.
Lemma smapq_app f a b : smapq f (a ++ b) = (x <- smapq f a;; y <- smapq f b;; Ok (x ++ y)).
Proof.
  induction a as [|m a IH]; cbn [app].
  - cbn. destruct (smapq f b); reflexivity.
  - rewrite !smapq_cons, IH. destruct (f (sq m)); cbn [bind]; [|reflexivity].
    destruct (smapq f a); cbn [bind]; [|reflexivity]. destruct (smapq f b); reflexivity.
Qed.
Lemma smapq_all f ts : smapq f (all_mons ts) = (t <- s_mapt (fun _ => Some f) ts;; Ok (all_mons t)).
Proof.
  induction ts as [|t ts IH]; [reflexivity|]. change (all_mons (t :: ts)) with (snd t ++ all_mons ts).
  rewrite smapq_app, s_mapt_cons, IH. unfold s_upd. destruct (smapq f (snd t)); cbn [bind]; [|reflexivity].
  destruct (s_mapt (fun _ => Some f) ts); reflexivity.
Qed.
Lemma scale_eq md q x ts : packed x ts ->
  rr (fun z t => packed z t /\ same_caps z (caps_of x) /\ mop z = mop x)
    (scale md q x) (s_mapt (fun _ => Some (rmul md q)) ts).
Proof.
  intros X. pose proof X as [_ [rm Em] _ _ Es _]. unfold scale. rewrite Es, Em.
  pose proof (upd_q_lay (fun p => rmul md q p) (all_mons ts) 0 [] rm) as U. cbn [app length] in U. rewrite U.
  rewrite (smapq_all (fun p => rmul md q p)). change (fun p => rmul md q p) with (rmul md q).
  destruct (s_mapt (fun _ => Some (rmul md q)) ts) as [t|] eqn:E; cbn [bind rr]; [|reflexivity].
  split; [eapply with_mons_packed; eauto|]. apply s_mapt_shape in E as (_ & _ & _ & L & _). split; [|reflexivity].
  unfold same_caps, caps_of. cbn. rewrite Em, !app_length, !lay_mons_length, L. auto.
Qed.
Definition s_negate (ts : list sterm) := s_mapt (fun _ => Some rneg) ts.
Definition s_reverse (ts : list sterm) := s_mapt (fun e => if reverse_negates e then Some rneg else None) ts.
Lemma negate_eq x ts : packed x ts ->
  rr (fun z t => packed z t /\ same_caps z (caps_of x) /\ mop z = mop x) (negate x) (s_negate ts).
Proof. intros X. unfold negate, s_negate. apply (upd_terms_packed (fun _ => Some rneg) x ts X). Qed.
Lemma reverse_eq x ts : packed x ts ->
  rr (fun z t => packed z t /\ same_caps z (caps_of x) /\ mop z = mop x) (reverse x) (s_reverse ts).
Proof. intros X. unfold reverse, s_reverse. apply (upd_terms_packed (fun e => if reverse_negates e then Some rneg else None) x ts X). Qed.

(** value of an update that multiplies the coefficients of blade [e] by [k e] *)
Definition multiplies (g : rat -> res rat) (k : R) : Prop :=
  forall p q, den p <> 0%Z -> g p = Ok q -> rv q = (k * rv p)%R /\ den q <> 0%Z.
Lemma smapq_val rho g k ms : multiplies g k -> forall t, Forall mon_ok ms -> smapq g ms = Ok t ->
  mons_val rho t = (k * mons_val rho ms)%R /\ Forall mon_ok t.
Proof.
  intros M. induction ms as [|m ms IH]; intros t F H.
  - injection H as <-. change (mons_val rho []) with 0%R. split; [ring|constructor].
  - inversion_clear F as [|? ? F1 F2]. rewrite smapq_cons in H. repeat minv H. injection H as <-.
    apply M in E as [V W]; [|apply F1]. apply IH in E0 as [V' W']; auto. rewrite !mons_val_cons, V'.
    unfold mon_val. cbn [sq sinds]. rewrite V. split; [ring|]. constructor; [|assumption].
    split; [exact W|apply F1].
Qed.
Lemma s_mapt_val rho f (k : N -> R) ts b :
  (forall e, match f e with Some g => multiplies g (k e) | None => k e = 1%R end) ->
  forall t, mv_ok ts -> s_mapt f ts = Ok t -> val rho t b = (k b * val rho ts b)%R /\ mv_ok t.
Proof.
  intros M. induction ts as [|a ts IH]; intros t F H.
  - injection H as <-. change (val rho [] b) with 0%R. split; [ring|constructor].
  - rewrite s_mapt_cons in H. repeat minv H. injection H as <-. apply mv_ok_cons in F as [F1 F2].
    apply IH in E0 as [V W]; auto. unfold s_upd in E. specialize (M (fst a)). rewrite !val_cons, V.
    destruct (f (fst a)) as [g|].
    + minv E. injection E as <-. apply (smapq_val rho g (k (fst a))) in E0 as [V1 W1]; auto. cbn [fst snd].
      split; [|apply mv_ok_cons; auto]. rewrite V1. destruct (N.eqb_spec (fst a) b) as [->|]; ring.
    + injection E as <-. split; [|apply mv_ok_cons; auto]. destruct (N.eqb_spec (fst a) b) as [<-|]; [|ring].
      rewrite M. ring.
Qed.
Lemma multiplies_neg : multiplies rneg (-1).
Proof. intros p q D H. apply rv_neg in H as [V W]. rewrite V, W. split; [ring|assumption]. Qed.
Lemma multiplies_mul q : den q <> 0%Z -> multiplies (rmul Exact q) (rv q).
Proof. intros D p r Dp H. apply rv_mul in H; auto. Qed.
Lemma multiplies_mul_r q : den q <> 0%Z -> multiplies (fun p => rmul Exact p q) (rv q).
Proof. intros D p r Dp H. apply rv_mul in H as [V W]; auto. rewrite V. split; [ring|assumption]. Qed.
Lemma multiplies_int k : multiplies (rscale_int k) (IZR k).
Proof. intros p r Dp H. apply rv_scale_int in H; auto. Qed.
(** canonical form survives updates that do not produce zero *)
Lemma s_mapt_tdegs f ts : forall t, tdegs_ok ts -> s_mapt f ts = Ok t -> tdegs_ok t.
Proof.
  induction ts as [|a ts IH]; intros t F H.
  - injection H as <-. constructor.
  - rewrite s_mapt_cons in H. repeat minv H. injection H as <-. inversion_clear F as [|? ? F1 F2].
    constructor; [|eapply IH; eauto; fail]. unfold s_upd in E. destruct (f (fst a)); [|injection E as <-; assumption].
    minv E. injection E as <-. cbn. clear - E1 F1. rename E1 into E. revert v1 E.
    induction (snd a) as [|m l IHl]; intros t H; [injection H as <-; constructor|].
    inversion_clear F1 as [|? ? G1 G2]. rewrite smapq_cons in H. repeat minv H. injection H as <-.
    constructor; auto.
Qed.
Definition keeps_nz (g : rat -> res rat) : Prop := forall p q, num p <> 0%Z -> g p = Ok q -> num q <> 0%Z.
Lemma smapq_canon g ms : keeps_nz g -> forall t, mon_canon ms -> smapq g ms = Ok t -> mon_canon t /\ keys_in t ms.
Proof.
  intros K. induction ms as [|m ms IH]; intros t [S F] H.
  - injection H as <-. repeat split; auto. intros x [].
  - rewrite smapq_cons in H. repeat minv H. injection H as <-. inversion_clear S as [|? ? S1 S2].
    inversion_clear F as [|? ? F1 F2]. destruct (IH _ (conj S1 F2) E0) as [[C1 C2] C3].
    split; [split|].
    + constructor; [assumption|]. apply Forall_forall. intros y Hy. destruct (C3 y Hy) as (z & Iz & E1 & E2).
      rewrite Forall_forall in S2. apply (smon_lt_same m z); [split; reflexivity|split; auto|auto].
    + constructor; [|assumption]. cbn. eapply K; eauto.
    + intros y [<-|Hy]; [exists m; split; [now left|split; reflexivity]|].
      destruct (C3 y Hy) as (z & Iz & Ez). exists z. split; [now right|assumption].
Qed.
Lemma s_mapt_canon f ts : (forall e g, f e = Some g -> keeps_nz g) ->
  forall t, canonical ts -> s_mapt f ts = Ok t -> canonical t.
Proof.
  intros K t C H. pose proof (s_mapt_shape _ _ _ H) as (_ & _ & _ & _ & M). destruct C as [C1 C2].
  split; [now rewrite M|]. clear C1 M. revert t H. induction ts as [|a ts IH]; intros t H.
  - injection H as <-. constructor.
  - rewrite s_mapt_cons in H. repeat minv H. injection H as <-. inversion_clear C2 as [|? ? (A1 & A2 & A3) C3].
    constructor; [|auto]. unfold s_upd in E. destruct (f (fst a)) eqn:G; [|injection E as <-; auto].
    minv E. injection E as <-. cbn [snd]. pose proof (smapq_shape _ _ _ E1) as (L & _).
    destruct (smapq_canon _ _ (K _ _ G) _ (conj A2 A3) E1) as [[B1 B2] _]. repeat split; auto.
    intros ->. destruct (snd a); [auto|discriminate].
Qed.
Lemma rneg_keeps : keeps_nz rneg.
Proof. intros p q D H. apply rneg_ok in H. subst. cbn. lia. Qed.

(** ** push and the selections *)
Lemma push_mon_ok md c s w v nt : vmon_ok v -> room c w (length (snd v)) 1 nt ->
  push_mon md c s w v = (q <- rmul md (mq (fst v)) s;; Ok (ext w [mks q (mdeg (fst v)) (snd v)])).
Proof.
  intros V R0. unfold push_mon. rewrite (put_inds_ok c (snd v) w 1 nt R0). cbn [bind].
  destruct (rmul md (mq (fst v)) s) as [q|]; cbn [bind]; [|reflexivity]. destruct R0 as (A & B & C).
  unfold put_mon. cbn [wm wi wt]. rewrite app1_ok by lia. unfold ext. cbn. now rewrite V, app_nil_r.
Qed.
Lemma push_mons_ok md c s vs : forall w nt, Forall vmon_ok vs -> room c w (ilen (map smon_of vs)) (length vs) nt ->
  push_mons md c s w vs = (t <- smapq (fun p => rmul md p s) (map smon_of vs);; Ok (ext w t)).
Proof.
  induction vs as [|v vs IH]; intros w nt V R0; cbn [push_mons map].
  - cbn. now rewrite ext_nil.
  - inversion_clear V as [|? ? V1 V2]. cbn [map] in R0. rewrite ilen_cons in R0. cbn [length sinds smon_of] in R0.
    rewrite (push_mon_ok md c s w v nt) by (first [exact V1|apply (room_le _ _ _ _ _ _ _ _ R0); lia]).
    rewrite smapq_cons. cbn [sq smon_of]. destruct (rmul md (mq (fst v)) s) as [q|]; cbn [bind]; [|reflexivity].
    rewrite (IH _ nt V2). 2:{ apply room_ext. cbn [length]. unfold ilen at 1. cbn. rewrite app_nil_r. exact R0. }
    dsub; cbn [bind]; [now rewrite ext_app|reflexivity].
Qed.
Definition s_push md (s : rat) (e : N) (t : sterm) : res sterm :=
  l <- smapq (fun p => rmul md p s) (snd t);; Ok (e, l).
Lemma push_ok md c w v s e : vterm_ok v -> room c w (ilen (snd (sterm_of v))) (length (snd v)) 1 ->
  push md c w v s e = (t <- s_push md s e (sterm_of v);; Ok (ext_t w [t])).
Proof.
  intros [V1 V2] R0. unfold push, s_push. rewrite (push_mons_ok md c s (snd v) w 1 V2 R0). cbn [snd sterm_of].
  destruct (smapq (fun p => rmul md p s) (map smon_of (snd v))) as [l|] eqn:E; cbn [bind]; [|reflexivity].
  apply smapq_shape in E as (L & I & _). rewrite map_length in L.
  apply (put_term_close c w l e 0).
  - apply room_ext. unfold ilen in *. cbn [snd sterm_of] in R0. rewrite I, L. apply (room_le _ _ _ _ _ _ _ _ R0); lia.
  - lia.
  - reflexivity.
Qed.

Fixpoint s_find md (e : N) (ts : list sterm) : res (list sterm) :=
  match ts with
  | [] => Ok []
  | t :: ts' => if (fst t =? e)%N then a <- s_push md one 0 t;; Ok [a] else s_find md e ts'
  end.
Lemma find_push_eq md c e vs : Forall vterm_ok vs ->
  tilen (map sterm_of vs) <= ci c -> tmlen (map sterm_of vs) <= cm c -> 1 <= ct c ->
  find_push md c e vs = (t <- s_find md e (map sterm_of vs);; Ok (ext_t wr0 t)).
Proof.
  intros V A B C. induction vs as [|v vs IH]; cbn [find_push map s_find]; [reflexivity|].
  inversion_clear V as [|? ? V1 V2]. cbn [map] in A, B. rewrite tilen_cons in A. rewrite tmlen_cons in B.
  cbn [fst sterm_of]. destruct (elem (fst v) =? e)%N.
  - rewrite push_ok; auto. 2:{ unfold room. cbn in *. rewrite map_length in B. lia. }
    destruct (s_push md one 0 (sterm_of v)); reflexivity.
  - apply IH; auto; lia.
Qed.
Lemma component_eq md x ts e : packed x ts ->
  component md x e = (t <- s_find md e ts;; Ok (pack (mkcaps (length (inds x)) (length (mons x)) 1) t)).
Proof.
  intros X. pose proof (packed_caps _ _ X) as (A & B & _). unfold component. rewrite (packed_read _ _ X). cbn [bind].
  rewrite find_push_eq; auto using view_terms_ok; rewrite ?view_terms_sterm; auto.
  destruct (s_find md e ts); reflexivity.
Qed.
Lemma s_push_val rho s e t t' : den s <> 0%Z -> Forall mon_ok (snd t) -> s_push Exact s e t = Ok t' ->
  fst t' = e /\ mons_val rho (snd t') = (rv s * mons_val rho (snd t))%R /\ Forall mon_ok (snd t').
Proof.
  intros D F H. unfold s_push in H. minv H. injection H as <-.
  apply (smapq_val rho _ (rv s)) in E as [V W]; auto. now apply multiplies_mul_r.
Qed.
Lemma rv_one : rv one = 1%R. Proof. unfold rv. cbn. field. Qed.
Lemma s_find_val rho e ts : StronglySorted N.lt (map fst ts) -> forall t, mv_ok ts -> s_find Exact e ts = Ok t ->
  (forall b, val rho t b = if (b =? 0)%N then val rho ts e else 0%R) /\ mv_ok t.
Proof.
  intros S. induction ts as [|a ts IH]; intros t F H; cbn [s_find] in H.
  - injection H as <-. split; [|constructor]. intros b. destruct (b =? 0)%N; reflexivity.
  - apply mv_ok_cons in F as [F1 F2]. cbn in S. inversion_clear S as [|? ? S1 S2].
    destruct (N.eqb_spec (fst a) e) as [E|E].
    + minv H. injection H as <-. apply (s_push_val rho) in E0 as (A & B & C); auto; [|cbn; lia].
      split; [|apply mv_ok_cons; split; [assumption|constructor]]. intros b. rewrite !val_cons, A, B, rv_one.
      change (val rho [] b) with 0%R. rewrite (N.eqb_sym 0 b), E, N.eqb_refl.
      assert (Z : val rho ts e = 0%R).
      { unfold val. apply Rsum_0. intros t Ht. destruct (N.eqb_spec (fst t) e) as [E1|]; [|reflexivity].
        rewrite Forall_forall in S2. specialize (S2 (fst t) (in_map fst _ _ Ht)). lia. }
      rewrite Z. destruct (b =? 0)%N; ring.
    + destruct (IH S1 _ F2 H) as [V W]. split; [|assumption]. intros b. rewrite V, val_cons.
      destruct (N.eqb_spec (fst a) e); [contradiction|]. destruct (b =? 0)%N; ring.
Qed.

(** ** select_grade *)
Fixpoint s_grade (g : N) (ts : list sterm) : list sterm :=
  match ts with
  | [] => []
  | t :: ts' =>
    let k := pop_count (fst t) in
    if (g <? k)%N then [] else if (k <? g)%N then s_grade g ts' else t :: s_grade g ts'
  end.
Lemma grade_loop_eq c g vs : forall w, Forall vterm_ok vs ->
  room c w (tilen (map sterm_of vs)) (tmlen (map sterm_of vs)) (length vs) ->
  grade_loop c g w vs = Ok (ext_t w (s_grade g (map sterm_of vs))).
Proof.
  induction vs as [|v vs IH]; intros w V R0; cbn [grade_loop map s_grade]; [now rewrite ext_t_nil|].
  inversion_clear V as [|? ? V1 V2]. cbn [map] in R0. rewrite tilen_cons, tmlen_cons in R0. cbn [length snd sterm_of] in R0.
  rewrite map_length in R0. cbn [fst sterm_of].
  destruct (g <? pop_count (elem (fst v)))%N; [now rewrite ext_t_nil|].
  destruct (pop_count (elem (fst v)) <? g)%N.
  - apply IH; auto. apply (room_le _ _ _ _ _ _ _ _ R0); lia.
  - rewrite copy_term_ok by (first [exact V1|apply (room_le _ _ _ _ _ _ _ _ R0); cbn [snd sterm_of]; lia]). cbn [bind].
    rewrite IH; auto.
    + now rewrite ext_t_app.
    + apply room_ext_t. cbn [all_mons flat_map snd sterm_of]. rewrite app_nil_r, map_length. exact R0.
Qed.
Lemma select_grade_eq x ts g : packed x ts -> select_grade x g = Ok (pack (caps_of x) (s_grade g ts)).
Proof.
  intros X. pose proof (packed_caps _ _ X) as (A & B & C). unfold select_grade. rewrite (packed_read _ _ X). cbn [bind].
  rewrite grade_loop_eq; auto using view_terms_ok.
  - now rewrite view_terms_sterm.
  - rewrite view_terms_sterm, view_terms_length. unfold room. cbn. auto.
Qed.
(** no blade of a higher grade precedes one of grade [g] *)
Definition grade_reachable (g : N) (l : list N) : Prop :=
  StronglySorted (fun a b => pop_count b = g -> (pop_count a <= g)%N) l.
Lemma s_grade_val rho g ts b : grade_reachable g (map fst ts) ->
  val rho (s_grade g ts) b = if (pop_count b =? g)%N then val rho ts b else 0%R.
Proof.
  induction ts as [|t ts IH]; intros H; cbn [s_grade].
  - destruct (_ =? _)%N; reflexivity.
  - cbn in H. inversion_clear H as [|? ? H1 H2]. specialize (IH H1). rewrite val_cons.
    destruct (N.ltb_spec g (pop_count (fst t))) as [L|L].
    + assert (Z : pop_count b = g -> val rho ts b = 0%R).
      { intros E. unfold val. apply Rsum_0. intros t' Ht. destruct (N.eqb_spec (fst t') b) as [E1|]; [|reflexivity].
        rewrite Forall_forall in H2. specialize (H2 (fst t') (in_map fst _ _ Ht)). rewrite E1 in H2. specialize (H2 E). lia. }
      change (val rho [] b) with 0%R. destruct (N.eqb_spec (pop_count b) g) as [E|E]; [|reflexivity]. rewrite Z by assumption.
      destruct (N.eqb_spec (fst t) b) as [EE|]; [rewrite EE in L; lia|ring].
    + destruct (N.ltb_spec (pop_count (fst t)) g) as [L'|L'].
      * rewrite IH. destruct (N.eqb_spec (pop_count b) g) as [E|E]; [|reflexivity].
        destruct (N.eqb_spec (fst t) b) as [EE|]; [rewrite EE in L'; lia|ring].
      * rewrite val_cons, IH. destruct (N.eqb_spec (fst t) b) as [EE|]; [rewrite EE in L, L'|].
        -- replace (pop_count b =? g)%N with true by lia. reflexivity.
        -- destruct (_ =? g)%N; ring.
Qed.
(** a general statement: what is kept is always right, and only blades of grade [g] are kept *)
Lemma s_grade_sub g ts t : In t (s_grade g ts) -> In t ts /\ pop_count (fst t) = g.
Proof.
  induction ts as [|a ts IH]; cbn [s_grade]; [intros []|].
  destruct (N.ltb_spec g (pop_count (fst a))); [intros []|]. destruct (N.ltb_spec (pop_count (fst a)) g).
  - intros H1. apply IH in H1 as [? ?]. split; [now right|assumption].
  - intros [<-|H1]; [split; [now left|lia]|]. apply IH in H1 as [? ?]. split; [now right|assumption].
Qed.

(** ** extract *)
Fixpoint s_extract md (es : list N) : list sterm -> res (list sterm) :=
  fix go (ts : list sterm) : res (list sterm) :=
    match es, ts with
    | [], _ => Ok []
    | _, [] => Ok []
    | e :: es', t :: ts' =>
      if (e <? fst t)%N then s_extract md es' ts
      else if (fst t <? e)%N then go ts'
      else a <- s_push md one e t;; r <- go ts';; Ok (a :: r)
    end.
Lemma s_extract_cons md e es t ts : s_extract md (e :: es) (t :: ts) =
      (if (e <? fst t)%N then s_extract md es (t :: ts)
      else if (fst t <? e)%N then s_extract md (e :: es) ts
      else a <- s_push md one e t;; r <- s_extract md (e :: es) ts;; Ok (a :: r)).
Proof. reflexivity. Qed.
Lemma extract_loop_cons md c e es v vs w : extract_loop md c (e :: es) (v :: vs) w =
      (if (e <? elem (fst v))%N then extract_loop md c es (v :: vs) w
      else if (elem (fst v) <? e)%N then extract_loop md c (e :: es) vs w
      else w' <- push md c w v one e;; extract_loop md c (e :: es) vs w').
Proof. reflexivity. Qed.
