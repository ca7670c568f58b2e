(** Extent, the dense form and division. *)
From Coq Require Import ZArith NArith List Bool Arith Lia ZifyBool ZifyN ZifyNat Reals Lra Sorting.Permutation Sorting.Sorted.
From Verif Require Import Base Model_Numeric Model_Blade Model_Sort Model_MV Model_Product Spec_Numeric Spec_Sort Spec_MV
  Proof_Numeric Proof_Sort Proof_SortMap Proof_Layout Proof_Sum Proof_Val Proof_Collate Proof_Product Proof_CollateVal
  Proof_ProductVal Proof_Ops Proof_Ops2 Proof_Ops3.
Import ListNotations.
Local Open Scope nat_scope.

(** ** extent *)
Lemma fold_max_map {A} (f : A -> nat) l : forall a, fold_left (fun x y => Nat.max x (f y)) l a = Nat.max a (list_max (map f l)).
Proof. induction l as [|y l IH]; intros a; cbn [fold_left map list_max fold_right]; [cbn; lia|]. rewrite IH. unfold list_max. cbn [fold_right]. lia. Qed.
Lemma extent_eq x ts : packed x ts ->
  extent x = Ok (list_max (map (fun m => length (sinds m)) (all_mons ts)), list_max (map (fun t : sterm => length (snd t)) ts), length ts).
Proof.
  intros X. unfold extent. rewrite (packed_read _ _ X). cbn [bind]. destruct X as [_ _ _ _ _ St]. rewrite St. f_equal. f_equal. f_equal.
  - assert (G : forall ts a oi om, fold_left (fun a v => fold_left (fun a' m => Nat.max a' (mcount (fst m))) (snd v) a) (view_terms oi om ts) a
        = Nat.max a (list_max (map (fun m => length (sinds m)) (all_mons ts)))).
    { clear. induction ts as [|t ts IH]; intros a oi om; cbn [view_terms fold_left]; [cbn; lia|].
      rewrite IH, all_mons_cons, map_app, list_max_app. cbn [snd].
      rewrite (fold_max_map (fun m : vmon => mcount (fst m))).
      replace (map (fun m : vmon => mcount (fst m)) (view_mons oi (snd t))) with (map (fun m => length (sinds m)) (snd t)); [lia|].
      clear. revert oi. induction (snd t) as [|m l IH]; intros oi; cbn; f_equal. apply IH. }
    rewrite G. reflexivity.
  - rewrite (fold_max_map (fun v : vterm => tcount (fst v))). cbn [Nat.max]. f_equal. clear.
    assert (G : forall oi om, map (fun v : vterm => tcount (fst v)) (view_terms oi om ts) = map (fun t : sterm => length (snd t)) ts).
    { induction ts as [|t ts IH]; intros; cbn [view_terms map]; [reflexivity|]. rewrite IH. reflexivity. }
    apply G.
Qed.
Lemma list_max_in {A} (f : A -> nat) l a : In a l -> f a <= list_max (map f l).
Proof.
  unfold list_max. induction l as [|b l IH]; intros []; cbn [map fold_right]; [subst; lia|]. specialize (IH H). lia.
Qed.

(** ** dense form *)
Definition undense (n : nat) (d : dense) : list sterm :=
  map (fun p : term * list (mon * list ind) => (elem (fst p),
     map (fun m : mon * list ind => mks (mq (fst m)) (mdeg (fst m)) (firstn (mcount (fst m)) (snd m)))
       (firstn (tcount (fst p)) (snd p)))) (firstn n d).
Lemma put_cells_ok {A} (d : A) cap l : length l <= cap -> put_cells d cap l = Ok (fill cap d l).
Proof. intros H. unfold put_cells. now replace (length l <=? cap) with true by lia. Qed.
Lemma mapM_total {A B} (f : A -> res B) (g : A -> B) l : (forall a, In a l -> f a = Ok (g a)) -> mapM f l = Ok (map g l).
Proof.
  intros H. induction l as [|a l IH]; [reflexivity|]. cbn. rewrite H by now left. cbn [bind]. rewrite IH by (intros; apply H; now right). reflexivity.
Qed.
Lemma firstn_pre {A} (s r : list A) : firstn (length s) (s ++ r) = s.
Proof. rewrite firstn_app, Nat.sub_diag, firstn_all. cbn. apply app_nil_r. Qed.
Lemma fold_back oi om t ts : view_terms oi om (t :: ts) = (mkterm (length (snd t)) om (fst t), view_mons oi (snd t)) ::
  view_terms (oi + length (all_inds (snd t))) (om + length (snd t)) ts.
Proof. reflexivity. Qed.
Lemma view_mons_in ms m : forall o, In m (view_mons o ms) -> exists s, In s ms /\ snd m = sinds s /\ vmon_ok m.
Proof.
  induction ms as [|s ms IH]; intros o; cbn [view_mons In]; [intros []|]. intros [<-|H]; [exists s; repeat split; now left|].
  destruct (IH _ H) as (s' & I & E). exists s'. split; [now right|assumption].
Qed.
Lemma view_terms_in ts v : forall a b, In v (view_terms a b ts) -> exists t o, In t ts /\ snd v = view_mons o (snd t) /\ vterm_ok v.
Proof.
  induction ts as [|t ts IH]; intros a b; cbn [view_terms]; [intros []|]. intros [<-|H].
  - exists t, a. split; [now left|]. split; [reflexivity|]. pose proof (view_terms_ok (t :: ts) a b) as V. inversion V; assumption.
  - destruct (IH _ _ H) as (t' & o & I & E). exists t', o. split; [now right|assumption].
Qed.
Lemma regularize_ok x ts c : packed x ts ->
  list_max (map (fun m => length (sinds m)) (all_mons ts)) <= ci c ->
  list_max (map (fun t : sterm => length (snd t)) ts) <= cm c -> length ts <= ct c ->
  exists d, regularize x c = Ok d /\ undense (length ts) d = ts /\ length d = ct c.
Proof.
  intros X A B C. unfold regularize. rewrite (packed_read _ _ X). cbn [bind].
  set (gm := fun m : vmon => (fst m, fill (ci c) ind0 (snd m))).
  set (gt := fun v : vterm => (fst v, fill (cm c) (mon0, repeat ind0 (ci c)) (map gm (snd v)))).
  rewrite (mapM_total _ gt).
  2:{ intros v Hv. destruct (view_terms_in _ _ _ _ Hv) as (t & o & It & Es & _).
      rewrite (mapM_total _ gm).
      - cbn [bind]. rewrite put_cells_ok; [reflexivity|]. rewrite map_length, Es, view_mons_length.
        pose proof (list_max_in (fun t : sterm => length (snd t)) ts t It). lia.
      - intros m Hm. rewrite Es in Hm. destruct (view_mons_in _ _ _ Hm) as (s & Is & Ei & _).
        rewrite put_cells_ok; [reflexivity|]. rewrite Ei.
        assert (In s (all_mons ts)) by (apply in_flat_map; eauto).
        pose proof (list_max_in (fun m => length (sinds m)) _ s H). cbn beta in *. lia. }
  cbn [bind]. rewrite put_cells_ok by (rewrite map_length, view_terms_length; assumption).
  eexists. split; [reflexivity|]. split.
  - unfold undense, fill. rewrite <- (view_terms_length ts 0 0) at 1. rewrite <- (map_length gt), firstn_pre, map_map.
    transitivity (map sterm_of (view_terms 0 0 ts)); [|apply view_terms_sterm].
    apply map_ext_in. intros v Hv. destruct (view_terms_in _ _ _ _ Hv) as (t & o & It & Es & Vt & Vm).
    unfold gt, sterm_of, fill. cbn [fst snd]. f_equal. rewrite Vt, <- (map_length gm), firstn_pre, map_map.
    apply map_ext_in. intros m Hm. unfold gm, smon_of, fill. cbn [fst snd]. f_equal.
    rewrite Forall_forall in Vm. rewrite (Vm m Hm). apply firstn_pre.
  - unfold fill. rewrite app_length, repeat_length, map_length, view_terms_length. lia.
Qed.

(** ** division by a scalar *)
Lemma rv_div a b r : den a <> 0%Z -> den b <> 0%Z -> num b <> 0%Z -> rdiv Exact a b = Ok r ->
  rv r = (rv a / rv b)%R /\ den r <> 0%Z.
Proof.
  intros A B C H. apply rdiv_exact in H as [F _]; auto. split; [|apply F].
  rewrite (rv_feq _ _ _ F). unfold rv. rewrite !mult_IZR.
  pose proof (IZR_ne0 _ A). pose proof (IZR_ne0 _ B). pose proof (IZR_ne0 _ C). field. auto.
Qed.
Lemma divide_const_eq md x y q m ts : packed x ts -> inds y = [] -> (exists r, mons y = m :: r) -> terms y <> [] ->
  rr (fun z t => packed z t /\ same_caps z (caps_of x) /\ mop z = mop x) (divide md x y q)
    (s_mapt (fun _ => Some (fun p => a <- rmul md q p;; rdiv md a (mq m))) ts).
Proof.
  intros X I [r M] T. unfold divide. rewrite I, M. destruct (terms y) as [|t0 tr]; [contradiction|]. cbn [length Nat.eqb orb get nth_error bind].
  apply (upd_terms_packed (fun _ => Some (fun p => a <- rmul md q p;; rdiv md a (mq m))) x ts X).
Qed.
Lemma divide_const_val rho q m ts t b : den q <> 0%Z -> den (mq m) <> 0%Z -> num (mq m) <> 0%Z -> mv_ok ts ->
  s_mapt (fun _ => Some (fun p => a <- rmul Exact q p;; rdiv Exact a (mq m))) ts = Ok t ->
  val rho t b = (rv q * val rho ts b / rv (mq m))%R /\ mv_ok t.
Proof.
  intros A B C F H. apply (s_mapt_val rho _ (fun _ => (rv q / rv (mq m))%R) ts b) in H as [V W]; auto.
  - split; [|assumption]. rewrite V. unfold Rdiv. ring.
  - intros _ p r Dp H'. minv H'. apply rv_mul in E as [V1 D1]; auto. apply rv_div in H' as [V2 D2]; auto.
    split; [|assumption]. rewrite V2, V1. unfold Rdiv. ring.
Qed.
(** the divisor's indeterminate is inserted where no monomial contains it *)
Fixpoint ins (d : ind) (l : list ind) : list ind :=
  match l with
  | [] => [d]
  | x :: l' => if (id d <? id x)%N then d :: x :: l' else x :: ins d l'
  end.
Lemma ins_length d l : length (ins d l) = S (length l).
Proof. induction l as [|x l IH]; cbn; [reflexivity|]. destruct (id d <? id x)%N; cbn; lia. Qed.
Definition s_div md (d : ind) (rq : rat) (ms : list smon) : res (list smon) :=
  mapM (fun m => deg <- rsub md (sdeg m) (ideg d);; q <- rdiv md (sq m) rq;; Ok (mks q deg (ins d (sinds m)))) ms.
Definition s_div_terms md d rq (ts : list sterm) : res (list sterm) :=
  mapM (fun t : sterm => l <- s_div md d rq (snd t);; Ok (fst t, l)) ts.
Definition absent (d : N) (l : list ind) : Prop := ~ In d (map id l).
Lemma div_inds_written md c d l : forall w nm nt, room c w (length l) nm nt ->
  div_inds md c d l w false true = Ok (mkwr (wi w ++ l) (wm w) (wt w), false, true).
Proof.
  induction l as [|x l IH]; intros w nm nt R0; cbn [div_inds].
  - destruct w. cbn. now rewrite app_nil_r.
  - cbn [length negb] in *. rewrite (put_ind_ok c w x nm (length l) nt R0). cbn [bind].
    rewrite (IH _ nm nt); [cbn; now rewrite <- app_assoc|]. destruct R0 as (A & B & C). unfold room. cbn. rewrite app_length. cbn. lia.
Qed.
Lemma div_inds_absent md c d l : forall w nm nt, absent (id d) l -> room c w (S (length l)) nm nt ->
  (r <- div_inds md c d l w false false;; let '(w1, canceled, written) := r in
   w2 <- (if negb written then put_ind c w1 d else Ok w1);; Ok (w2, canceled : bool))
  = Ok (mkwr (wi w ++ ins d l) (wm w) (wt w), false).
Proof.
  induction l as [|x l IH]; intros w nm nt A R0; cbn [div_inds].
  - cbn [bind negb]. rewrite (put_ind_ok c w d nm 0 nt R0). reflexivity.
  - cbn [negb ins]. unfold absent in A. cbn [map In] in A.
    replace (id d =? id x)%N with false by (destruct (N.eqb_spec (id d) (id x)); [destruct A; auto|reflexivity]).
    cbn [length] in R0. destruct (id d <? id x)%N.
    + rewrite (put_ind_ok c w d nm (S (length l)) nt R0). cbn [bind].
      assert (R1 : room c (mkwr (wi w ++ [d]) (wm w) (wt w)) (S (length l)) nm nt)
        by (destruct R0 as (R1 & R2 & R3); unfold room; cbn; rewrite app_length; cbn; lia).
      rewrite (put_ind_ok c _ x nm (length l) nt R1). cbn [bind].
      rewrite (div_inds_written md c d l _ nm nt).
      2:{ destruct R1 as (R1 & R2 & R3); unfold room; cbn in *; rewrite !app_length in *; cbn in *; lia. }
      cbn. now rewrite <- !app_assoc.
    + rewrite (put_ind_ok c w x nm (S (length l)) nt R0). cbn [bind].
      rewrite (IH _ nm nt).
      * cbn. now rewrite <- app_assoc.
      * unfold absent. tauto.
      * destruct R0 as (R1 & R2 & R3); unfold room; cbn; rewrite app_length; cbn; lia.
Qed.
Lemma div_mon_ok md c d rq w v nt : vmon_ok v -> absent (id d) (snd v) -> room c w (S (length (snd v))) 1 nt ->
  div_mon md c d rq w v = (deg <- rsub md (mdeg (fst v)) (ideg d);; q <- rdiv md (mq (fst v)) rq;;
    Ok (ext w [mks q deg (ins d (snd v))])).
Proof.
  intros V A R0. unfold div_mon. pose proof (div_inds_absent md c d (snd v) w 1 nt A R0) as D.
  destruct (div_inds md c d (snd v) w false false) as [[[w1 ca] wn]|]; cbn [bind] in *; [|discriminate].
  destruct (if negb wn then put_ind c w1 d else Ok w1) as [w2|]; cbn [bind] in *; [|discriminate].
  injection D as -> ->. destruct (rsub md (mdeg (fst v)) (ideg d)) as [deg|]; cbn [bind]; [|reflexivity].
  destruct (rdiv md (mq (fst v)) rq) as [q|]; cbn [bind]; [|reflexivity]. destruct R0 as (R1 & R2 & R3).
  unfold put_mon. cbn [wm wi wt]. rewrite app1_ok by lia. unfold ext. cbn.
  now rewrite V, ins_length, app_nil_r, Nat.add_1_r.
Qed.
Lemma div_mons_ok md c d rq vs : forall w nt, Forall vmon_ok vs -> Forall (fun v : vmon => absent (id d) (snd v)) vs ->
  room c w (ilen (map smon_of vs) + length vs) (length vs) nt ->
  div_mons md c d rq w vs = (t <- s_div md d rq (map smon_of vs);; Ok (ext w t)).
Proof.
  induction vs as [|v vs IH]; intros w nt V A R0; cbn [div_mons map].
  - cbn. now rewrite ext_nil.
  - inversion_clear V as [|? ? V1 V2]. inversion_clear A as [|? ? A1 A2].
    cbn [map] in R0. rewrite ilen_cons in R0. cbn [length sinds smon_of] in R0.
    rewrite (div_mon_ok md c d rq w v nt) by (first [exact V1|exact A1|apply (room_le _ _ _ _ _ _ _ _ R0); lia]).
    unfold s_div. cbn [mapM sdeg sq sinds smon_of].
    destruct (rsub md (mdeg (fst v)) (ideg d)) as [deg|]; cbn [bind]; [|reflexivity].
    destruct (rdiv md (mq (fst v)) rq) as [q|]; cbn [bind]; [|reflexivity].
    rewrite (IH _ nt V2 A2).
    2:{ apply room_ext. unfold ilen at 1. cbn [all_inds flat_map sinds length]. rewrite app_nil_r, ins_length.
        apply (room_le _ _ _ _ _ _ _ _ R0); lia. }
    fold (s_div md d rq (map smon_of vs)). dsub; cbn [bind]; [now rewrite ext_app|reflexivity].
Qed.
Lemma s_div_shape md d rq ms : forall t, s_div md d rq ms = Ok t ->
  length t = length ms /\ ilen t = ilen ms + length ms.
Proof.
  induction ms as [|m ms IH]; intros t H; unfold s_div in H; cbn [mapM] in H.
  - injection H as <-. cbn. auto.
  - minv H. rename v into a. minv H. rename v into r. injection H as <-. apply IH in E0 as [A B].
    minv E. minv E. injection E as <-. rewrite !ilen_cons. cbn [length sinds]. rewrite ins_length. lia.
Qed.
Lemma div_terms_ok md c d rq vs : forall w, Forall vterm_ok vs ->
  Forall (fun v : vterm => Forall (fun v : vmon => absent (id d) (snd v)) (snd v)) vs ->
  room c w (tilen (map sterm_of vs) + tmlen (map sterm_of vs)) (tmlen (map sterm_of vs)) (length vs) ->
  (exists oi ts, vs = view_terms oi (length (wm w)) ts) ->
  div_terms md c d rq w vs = (t <- s_div_terms md d rq (map sterm_of vs);; Ok (ext_t w t)).
Proof.
  induction vs as [|v vs IH]; intros w V A R0 (oi & ts & EV); cbn [div_terms map].
  - cbn. now rewrite ext_t_nil.
  - inversion_clear V as [|? ? [V0 V1] V2]. inversion_clear A as [|? ? A1 A2].
    cbn [map] in R0. rewrite tilen_cons, tmlen_cons in R0. cbn [length snd sterm_of] in R0. rewrite map_length in R0.
    destruct ts as [|t0 ts]; [discriminate|]. rewrite fold_back in EV. injection EV as Ev Evs.
    rewrite (div_mons_ok md c d rq (snd v) w 0) by (first [exact V1|exact A1|apply (room_le _ _ _ _ _ _ _ _ R0); lia]).
    unfold s_div_terms. cbn [mapM]. cbn [snd sterm_of].
    destruct (s_div md d rq (map smon_of (snd v))) as [l|] eqn:E; cbn [bind]; [|reflexivity].
    apply s_div_shape in E as (L & I). rewrite map_length in L, I.
    assert (PT : put_term c (ext w l) (fst v) = Ok (ext_t w [(elem (fst v), l)])).
    { replace (fst v) with (mkterm (length l) (length (wm w)) (elem (fst v))) at 1.
      2:{ rewrite Ev. cbn. rewrite L, Ev. cbn. now rewrite view_mons_length. }
      apply (put_term_close c w l (elem (fst v)) 0); auto.
      apply room_ext. rewrite L, I. apply (room_le _ _ _ _ _ _ _ _ R0); lia. }
    rewrite PT. cbn [bind]. rewrite IH; auto.
    + fold (s_div_terms md d rq (map sterm_of vs)). cbn [fst sterm_of]. dsub; cbn [bind]; [now rewrite ext_t_app|reflexivity].
    + apply room_ext_t. cbn [all_mons flat_map snd length]. rewrite app_nil_r, L, I.
      apply (room_le _ _ _ _ _ _ _ _ R0); lia.
    + eexists _, ts. rewrite Evs. f_equal. cbn. rewrite app_length, lay_mons_length, app_nil_r, L, Ev. cbn. now rewrite view_mons_length.
Qed.
Definition free_of (i : N) (ts : list sterm) : Prop := Forall (fun m => absent i (sinds m)) (all_mons ts).
Lemma free_of_cons i t ts : free_of i (t :: ts) <-> Forall (fun m => absent i (sinds m)) (snd t) /\ free_of i ts.
Proof. unfold free_of. rewrite all_mons_cons. apply Forall_app. Qed.
Lemma free_views i ts : free_of i ts -> forall a b,
  Forall (fun v : vterm => Forall (fun v : vmon => absent i (snd v)) (snd v)) (view_terms a b ts).
Proof.
  induction ts as [|t ts IH]; intros F a b; cbn [view_terms]; constructor; apply free_of_cons in F as [F1 F2]; [|now apply IH].
  cbn [snd]. clear -F1. revert a. induction F1 as [|m l Fm F IH]; intros a; cbn [view_mons]; constructor; [exact Fm|apply IH].
Qed.
Definition s_divide md (q : rat) (d0 : ind) (rq : rat) (ts : list sterm) : res (list sterm) :=
  nd <- rneg (ideg d0);; t <- s_div_terms md (mkind (id d0) nd) rq ts;; s_mapt (fun _ => Some (rmul md q)) t.
Lemma divide_ind_eq md x y q m d0 ts : packed x ts -> inds y = [d0] -> (exists r, mons y = m :: r) -> terms y <> [] ->
  free_of (id d0) ts ->
  rr (fun z t => packed z t) (divide md x y q) (s_divide md q d0 (mq m) ts).
Proof.
  intros X I [r M] T F. pose proof (packed_caps _ _ X) as (A1 & A2 & A3).
  unfold divide, s_divide. rewrite I, M. destruct (terms y) as [|t0 tr]; [contradiction|].
  cbn [length Nat.eqb orb get nth_error bind]. destruct (rneg (ideg d0)) as [nd|]; cbn [bind]; [|reflexivity].
  rewrite (packed_read _ _ X). cbn [bind]. rewrite div_terms_ok.
  - rewrite view_terms_sterm. destruct (s_div_terms md (mkind (id d0) nd) (mq m) ts) as [t|]; cbn [bind]; [|reflexivity].
    match goal with |- rr _ (scale md q (finish ?c (ext_t wr0 t))) _ =>
      change (finish c (ext_t wr0 t)) with (pack c t); pose proof (scale_eq md q (pack c t) t (pack_packed c t)) as S1 end.
    destruct (scale _ _ _), (s_mapt _ _); cbn in *; tauto.
  - apply view_terms_ok.
  - now apply free_views.
  - rewrite !view_terms_sterm, !view_terms_length. unfold room, tilen, tmlen, ilen. cbn. lia.
  - exists 0, ts. reflexivity.
Qed.
Lemma ins_val rho d l : inds_val rho (ins d l) = (dpow (rho (id d)) (ideg d) * inds_val rho l)%R.
Proof.
  induction l as [|x l IH]; cbn [ins]; [reflexivity|]. destruct (id d <? id x)%N; rewrite !inds_val_cons; [reflexivity|].
  rewrite IH. ring.
Qed.
Lemma rsub_int md a b r : integral a -> integral b -> rsub md a b = Ok r -> integral r /\ num r = (num a - num b)%Z.
Proof.
  intros A B H. unfold rsub in H. minv H. apply rneg_ok in E. subst v. apply radd_int in H as [H1 H2]; auto.
Qed.
Lemma ins_int d l : integral (ideg d) -> Forall (fun i => integral (ideg i)) l -> Forall (fun i => integral (ideg i)) (ins d l).
Proof. intros D F. induction F as [|x l Fx F IH]; cbn; [auto|]. destruct (id d <? id x)%N; auto. Qed.
Lemma s_div_val rho d rq ms : integral (ideg d) -> den rq <> 0%Z -> num rq <> 0%Z -> forall t, Forall mon_ok ms -> s_div Exact d rq ms = Ok t ->
  mons_val rho t = (mons_val rho ms / rv rq * dpow (rho (id d)) (ideg d))%R /\ Forall mon_ok t.
Proof.
  intros D A B. induction ms as [|m ms IH]; intros t F H; unfold s_div in H; cbn [mapM] in H.
  - injection H as <-. unfold mons_val. cbn. split; [|constructor]. unfold Rdiv. ring.
  - minv H. rename v into a. minv H. rename v into r. injection H as <-. inversion_clear F as [|? ? (F1 & F2 & F3) F4].
    apply IH in E0 as [V W]; auto. minv E. rename v into dg. minv E. rename v into q1. injection E as <-.
    apply rsub_int in E0 as [E0 _]; auto. apply rv_div in E1 as [V2 D2]; auto. split.
    + unfold mons_val in *. cbn [map]. change (Rsum (?x :: ?y)) with (x + Rsum y)%R. rewrite V. unfold mon_val. cbn [sq sinds].
      rewrite ins_val, V2. unfold Rdiv. ring.
    + constructor; [|assumption]. repeat split; cbn; auto using ins_int.
Qed.
Lemma s_div_terms_val rho d rq ts b : integral (ideg d) -> den rq <> 0%Z -> num rq <> 0%Z -> forall t, mv_ok ts ->
  s_div_terms Exact d rq ts = Ok t ->
  val rho t b = (val rho ts b / rv rq * dpow (rho (id d)) (ideg d))%R /\ mv_ok t.
Proof.
  intros D A B. induction ts as [|s ts IH]; intros t F H; unfold s_div_terms in H; cbn [mapM] in H.
  - injection H as <-. unfold val. cbn. split; [|constructor]. unfold Rdiv. ring.
  - minv H. rename v into a. minv H. rename v into r. injection H as <-. apply mv_ok_cons in F as [F1 F2].
    apply IH in E0 as [V W]; auto. minv E. injection E as <-. apply (s_div_val rho) in E0 as [V2 W2]; auto.
    split; [|apply mv_ok_cons; auto]. unfold val in *. cbn [map]. change (Rsum (?x :: ?y)) with (x + Rsum y)%R.
    rewrite V. cbn [fst snd]. destruct (fst s =? b)%N; [rewrite V2|]; unfold Rdiv; ring.
Qed.
Lemma s_divide_val rho q d0 rq ts t b : den q <> 0%Z -> integral (ideg d0) -> den rq <> 0%Z -> num rq <> 0%Z -> mv_ok ts ->
  rho (id d0) <> 0%R -> s_divide Exact q d0 rq ts = Ok t ->
  val rho t b = (rv q * val rho ts b / (rv rq * dpow (rho (id d0)) (ideg d0)))%R /\ mv_ok t.
Proof.
  intros Q D A B F N H. unfold s_divide in H. minv H. rename v into nd. minv H. rename v into t1. apply rneg_ok in E.
  assert (I : integral nd) by (subst nd; exact D).
  apply (s_div_terms_val rho _ _ _ b) in E0 as [V W]; auto.
  apply (s_mapt_val rho _ (fun _ => rv q) t1 b) in H as [V2 W2]; auto.
  - split; [|assumption]. rewrite V2, V. cbn [id ideg]. rewrite !dpow_int by assumption. subst nd. cbn [num].
    rewrite powerRZ_neg'.
    assert (rv rq <> 0)%R. { unfold rv. intros Z. apply Rmult_integral in Z as [Z|Z]; [now apply eq_IZR in Z|].
      revert Z. apply Rinv_neq_0_compat. now apply IZR_ne0. }
    field. split; [|assumption]. now apply powerRZ_NOR.
  - intros _ p r Dp H'. apply rv_mul in H' as [V1 D1]; auto.
Qed.
