(** detail::collate computes on the structured form, never reads clobbered data and never leaves
    its arrays. *)
From Coq Require Import ZArith NArith List Bool Arith Lia Sorting.Permutation.
From Verif Require Import Base Model_Numeric Model_Sort Model_MV Model_Product Spec_MV Proof_Numeric Proof_Sort
  Proof_SortMap Proof_Layout Proof_Sum.
Import ListNotations.
Local Open Scope nat_scope.

Definition view (m : smon) : vmon := (mkmon (sq m) (sdeg m) (length (sinds m)) 0, sinds m).
Definition s_lt (a b : smon) : res bool := mon_lt (view a) (view b).
Definition s_eq (a b : smon) : bool := mon_eq (view a) (view b).

Section Mode.
Variable md : mode.

(** ** structured collate *)
Fixpoint s_run (cur : smon) (l : list smon) (q : rat) : res (rat * list smon) :=
  match l with
  | [] => Ok (q, [])
  | x :: l' => if s_eq cur x then q' <- radd md q (sq x);; s_run cur l' q' else Ok (q, l)
  end.
Fixpoint s_merge (fuel : nat) (l : list smon) : res (list smon) :=
  match fuel with
  | O => Err IllFormed
  | S fu =>
    match l with
    | [] => Ok []
    | m :: l' =>
      ' (q, rest) <- s_run m l' (sq m);;
      t <- s_merge fu rest;;
      Ok (if is_zero q then t else mks q (sdeg m) (sinds m) :: t)
    end
  end.
Fixpoint s_gather (e : N) (ts : list sterm) : list sterm * list smon :=
  match ts with
  | [] => ([], [])
  | t :: ts' => if (fst t =? e)%N then let '(r, l) := s_gather e ts' in (r, snd t ++ l) else (ts, [])
  end.
Fixpoint s_collate (fuel : nat) (ts : list sterm) : res (list sterm) :=
  match fuel with
  | O => Err IllFormed
  | S fu =>
    match ts with
    | [] => Ok []
    | t :: _ =>
      let '(rest, l) := s_gather (fst t) ts in
      l' <- sort_range s_lt l 0 (length l);;
      m <- s_merge (S (length l)) l';;
      r <- s_collate fu rest;;
      Ok (match m with [] => r | _ => (fst t, m) :: r end)
    end
  end.

(** ** raw monomials and what they stand for *)
Section Raw.
Variable is : list ind.
Definition smon_at (m : mon) : smon := mks (mq m) (mdeg m) (firstn (mcount m) (skipn (ioff m) is)).
Definition in_inds (m : mon) : Prop := ioff m + mcount m <= length is.
Lemma smon_at_inds m : in_inds m -> length (sinds (smon_at m)) = mcount m.
Proof. unfold in_inds. intros H. cbn. rewrite firstn_length, skipn_length. lia. Qed.
Lemma read_mon_at m : in_inds m -> read_mon is m = Ok (m, sinds (smon_at m)).
Proof. unfold in_inds. intros H. unfold read_mon, slice. apply Nat.leb_le in H as ->. reflexivity. Qed.
Lemma mon_less_at a b : in_inds a -> in_inds b -> mon_less is a b = s_lt (smon_at a) (smon_at b).
Proof.
  intros A B. unfold mon_less, s_lt, view. rewrite (read_mon_at _ A), (read_mon_at _ B). cbn [bind].
  unfold mon_lt. cbn [fst snd mdeg mcount sdeg smon_at]. now rewrite !smon_at_inds by assumption.
Qed.
Lemma mon_eq_at a b o o' : in_inds a -> in_inds b ->
  mon_eq (mkmon (mq a) (mdeg a) (mcount a) o, sinds (smon_at a)) (mkmon (mq b) (mdeg b) (mcount b) o', sinds (smon_at b)) =
  s_eq (smon_at a) (smon_at b).
Proof.
  intros A B. unfold s_eq, view, mon_eq. cbn [fst snd mdeg mcount sdeg smon_at]. now rewrite !smon_at_inds by assumption.
Qed.
Lemma mon_eta m : mkmon (mq m) (mdeg m) (mcount m) (ioff m) = m.
Proof. now destruct m. Qed.

Lemma get_mid {A} (p : list A) x s n : n = length p -> get (p ++ x :: s) n = Ok x.
Proof. intros ->. apply get_app. Qed.
Lemma set_mid {A} (p : list A) x s y n : n = length p -> set (p ++ x :: s) n y = Ok (p ++ y :: s).
Proof. intros ->. apply set_app. Qed.

Lemma run_equal_eq m : in_inds m -> forall S' pre post q, Forall in_inds S' ->
  rr (fun a b => fst a = fst b /\ exists S1 S2, S' = S1 ++ S2 /\ snd b = map smon_at S2 /\ snd a = length pre + length S1)
     (run_equal md is (m, sinds (smon_at m)) (pre ++ S' ++ post) (length S') (length pre) q)
     (s_run (smon_at m) (map smon_at S') q).
Proof.
  intros Hm. induction S' as [|x S' IH]; intros pre post q HS; cbn [run_equal length s_run map].
  - cbn. split; [reflexivity|]. exists [], []. cbn. split; [reflexivity|]. split; [reflexivity|lia].
  - inversion_clear HS as [|? ? HS1 HS2]. cbn [app]. rewrite get_mid by reflexivity. cbn [bind].
    rewrite (read_mon_at _ HS1). cbn [bind].
    pose proof (mon_eq_at m x (ioff m) (ioff x) Hm HS1) as E. rewrite !mon_eta in E. rewrite E.
    destruct (s_eq (smon_at m) (smon_at x)).
    + change (sq (smon_at x)) with (mq x). destruct (radd md q (mq x)) as [q'|]; cbn [bind]; [|reflexivity].
      specialize (IH (pre ++ [x]) post q' HS2). rewrite <- app_assoc in IH. cbn [app] in IH.
      rewrite app_length in IH. cbn [length] in IH. replace (length pre + 1) with (S (length pre)) in IH by lia.
      destruct (run_equal _ _ _ _ _ _ _) as [[a1 a2]|], (s_run _ _ _) as [[b1 b2]|]; cbn in *; auto.
      destruct IH as [-> (S1 & S2 & -> & -> & ->)]. split; [reflexivity|].
      exists (x :: S1), S2. cbn. split; [reflexivity|]. split; [reflexivity|lia].
    + cbn. split; [reflexivity|]. exists [], (x :: S'). cbn. split; [reflexivity|]. split; [reflexivity|lia].
Qed.

Lemma skipn_skipn {A} (l : list A) : forall a b, skipn a (skipn b l) = skipn (b + a) l.
Proof.
  intros a b. revert l. induction b as [|b IH]; intros l; [reflexivity|]. destruct l as [|x l]; cbn; [now destruct a|apply IH].
Qed.
Lemma put_list_ok cap l : forall out, length out + length l <= cap -> put_list cap out l = Ok (out ++ l).
Proof.
  induction l as [|x l IH]; intros out H; cbn [put_list].
  - now rewrite app_nil_r.
  - cbn [length] in H. rewrite app1_ok by lia. cbn [bind]. rewrite IH by (rewrite app_length; cbn; lia).
    now rewrite <- app_assoc.
Qed.

Lemma merge_mons_eq capi fuel : forall S' P G Q oi, Forall in_inds S' ->
  length oi + ilen (map smon_at S') <= capi ->
  rr (fun a b => exists G', a = (P ++ lay_mons (length oi) b ++ G', length P + length b, oi ++ all_inds b) /\
        length b + length G' = length G + length S' + length Q /\ length b <= length S' /\ ilen b <= ilen (map smon_at S'))
     (merge_mons md fuel capi is (P ++ G ++ S' ++ Q) (length P + length G) (length P + length G + length S') (length P) oi)
     (s_merge fuel (map smon_at S')).
Proof.
  induction fuel as [|fuel IH]; intros S' P G Q oi HS HC; [reflexivity|]. cbn [merge_mons s_merge].
  destruct S' as [|m S'].
  - cbn [length map]. replace (length P + length G <? length P + length G + 0) with false by (symmetry; apply Nat.ltb_ge; lia). cbn. exists (G ++ Q). rewrite app_nil_r, !app_length.
    split; [|lia]. f_equal. f_equal. lia.
  - inversion_clear HS as [|? ? HS1 HS2].
    replace (length P + length G <? length P + length G + length (m :: S')) with true
      by (symmetry; apply Nat.ltb_lt; cbn; lia).
    cbn [map]. cbn [map] in HC. rewrite ilen_cons in HC. rewrite smon_at_inds in HC by assumption.
    replace (P ++ G ++ (m :: S') ++ Q) with ((P ++ G) ++ m :: S' ++ Q) by (now rewrite <- app_assoc).
    rewrite get_mid by (rewrite app_length; reflexivity). cbn [bind]. rewrite (read_mon_at _ HS1). cbn [bind].
    pose proof (run_equal_eq m HS1 S' (P ++ G ++ [m]) Q (mq m) HS2) as RE.
    replace ((P ++ G ++ [m]) ++ S' ++ Q) with ((P ++ G) ++ m :: S' ++ Q) in RE
      by (rewrite <- !app_assoc; reflexivity).
    replace (length P + length G + length (m :: S') - S (length P + length G)) with (length S') by (cbn; lia).
    replace (length (P ++ G ++ [m])) with (S (length P + length G)) in RE by (rewrite !app_length; cbn; lia).
    change (sq (smon_at m)) with (mq m).
    destruct (run_equal _ _ _ _ _ _ _) as [[q next]|], (s_run _ _ _) as [[q' rest]|]; cbn in RE; cbn [bind];
      try contradiction; [|now subst].
    destruct RE as [-> (S1 & S2 & -> & -> & ->)].
    apply Forall_app in HS2 as [HS3 HS4]. rewrite map_app, ilen_app in HC.
    destruct (is_zero q').
    + specialize (IH S2 P (G ++ m :: S1) Q oi HS4 ltac:(lia)).
      replace (P ++ (G ++ m :: S1) ++ S2 ++ Q) with ((P ++ G) ++ m :: (S1 ++ S2) ++ Q) in IH
        by (rewrite <- !app_assoc; cbn; now rewrite <- ?app_assoc).
      rewrite app_length in IH. cbn [length] in IH.
      replace (length P + (length G + S (length S1))) with (S (length P + length G) + length S1) in IH by lia.
      replace (S (length P + length G) + length S1 + length S2) with (length P + length G + length (m :: S1 ++ S2)) in IH
        by (cbn; rewrite app_length; lia).
      destruct (merge_mons _ _ _ _ _ _ _ _ _) as [a|], (s_merge fuel (map smon_at S2)) as [b|]; cbn [rr] in IH |- *; cbn [bind]; try contradiction; [|assumption].
      destruct IH as (G' & -> & L1 & L2 & L3). exists G'. split; [reflexivity|].
      rewrite ?app_length in L1. cbn [length] in L1 |- *. rewrite map_app, ilen_cons, ilen_app, app_length. lia.
    + (* write at P *)
      set (nm := mkmon q' (mdeg m) (mcount m) (length oi)).
      assert (SP : exists G1, set ((P ++ G) ++ m :: (S1 ++ S2) ++ Q) (length P) nm = Ok (P ++ nm :: G1 ++ S2 ++ Q) /\
                 length G1 = length G + length S1 /\
                 exists m', get (P ++ nm :: G1 ++ S2 ++ Q) (length P + length G) = Ok m' /\ mcount m' = mcount m).
      { destruct G as [|g G].
        - exists S1. rewrite app_nil_r, set_mid by reflexivity. rewrite <- app_assoc. split; [reflexivity|].
          split; [reflexivity|]. exists nm. split; [|reflexivity]. apply get_mid. cbn. lia.
        - exists (G ++ m :: S1). rewrite <- !app_assoc. cbn [app]. rewrite set_mid by reflexivity.
          split; [f_equal; now rewrite <- ?app_assoc|]. rewrite !app_length. cbn [length]. split; [lia|].
          exists m. split; [|reflexivity].
          replace (P ++ nm :: G ++ m :: S1 ++ S2 ++ Q) with ((P ++ nm :: G) ++ m :: S1 ++ S2 ++ Q)
            by (rewrite <- !app_assoc; reflexivity).
          apply get_mid. rewrite app_length. cbn. lia. }
      destruct SP as (G1 & -> & LG & m' & Eg & Em). cbn [bind]. rewrite Eg. cbn [bind]. rewrite Em. cbn [fst].
      assert (SL : slice is (ioff m) (mcount m) = Ok (sinds (smon_at m))).
      { unfold slice. unfold in_inds in HS1. apply Nat.leb_le in HS1 as ->. reflexivity. }
      rewrite SL. cbn [bind].
      rewrite put_list_ok by (rewrite smon_at_inds by assumption; lia). cbn [bind].
      specialize (IH S2 (P ++ [nm]) G1 Q (oi ++ sinds (smon_at m)) HS4).
      rewrite app_length, smon_at_inds in IH by assumption. specialize (IH ltac:(lia)).
      replace ((P ++ [nm]) ++ G1 ++ S2 ++ Q) with (P ++ nm :: G1 ++ S2 ++ Q) in IH by (rewrite <- !app_assoc; reflexivity).
      rewrite app_length in IH. cbn [length] in IH.
      replace (length P + 1 + length G1) with (S (length P + length G) + length S1) in IH by lia.
      replace (S (length P + length G) + length S1 + length S2) with (length P + length G + length (m :: S1 ++ S2)) in IH
        by (cbn; rewrite app_length; lia).
      replace (length P + 1) with (S (length P)) in IH by lia.
      destruct (merge_mons _ _ _ _ _ _ _ _ _) as [a|], (s_merge fuel (map smon_at S2)) as [b|]; cbn [rr] in IH; cbn [bind rr]; try contradiction; [|assumption].
      destruct IH as (G' & -> & L1 & L2 & L3). exists G'. split.
      * cbn [lay_mons sq sdeg sinds all_inds flat_map length]. rewrite smon_at_inds by assumption.
        change (sdeg (smon_at m)) with (mdeg m). fold nm. rewrite <- !app_assoc. cbn [app].
        f_equal. f_equal. lia.
      * cbn [length] in L1 |- *. rewrite map_app, !ilen_cons, ilen_app, app_length. cbn [sinds]. lia.
Qed.

(** ** terms *)
Variable ms : list mon.
Hypothesis ms_ok : Forall in_inds ms.
Definition mons_at (t : term) : list mon := firstn (tcount t) (skipn (moff t) ms).
Definition sterm_at (t : term) : sterm := (elem t, map smon_at (mons_at t)).
Definition in_mons (t : term) : Prop := moff t + tcount t <= length ms.
Lemma mons_at_ok t : Forall in_inds (mons_at t).
Proof.
  apply Forall_forall. intros m H. rewrite Forall_forall in ms_ok. apply ms_ok.
  unfold mons_at in H.
  assert (In m (skipn (moff t) ms)).
  { rewrite <- (firstn_skipn (tcount t)). apply in_or_app. now left. }
  rewrite <- (firstn_skipn (moff t)). apply in_or_app. now right.
Qed.
Lemma mons_at_length t : in_mons t -> length (mons_at t) = tcount t.
Proof. unfold in_mons. intros H. unfold mons_at. rewrite firstn_length, skipn_length. lia. Qed.
Lemma slice_at t : in_mons t -> slice ms (moff t) (tcount t) = Ok (mons_at t).
Proof. unfold in_mons. intros H. unfold slice. apply Nat.leb_le in H as ->. reflexivity. Qed.

Lemma copy_raw_ok l : forall P G, length l <= length G ->
  copy_raw l (P ++ G) (length P) = Ok (P ++ l ++ skipn (length l) G, length P + length l).
Proof.
  induction l as [|x l IH]; intros P G H; cbn [copy_raw].
  - cbn. now rewrite Nat.add_0_r.
  - destruct G as [|g G]; [cbn in H; lia|]. cbn [length] in H. rewrite set_mid by reflexivity. cbn [bind].
    specialize (IH (P ++ [x]) G ltac:(lia)). rewrite <- app_assoc in IH. cbn [app] in IH.
    rewrite app_length in IH. cbn [length] in IH. replace (length P + 1) with (S (length P)) in IH by lia.
    rewrite IH. rewrite <- app_assoc. cbn [app skipn length]. f_equal. f_equal. lia.
Qed.
Lemma gather_ok e ts : forall P G, Forall in_mons ts -> tmlen (map sterm_at ts) <= length G ->
  exists ts1 ts2 L, ts = ts1 ++ ts2 /\ s_gather e (map sterm_at ts) = (map sterm_at ts2, map smon_at L) /\
    gather ms e ts (P ++ G) (length P) = Ok (ts2, P ++ L ++ skipn (length L) G, length P + length L) /\
    Forall in_inds L /\ length L = tmlen (map sterm_at ts1) /\ ilen (map smon_at L) = tilen (map sterm_at ts1) /\
    (match ts with t :: _ => elem t = e -> ts1 <> [] | [] => True end).
Proof.
  induction ts as [|t ts IH]; intros P G HT HL; cbn [gather s_gather map].
  - exists [], [], []. cbn. rewrite Nat.add_0_r. repeat split; auto.
  - inversion_clear HT as [|? ? HT1 HT2]. cbn [map] in HL. rewrite tmlen_cons in HL. cbn [snd sterm_at] in HL.
    rewrite map_length, mons_at_length in HL by assumption.
    cbn [fst sterm_at]. destruct (N.eqb_spec (elem t) e) as [E|E].
    + rewrite (slice_at _ HT1). cbn [bind].
      rewrite copy_raw_ok by (rewrite mons_at_length by assumption; lia). cbn [bind].
      specialize (IH (P ++ mons_at t) (skipn (length (mons_at t)) G) HT2).
      rewrite skipn_length, mons_at_length in IH by assumption. specialize (IH ltac:(lia)).
      destruct IH as (ts1 & ts2 & L & -> & E1 & E2 & H1 & H2 & H3 & _).
      rewrite E1. exists (t :: ts1), ts2, (mons_at t ++ L). split; [reflexivity|]. split; [cbn; now rewrite map_app|].
      split; [|split; [|split; [|split]]].
      * rewrite <- app_assoc in E2. rewrite app_length in E2. rewrite <- !app_assoc.
        rewrite (mons_at_length t HT1) in *. cbn [bind].
        rewrite E2. f_equal. f_equal; [|rewrite app_length, (mons_at_length t HT1); lia]. f_equal.
        rewrite <- !app_assoc. f_equal. f_equal. f_equal.
        rewrite app_length, (mons_at_length t HT1). now rewrite skipn_skipn.
      * apply Forall_app. split; [apply mons_at_ok|assumption].
      * cbn [map]. rewrite tmlen_cons, app_length, H2. cbn. now rewrite map_length.
      * cbn [map]. rewrite tilen_cons, map_app, ilen_app, H3. reflexivity.
      * intros _. discriminate.
    + exists [], (t :: ts), []. cbn. rewrite Nat.add_0_r. repeat split; auto.
Qed.

Lemma collate_loop_eq c fuel : forall ts P G oi ot, length ts < fuel -> Forall in_mons ts ->
  tmlen (map sterm_at ts) <= length G -> length oi + tilen (map sterm_at ts) <= ci c -> length ot + length ts <= ct c ->
  rr (fun a b => exists G', a = (P ++ lay_mons (length oi) (all_mons b) ++ G', length P + tmlen b,
          oi ++ all_inds (all_mons b), ot ++ lay_terms (length P) b) /\
        tmlen b + length G' = length G /\ tilen b <= tilen (map sterm_at ts) /\ length b <= length ts)
     (collate_loop md fuel c ms is ts (P ++ G) (length P) oi ot) (s_collate fuel (map sterm_at ts)).
Proof.
  induction fuel as [|fuel IH]; intros ts P G oi ot HF HT HM HI HO; [lia|]. cbn [collate_loop s_collate].
  destruct ts as [|t ts].
  - cbn. exists G. rewrite !app_nil_r, Nat.add_0_r. repeat split; lia.
  - destruct (gather_ok (elem t) (t :: ts) P G HT HM) as (ts1 & ts2 & L & Ets & E1 & E2 & HL & LL & LI & NE).
    rewrite E2. cbn [bind]. cbn [map fst sterm_at]. cbn [map sterm_at fst] in E1. rewrite E1.
    specialize (NE eq_refl).
    destruct (sort_map smon_at in_inds (mon_less is) s_lt P L (skipn (length L) G) mon_less_at HL)
      as [(L' & S1 & PM & S2)|(er & S1 & S2)]; rewrite S1.
    2:{ cbn [bind]. rewrite map_length, S2. reflexivity. }
    rewrite map_length, S2. cbn [bind].
    rewrite Ets in HT, HM, HI, HO. rewrite map_app in HM, HI. rewrite tmlen_app in HM. rewrite tilen_app in HI.
    rewrite app_length in HO. apply Forall_app in HT as [_ HT2].
    assert (TI : tilen (sterm_at t :: map sterm_at ts) = tilen (map sterm_at ts1) + tilen (map sterm_at ts2)).
    { change (sterm_at t :: map sterm_at ts) with (map sterm_at (t :: ts)). now rewrite Ets, map_app, tilen_app. }
    assert (TL : S (length ts) = length ts1 + length ts2) by (rewrite <- app_length, <- Ets; reflexivity).
    rewrite TI. cbn [length]. rewrite TL.
    assert (PL : length L' = length L) by (symmetry; now apply Permutation_length).
    assert (PI : ilen (map smon_at L') = ilen (map smon_at L)).
    { unfold ilen, all_inds. apply Permutation_length. apply Permutation_flat_map, Permutation_map. now symmetry. }
    assert (HL' : Forall in_inds L') by (eapply Permutation_Forall; eauto).
    pose proof (merge_mons_eq (ci c) (S (length L)) L' P [] (skipn (length L) G) oi HL' ltac:(lia)) as ME.
    cbn [app] in ME. cbn [length] in ME. rewrite Nat.add_0_r in ME.
    replace (length P + length L - length P) with (length L) by lia. rewrite PL in ME.
    destruct (merge_mons _ _ _ _ _ _ _ _ _) as [a|], (s_merge (S (length L)) (map smon_at L')) as [m|]; cbn [rr] in ME; cbn [bind rr]; try contradiction; [|assumption].
    destruct ME as (G' & -> & M1 & M2 & M3). cbn [bind].
    rewrite skipn_length in M1.
    replace (length P + length m - length P) with (length m) by lia.
    assert (L1 : 1 <= length ts1) by (destruct ts1; [contradiction|cbn; lia]).
    assert (OT : (if 0 <? length m then app1 (ct c) ot (mkterm (length m) (length P) (elem t)) else Ok ot)
      = Ok (match m with [] => ot | _ => ot ++ [mkterm (length m) (length P) (elem t)] end)).
    { destruct m; [reflexivity|]. cbn [Nat.ltb Nat.leb length]. apply app1_ok. lia. }
    rewrite OT. cbn [bind].
    replace (P ++ lay_mons (length oi) m ++ G') with ((P ++ lay_mons (length oi) m) ++ G') by (now rewrite app_assoc).
    specialize (IH ts2 (P ++ lay_mons (length oi) m) G' (oi ++ all_inds m)
       (match m with [] => ot | _ => ot ++ [mkterm (length m) (length P) (elem t)] end)).
    assert (LO : length (match m with [] => ot | _ => ot ++ [mkterm (length m) (length P) (elem t)] end) <= length ot + 1).
    { destruct m; rewrite ?app_length; cbn; lia. }
    fold (ilen m) in *.
    assert (LA : length (all_inds m) = ilen m) by reflexivity.
    rewrite !app_length, lay_mons_length in IH. rewrite LA in IH.
    assert (XF : length ts2 < fuel) by (cbn in HF; lia).
    specialize (IH XF HT2 ltac:(lia) ltac:(lia) ltac:(lia)).
    destruct (collate_loop _ _ _ _ _ _ _ _ _ _) as [a|], (s_collate fuel (map sterm_at ts2)) as [b|]; cbn [rr] in IH; cbn [bind rr]; try contradiction; [|assumption].
    destruct IH as (G'' & -> & N1 & N2 & N3). exists G''.
    destruct m as [|x m].
    + cbn. rewrite !app_nil_r, !Nat.add_0_r in *. cbn [length] in *. split; [reflexivity|]. lia.
    + set (mm := x :: m) in *. cbn [all_mons flat_map snd lay_terms fst]. fold (all_mons b).
      rewrite lay_mons_app, all_inds_app, tmlen_cons, tilen_cons. cbn [snd fst length]. rewrite LA.
      split; [|lia]. rewrite <- !app_assoc. cbn [app]. f_equal. f_equal. f_equal. lia.
Qed.
End Raw.

Definition same_caps (z : mv) (c : caps) : Prop :=
  length (inds z) = ci c /\ length (mons z) = cm c /\ length (terms z) = ct c.
Lemma collate_eq c ts ms is : Forall (in_inds is) ms -> Forall (in_mons ms) ts ->
  tmlen (map (sterm_at is ms) ts) <= cm c -> tilen (map (sterm_at is ms) ts) <= ci c -> length ts <= ct c ->
  rr (fun z t => packed z t /\ same_caps z c) (collate md c ts ms is) (s_collate (S (length ts)) (map (sterm_at is ms) ts)).
Proof.
  intros HM HT C1 C2 C3. unfold collate.
  pose proof (collate_loop_eq is ms HM c (S (length ts)) ts [] (repeat mon0 (cm c)) [] [] ltac:(lia) HT) as E.
  rewrite repeat_length in E. specialize (E C1 C2 C3). cbn [app length] in E.
  destruct (collate_loop _ _ _ _ _ _ _ _ _ _) as [a|], (s_collate _ _) as [b|]; cbn [rr] in E; cbn [bind rr]; try contradiction; [|assumption].
  destruct E as (G' & -> & L1 & L2 & L3). cbn. split.
  - constructor; cbn; eauto.
    + unfold fill. eauto.
    + unfold fill. eauto.
    + now rewrite lay_terms_length.
  - unfold same_caps, fill. cbn. rewrite !app_length, !repeat_length, lay_mons_length, lay_terms_length.
    fold (ilen (all_mons b)). fold (tilen b). fold (tmlen b). lia.
Qed.
End Mode.
