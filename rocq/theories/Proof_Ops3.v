(** Structure of changed bases, shift, references, resize, extent, dense form and division. *)
From Coq Require Import ZArith NArith List Bool Arith Lia ZifyBool ZifyN ZifyNat Reals Lra Sorting.Permutation Sorting.Sorted.
From Verif Require Import Base Model_Numeric Model_Blade Model_Sort Model_MV Model_Product Spec_Numeric Spec_Sort Spec_MV Spec_Basis
  Proof_Numeric Proof_Sort Proof_SortMap Proof_Layout Proof_Sum Proof_Val Proof_Collate Proof_Product Proof_CollateVal
  Proof_ProductVal Proof_Ops Proof_Ops2 Proof_Basis.
Import ListNotations.
Local Open Scope nat_scope.

(** ** results of a change of basis *)
Lemma smapq_keys f ms t : smapq f ms = Ok t -> keys_in t ms.
Proof.
  intros H. apply smapq_shape in H as (L & _ & D & I). intros m Hm. destruct (In_nth _ _ m Hm) as (i & Hi & Ei).
  exists (nth i ms m). split; [apply nth_In; lia|]. split.
  - rewrite <- (map_nth sdeg ms), <- D, map_nth. now rewrite Ei.
  - rewrite <- (map_nth sinds ms), <- I, map_nth. now rewrite Ei.
Qed.
Lemma s_push_keys md s e t t' : s_push md s e t = Ok t' -> keys_in (snd t') (snd t).
Proof. unfold s_push. intros H. minv H. injection H as <-. eapply smapq_keys; eauto. Qed.
Lemma keys_in_trans a b c : keys_in a b -> keys_in b c -> keys_in a c.
Proof.
  intros A B m Hm. destruct (A m Hm) as (z & Iz & E1 & E2). destruct (B z Iz) as (y & Iy & E3 & E4).
  exists y. split; [assumption|]. split; congruence.
Qed.
Lemma keys_in_app_l a b c : keys_in a b -> keys_in a (b ++ c).
Proof. intros A m Hm. destruct (A m Hm) as (z & Iz & E). exists z. split; [apply in_or_app; now left|assumption]. Qed.
Lemma keys_in_app_r a b c : keys_in a c -> keys_in a (b ++ c).
Proof. intros A m Hm. destruct (A m Hm) as (z & Iz & E). exists z. split; [apply in_or_app; now right|assumption]. Qed.
Lemma keys_in_app a b c : keys_in a c -> keys_in b c -> keys_in (a ++ b) c.
Proof. intros A B m Hm. apply in_app_or in Hm as [Hm|Hm]; auto. Qed.
Lemma keys_in_refl a : keys_in a a.
Proof. intros m Hm. exists m. split; [assumption|apply same_key_refl]. Qed.
Lemma all_mons_cons t ts : all_mons (t :: ts) = snd t ++ all_mons ts. Proof. reflexivity. Qed.
Lemma s_dist_keys md d ts : forall r, s_dist md d ts = Ok r ->
  keys_in (all_mons (fst r)) (all_mons ts) /\ keys_in (all_mons (snd r)) (all_mons ts).
Proof.
  induction ts as [|t ts IH]; intros r H; cbn [s_dist] in H.
  - injection H as <-. split; intros m [].
  - destruct (d (fst t)).
    + minv H. rename v into a. minv H. injection H as <-. apply IH in E0 as [A B]. apply s_push_keys in E.
      cbn [fst snd]. rewrite !all_mons_cons. split; [|now apply keys_in_app_r].
      apply keys_in_app; [now apply keys_in_app_l|now apply keys_in_app_r].
    + minv H. rename v into a. minv H. rename v into a'. minv H. injection H as <-. apply IH in E1 as [A B].
      apply s_push_keys in E. apply s_push_keys in E0. cbn [fst snd]. rewrite !all_mons_cons.
      split; [now apply keys_in_app_r|].
      apply keys_in_app; [now apply keys_in_app_l|]. apply keys_in_app; [now apply keys_in_app_l|now apply keys_in_app_r].
Qed.
Lemma tdegs_all ts : tdegs_ok ts <-> Forall degs_ok (all_mons ts).
Proof.
  unfold tdegs_ok. induction ts as [|t ts IH]; [split; constructor|]. rewrite all_mons_cons, Forall_app, <- IH.
  split; [intros H; inversion_clear H; auto|intros [A B]; now constructor].
Qed.
Lemma keys_in_tdegs a b : keys_in (all_mons a) (all_mons b) -> tdegs_ok b -> tdegs_ok a.
Proof. rewrite !tdegs_all. apply keys_in_degs. Qed.
Lemma ss_terms_keys md ls rs : forall t, ss_terms md ls rs = Ok t -> keys_in (all_mons t) (all_mons ls ++ all_mons rs).
Proof.
  revert ls rs. apply (merge_ind (fun ls rs => forall t, ss_terms md ls rs = Ok t -> keys_in (all_mons t) (all_mons ls ++ all_mons rs))).
  - intros rs t H. rewrite ss_terms_nil_l in H. injection H as <-. apply keys_in_refl.
  - intros ls t H. rewrite ss_terms_nil_r in H. injection H as <-. rewrite app_nil_r. apply keys_in_refl.
  - intros l ls r rs I1 I2 I3 t H. rewrite ss_terms_cons in H. rewrite !all_mons_cons.
    assert (G : forall a b, keys_in a ((snd l ++ all_mons ls) ++ snd r ++ all_mons rs) -> keys_in b (all_mons ls ++ all_mons rs) ->
       keys_in (a ++ b) ((snd l ++ all_mons ls) ++ snd r ++ all_mons rs)).
    { intros a b A B. apply keys_in_app; [assumption|]. eapply keys_in_trans; [exact B|]. intros m Hm. exists m.
      split; [|apply same_key_refl]. rewrite !in_app_iff in *. tauto. }
    destruct (fst r =? fst l)%N; [|destruct (fst l <? fst r)%N].
    + destruct (ss_mons md (snd l) (snd r)) as [m|] eqn:E; cbn [bind] in H; [|discriminate].
      destruct (ss_terms md ls rs) as [u|]; cbn [bind] in H; [|discriminate]. injection H as <-.
      apply ss_mons_keys in E. specialize (I3 u eq_refl). destruct m as [|m0 m].
      * eapply keys_in_trans; [exact I3|]. intros k Hk. exists k. split; [|apply same_key_refl]. rewrite !in_app_iff in *. tauto.
      * rewrite all_mons_cons. apply G; [|assumption]. cbn [snd]. eapply keys_in_trans; [exact E|]. intros k Hk. exists k.
        split; [|apply same_key_refl]. rewrite !in_app_iff in *. tauto.
    + destruct (ss_terms md ls (r :: rs)) as [u|]; cbn [bind] in H; [|discriminate]. injection H as <-.
      specialize (I1 u eq_refl). rewrite !all_mons_cons in *. apply keys_in_app.
      * intros k Hk. exists k. split; [|apply same_key_refl]. rewrite !in_app_iff. tauto.
      * eapply keys_in_trans; [exact I1|]. intros k Hk. exists k. split; [|apply same_key_refl]. rewrite !in_app_iff in *. tauto.
    + destruct (ss_terms md (l :: ls) rs) as [u|]; cbn [bind] in H; [|discriminate]. injection H as <-.
      specialize (I2 u eq_refl). rewrite !all_mons_cons in *. apply keys_in_app.
      * intros k Hk. exists k. split; [|apply same_key_refl]. rewrite !in_app_iff. tauto.
      * eapply keys_in_trans; [exact I2|]. intros k Hk. exists k. split; [|apply same_key_refl]. rewrite !in_app_iff in *. tauto.
Qed.
Lemma s_change_dim md d n ts t : (forall a, (a < 2 ^ N.of_nat n)%N -> in_n n (dcomb d a)) -> in_dim n ts ->
  tdegs_ok ts -> s_change md d ts = Ok t -> in_dim n t.
Proof.
  intros K I T H. unfold s_change in H. minv H. rename v into r. minv H. rename v into c.
  pose proof (s_dist_keys _ _ _ _ E) as [_ K2]. apply (s_dist_dim n md d ts K I) in E as [A B].
  apply sc_canon in E0 as (_ & _ & S1 & _); [|eapply keys_in_tdegs; eauto].
  pose proof (ss_terms_elems _ _ _ _ H) as S2. apply Forall_forall. intros u Hu.
  destruct (S2 _ (in_map fst _ _ Hu)) as [S3|S3].
  - apply in_map_iff in S3 as (w & <- & Hw). unfold in_dim in A. rewrite Forall_forall in A. now apply A.
  - apply S1 in S3. apply in_map_iff in S3 as (w & <- & Hw). unfold in_dim in B. rewrite Forall_forall in B. now apply B.
Qed.
Lemma s_change_keys md d ts t : tdegs_ok ts -> s_change md d ts = Ok t -> keys_in (all_mons t) (all_mons ts).
Proof.
  intros T H. unfold s_change in H. minv H. rename v into r. minv H. rename v into c.
  pose proof (s_dist_keys _ _ _ _ E) as [K1 K2]. apply sc_canon in E0 as (_ & _ & _ & K3); [|eapply keys_in_tdegs; eauto].
  apply ss_terms_keys in H. eapply keys_in_trans; [exact H|]. apply keys_in_app; [assumption|]. eapply keys_in_trans; eauto.
Qed.
Lemma rmul_one_nz q r : den q <> 0%Z -> num q <> 0%Z -> rmul Exact q one = Ok r -> num r <> 0%Z.
Proof.
  intros D N0 H. apply rv_mul in H as [V W]; auto; [|cbn; lia]. rewrite rv_one in V. intros Z0. rewrite (rv_zero r Z0) in V.
  unfold rv in V. assert (IZR (num q) = 0)%R; [|apply N0; now apply eq_IZR].
  pose proof (IZR_ne0 _ D). apply (Rmult_eq_reg_r (/ IZR (den q))); [unfold Rdiv in V; lra|]. now apply Rinv_neq_0_compat.
Qed.
Lemma s_dist_canon d ts : forall r, mv_ok ts -> canonical ts -> s_dist Exact d ts = Ok r ->
  canonical (fst r) /\ (forall e, In e (map fst (fst r)) -> In e (map fst ts)).
Proof.
  induction ts as [|t ts IH]; intros r F C H; cbn [s_dist] in H.
  - injection H as <-. cbn. split; [exact C|intros e []].
  - apply mv_ok_cons in F as [F1 F2]. apply canonical_cons in C as ((C2 & N1 & S1 & Z1) & C3).
    destruct (d (fst t)).
    + minv H. rename v into a. minv H. injection H as <-. apply IH in E0 as [A B]; auto. unfold s_push in E.
      destruct (smapq (fun p => rmul Exact p one) (snd t)) as [l|] eqn:Q; cbn [bind] in E; [|discriminate]. injection E as <-.
      cbn [fst snd].
      assert (CL : mon_canon l /\ length l = length (snd t)).
      { clear - Q F1 S1 Z1. split; [|now apply smapq_shape in Q as (? & _)].
        revert l Q. induction (snd t) as [|m ms IHm]; intros l Q.
        - injection Q as <-. split; constructor.
        - rewrite smapq_cons in Q. minv Q. rename v into q. minv Q. rename v into l'. injection Q as <-.
          inversion_clear F1 as [|? ? [D1 _] G2]. inversion_clear Z1 as [|? ? Z2 Z3]. inversion_clear S1 as [|? ? S2 S3].
          destruct (IHm G2 S2 Z3 l' E0) as [T1 T2]. split.
          + constructor; [assumption|]. apply smapq_keys in E0. apply Forall_forall. intros k Hk.
            destruct (E0 k Hk) as (z & Iz & Ez1 & Ez2). rewrite Forall_forall in S3.
            apply (smon_lt_same m z); [split; reflexivity|split; auto|auto].
          + constructor; [|assumption]. cbn. eapply rmul_one_nz; eauto. }
      destruct CL as [[CL1 CL2] CL3]. split.
      * apply canonical_cons. cbn [fst snd]. split; [|assumption]. split; [|split; [|split; assumption]].
        -- apply Forall_forall. intros e He. apply B in He. rewrite Forall_forall in C2. now apply C2.
        -- destruct l; [destruct (snd t); [contradiction|discriminate]|discriminate].
      * cbn [map In fst]. intros e [<-|He]; auto.
    + minv H. rename v into a. minv H. rename v into a'. minv H. injection H as <-. apply IH in E1 as [A B]; auto.
      cbn [fst snd]. split; [assumption|]. cbn. auto.
Qed.
Lemma s_change_canon d ts t : mv_ok ts -> canonical ts -> s_change Exact d ts = Ok t -> canonical t.
Proof.
  intros F C H. unfold s_change in H. minv H. rename v into r. minv H. rename v into c.
  pose proof (mv_ok_tdegs _ F) as T. pose proof (s_dist_keys _ _ _ _ E) as [K1 K2].
  apply s_dist_canon in E as [A _]; auto. apply sc_canon in E0 as (B & _ & _ & K3); [|eapply keys_in_tdegs; eauto].
  apply (ss_terms_canon Exact (fst r) c) in H as [H _]; auto; [exact (keys_in_tdegs _ _ K1 T)|].
  exact (keys_in_tdegs _ _ (keys_in_trans _ _ _ K3 K2) T).
Qed.

(** ** shift *)
Lemma const_packed g q : packed (const_mv g q) [(g, [mks q zero []])].
Proof. constructor; try reflexivity; exists []; reflexivity. Qed.
Lemma shift_eq md q x ts : packed x ts ->
  shift md q x = (t <- ss_terms md ts [(0%N, [mks q zero []])];; Ok (pack (sum_caps x (const_mv 0 q)) t)).
Proof. intros X. unfold shift. apply sum_eq; [assumption|apply const_packed]. Qed.
Lemma shift_val rho q ts t b : den q <> 0%Z -> mv_ok ts -> ss_terms Exact ts [(0%N, [mks q zero []])] = Ok t ->
  val rho t b = (val rho ts b + (if (b =? 0)%N then rv q else 0))%R /\ mv_ok t.
Proof.
  intros D F H. apply (ss_terms_val rho b) in H as [V W]; auto.
  2:{ repeat constructor; auto. }
  split; [|assumption]. rewrite V. f_equal. rewrite val_cons. change (val rho [] b) with 0%R. cbn [fst snd].
  rewrite N.eqb_sym. destruct (b =? 0)%N; [|ring]. rewrite mons_val_cons. change (mons_val rho []) with 0%R.
  unfold mon_val, inds_val. cbn. ring.
Qed.

(** ** references to temporaries *)
Fixpoint refs (i0 : N) (ts : list sterm) : list sterm :=
  match ts with
  | [] => []
  | t :: ts' => (fst t, [mks one one [mkind i0 one]]) :: refs (N.succ i0) ts'
  end.
Lemma refs_inds ts : forall i0, all_inds (all_mons (refs i0 ts)) =
  map (fun i => mkind (i0 + N.of_nat i) one) (seq 0 (length ts)).
Proof.
  induction ts as [|t ts IH]; intros i0; [reflexivity|]. cbn [refs length seq map]. rewrite all_mons_cons, all_inds_app.
  cbn [snd all_inds flat_map app sinds]. fold (all_inds (all_mons (refs (N.succ i0) ts))). rewrite IH, <- seq_shift, map_map. f_equal.
  - f_equal. lia.
  - apply map_ext. intros i. f_equal. lia.
Qed.
Lemma refs_mons ts : forall i0, all_mons (refs i0 ts) =
  map (fun i => mks one one [mkind (i0 + N.of_nat i) one]) (seq 0 (length ts)).
Proof.
  induction ts as [|t ts IH]; intros i0; [reflexivity|]. cbn [refs length seq map]. rewrite all_mons_cons.
  cbn [snd app]. rewrite IH, <- seq_shift, map_map. f_equal.
  - now replace (i0 + N.of_nat 0)%N with i0 by lia.
  - apply map_ext. intros i. now replace (N.succ i0 + N.of_nat i)%N with (i0 + N.of_nat (S i))%N by lia.
Qed.
Lemma lay_singles (f : nat -> ind) n : forall o s, lay_mons o (map (fun i => mks one one [f i]) (seq s n)) =
  map (fun i => mkmon one one 1 i) (seq o n).
Proof. induction n as [|n IH]; intros o s; [reflexivity|]. cbn. f_equal. rewrite Nat.add_1_r. apply IH. Qed.
Lemma lay_refs ts : forall o i0, lay_terms o (refs i0 ts) =
  map (fun p => mkterm 1 (fst p) (elem (snd p))) (combine (seq o (length ts)) (lay_terms 0 ts)).
Proof.
  assert (G : forall ts o o' i0, lay_terms o (refs i0 ts) =
     map (fun p => mkterm 1 (fst p) (elem (snd p))) (combine (seq o (length ts)) (lay_terms o' ts))).
  { induction ts0 as [|t ts0 IH]; intros o o' i0; [reflexivity|]. cbn. f_equal. rewrite Nat.add_1_r. apply IH. }
  intros. apply G.
Qed.
Lemma create_ref_packed x ts i0 : packed x ts -> length (terms x) = length ts ->
  packed (create_ref x i0) (refs i0 ts) /\ caps_of (create_ref x i0) = mkcaps (length ts) (length ts) (length ts).
Proof.
  intros X L. destruct X as [_ _ [rt Et] _ _ _].
  assert (rt = []) as -> by (rewrite Et, app_length, lay_terms_length in L; destruct rt; [reflexivity|cbn in L; lia]).
  rewrite app_nil_r in Et. unfold create_ref. rewrite L. split.
  - constructor; cbn [inds mons terms isz msz tsz].
    + exists []. now rewrite app_nil_r, refs_inds.
    + exists []. rewrite app_nil_r, refs_mons. symmetry. apply (lay_singles (fun i => mkind (i0 + N.of_nat i) one)).
    + exists []. now rewrite app_nil_r, Et, <- (lay_refs ts 0 i0).
    + now rewrite refs_inds, map_length, seq_length.
    + now rewrite refs_mons, map_length, seq_length.
    + clear. revert i0. induction ts; intros; cbn; auto.
  - unfold caps_of. cbn. rewrite !map_length, combine_length, !seq_length, L, Nat.min_id. reflexivity.
Qed.
(** reading back: the indeterminates i0, i0 + 1, ... hold the values of the terms in order *)
Lemma refs_val rho sigma ts b : forall i0,
  (forall k t, nth_error ts k = Some t -> sigma (i0 + N.of_nat k)%N = mons_val rho (snd t)) ->
  val sigma (refs i0 ts) b = val rho ts b.
Proof.
  induction ts as [|t ts IH]; intros i0 H; [reflexivity|]. cbn [refs]. rewrite !val_cons. f_equal.
  - cbn [fst snd]. destruct (_ =? _)%N; [|reflexivity]. rewrite mons_val_cons. change (mons_val sigma []) with 0%R.
    unfold mon_val, inds_val. cbn [sq sinds map Rprod fold_right id ideg]. unfold dpow. cbn [den one num]. cbn [Z.eqb Pos.eqb].
    rewrite rv_one. change (powerRZ (sigma i0) 1) with (sigma i0 * 1)%R. specialize (H 0 t eq_refl). rewrite N.add_0_r in H. rewrite H. ring.
  - apply IH. intros k u Hk. specialize (H (S k) u Hk). rewrite <- H. f_equal. lia.
Qed.
Lemma refs_canon ts : forall i0, StronglySorted N.lt (map fst ts) -> canonical (refs i0 ts) /\ mv_ok (refs i0 ts).
Proof.
  intros i0 H. split; [split|].
  - replace (map fst (refs i0 ts)) with (map fst ts); [assumption|]. clear H. revert i0. induction ts; intros; cbn; f_equal; auto.
  - clear H. revert i0. induction ts; intros; cbn; constructor; auto. cbn. repeat split; try discriminate; repeat constructor. discriminate.
  - clear H. revert i0. induction ts as [|t ts IH]; intros; [constructor|]. cbn [refs]. apply mv_ok_cons. split; [|apply IH].
    repeat constructor. cbn. discriminate.
Qed.

(** ** resize, extent and the dense form *)
Lemma slice_pre {A} (s r : list A) : slice (s ++ r) 0 (length s) = Ok s.
Proof. exact (slice_app [] s r). Qed.
Lemma resize_packed x ts c : packed x ts -> tilen ts <= ci c -> tmlen ts <= cm c -> length ts <= ct c ->
  exists z, resize x c = Ok z /\ packed z ts /\ caps_of z = c.
Proof.
  intros X A B C. unfold resize.
  destruct ((length (inds x) =? ci c) && (length (mons x) =? cm c) && (length (terms x) =? ct c)) eqn:E.
  - exists x. repeat split; try apply X. unfold caps_of. destruct c. cbn in *. f_equal; lia.
  - destruct X as [[ri Ei] [rm Em] [rt Et] Si Sm St].
    assert (CC : forall {T} (d : T) cap n s r, n = length s -> n <= cap -> copy_cells d cap n (s ++ r) = Ok (fill cap d s)).
    { intros T d cap n s r -> L. unfold copy_cells. rewrite slice_pre. cbn [bind]. now replace (length s <=? cap) with true by lia. }
    rewrite Ei, Em, Et. rewrite CC by (rewrite ?Si; auto). rewrite CC by (rewrite ?Sm, ?lay_mons_length; auto).
    rewrite CC by (rewrite ?St, ?lay_terms_length; auto). cbn [bind]. eexists. split; [reflexivity|]. split.
    + constructor; cbn; unfold fill; eauto.
    + unfold caps_of, fill. cbn. rewrite !app_length, !repeat_length, lay_mons_length, lay_terms_length.
      unfold tilen, tmlen, ilen in *. destruct c; cbn in *. f_equal; lia.
Qed.
(** a capacity below the size is an out-of-bounds write *)
Lemma resize_small x ts c : packed x ts -> (ci c < tilen ts \/ cm c < tmlen ts \/ ct c < length ts) ->
  resize x c = Err OutOfBounds.
Proof.
  intros X H. pose proof (packed_caps _ _ X) as (A & B & C). unfold resize.
  replace ((length (inds x) =? ci c) && (length (mons x) =? cm c) && (length (terms x) =? ct c)) with false
    by (unfold tilen, tmlen, ilen in *; lia).
  destruct X as [[ri Ei] [rm Em] [rt Et] Si Sm St].
  assert (CC : forall {T} (d : T) cap n s r, n = length s -> copy_cells d cap n (s ++ r) =
    if n <=? cap then Ok (fill cap d s) else Err OutOfBounds).
  { intros T d cap n s r ->. unfold copy_cells. now rewrite slice_pre. }
  rewrite Ei, Em, Et, !CC by (rewrite ?Si, ?Sm, ?St, ?lay_mons_length, ?lay_terms_length; auto).
  rewrite Si, Sm, St. unfold tilen, tmlen, ilen in *.
  destruct (_ <=? _) eqn:L1; cbn [bind]; [|reflexivity]. destruct (_ <=? cm c) eqn:L2; cbn [bind]; [|reflexivity].
  destruct (_ <=? ct c) eqn:L3; cbn [bind]; [|reflexivity]. lia.
Qed.
