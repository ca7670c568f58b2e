(** detail::product, detail::poincare_dual and the change of basis compute on the structured form. *)
From Coq Require Import ZArith NArith List Bool Arith Lia Sorting.Permutation.
From Verif Require Import Base Model_Numeric Model_Blade Model_Sort Model_MV Model_Product Spec_MV Proof_Numeric Proof_Sort
  Proof_SortMap Proof_Layout Proof_Sum Proof_Collate.
Import ListNotations.
Local Open Scope nat_scope.

(** ** a laid out multivector read back as raw data *)
Lemma in_inds_lay l : forall p q, Forall (in_inds (p ++ all_inds l ++ q)) (lay_mons (length p) l).
Proof.
  induction l as [|m l IH]; intros p q; constructor.
  - unfold in_inds. cbn. rewrite !app_length. lia.
  - specialize (IH (p ++ sinds m) q). cbn. rewrite <- !app_assoc in *. now rewrite app_length in IH.
Qed.
Lemma smon_at_lay l : forall p q, map (smon_at (p ++ all_inds l ++ q)) (lay_mons (length p) l) = l.
Proof.
  induction l as [|m l IH]; intros p q; [reflexivity|]. cbn [map lay_mons].
  change (all_inds (m :: l)) with (sinds m ++ all_inds l). f_equal.
  - unfold smon_at. cbn. rewrite skipn_app, skipn_all, Nat.sub_diag. cbn [app skipn].
    rewrite <- app_assoc, firstn_app, firstn_all, Nat.sub_diag. cbn [firstn]. rewrite app_nil_r. now destruct m.
  - specialize (IH (p ++ sinds m) q). rewrite <- !app_assoc in *. now rewrite app_length in IH.
Qed.
Lemma in_mons_lay ts : forall p, Forall (in_mons (p ++ lay_mons 0 (all_mons ts))) (lay_terms (length p) ts).
Proof.
  cut (forall o p q, Forall (in_mons (p ++ lay_mons o (all_mons ts) ++ q)) (lay_terms (length p) ts)).
  { intros H p. specialize (H 0 p []). now rewrite app_nil_r in H. }
  induction ts as [|t ts IH]; intros o p q; constructor.
  - unfold in_mons. cbn. rewrite lay_mons_app, !app_length, lay_mons_length. lia.
  - change (all_mons (t :: ts)) with (snd t ++ all_mons ts). rewrite lay_mons_app, <- app_assoc.
    specialize (IH (o + length (all_inds (snd t))) (p ++ lay_mons o (snd t)) q).
    rewrite <- !app_assoc, app_length, lay_mons_length in IH. exact IH.
Qed.
Lemma firstn_lay l o (q : list mon) : firstn (length l) (lay_mons o l ++ q) = lay_mons o l.
Proof.
  rewrite firstn_app, lay_mons_length, Nat.sub_diag. cbn [firstn]. rewrite app_nil_r.
  apply firstn_all2. now rewrite lay_mons_length.
Qed.
Lemma sterm_at_lay ts : forall pi qi pm qm,
  map (sterm_at (pi ++ all_inds (all_mons ts) ++ qi) (pm ++ lay_mons (length pi) (all_mons ts) ++ qm))
      (lay_terms (length pm) ts) = ts.
Proof.
  induction ts as [|[e l] ts IH]; intros pi qi pm qm; [reflexivity|]. cbn [map lay_terms fst snd].
  change (all_mons ((e, l) :: ts)) with (l ++ all_mons ts). rewrite all_inds_app, lay_mons_app. f_equal.
  - unfold sterm_at, mons_at. cbn. f_equal. rewrite skipn_app, skipn_all, Nat.sub_diag. cbn [app skipn].
    rewrite <- !app_assoc, firstn_lay. apply smon_at_lay.
  - specialize (IH (pi ++ all_inds l) qi (pm ++ lay_mons (length pi) l) qm).
    rewrite <- !app_assoc, !app_length, lay_mons_length in *. exact IH.
Qed.

(** ** sort the terms, then collate *)
Definition t_lt (a b : sterm) : res bool := Ok (fst a <? fst b)%N.
Definition s_sort_collate (md : mode) (ts : list sterm) : res (list sterm) :=
  ts' <- sort_range t_lt ts 0 (length ts);; s_collate md (S (length ts)) ts'.

Lemma sort_terms ts post : exists raw,
  sort_range (fun a b => Ok (term_lt a b)) (lay_terms 0 ts ++ post) 0 (length ts) = Ok (raw ++ post) /\
  Permutation (lay_terms 0 ts) raw /\
  (forall ri, sort_range t_lt ts 0 (length ts) =
    Ok (map (sterm_at (all_inds (all_mons ts) ++ ri) (lay_mons 0 (all_mons ts))) raw)).
Proof.
  set (f := sterm_at (all_inds (all_mons ts)) (lay_mons 0 (all_mons ts))).
  assert (F : forall ri, map (sterm_at (all_inds (all_mons ts) ++ ri) (lay_mons 0 (all_mons ts))) (lay_terms 0 ts) = ts).
  { intros ri. pose proof (sterm_at_lay ts [] ri [] []) as H. cbn [app length] in H. now rewrite app_nil_r in H. }
  destruct (sort_total (fun a b : term => term_lt a b) ltac:(unfold term_lt; constructor; intros;
      rewrite ?N.ltb_lt, ?N.ltb_ge in *; try lia; try apply N.ltb_irrefl) [] (lay_terms 0 ts) post) as (raw & E & P & _).
  cbn [app length Nat.add] in E. rewrite lay_terms_length in E.
  exists raw. split; [exact E|]. split; [exact P|]. intros ri.
  destruct (sort_map (sterm_at (all_inds (all_mons ts) ++ ri) (lay_mons 0 (all_mons ts))) (fun _ => True)
     (fun a b => Ok (term_lt a b)) t_lt [] (lay_terms 0 ts) post) as [(s' & E1 & _ & E2)|(e & E1 & _)].
  - reflexivity.
  - apply Forall_forall. auto.
  - cbn [app length Nat.add] in E1. rewrite lay_terms_length in E1, E2. rewrite E in E1. injection E1 as E1.
    rewrite F in E2. rewrite E2. apply app_inv_tail in E1. now subst.
  - cbn [app length Nat.add] in E1. rewrite lay_terms_length in E1. congruence.
Qed.

Lemma sort_collate_eq md c ts ri post : tilen ts <= ci c -> tmlen ts <= cm c -> length ts <= ct c ->
  rr (fun z t => packed z t /\ same_caps z c)
    (ts' <- sort_range (fun a b => Ok (term_lt a b)) (lay_terms 0 ts ++ post) 0 (length ts);;
     ts'' <- slice ts' 0 (length ts);;
     collate md c ts'' (lay_mons 0 (all_mons ts)) (all_inds (all_mons ts) ++ ri))
    (s_sort_collate md ts).
Proof.
  intros C1 C2 C3. destruct (sort_terms ts post) as (raw & E & P & H). rewrite E. cbn [bind].
  assert (L : length raw = length ts) by (rewrite <- (Permutation_length P); apply lay_terms_length).
  replace (slice (raw ++ post) 0 (length ts)) with (Ok raw)
    by (symmetry; rewrite <- L; apply (slice_app [] raw post)).
  cbn [bind]. unfold s_sort_collate. rewrite (H ri). cbn [bind]. rewrite <- L.
  set (f := sterm_at (all_inds (all_mons ts) ++ ri) (lay_mons 0 (all_mons ts))).
  assert (PT : Permutation ts (map f raw)).
  { rewrite <- P. unfold f. pose proof (sterm_at_lay ts [] ri [] []) as F. cbn [app length] in F.
    rewrite app_nil_r in F. now rewrite F. }
  apply collate_eq.
  - apply (in_inds_lay (all_mons ts) [] ri).
  - eapply Permutation_Forall; [exact P|]. apply (in_mons_lay ts []).
  - fold f. replace (tmlen (map f raw)) with (tmlen ts); [assumption|].
    unfold tmlen, all_mons. apply Permutation_length, Permutation_flat_map, PT.
  - fold f. replace (tilen (map f raw)) with (tilen ts); [assumption|].
    unfold tilen, ilen, all_inds, all_mons. apply Permutation_length.
    apply Permutation_flat_map, Permutation_flat_map, PT.
  - lia.
Qed.

Section Mode.
Variable md : mode.

(** ** products of monomials *)
Fixpoint s_rest (deg : rat) (l : list ind) : res rat :=
  match l with [] => Ok deg | x :: l' => deg' <- radd_assign deg (ideg x);; s_rest deg' l' end.
Fixpoint s_minds (ls : list ind) : list ind -> rat -> res (list ind * rat) :=
  fix go (rs : list ind) (deg : rat) : res (list ind * rat) :=
    match ls, rs with
    | [], _ => d <- s_rest deg rs;; Ok (rs, d)
    | _, [] => d <- s_rest deg ls;; Ok (ls, d)
    | l :: ls', r :: rs' =>
      if (id l =? id r)%N then
        nd <- radd md (ideg l) (ideg r);;
        deg' <- radd_assign deg nd;;
        ' (t, d) <- s_minds ls' rs' deg';;
        Ok (if rne_int nd 0 then mkind (id l) nd :: t else t, d)
      else if (id l <? id r)%N then
        deg' <- radd_assign deg (ideg l);; ' (t, d) <- s_minds ls' rs deg';; Ok (l :: t, d)
      else
        deg' <- radd_assign deg (ideg r);; ' (t, d) <- go rs' deg';; Ok (r :: t, d)
    end.
Lemma s_minds_cons l ls r rs deg : s_minds (l :: ls) (r :: rs) deg =
      (if (id l =? id r)%N then
        nd <- radd md (ideg l) (ideg r);;
        deg' <- radd_assign deg nd;;
        ' (t, d) <- s_minds ls rs deg';;
        Ok (if rne_int nd 0 then mkind (id l) nd :: t else t, d)
      else if (id l <? id r)%N then
        deg' <- radd_assign deg (ideg l);; ' (t, d) <- s_minds ls (r :: rs) deg';; Ok (l :: t, d)
      else
        deg' <- radd_assign deg (ideg r);; ' (t, d) <- s_minds (l :: ls) rs deg';; Ok (r :: t, d)).
Proof. reflexivity. Qed.
Lemma s_minds_nil_l rs deg : s_minds [] rs deg = (d <- s_rest deg rs;; Ok (rs, d)).
Proof. destruct rs; reflexivity. Qed.
Lemma s_minds_nil_r ls deg : s_minds ls [] deg = (d <- s_rest deg ls;; Ok (ls, d)).
Proof. destruct ls; reflexivity. Qed.
Lemma merge_inds_cons c l ls r rs w deg : merge_inds md c (l :: ls) (r :: rs) w deg =
      (if (id l =? id r)%N then
        nd <- radd md (ideg l) (ideg r);;
        deg' <- radd_assign deg nd;;
        w' <- (if rne_int nd 0 then put_ind c w (mkind (id l) nd) else Ok w);;
        merge_inds md c ls rs w' deg'
      else if (id l <? id r)%N then
        w' <- put_ind c w l;; deg' <- radd_assign deg (ideg l);; merge_inds md c ls (r :: rs) w' deg'
      else
        w' <- put_ind c w r;; deg' <- radd_assign deg (ideg r);; merge_inds md c (l :: ls) rs w' deg').
Proof. reflexivity. Qed.
Lemma merge_inds_nil_l c rs w deg : merge_inds md c [] rs w deg = rest_inds c w deg rs.
Proof. destruct rs; reflexivity. Qed.
Lemma merge_inds_nil_r c ls w deg : merge_inds md c ls [] w deg = rest_inds c w deg ls.
Proof. destruct ls; reflexivity. Qed.

Definition ext_i (w : wr) (l : list ind) : wr := mkwr (wi w ++ l) (wm w) (wt w).
Lemma ext_i_app w a b : ext_i (ext_i w a) b = ext_i w (a ++ b).
Proof. unfold ext_i. cbn. now rewrite app_assoc. Qed.
Lemma ext_i_nil w : ext_i w [] = w.
Proof. destruct w. unfold ext_i. cbn. now rewrite app_nil_r. Qed.
Lemma put_ind_i c w x : length (wi w) < ci c -> put_ind c w x = Ok (ext_i w [x]).
Proof. intros H. unfold put_ind. rewrite app1_ok by lia. reflexivity. Qed.
Lemma rest_inds_eq c l : forall w deg, length (wi w) + length l <= ci c ->
  rest_inds c w deg l = (d <- s_rest deg l;; Ok (ext_i w l, d)).
Proof.
  induction l as [|x l IH]; intros w deg H; cbn [rest_inds s_rest].
  - cbn. now rewrite ext_i_nil.
  - cbn [length] in H. destruct (radd_assign deg (ideg x)) as [d|]; cbn [bind]; [|reflexivity].
    rewrite put_ind_i by lia. cbn [bind]. rewrite IH by (cbn; rewrite app_length; cbn; lia).
    dsub; cbn [bind]; [now rewrite ext_i_app|reflexivity].
Qed.
Lemma merge_inds_eq c ls rs : forall w deg, length (wi w) + length ls + length rs <= ci c ->
  merge_inds md c ls rs w deg = (' (l, d) <- s_minds ls rs deg;; Ok (ext_i w l, d)).
Proof.
  revert ls rs. apply (merge_ind (fun ls rs => forall w deg, length (wi w) + length ls + length rs <= ci c ->
    merge_inds md c ls rs w deg = (' (l, d) <- s_minds ls rs deg;; Ok (ext_i w l, d)))).
  - intros rs w deg H. rewrite merge_inds_nil_l, s_minds_nil_l, rest_inds_eq by (cbn in H; lia).
    destruct (s_rest deg rs); reflexivity.
  - intros ls w deg H. rewrite merge_inds_nil_r, s_minds_nil_r, rest_inds_eq by (cbn in H; lia).
    destruct (s_rest deg ls); reflexivity.
  - intros l ls r rs I1 I2 I3 w deg H. rewrite merge_inds_cons, s_minds_cons. cbn [length] in H.
    destruct (id l =? id r)%N; [|destruct (id l <? id r)%N].
    + destruct (radd md (ideg l) (ideg r)) as [nd|]; cbn [bind]; [|reflexivity].
      destruct (radd_assign deg nd) as [d|]; cbn [bind]; [|reflexivity].
      destruct (rne_int nd 0).
      * rewrite put_ind_i by lia. cbn [bind]. rewrite I3 by (cbn; rewrite app_length; cbn; lia).
        dsub; cbn [bind]; [|reflexivity]. destruct a. cbn. now rewrite ext_i_app.
      * cbn [bind]. rewrite I3 by lia. dsub; cbn [bind]; [|reflexivity]. now destruct a.
    + rewrite put_ind_i by lia. cbn [bind]. destruct (radd_assign deg (ideg l)) as [d|]; cbn [bind]; [|reflexivity].
      rewrite I1 by (cbn; rewrite app_length; cbn; lia).
      dsub; cbn [bind]; [|reflexivity]. destruct a. cbn. now rewrite ext_i_app.
    + rewrite put_ind_i by lia. cbn [bind]. destruct (radd_assign deg (ideg r)) as [d|]; cbn [bind]; [|reflexivity].
      rewrite I2 by (cbn; rewrite app_length; cbn; lia).
      dsub; cbn [bind]; [|reflexivity]. destruct a. cbn. now rewrite ext_i_app.
Qed.
Lemma s_minds_length ls rs : forall deg l d, s_minds ls rs deg = Ok (l, d) -> length l <= length ls + length rs.
Proof.
  revert ls rs. apply (merge_ind (fun ls rs => forall deg l d, s_minds ls rs deg = Ok (l, d) -> length l <= length ls + length rs)).
  - intros rs deg l d. rewrite s_minds_nil_l. destruct (s_rest deg rs); cbn; [|discriminate]. intros E; injection E as <- _. lia.
  - intros ls deg l d. rewrite s_minds_nil_r. destruct (s_rest deg ls); cbn; [|discriminate]. intros E; injection E as <- _. lia.
  - intros l ls r rs I1 I2 I3 deg t d H. rewrite s_minds_cons in H.
    destruct (id l =? id r)%N; [|destruct (id l <? id r)%N]; repeat (minv H).
    + destruct v1 as [u e]. injection H as <- _. apply I3 in E1. destruct (rne_int v 0); cbn [length]; lia.
    + destruct v0 as [u e]. injection H as <- _. apply I1 in E0. cbn [length] in *. lia.
    + destruct v0 as [u e]. injection H as <- _. apply I2 in E0. cbn [length] in *. lia.
Qed.

Definition s_pmon (mult : Z) (l r : smon) : res smon :=
  ' (t, deg) <- s_minds (sinds l) (sinds r) zero;;
  a <- rscale_int mult (sq l);;
  q <- rmul md a (sq r);;
  Ok (mks q deg t).
Lemma prod_mon_eq c mult w l r nt : room c w (length (snd l) + length (snd r)) 1 nt ->
  prod_mon md c mult w l r = (m <- s_pmon mult (smon_of l) (smon_of r);; Ok (ext w [m])).
Proof.
  intros (A & B & C). unfold prod_mon, s_pmon. cbn [sinds smon_of]. rewrite merge_inds_eq by lia.
  destruct (s_minds (snd l) (snd r) zero) as [[t deg]|] eqn:E; cbn [bind]; [|reflexivity].
  apply s_minds_length in E. cbn [sq smon_of]. destruct (rscale_int mult (mq (fst l))) as [a|]; cbn [bind]; [|reflexivity].
  destruct (rmul md a (mq (fst r))) as [q|]; cbn [bind]; [|reflexivity].
  unfold put_mon. cbn [ext_i wm wi]. rewrite app1_ok by lia. cbn [bind]. unfold ext. cbn. rewrite app_nil_r, app_length.
  repeat f_equal. lia.
Qed.
Fixpoint s_prow (mult : Z) (l : smon) (rs : list smon) : res (list smon) :=
  match rs with [] => Ok [] | r :: rs' => m <- s_pmon mult l r;; t <- s_prow mult l rs';; Ok (m :: t) end.
Fixpoint s_pmons (mult : Z) (ls rs : list smon) : res (list smon) :=
  match ls with [] => Ok [] | l :: ls' => a <- s_prow mult l rs;; t <- s_pmons mult ls' rs;; Ok (a ++ t) end.
Lemma s_pmon_size mult l r m : s_pmon mult l r = Ok m -> length (sinds m) <= length (sinds l) + length (sinds r).
Proof.
  unfold s_pmon. intros H. minv H. destruct v as [t deg]. repeat minv H. injection H as <-. cbn.
  eapply s_minds_length; eauto.
Qed.
Lemma s_prow_size mult l rs : forall t, s_prow mult l rs = Ok t ->
  length t = length rs /\ ilen t <= length rs * length (sinds l) + ilen rs.
Proof.
  induction rs as [|r rs IH]; cbn [s_prow]; intros t H.
  - injection H as <-. cbn. lia.
  - repeat minv H. injection H as <-. apply s_pmon_size in E. specialize (IH _ E0). rewrite !ilen_cons. cbn [length]. lia.
Qed.
Lemma prod_mon_row_eq c mult l rs nt : forall w, Forall vmon_ok rs ->
  room c w (length rs * length (snd l) + ilen (map smon_of rs)) (length rs) nt ->
  prod_mon_row md c mult w l rs = (t <- s_prow mult (smon_of l) (map smon_of rs);; Ok (ext w t)).
Proof.
  induction rs as [|r rs IH]; intros w V R0; cbn [prod_mon_row s_prow map].
  - cbn. now rewrite ext_nil.
  - inversion_clear V as [|? ? V1 V2]. cbn [map] in R0. rewrite ilen_cons in R0. cbn [length sinds smon_of] in R0.
    rewrite (prod_mon_eq c mult w l r nt) by (apply (room_le _ _ _ _ _ _ _ _ R0); lia).
    destruct (s_pmon mult (smon_of l) (smon_of r)) as [m|] eqn:E; cbn [bind]; [|reflexivity].
    apply s_pmon_size in E. cbn [sinds smon_of] in E.
    rewrite IH; auto.
    2:{ apply room_ext. rewrite ilen_cons. cbn [length]. apply (room_le _ _ _ _ _ _ _ _ R0); cbn; lia. }
    dsub; cbn [bind]; [now rewrite ext_app|reflexivity].
Qed.
Lemma s_pmons_size mult ls rs : forall t, s_pmons mult ls rs = Ok t ->
  length t = length ls * length rs /\ ilen t <= length rs * ilen ls + length ls * ilen rs.
Proof.
  induction ls as [|l ls IH]; cbn [s_pmons]; intros t H.
  - injection H as <-. cbn. lia.
  - repeat minv H. injection H as <-. apply s_prow_size in E. specialize (IH _ E0).
    rewrite app_length, ilen_app, ilen_cons. cbn [length]. lia.
Qed.
Lemma prod_mons_eq c mult ls rs nt : forall w, Forall vmon_ok rs ->
  room c w (length rs * ilen (map smon_of ls) + length ls * ilen (map smon_of rs)) (length ls * length rs) nt ->
  prod_mons md c mult w ls rs = (t <- s_pmons mult (map smon_of ls) (map smon_of rs);; Ok (ext w t)).
Proof.
  induction ls as [|l ls IH]; intros w V R0; cbn [prod_mons s_pmons map].
  - cbn. now rewrite ext_nil.
  - cbn [map] in R0. rewrite ilen_cons in R0. cbn [length sinds smon_of] in R0.
    rewrite (prod_mon_row_eq c mult l rs nt) by (first [assumption|apply (room_le _ _ _ _ _ _ _ _ R0); lia]).
    destruct (s_prow mult (smon_of l) (map smon_of rs)) as [a|] eqn:E; cbn [bind]; [|reflexivity].
    apply s_prow_size in E. rewrite map_length in E. cbn [sinds smon_of] in E.
    rewrite IH; auto.
    2:{ apply room_ext. apply (room_le _ _ _ _ _ _ _ _ R0); lia. }
    dsub; cbn [bind]; [now rewrite ext_app|reflexivity].
Qed.

Section Prod.
Variable P : N -> N -> N * Z.
Definition s_pterm (l r : sterm) : res (list sterm) :=
  let '(e, mult) := P (fst l) (fst r) in
  if (mult =? 0)%Z then Ok []
  else m <- s_pmons mult (snd l) (snd r);; Ok [(e, m)].
Fixpoint s_ptrow (l : sterm) (rs : list sterm) : res (list sterm) :=
  match rs with [] => Ok [] | r :: rs' => a <- s_pterm l r;; t <- s_ptrow l rs';; Ok (a ++ t) end.
Fixpoint s_pterms (ls rs : list sterm) : res (list sterm) :=
  match ls with [] => Ok [] | l :: ls' => a <- s_ptrow l rs;; t <- s_pterms ls' rs;; Ok (a ++ t) end.
Lemma s_pterm_size l r t : s_pterm l r = Ok t ->
  length t <= 1 /\ tmlen t <= length (snd l) * length (snd r) /\
  tilen t <= length (snd r) * ilen (snd l) + length (snd l) * ilen (snd r).
Proof.
  unfold s_pterm. destruct (P (fst l) (fst r)) as [e mult]. destruct (mult =? 0)%Z; intros H.
  - injection H as <-. cbn. lia.
  - minv H. injection H as <-. apply s_pmons_size in E. rewrite tmlen_cons, tilen_cons. cbn [snd length].
    change (tmlen []) with 0. change (tilen []) with 0. lia.
Qed.
Lemma prod_term_eq c w l r : vterm_ok r ->
  room c w (length (snd r) * ilen (map smon_of (snd l)) + length (snd l) * ilen (map smon_of (snd r)))
           (length (snd l) * length (snd r)) 1 ->
  prod_term md P c w l r = (t <- s_pterm (sterm_of l) (sterm_of r);; Ok (ext_t w t)).
Proof.
  intros [_ V] R0. unfold prod_term, s_pterm. cbn [fst sterm_of]. destruct (P (elem (fst l)) (elem (fst r))) as [e mult].
  destruct (mult =? 0)%Z; [cbn; now rewrite ext_t_nil|].
  rewrite (prod_mons_eq c mult (snd l) (snd r) 1) by (first [exact V|exact R0]). cbn [snd sterm_of].
  destruct (s_pmons mult (map smon_of (snd l)) (map smon_of (snd r))) as [m|] eqn:E; cbn [bind]; [|reflexivity].
  apply s_pmons_size in E. rewrite !map_length in E.
  apply (put_term_close c w m e 0).
  - apply room_ext. apply (room_le _ _ _ _ _ _ _ _ R0); lia.
  - unfold ext. cbn. rewrite app_length, lay_mons_length. lia.
  - reflexivity.
Qed.
Lemma s_ptrow_size l rs : forall t, s_ptrow l rs = Ok t ->
  length t <= length rs /\ tmlen t <= length (snd l) * tmlen rs /\
  tilen t <= tmlen rs * ilen (snd l) + length (snd l) * tilen rs.
Proof.
  induction rs as [|r rs IH]; cbn [s_ptrow]; intros t H.
  - injection H as <-. cbn. lia.
  - repeat minv H. injection H as <-. apply s_pterm_size in E. specialize (IH _ E0).
    rewrite app_length, tmlen_app, tilen_app, tmlen_cons, tilen_cons. cbn [length]. lia.
Qed.
Lemma prod_term_row_eq c l rs : forall w, Forall vterm_ok rs ->
  room c w (tmlen (map sterm_of rs) * ilen (map smon_of (snd l)) + length (snd l) * tilen (map sterm_of rs))
           (length (snd l) * tmlen (map sterm_of rs)) (length rs) ->
  prod_term_row md P c w l rs = (t <- s_ptrow (sterm_of l) (map sterm_of rs);; Ok (ext_t w t)).
Proof.
  induction rs as [|r rs IH]; intros w V R0; cbn [prod_term_row s_ptrow map].
  - cbn. now rewrite ext_t_nil.
  - inversion_clear V as [|? ? V1 V2]. cbn [map] in R0. rewrite tilen_cons, tmlen_cons in R0.
    cbn [length snd sterm_of] in R0. rewrite map_length in R0.
    rewrite prod_term_eq by (first [exact V1|apply (room_le _ _ _ _ _ _ _ _ R0); lia]).
    destruct (s_pterm (sterm_of l) (sterm_of r)) as [a|] eqn:E; cbn [bind]; [|reflexivity].
    apply s_pterm_size in E. cbn [snd sterm_of] in E. rewrite !map_length in E.
    rewrite IH; auto.
    2:{ apply room_ext_t. fold (tmlen a). fold (tilen a). apply (room_le _ _ _ _ _ _ _ _ R0); lia. }
    dsub; cbn [bind]; [now rewrite ext_t_app|reflexivity].
Qed.
Lemma s_pterms_size ls rs : forall t, s_pterms ls rs = Ok t ->
  length t <= length ls * length rs /\ tmlen t <= tmlen ls * tmlen rs /\
  tilen t <= tmlen rs * tilen ls + tmlen ls * tilen rs.
Proof.
  induction ls as [|l ls IH]; cbn [s_pterms]; intros t H.
  - injection H as <-. cbn. lia.
  - repeat minv H. injection H as <-. apply s_ptrow_size in E. specialize (IH _ E0).
    rewrite app_length, tmlen_app, tilen_app, tmlen_cons, tilen_cons. cbn [length]. lia.
Qed.
Lemma prod_terms_eq c ls rs : forall w, Forall vterm_ok rs ->
  room c w (tmlen (map sterm_of rs) * tilen (map sterm_of ls) + tmlen (map sterm_of ls) * tilen (map sterm_of rs))
           (tmlen (map sterm_of ls) * tmlen (map sterm_of rs)) (length ls * length rs) ->
  prod_terms md P c w ls rs = (t <- s_pterms (map sterm_of ls) (map sterm_of rs);; Ok (ext_t w t)).
Proof.
  induction ls as [|l ls IH]; intros w V R0; cbn [prod_terms s_pterms map].
  - cbn. now rewrite ext_t_nil.
  - cbn [map] in R0. rewrite tilen_cons, tmlen_cons in R0.
    cbn [length snd sterm_of] in R0. rewrite map_length in R0.
    rewrite prod_term_row_eq by (first [exact V|apply (room_le _ _ _ _ _ _ _ _ R0); lia]).
    destruct (s_ptrow (sterm_of l) (map sterm_of rs)) as [a|] eqn:E; cbn [bind]; [|reflexivity].
    apply s_ptrow_size in E. cbn [snd sterm_of] in E. rewrite !map_length in E.
    rewrite IH; auto.
    2:{ apply room_ext_t. fold (tmlen a). fold (tilen a). apply (room_le _ _ _ _ _ _ _ _ R0); lia. }
    dsub; cbn [bind]; [now rewrite ext_t_app|reflexivity].
Qed.

Definition s_product (tx ty : list sterm) : res (list sterm) :=
  ts <- s_pterms tx ty;; s_sort_collate md ts.
Lemma slice_all {A} (l : list A) : slice l 0 (length l) = Ok l.
Proof. unfold slice. cbn. rewrite Nat.leb_refl. cbn. now rewrite firstn_all. Qed.
Lemma product_eq x y tx ty : packed x tx -> packed y ty ->
  rr (fun z t => packed z t /\ same_caps z (prod_caps x y)) (product md P x y) (s_product tx ty).
Proof.
  intros X Y. pose proof (packed_caps _ _ X) as (A1 & A2 & A3). pose proof (packed_caps _ _ Y) as (B1 & B2 & B3).
  unfold product, s_product. rewrite (packed_read _ _ X), (packed_read _ _ Y). cbn [bind].
  fold (ilen (all_mons tx)) (ilen (all_mons ty)) in A1, B1. fold (tilen tx) (tilen ty) in A1, B1.
  fold (tmlen tx) (tmlen ty) in A2, B2.
  rewrite prod_terms_eq; auto using view_terms_ok.
  2:{ rewrite !view_terms_sterm, !view_terms_length. unfold room. cbn.
      repeat split; try apply Nat.mul_le_mono; try assumption.
      rewrite Nat.add_comm, (Nat.mul_comm (tmlen ty)). apply Nat.add_le_mono; [now apply Nat.mul_le_mono|].
      rewrite Nat.mul_comm. now apply Nat.mul_le_mono. }
  rewrite !view_terms_sterm. destruct (s_pterms tx ty) as [ts|] eqn:E; cbn [bind]; [|reflexivity].
  apply s_pterms_size in E as (S1 & S2 & S3).
  pose proof (sort_collate_eq md (prod_caps x y) ts [] []) as SC. rewrite !app_nil_r in SC.
  cbn [ext_t wr0 wt wm wi app length] in *. rewrite lay_terms_length.
  assert (G : forall r, sort_range (fun a b => Ok (term_lt a b)) (lay_terms 0 ts) 0 (length ts) = Ok r ->
              slice r 0 (length ts) = Ok r).
  { intros r Er. destruct (sort_terms ts []) as (raw & Er' & PM & _). rewrite !app_nil_r in Er'.
    rewrite Er in Er'. injection Er' as ->. rewrite <- (lay_terms_length ts 0), (Permutation_length PM). apply slice_all. }
  destruct (sort_range _ (lay_terms 0 ts) 0 (length ts)) as [r|] eqn:Er; cbn [bind] in *.
  - rewrite (G r eq_refl) in SC. cbn [bind] in SC. apply SC; cbn.
    + transitivity (tmlen ty * tilen tx + tmlen tx * tilen ty); [assumption|].
      rewrite Nat.add_comm. apply Nat.add_le_mono; now apply Nat.mul_le_mono.
    + transitivity (tmlen tx * tmlen ty); [assumption|]. now apply Nat.mul_le_mono.
    + transitivity (length tx * length ty); [assumption|]. now apply Nat.mul_le_mono.
  - destruct (sort_terms ts []) as (raw & Er' & _). rewrite !app_nil_r in Er'. congruence.
Qed.
End Prod.
End Mode.
