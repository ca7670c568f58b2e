(** detail::sum computes on the structured form. *)
From Coq Require Import ZArith NArith List Bool Arith Lia.
From Verif Require Import Base Model_Numeric Model_MV Spec_MV Proof_Numeric Proof_Layout.
Import ListNotations.
Local Open Scope nat_scope.

Definition s_side (l r : smon) : res side :=
  if rne (sdeg l) (sdeg r) then
    lt <- rlt (sdeg l) (sdeg r);; Ok (if (lt : bool) then TakeL else TakeR)
  else lex_side (sinds l) (sinds r).
Lemma mon_side_s v w : mon_side v w = s_side (smon_of v) (smon_of w).
Proof. reflexivity. Qed.

Ltac dsub := match goal with |- bind ?x _ = _ => destruct x end.

Section Mode.
Variable md : mode.

Fixpoint ss_mons (ls : list smon) : list smon -> res (list smon) :=
  fix go (rs : list smon) : res (list smon) :=
    match ls, rs with
    | [], _ => Ok rs
    | _, [] => Ok ls
    | l :: ls', r :: rs' =>
      s <- s_side l r;;
      match s with
      | TakeL => t <- ss_mons ls' rs;; Ok (l :: t)
      | TakeR => t <- go rs';; Ok (r :: t)
      | Same =>
        q <- radd md (sq l) (sq r);;
        t <- ss_mons ls' rs';;
        Ok (if is_zero q then t else mks q (sdeg l) (sinds l) :: t)
      end
    end.
Lemma ss_mons_cons l ls r rs : ss_mons (l :: ls) (r :: rs) =
  (s <- s_side l r;;
      match s with
      | TakeL => t <- ss_mons ls (r :: rs);; Ok (l :: t)
      | TakeR => t <- ss_mons (l :: ls) rs;; Ok (r :: t)
      | Same =>
        q <- radd md (sq l) (sq r);;
        t <- ss_mons ls rs;;
        Ok (if is_zero q then t else mks q (sdeg l) (sinds l) :: t)
      end).
Proof. reflexivity. Qed.
Lemma ss_mons_nil_l rs : ss_mons [] rs = Ok rs.
Proof. destruct rs; reflexivity. Qed.
Lemma ss_mons_nil_r ls : ss_mons ls [] = Ok ls.
Proof. destruct ls; reflexivity. Qed.

(** induction principle following the merge *)
Lemma merge_ind {A B} (P : list A -> list B -> Prop) :
  (forall rs, P [] rs) -> (forall ls, P ls []) ->
  (forall l ls r rs, P ls (r :: rs) -> P (l :: ls) rs -> P ls rs -> P (l :: ls) (r :: rs)) ->
  forall ls rs, P ls rs.
Proof.
  intros H1 H2 H3. induction ls as [|l ls IH]; [auto|]. induction rs as [|r rs IHr]; auto.
Qed.

Lemma ss_mons_size ls rs : forall t, ss_mons ls rs = Ok t ->
  ilen t <= ilen ls + ilen rs /\ length t <= length ls + length rs.
Proof.
  revert ls rs. apply (merge_ind (fun ls rs => forall t, ss_mons ls rs = Ok t ->
     ilen t <= ilen ls + ilen rs /\ length t <= length ls + length rs)).
  - intros rs t. rewrite ss_mons_nil_l. intros E; injection E as <-. cbn. lia.
  - intros ls t. rewrite ss_mons_nil_r. intros E; injection E as <-. lia.
  - intros l ls r rs I1 I2 I3 t. rewrite ss_mons_cons. destruct (s_side l r) as [s|]; cbn [bind]; [|discriminate].
    destruct s.
    + destruct (ss_mons ls (r :: rs)) as [u|]; cbn [bind]; [|discriminate]. intros E; injection E as <-.
      specialize (I1 u eq_refl). rewrite !ilen_cons in *. cbn [length] in *. lia.
    + destruct (ss_mons (l :: ls) rs) as [u|]; cbn [bind]; [|discriminate]. intros E; injection E as <-.
      specialize (I2 u eq_refl). rewrite !ilen_cons in *. cbn [length] in *. lia.
    + destruct (radd md (sq l) (sq r)) as [q|]; cbn [bind]; [|discriminate].
      destruct (ss_mons ls rs) as [u|]; cbn [bind]; [|discriminate]. intros E; injection E as <-.
      specialize (I3 u eq_refl). destruct (is_zero q); rewrite !ilen_cons in *; cbn [length sinds] in *; lia.
Qed.

Lemma sum_mons_cons c l ls r rs w : sum_mons md c (l :: ls) (r :: rs) w =
  (s <- mon_side l r;;
      match s with
      | TakeL => w' <- copy_mon c w l;; sum_mons md c ls (r :: rs) w'
      | TakeR => w' <- copy_mon c w r;; sum_mons md c (l :: ls) rs w'
      | Same =>
        q <- radd md (mq (fst l)) (mq (fst r));;
        if is_zero q then sum_mons md c ls rs w
        else
          w1 <- put_mon c w (mkmon q (mdeg (fst l)) (mcount (fst l)) (length (wi w)));;
          w2 <- put_inds c w1 (snd l);;
          sum_mons md c ls rs w2
      end).
Proof. reflexivity. Qed.
Lemma sum_mons_nil_l c rs w : sum_mons md c [] rs w = copy_mons c w rs.
Proof. destruct rs; reflexivity. Qed.
Lemma sum_mons_nil_r c ls w : sum_mons md c ls [] w = copy_mons c w ls.
Proof. destruct ls; reflexivity. Qed.

Lemma put_q c w v q nt : vmon_ok v -> room c w (length (snd v)) 1 nt ->
  (w1 <- put_mon c w (mkmon q (mdeg (fst v)) (mcount (fst v)) (length (wi w)));; put_inds c w1 (snd v))
  = Ok (ext w [mks q (mdeg (fst v)) (snd v)]).
Proof. intros V R0. apply (copy_mon_ok c w (mkmon q (mdeg (fst v)) (mcount (fst v)) 0, snd v) nt V R0). Qed.

Lemma bind_assoc {A B C} (x : res A) (f : A -> res B) (g : B -> res C) :
  bind (bind x f) g = bind x (fun a => bind (f a) g).
Proof. destruct x; reflexivity. Qed.

Lemma sum_mons_eq c nt ls rs : forall w, Forall vmon_ok ls -> Forall vmon_ok rs ->
  room c w (ilen (map smon_of ls) + ilen (map smon_of rs)) (length ls + length rs) nt ->
  sum_mons md c ls rs w = (t <- ss_mons (map smon_of ls) (map smon_of rs);; Ok (ext w t)).
Proof.
  revert ls rs. apply (merge_ind (fun ls rs => forall w, Forall vmon_ok ls -> Forall vmon_ok rs ->
    room c w (ilen (map smon_of ls) + ilen (map smon_of rs)) (length ls + length rs) nt ->
    sum_mons md c ls rs w = (t <- ss_mons (map smon_of ls) (map smon_of rs);; Ok (ext w t)))).
  - intros rs w _ V R0. cbn [map]. rewrite sum_mons_nil_l, ss_mons_nil_l. cbn [bind].
    apply (copy_mons_ok c rs w nt V R0).
  - intros ls w V _ R0. cbn [map]. rewrite sum_mons_nil_r, ss_mons_nil_r. cbn [bind].
    apply (copy_mons_ok c ls w nt V). eapply room_le; [exact R0|cbn; lia..].
  - intros l ls r rs I1 I2 I3 w VL VR R0. cbn [map]. rewrite sum_mons_cons, ss_mons_cons, mon_side_s.
    destruct (s_side (smon_of l) (smon_of r)) as [s|]; cbn [bind]; [|reflexivity].
    inversion_clear VL as [|? ? VL1 VL2]. inversion_clear VR as [|? ? VR1 VR2].
    cbn [map] in R0. rewrite !ilen_cons in R0. cbn [length sinds smon_of] in R0.
    destruct s.
    + rewrite (copy_mon_ok c w l nt) by (first [exact VL1|apply (room_le _ _ _ _ _ _ _ _ R0); lia]). cbn [bind].
      rewrite I1; auto.
      2:{ apply room_ext. rewrite ilen_cons. cbn [map length smon_of sinds]. rewrite ilen_cons.
          apply (room_le _ _ _ _ _ _ _ _ R0); cbn; lia. }
      cbn [map]. dsub; cbn [bind]; [now rewrite ext_app|reflexivity].
    + rewrite (copy_mon_ok c w r nt) by (first [exact VR1|apply (room_le _ _ _ _ _ _ _ _ R0); lia]). cbn [bind].
      rewrite I2; auto.
      2:{ apply room_ext. rewrite ilen_cons. cbn [map length smon_of sinds]. rewrite ilen_cons.
          apply (room_le _ _ _ _ _ _ _ _ R0); cbn; lia. }
      cbn [map]. dsub; cbn [bind]; [now rewrite ext_app|reflexivity].
    + change (radd md (mq (fst l)) (mq (fst r))) with (radd md (sq (smon_of l)) (sq (smon_of r))).
      destruct (radd md (sq (smon_of l)) (sq (smon_of r))) as [q|]; cbn [bind]; [|reflexivity].
      destruct (is_zero q).
      * rewrite I3; auto. 2:{ apply (room_le _ _ _ _ _ _ _ _ R0); lia. }
        dsub; reflexivity.
      * rewrite <- bind_assoc.
        rewrite (put_q c w l q nt) by (first [exact VL1|apply (room_le _ _ _ _ _ _ _ _ R0); lia]). cbn [bind].
        rewrite I3; auto.
        2:{ apply room_ext. rewrite ilen_cons. cbn [length sinds].
            apply (room_le _ _ _ _ _ _ _ _ R0); cbn; lia. }
        dsub; cbn [bind]; [now rewrite ext_app|reflexivity].
Qed.

(** ** terms *)
Fixpoint ss_terms (ls : list sterm) : list sterm -> res (list sterm) :=
  fix go (rs : list sterm) : res (list sterm) :=
    match ls, rs with
    | [], _ => Ok rs
    | _, [] => Ok ls
    | l :: ls', r :: rs' =>
      if (fst r =? fst l)%N then
        m <- ss_mons (snd l) (snd r);;
        t <- ss_terms ls' rs';;
        Ok (match m with [] => t | _ => (fst l, m) :: t end)
      else if (fst l <? fst r)%N then t <- ss_terms ls' rs;; Ok (l :: t)
      else t <- go rs';; Ok (r :: t)
    end.
Lemma ss_terms_cons l ls r rs : ss_terms (l :: ls) (r :: rs) =
      (if (fst r =? fst l)%N then
        m <- ss_mons (snd l) (snd r);;
        t <- ss_terms ls rs;;
        Ok (match m with [] => t | _ => (fst l, m) :: t end)
      else if (fst l <? fst r)%N then t <- ss_terms ls (r :: rs);; Ok (l :: t)
      else t <- ss_terms (l :: ls) rs;; Ok (r :: t)).
Proof. reflexivity. Qed.
Lemma ss_terms_nil_l rs : ss_terms [] rs = Ok rs.
Proof. destruct rs; reflexivity. Qed.
Lemma ss_terms_nil_r ls : ss_terms ls [] = Ok ls.
Proof. destruct ls; reflexivity. Qed.
Lemma sum_terms_cons c l ls r rs w : sum_terms md c (l :: ls) (r :: rs) w =
      (if (elem (fst r) =? elem (fst l))%N then
        w1 <- sum_mons md c (snd l) (snd r) w;;
        w2 <- (if length (wm w1) - length (wm w) =? 0 then Ok w1
               else put_term c w1 (mkterm (length (wm w1) - length (wm w)) (length (wm w)) (elem (fst l))));;
        sum_terms md c ls rs w2
      else if (elem (fst l) <? elem (fst r))%N then
        w' <- copy_term_after c w l;; sum_terms md c ls (r :: rs) w'
      else
        w' <- copy_term_after c w r;; sum_terms md c (l :: ls) rs w').
Proof. reflexivity. Qed.
Lemma sum_terms_nil_l c rs w : sum_terms md c [] rs w = copy_terms c w rs.
Proof. destruct rs; reflexivity. Qed.
Lemma sum_terms_nil_r c ls w : sum_terms md c ls [] w = copy_terms c w ls.
Proof. destruct ls; reflexivity. Qed.

Lemma copy_term_after_ok c w v : vterm_ok v -> room c w (ilen (snd (sterm_of v))) (length (snd v)) 1 ->
  copy_term_after c w v = Ok (ext_t w [sterm_of v]).
Proof.
  intros [V1 V2] R0. unfold copy_term_after. rewrite (copy_mons_ok c (snd v) w 1 V2 R0). cbn [bind].
  apply (put_term_close c w (map smon_of (snd v)) (elem (fst v)) 0).
  - apply room_ext. rewrite map_length. apply (room_le _ _ _ _ _ _ _ _ R0); cbn [snd sterm_of]; lia.
  - now rewrite map_length.
  - reflexivity.
Qed.

Lemma sum_terms_eq c ls rs : forall w, Forall vterm_ok ls -> Forall vterm_ok rs ->
  room c w (tilen (map sterm_of ls) + tilen (map sterm_of rs)) (tmlen (map sterm_of ls) + tmlen (map sterm_of rs))
         (length ls + length rs) ->
  sum_terms md c ls rs w = (t <- ss_terms (map sterm_of ls) (map sterm_of rs);; Ok (ext_t w t)).
Proof.
  revert ls rs. apply (merge_ind (fun ls rs => forall w, Forall vterm_ok ls -> Forall vterm_ok rs ->
    room c w (tilen (map sterm_of ls) + tilen (map sterm_of rs)) (tmlen (map sterm_of ls) + tmlen (map sterm_of rs))
         (length ls + length rs) ->
    sum_terms md c ls rs w = (t <- ss_terms (map sterm_of ls) (map sterm_of rs);; Ok (ext_t w t)))).
  - intros rs w _ V R0. cbn [map]. rewrite sum_terms_nil_l, ss_terms_nil_l. cbn [bind].
    apply (copy_terms_ok c rs w V R0).
  - intros ls w V _ R0. cbn [map]. rewrite sum_terms_nil_r, ss_terms_nil_r. cbn [bind].
    apply (copy_terms_ok c ls w V). eapply room_le; [exact R0|cbn; lia..].
  - intros l ls r rs I1 I2 I3 w VL VR R0. cbn [map]. rewrite sum_terms_cons, ss_terms_cons.
    change (fst (sterm_of r)) with (elem (fst r)). change (fst (sterm_of l)) with (elem (fst l)).
    inversion_clear VL as [|? ? VL1 VL2]. inversion_clear VR as [|? ? VR1 VR2].
    cbn [map] in R0. rewrite !tilen_cons, !tmlen_cons in R0. cbn [length snd sterm_of] in R0. rewrite !map_length in R0.
    destruct (elem (fst r) =? elem (fst l))%N.
    + destruct VL1 as [_ VL1], VR1 as [_ VR1].
      rewrite (sum_mons_eq c 0 (snd l) (snd r) w VL1 VR1) by (apply (room_le _ _ _ _ _ _ _ _ R0); lia).
      change (snd (sterm_of l)) with (map smon_of (snd l)). change (snd (sterm_of r)) with (map smon_of (snd r)).
      destruct (ss_mons (map smon_of (snd l)) (map smon_of (snd r))) as [m|] eqn:E; cbn [bind]; [|reflexivity].
      assert (L : length (wm (ext w m)) - length (wm w) = length m).
      { unfold ext. cbn. rewrite app_length, lay_mons_length. lia. }
      rewrite L. destruct (ss_mons_size _ _ _ E) as [S1 S2]. rewrite !map_length in S2.
      destruct m as [|x m].
      * cbn [length Nat.eqb bind]. rewrite ext_nil. rewrite I3; auto.
        2:{ apply (room_le _ _ _ _ _ _ _ _ R0); lia. }
        dsub; reflexivity.
      * replace (length (x :: m) =? 0) with false by reflexivity.
        rewrite (put_term_close c w (x :: m) (elem (fst l)) 0); auto.
        2:{ apply room_ext. apply (room_le _ _ _ _ _ _ _ _ R0); lia. }
        cbn [bind]. rewrite I3; auto.
        2:{ apply room_ext_t. cbn [all_mons flat_map snd app]. rewrite app_nil_r.
            apply (room_le _ _ _ _ _ _ _ _ R0); cbn [length]; cbn [length] in S2; lia. }
        dsub; cbn [bind]; [now rewrite ext_t_app|reflexivity].
    + destruct (elem (fst l) <? elem (fst r))%N.
      * rewrite (copy_term_after_ok c w l VL1) by (apply (room_le _ _ _ _ _ _ _ _ R0); cbn [snd sterm_of]; lia).
        cbn [bind]. rewrite I1; auto.
        2:{ apply room_ext_t. cbn [all_mons flat_map]. rewrite app_nil_r. cbn [map]. rewrite !tilen_cons, !tmlen_cons.
            cbn [length snd sterm_of]. rewrite !map_length. apply (room_le _ _ _ _ _ _ _ _ R0); lia. }
        cbn [map]. dsub; cbn [bind]; [now rewrite ext_t_app|reflexivity].
      * rewrite (copy_term_after_ok c w r VR1) by (apply (room_le _ _ _ _ _ _ _ _ R0); cbn [snd sterm_of]; lia).
        cbn [bind]. rewrite I2; auto.
        2:{ apply room_ext_t. cbn [all_mons flat_map]. rewrite app_nil_r. cbn [map]. rewrite !tilen_cons, !tmlen_cons.
            cbn [length snd sterm_of]. rewrite !map_length. apply (room_le _ _ _ _ _ _ _ _ R0); lia. }
        cbn [map]. dsub; cbn [bind]; [now rewrite ext_t_app|reflexivity].
Qed.

Definition sum_caps (x y : mv) : caps :=
  mkcaps (length (inds x) + length (inds y)) (length (mons x) + length (mons y)) (length (terms x) + length (terms y)).
(** sum never leaves its arrays and computes the structured merge *)
Lemma view_mons_ok ms : forall o, Forall vmon_ok (view_mons o ms).
Proof. induction ms; cbn; intros; constructor; [reflexivity|auto]. Qed.
Lemma view_mons_length ms : forall o, length (view_mons o ms) = length ms.
Proof. induction ms; cbn; auto. Qed.
Lemma view_terms_ok ts : forall a b, Forall vterm_ok (view_terms a b ts).
Proof.
  induction ts; cbn; intros; constructor; [|auto]. split; cbn; [now rewrite view_mons_length|apply view_mons_ok].
Qed.
Lemma view_terms_length ts : forall a b, length (view_terms a b ts) = length ts.
Proof. induction ts; cbn; auto. Qed.
Lemma sum_eq x y tx ty : packed x tx -> packed y ty ->
  sum md x y = (t <- ss_terms tx ty;; Ok (pack (sum_caps x y) t)).
Proof.
  intros X Y. pose proof (packed_caps _ _ X) as (A1 & A2 & A3). pose proof (packed_caps _ _ Y) as (B1 & B2 & B3).
  unfold sum. rewrite (packed_read _ _ X), (packed_read _ _ Y). cbn [bind].
  rewrite sum_terms_eq; auto using view_terms_ok.
  - rewrite !view_terms_sterm. destruct (ss_terms tx ty); reflexivity.
  - rewrite !view_terms_sterm, !view_terms_length. unfold room, tilen, tmlen, ilen. cbn. lia.
Qed.
Lemma ss_terms_size ls rs : forall t, ss_terms ls rs = Ok t ->
  tilen t <= tilen ls + tilen rs /\ tmlen t <= tmlen ls + tmlen rs /\ length t <= length ls + length rs.
Proof.
  revert ls rs. apply (merge_ind (fun ls rs => forall t, ss_terms ls rs = Ok t ->
     tilen t <= tilen ls + tilen rs /\ tmlen t <= tmlen ls + tmlen rs /\ length t <= length ls + length rs)).
  - intros rs t. rewrite ss_terms_nil_l. intros E; injection E as <-. cbn. lia.
  - intros ls t. rewrite ss_terms_nil_r. intros E; injection E as <-. lia.
  - intros l ls r rs I1 I2 I3 t. rewrite ss_terms_cons. destruct (fst r =? fst l)%N; [|destruct (fst l <? fst r)%N].
    + destruct (ss_mons _ _) as [m|] eqn:M; cbn [bind]; [|discriminate]. apply ss_mons_size in M.
      destruct (ss_terms ls rs) as [u|]; cbn [bind]; [|discriminate]. intros E; injection E as <-.
      specialize (I3 u eq_refl). destruct m; rewrite !tilen_cons, !tmlen_cons in *; cbn [length snd] in *; lia.
    + destruct (ss_terms ls (r :: rs)) as [u|]; cbn [bind]; [|discriminate]. intros E; injection E as <-.
      specialize (I1 u eq_refl). rewrite !tilen_cons, !tmlen_cons in *. cbn [length] in *. lia.
    + destruct (ss_terms (l :: ls) rs) as [u|]; cbn [bind]; [|discriminate]. intros E; injection E as <-.
      specialize (I2 u eq_refl). rewrite !tilen_cons, !tmlen_cons in *. cbn [length] in *. lia.
Qed.
End Mode.
