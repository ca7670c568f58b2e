(** Reading and writing the flat arrays in terms of the structured form. *)
From Coq Require Import ZArith NArith List Bool Arith Lia.
From Verif Require Import Base Model_Numeric Model_MV Spec_MV.
Import ListNotations.
Local Open Scope nat_scope.

(** ** structured view of what iteration delivers *)
Definition smon_of (v : vmon) : smon := mks (mq (fst v)) (mdeg (fst v)) (snd v).
Definition sterm_of (v : vterm) : sterm := (elem (fst v), map smon_of (snd v)).
Definition vmon_ok (v : vmon) : Prop := mcount (fst v) = length (snd v).
Definition vterm_ok (v : vterm) : Prop := tcount (fst v) = length (snd v) /\ Forall vmon_ok (snd v).
(** the structured form of a flat multivector *)
Definition decode (x : mv) : res (list sterm) := l <- read x;; Ok (map sterm_of l).

Lemma slice_length {A} (l : list A) o n s : slice l o n = Ok s -> length s = n.
Proof.
  unfold slice. destruct (Nat.leb_spec (o + n) (length l)); [|discriminate].
  intros E. injection E as <-. rewrite firstn_length, skipn_length. lia.
Qed.
Lemma slice_app {A} (p s q : list A) : slice (p ++ s ++ q) (length p) (length s) = Ok s.
Proof.
  unfold slice. rewrite !app_length.
  replace (length p + length s <=? length p + (length s + length q)) with true
    by (symmetry; apply Nat.leb_le; lia).
  rewrite skipn_app, skipn_all, Nat.sub_diag. cbn [app skipn].
  rewrite firstn_app, firstn_all, Nat.sub_diag. cbn [firstn]. now rewrite app_nil_r.
Qed.
Lemma mapM_ok {A B} (f : A -> res B) l r : mapM f l = Ok r -> Forall2 (fun a b => f a = Ok b) l r.
Proof.
  revert r; induction l as [|a l IH]; cbn; intros r H.
  - injection H as <-. constructor.
  - destruct (f a) eqn:E; [|discriminate]. cbn in H. destruct (mapM f l); [|discriminate].
    cbn in H. injection H as <-. constructor; auto.
Qed.
Lemma Forall2_len {A B} (R : A -> B -> Prop) l r : Forall2 R l r -> length l = length r.
Proof. induction 1; cbn; auto. Qed.
Lemma mapM_Forall2 {A B} (f : A -> res B) l r : Forall2 (fun a b => f a = Ok b) l r -> mapM f l = Ok r.
Proof. induction 1 as [|a b l r E _ IH]; cbn; [reflexivity|]. rewrite E. cbn. now rewrite IH. Qed.

Lemma read_mon_ok is m v : read_mon is m = Ok v -> vmon_ok v.
Proof.
  unfold read_mon. destruct (slice is (ioff m) (mcount m)) eqn:E; cbn; [|discriminate].
  intros H. injection H as <-. unfold vmon_ok. cbn. symmetry. eapply slice_length; eauto.
Qed.
Lemma read_ok x l : read x = Ok l -> Forall vterm_ok l.
Proof.
  unfold read. destruct (slice (terms x) 0 (tsz x)) as [ts|] eqn:E; cbn; [|discriminate].
  intros H. apply mapM_ok in H. clear E. induction H as [|t v ts l E _ IH]; constructor; [|assumption].
  unfold read_term in E. destruct (slice (mons x) (moff t) (tcount t)) eqn:S1; cbn in E; [|discriminate].
  destruct (mapM (read_mon (inds x)) a) eqn:M; cbn in E; [|discriminate]. injection E as <-.
  pose proof (slice_length _ _ _ _ S1). apply mapM_ok in M. split; cbn.
  - rewrite <- (Forall2_len _ _ _ M). auto.
  - clear - M. induction M as [|m v a a0 E _ IH]; constructor; eauto using read_mon_ok.
Qed.

(** ** layout lemmas *)
Lemma all_inds_app a b : all_inds (a ++ b) = all_inds a ++ all_inds b.
Proof. apply flat_map_app. Qed.
Lemma all_mons_app a b : all_mons (a ++ b) = all_mons a ++ all_mons b.
Proof. apply flat_map_app. Qed.
Lemma lay_mons_app a : forall o b, lay_mons o (a ++ b) = lay_mons o a ++ lay_mons (o + length (all_inds a)) b.
Proof.
  induction a as [|m a IH]; intros o b; cbn [app lay_mons all_inds flat_map].
  - now rewrite Nat.add_0_r.
  - rewrite IH. cbn. rewrite app_length. now rewrite Nat.add_assoc.
Qed.
Lemma lay_terms_app a : forall o b, lay_terms o (a ++ b) = lay_terms o a ++ lay_terms (o + length (all_mons a)) b.
Proof.
  induction a as [|m a IH]; intros o b; cbn [app lay_terms all_mons flat_map].
  - now rewrite Nat.add_0_r.
  - rewrite IH. cbn. rewrite app_length. now rewrite Nat.add_assoc.
Qed.
Lemma lay_mons_length ms : forall o, length (lay_mons o ms) = length ms.
Proof. induction ms; cbn; auto. Qed.
Lemma lay_terms_length ts : forall o, length (lay_terms o ts) = length ts.
Proof. induction ts; cbn; auto. Qed.

(** reading laid out monomials *)
Fixpoint view_mons (o : nat) (ms : list smon) : list vmon :=
  match ms with
  | [] => []
  | m :: ms' => (mkmon (sq m) (sdeg m) (length (sinds m)) o, sinds m) :: view_mons (o + length (sinds m)) ms'
  end.
Fixpoint view_terms (oi om : nat) (ts : list sterm) : list vterm :=
  match ts with
  | [] => []
  | t :: ts' => (mkterm (length (snd t)) om (fst t), view_mons oi (snd t)) ::
                view_terms (oi + length (all_inds (snd t))) (om + length (snd t)) ts'
  end.
Lemma view_mons_smon ms : forall o, map smon_of (view_mons o ms) = ms.
Proof. induction ms as [|[] ms IH]; cbn; intros; [reflexivity|]. now rewrite IH. Qed.
Lemma view_terms_sterm ts : forall a b, map sterm_of (view_terms a b ts) = ts.
Proof.
  induction ts as [|[] ts IH]; cbn; intros; [reflexivity|]. unfold sterm_of at 1. cbn.
  now rewrite view_mons_smon, IH.
Qed.
Lemma read_lay_mons ms : forall p q,
  mapM (read_mon (p ++ all_inds ms ++ q)) (lay_mons (length p) ms) = Ok (view_mons (length p) ms).
Proof.
  induction ms as [|m ms IH]; intros p q; [reflexivity|].
  change (all_inds (m :: ms)) with (sinds m ++ all_inds ms).
  cbn [lay_mons view_mons mapM]. unfold read_mon at 1. cbn [ioff mcount].
  rewrite <- app_assoc. rewrite slice_app. cbn [bind].
  specialize (IH (p ++ sinds m) q). rewrite <- app_assoc, app_length in IH. rewrite IH. reflexivity.
Qed.
Lemma read_lay_terms ts : forall pi qi pm qm,
  mapM (read_term (pi ++ all_inds (all_mons ts) ++ qi)
                  (pm ++ lay_mons (length pi) (all_mons ts) ++ qm)) (lay_terms (length pm) ts)
  = Ok (view_terms (length pi) (length pm) ts).
Proof.
  induction ts as [|[e l] ts IH]; intros pi qi pm qm; [reflexivity|].
  change (all_mons ((e, l) :: ts)) with (l ++ all_mons ts). rewrite all_inds_app, lay_mons_app.
  cbn [lay_terms view_terms mapM snd fst]. unfold read_term at 1. cbn [moff tcount].
  rewrite <- !app_assoc.
  replace (slice (pm ++ lay_mons (length pi) l ++ lay_mons (length pi + length (all_inds l)) (all_mons ts) ++ qm)
             (length pm) (length l)) with (Ok (lay_mons (length pi) l))
    by (rewrite <- (lay_mons_length l (length pi)); symmetry; apply slice_app).
  cbn [bind]. rewrite read_lay_mons. cbn [bind].
  specialize (IH (pi ++ all_inds l) qi (pm ++ lay_mons (length pi) l) qm).
  rewrite <- !app_assoc, !app_length, lay_mons_length in IH. rewrite IH. reflexivity.
Qed.
Lemma packed_read x ts : packed x ts -> read x = Ok (view_terms 0 0 ts).
Proof.
  intros [[ri Ei] [rm Em] [rt Et] _ _ Es]. unfold read. rewrite Es, Et.
  replace (slice (lay_terms 0 ts ++ rt) 0 (length ts)) with (Ok (lay_terms 0 ts)).
  2:{ symmetry. rewrite <- (lay_terms_length ts 0). apply (slice_app [] (lay_terms 0 ts) rt). }
  cbn [bind]. rewrite Ei, Em. apply (read_lay_terms ts [] ri [] rm).
Qed.
Lemma packed_decode x ts : packed x ts -> decode x = Ok ts.
Proof. intros H. unfold decode. rewrite (packed_read _ _ H). cbn. now rewrite view_terms_sterm. Qed.
Lemma packed_caps x ts : packed x ts ->
  length (all_inds (all_mons ts)) <= length (inds x) /\ length (all_mons ts) <= length (mons x) /\
  length ts <= length (terms x).
Proof.
  intros [[ri Ei] [rm Em] [rt Et] _ _ _]. rewrite Ei, Em, Et, !app_length, lay_mons_length, lay_terms_length.
  lia.
Qed.
Lemma packed_unique x ts ts' : packed x ts -> packed x ts' -> ts = ts'.
Proof. intros H H'. apply packed_decode in H, H'. congruence. Qed.

(** ** writing *)
Definition ext (w : wr) (ms : list smon) : wr :=
  mkwr (wi w ++ all_inds ms) (wm w ++ lay_mons (length (wi w)) ms) (wt w).
Definition ext_t (w : wr) (ts : list sterm) : wr :=
  mkwr (wi w ++ all_inds (all_mons ts)) (wm w ++ lay_mons (length (wi w)) (all_mons ts))
       (wt w ++ lay_terms (length (wm w)) ts).
Lemma ext_nil w : ext w [] = w.
Proof. destruct w. unfold ext. cbn. now rewrite !app_nil_r. Qed.
Lemma ext_t_nil w : ext_t w [] = w.
Proof. destruct w. unfold ext_t. cbn. now rewrite !app_nil_r. Qed.
Lemma ext_app w a b : ext (ext w a) b = ext w (a ++ b).
Proof.
  unfold ext. cbn. rewrite all_inds_app, lay_mons_app, app_length, !app_assoc. reflexivity.
Qed.
Lemma ext_t_app w a b : ext_t (ext_t w a) b = ext_t w (a ++ b).
Proof.
  unfold ext_t. cbn. rewrite all_mons_app, all_inds_app, lay_mons_app, lay_terms_app, !app_length,
    lay_mons_length, !app_assoc. reflexivity.
Qed.

(** capacity left for [ni] indeterminates, [nm] monomials and [nt] terms *)
Definition room (c : caps) (w : wr) (ni nm nt : nat) : Prop :=
  length (wi w) + ni <= ci c /\ length (wm w) + nm <= cm c /\ length (wt w) + nt <= ct c.
Lemma app1_ok {A} cap (l : list A) x : length l < cap -> app1 cap l x = Ok (l ++ [x]).
Proof. intros H. unfold app1. now apply Nat.ltb_lt in H as ->. Qed.
Lemma put_mon_ok c w m nm ni nt : room c w ni (S nm) nt -> put_mon c w m = Ok (mkwr (wi w) (wm w ++ [m]) (wt w)).
Proof. intros (A & B & C). unfold put_mon. rewrite app1_ok by lia. reflexivity. Qed.
Lemma put_term_ok c w t nm ni nt : room c w ni nm (S nt) -> put_term c w t = Ok (mkwr (wi w) (wm w) (wt w ++ [t])).
Proof. intros (A & B & C). unfold put_term. rewrite app1_ok by lia. reflexivity. Qed.
Lemma put_ind_ok c w t nm ni nt : room c w (S ni) nm nt -> put_ind c w t = Ok (mkwr (wi w ++ [t]) (wm w) (wt w)).
Proof. intros (A & B & C). unfold put_ind. rewrite app1_ok by lia. reflexivity. Qed.
Lemma put_inds_ok c l : forall w nm nt, room c w (length l) nm nt ->
  put_inds c w l = Ok (mkwr (wi w ++ l) (wm w) (wt w)).
Proof.
  induction l as [|x l IH]; intros w nm nt H; cbn [put_inds].
  - rewrite app_nil_r. now destruct w.
  - rewrite (put_ind_ok c w x nm (length l) nt) by exact H. cbn [bind].
    rewrite (IH _ nm nt). { cbn. now rewrite <- app_assoc. }
    destruct H as (A & B & C). repeat split; cbn in *; rewrite ?app_length; cbn; lia.
Qed.
Lemma copy_mon_ok c w v nt : vmon_ok v -> room c w (length (snd v)) 1 nt ->
  copy_mon c w v = Ok (ext w [smon_of v]).
Proof.
  intros V R0. unfold copy_mon. rewrite (put_mon_ok c w _ 0 (length (snd v)) nt) by exact R0. cbn [bind].
  destruct R0 as (A & B & C).
  rewrite (put_inds_ok c (snd v) _ 0 nt) by (repeat split; cbn; rewrite ?app_length; cbn; lia).
  cbn. unfold ext. cbn. rewrite V, app_nil_r. reflexivity.
Qed.
Definition ilen (ms : list smon) := length (all_inds ms).
Lemma ilen_cons m ms : ilen (m :: ms) = length (sinds m) + ilen ms.
Proof. unfold ilen. cbn. apply app_length. Qed.
Lemma ilen_app a b : ilen (a ++ b) = ilen a + ilen b.
Proof. unfold ilen. rewrite all_inds_app. apply app_length. Qed.
Lemma room_ext c w ms ni nm nt : room c w (ilen ms + ni) (length ms + nm) nt -> room c (ext w ms) ni nm nt.
Proof.
  unfold room, ext. cbn. rewrite !app_length, lay_mons_length. fold (ilen ms). intros; lia.
Qed.
Lemma room_ext_t c w ts ni nm nt :
  room c w (ilen (all_mons ts) + ni) (length (all_mons ts) + nm) (length ts + nt) ->
  room c (ext_t w ts) ni nm nt.
Proof.
  unfold room, ext_t. cbn. rewrite !app_length, lay_mons_length, lay_terms_length.
  fold (ilen (all_mons ts)). intros; lia.
Qed.
Lemma room_le c w ni nm nt ni' nm' nt' : room c w ni nm nt -> ni' <= ni -> nm' <= nm -> nt' <= nt ->
  room c w ni' nm' nt'.
Proof. unfold room. lia. Qed.
Lemma copy_mons_ok c vs : forall w nt, Forall vmon_ok vs ->
  room c w (ilen (map smon_of vs)) (length vs) nt ->
  copy_mons c w vs = Ok (ext w (map smon_of vs)).
Proof.
  induction vs as [|v vs IH]; intros w nt V R0; cbn [copy_mons map].
  - now rewrite ext_nil.
  - inversion_clear V as [|? ? V1 V2].
    cbn [map] in R0. rewrite ilen_cons in R0. cbn [length] in R0. cbn [sinds smon_of] in R0.
    rewrite (copy_mon_ok c w v nt) by (first [exact V1|apply (room_le _ _ _ _ _ _ _ _ R0); lia]). cbn [bind].
    rewrite (IH _ nt V2).
    + now rewrite ext_app.
    + apply room_ext. cbn. unfold ilen at 1. cbn. rewrite app_nil_r. exact R0.
Qed.
Lemma put_term_close c w l e nt n o : room c (ext w l) 0 0 (S nt) -> n = length l -> o = length (wm w) ->
  put_term c (ext w l) (mkterm n o e) = Ok (ext_t w [(e, l)]).
Proof.
  intros R0 -> ->. rewrite (put_term_ok c _ _ 0 0 nt R0). unfold ext, ext_t. cbn. now rewrite !app_nil_r.
Qed.
Definition tilen (ts : list sterm) := ilen (all_mons ts).
Definition tmlen (ts : list sterm) := length (all_mons ts).
Lemma tilen_cons t ts : tilen (t :: ts) = ilen (snd t) + tilen ts.
Proof. unfold tilen. cbn. apply ilen_app. Qed.
Lemma tmlen_cons t ts : tmlen (t :: ts) = length (snd t) + tmlen ts.
Proof. unfold tmlen. cbn. apply app_length. Qed.
Lemma tilen_app a b : tilen (a ++ b) = tilen a + tilen b.
Proof. unfold tilen. rewrite all_mons_app. apply ilen_app. Qed.
Lemma tmlen_app a b : tmlen (a ++ b) = tmlen a + tmlen b.
Proof. unfold tmlen. rewrite all_mons_app. apply app_length. Qed.
Lemma copy_term_ok c w v : vterm_ok v -> room c w (ilen (snd (sterm_of v))) (length (snd v)) 1 ->
  copy_term c w v = Ok (ext_t w [sterm_of v]).
Proof.
  intros [V1 V2] R0. unfold copy_term.
  rewrite (put_term_ok c w _ (length (snd v)) (ilen (snd (sterm_of v))) 0) by exact R0. cbn [bind].
  destruct R0 as (A & B & C).
  rewrite (copy_mons_ok c (snd v) _ 0) by (first [exact V2|repeat split; cbn [wi wm wt]; rewrite ?app_length; cbn [length]; change (map smon_of (snd v)) with (snd (sterm_of v)); lia]).
  unfold ext, ext_t. cbn. rewrite V1, !app_nil_r, map_length. reflexivity.
Qed.
Lemma copy_terms_ok c vs : forall w, Forall vterm_ok vs ->
  room c w (tilen (map sterm_of vs)) (tmlen (map sterm_of vs)) (length vs) ->
  copy_terms c w vs = Ok (ext_t w (map sterm_of vs)).
Proof.
  induction vs as [|v vs IH]; intros w V R0; cbn [copy_terms map].
  - now rewrite ext_t_nil.
  - inversion_clear V as [|? ? V1 V2].
    cbn [map] in R0. rewrite tilen_cons, tmlen_cons in R0. cbn [length] in R0.
    assert (L : length (snd (sterm_of v)) = length (snd v)) by apply map_length.
    rewrite copy_term_ok by (first [exact V1|apply (room_le _ _ _ _ _ _ _ _ R0); lia]). cbn [bind].
    rewrite IH; auto.
    + now rewrite ext_t_app.
    + apply room_ext_t. change (all_mons [sterm_of v]) with (snd (sterm_of v) ++ []). rewrite app_nil_r. exact R0.
Qed.

(** the finished multivector *)
Definition pack (c : caps) (ts : list sterm) : mv := finish c (ext_t wr0 ts).
Lemma pack_packed c ts : packed (pack c ts) ts.
Proof.
  unfold pack, finish, ext_t, fill. cbn. constructor; cbn; eauto.
  - apply lay_mons_length.
  - apply lay_terms_length.
Qed.
Lemma pack_caps c ts : tilen ts <= ci c -> tmlen ts <= cm c -> length ts <= ct c -> caps_of (pack c ts) = c.
Proof.
  intros A B C. destruct c. unfold caps_of, pack, finish, fill, ext_t. cbn in *.
  rewrite !app_length, !repeat_length, lay_mons_length, lay_terms_length. fold (tmlen ts). fold (ilen (all_mons ts)).
  fold (tilen ts). f_equal; lia.
Qed.
