(** The offset of a monomial without indeterminates does not matter: multivectors that differ only
    there are treated alike by every operation. *)
From Coq Require Import ZArith NArith List Bool Arith Lia Reals.
From Verif Require Import Spec_MV Spec_Expr Spec_Dfa Spec_Engine.
From Verif Require Import Base Model_Numeric Model_Blade Model_Sort Model_MV Model_Product Model_Expr Model_Dfa Model_Engine Proof_Layout Proof_Sum Proof_Safe Proof_Engine2.
Import ListNotations.
Local Open Scope nat_scope.

(** ** operations that read do not see offsets *)
Definition bare (v : vmon) : vmon := (mkmon (mq (fst v)) (mdeg (fst v)) (mcount (fst v)) 0, snd v).
Definition bares (t : vterm) : vterm := (fst t, map bare (snd t)).

Section Mode.
Variable md : mode.
Lemma copy_mons_bare c vs : forall w, copy_mons c w (map bare vs) = copy_mons c w vs.
Proof. induction vs as [|v vs IH]; intros w; cbn [map copy_mons]; [reflexivity|]. change (copy_mon c w (bare v)) with (copy_mon c w v). destruct (copy_mon c w v); cbn; auto. Qed.
Lemma copy_term_bare c w v : copy_term c w (bares v) = copy_term c w v.
Proof. unfold copy_term. cbn [bares fst snd]. destruct (put_term _ _ _); cbn; [|reflexivity]. apply copy_mons_bare. Qed.
Lemma copy_terms_bare c vs : forall w, copy_terms c w (map bares vs) = copy_terms c w vs.
Proof. induction vs as [|v vs IH]; intros w; cbn [map copy_terms]; [reflexivity|]. rewrite copy_term_bare. destruct (copy_term c w v); cbn; auto. Qed.
Lemma after_bare c w v : copy_term_after c w (bares v) = copy_term_after c w v.
Proof. unfold copy_term_after. cbn [bares fst snd]. now rewrite copy_mons_bare. Qed.
Lemma sum_mons_bare c ls rs : forall w, sum_mons md c (map bare ls) (map bare rs) w = sum_mons md c ls rs w.
Proof.
  revert ls rs. apply (merge_ind (fun ls rs => forall w, sum_mons md c (map bare ls) (map bare rs) w = sum_mons md c ls rs w)).
  - intros rs w. cbn [map]. rewrite !sum_mons_nil_l. apply copy_mons_bare.
  - intros ls w. cbn [map]. rewrite !sum_mons_nil_r. apply copy_mons_bare.
  - intros l ls r rs I1 I2 I3 w. cbn [map] in *. rewrite !sum_mons_cons. change (mon_side (bare l) (bare r)) with (mon_side l r).
    destruct (mon_side l r) as [[]|]; cbn [bind]; [| | |reflexivity].
    + change (copy_mon c w (bare l)) with (copy_mon c w l). destruct (copy_mon c w l); cbn [bind]; auto.
    + change (copy_mon c w (bare r)) with (copy_mon c w r). destruct (copy_mon c w r); cbn [bind]; auto.
    + cbn [bare fst snd mq mdeg mcount]. destruct (radd md (mq (fst l)) (mq (fst r))); cbn [bind]; [|reflexivity].
      destruct (is_zero a); [auto|]. destruct (put_mon _ _ _); cbn [bind]; [|reflexivity]. destruct (put_inds _ _ _); cbn [bind]; auto.
Qed.
Lemma sum_terms_bare c ls rs : forall w, sum_terms md c (map bares ls) (map bares rs) w = sum_terms md c ls rs w.
Proof.
  revert ls rs. apply (merge_ind (fun ls rs => forall w, sum_terms md c (map bares ls) (map bares rs) w = sum_terms md c ls rs w)).
  - intros rs w. cbn [map]. rewrite !sum_terms_nil_l. apply copy_terms_bare.
  - intros ls w. cbn [map]. rewrite !sum_terms_nil_r. apply copy_terms_bare.
  - intros l ls r rs I1 I2 I3 w. cbn [map] in *. rewrite !sum_terms_cons. rewrite !after_bare. cbn [bares fst snd]. rewrite sum_mons_bare.
    destruct (elem (fst r) =? elem (fst l))%N.
    + destruct (sum_mons _ _ _ _ _); cbn [bind]; [|reflexivity]. destruct (if _ =? 0 then _ else _); cbn [bind]; auto.
    + destruct (elem (fst l) <? elem (fst r))%N; destruct (copy_term_after _ _ _); cbn [bind]; auto.
Qed.
Lemma dual_mons_bare c p vs : forall w, dual_mons c p w (map bare vs) = dual_mons c p w vs.
Proof. induction vs as [|v vs IH]; intros w; cbn [map dual_mons]; [reflexivity|]. change (dual_mon c p w (bare v)) with (dual_mon c p w v). destruct (dual_mon c p w v); cbn; auto. Qed.
Lemma dual_terms_bare c n vs : forall w, dual_terms c n w (map bares vs) = dual_terms c n w vs.
Proof.
  induction vs as [|v vs IH]; intros w; cbn [map dual_terms]; [reflexivity|]. cbn [bares fst snd]. destruct (poincare_complement _ _) as [g p].
  destruct (put_term _ _ _); cbn [bind]; [|reflexivity]. rewrite dual_mons_bare. destruct (dual_mons _ _ _ _); cbn [bind]; auto.
Qed.
Lemma prod_mons_bare c k rs ls : forall w, prod_mons md c k w (map bare ls) (map bare rs) = prod_mons md c k w ls rs.
Proof.
  assert (A : forall l rs w, prod_mon_row md c k w (bare l) (map bare rs) = prod_mon_row md c k w l rs).
  { intros l rs'. induction rs' as [|r rs' IH]; intros w; cbn [map prod_mon_row]; [reflexivity|].
    change (prod_mon md c k w (bare l) (bare r)) with (prod_mon md c k w l r). destruct (prod_mon _ _ _ _ _ _); cbn [bind]; auto. }
  induction ls as [|l ls IH]; intros w; cbn [map prod_mons]; [reflexivity|]. rewrite A. destruct (prod_mon_row _ _ _ _ _ _); cbn [bind]; auto.
Qed.
Lemma prod_terms_bare P c rs ls : forall w, prod_terms md P c w (map bares ls) (map bares rs) = prod_terms md P c w ls rs.
Proof.
  assert (A : forall l rs w, prod_term_row md P c w (bares l) (map bares rs) = prod_term_row md P c w l rs).
  { intros l rs'. induction rs' as [|r rs' IH]; intros w; cbn [map prod_term_row]; [reflexivity|].
    replace (prod_term md P c w (bares l) (bares r)) with (prod_term md P c w l r).
    2:{ unfold prod_term. cbn [bares fst snd]. destruct (P _ _) as [e k]. now rewrite prod_mons_bare. }
    destruct (prod_term _ _ _ _ _ _); cbn [bind]; auto. }
  induction ls as [|l ls IH]; intros w; cbn [map prod_terms]; [reflexivity|]. rewrite A. destruct (prod_term_row _ _ _ _ _ _); cbn [bind]; auto.
Qed.
Lemma push_mons_bare c s vs : forall w, push_mons md c s w (map bare vs) = push_mons md c s w vs.
Proof. induction vs as [|v vs IH]; intros w; cbn [map push_mons]; [reflexivity|]. change (push_mon md c s w (bare v)) with (push_mon md c s w v). destruct (push_mon md c s w v); cbn; auto. Qed.
Lemma push_bare c w v s e : push md c w (bares v) s e = push md c w v s e.
Proof. unfold push. cbn [bares fst snd]. now rewrite push_mons_bare. Qed.
Lemma find_push_bare c e vs : find_push md c e (map bares vs) = find_push md c e vs.
Proof. induction vs as [|v vs IH]; cbn [map find_push]; [reflexivity|]. rewrite push_bare. cbn [bares fst]. now rewrite IH. Qed.
Lemma grade_loop_bare c g vs : forall w, grade_loop c g w (map bares vs) = grade_loop c g w vs.
Proof.
  induction vs as [|v vs IH]; intros w; cbn [map grade_loop]; [reflexivity|]. rewrite copy_term_bare. cbn [bares fst]. rewrite IH.
  destruct (copy_term c w v); cbn [bind]; rewrite ?IH; reflexivity.
Qed.
Lemma distribute_bare d c c2 vs : forall l t, distribute md d c c2 (map bares vs) l t = distribute md d c c2 vs l t.
Proof.
  induction vs as [|v vs IH]; intros l t; cbn [map distribute]; [reflexivity|]. cbn [bares fst]. fold (bares v). destruct (d _).
  - rewrite push_bare. destruct (push _ _ _ _ _ _); cbn [bind]; auto.
  - rewrite push_bare. destruct (push _ _ _ _ _ _); cbn [bind]; [|reflexivity]. rewrite push_bare. destruct (push _ _ _ _ _ _); cbn [bind]; auto.
Qed.
Lemma div_terms_bare c d rq vs : forall w, div_terms md c d rq w (map bares vs) = div_terms md c d rq w vs.
Proof.
  assert (A : forall vs w, div_mons md c d rq w (map bare vs) = div_mons md c d rq w vs).
  { induction vs0 as [|v vs0 IH]; intros w; cbn [map div_mons]; [reflexivity|]. change (div_mon md c d rq w (bare v)) with (div_mon md c d rq w v). destruct (div_mon _ _ _ _ _ _); cbn; auto. }
  induction vs as [|v vs IH]; intros w; cbn [map div_terms]; [reflexivity|]. cbn [bares fst snd]. rewrite A.
  destruct (div_mons _ _ _ _ _ _); cbn [bind]; [|reflexivity]. destruct (put_term _ _ _); cbn [bind]; auto.
Qed.

(** ** multivectors that differ only in the offsets of empty monomials *)
Lemma sim_length x y : sim x y -> length (mons x) = length (mons y).
Proof. intros S1. pose proof (si_ms _ _ S1) as F. induction F; cbn; auto. Qed.
Lemma F2_firstn {A B} (R : A -> B -> Prop) n : forall l k, Forall2 R l k -> Forall2 R (firstn n l) (firstn n k).
Proof. induction n as [|n IH]; intros l k F; [constructor|]. destruct F; cbn; constructor; auto. Qed.
Lemma F2_skipn {A B} (R : A -> B -> Prop) n : forall l k, Forall2 R l k -> Forall2 R (skipn n l) (skipn n k).
Proof. induction n as [|n IH]; intros l k F; [exact F|]. destruct F; cbn; auto. Qed.
Lemma F2_len {A B} (R : A -> B -> Prop) l k : Forall2 R l k -> length l = length k.
Proof. induction 1; cbn; auto. Qed.
Definition to {A B} (R : A -> B -> Prop) (x : res A) (y : res B) : Prop :=
  match x with Ok a => exists b, y = Ok b /\ R a b | Err e => y = Err e end.
Lemma to_bind {A A' B B'} (R : A -> A' -> Prop) (S1 : B -> B' -> Prop) x y f g : to R x y -> (forall a b, R a b -> to S1 (f a) (g b)) -> to S1 (bind x f) (bind y g).
Proof. intros X F. destruct x as [a|e]; cbn [to bind] in *; [|now rewrite X]. destruct X as (b & -> & X). cbn [bind]. now apply F. Qed.
Lemma to_ok {A B} (R : A -> B -> Prop) a b : R a b -> to R (Ok a) (Ok b).
Proof. intros H. exists b. auto. Qed.
Lemma to_eq {A} (R : A -> A -> Prop) x y : x = y -> (forall z, x = Ok z -> R z z) -> to R x y.
Proof. intros <- H. destruct x as [a|e]; cbn; eauto. Qed.
Lemma to_same {A} (x : res A) : to eq x x.
Proof. now apply to_eq. Qed.
Lemma to_err {A B} (R : A -> B -> Prop) e : to R (Err e) (Err e).
Proof. reflexivity. Qed.
Lemma to_use {A B} (R : A -> B -> Prop) x y r : to R x y -> x = Ok r -> exists r', y = Ok r' /\ R r r'.
Proof. intros H ->. exact H. Qed.
Lemma slice_sim {A B} (R : A -> B -> Prop) l k o n : Forall2 R l k -> to (Forall2 R) (slice l o n) (slice k o n).
Proof.
  intros F. unfold slice. rewrite <- (F2_len _ _ _ F). destruct (_ <=? _); [|apply to_err]. apply to_ok. now apply F2_firstn, F2_skipn.
Qed.
Lemma mapM_sim {A B C D} (R : A -> B -> Prop) (S1 : C -> D -> Prop) (f : A -> res C) (g : B -> res D) l k : Forall2 R l k ->
  (forall a b, R a b -> to S1 (f a) (g b)) -> to (Forall2 S1) (mapM f l) (mapM g k).
Proof.
  intros F G. induction F as [|a b l k X F IH]; cbn [mapM]; [apply to_ok; constructor|]. eapply to_bind; [now apply G|]. intros c d CD.
  eapply to_bind; [exact IH|]. intros cs ds CDS. apply to_ok. now constructor.
Qed.
Lemma F2_map {A B} (h : A -> B) l k : Forall2 (fun a b => h a = h b) l k -> map h l = map h k.
Proof. induction 1; cbn; congruence. Qed.
Lemma read_mon_sim is k a b : k <= length is -> mon_sim k a b -> to (fun r r' => bare r = bare r') (read_mon is a) (read_mon is b).
Proof.
  intros L (A1 & A2 & A3 & A4). unfold read_mon. rewrite A3. apply (to_bind eq).
  - destruct A4 as [->|(A4 & A5 & A6)]; [apply to_same|]. rewrite A4. unfold slice.
    replace (ioff b + 0 <=? length is) with true by (symmetry; apply Nat.leb_le; lia). replace (ioff a + 0 <=? length is) with true by (symmetry; apply Nat.leb_le; lia).
    now apply to_ok.
  - intros l ? <-. apply to_ok. unfold bare. cbn [fst snd]. congruence.
Qed.
Lemma read_sim x y : sim x y -> to (fun l l' => map bares l = map bares l') (read x) (read y).
Proof.
  intros S1. unfold read. rewrite <- (si_ts _ _ S1), <- (si_t _ _ S1). apply (to_bind eq); [apply to_same|]. intros ts ? <-.
  cut (to (Forall2 (fun a b => bares a = bares b)) (mapM (read_term (inds x) (mons x)) ts) (mapM (read_term (inds y) (mons y)) ts)).
  { destruct (mapM (read_term (inds x) (mons x)) ts); cbn [to]; [|auto]. intros (b & E & F). exists b. split; [exact E|now apply F2_map]. }
  apply (mapM_sim eq); [clear; induction ts; constructor; auto|]. intros t ? <-. unfold read_term.
  eapply to_bind; [apply slice_sim, si_ms, S1|]. intros ms ms' F. rewrite <- (si_is _ _ S1). pose proof (si_le _ _ S1) as L. rewrite <- (si_is _ _ S1) in L.
  eapply to_bind; [eapply mapM_sim; [exact F|]; intros; eapply read_mon_sim; eauto|]. intros vs vs' B. apply to_ok. unfold bares. cbn [fst snd]. now rewrite (F2_map _ _ _ B).
Qed.
Lemma sim_caps x y : sim x y -> caps_of x = caps_of y.
Proof. intros S1. unfold caps_of. now rewrite (si_is _ _ S1), (sim_length _ _ S1), (si_ts _ _ S1). Qed.
Lemma sim_refl x : isz x <= length (inds x) -> sim x x.
Proof. intros L. constructor; auto. induction (mons x); constructor; auto. repeat split; auto. Qed.

(** *** operations that build a new result give the same one *)
Definition fat (x : mv) : Prop := isz x <= length (inds x).
Lemma fill_len {A} c (d : A) l : length l <= length (fill c d l).
Proof. unfold fill. rewrite app_length. lia. Qed.
Lemma finish_fat c w : fat (finish c w). Proof. apply fill_len. Qed.
Lemma collate_fat c ts ms is z : collate md c ts ms is = Ok z -> fat z.
Proof. unfold collate. destruct (collate_loop _ _ _ _ _ _ _ _ _ _) as [[[[buf pos] oi] ot]|]; cbn [bind]; [|discriminate]. intros H. injection H as <-. apply fill_len. Qed.
Lemma sum_sim a b a' b' : sim a a' -> sim b b' -> sum md a b = sum md a' b'.
Proof.
  intros A B. unfold sum. rewrite <- (si_is _ _ A), <- (si_is _ _ B), <- (sim_length _ _ A), <- (sim_length _ _ B), <- (si_ts _ _ A), <- (si_ts _ _ B).
  pose proof (read_sim _ _ A) as TA. pose proof (read_sim _ _ B) as TB.
  destruct (read a) as [la|]; cbn [to bind] in *; [|now rewrite TA]. destruct TA as (la' & -> & EA). cbn [bind].
  destruct (read b) as [lb|]; cbn [to bind] in *; [|now rewrite TB]. destruct TB as (lb' & -> & EB). cbn [bind].
  now rewrite <- sum_terms_bare, EA, EB, sum_terms_bare.
Qed.
Lemma sum_fat a b z : sum md a b = Ok z -> fat z.
Proof. unfold sum. destruct (read a); [|discriminate]. destruct (read b); [|discriminate]. cbn [bind]. destruct (sum_terms _ _ _ _ _); [|discriminate]. intros H. injection H as <-. apply finish_fat. Qed.
Lemma product_sim P a b a' b' : sim a a' -> sim b b' -> product md P a b = product md P a' b'.
Proof.
  intros A B. unfold product, prod_caps. rewrite <- (si_is _ _ A), <- (si_is _ _ B), <- (sim_length _ _ A), <- (sim_length _ _ B), <- (si_ts _ _ A), <- (si_ts _ _ B).
  pose proof (read_sim _ _ A) as TA. pose proof (read_sim _ _ B) as TB.
  destruct (read a) as [la|]; cbn [to bind] in *; [|now rewrite TA]. destruct TA as (la' & -> & EA). cbn [bind].
  destruct (read b) as [lb|]; cbn [to bind] in *; [|now rewrite TB]. destruct TB as (lb' & -> & EB). cbn [bind].
  now rewrite <- prod_terms_bare, EA, EB, prod_terms_bare.
Qed.
Lemma product_fat P a b z : product md P a b = Ok z -> fat z.
Proof. unfold product. destruct (read a); [|discriminate]. destruct (read b); [|discriminate]. cbn [bind]. destruct (prod_terms _ _ _ _ _ _); [|discriminate]. cbn [bind]. destruct (sort_range _ _ _ _); [|discriminate]. apply collate_fat. Qed.
Lemma dual_sim n a a' : sim a a' -> poincare_dual md n a = poincare_dual md n a'.
Proof.
  intros A. unfold poincare_dual. rewrite <- (sim_caps _ _ A), <- (si_m _ _ A), <- (si_t _ _ A). pose proof (read_sim _ _ A) as TA.
  destruct (read a) as [la|]; cbn [to bind] in *; [|now rewrite TA]. destruct TA as (la' & -> & EA). cbn [bind]. now rewrite <- dual_terms_bare, EA, dual_terms_bare.
Qed.
Lemma dual_fat n a z : poincare_dual md n a = Ok z -> fat z.
Proof.
  unfold poincare_dual. destruct (read a); [|discriminate]. cbn [bind]. destruct (dual_terms _ _ _ _); [|discriminate]. cbn [bind]. destruct (slice _ _ _); [|discriminate].
  cbn [bind]. destruct (sort_range _ _ _ _); [|discriminate]. cbn [bind]. destruct (slice _ _ _); [|discriminate]. apply collate_fat.
Qed.
Lemma component_sim e a a' : sim a a' -> component md a e = component md a' e.
Proof.
  intros A. unfold component. rewrite <- (si_is _ _ A), <- (sim_length _ _ A). pose proof (read_sim _ _ A) as TA.
  destruct (read a) as [la|]; cbn [to bind] in *; [|now rewrite TA]. destruct TA as (la' & -> & EA). cbn [bind]. now rewrite <- find_push_bare, EA, find_push_bare.
Qed.
Lemma component_fat e a z : component md a e = Ok z -> fat z.
Proof. unfold component. destruct (read a); [|discriminate]. cbn [bind]. destruct (find_push _ _ _ _); [|discriminate]. intros H. injection H as <-. apply finish_fat. Qed.
Lemma grade_sim g a a' : sim a a' -> select_grade a g = select_grade a' g.
Proof.
  intros A. unfold select_grade. rewrite <- (sim_caps _ _ A). pose proof (read_sim _ _ A) as TA.
  destruct (read a) as [la|]; cbn [to bind] in *; [|now rewrite TA]. destruct TA as (la' & -> & EA). cbn [bind]. now rewrite <- grade_loop_bare, EA, grade_loop_bare.
Qed.
Lemma grade_fat g a z : select_grade a g = Ok z -> fat z.
Proof. unfold select_grade. destruct (read a); [|discriminate]. cbn [bind]. destruct (grade_loop _ _ _ _); [|discriminate]. intros H. injection H as <-. apply finish_fat. Qed.
Lemma change_sim d a a' : sim a a' -> change_basis md d a = change_basis md d a'.
Proof.
  intros A. unfold change_basis. rewrite <- (sim_caps _ _ A). pose proof (read_sim _ _ A) as TA.
  destruct (read a) as [la|]; cbn [to bind] in *; [|now rewrite TA]. destruct TA as (la' & -> & EA). cbn [bind]. now rewrite <- distribute_bare, EA, distribute_bare.
Qed.
Lemma change_fat d a z : change_basis md d a = Ok z -> fat z.
Proof.
  unfold change_basis. destruct (read a); [|discriminate]. cbn [bind]. destruct (distribute _ _ _ _ _ _ _) as [[? ?]|]; [|discriminate]. cbn [bind].
  destruct (sort_range _ _ _ _); [|discriminate]. cbn [bind]. destruct (collate _ _ _ _ _); [|discriminate]. apply sum_fat.
Qed.

(** *** operations in place *)
Lemma upd_F2 {A B} (R : A -> B -> Prop) l k : Forall2 R l k -> forall i a b, R a b -> Forall2 R (upd l i a) (upd k i b).
Proof. induction 1; intros i a b X; [constructor|]. destruct i; cbn; constructor; auto. Qed.
Lemma set_to {A} (R : A -> A -> Prop) l k i a b : Forall2 R l k -> R a b -> to (Forall2 R) (set l i a) (set k i b).
Proof. intros F X. unfold set. rewrite <- (F2_len _ _ _ F). destruct (_ <? _); [|apply to_err]. apply to_ok. now apply upd_F2. Qed.
Lemma get_to {A} (R : A -> A -> Prop) l k i : Forall2 R l k -> to R (get l i) (get k i).
Proof.
  intros F. unfold get. revert i. induction F; intros i; destruct i; cbn [nth_error]; try apply to_err; [now apply to_ok|apply IHF].
Qed.
Lemma upd_q_sim k f n : forall off l m, Forall2 (mon_sim k) l m -> to (Forall2 (mon_sim k)) (upd_q f off n l) (upd_q f off n m).
Proof.
  induction n as [|n IH]; intros off l m F; cbn [upd_q]; [now apply to_ok|]. apply (to_bind (mon_sim k)); [now apply get_to|].
  intros a b (A1 & A2 & A3 & A4). rewrite A1. apply (to_bind eq); [apply to_same|]. intros q ? <-. apply (to_bind (Forall2 (mon_sim k))); [|auto].
  apply set_to; [exact F|]. repeat split; auto.
Qed.
Lemma upd_terms_sim k f ts : forall l m, Forall2 (mon_sim k) l m -> to (Forall2 (mon_sim k)) (upd_terms f ts l) (upd_terms f ts m).
Proof.
  induction ts as [|t ts IH]; intros l m F; cbn [upd_terms]; [now apply to_ok|]. apply (to_bind (Forall2 (mon_sim k))); [|auto].
  destruct (f t); [now apply upd_q_sim|now apply to_ok].
Qed.
Lemma with_sim x y l m : sim x y -> Forall2 (mon_sim (isz y)) l m -> sim (with_mons x l) (with_mons y m).
Proof. intros []; constructor; cbn; auto. Qed.
Lemma scale_sim q x y : sim x y -> to sim (scale md q x) (scale md q y).
Proof. intros S1. unfold scale. rewrite (si_m _ _ S1). eapply to_bind; [apply upd_q_sim, si_ms, S1|]. intros a b F. apply to_ok. now apply with_sim. Qed.
Lemma fn_sim o q x y : sim x y -> to sim (fn md o q x) (fn md o q y).
Proof. intros S1. apply scale_sim. destruct S1; constructor; cbn; auto. Qed.
Lemma reverse_sim x y : sim x y -> to sim (reverse x) (reverse y).
Proof.
  intros S1. unfold reverse. rewrite (si_ts _ _ S1), (si_t _ _ S1). apply (to_bind eq); [apply to_same|]. intros ts ? <-.
  eapply to_bind; [apply upd_terms_sim, si_ms, S1|]. intros a b F. apply to_ok. now apply with_sim.
Qed.
Lemma divide_sim q x y a b : sim x a -> sim y b -> to sim (divide md x y q) (divide md a b q).
Proof.
  intros X Y. unfold divide. rewrite (sim_length _ _ Y), (si_ts _ _ Y), (si_is _ _ Y). destruct (_ || _); [apply to_err|].
  apply (to_bind (mon_sim (isz b))); [apply get_to, si_ms, Y|]. intros u v (U & _). rewrite U. destruct (length (inds b)) as [|[|]]; [| |apply to_err].
  - rewrite (si_ts _ _ X), (si_t _ _ X). apply (to_bind eq); [apply to_same|]. intros ts ? <-.
    eapply to_bind; [apply upd_terms_sim, si_ms, X|]. intros c d F. apply to_ok. now apply with_sim.
  - apply (to_bind eq); [apply to_same|]. intros d0 ? <-. apply (to_bind eq); [apply to_same|]. intros nd ? <-.
    rewrite (si_is _ _ X), (si_ts _ _ X), (sim_length _ _ X). apply (to_bind (fun l m => map bares l = map bares m)).
    { apply (read_sim _ _ X). }
    intros l m E. apply (to_bind eq).
    { apply to_eq; [|reflexivity]. now rewrite <- div_terms_bare, E, div_terms_bare. }
    intros w ? <-. apply scale_sim, sim_refl, finish_fat.
Qed.
Lemma sim_fat x y : sim x y -> fat y. Proof. apply si_le. Qed.
Lemma shrink_sim x y : sim x y -> to sim (shrink x) (shrink y).
Proof.
  intros S1. unfold shrink, resize. cbn [ci cm ct]. rewrite (si_i _ _ S1), (si_m _ _ S1), (si_t _ _ S1), (si_is _ _ S1), (sim_length _ _ S1), (si_ts _ _ S1).
  destruct (_ && _ && _); [now apply to_ok|]. apply (to_bind (fun l m => l = m /\ isz y <= length m)).
  { apply to_eq; [reflexivity|]. intros z H. split; [reflexivity|]. unfold copy_cells in H. destruct (slice _ _ _) as [s|] eqn:E; [|discriminate]. cbn [bind] in H. rewrite Nat.leb_refl in H. injection H as <-.
    unfold slice in E. destruct (_ <=? _) eqn:L; [|discriminate]. injection E as <-. apply Nat.leb_le in L. unfold fill. rewrite app_length, firstn_length. change (skipn 0 (inds y)) with (inds y). lia. }
  intros is ? [<- L]. apply (to_bind (Forall2 (mon_sim (isz y)))).
  { unfold copy_cells. apply (to_bind (Forall2 (mon_sim (isz y)))).
    - apply slice_sim, (si_ms _ _ S1).
    - intros a b F. rewrite Nat.leb_refl. apply to_ok. unfold fill. rewrite (F2_len _ _ _ F). apply Forall2_app; [exact F|].
      induction (msz y - length b); cbn; constructor; auto. repeat split; auto. }
  intros ms ms' F. apply (to_bind eq); [apply to_same|]. intros ts ? <-. apply to_ok. constructor; cbn; auto.
Qed.
Lemma ref_sim x y i : sim x y -> create_ref x i = create_ref y i.
Proof. intros S1. unfold create_ref. now rewrite (si_ts _ _ S1). Qed.

(** ** evaluation *)
Definition sims := Forall2 sim.
Variable m : metric.
Variable nb : bool.
Lemma top1_sim l k : sims l k -> to (fun p q => sim (fst p) (fst q) /\ sims (snd p) (snd q)) (top1 l) (top1 k).
Proof. intros F. destruct F; [apply to_err|]. apply to_ok. auto. Qed.
Lemma top2_sim l k : sims l k -> to (fun p q => sim (fst (fst p)) (fst (fst q)) /\ sim (snd (fst p)) (snd (fst q)) /\ sims (snd p) (snd q)) (Model_Dfa.top2 l) (Model_Dfa.top2 k).
Proof. intros F. destruct F as [|? ? ? ? A F]; [apply to_err|]. destruct F; [apply to_err|]. apply to_ok. cbn. auto. Qed.
Lemma topn_sim n l k : sims l k -> to (fun p q => sims (fst p) (fst q) /\ sims (snd p) (snd q)) (topn n l) (topn n k).
Proof. intros F. unfold topn. rewrite (F2_len _ _ _ F). destruct (_ || _); [apply to_err|]. apply to_ok. split; [now apply F2_firstn|now apply F2_skipn]. Qed.
Lemma fold_sum_sim l k : sims l k -> to sim (fold_sum md l) (fold_sum md k).
Proof.
  induction 1 as [|x y l k X F IH]; [apply to_err|]. cbn [fold_sum]. destruct F; [now apply to_ok|]. eapply to_bind; [exact IH|].
  intros a b A. apply to_eq; [now apply sum_sim|]. intros z E. apply sim_refl. eapply sum_fat; eauto.
Qed.
Lemma fold_ep_sim l k : sims l k -> to sim (fold_ep md m l) (fold_ep md m k).
Proof.
  induction 1 as [|x y l k X F IH]; [apply to_err|]. cbn [fold_ep]. destruct F; [now apply to_ok|]. eapply to_bind; [exact IH|].
  intros a b A. apply to_eq; [now apply product_sim|]. intros z E. apply sim_refl. eapply product_fat; eauto.
Qed.
Lemma sims_rev l k : sims l k -> sims (rev l) (rev k).
Proof. induction 1; cbn; [constructor|]. apply Forall2_app; [assumption|]. constructor; [assumption|constructor]. Qed.
Lemma cons_sim x y l k : sim x y -> sims l k -> to sims (Ok (x :: l)) (Ok (y :: k)).
Proof. intros. apply to_ok. now constructor. Qed.
Lemma push_sim x y (s k : list mv) : to sim x y -> sims s k -> to sims (a <- x;; Ok (a :: s)) (b <- y;; Ok (b :: k)).
Proof. intros X F. eapply to_bind; [exact X|]. intros. now apply cons_sim. Qed.
Lemma shrunk_sim x y (s k : list mv) : to sim x y -> sims s k -> to sims (a <- x;; c <- shrink a;; Ok (c :: s)) (b <- y;; c <- shrink b;; Ok (c :: k)).
Proof. intros X F. eapply to_bind; [exact X|]. intros a b A. apply push_sim; [|exact F]. now apply shrink_sim. Qed.
Lemma apply_sim n l k : sims l k -> to sims (apply_op md m n l) (apply_op md m n k).
Proof.
  intros F. unfold apply_op.
  repeat match goal with |- to _ (if ?b then _ else _) _ => destruct b; [|] end;
  repeat match goal with
  | |- to _ (bind (top1 _) _) _ => eapply to_bind; [now apply top1_sim|]; intros [? ?] [? ?] [? ?]; cbn [fst snd] in *
  | |- to _ (bind (Model_Dfa.top2 _) _) _ => eapply to_bind; [now apply top2_sim|]; intros [[? ?] ?] [[? ?] ?] [? [? ?]]; cbn [fst snd] in *
  | |- to _ (bind (topn _ _) _) _ => eapply to_bind; [now apply topn_sim|]; intros [? ?] [? ?] [? ?]; cbn [fst snd] in *
  end;
  try (apply push_sim; [|assumption]; first [now apply reverse_sim | now apply fn_sim | now apply divide_sim | idtac]);
  try (apply shrunk_sim; [|assumption]; first [now apply fold_sum_sim | apply fold_ep_sim; now apply sims_rev | idtac]);
  try (apply to_ok; constructor; [|assumption]; apply sim_refl; cbn; lia).
  all: apply to_eq; [first [now apply dual_sim | now apply product_sim | now apply component_sim | now apply grade_sim]|].
  all: intros z E; apply sim_refl; first [eapply dual_fat; eassumption | eapply product_fat; eassumption | eapply component_fat; eassumption | eapply grade_fat; eassumption].
Qed.
Record ssim (s t : rstate) : Prop := {
  ss_in : sims (r_in s) (r_in t); ss_temps : Forall2 (fun p q : mv * N => sim (fst p) (fst q) /\ snd p = snd q) (r_temps s) (r_temps t);
  ss_args : sims (r_args s) (r_args t); ss_cnt : r_cnt s = r_cnt t }.
Lemma step_sim n s t : ssim s t -> to ssim (rpn_step md m nb n s) (rpn_step md m nb n t).
Proof.
  intros [A B C D]. unfold rpn_step. destruct (no n =? op_id)%N; [|destruct (no n =? op_cse)%N; [|destruct (no n =? op_noop)%N]].
  - eapply to_bind; [now apply top1_sim|]. intros [x r] [y r'] [X Rr]. cbn [fst snd] in *. apply (to_bind sim).
    + destruct nb; [|now apply to_ok]. apply to_eq; [now apply change_sim|]. intros z E. apply sim_refl. eapply change_fat; eauto.
    + intros a b E. apply to_ok. constructor; cbn; auto. constructor; auto.
  - rewrite D. revert B. generalize (r_temps s) (r_temps t). intros u v B. cut (match nth_error u (nex n), nth_error v (nex n) with Some (x, i), Some (y, j) => sim x y /\ i = j | None, None => True | _, _ => False end).
    + destruct (nth_error u (nex n)) as [[x i]|], (nth_error v (nex n)) as [[y j]|]; try contradiction; [|intros; apply to_err].
      intros [X ->]. apply to_ok. constructor; cbn; auto. constructor; [|assumption]. rewrite (ref_sim _ _ _ X). apply sim_refl. cbn. now rewrite map_length, seq_length.
    + generalize (nex n) as k. induction B as [|[x i] [y j] u v [P Q] B IH]; intros [|k]; cbn; auto. apply IH.
  - eapply to_bind; [now apply top1_sim|]. intros [x r] [y r'] [X Rr]. cbn [fst snd] in *. apply to_ok. constructor; cbn; auto; [|now rewrite D, (si_t _ _ X)].
    apply Forall2_app; [assumption|]. constructor; [cbn; auto|constructor].
  - eapply to_bind; [now apply apply_sim|]. intros a b E. apply to_ok. constructor; cbn; auto.
Qed.
Lemma close_sim n s t u v : ssim s t -> ssim u v -> to ssim (rpn_close md n s u) (rpn_close md n t v).
Proof.
  intros [H1 H2 H3 H4] [P Q R0 S0]. unfold rpn_close. eapply to_bind; [now apply top1_sim|]. intros [x r] [y r'] [X _]. cbn [fst] in *.
  apply (to_bind sim); [destruct (_ =? 0)%Z; [now apply to_ok|now apply scale_sim]|]. intros a b E. apply to_ok. constructor; cbn; auto. constructor; auto.
Qed.
Lemma run_sim f : forall l s t, ssim s t -> to ssim (rpn_run md m nb f l s) (rpn_run md m nb f l t).
Proof.
  induction f as [|f IH]; intros l s t H; cbn [rpn_run]; [apply to_err|]. destruct l as [|n l]; [now apply to_ok|]. destruct (no n =? op_se)%N.
  - destruct (_ <? _); [apply to_err|]. eapply to_bind; [apply IH; destruct H; constructor; cbn; auto; constructor|]. intros u v UV. apply (to_bind ssim); [now apply close_sim|intros; now apply IH].
  - eapply to_bind; [now apply step_sim|]. intros. now apply IH.
Qed.
Lemma result_sim x y : sim x y -> to sim (result_mv md m nb x) (result_mv md m nb y).
Proof.
  intros X. unfold result_mv. destruct nb; [|now apply to_ok]. apply to_eq; [now apply change_sim|]. intros z E. apply sim_refl. eapply change_fat; eauto.
Qed.
Lemma cmon_sim x y data a b : sim x y -> mon_sim (isz y) a b -> to eq (cmon_value x data a) (cmon_value y data b).
Proof.
  intros X (A1 & A2 & A3 & A4). unfold cmon_value. rewrite A1, A3, (si_o _ _ X), (si_is _ _ X). destruct (is_zero _); [now apply to_ok|].
  destruct (Nat.eqb_spec (mcount b) 0) as [E|E]; [now apply to_ok|]. destruct A4 as [A4|[A4 _]]; [|contradiction]. rewrite A4. apply to_same.
Qed.
Lemma mapM_to {A B C} (R : A -> B -> Prop) (f : A -> res C) (g : B -> res C) l k : Forall2 R l k -> (forall a b, R a b -> to eq (f a) (g b)) -> to eq (mapM f l) (mapM g k).
Proof.
  intros F G. induction F as [|a b l k X F IH]; cbn [mapM]; [now apply to_ok|]. eapply to_bind; [now apply G|]. intros c ? <-. eapply to_bind; [exact IH|]. intros cs ? <-. now apply to_ok.
Qed.
Lemma cterm_sim x y data t : sim x y -> to eq (cterm_value x data t) (cterm_value y data t).
Proof.
  intros X. unfold cterm_value. apply (to_bind (Forall2 (mon_sim (isz y)))).
  { apply slice_sim, (si_ms _ _ X). }
  intros a b F. eapply to_bind; [eapply mapM_to; [exact F|]; intros; eapply cmon_sim; eauto|]. intros vs ? <-. apply to_same.
Qed.
Lemma write_sim x y ts : sim x y -> forall off data, to eq (write_temp x ts off data) (write_temp y ts off data).
Proof.
  intros X. induction ts as [|t ts IH]; intros off data; cbn [write_temp]; [now apply to_ok|]. eapply to_bind; [now apply cterm_sim|]. intros v ? <-.
  apply (to_bind eq); [apply to_same|]. intros d ? <-. apply IH.
Qed.
Lemma temps_sim u v : Forall2 (fun p q : mv * N => sim (fst p) (fst q) /\ snd p = snd q) u v -> forall data, to eq (finalize_temps md m nb u data) (finalize_temps md m nb v data).
Proof.
  induction 1 as [|[x i] [y j] u v [X E] F IH]; intros data; cbn [finalize_temps]; [now apply to_ok|]. cbn [fst snd] in *. subst j. eapply to_bind; [now apply result_sim|].
  intros a b A. apply (to_bind eq); [|intros d ? <-; apply IH]. unfold compute_temp. rewrite (si_ts _ _ A), (si_t _ _ A). apply (to_bind eq); [apply to_same|].
  intros ts ? <-. now apply write_sim.
Qed.
Lemma entity_sim q data x y : sim x y -> to eq (finalize_entity md m nb q data x) (finalize_entity md m nb q data y).
Proof.
  intros X. unfold finalize_entity. eapply to_bind; [now apply result_sim|]. intros a b A. unfold compute_entity. rewrite (si_ts _ _ A), (si_t _ _ A).
  apply (to_bind eq); [apply to_same|]. intros ts ? <-. apply (mapM_to eq); [clear; induction ts; constructor; auto|]. intros t ? <-.
  eapply to_bind; [now apply cterm_sim|]. intros v ? <-. now apply to_ok.
Qed.
Lemma rpn_inputs_sim ies ies' l : length ies = length ies' ->
  (forall k f g o, nth_error ies k = Some f -> nth_error ies' k = Some g -> sim (f o) (g o)) -> to sims (rpn_inputs ies (rpn_ids l)) (rpn_inputs ies' (rpn_ids l)).
Proof.
  intros L H. unfold rpn_inputs. generalize (rpn_ids l) as ks. induction ks as [|[o k] ks IH]; cbn [mapM]; [apply to_ok; constructor|]. apply (to_bind sim).
  - cbn [snd fst]. destruct (nth_error ies k) as [f|] eqn:E; destruct (nth_error ies' k) as [g|] eqn:E'; [apply to_ok; eauto| | |apply to_err].
    + apply nth_error_None in E'. rewrite <- L in E'. apply nth_error_None in E'. congruence.
    + apply nth_error_None in E. rewrite L in E. apply nth_error_None in E. congruence.
  - intros a b A. eapply to_bind; [exact IH|]. intros. apply to_ok. now constructor.
Qed.
(** the forms of the inputs may be replaced *)
Theorem compute_sim ies ies' inputs l q : length ies = length ies' ->
  (forall k f g o, nth_error ies k = Some f -> nth_error ies' k = Some g -> sim (f o) (g o)) ->
  compute md m nb ies inputs l q = compute md m nb ies' inputs l q.
Proof.
  intros L H. cut (to eq (compute md m nb ies inputs l q) (compute md m nb ies' inputs l q)).
  { destruct (compute md m nb ies inputs l q); cbn [to]; [|congruence]. intros (? & E' & <-). congruence. }
  unfold compute. eapply to_bind; [now apply rpn_inputs_sim|].
  intros ins ins' I. eapply to_bind; [apply run_sim; constructor; cbn; auto; constructor|]. intros s t [A B C D]. rewrite <- D.
  apply (to_bind eq); [apply to_same|]. intros data ? <-. eapply to_bind; [apply temps_sim; exact B|]. intros data' ? <-.
  destruct C as [|x y us vs X C]; [now apply to_ok|]. apply (mapM_to sim); [apply sims_rev; now constructor|]. intros. now apply entity_sim.
Qed.
End Mode.
