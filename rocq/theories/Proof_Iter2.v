(** Loops that write: the coefficients in place, and the result of a sum. *)
From Coq Require Import ZArith NArith List Bool Arith Lia.
From Verif Require Import Base Model_Numeric Model_Blade Model_MV Model_Iter Proof_Numeric Proof_Iter.
Import ListNotations.
Local Open Scope nat_scope.

(** ** Updates in place *)
Lemma upd_length {A} (l : list A) : forall i a, length (upd l i a) = length l.
Proof. induction l as [|b l IH]; intros [|i] a; cbn; auto. Qed.
Lemma set_length {A} (l : list A) i a l' : set l i a = Ok l' -> length l' = length l.
Proof. unfold set. destruct (i <? length l); [|discriminate]. intros H. injection H as <-. apply upd_length. Qed.
Lemma upd_q_loop f e n : forall p fuel ms, p + n = e -> n < fuel ->
  iterate mit_ne mit_next (Ok (mkmit 0 e)) (fun p cur => m <- mit_deref cur p;; q <- f (mq m);; set cur (mit_mon p) (mkmon q (mdeg m) (mcount m) (ioff m))) fuel (mkmit 0 p) ms = upd_q f p n ms.
Proof.
  induction n as [|n IH]; intros p fuel ms PE F; destruct fuel as [|fuel]; try lia; cbn [iterate bind upd_q]; rewrite mit_ne_at.
  - replace (p =? e) with true by (symmetry; apply Nat.eqb_eq; lia). reflexivity.
  - replace (p =? e) with false by (symmetry; apply Nat.eqb_neq; lia). cbn [negb]. unfold mit_deref. cbn [mit_mon].
    destruct (get ms p) as [m|]; cbn [bind]; [|reflexivity]. destruct (f (mq m)) as [q|]; cbn [bind]; [|reflexivity].
    destruct (set ms p _) as [ms'|]; cbn [bind]; [|reflexivity]. apply IH; lia.
Qed.
Lemma upd_q_length f n : forall p ms ms', upd_q f p n ms = Ok ms' -> length ms' = length ms.
Proof. induction n as [|n IH]; intros p ms ms' H; cbn [upd_q] in H; [now injection H as <-|]. minv H. minv H. minv H. rewrite (IH _ _ _ H). exact (set_length _ _ _ _ E1). Qed.
Lemma visit_upd_eq fuel f ts p t ms : nth_error ts p = Some t -> moff t + tcount t <= length ms -> length ms < fuel ->
  visit_upd fuel f ts (mktit 0 0 p) ms = upd_q f (moff t) (tcount t) ms.
Proof.
  intros N L F. unfold visit_upd, tit_begin, tit_end, tit_deref. cbn [tit_inds tit_mons tit_term]. rewrite (get_error _ _ _ N). cbn [bind plus].
  rewrite ptr_le by lia. cbn [bind]. rewrite ptr_le by lia. cbn [bind]. apply upd_q_loop; lia.
Qed.
(** over the terms *)
Lemma upd_terms_loop fuel (f : term -> option (rat -> res rat)) (ts : list term) (k e : nat) (body : tit -> list mon -> res (list mon)) : k < fuel ->
  (forall p t ms, nth_error ts p = Some t -> length ms = k -> p < e -> body (mktit 0 0 p) ms = match f t with Some g => upd_q g (moff t) (tcount t) ms | None => Ok ms end) ->
  forall n p fuel' ms, e <= length ts -> p + n = e -> n < fuel' -> length ms = k ->
  iterate tit_ne tit_next (Ok (mktit 0 0 e)) body fuel' (mktit 0 0 p) ms = upd_terms f (firstn n (skipn p ts)) ms.
Proof.
  intros K BO. induction n as [|n IH]; intros p fuel' ms L PE F LM; destruct fuel' as [|fuel']; try lia; cbn [iterate bind]; rewrite tit_ne_at.
  - replace (p =? e) with true by (symmetry; apply Nat.eqb_eq; lia). reflexivity.
  - replace (p =? e) with false by (symmetry; apply Nat.eqb_neq; lia). cbn [negb]. destruct (nth_range ts p ltac:(lia)) as (t & N). rewrite (nth_cons_split _ _ _ N). cbn [firstn upd_terms].
    rewrite (BO p t ms N LM) by lia. destruct (f t) as [g|] eqn:EF; cbn [bind].
    + destruct (upd_q g _ _ ms) as [ms'|] eqn:EU; cbn [bind]; [|reflexivity]. apply IH; try lia. now rewrite (upd_q_length _ _ _ _ _ EU).
    + apply IH; lia.
Qed.
Lemma read_bounds x l p t : read x = Ok l -> nth_error (terms x) p = Some t -> p < tsz x -> moff t + tcount t <= length (mons x).
Proof.
  intros H N L. destruct (read_terms x l H) as (A & B & C). assert (G : forall l q, terms_from x q l -> forall i, i < length l -> nth_error (terms x) (q + i) = nth_error (terms x) (q + i) /\ exists v, term_at x (q + i) v).
  { clear. induction l as [|v l IH]; intros q F i L; cbn in L; [lia|]. destruct F as [F1 F2]. destruct i as [|i]; [rewrite Nat.add_0_r; eauto|]. destruct (IH (S q) F2 i ltac:(lia)) as [_ (w & W)]. split; [reflexivity|]. exists w. now replace (q + S i) with (S q + i) by lia. }
  destruct (G l 0 C p ltac:(lia)) as [_ (v & V1 & V2 & _)]. cbn in V1. rewrite N in V1. injection V1 as ->. exact V2.
Qed.
Definition enough (fuel : nat) (x : mv) : Prop := length (inds x) < fuel /\ length (mons x) < fuel /\ length (terms x) < fuel.
Lemma terms_loop fuel x l (f : term -> option (rat -> res rat)) body : read x = Ok l -> enough fuel x ->
  (forall p t ms, nth_error (terms x) p = Some t -> length ms = length (mons x) -> moff t + tcount t <= length (mons x) -> body (mktit 0 0 p) ms = match f t with Some g => upd_q g (moff t) (tcount t) ms | None => Ok ms end) ->
  iterate tit_ne tit_next (mv_end x) body fuel mv_begin (mons x) = (ts <- slice (terms x) 0 (tsz x);; upd_terms f ts (mons x)).
Proof.
  intros H (FI & FM & FT) BO. destruct (read_terms x l H) as (A & _ & _). unfold mv_end, mv_begin, slice. cbn [plus skipn]. rewrite ptr_le by lia. cbn [bind].
  rewrite (proj2 (Nat.leb_le _ _) A). cbn [bind].
  apply (upd_terms_loop fuel f (terms x) (length (mons x)) (tsz x) body); auto; try lia.
  intros p t ms N LM L. apply BO; auto. exact (read_bounds x l p t H N L).
Qed.
Theorem p_negate_eq fuel x l : read x = Ok l -> enough fuel x -> p_negate fuel x = negate x.
Proof.
  intros H F. unfold p_negate, negate. rewrite (terms_loop fuel x l (fun _ => Some rneg)); auto.
  - destruct (slice _ _ _); reflexivity.
  - intros p t ms N LM L. destruct F as (_ & F & _). apply visit_upd_eq; auto; lia.
Qed.
Theorem p_reverse_eq fuel x l : read x = Ok l -> enough fuel x -> p_reverse fuel x = reverse x.
Proof.
  intros H F. unfold p_reverse, reverse. rewrite (terms_loop fuel x l (fun t => if reverse_negates (elem t) then Some rneg else None)); auto.
  - destruct (slice _ _ _); reflexivity.
  - intros p t ms N LM L. destruct F as (_ & F & _). unfold tit_deref. cbn [tit_term]. rewrite (get_error _ _ _ N). cbn [bind]. unfold reverse_negates.
    destruct (elem t =? 0)%N; [reflexivity|]. cbv zeta. destruct (_ =? 1)%N; [|reflexivity]. apply visit_upd_eq; auto; lia.
Qed.
Theorem p_divide_constant_eq md fuel x y q l m : read x = Ok l -> enough fuel x -> nth_error (mons y) 0 = Some m -> length (terms y) <> 0 -> inds y = [] ->
  p_divide_constant fuel md x m q = divide md x y q.
Proof.
  intros H F M T I. unfold p_divide_constant, divide. rewrite (terms_loop fuel x l (fun _ => Some (fun p => a <- rmul md q p;; rdiv md a (mq m)))); auto.
  - destruct (mons y) as [|m' my] eqn:EM; [discriminate|]. cbn in M. injection M as ->. rewrite I. cbn [length Nat.eqb orb get nth_error bind].
    destruct (length (terms y)) as [|k]; [lia|]. cbn [Nat.eqb]. cbn. destruct (slice _ _ _); reflexivity.
  - intros p t ms N LM L. destruct F as (_ & F & _). apply visit_upd_eq; auto; lia.
Qed.

(** ** A loop over cells, with a state that is the image of another *)
Fixpoint foldM {V W} (step : W -> V -> res W) (w : W) (vs : list V) : res W := match vs with [] => Ok w | v :: vs' => w' <- step w v;; foldM step w' vs' end.
Section Fold.
Context {I V W St : Type} (ne : I -> I -> bool) (next : I -> I) (at_ : nat -> I).
Hypothesis NE : forall i j, ne (at_ i) (at_ j) = negb (i =? j).
Hypothesis NX : forall i, next (at_ i) = at_ (S i).
Variables (img : W -> St) (inv : W -> Prop) (step : W -> V -> res W) (cell : nat -> V -> Prop).
Lemma loop_fold (body : I -> St -> res St) last e : last = Ok (at_ e) ->
  (forall p v w, cell p v -> inv w -> body (at_ p) (img w) = (w' <- step w v;; Ok (img w'))) ->
  (forall p v w w', cell p v -> inv w -> step w v = Ok w' -> inv w') ->
  forall vs p fuel w, from cell p vs -> p + length vs = e -> length vs < fuel -> inv w ->
  iterate ne next last body fuel (at_ p) (img w) = (w' <- foldM step w vs;; Ok (img w')).
Proof.
  intros -> BO PR. induction vs as [|v vs IH]; intros p fuel w FR PE F IN; destruct fuel as [|fuel]; cbn [length] in *; try lia; cbn [iterate bind]; rewrite NE.
  - replace (p =? e) with true by (symmetry; apply Nat.eqb_eq; lia). reflexivity.
  - replace (p =? e) with false by (symmetry; apply Nat.eqb_neq; lia). cbn [negb foldM]. destruct FR as [C FR]. rewrite (BO p v w C IN).
    destruct (step w v) as [w'|] eqn:ES; cbn [bind]; [|reflexivity]. rewrite NX. apply IH; auto; try lia. exact (PR p v w w' C IN ES).
Qed.
End Fold.

(** ** The result: pointers are lengths, the arrays hold what was written *)
Definition fits (c : caps) (w : wr) : Prop := length (wi w) <= ci c /\ length (wm w) <= cm c /\ length (wt w) <= ct c.
Definition img (c : caps) (w : wr) : po := mkpo (length (wi w)) (length (wm w)) (length (wt w)) (fill (ci c) ind0 (wi w)) (fill (cm c) mon0 (wm w)) (fill (ct c) term0 (wt w)).
Lemma fill_length {A} cap (d : A) l : length l <= cap -> length (fill cap d l) = cap.
Proof. intros H. unfold fill. rewrite app_length, repeat_length. lia. Qed.
Lemma upd_app {A} (p : list A) x s y : upd (p ++ x :: s) (length p) y = p ++ y :: s.
Proof. induction p as [|a p IH]; cbn; [reflexivity|now rewrite IH]. Qed.
Lemma set_fill {A} cap (d : A) l x : length l <= cap -> set (fill cap d l) (length l) x = (l' <- app1 cap l x;; Ok (fill cap d l')).
Proof.
  intros H. unfold set, app1. rewrite (fill_length cap d l H). destruct (Nat.ltb_spec (length l) cap) as [L|L]; [|reflexivity]. cbn [bind]. f_equal.
  unfold fill. rewrite app_length. cbn [length]. destruct (cap - length l) as [|k] eqn:K; [lia|]. cbn [repeat]. rewrite upd_app, <- app_assoc. cbn [app]. do 3 f_equal. lia.
Qed.
Lemma app1_length {A} cap (l : list A) x l' : app1 cap l x = Ok l' -> length l' <= cap.
Proof. unfold app1. destruct (Nat.ltb_spec (length l) cap); [|discriminate]. intros E. injection E as <-. rewrite app_length. cbn. lia. Qed.
Lemma app1_S {A} cap (l : list A) x l' : app1 cap l x = Ok l' -> length l' = S (length l).
Proof. unfold app1. destruct (length l <? cap); [|discriminate]. intros E. injection E as <-. rewrite app_length. cbn. lia. Qed.
Section Img.
Variable c : caps.
Lemma p_ind_eq w x : fits c w -> p_ind (img c w) x = (w' <- put_ind c w x;; Ok (img c w')).
Proof.
  intros (F & _). unfold p_ind, put_ind, img. cbn [ai pi pm pt am at_]. rewrite (set_fill _ _ _ _ F). destruct (app1 (ci c) (wi w) x) as [l|] eqn:E; cbn [bind wi wm wt]; [|reflexivity]. now rewrite (app1_S _ _ _ _ E).
Qed.
Lemma p_mon_eq w x : fits c w -> p_mon (img c w) x = (w' <- put_mon c w x;; Ok (img c w')).
Proof.
  intros (_ & F & _). unfold p_mon, put_mon, img. cbn [ai pi pm pt am at_]. rewrite (set_fill _ _ _ _ F). destruct (app1 (cm c) (wm w) x) as [l|] eqn:E; cbn [bind wi wm wt]; [|reflexivity]. now rewrite (app1_S _ _ _ _ E).
Qed.
Lemma p_term_eq w x : fits c w -> p_term (img c w) x = (w' <- put_term c w x;; Ok (img c w')).
Proof.
  intros (_ & _ & F). unfold p_term, put_term, img. cbn [ai pi pm pt am at_]. rewrite (set_fill _ _ _ _ F). destruct (app1 (ct c) (wt w) x) as [l|] eqn:E; cbn [bind wi wm wt]; [|reflexivity]. now rewrite (app1_S _ _ _ _ E).
Qed.
Lemma put_ind_fits w x w' : fits c w -> put_ind c w x = Ok w' -> fits c w'.
Proof. intros (A & B & D) H. unfold put_ind in H. minv H. injection H as <-. apply app1_length in E. repeat split; cbn; auto. Qed.
Lemma put_mon_fits w x w' : fits c w -> put_mon c w x = Ok w' -> fits c w'.
Proof. intros (A & B & D) H. unfold put_mon in H. minv H. injection H as <-. apply app1_length in E. repeat split; cbn; auto. Qed.
Lemma put_term_fits w x w' : fits c w -> put_term c w x = Ok w' -> fits c w'.
Proof. intros (A & B & D) H. unfold put_term in H. minv H. injection H as <-. apply app1_length in E. repeat split; cbn; auto. Qed.
Lemma put_inds_fold l : forall w, put_inds c w l = foldM (put_ind c) w l.
Proof. induction l as [|x l IH]; intros w; [reflexivity|]. cbn. destruct (put_ind c w x); [apply IH|reflexivity]. Qed.
Lemma copy_mons_fold l : forall w, copy_mons c w l = foldM (copy_mon c) w l.
Proof. induction l as [|x l IH]; intros w; [reflexivity|]. cbn. destruct (copy_mon c w x); [apply IH|reflexivity]. Qed.
Lemma copy_terms_fold l : forall w, copy_terms c w l = foldM (copy_term c) w l.
Proof. induction l as [|x l IH]; intros w; [reflexivity|]. cbn. destruct (copy_term c w x); [apply IH|reflexivity]. Qed.
Lemma fold_fits {V} (step : wr -> V -> res wr) : (forall w v w', fits c w -> step w v = Ok w' -> fits c w') -> forall vs w w', fits c w -> foldM step w vs = Ok w' -> fits c w'.
Proof. intros S. induction vs as [|v vs IH]; intros w w' F H; cbn in H; [now injection H as <-|]. minv H. exact (IH _ _ (S _ _ _ F E) H). Qed.
Lemma copy_mon_fits w v w' : fits c w -> copy_mon c w v = Ok w' -> fits c w'.
Proof. intros F H. unfold copy_mon in H. minv H. rewrite put_inds_fold in H. exact (fold_fits _ (fun _ _ _ => put_ind_fits _ _ _) _ _ _ (put_mon_fits _ _ _ F E) H). Qed.
Lemma copy_mons_fits w v w' : fits c w -> copy_mons c w v = Ok w' -> fits c w'.
Proof. intros F H. rewrite copy_mons_fold in H. exact (fold_fits _ copy_mon_fits _ _ _ F H). Qed.
Lemma copy_term_fits w v w' : fits c w -> copy_term c w v = Ok w' -> fits c w'.
Proof. intros F H. unfold copy_term in H. minv H. exact (copy_mons_fits _ _ _ (put_term_fits _ _ _ F E) H). Qed.
Lemma copy_term_after_fits w v w' : fits c w -> copy_term_after c w v = Ok w' -> fits c w'.
Proof. intros F H. unfold copy_term_after in H. minv H. exact (put_term_fits _ _ _ (copy_mons_fits _ _ _ F E) H). Qed.
Lemma put_ind_mons w x w' : put_ind c w x = Ok w' -> wm w' = wm w.
Proof. intros H. unfold put_ind in H. minv H. now injection H as <-. Qed.

(** ** Copying *)
Lemma inds_from (l : list ind) : forall n p, p + n <= length l -> from (fun q a => nth_error l q = Some a) p (firstn n (skipn p l)).
Proof.
  induction n as [|n IH]; intros p L; [exact I|]. destruct (nth_range l p ltac:(lia)) as (a & N). rewrite (nth_cons_split _ _ _ N). cbn [firstn from]. split; [exact N|]. apply IH. lia.
Qed.
Section Operand.
Variables (x : mv) (fuel : nat).
Hypothesis EN : enough fuel x.
Lemma copy_inds_eq p v w : mon_at x p v -> fits c w -> p_copy_inds fuel x (mkmit 0 p) (img c w) = (w' <- put_inds c w (snd v);; Ok (img c w')).
Proof.
  intros (A & B & C) F. unfold p_copy_inds, mit_begin, mit_end, mit_deref. cbn [mit_inds mit_mon]. rewrite (get_error _ _ _ A). cbn [bind plus]. rewrite ptr_le by lia. cbn [bind]. rewrite ptr_le by lia.
  rewrite put_inds_fold. apply (loop_fold ptr_ne S (fun i => i) (fun i j => eq_refl) (fun i => eq_refl) (img c) (fits c) (put_ind c) (fun q a => nth_error (inds x) q = Some a)) with (e := ioff (fst v) + mcount (fst v)); auto.
  - intros q a w0 N F0. rewrite (get_error _ _ _ N). cbn [bind]. now apply p_ind_eq.
  - intros q a w0 w1 _ F0 E. exact (put_ind_fits _ _ _ F0 E).
  - rewrite C. now apply inds_from.
  - rewrite C, firstn_skipn_len; lia.
  - rewrite C, firstn_skipn_len by lia. destruct EN. lia.
Qed.
Lemma copy_mon_eq p v w : mon_at x p v -> fits c w -> p_copy_mon fuel x (mkmit 0 p) (img c w) = (w' <- copy_mon c w v;; Ok (img c w')).
Proof.
  intros A F. unfold p_copy_mon, copy_mon, mit_deref. cbn [mit_mon]. rewrite (get_error _ _ _ (proj1 A)). cbn [bind]. change (pi (img c w)) with (length (wi w)).
  rewrite (p_mon_eq _ _ F). destruct (put_mon c w _) as [w1|] eqn:E; cbn [bind]; [|reflexivity]. exact (copy_inds_eq p v w1 A (put_mon_fits _ _ _ F E)).
Qed.
Lemma copy_mons_eq vs p e w : mons_from x p vs -> p + length vs = e -> e <= length (mons x) -> fits c w ->
  p_copy_mons fuel x (mkmit 0 p) (Ok (mkmit 0 e)) (img c w) = (w' <- copy_mons c w vs;; Ok (img c w')).
Proof.
  intros FR PE L F. unfold p_copy_mons. rewrite copy_mons_fold.
  apply (loop_fold mit_ne mit_next (mkmit 0) (mit_ne_at 0) (fun i => eq_refl) (img c) (fits c) (copy_mon c) (mon_at x)) with (e := e); auto.
  - intros q v w0. apply copy_mon_eq.
  - intros q v w0 w1 _. apply copy_mon_fits.
  - destruct EN as (_ & EM & _). lia.
Qed.
Lemma term_begin p v : term_at x p v -> tit_deref (terms x) (mktit 0 0 p) = Ok (fst v) /\ tit_begin (mons x) (terms x) (mktit 0 0 p) = Ok (mkmit 0 (moff (fst v))) /\ tit_end (mons x) (terms x) (mktit 0 0 p) = Ok (mkmit 0 (moff (fst v) + tcount (fst v))).
Proof.
  intros (A & B & _). unfold tit_begin, tit_end, tit_deref. cbn [tit_inds tit_mons tit_term]. rewrite (get_error _ _ _ A). cbn [bind plus]. rewrite !ptr_le by lia. auto.
Qed.
Lemma copy_term_eq p v w : term_at x p v -> fits c w -> p_copy_term fuel x (mktit 0 0 p) (img c w) = (w' <- copy_term c w v;; Ok (img c w')).
Proof.
  intros A F. destruct (term_begin p v A) as (D & B & E). unfold p_copy_term, copy_term. rewrite D, B, E. cbn [bind]. change (pm (img c w)) with (length (wm w)). rewrite (p_term_eq _ _ F).
  destruct (put_term c w _) as [w1|] eqn:E1; cbn [bind]; [|reflexivity]. destruct A as (A1 & A2 & A3 & A4). apply copy_mons_eq; auto; try lia. exact (put_term_fits _ _ _ F E1).
Qed.
Lemma copy_terms_eq vs p e w : terms_from x p vs -> p + length vs = e -> e <= length (terms x) -> fits c w ->
  p_copy_terms fuel x (mktit 0 0 p) (mktit 0 0 e) (img c w) = (w' <- copy_terms c w vs;; Ok (img c w')).
Proof.
  intros FR PE L F. unfold p_copy_terms. rewrite copy_terms_fold.
  apply (loop_fold tit_ne tit_next (mktit 0 0) tit_ne_at (fun i => eq_refl) (img c) (fits c) (copy_term c) (term_at x)) with (e := e); auto.
  - intros q v w0. apply copy_term_eq.
  - intros q v w0 w1 _. apply copy_term_fits.
  - destruct EN as (_ & _ & ET). lia.
Qed.
Lemma copy_term_after_eq p v w : term_at x p v -> fits c w -> p_copy_term_after fuel x (mktit 0 0 p) (img c w) = (w' <- copy_term_after c w v;; Ok (img c w')).
Proof.
  intros A F. destruct (term_begin p v A) as (D & B & E). unfold p_copy_term_after, copy_term_after. rewrite D, B, E. cbn [bind]. change (pm (img c w)) with (length (wm w)).
  destruct A as (A1 & A2 & A3 & A4). rewrite (copy_mons_eq (snd v)); auto; try lia. destruct (copy_mons c w (snd v)) as [w1|] eqn:E1; cbn [bind]; [|reflexivity].
  apply p_term_eq. exact (copy_mons_fits _ _ _ F E1).
Qed.
End Operand.

(** ** The sum *)
Section Sum.
Variables (md : mode) (x y : mv) (fuel : nat).
Hypotheses (EX : enough fuel x) (EY : enough fuel y) (E2 : length (inds x) + length (inds y) < fuel) (EM : length (mons x) + length (mons y) < fuel) (ET : length (terms x) + length (terms y) < fuel).
Lemma lex_eq lis ris : forall l r p q pe qe n, from (fun i a => nth_error lis i = Some a) p l -> from (fun i a => nth_error ris i = Some a) q r -> p + length l = pe -> q + length r = qe -> length l + length r < n ->
  p_lex n lis ris p pe q qe = lex_side l r.
Proof.
  induction l as [|a l IH]; intros [|b r] p q pe qe n FL FR PE QE N; destruct n as [|n]; cbn [length] in *; try lia; cbn [p_lex lex_side].
  - replace (p =? pe) with true by (symmetry; apply Nat.eqb_eq; lia). replace (q =? qe) with true by (symmetry; apply Nat.eqb_eq; lia). reflexivity.
  - replace (p =? pe) with true by (symmetry; apply Nat.eqb_eq; lia). replace (q =? qe) with false by (symmetry; apply Nat.eqb_neq; lia). reflexivity.
  - replace (p =? pe) with false by (symmetry; apply Nat.eqb_neq; lia). replace (q =? qe) with true by (symmetry; apply Nat.eqb_eq; lia). reflexivity.
  - replace (p =? pe) with false by (symmetry; apply Nat.eqb_neq; lia). replace (q =? qe) with false by (symmetry; apply Nat.eqb_neq; lia). cbn [andb orb].
    destruct FL as [FA FL], FR as [FB FR]. rewrite (get_error _ _ _ FA), (get_error _ _ _ FB). cbn [bind]. destruct (ind_eq a b) as [[|]|]; cbn [bind]; try reflexivity.
    apply IH; auto; lia.
Qed.
Lemma side_eq p q v u : mon_at x p v -> mon_at y q u -> p_side fuel x y (mkmit 0 p) (mkmit 0 q) = mon_side v u.
Proof.
  intros (A1 & A2 & A3) (B1 & B2 & B3). unfold p_side, mon_side, mit_begin, mit_end, mit_deref. cbn [mit_inds mit_mon]. rewrite (get_error _ _ _ A1), (get_error _ _ _ B1). cbn [bind plus].
  destruct (rne _ _); [reflexivity|]. rewrite !ptr_le by lia. cbn [bind]. rewrite A3, B3. apply lex_eq; try (now apply inds_from); rewrite !firstn_skipn_len; lia.
Qed.
Lemma mit_eq_at i j : mit_eq (mkmit 0 i) (mkmit 0 j) = (i =? j). Proof. reflexivity. Qed.
Lemma sum_mons_eq ls : forall rs p q pe qe n w, mons_from x p ls -> mons_from y q rs -> p + length ls = pe -> q + length rs = qe -> pe <= length (mons x) -> qe <= length (mons y) -> length ls + length rs < n -> fits c w ->
  p_sum_mons md fuel n x y (mkmit 0 p) (mkmit 0 pe) (mkmit 0 q) (mkmit 0 qe) (img c w) = (w' <- sum_mons md c ls rs w;; Ok (img c w')) /\ forall w', sum_mons md c ls rs w = Ok w' -> fits c w'.
Proof.
  induction ls as [|v ls IHl].
  - intros [|u rs] p q pe qe n w FL FR PE QE LX LY N F; destruct n as [|n]; cbn [length] in *; try lia; cbn [p_sum_mons sum_mons]; rewrite !mit_eq_at.
    + replace (p =? pe) with true by (symmetry; apply Nat.eqb_eq; lia). replace (q =? qe) with true by (symmetry; apply Nat.eqb_eq; lia). cbn. split; [reflexivity|]. intros w' E. now injection E as <-.
    + replace (p =? pe) with true by (symmetry; apply Nat.eqb_eq; lia). replace (q =? qe) with false by (symmetry; apply Nat.eqb_neq; lia). cbn [andb orb]. split; [apply (copy_mons_eq y fuel EY); auto|intros w'; now apply copy_mons_fits].
  - induction rs as [|u rs IHr]; intros p q pe qe n w FL FR PE QE LX LY N F; destruct n as [|n]; cbn [length] in *; try lia; cbn [p_sum_mons]; rewrite !mit_eq_at.
    + replace (p =? pe) with false by (symmetry; apply Nat.eqb_neq; lia). replace (q =? qe) with true by (symmetry; apply Nat.eqb_eq; lia). cbn [andb orb].
      cbn [sum_mons]. split; [apply (copy_mons_eq x fuel EX); auto|intros w'; now apply copy_mons_fits].
    + replace (p =? pe) with false by (symmetry; apply Nat.eqb_neq; lia). replace (q =? qe) with false by (symmetry; apply Nat.eqb_neq; lia). cbn [andb orb].
      destruct FL as [FA FL], FR as [FB FR]. rewrite (side_eq p q v u FA FB). cbn [sum_mons]. destruct (mon_side v u) as [[| |]|]; cbn [bind]; [| | |split; [reflexivity|discriminate]].
      * rewrite (copy_mon_eq x fuel EX p v w FA F). destruct (copy_mon c w v) as [w1|] eqn:E1; cbn [bind]; [|split; [reflexivity|discriminate]].
        apply (IHl (u :: rs) (S p) q pe qe n w1); auto; cbn [length]; try lia; [split; assumption|exact (copy_mon_fits _ _ _ F E1)].
      * rewrite (copy_mon_eq y fuel EY q u w FB F). destruct (copy_mon c w u) as [w1|] eqn:E1; cbn [bind]; [|split; [reflexivity|discriminate]].
        apply (IHr p (S q) pe qe n w1); auto; cbn [length]; try lia; [split; assumption|exact (copy_mon_fits _ _ _ F E1)].
      * unfold mit_deref. cbn [mit_mon]. rewrite (get_error _ _ _ (proj1 FA)), (get_error _ _ _ (proj1 FB)). cbn [bind]. destruct (radd md _ _) as [k|]; cbn [bind]; [|split; [reflexivity|discriminate]].
        destruct (is_zero k); cbn [bind].
        -- apply (IHl rs (S p) (S q) pe qe n w); auto; lia.
        -- change (pi (img c w)) with (length (wi w)). rewrite (p_mon_eq _ _ F). destruct (put_mon c w _) as [w1|] eqn:E1; cbn [bind]; [|split; [reflexivity|discriminate]].
           pose proof (put_mon_fits _ _ _ F E1) as F1. rewrite (copy_inds_eq x fuel EX p v w1 FA F1). destruct (put_inds c w1 (snd v)) as [w2|] eqn:EP; cbn [bind]; [|split; [reflexivity|discriminate]].
           apply (IHl rs (S p) (S q) pe qe n w2); auto; try lia. rewrite put_inds_fold in EP. exact (fold_fits _ (fun _ _ _ => put_ind_fits _ _ _) _ _ _ F1 EP).
Qed.
Lemma tit_eq_at i j : tit_eq (mktit 0 0 i) (mktit 0 0 j) = (i =? j). Proof. reflexivity. Qed.
Lemma sum_terms_eq ls : forall rs p q pe qe n w, terms_from x p ls -> terms_from y q rs -> p + length ls = pe -> q + length rs = qe -> pe <= length (terms x) -> qe <= length (terms y) -> length ls + length rs < n -> fits c w ->
  p_sum_terms md fuel n x y (mktit 0 0 p) (mktit 0 0 pe) (mktit 0 0 q) (mktit 0 0 qe) (img c w) = (w' <- sum_terms md c ls rs w;; Ok (img c w')).
Proof.
  induction ls as [|v ls IHl].
  - intros [|u rs] p q pe qe n w FL FR PE QE LX LY N F; destruct n as [|n]; cbn [length] in *; try lia; cbn [p_sum_terms sum_terms]; rewrite !tit_eq_at.
    + replace (p =? pe) with true by (symmetry; apply Nat.eqb_eq; lia). replace (q =? qe) with true by (symmetry; apply Nat.eqb_eq; lia). reflexivity.
    + replace (p =? pe) with true by (symmetry; apply Nat.eqb_eq; lia). replace (q =? qe) with false by (symmetry; apply Nat.eqb_neq; lia). cbn [andb orb]. apply (copy_terms_eq y fuel EY); auto.
  - induction rs as [|u rs IHr]; intros p q pe qe n w FL FR PE QE LX LY N F; destruct n as [|n]; cbn [length] in *; try lia; cbn [p_sum_terms]; rewrite !tit_eq_at.
    + replace (p =? pe) with false by (symmetry; apply Nat.eqb_neq; lia). replace (q =? qe) with true by (symmetry; apply Nat.eqb_eq; lia). cbn [andb orb].
      cbn [sum_terms]. apply (copy_terms_eq x fuel EX); auto.
    + replace (p =? pe) with false by (symmetry; apply Nat.eqb_neq; lia). replace (q =? qe) with false by (symmetry; apply Nat.eqb_neq; lia). cbn [andb orb].
      destruct FL as [FA FL], FR as [FB FR]. destruct (term_begin x p v FA) as (D1 & B1 & T1). destruct (term_begin y q u FB) as (D2 & B2 & T2). rewrite D1, D2, B1, B2, T1, T2. cbn [bind sum_terms].
      destruct (_ =? _)%N.
      * destruct FA as (A1 & A2 & A3 & A4). destruct FB as (G1 & G2 & G3 & G4).
        destruct (sum_mons_eq (snd v) (snd u) (moff (fst v)) (moff (fst u)) (moff (fst v) + tcount (fst v)) (moff (fst u) + tcount (fst u)) fuel w) as [SM SF]; auto; try lia.
        rewrite SM. destruct (sum_mons md c (snd v) (snd u) w) as [w1|] eqn:E1; cbn [bind]; [|reflexivity]. specialize (SF w1 eq_refl).
        change (pm (img c w1)) with (length (wm w1)). change (pm (img c w)) with (length (wm w)). destruct (_ =? 0); cbn [bind].
        -- apply (IHl rs (S p) (S q) pe qe n w1); auto; lia.
        -- rewrite (p_term_eq _ _ SF). destruct (put_term c w1 _) as [w2|] eqn:E3; cbn [bind]; [|reflexivity]. apply (IHl rs (S p) (S q) pe qe n w2); auto; try lia. exact (put_term_fits _ _ _ SF E3).
      * destruct (_ <? _)%N.
        -- rewrite (copy_term_after_eq x fuel EX p v w FA F). destruct (copy_term_after c w v) as [w1|] eqn:E1; cbn [bind]; [|reflexivity].
           apply (IHl (u :: rs) (S p) q pe qe n w1); auto; cbn [length]; try lia; [split; assumption|exact (copy_term_after_fits _ _ _ F E1)].
        -- rewrite (copy_term_after_eq y fuel EY q u w FB F). destruct (copy_term_after c w u) as [w1|] eqn:E1; cbn [bind]; [|reflexivity].
           apply (IHr p (S q) pe qe n w1); auto; cbn [length]; try lia; [split; assumption|exact (copy_term_after_fits _ _ _ F E1)].
Qed.
End Sum.
End Img.
Theorem p_sum_eq md fuel x y l r : read x = Ok l -> read y = Ok r -> length (inds x) + length (inds y) < fuel -> length (mons x) + length (mons y) < fuel -> length (terms x) + length (terms y) < fuel ->
  p_sum md fuel x y = sum md x y.
Proof.
  intros HX HY F1 F2 F3. destruct (read_terms x l HX) as (A1 & A2 & A3). destruct (read_terms y r HY) as (B1 & B2 & B3).
  unfold p_sum, sum, mv_end, mv_begin. rewrite HX, HY, !ptr_le by lia. cbn [bind]. set (c := mkcaps _ _ _).
  assert (NEW : p_new c = img c wr0) by (unfold p_new, img, fill, wr0; cbn [wi wm wt length app]; now rewrite !Nat.sub_0_r). rewrite NEW.
  rewrite (sum_terms_eq c md x y fuel) with (ls := l) (rs := r); auto; unfold enough, fits; cbn [length wi wm wt wr0]; try (repeat split; lia).
  destruct (sum_terms md c l r wr0); reflexivity.
Qed.
Theorem store_eq {A} cap (d : A) l : forall k, length k + length l <= cap -> store l (length k) (fill cap d k) = Ok (length k + length l, fill cap d (k ++ l)).
Proof.
  induction l as [|a l IH]; intros k L; cbn [store length] in *; [now rewrite Nat.add_0_r, app_nil_r|]. rewrite set_fill by lia. unfold app1. rewrite (proj2 (Nat.ltb_lt _ _)) by lia. cbn [bind].
  specialize (IH (k ++ [a])). rewrite app_length in IH. cbn [length] in IH. replace (S (length k)) with (length k + 1) by lia. rewrite IH by lia. rewrite <- app_assoc. cbn [app]. f_equal. f_equal. lia.
Qed.

(** ** extent *)
Lemma fold_pure {V W} (f : W -> V -> W) vs : forall w, foldM (fun w v => Ok (f w v)) w vs = Ok (fold_left f vs w).
Proof. induction vs as [|v vs IH]; intros w; [reflexivity|]. cbn. apply IH. Qed.
Definition wide (s : nat * nat) (m : mon) : nat * nat := if fst s <? mcount m then (mcount m, snd s) else s.
Lemma fold_wide (l : list vmon) : forall s, fold_left (fun s v => wide s (fst v)) l s = (fold_left (fun a m => Nat.max a (mcount (fst m))) l (fst s), snd s).
Proof. induction l as [|m l IH]; intros [a b]; [reflexivity|]. cbn [fold_left]. rewrite IH. unfold wide. cbn [fst snd]. destruct (Nat.ltb_spec a (mcount (fst m))); cbn [fst snd]; do 2 f_equal; lia. Qed.
Theorem p_extent_eq fuel x l : read x = Ok l -> enough fuel x -> p_extent fuel x = extent x.
Proof.
  intros H EN. destruct (read_terms x l H) as (A & B & C). unfold p_extent, extent, mv_end, mv_begin. rewrite H, ptr_le by lia. cbn [bind].
  set (step := fun (s : nat * nat) (v : vterm) => fold_left (fun s v => wide s (fst v)) (snd v) (if snd s <? tcount (fst v) then (fst s, tcount (fst v)) else s)).
  rewrite (loop_fold tit_ne tit_next (mktit 0 0) tit_ne_at (fun i => eq_refl) (fun s => s) (fun _ => True) (fun s v => Ok (step s v)) (term_at x)) with (e := tsz x) (vs := l); auto.
  - rewrite fold_pure. cbn [bind]. do 2 f_equal.
    assert (G : forall l a b, fold_left step l (a, b) = (fold_left (fun a v => fold_left (fun a' m => Nat.max a' (mcount (fst m))) (snd v) a) l a, fold_left (fun a v => Nat.max a (tcount (fst v))) l b)).
    { clear. induction l as [|v l IH]; intros a b; [reflexivity|]. cbn [fold_left]. unfold step at 2. rewrite fold_wide. cbn [fst snd]. destruct (Nat.ltb_spec b (tcount (fst v))); cbn [fst snd]; rewrite IH; do 2 f_equal; lia. }
    rewrite G. reflexivity.
  - intros p v w T _. destruct (term_begin x p v T) as (D & BB & EE). rewrite D, BB, EE. cbn [bind]. destruct T as (T1 & T2 & T3 & T4).
    rewrite (loop_fold mit_ne mit_next (mkmit 0) (mit_ne_at 0) (fun i => eq_refl) (fun s => s) (fun _ => True) (fun s v => Ok (wide s (fst v))) (mon_at x)) with (e := moff (fst v) + tcount (fst v)) (vs := snd v); auto; try lia.
    + rewrite fold_pure. reflexivity.
    + intros q u s (M & _) _. unfold mit_deref. cbn [mit_mon]. rewrite (get_error _ _ _ M). reflexivity.
    + destruct EN as (_ & EM & _). assert (Q : tcount (fst v) < fuel) by lia. rewrite <- T3 in Q. exact Q.
  - destruct EN as (_ & _ & ET). lia.
Qed.
