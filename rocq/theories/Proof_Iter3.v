(** The loops of the product and of the dual refine the functions on views; cells that were not
    written have no influence. *)
From Coq Require Import ZArith NArith List Bool Arith Lia.
From Verif Require Import Base Model_Numeric Model_Blade Model_Sort Model_MV Model_Product Model_Iter Model_Iter2 Proof_Numeric Proof_Iter Proof_Iter2 Proof_Proper.
Import ListNotations.
Local Open Scope nat_scope.

(** ** More cells behind the ones that are used *)
(** the second computation does what the first one does, unless that one leaves an array *)
Definition ext {A B} (R : A -> B -> Prop) (r : res A) (r' : res B) : Prop :=
  match r, r' with
  | Err OutOfBounds, _ => True
  | Err e, Err e' => e = e'
  | Ok a, Ok b => R a b
  | _, _ => False
  end.
Lemma ext_bind {A B C D} (R : A -> B -> Prop) (S : C -> D -> Prop) r r' f f' : ext R r r' -> (forall a b, R a b -> ext S (f a) (f' b)) -> ext S (bind r f) (bind r' f').
Proof. destruct r as [a|[]], r' as [b|e']; cbn; intros H G; try contradiction; auto. Qed.
Lemma ext_refl {A} (r : res A) : ext eq r r.
Proof. destruct r as [a|[]]; cbn; auto. Qed.
Lemma ext_eq {A} (r r' : res A) : ext eq r r' -> r = Err OutOfBounds \/ r' = r.
Proof. destruct r as [a|[]], r' as [b|e']; cbn; intros H; try contradiction; subst; auto. Qed.
Ltac same := match goal with |- ext _ (bind ?r _) (bind ?r _) => apply (ext_bind eq _ r r); [apply ext_refl|intros ? ? <-] end.
Section Ext.
Context {A : Type}.
Variable s : list A.
Definition more (l l' : list A) : Prop := l' = l ++ s.
Lemma get_ext (l : list A) i : ext eq (get l i) (get (l ++ s) i).
Proof.
  unfold get. destruct (nth_error l i) as [b|] eqn:E; [|exact I].
  rewrite nth_error_app1; [now rewrite E|]. apply nth_error_Some. congruence.
Qed.
Lemma upd_ext (l : list A) : forall i a, i < length l -> upd (l ++ s) i a = upd l i a ++ s.
Proof. induction l as [|b l IH]; intros i a L; cbn [length] in L; [lia|]. destruct i as [|i]; [reflexivity|]. cbn. f_equal. apply IH. lia. Qed.
Lemma set_ext (l : list A) i a : ext more (set l i a) (set (l ++ s) i a).
Proof.
  unfold set. destruct (Nat.ltb_spec i (length l)) as [L|L]; [|exact I].
  rewrite app_length. replace (i <? length l + length s) with true by (symmetry; apply Nat.ltb_lt; lia). now apply upd_ext.
Qed.
Lemma slice_ext (l : list A) p n : ext eq (slice l p n) (slice (l ++ s) p n).
Proof.
  unfold slice. destruct (Nat.leb_spec (p + n) (length l)) as [L|L]; [|exact I].
  rewrite app_length. replace (p + n <=? length l + length s) with true by (symmetry; apply Nat.leb_le; lia).
  cbn. rewrite skipn_app, firstn_app, skipn_length. replace (n - (length l - p)) with 0 by lia. cbn. symmetry. apply app_nil_r.
Qed.
Lemma swap_ext (l : list A) i j : ext more (swap l i j) (swap (l ++ s) i j).
Proof.
  unfold swap. destruct (i =? j); [reflexivity|]. eapply ext_bind; [apply get_ext|intros a ? <-]. eapply ext_bind; [apply get_ext|intros b ? <-].
  eapply ext_bind; [apply set_ext|intros l1 ? ->]. apply set_ext.
Qed.
Variables less less' : A -> A -> res bool.
Hypothesis LE : forall a b, ext eq (less a b) (less' a b).
Lemma less_at_ext (l : list A) i j : ext eq (less_at less l i j) (less_at less' (l ++ s) i j).
Proof. unfold less_at. eapply ext_bind; [apply get_ext|intros a ? <-]. eapply ext_bind; [apply get_ext|intros b ? <-]. apply LE. Qed.
Lemma part_ext n : forall (l : list A) c it p, ext (fun a b => b = (fst a ++ s, snd a)) (part less n l c it p) (part less' n (l ++ s) c it p).
Proof.
  induction n as [|n IH]; intros l c it p; cbn [part]; [reflexivity|]. eapply ext_bind; [apply get_ext|intros a ? <-].
  eapply ext_bind; [apply LE|intros b ? <-]. destruct b; [|apply IH]. eapply ext_bind; [apply swap_ext|intros l1 ? ->]. apply IH.
Qed.
Ltac step := eapply ext_bind; [first [apply less_at_ext | apply swap_ext]|intros ? ? HH; cbv beta in HH; unfold more in HH; subst].
Lemma sort3_ext (l : list A) f : ext more (sort3 less l f) (sort3 less' (l ++ s) f).
Proof.
  unfold sort3. step. destruct b.
  - step. destruct b; [|apply swap_ext]. step. destruct b; [apply swap_ext|]. step. apply swap_ext.
  - step. destruct b; [step; apply swap_ext|]. step. destruct b; [apply swap_ext|reflexivity].
Qed.
Lemma sort_ext n : forall (l : list A) f e, ext more (sort less n l f e) (sort less' n (l ++ s) f e).
Proof.
  induction n as [|n IH]; intros l f e; cbn [sort]; [reflexivity|].
  destruct (_ <? 2); [reflexivity|]. destruct (_ <? 3); [step; destruct b; [apply swap_ext|reflexivity]|].
  destruct (_ <? 4); [apply sort3_ext|]. eapply ext_bind; [apply get_ext|intros p ? <-].
  eapply ext_bind; [apply part_ext|intros [l1 k] ? ->]. cbn [fst snd]. eapply ext_bind; [apply swap_ext|intros l2 ? ->]. eapply ext_bind; [apply IH|intros l3 ? ->]. apply IH.
Qed.
End Ext.
Lemma sort_range_ext {A} (s : list A) less less' : (forall a b, ext eq (less a b) (less' a b)) ->
  forall l f e, ext (more s) (sort_range less l f e) (sort_range less' (l ++ s) f e).
Proof. intros LE l f e. unfold sort_range. now apply sort_ext. Qed.
Lemma sort_range_less {A} less less' : (forall a b, ext eq (less a b) (less' a b)) ->
  forall (l : list A) f e, ext eq (sort_range less l f e) (sort_range less' l f e).
Proof.
  intros LE l f e. pose proof (sort_range_ext [] less less' LE l f e) as G. rewrite app_nil_r in G.
  destruct (sort_range less l f e) as [a|[]], (sort_range less' l f e) as [b|e']; cbn in *; auto. unfold more in G. now rewrite app_nil_r in G.
Qed.

(** ** collate does not look at cells behind the ones that were written *)
Section Collate.
Variables (md : mode) (xm : list mon) (xi : list ind).
Lemma read_mon_ext is m : ext eq (read_mon is m) (read_mon (is ++ xi) m).
Proof. unfold read_mon. eapply ext_bind; [apply slice_ext|intros l ? <-]. apply ext_refl. Qed.
Lemma mon_less_ext is a b : ext eq (mon_less is a b) (mon_less (is ++ xi) a b).
Proof. unfold mon_less. eapply ext_bind; [apply read_mon_ext|intros l ? <-]. eapply ext_bind; [apply read_mon_ext|intros r ? <-]. apply ext_refl. Qed.
Lemma gather_ext ms e ts : forall buf pos, ext eq (gather ms e ts buf pos) (gather (ms ++ xm) e ts buf pos).
Proof.
  induction ts as [|t ts IH]; intros buf pos; cbn [gather]; [apply ext_refl|]. destruct (_ =? _)%N; [|apply ext_refl].
  eapply ext_bind; [apply slice_ext|intros l ? <-]. same. destruct a as [b p]. apply IH.
Qed.
Lemma run_equal_ext is cur buf n : forall next q, ext eq (run_equal md is cur buf n next q) (run_equal md (is ++ xi) cur buf n next q).
Proof.
  induction n as [|n IH]; intros next q; cbn [run_equal]; [apply ext_refl|]. same. eapply ext_bind; [apply read_mon_ext|intros v ? <-].
  destruct (mon_eq _ _); [|apply ext_refl]. same. apply IH.
Qed.
Lemma merge_mons_ext n cap is : forall buf it stop writer oi, ext eq (merge_mons md n cap is buf it stop writer oi) (merge_mons md n cap (is ++ xi) buf it stop writer oi).
Proof.
  induction n as [|n IH]; intros buf it stop writer oi; cbn [merge_mons]; [apply ext_refl|]. destruct (_ <? _); [|apply ext_refl]. same.
  eapply ext_bind; [apply read_mon_ext|intros cur ? <-]. eapply ext_bind; [apply run_equal_ext|intros [q next] ? <-]. destruct (is_zero q); [apply IH|]. same. same.
  eapply ext_bind; [apply slice_ext|intros l ? <-]. same. apply IH.
Qed.
Lemma collate_loop_ext n c ms is : forall ts buf pos oi ot, ext eq (collate_loop md n c ms is ts buf pos oi ot) (collate_loop md n c (ms ++ xm) (is ++ xi) ts buf pos oi ot).
Proof.
  induction n as [|n IH]; intros ts buf pos oi ot; cbn [collate_loop]; [apply ext_refl|]. destruct ts as [|t ts]; [apply ext_refl|].
  eapply ext_bind; [apply gather_ext|intros [[rest b1] stop] ? <-]. eapply ext_bind; [apply sort_range_less, mon_less_ext|intros b2 ? <-].
  eapply ext_bind; [apply merge_mons_ext|intros [[b3 writer] oi'] ? <-]. cbv zeta. same. apply IH.
Qed.
Lemma collate_ext c ts ms is : ext eq (collate md c ts ms is) (collate md c ts (ms ++ xm) (is ++ xi)).
Proof. unfold collate. eapply ext_bind; [apply collate_loop_ext|intros z ? <-]. apply ext_refl. Qed.
End Collate.

(** ** The arrays of a product *)
Definition over {A} (g l : list A) : list A := l ++ skipn (length l) g.
Lemma over_length {A} (g l : list A) : length l <= length g -> length (over g l) = length g.
Proof. intros H. unfold over. rewrite app_length, skipn_length. lia. Qed.
Lemma set_over {A} (g l : list A) x : length l <= length g -> set (over g l) (length l) x = (l' <- app1 (length g) l x;; Ok (over g l')).
Proof.
  intros H. unfold set, app1. rewrite (over_length g l H). destruct (Nat.ltb_spec (length l) (length g)) as [L|L]; [|reflexivity]. cbn [bind]. f_equal.
  unfold over. rewrite app_length. cbn [length]. destruct (nth_range g (length l) L) as (a & N). rewrite (nth_cons_split _ _ _ N), upd_app, <- app_assoc. cbn [app]. do 3 f_equal. lia.
Qed.
Section Product.
Variables (gi : list ind) (gm : list mon) (gt : list term).
Let c := mkcaps (length gi) (length gm) (length gt).
Definition imgg (w : wr) : po := mkpo (length (wi w)) (length (wm w)) (length (wt w)) (over gi (wi w)) (over gm (wm w)) (over gt (wt w)).
Lemma g_ind w x : fits c w -> p_ind (imgg w) x = (w' <- put_ind c w x;; Ok (imgg w')).
Proof.
  intros (F & _). unfold p_ind, put_ind, imgg. cbn [ai pi pm pt am at_]. rewrite (set_over _ _ _ F). cbn [ci c]. destruct (app1 (length gi) (wi w) x) as [l|] eqn:E; cbn [bind wi wm wt]; [|reflexivity]. now rewrite (app1_S _ _ _ _ E).
Qed.
Lemma g_mon w x : fits c w -> p_mon (imgg w) x = (w' <- put_mon c w x;; Ok (imgg w')).
Proof.
  intros (_ & F & _). unfold p_mon, put_mon, imgg. cbn [ai pi pm pt am at_]. rewrite (set_over _ _ _ F). cbn [cm c]. destruct (app1 (length gm) (wm w) x) as [l|] eqn:E; cbn [bind wi wm wt]; [|reflexivity]. now rewrite (app1_S _ _ _ _ E).
Qed.
Lemma g_term w x : fits c w -> p_term (imgg w) x = (w' <- put_term c w x;; Ok (imgg w')).
Proof.
  intros (_ & _ & F). unfold p_term, put_term, imgg. cbn [ai pi pm pt am at_]. rewrite (set_over _ _ _ F). cbn [ct c]. destruct (app1 (length gt) (wt w) x) as [l|] eqn:E; cbn [bind wi wm wt]; [|reflexivity]. now rewrite (app1_S _ _ _ _ E).
Qed.
Definition rest_step (s : wr * rat) (x : ind) : res (wr * rat) := d <- radd_assign (snd s) (ideg x);; w <- put_ind c (fst s) x;; Ok (w, d).
Lemma rest_fold l : forall w d, rest_inds c w d l = foldM rest_step (w, d) l.
Proof. induction l as [|x l IH]; intros w d; [reflexivity|]. cbn [rest_inds foldM]. unfold rest_step at 1. cbn [fst snd]. destruct (radd_assign d (ideg x)) as [d'|]; cbn [bind]; [|reflexivity]. destruct (put_ind c w x); cbn [bind]; [apply IH|reflexivity]. Qed.
Lemma rest_fits l : forall w d w' d', fits c w -> rest_inds c w d l = Ok (w', d') -> fits c w'.
Proof.
  induction l as [|x l IH]; intros w d w' d' F H; cbn [rest_inds] in H; [now injection H as <- _|]. repeat minv H. exact (IH _ _ _ _ (put_ind_fits c _ _ _ F E0) H).
Qed.
Definition pimg (s : wr * rat) : po * rat := (imgg (fst s), snd s).
Lemma rest_eq fuel is l : forall p e w d, from (fun q a => nth_error is q = Some a) p l -> p + length l = e -> length l < fuel -> fits c w ->
  p_rest fuel is p e (imgg w) d = (s <- rest_inds c w d l;; Ok (pimg s)).
Proof.
  intros p e w d FR PE N F. unfold p_rest. rewrite rest_fold.
  apply (loop_fold ptr_ne S (fun i => i) (fun i j => eq_refl) (fun i => eq_refl) pimg (fun s => fits c (fst s)) rest_step (fun q a => nth_error is q = Some a)) with (e := e) (w := (w, d)); auto.
  - intros q a [w0 d0] NE F0. rewrite (get_error _ _ _ NE). cbn [bind pimg fst snd] in *. unfold rest_step. cbn [fst snd]. destruct (radd_assign d0 (ideg a)) as [d1|]; cbn [bind]; [|reflexivity].
    rewrite (g_ind _ _ F0). destruct (put_ind c w0 a); reflexivity.
  - intros q a [w0 d0] [w1 d1] _ F0 E. unfold rest_step in E. cbn [fst snd] in *. repeat minv E. injection E as <- _. exact (put_ind_fits c _ _ _ F0 E1).
Qed.
Section Operands.
Variables (md : mode) (x y : mv) (fuel : nat).
Hypotheses (E1 : length (inds x) + length (inds y) < fuel) (E2 : length (mons x) + length (mons y) < fuel) (E3 : length (terms x) + length (terms y) < fuel).
Lemma merge_eq lis ris : length lis + length ris < fuel -> forall ls rs p q pe qe n w d,
  from (fun i a => nth_error lis i = Some a) p ls -> from (fun i a => nth_error ris i = Some a) q rs -> p + length ls = pe -> q + length rs = qe -> pe <= length lis -> qe <= length ris -> length ls + length rs < n -> fits c w ->
  p_merge md fuel n lis ris p pe q qe (imgg w) d = (s <- merge_inds md c ls rs w d;; Ok (pimg s)) /\ forall s, merge_inds md c ls rs w d = Ok s -> fits c (fst s).
Proof.
  intros FU. induction ls as [|a ls IHl].
  - intros [|b rs] p q pe qe n w d FL FR PE QE LX LY N F; destruct n as [|n]; cbn [length] in *; try lia; cbn [p_merge merge_inds].
    + replace (p =? pe) with true by (symmetry; apply Nat.eqb_eq; lia). replace (q =? qe) with true by (symmetry; apply Nat.eqb_eq; lia). cbn. split; [reflexivity|]. intros s E. now injection E as <-.
    + replace (p =? pe) with true by (symmetry; apply Nat.eqb_eq; lia). replace (q =? qe) with false by (symmetry; apply Nat.eqb_neq; lia). cbn [andb orb].
      split; [apply rest_eq; auto; cbn [length]; lia|]. intros [w' d'] E. exact (rest_fits _ _ _ _ _ F E).
  - induction rs as [|b rs IHr]; intros p q pe qe n w d FL FR PE QE LX LY N F; destruct n as [|n]; cbn [length] in *; try lia; cbn [p_merge].
    + replace (p =? pe) with false by (symmetry; apply Nat.eqb_neq; lia). replace (q =? qe) with true by (symmetry; apply Nat.eqb_eq; lia). cbn [andb orb merge_inds].
      split; [apply rest_eq; auto; cbn [length]; lia|]. intros [w' d'] E. exact (rest_fits _ _ _ _ _ F E).
    + replace (p =? pe) with false by (symmetry; apply Nat.eqb_neq; lia). replace (q =? qe) with false by (symmetry; apply Nat.eqb_neq; lia). cbn [andb orb].
      destruct FL as [FA FL], FR as [FB FR]. rewrite (get_error _ _ _ FA), (get_error _ _ _ FB). cbn [bind merge_inds]. destruct (id a =? id b)%N.
      * destruct (radd md _ _) as [nd|]; cbn [bind]; [|split; [reflexivity|discriminate]]. destruct (radd_assign d nd) as [d'|]; cbn [bind]; [|split; [reflexivity|discriminate]].
        destruct (rne_int nd 0); cbn [bind].
        -- rewrite (g_ind _ _ F). destruct (put_ind c w _) as [w1|] eqn:EW; cbn [bind]; [|split; [reflexivity|discriminate]].
           apply (IHl rs (S p) (S q) pe qe n w1 d'); auto; try lia. exact (put_ind_fits c _ _ _ F EW).
        -- apply (IHl rs (S p) (S q) pe qe n w d'); auto; lia.
      * destruct (id a <? id b)%N.
        -- rewrite (g_ind _ _ F). destruct (put_ind c w a) as [w1|] eqn:EW; cbn [bind]; [|split; [reflexivity|discriminate]]. destruct (radd_assign d _) as [d'|]; cbn [bind]; [|split; [reflexivity|discriminate]].
           apply (IHl (b :: rs) (S p) q pe qe n w1 d'); auto; cbn [length]; try lia; [split; assumption|exact (put_ind_fits c _ _ _ F EW)].
        -- rewrite (g_ind _ _ F). destruct (put_ind c w b) as [w1|] eqn:EW; cbn [bind]; [|split; [reflexivity|discriminate]]. destruct (radd_assign d _) as [d'|]; cbn [bind]; [|split; [reflexivity|discriminate]].
           apply (IHr p (S q) pe qe n w1 d'); auto; cbn [length]; try lia; [split; assumption|exact (put_ind_fits c _ _ _ F EW)].
Qed.
Lemma prod_mon_eq mult p q v u w : mon_at x p v -> mon_at y q u -> fits c w ->
  p_prod_mon md fuel x y mult (mkmit 0 p) (mkmit 0 q) (imgg w) = (w' <- prod_mon md c mult w v u;; Ok (imgg w')) /\ forall w', prod_mon md c mult w v u = Ok w' -> fits c w'.
Proof.
  intros (A1 & A2 & A3) (B1 & B2 & B3) F. unfold p_prod_mon, prod_mon, mit_begin, mit_end, mit_deref. cbn [mit_inds mit_mon]. rewrite (get_error _ _ _ A1), (get_error _ _ _ B1). cbn [bind plus].
  rewrite !ptr_le by lia. cbn [bind]. destruct (merge_eq (inds x) (inds y) E1 (snd v) (snd u) (ioff (fst v)) (ioff (fst u)) (ioff (fst v) + mcount (fst v)) (ioff (fst u) + mcount (fst u)) fuel w zero) as [M MF]; auto;
    try (rewrite ?A3, ?B3; rewrite ?firstn_skipn_len; lia); try (rewrite ?A3, ?B3; now apply inds_from).
  rewrite M. destruct (merge_inds md c (snd v) (snd u) w zero) as [[w1 d]|] eqn:EM; cbn [bind pimg fst snd]; [|split; [reflexivity|discriminate]]. specialize (MF _ eq_refl). cbn [fst] in MF.
  destruct (rscale_int mult _) as [a|]; cbn [bind]; [|split; [reflexivity|discriminate]]. destruct (rmul md a _) as [k|]; cbn [bind]; [|split; [reflexivity|discriminate]].
  change (pi (imgg w1)) with (length (wi w1)). change (pi (imgg w)) with (length (wi w)). split; [now apply g_mon|]. intros w' E. exact (put_mon_fits c _ _ _ MF E).
Qed.
Lemma prod_row_fold mult v us : forall w, prod_mon_row md c mult w v us = foldM (fun w u => prod_mon md c mult w v u) w us.
Proof. induction us as [|u us IH]; intros w; [reflexivity|]. cbn. destruct (prod_mon md c mult w v u); [apply IH|reflexivity]. Qed.
Lemma prod_mons_fold mult us vs : forall w, prod_mons md c mult w vs us = foldM (fun w v => prod_mon_row md c mult w v us) w vs.
Proof. induction vs as [|v vs IH]; intros w; [reflexivity|]. cbn. destruct (prod_mon_row md c mult w v us); [apply IH|reflexivity]. Qed.
(** a property of the state that every step of a loop over cells keeps *)
Lemma fold_inv {V W} (inv : W -> Prop) (step : W -> V -> res W) (cell : nat -> V -> Prop) : (forall p v w w', cell p v -> inv w -> step w v = Ok w' -> inv w') ->
  forall vs p w w', from cell p vs -> inv w -> foldM step w vs = Ok w' -> inv w'.
Proof. intros ST. induction vs as [|v vs IH]; intros p w w' FR IN H; cbn [foldM] in H; [now injection H as <-|]. minv H. destruct FR as [FA FR]. exact (IH (S p) _ _ FR (ST _ _ _ _ FA IN E) H). Qed.
Lemma prod_row_eq mult p v us q qe w : mon_at x p v -> mons_from y q us -> q + length us = qe -> qe <= length (mons y) -> fits c w ->
  iterate mit_ne mit_next (Ok (mkmit 0 qe)) (fun rm o => p_prod_mon md fuel x y mult (mkmit 0 p) rm o) fuel (mkmit 0 q) (imgg w) = (w' <- prod_mon_row md c mult w v us;; Ok (imgg w')) /\
  forall w', prod_mon_row md c mult w v us = Ok w' -> fits c w'.
Proof.
  intros A FR QE L F. rewrite prod_row_fold. split.
  - apply (loop_fold mit_ne mit_next (mkmit 0) (mit_ne_at 0) (fun i => eq_refl) imgg (fits c) (fun w u => prod_mon md c mult w v u) (mon_at y)) with (e := qe); auto; try lia.
    + intros k u w0 U F0. now apply prod_mon_eq.
    + intros k u w0 w1 U F0. now apply (prod_mon_eq mult p k v u w0 A U F0).
  - intros w' E. refine (fold_inv (fits c) _ (mon_at y) _ us q w w' FR F E). intros k u w0 w1 U F0. now apply (prod_mon_eq mult p k v u w0 A U F0).
Qed.
Lemma prod_mons_eq mult p q v u w : term_at x p v -> term_at y q u -> fits c w ->
  p_prod_mons md fuel x y mult (mktit 0 0 p) (mktit 0 0 q) (imgg w) = (w' <- prod_mons md c mult w (snd v) (snd u);; Ok (imgg w')) /\ forall w', prod_mons md c mult w (snd v) (snd u) = Ok w' -> fits c w'.
Proof.
  intros TX TY F. destruct (term_begin x p v TX) as (_ & B1 & T1). destruct (term_begin y q u TY) as (_ & B2 & T2). unfold p_prod_mons. rewrite B1, B2, T1, T2. cbn [bind].
  destruct TX as (A1 & A2 & A3 & A4). destruct TY as (G1 & G2 & G3 & G4). rewrite prod_mons_fold.
  assert (ROW : forall k m w0, mon_at x k m -> fits c w0 ->
    iterate mit_ne mit_next (Ok (mkmit 0 (moff (fst u) + tcount (fst u)))) (fun rm o => p_prod_mon md fuel x y mult (mkmit 0 k) rm o) fuel (mkmit 0 (moff (fst u))) (imgg w0) = (w' <- prod_mon_row md c mult w0 m (snd u);; Ok (imgg w')) /\
    forall w', prod_mon_row md c mult w0 m (snd u) = Ok w' -> fits c w') by (intros k m w0 M F0; apply prod_row_eq; auto; lia).
  split.
  - apply (loop_fold mit_ne mit_next (mkmit 0) (mit_ne_at 0) (fun i => eq_refl) imgg (fits c) (fun w m => prod_mon_row md c mult w m (snd u)) (mon_at x)) with (e := moff (fst v) + tcount (fst v)); auto; try lia.
    + intros k m w0 M F0. exact (proj1 (ROW k m w0 M F0)).
    + intros k m w0 w1 M F0. exact (proj2 (ROW k m w0 M F0) w1).
  - intros w' E. refine (fold_inv (fits c) _ (mon_at x) _ (snd v) _ w w' A4 F E). intros k m w0 w1 M F0. exact (proj2 (ROW k m w0 M F0) w1).
Qed.
Variable P : N -> N -> N * Z.
Lemma prod_term_eq p q v u w : term_at x p v -> term_at y q u -> fits c w ->
  p_prod_term md fuel P x y (mktit 0 0 p) (mktit 0 0 q) (imgg w) = (w' <- prod_term md P c w v u;; Ok (imgg w')) /\ forall w', prod_term md P c w v u = Ok w' -> fits c w'.
Proof.
  intros TX TY F. unfold p_prod_term, prod_term. rewrite (proj1 (term_begin x p v TX)), (proj1 (term_begin y q u TY)). cbn [bind]. destruct (P _ _) as [e mult].
  destruct (mult =? 0)%Z; [cbn; split; [reflexivity|intros w' E; now injection E as <-]|]. destruct (prod_mons_eq mult p q v u w TX TY F) as [M MF]. rewrite M.
  destruct (prod_mons md c mult w (snd v) (snd u)) as [w1|] eqn:EM; cbn [bind]; [|split; [reflexivity|discriminate]]. specialize (MF _ eq_refl).
  change (pm (imgg w1)) with (length (wm w1)). change (pm (imgg w)) with (length (wm w)). split; [now apply g_term|]. intros w' E. exact (put_term_fits c _ _ _ MF E).
Qed.
Lemma prod_term_row_fold v us : forall w, prod_term_row md P c w v us = foldM (fun w u => prod_term md P c w v u) w us.
Proof. induction us as [|u us IH]; intros w; [reflexivity|]. cbn. destruct (prod_term md P c w v u); [apply IH|reflexivity]. Qed.
Lemma prod_terms_fold us vs : forall w, prod_terms md P c w vs us = foldM (fun w v => prod_term_row md P c w v us) w vs.
Proof. induction vs as [|v vs IH]; intros w; [reflexivity|]. cbn. destruct (prod_term_row md P c w v us); [apply IH|reflexivity]. Qed.
Lemma prod_term_row_eq p v r w : term_at x p v -> read y = Ok r -> fits c w ->
  iterate tit_ne tit_next (mv_end y) (fun q o => p_prod_term md fuel P x y (mktit 0 0 p) q o) fuel mv_begin (imgg w) = (w' <- prod_term_row md P c w v r;; Ok (imgg w')) /\
  forall w', prod_term_row md P c w v r = Ok w' -> fits c w'.
Proof.
  intros TX HY F. destruct (read_terms y r HY) as (B1 & B2 & B3). rewrite prod_term_row_fold. split.
  - unfold mv_end, mv_begin. rewrite ptr_le by lia. cbn [bind].
    apply (loop_fold tit_ne tit_next (mktit 0 0) tit_ne_at (fun i => eq_refl) imgg (fits c) (fun w u => prod_term md P c w v u) (term_at y)) with (e := tsz y); auto; try lia.
    + intros k u w0 U F0. now apply prod_term_eq.
    + intros k u w0 w1 U F0. now apply (prod_term_eq p k v u w0 TX U F0).
  - intros w' E. refine (fold_inv (fits c) _ (term_at y) _ r 0 w w' B3 F E). intros k u w0 w1 U F0. now apply (prod_term_eq p k v u w0 TX U F0).
Qed.
Lemma prod_terms_eq l r w : read x = Ok l -> read y = Ok r -> fits c w -> p_prod_terms md fuel P x y (imgg w) = (w' <- prod_terms md P c w l r;; Ok (imgg w')) /\ forall w', prod_terms md P c w l r = Ok w' -> fits c w'.
Proof.
  intros HX HY F. destruct (read_terms x l HX) as (A1 & A2 & A3). unfold p_prod_terms. rewrite prod_terms_fold. split.
  - unfold mv_end at 1, mv_begin at 2. rewrite ptr_le by lia. cbn [bind].
    apply (loop_fold tit_ne tit_next (mktit 0 0) tit_ne_at (fun i => eq_refl) imgg (fits c) (fun w v => prod_term_row md P c w v r) (term_at x)) with (e := tsz x); auto; try lia.
    + intros k v w0 V F0. now apply prod_term_row_eq.
    + intros k v w0 w1 V F0. now apply (prod_term_row_eq k v r w0 V HY F0).
  - intros w' E. refine (fold_inv (fits c) _ (term_at x) _ l 0 w w' A3 F E). intros k v w0 w1 V F0. now apply (prod_term_row_eq k v r w0 V HY F0).
Qed.
End Operands.
End Product.
Theorem p_product_eq md fuel P x y gi gm gt l r : read x = Ok l -> read y = Ok r ->
  length (inds x) + length (inds y) < fuel -> length (mons x) + length (mons y) < fuel -> length (terms x) + length (terms y) < fuel ->
  length gi = ci (prod_caps x y) -> length gm = cm (prod_caps x y) -> length gt = ct (prod_caps x y) ->
  product md P x y = Err OutOfBounds \/ p_product md fuel P x y gi gm gt = product md P x y.
Proof.
  intros HX HY F1 F2 F3 C1 C2 C3. apply ext_eq. unfold product, p_product. rewrite HX, HY. cbn [bind].
  assert (CC : mkcaps (length gi) (length gm) (length gt) = prod_caps x y) by (rewrite C1, C2, C3; reflexivity). rewrite <- CC.
  change (p_temp gi gm gt) with (imgg gi gm gt wr0).
  destruct (prod_terms_eq gi gm gt md x y fuel F1 F2 F3 P l r wr0 HX HY) as [M MF]; [unfold fits; cbn; lia|]. rewrite M.
  destruct (prod_terms md P _ wr0 l r) as [w|e]; cbn [bind]; [|apply ext_refl]. destruct (MF _ eq_refl) as (W1 & W2 & W3). cbn [ci cm ct] in *. cbn [imgg at_ pt am ai].
  pose proof (sort_range_ext (skipn (length (wt w)) gt) (fun a b => Ok (term_lt a b)) (fun a b => Ok (term_lt a b)) (fun a b => ext_refl _) (wt w) 0 (length (wt w))) as SR.
  change (wt w ++ skipn (length (wt w)) gt) with (over gt (wt w)) in SR. set (big := sort_range _ (over gt (wt w)) 0 _) in *. clearbody big. destruct (sort_range _ (wt w) 0 _) as [ts|e] eqn:ES.
  - destruct big as [ts2|]; cbn in SR; [|contradiction]. unfold more in SR. subst ts2. cbn [bind].
    assert (LT : length (wt w) = length ts) by (apply Permutation.Permutation_length; exact (sort_perm _ _ _ ES)). rewrite LT.
    pose proof (slice_ext (skipn (length ts) gt) ts 0 (length ts)) as SL. unfold slice at 1 in SL. rewrite (proj2 (Nat.leb_le _ _)) in SL by lia. cbn [skipn] in SL. rewrite firstn_all in SL.
    destruct (slice (ts ++ _) 0 _) as [ts'|]; cbn in SL; [|contradiction]. subst ts'. cbn [bind]. apply collate_ext.
  - destruct e, big; cbn in *; auto; contradiction.
Qed.

(** ** The dual *)
Section Dual.
Variables (c : caps) (x : mv) (fuel : nat).
Hypothesis EN : enough fuel x.
Lemma dual_mon_fits parity w v w' : fits c w -> dual_mon c parity w v = Ok w' -> fits c w'.
Proof. intros F H. unfold dual_mon in H. repeat minv H. rewrite put_inds_fold in H. exact (fold_fits c _ (fun _ _ _ => put_ind_fits c _ _ _) _ _ _ (put_mon_fits c _ _ _ F E0) H). Qed.
Lemma dual_mon_eq parity p v w : mon_at x p v -> fits c w -> p_dual_mon fuel x parity (mkmit 0 p) (img c w) = (w' <- dual_mon c parity w v;; Ok (img c w')).
Proof.
  intros A F. unfold p_dual_mon, dual_mon, mit_deref. cbn [mit_mon]. rewrite (get_error _ _ _ (proj1 A)). cbn [bind]. destruct (rscale_int parity _) as [q|]; cbn [bind]; [|reflexivity].
  change (pi (img c w)) with (length (wi w)). rewrite (p_mon_eq c _ _ F). destruct (put_mon c w _) as [w1|] eqn:E; cbn [bind]; [|reflexivity]. exact (copy_inds_eq c x fuel EN p v w1 A (put_mon_fits c _ _ _ F E)).
Qed.
Lemma dual_mons_fold parity vs : forall w, dual_mons c parity w vs = foldM (dual_mon c parity) w vs.
Proof. induction vs as [|v vs IH]; intros w; [reflexivity|]. cbn. destruct (dual_mon c parity w v); [apply IH|reflexivity]. Qed.
Variable dim : N.
Definition dual_step (w : wr) (v : vterm) : res wr :=
  let '(g, parity) := poincare_complement (elem (fst v)) dim in
  w1 <- put_term c w (mkterm (tcount (fst v)) (length (wm w)) g);; dual_mons c parity w1 (snd v).
Lemma dual_terms_fold vs : forall w, dual_terms c dim w vs = foldM dual_step w vs.
Proof.
  induction vs as [|v vs IH]; intros w; [reflexivity|]. cbn [dual_terms foldM]. unfold dual_step at 1. destruct (poincare_complement _ dim) as [g parity].
  destruct (put_term c w _) as [w1|]; cbn [bind]; [|reflexivity]. destruct (dual_mons c parity w1 (snd v)); cbn [bind]; [apply IH|reflexivity].
Qed.
Lemma dual_step_fits w v w' : fits c w -> dual_step w v = Ok w' -> fits c w'.
Proof.
  intros F H. unfold dual_step in H. destruct (poincare_complement _ dim) as [g parity]. repeat minv H. rewrite dual_mons_fold in H.
  exact (fold_fits c _ (dual_mon_fits parity) _ _ _ (put_term_fits c _ _ _ F E) H).
Qed.
Lemma dual_term_eq p v w : term_at x p v -> fits c w -> p_dual_term fuel dim x (mktit 0 0 p) (img c w) = (w' <- dual_step w v;; Ok (img c w')).
Proof.
  intros A F. destruct (term_begin x p v A) as (D & B & E). unfold p_dual_term, dual_step. rewrite D, B, E. cbn [bind]. change (pm (img c w)) with (length (wm w)).
  destruct (poincare_complement _ dim) as [g parity]. rewrite (p_term_eq c _ _ F). destruct (put_term c w _) as [w1|] eqn:E1; cbn [bind]; [|reflexivity].
  destruct A as (A1 & A2 & A3 & A4). destruct EN as (_ & EM & _). rewrite dual_mons_fold.
  apply (loop_fold mit_ne mit_next (mkmit 0) (mit_ne_at 0) (fun i => eq_refl) (img c) (fits c) (dual_mon c parity) (mon_at x)) with (e := moff (fst v) + tcount (fst v)); auto; try lia.
  - intros q m w0 M F0. now apply dual_mon_eq.
  - intros q m w0 w2 _ F0. now apply dual_mon_fits.
  - exact (put_term_fits c _ _ _ F E1).
Qed.
End Dual.
Theorem p_dual_eq md fuel dim x l : read x = Ok l -> enough fuel x -> p_dual md fuel dim x = poincare_dual md dim x.
Proof.
  intros H EN. destruct (read_terms x l H) as (A & B & C). unfold p_dual, poincare_dual, mv_end, mv_begin. rewrite H, ptr_le by lia. cbn [bind]. set (c := caps_of x).
  assert (NEW : p_new c = img c wr0) by (unfold p_new, img, fill, wr0; cbn [wi wm wt length app]; now rewrite !Nat.sub_0_r). rewrite NEW.
  rewrite (loop_fold tit_ne tit_next (mktit 0 0) tit_ne_at (fun i => eq_refl) (img c) (fits c) (dual_step c dim) (term_at x)) with (e := tsz x) (vs := l); auto.
  - rewrite (dual_terms_fold c dim). destruct (foldM (dual_step c dim) wr0 l); reflexivity.
  - intros p v w T F. now apply dual_term_eq.
  - intros p v w w' _ F E. exact (dual_step_fits c dim _ _ _ F E).
  - destruct EN as (_ & _ & ET). lia.
  - unfold fits. cbn. lia.
Qed.
