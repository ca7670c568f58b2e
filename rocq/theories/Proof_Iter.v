(** The loops over iterators visit what Model_MV reads. *)
From Coq Require Import ZArith NArith List Bool Arith Lia.
From Verif Require Import Base Model_Numeric Model_Blade Model_MV Model_Iter Proof_Numeric.
Import ListNotations.
Local Open Scope nat_scope.

(** ** A loop that collects what it visits *)
Lemma nth_cons_split {A} (l : list A) n a : nth_error l n = Some a -> skipn n l = a :: skipn (S n) l.
Proof. revert l. induction n as [|n IH]; intros [|b l] H; try discriminate; cbn in *; [now injection H as ->|exact (IH l H)]. Qed.
Lemma nth_range {A} (l : list A) n : n < length l -> exists a, nth_error l n = Some a.
Proof. intros L. destruct (nth_error l n) eqn:E; [eauto|]. apply nth_error_None in E. lia. Qed.
Section Collect.
Context {I A B : Type} (ne : I -> I -> bool) (next : I -> I) (at_ : nat -> I).
Hypothesis NE : forall i j, ne (at_ i) (at_ j) = negb (i =? j).
Hypothesis NX : forall i, next (at_ i) = at_ (S i).
(** [g]: what the body appends for a cell *)
Lemma collect (l : list A) (g : nat -> A -> res B) (body : I -> list B -> res (list B)) last e :
  last = Ok (at_ e) -> e <= length l ->
  (forall p a acc, nth_error l p = Some a -> p < e -> body (at_ p) acc = (b <- g p a;; Ok (acc ++ [b]))) ->
  forall n p fuel acc, p + n = e -> n < fuel ->
  iterate ne next last body fuel (at_ p) acc = (bs <- mapM (fun q => g (fst q) (snd q)) (combine (seq p n) (firstn n (skipn p l)));; Ok (acc ++ bs)).
Proof.
  intros -> LE BO. induction n as [|n IH]; intros p fuel acc PE F; destruct fuel as [|fuel]; try lia; cbn [iterate bind]; rewrite NE.
  - replace (p =? e) with true by (symmetry; apply Nat.eqb_eq; lia). cbn. now rewrite app_nil_r.
  - replace (p =? e) with false by (symmetry; apply Nat.eqb_neq; lia). cbn [negb].
    destruct (nth_range l p ltac:(lia)) as (a & N). rewrite (BO p a acc N) by lia. rewrite (nth_cons_split l p a N). cbn [seq firstn combine mapM fst snd].
    destruct (g p a) as [b|er]; cbn [bind]; [|reflexivity]. rewrite NX, IH by lia.
    destruct (mapM _ _); cbn [bind]; [|reflexivity]. now rewrite <- app_assoc.
Qed.
End Collect.
Lemma mapM_snd {A B} (h : A -> res B) (l : list A) : forall p, mapM (fun q : nat * A => h (snd q)) (combine (seq p (length l)) l) = mapM h l.
Proof. induction l as [|a l IH]; intros p; [reflexivity|]. cbn [length seq combine mapM snd]. now rewrite IH. Qed.
Lemma firstn_skipn_len {A} (l : list A) p n : p + n <= length l -> length (firstn n (skipn p l)) = n.
Proof. intros L. rewrite firstn_length, skipn_length. lia. Qed.
Lemma mapM_ext_in {A B} (f g : A -> res B) (l : list A) : (forall a, In a l -> f a = g a) -> mapM f l = mapM g l.
Proof. induction l as [|a l IH]; intros H; [reflexivity|]. cbn [mapM]. rewrite (H a (or_introl eq_refl)), IH; [reflexivity|]. intros b I. apply H. now right. Qed.
Lemma mapM_pure {A} (l : list A) : mapM (fun a => Ok a) l = Ok l.
Proof. induction l as [|a l IH]; [reflexivity|]. cbn. now rewrite IH. Qed.
Lemma ptr_le n i : i <= n -> ptr n i = Ok i. Proof. intros L. unfold ptr. now rewrite (proj2 (Nat.leb_le _ _) L). Qed.
Lemma ptr_gt n i : n < i -> ptr n i = Err OutOfBounds. Proof. intros L. unfold ptr. now rewrite (proj2 (Nat.leb_gt _ _) L). Qed.
Lemma get_error {A} (l : list A) i a : nth_error l i = Some a -> get l i = Ok a. Proof. intros H. unfold get. now rewrite H. Qed.

(** ** Reading *)
Lemma mit_ne_at b i j : mit_ne (mkmit b i) (mkmit b j) = negb (i =? j).
Proof. unfold mit_ne. cbn. now rewrite Nat.eqb_refl. Qed.
Lemma tit_ne_at i j : tit_ne (mktit 0 0 i) (mktit 0 0 j) = negb (i =? j). Proof. reflexivity. Qed.
Lemma iterate_err {I St} ne next e (body : I -> St -> res St) fuel it s : 0 < fuel -> iterate ne next (Err e) body fuel it s = Err e.
Proof. destruct fuel; [lia|reflexivity]. Qed.
Lemma visit_inds_eq fuel is ms p m : length is < fuel -> nth_error ms p = Some m -> visit_inds fuel is ms (mkmit 0 p) = (v <- read_mon is m;; Ok (snd v)).
Proof.
  intros F N. unfold visit_inds, mit_begin, mit_end, mit_deref. cbn [mit_inds mit_mon]. rewrite (get_error _ _ _ N). cbn [bind plus].
  unfold read_mon, slice. destruct (Nat.leb_spec (ioff m + mcount m) (length is)) as [L|L]; cbn [bind snd].
  - rewrite ptr_le by lia. cbn [bind]. rewrite (ptr_le _ (ioff m + mcount m)) by lia.
    rewrite (collect ptr_ne S (fun i => i)) with (l := is) (g := fun _ a => Ok a) (e := ioff m + mcount m) (n := mcount m); auto; [|intros; rewrite (get_error _ _ _ H); reflexivity|lia].
    set (l := firstn _ _). replace (mcount m) with (length l) at 1 by (apply firstn_skipn_len; lia).
    rewrite (mapM_snd (fun a => Ok a)), mapM_pure. reflexivity.
  - unfold ptr at 1. destruct (Nat.leb_spec (ioff m) (length is)); cbn [bind]; [|reflexivity]. rewrite (ptr_gt _ (ioff m + mcount m)) by lia. apply iterate_err. lia.
Qed.
Lemma visit_mons_eq fuel x p t : length (inds x) < fuel -> length (mons x) < fuel -> nth_error (terms x) p = Some t ->
  visit_mons fuel x (mktit 0 0 p) = (v <- read_term (inds x) (mons x) t;; Ok (snd v)).
Proof.
  intros FI FM N. unfold visit_mons, tit_begin, tit_end, tit_deref. cbn [tit_inds tit_mons tit_term]. rewrite (get_error _ _ _ N). cbn [bind plus].
  unfold read_term, slice. destruct (Nat.leb_spec (moff t + tcount t) (length (mons x))) as [L|L]; cbn [bind snd].
  - rewrite ptr_le by lia. cbn [bind]. rewrite (ptr_le _ (moff t + tcount t)) by lia. cbn [bind].
    rewrite (collect mit_ne mit_next (mkmit 0)) with (l := mons x) (g := fun p m => read_mon (inds x) m) (e := moff t + tcount t) (n := tcount t); auto; try lia.
    + set (l := firstn _ _). replace (tcount t) with (length l) at 1 by (apply firstn_skipn_len; lia). rewrite (mapM_snd (read_mon (inds x))).
      destruct (mapM _ l); reflexivity.
    + intros q m acc NM _. unfold mit_deref. cbn [mit_mon]. rewrite (get_error _ _ _ NM). cbn [bind]. rewrite (visit_inds_eq fuel _ _ q m FI NM).
      unfold read_mon. destruct (slice _ _ _); reflexivity.
  - unfold ptr at 1. destruct (Nat.leb_spec (moff t) (length (mons x))); cbn [bind]; [|reflexivity]. rewrite (ptr_gt _ (moff t + tcount t)) by lia. cbn [bind]. apply iterate_err. lia.
Qed.
Theorem visit_eq fuel x : length (inds x) < fuel -> length (mons x) < fuel -> length (terms x) < fuel -> visit fuel x = read x.
Proof.
  intros FI FM FT. unfold visit, mv_begin, mv_end, read, slice. cbn [plus skipn]. destruct (Nat.leb_spec (tsz x) (length (terms x))) as [L|L]; cbn [bind].
  - rewrite ptr_le by lia. cbn [bind].
    rewrite (collect tit_ne tit_next (mktit 0 0)) with (l := terms x) (g := fun p t => read_term (inds x) (mons x) t) (e := tsz x) (n := tsz x); auto; try lia.
    + cbn [skipn]. set (l := firstn _ _). replace (tsz x) with (length l) at 1 by (unfold l; rewrite firstn_length; lia). rewrite (mapM_snd (read_term (inds x) (mons x))).
      destruct (mapM _ l); reflexivity.
    + intros q t acc NT _. unfold tit_deref. cbn [tit_term]. rewrite (get_error _ _ _ NT). cbn [bind]. rewrite (visit_mons_eq fuel x q t FI FM NT).
      unfold read_term. destruct (slice _ _ _); cbn [bind]; [|reflexivity]. destruct (mapM _ _); reflexivity.
  - rewrite ptr_gt by lia. cbn [bind]. apply iterate_err. lia.
Qed.

(** ** What a successful read tells about the cells *)
Definition mon_at (x : mv) (p : nat) (v : vmon) : Prop :=
  nth_error (mons x) p = Some (fst v) /\ ioff (fst v) + mcount (fst v) <= length (inds x) /\ snd v = firstn (mcount (fst v)) (skipn (ioff (fst v)) (inds x)).
Fixpoint from {V} (cell : nat -> V -> Prop) (p : nat) (vs : list V) : Prop := match vs with [] => True | v :: vs' => cell p v /\ from cell (S p) vs' end.
Definition mons_from (x : mv) : nat -> list vmon -> Prop := from (mon_at x).
Definition term_at (x : mv) (p : nat) (v : vterm) : Prop :=
  nth_error (terms x) p = Some (fst v) /\ moff (fst v) + tcount (fst v) <= length (mons x) /\ length (snd v) = tcount (fst v) /\ mons_from x (moff (fst v)) (snd v).
Definition terms_from (x : mv) : nat -> list vterm -> Prop := from (term_at x).
Lemma mons_from_read x l : forall p vs, p + length l <= length (mons x) -> l = firstn (length l) (skipn p (mons x)) -> mapM (read_mon (inds x)) l = Ok vs -> length vs = length l /\ mons_from x p vs.
Proof.
  induction l as [|m l IH]; intros p vs L E M; cbn [mapM] in M; [injection M as <-; split; [reflexivity|exact I]|]. cbn [length] in L.
  destruct (nth_range (mons x) p ltac:(lia)) as (m' & N). rewrite (nth_cons_split _ _ _ N) in E. cbn [length firstn] in E. injection E as -> E.
  minv M. minv M. injection M as <-. destruct (IH (S p) v0 ltac:(lia) E E1) as [I1 I2]. split; [cbn; lia|]. split; [|exact I2].
  unfold read_mon, slice in E0. destruct (Nat.leb_spec (ioff m' + mcount m') (length (inds x))); [|discriminate]. cbn [bind] in E0. injection E0 as <-. split; [exact N|]. split; [assumption|reflexivity].
Qed.
Lemma terms_from_read x l : forall p vs, p + length l <= length (terms x) -> l = firstn (length l) (skipn p (terms x)) -> mapM (read_term (inds x) (mons x)) l = Ok vs -> length vs = length l /\ terms_from x p vs.
Proof.
  induction l as [|m l IH]; intros p vs L E M; cbn [mapM] in M; [injection M as <-; split; [reflexivity|exact I]|]. cbn [length] in L.
  destruct (nth_range (terms x) p ltac:(lia)) as (m' & N). rewrite (nth_cons_split _ _ _ N) in E. cbn [length firstn] in E. injection E as -> E.
  minv M. minv M. injection M as <-. destruct (IH (S p) v0 ltac:(lia) E E1) as [I1 I2]. split; [cbn; lia|]. split; [|exact I2].
  unfold read_term, slice in E0. destruct (Nat.leb_spec (moff m' + tcount m') (length (mons x))); [|discriminate]. cbn [bind] in E0. minv E0. injection E0 as <-.
  assert (LL := firstn_skipn_len (mons x) (moff m') (tcount m') ltac:(lia)).
  destruct (mons_from_read x (firstn (tcount m') (skipn (moff m') (mons x))) (moff m') v1) as [J1 J2]; [lia|now rewrite LL|eassumption|]. split; [exact N|]. split; [assumption|]. split; [cbn; lia|exact J2].
Qed.
Lemma read_terms x l : read x = Ok l -> tsz x <= length (terms x) /\ length l = tsz x /\ terms_from x 0 l.
Proof.
  unfold read, slice. cbn [plus skipn]. intros H. destruct (Nat.leb_spec (tsz x) (length (terms x))) as [L|L]; [|discriminate]. cbn [bind] in H.
  assert (LL : length (firstn (tsz x) (terms x)) = tsz x) by (rewrite firstn_length; lia).
  destruct (terms_from_read x (firstn (tsz x) (terms x)) 0 l) as [A B]; [lia|now rewrite LL|assumption|]. repeat split; auto; lia.
Qed.
