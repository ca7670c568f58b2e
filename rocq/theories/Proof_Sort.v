From Coq Require Import List Bool Arith Lia Sorting.Permutation Sorting.Sorted.
From Verif Require Import Base Model_Sort Spec_Sort.
Import ListNotations.

Lemma get_app {A} (p : list A) x s : get (p ++ x :: s) (length p) = Ok x.
Proof. unfold get. rewrite nth_error_app2 by lia. now rewrite Nat.sub_diag. Qed.
Lemma upd_app {A} (p : list A) x s y : upd (p ++ x :: s) (length p) y = p ++ y :: s.
Proof. induction p; simpl; [reflexivity|]. now rewrite IHp. Qed.
Lemma set_app {A} (p : list A) x s y : set (p ++ x :: s) (length p) y = Ok (p ++ y :: s).
Proof.
  unfold set. rewrite app_length. simpl. replace (length p <? length p + S (length s)) with true by
    (symmetry; apply Nat.ltb_lt; lia). now rewrite upd_app.
Qed.
Lemma swap_app {A} (p : list A) x q y s :
  swap (p ++ x :: q ++ y :: s) (length p) (length p + S (length q)) = Ok (p ++ y :: q ++ x :: s).
Proof.
  unfold swap. replace (_ =? _) with false by (symmetry; apply Nat.eqb_neq; lia).
  rewrite get_app. simpl.
  replace (p ++ x :: q ++ y :: s) with ((p ++ x :: q) ++ y :: s) by (rewrite <- app_assoc; reflexivity).
  replace (length p + S (length q)) with (length (p ++ x :: q)) by (rewrite app_length; reflexivity).
  rewrite get_app. simpl.
  replace ((p ++ x :: q) ++ y :: s) with (p ++ x :: q ++ y :: s) by (rewrite <- app_assoc; reflexivity).
  rewrite set_app. simpl.
  replace (p ++ y :: q ++ y :: s) with ((p ++ y :: q) ++ y :: s) by (rewrite <- app_assoc; reflexivity).
  replace (length (p ++ x :: q)) with (length (p ++ y :: q)) by (rewrite !app_length; reflexivity).
  rewrite set_app. f_equal. rewrite <- app_assoc. reflexivity.
Qed.
Lemma swap_sym {A} (l : list A) i j : i < length l -> j < length l -> swap l i j = swap l j i.
Proof.
  intros Hi Hj. unfold swap. rewrite (Nat.eqb_sym j i). destruct (Nat.eqb_spec i j) as [->|N]; [reflexivity|].
  unfold get. destruct (nth_error l i) eqn:Ei; [|apply nth_error_None in Ei; lia].
  destruct (nth_error l j) eqn:Ej; [|apply nth_error_None in Ej; lia]. simpl.
  assert (Lu : forall (m : list A) k v, length (upd m k v) = length m).
  { induction m; intros [|k] v; simpl; auto. }
  unfold set. rewrite (proj2 (Nat.ltb_lt _ _) Hi), (proj2 (Nat.ltb_lt _ _) Hj). simpl.
  rewrite !Lu, (proj2 (Nat.ltb_lt _ _) Hi), (proj2 (Nat.ltb_lt _ _) Hj). f_equal.
  clear -N. revert i j N. induction l as [|x l IH]; intros [|i] [|j] N; simpl; auto; try lia. f_equal. apply IH. lia.
Qed.

Section Pure.
Context {A : Type}.
Variable lt : A -> A -> bool.
Let less := fun a b : A => Ok (lt a b).

Lemma part_spec : forall rest pre a b pivot post,
  exists a' b',
    part less (length rest) (pre ++ a ++ b ++ rest ++ post) (length pre + length a)
      (length pre + length a + length b) pivot
    = Ok (pre ++ a ++ a' ++ b' ++ post, length pre + length a + length a') /\
    Permutation (b ++ rest) (a' ++ b') /\
    (Forall (fun x => lt x pivot = false) b ->
     Forall (fun x => lt x pivot = true) a' /\ Forall (fun x => lt x pivot = false) b').
Proof.
  induction rest as [|x rest IH]; intros pre a b pivot post.
  - exists [], b. simpl. rewrite Nat.add_0_r, app_nil_r. split; [reflexivity|]. split; [reflexivity|]. auto.
  - cbn [part length].
    assert (G : get (pre ++ a ++ b ++ (x :: rest) ++ post) (length pre + length a + length b) = Ok x).
    { replace (pre ++ a ++ b ++ (x :: rest) ++ post) with ((pre ++ a ++ b) ++ x :: rest ++ post)
        by (rewrite <- !app_assoc; reflexivity).
      replace (length pre + length a + length b) with (length (pre ++ a ++ b)) by (rewrite !app_length; lia).
      apply get_app. }
    rewrite G. cbn [bind]. unfold less at 1. cbn [bind].
    destruct (lt x pivot) eqn:L.
    + destruct b as [|y b].
      * simpl (length []). rewrite Nat.add_0_r. unfold swap. rewrite Nat.eqb_refl. cbn [bind].
        destruct (IH pre (a ++ [x]) [] pivot post) as (a' & b' & E & P & F).
        exists (x :: a'), b'. simpl (length []) in E. rewrite Nat.add_0_r in E.
        rewrite app_length in E. simpl length in E.
        replace (length pre + (length a + 1)) with (S (length pre + length a)) in E by lia.
        split; [|split].
        -- etransitivity; [|etransitivity; [exact E|]].
           ++ rewrite <- !app_assoc. reflexivity.
           ++ f_equal. f_equal; [rewrite <- !app_assoc; reflexivity|simpl; lia].
        -- simpl. constructor. exact P.
        -- intros _. destruct (F (Forall_nil _)) as [F1 F2]. split; [constructor; auto|auto].
      * assert (SW : swap (pre ++ a ++ (y :: b) ++ (x :: rest) ++ post) (length pre + length a) (length pre + length a + length (y :: b))
          = Ok (pre ++ (a ++ [x]) ++ (b ++ [y]) ++ rest ++ post)).
        { pose proof (swap_app (pre ++ a) y b x (rest ++ post)) as SW. rewrite app_length in SW.
          simpl length. replace (pre ++ a ++ (y :: b) ++ (x :: rest) ++ post) with ((pre ++ a) ++ y :: b ++ x :: rest ++ post)
            by (rewrite <- !app_assoc; reflexivity).
          rewrite SW. f_equal. rewrite <- !app_assoc. reflexivity. }
        rewrite SW. cbn [bind].
        destruct (IH pre (a ++ [x]) (b ++ [y]) pivot post) as (a' & b' & E & P & F).
        exists (x :: a'), b'. rewrite !app_length in E. simpl length in E. simpl length.
        split; [|split].
        -- replace (S (length pre + length a)) with (length pre + (length a + 1)) by lia.
           replace (S (length pre + length a + S (length b))) with (length pre + (length a + 1) + (length b + 1)) by lia.
           rewrite E. f_equal. f_equal; [rewrite <- !app_assoc; reflexivity|lia].
        -- simpl. rewrite <- app_assoc in P. simpl in P.
           transitivity (x :: y :: b ++ rest).
           ++ change (y :: b ++ x :: rest) with ((y :: b) ++ x :: rest). symmetry. exact (Permutation_middle (y :: b) rest x).
           ++ constructor. etransitivity; [|exact P]. apply Permutation_middle.
        -- intros Fb. inversion Fb; subst. destruct F as [F1 F2]; [apply Forall_app; auto|]. auto.
    + destruct (IH pre a (b ++ [x]) pivot post) as (a' & b' & E & P & F).
      exists a', b'. rewrite app_length in E. simpl length in E. split; [|split].
      * replace (S (length pre + length a + length b)) with (length pre + length a + (length b + 1)) by lia.
        replace (pre ++ a ++ b ++ (x :: rest) ++ post) with (pre ++ a ++ (b ++ [x]) ++ rest ++ post) by (rewrite <- !app_assoc; reflexivity).
        exact E.
      * rewrite <- app_assoc in P. exact P.
      * intros Fb. apply F. apply Forall_app. auto.
Qed.

Lemma sorted_app_pivot u p v : strict_weak lt -> sorted lt u -> sorted lt v ->
  Forall (fun x => lt x p = true) u -> Forall (fun x => lt x p = false) v -> sorted lt (u ++ p :: v).
Proof.
  intros SW Su Sv Fu Fv. unfold sorted in *.
  induction u as [|x u IH]; simpl.
  - constructor; [assumption|]. assumption.
  - inversion Su; subst. inversion Fu; subst. constructor; [auto|].
    apply Forall_app. split; [assumption|]. constructor.
    + destruct (lt p x) eqn:E; [|reflexivity]. pose proof (sw_trans _ SW _ _ _ E H3). rewrite (sw_irrefl _ SW) in H. discriminate.
    + rewrite Forall_forall in *. intros z Hz. specialize (Fv z Hz).
      destruct (lt z x) eqn:E; [|reflexivity]. rewrite (sw_trans _ SW _ _ _ E H3) in Fv. discriminate.
Qed.

Lemma list3 (s : list A) : length s = 3 -> exists x y z, s = [x; y; z].
Proof. destruct s as [|x [|y [|z [|]]]]; try discriminate. intros _. now exists x, y, z. Qed.
Lemma list2 (s : list A) : length s = 2 -> exists x y, s = [x; y].
Proof. destruct s as [|x [|y [|]]]; try discriminate. intros _. now exists x, y. Qed.

Lemma not_lt_sym a b : strict_weak lt -> lt a b = true -> lt b a = false.
Proof.
  intros SW H. destruct (lt b a) eqn:E; [|reflexivity].
  pose proof (sw_trans _ SW _ _ _ H E). rewrite (sw_irrefl _ SW) in H0. discriminate.
Qed.

Lemma sort_spec : forall fuel s pre post, length s < fuel ->
  exists s', sort less fuel (pre ++ s ++ post) (length pre) (length pre + length s) = Ok (pre ++ s' ++ post) /\
    Permutation s s' /\ (strict_weak lt -> sorted lt s').
Proof.
  induction fuel as [|fuel IH]; intros s pre post Hf; [lia|].
  cbn [sort]. replace (length pre + length s - length pre) with (length s) by lia.
  destruct (Nat.ltb_spec (length s) 2) as [L2|L2].
  { exists s. split; [reflexivity|]. split; [reflexivity|]. intros SW.
    destruct s as [|x [|]]; [constructor| |simpl in L2; lia]. constructor; constructor. }
  destruct (Nat.ltb_spec (length s) 3) as [L3|L3].
  { destruct (list2 s ltac:(lia)) as (x & y & ->). unfold less_at.
    simpl ([x; y] ++ post).
    rewrite (get_app pre x). 
    replace (length pre + 1) with (length (pre ++ [x])) by (rewrite app_length; reflexivity).
    replace (pre ++ x :: y :: post) with ((pre ++ [x]) ++ y :: post) by (rewrite <- app_assoc; reflexivity).
    rewrite get_app. cbn [bind]. unfold less at 1. cbn [bind].
    destruct (lt y x) eqn:E.
    - exists [y; x]. split.
      + pose proof (swap_app pre x [] y post) as S. simpl in S.
        replace (length (pre ++ [x])) with (length pre + 1) by (rewrite app_length; reflexivity).
        replace ((pre ++ [x]) ++ y :: post) with (pre ++ x :: y :: post) by (rewrite <- app_assoc; reflexivity).
        exact S.
      + split; [constructor|]. intros SW. constructor; [constructor; constructor|]. constructor; [|constructor]. now apply not_lt_sym.
    - exists [x; y]. split; [rewrite <- app_assoc; reflexivity|]. split; [reflexivity|]. intros SW.
      constructor; [constructor; constructor|]. constructor; [assumption|constructor]. }
  destruct (Nat.ltb_spec (length s) 4) as [L4|L4].
  { destruct (list3 s ltac:(lia)) as (x & y & z & ->). unfold sort3, less_at. simpl ([x; y; z] ++ post).
    assert (G0 : get (pre ++ x :: y :: z :: post) (length pre) = Ok x) by apply get_app.
    assert (G1 : get (pre ++ x :: y :: z :: post) (length pre + 1) = Ok y).
    { replace (length pre + 1) with (length (pre ++ [x])) by (rewrite app_length; reflexivity).
      replace (pre ++ x :: y :: z :: post) with ((pre ++ [x]) ++ y :: z :: post) by (rewrite <- app_assoc; reflexivity). apply get_app. }
    assert (G2 : get (pre ++ x :: y :: z :: post) (length pre + 2) = Ok z).
    { replace (length pre + 2) with (length (pre ++ [x; y])) by (rewrite app_length; reflexivity).
      replace (pre ++ x :: y :: z :: post) with ((pre ++ [x; y]) ++ z :: post) by (rewrite <- app_assoc; reflexivity). apply get_app. }
    assert (S01 : forall a b c, swap (pre ++ a :: b :: c :: post) (length pre) (length pre + 1) = Ok (pre ++ b :: a :: c :: post)).
    { intros a b c. apply (swap_app pre a [] b). }
    assert (S02 : forall a b c, swap (pre ++ a :: b :: c :: post) (length pre) (length pre + 2) = Ok (pre ++ c :: b :: a :: post)).
    { intros a b c. apply (swap_app pre a [b] c). }
    assert (S12 : forall a b c, swap (pre ++ a :: b :: c :: post) (length pre + 1) (length pre + 2) = Ok (pre ++ a :: c :: b :: post)).
    { intros a b c. pose proof (swap_app (pre ++ [a]) b [] c post) as SE. rewrite app_length in SE. simpl in SE.
      rewrite <- !app_assoc in SE. simpl in SE. replace (length pre + 1 + 1) with (length pre + 2) in SE by lia. exact SE. }
    assert (SS : forall a b c, lt b a = false -> lt c a = false -> lt c b = false -> sorted lt [a; b; c]).
    { intros a b c H1 H2 H3. repeat (constructor; auto). }
    rewrite G0, G1, G2. cbn [bind]. unfold less. cbn [bind].
    destruct (lt y x) eqn:E10; destruct (lt z x) eqn:E20; cbn [bind].
    - destruct (lt z y) eqn:E21.
      + exists [z; y; x]. rewrite S02. split; [reflexivity|]. split.
        * change [z; y; x] with (rev [x; y; z]). apply Permutation_rev.
        * intros SW. apply SS; now apply not_lt_sym.
      + exists [y; z; x]. rewrite S01. cbn [bind]. rewrite S12. split; [reflexivity|]. split.
        * transitivity [y; x; z]; [constructor|]. constructor. constructor.
        * intros SW. apply SS; auto; now apply not_lt_sym.
    - exists [y; x; z]. rewrite S01. split; [reflexivity|]. split; [constructor|]. intros SW.
      apply SS; auto; [now apply not_lt_sym|].
      apply (sw_incomp _ SW z x y); [assumption|now apply not_lt_sym].
    - exists [z; x; y]. rewrite S01. cbn [bind]. rewrite S02. split; [reflexivity|]. split.
      + transitivity [x; z; y]; [constructor; constructor|constructor].
      + intros SW. apply SS; auto; [now apply not_lt_sym|].
        apply (sw_incomp _ SW y x z); [assumption|now apply not_lt_sym].
    - destruct (lt z y) eqn:E21.
      + exists [x; z; y]. rewrite S12. split; [reflexivity|]. split; [constructor; constructor|]. intros SW.
        apply SS; auto. now apply not_lt_sym.
      + exists [x; y; z]. split; [reflexivity|]. split; [reflexivity|]. intros SW. now apply SS. }
  (* quicksort step *)
  destruct (exists_last (l := s)) as [rest [p Es]]; [intros ->; simpl in L2; lia|]. subst s.
  rewrite app_length in *. simpl length in *.
  replace (length pre + (length rest + 1) - 1) with (length pre + length rest) by lia.
  assert (Gp : get (pre ++ (rest ++ [p]) ++ post) (length pre + length rest) = Ok p).
  { replace (pre ++ (rest ++ [p]) ++ post) with ((pre ++ rest) ++ p :: post) by (rewrite <- !app_assoc; reflexivity).
    rewrite <- app_length. apply get_app. }
  rewrite Gp. cbn [bind].
  destruct (part_spec rest pre [] [] p (p :: post)) as (a' & b' & E & P & F).
  simpl length in E. rewrite !Nat.add_0_r in E. simpl app in E.
  replace (length pre + length rest - length pre) with (length rest) by lia.
  replace (pre ++ (rest ++ [p]) ++ post) with (pre ++ rest ++ p :: post) by (rewrite <- !app_assoc; reflexivity).
  rewrite E. cbn [bind]. simpl in P. destruct (F (Forall_nil _)) as [Fa Fb].
  assert (LEN : length rest = length a' + length b') by (rewrite <- app_length; now apply Permutation_length).
  assert (SWP : exists b'', swap (pre ++ a' ++ b' ++ p :: post) (length pre + length rest) (length pre + length a')
    = Ok (pre ++ a' ++ p :: b'' ++ post) /\ Permutation b' b'').
  { destruct b' as [|y b'].
    - exists []. simpl in LEN. rewrite Nat.add_0_r in LEN. rewrite LEN. unfold swap. rewrite Nat.eqb_refl. split; reflexivity.
    - exists (b' ++ [y]). split.
      + rewrite swap_sym by (rewrite !app_length; simpl; rewrite ?app_length; simpl in *; lia).
        pose proof (swap_app (pre ++ a') y b' p post) as SE. rewrite app_length in SE.
        replace (length pre + length rest) with (length pre + length a' + S (length b')) by (simpl in LEN; lia).
        replace (pre ++ a' ++ (y :: b') ++ p :: post) with ((pre ++ a') ++ y :: b' ++ p :: post) by (rewrite <- !app_assoc; reflexivity).
        rewrite SE. f_equal. rewrite <- !app_assoc. reflexivity.
      + apply Permutation_cons_append. }
  destruct SWP as (b'' & SWE & SWPm). rewrite SWE. cbn [bind].
  destruct (IH a' pre (p :: b'' ++ post)) as (a2 & Ea & Pa & Sa); [lia|].
  rewrite Ea. cbn [bind].
  destruct (IH b'' (pre ++ a2 ++ [p]) post) as (b2 & Eb & Pb & Sb).
  { rewrite <- (Permutation_length SWPm). lia. }
  replace (pre ++ a2 ++ p :: b'' ++ post) with ((pre ++ a2 ++ [p]) ++ b'' ++ post) by (rewrite <- !app_assoc; reflexivity).
  replace (length pre + length a' + 1) with (length (pre ++ a2 ++ [p])).
  2:{ rewrite !app_length, (Permutation_length Pa). simpl. lia. }
  replace (length pre + (length rest + 1)) with (length (pre ++ a2 ++ [p]) + length b'').
  2:{ rewrite !app_length, <- (Permutation_length Pa), <- (Permutation_length SWPm). simpl. lia. }
  rewrite Eb. exists (a2 ++ p :: b2). split; [|split].
  - f_equal. rewrite <- !app_assoc. reflexivity.
  - transitivity (p :: rest); [symmetry; apply Permutation_cons_append|].
    transitivity (p :: a2 ++ b2); [|apply Permutation_middle]. constructor.
    rewrite P. apply Permutation_app; [assumption|]. now rewrite SWPm.
  - intros SW. apply sorted_app_pivot; auto.
    + rewrite Forall_forall in *. intros x Hx. apply Fa. eapply Permutation_in; [symmetry; exact Pa|exact Hx].
    + rewrite Forall_forall in *. intros x Hx. apply Fb. eapply Permutation_in; [symmetry; exact SWPm|].
      eapply Permutation_in; [symmetry; exact Pb|exact Hx].
Qed.
End Pure.

(** ** partial comparators: a run that succeeds agrees with the total one *)
Section Mono.
Context {A : Type}.
Variables (less : A -> A -> res bool) (lt : A -> A -> bool).
Hypothesis An : answers less lt.
Let lessT := fun a b : A => Ok (lt a b).

Lemma bind_mono {B C} (x x' : res B) (f f' : B -> res C) r :
  (forall b, x = Ok b -> x' = Ok b) -> (forall b, f b = Ok r -> f' b = Ok r) -> bind x f = Ok r -> bind x' f' = Ok r.
Proof. destruct x; simpl; [|discriminate]. intros H1 H2 H3. rewrite (H1 _ eq_refl). simpl. auto. Qed.

Lemma part_mono : forall n l c i p r, part less n l c i p = Ok r -> part lessT n l c i p = Ok r.
Proof.
  induction n as [|n IH]; intros l c i p r; [auto|]. cbn [part].
  apply bind_mono; [auto|]. intros x. apply bind_mono.
  { intros b E. apply An in E. now subst. }
  intros b. destruct b; [|apply IH]. apply bind_mono; [auto|]. intros; now apply IH.
Qed.
Lemma less_at_mono l i j b : less_at less l i j = Ok b -> less_at lessT l i j = Ok b.
Proof.
  unfold less_at. apply bind_mono; [auto|]. intros x. apply bind_mono; [auto|].
  intros y E. apply An in E. now subst.
Qed.
Lemma sort3_mono l f r : sort3 less l f = Ok r -> sort3 lessT l f = Ok r.
Proof.
  unfold sort3. apply bind_mono; [apply less_at_mono|]. intros [|]; apply bind_mono; try apply less_at_mono; intros [|]; auto;
    apply bind_mono; auto; apply less_at_mono.
Qed.
Lemma sort_mono : forall fuel l f e r, sort less fuel l f e = Ok r -> sort lessT fuel l f e = Ok r.
Proof.
  induction fuel as [|fuel IH]; intros l f e r; [auto|]. cbn [sort].
  destruct (_ <? 2); [auto|]. destruct (_ <? 3).
  { apply bind_mono; [apply less_at_mono|auto]. }
  destruct (_ <? 4); [apply sort3_mono|].
  apply bind_mono; [auto|]. intros p. apply bind_mono; [intros; now apply part_mono|]. intros [l1 c].
  apply bind_mono; [auto|]. intros l2. apply bind_mono; [auto|]. intros; auto.
Qed.

Lemma sort_partial (SW : strict_weak lt) pre s post r :
  sort_range less (pre ++ s ++ post) (length pre) (length pre + length s) = Ok r ->
  exists s', r = pre ++ s' ++ post /\ Permutation s s' /\ sorted lt s'.
Proof.
  unfold sort_range. intros H. apply sort_mono in H.
  destruct (sort_spec lt (S (length pre + length s - length pre)) s pre post ltac:(lia)) as (s' & E & P & S).
  unfold lessT in H. rewrite E in H. injection H as <-. exists s'. auto.
Qed.

(** A run fails only with the error of a comparison. *)
Definition simul {B} (x x' : res B) : Prop :=
  x = x' \/ exists a b e, less a b = Err e /\ x = Err e.
Lemma simul_bind {B C} (x x' : res B) (f f' : B -> res C) :
  simul x x' -> (forall b, simul (f b) (f' b)) -> simul (bind x f) (bind x' f').
Proof.
  intros [->|(a & b & e & E & ->)] H; [|right; exists a, b, e; auto].
  destruct x'; simpl; [apply H|left; reflexivity].
Qed.
Lemma simul_refl {B} (x : res B) : simul x x.
Proof. now left. Qed.
Lemma simul_less a b : simul (less a b) (lessT a b).
Proof.
  destruct (less a b) as [x|e] eqn:E; [|right; exists a, b, e; auto].
  left. now rewrite (An _ _ _ E).
Qed.
Lemma part_simul : forall n l c i p, simul (part less n l c i p) (part lessT n l c i p).
Proof.
  induction n as [|n IH]; intros l c i p; [apply simul_refl|]. cbn [part].
  apply simul_bind; [apply simul_refl|]. intros x. apply simul_bind; [apply simul_less|].
  intros [|]; [|apply IH]. apply simul_bind; [apply simul_refl|]. intros; apply IH.
Qed.
Lemma less_at_simul l i j : simul (less_at less l i j) (less_at lessT l i j).
Proof.
  unfold less_at. apply simul_bind; [apply simul_refl|]. intros x. apply simul_bind; [apply simul_refl|].
  intros y. apply simul_less.
Qed.
Lemma sort_simul : forall fuel l f e, simul (sort less fuel l f e) (sort lessT fuel l f e).
Proof.
  induction fuel as [|fuel IH]; intros l f e; [apply simul_refl|]. cbn [sort].
  destruct (_ <? 2); [apply simul_refl|]. destruct (_ <? 3).
  { apply simul_bind; [apply less_at_simul|]. intros; apply simul_refl. }
  destruct (_ <? 4).
  { unfold sort3. apply simul_bind; [apply less_at_simul|].
    intros [|]; apply simul_bind; try apply less_at_simul; intros [|]; try apply simul_refl;
    apply simul_bind; try apply less_at_simul; intros; apply simul_refl. }
  apply simul_bind; [apply simul_refl|]. intros p. apply simul_bind; [apply part_simul|]. intros [l1 c].
  apply simul_bind; [apply simul_refl|]. intros l2. apply simul_bind; [apply IH|]. intros; apply IH.
Qed.
End Mono.

Lemma sort_total {A} (lt : A -> A -> bool) (SW : strict_weak lt) pre s post :
  exists s', sort_range (fun a b => Ok (lt a b)) (pre ++ s ++ post) (length pre) (length pre + length s) = Ok (pre ++ s' ++ post) /\
    Permutation s s' /\ sorted lt s'.
Proof. destruct (sort_spec lt (S (length pre + length s - length pre)) s pre post ltac:(lia)) as (s' & E & P & S').
  exists s'. auto. Qed.

(** memory safety for any comparator whatsoever *)
Lemma sort_safe {A} (less : A -> A -> res bool) pre s post :
  (exists s', sort_range less (pre ++ s ++ post) (length pre) (length pre + length s) = Ok (pre ++ s' ++ post) /\ Permutation s s')
  \/ exists a b e, less a b = Err e /\ sort_range less (pre ++ s ++ post) (length pre) (length pre + length s) = Err e.
Proof.
  pose (lt := fun a b => match less a b with Ok x => x | Err _ => false end).
  assert (An : answers less lt). { intros a b x E. unfold lt. now rewrite E. }
  destruct (sort_simul less lt An (S (length pre + length s - length pre)) (pre ++ s ++ post) (length pre) (length pre + length s)) as [E|E].
  - left. destruct (sort_spec lt (S (length pre + length s - length pre)) s pre post ltac:(lia)) as (s' & E' & P & S').
    exists s'. split; [|assumption]. unfold sort_range. rewrite E. exact E'.
  - right. exact E.
Qed.
