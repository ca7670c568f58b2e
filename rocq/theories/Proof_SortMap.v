(** sort is local to its range and commutes with maps that preserve the comparator. *)
From Coq Require Import List Bool Arith Lia Sorting.Permutation.
From Verif Require Import Base Model_Sort Proof_Sort.
Import ListNotations.

Lemma nth_error_upd {A} (l : list A) : forall i a k, i < length l ->
  nth_error (upd l i a) k = if k =? i then Some a else nth_error l k.
Proof.
  induction l as [|x l IH]; intros [|i] a [|k] H; cbn in *; try lia; try reflexivity.
  apply IH. lia.
Qed.
Lemma upd_length {A} (l : list A) : forall i a, length (upd l i a) = length l.
Proof. induction l; intros [|i] b; cbn; auto. Qed.
Lemma set_upd {A} (l : list A) i a : i < length l -> set l i a = Ok (upd l i a).
Proof. intros H. unfold set. now apply Nat.ltb_lt in H as ->. Qed.
Lemma get_nth {A} (l : list A) i a : nth_error l i = Some a -> get l i = Ok a.
Proof. unfold get. now intros ->. Qed.

Lemma nth_error_ext {A} (l : list A) : forall m, (forall i, nth_error l i = nth_error m i) -> l = m.
Proof.
  induction l as [|a l IH]; intros [|b m] H; [reflexivity|specialize (H 0); discriminate..|].
  pose proof (H 0) as H0. cbn in H0. injection H0 as <-. f_equal. apply IH. intros i. exact (H (S i)).
Qed.

Section Rel.
Context {A B : Type}.
Variables (lessA : A -> A -> res bool) (lessB : B -> B -> res bool).
Variable R : A -> B -> Prop.
Hypothesis cmp : forall a b a' b', R a b -> R a' b' -> lessA a a' = lessB b b'.
(** the window [o, o+n) of the first array corresponds to [p, p+n) of the second *)
Variables (o p n : nat).
Definition rel (l : list A) (m : list B) : Prop :=
  o + n <= length l /\ p + n <= length m /\
  forall i, i < n -> exists a b, nth_error l (o + i) = Some a /\ nth_error m (p + i) = Some b /\ R a b.
Definition rr {X Y} (Q : X -> Y -> Prop) (x : res X) (y : res Y) : Prop :=
  match x, y with Ok a, Ok b => Q a b | Err e, Err e' => e = e' | _, _ => False end.
Lemma rr_bind {X Y X' Y'} (Q : X -> Y -> Prop) (Q' : X' -> Y' -> Prop) x y f g :
  rr Q x y -> (forall a b, Q a b -> rr Q' (f a) (g b)) -> rr Q' (bind x f) (bind y g).
Proof. destruct x, y; cbn; auto; contradiction. Qed.

Lemma rel_get l m i : rel l m -> i < n -> rr R (get l (o + i)) (get m (p + i)).
Proof. intros (_ & _ & H) Hi. destruct (H i Hi) as (a & b & E1 & E2 & r). rewrite (get_nth _ _ _ E1), (get_nth _ _ _ E2). exact r. Qed.
Lemma rel_set l m i a b : rel l m -> i < n -> R a b -> rr rel (set l (o + i) a) (set m (p + i) b).
Proof.
  intros (L1 & L2 & H) Hi r. rewrite !set_upd by lia. cbn. split; [|split]; rewrite ?upd_length; auto.
  intros k Hk. rewrite !nth_error_upd by lia.
  destruct (Nat.eqb_spec (o + k) (o + i)), (Nat.eqb_spec (p + k) (p + i)); try lia; eauto.
Qed.
Lemma rel_swap l m i j : rel l m -> i < n -> j < n -> rr rel (swap l (o + i) (o + j)) (swap m (p + i) (p + j)).
Proof.
  intros H Hi Hj. unfold swap.
  destruct (Nat.eqb_spec (o + i) (o + j)), (Nat.eqb_spec (p + i) (p + j)); try lia; [exact H|].
  eapply rr_bind; [apply rel_get; eauto|]. intros a b r. eapply rr_bind; [apply rel_get; eauto|]. intros a' b' r'.
  eapply rr_bind; [apply rel_set; eauto|]. intros l1 m1 H1. apply rel_set; auto.
Qed.
Lemma rel_less a b a' b' : R a b -> R a' b' -> rr eq (lessA a a') (lessB b b').
Proof. intros r r'. rewrite (cmp _ _ _ _ r r'). destruct (lessB b b'); cbn; auto. Qed.
Lemma rel_less_at l m i j : rel l m -> i < n -> j < n ->
  rr eq (less_at lessA l (o + i) (o + j)) (less_at lessB m (p + i) (p + j)).
Proof.
  intros H Hi Hj. unfold less_at. eapply rr_bind; [apply rel_get; eauto|]. intros a b r.
  eapply rr_bind; [apply rel_get; eauto|]. intros a' b' r'. apply rel_less; auto.
Qed.
Lemma rel_part k : forall l m c i a b, rel l m -> c <= i -> i + k <= n -> R a b ->
  rr (fun x y => rel (fst x) (fst y) /\ exists c', snd x = o + c' /\ snd y = p + c' /\ c <= c' <= c + k)
     (part lessA k l (o + c) (o + i) a) (part lessB k m (p + c) (p + i) b).
Proof.
  induction k as [|k IH]; intros l m c i a b H Hc Hi r; cbn [part].
  - cbn. split; auto. exists c. lia.
  - eapply rr_bind; [apply rel_get; eauto; lia|]. intros x y rxy.
    eapply rr_bind; [apply rel_less; eauto|]. intros t t' <-. destruct t.
    + eapply rr_bind; [apply rel_swap; eauto; lia|]. intros l' m' H'.
      replace (S (o + c)) with (o + S c) by lia. replace (S (o + i)) with (o + S i) by lia.
      replace (S (p + c)) with (p + S c) by lia. replace (S (p + i)) with (p + S i) by lia.
      specialize (IH l' m' (S c) (S i) a b H' ltac:(lia) ltac:(lia) r).
      destruct (part lessA _ _ _ _ _), (part lessB _ _ _ _ _); cbn in *; auto.
      destruct IH as [X (c' & ? & ? & ?)]. split; auto. exists c'. lia.
    + replace (S (o + i)) with (o + S i) by lia. replace (S (p + i)) with (p + S i) by lia.
      specialize (IH l m c (S i) a b H ltac:(lia) ltac:(lia) r).
      destruct (part lessA _ _ _ _ _), (part lessB _ _ _ _ _); cbn in *; auto.
      destruct IH as [X (c' & ? & ? & ?)]. split; auto. exists c'. lia.
Qed.
Lemma rr_refl_ok l m : rel l m -> rr rel (Ok l) (Ok m). Proof. auto. Qed.
Lemma rel_sort3 l m i : rel l m -> i + 3 <= n -> rr rel (sort3 lessA l (o + i)) (sort3 lessB m (p + i)).
Proof.
  intros H Hi. unfold sort3. rewrite <- !Nat.add_assoc.
  repeat first
    [ eapply rr_bind; [apply rel_less_at; eauto; lia|]; intros [|] ? <-
    | eapply rr_bind; [apply rel_swap; eauto; lia|]; intros
    | apply rel_swap; eauto; lia
    | assumption ].
Qed.
Lemma rel_sort fuel : forall l m i j, rel l m -> i <= j -> j <= n ->
  rr rel (sort lessA fuel l (o + i) (o + j)) (sort lessB fuel m (p + i) (p + j)).
Proof.
  induction fuel as [|fuel IH]; intros l m i j H Hij Hj; [reflexivity|]. cbn [sort].
  replace (o + j - (o + i)) with (j - i) by lia. replace (p + j - (p + i)) with (j - i) by lia.
  destruct (Nat.ltb_spec (j - i) 2); [exact H|]. destruct (Nat.ltb_spec (j - i) 3).
  { rewrite <- !Nat.add_assoc. eapply rr_bind; [apply rel_less_at; eauto; lia|]. intros [|] ? <-; [|exact H].
    apply rel_swap; auto; lia. }
  destruct (Nat.ltb_spec (j - i) 4); [apply rel_sort3; auto; lia|].
  replace (o + j - 1) with (o + (j - 1)) by lia. replace (p + j - 1) with (p + (j - 1)) by lia.
  eapply rr_bind; [apply rel_get; eauto; lia|]. intros a b r.
  replace (o + (j - 1) - (o + i)) with (j - 1 - i) by lia. replace (p + (j - 1) - (p + i)) with (j - 1 - i) by lia.
  eapply rr_bind; [apply rel_part; eauto; lia|]. intros [l1 c1] [m1 c2] [Hp (c & E1 & E2 & Hc)]. cbn in *. subst c1 c2.
  eapply rr_bind; [apply rel_swap; eauto; lia|]. intros l2 m2 Hs.
  eapply rr_bind; [apply IH; eauto; lia|]. intros l3 m3 Ht.
  rewrite <- !Nat.add_assoc. apply IH; auto; lia.
Qed.
End Rel.

(** sort on a range = sort on the mapped range alone *)
Lemma sort_map {A B} (f : A -> B) (P : A -> Prop) lessA lessB pre s post :
  (forall a b, P a -> P b -> lessA a b = lessB (f a) (f b)) -> Forall P s ->
  (exists s', sort_range lessA (pre ++ s ++ post) (length pre) (length pre + length s) = Ok (pre ++ s' ++ post) /\
     Permutation s s' /\ sort_range lessB (map f s) 0 (length s) = Ok (map f s')) \/
  (exists e, sort_range lessA (pre ++ s ++ post) (length pre) (length pre + length s) = Err e /\
     sort_range lessB (map f s) 0 (length s) = Err e).
Proof.
  intros cmp Ps.
  pose (R := fun a b => b = f a /\ P a).
  assert (C : forall a b a' b', R a b -> R a' b' -> lessA a a' = lessB b b').
  { intros a b a' b' [-> Pa] [-> Pb]. auto. }
  assert (H : rel R (length pre) 0 (length s) (pre ++ s ++ post) (map f s)).
  { split; [rewrite !app_length; lia|]. split; [rewrite map_length; lia|].
    intros i Hi. rewrite nth_error_app2 by lia. replace (length pre + i - length pre) with i by lia.
    rewrite nth_error_app1 by lia. cbn. rewrite nth_error_map.
    destruct (nth_error s i) as [a|] eqn:E; [|apply nth_error_None in E; lia].
    exists a, (f a). repeat split. rewrite Forall_forall in Ps. apply Ps. eapply nth_error_In; eauto. }
  pose proof (rel_sort lessA lessB R C (length pre) 0 (length s)
    (S (length pre + length s - length pre)) _ _ 0 (length s) H ltac:(lia) ltac:(lia)) as K.
  rewrite Nat.add_0_r in K. cbn [Nat.add] in K. unfold sort_range.
  replace (S (length s - 0)) with (S (length pre + length s - length pre)) by lia.
  destruct (sort_safe lessA pre s post) as [(s' & E & Pm)|(a & b & e & _ & E)]; unfold sort_range in E.
  - left. exists s'. rewrite E in K. split; [exact E|]. split; [exact Pm|].
    destruct (sort_safe lessB [] (map f s) []) as [(m' & E' & Pm')|(a' & b' & e' & _ & E')];
      unfold sort_range in E'; cbn [length app Nat.add] in E'; rewrite !app_nil_r, map_length in E';
      replace (S (length s - 0)) with (S (length pre + length s - length pre)) in E' by lia;
      rewrite E' in K; [|contradiction]. rewrite E'. f_equal.
    cbn in K. destruct K as (_ & _ & K).
    assert (Ls : length s' = length s) by (symmetry; now apply Permutation_length).
    assert (Lm : length m' = length s) by (apply Permutation_length in Pm'; rewrite map_length in Pm'; lia).
    apply nth_error_ext. intros i. destruct (Nat.lt_ge_cases i (length s)) as [Hi|Hi].
    + destruct (K i Hi) as (a & b & N1 & N2 & [-> _]). cbn in N2. rewrite N2, nth_error_map.
      rewrite nth_error_app2 in N1 by lia. replace (length pre + i - length pre) with i in N1 by lia.
      rewrite nth_error_app1 in N1 by lia. now rewrite N1.
    + transitivity (@None B); [apply nth_error_None; lia|]. symmetry. apply nth_error_None. rewrite map_length. lia.
  - right. exists e. rewrite E in K. split; [exact E|].
    destruct (sort lessB _ _ _ _); cbn in K; [contradiction|]. now subst.
Qed.
