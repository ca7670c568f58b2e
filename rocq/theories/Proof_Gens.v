(** Facts about the generator list of a bitmask. *)
From Coq Require Import ZArith NArith List Bool Lia ZifyBool ZifyN Sorted Permutation.
From Verif Require Import Base Model_Numeric Spec_Clifford.
Import ListNotations.
Open Scope N_scope.

Lemma pgens_In p : forall k i, In i (pgens p k) <-> (k <= i /\ N.testbit (Npos p) (i - k) = true).
Proof.
  induction p as [p IH|p IH|]; intros k i; simpl pgens.
  - simpl In. rewrite IH. split.
    + intros [->|[H1 H2]].
      * split; [lia|]. now rewrite N.sub_diag.
      * split; [lia|].
        replace (i - k) with (N.succ (i - N.succ k)) by lia.
        change (N.pos p~1) with (2 * N.pos p + 1).
        now rewrite N.testbit_odd_succ by lia.
    + intros [H1 H2]. destruct (N.eq_dec k i) as [->|Hne]; [now left|]. right.
      split; [lia|].
      replace (i - k) with (N.succ (i - N.succ k)) in H2 by lia.
      change (N.pos p~1) with (2 * N.pos p + 1) in H2.
      now rewrite N.testbit_odd_succ in H2 by lia.
  - rewrite IH. split.
    + intros [H1 H2]. split; [lia|].
      replace (i - k) with (N.succ (i - N.succ k)) by lia.
      change (N.pos p~0) with (2 * N.pos p).
      now rewrite N.testbit_even_succ by lia.
    + intros [H1 H2]. destruct (N.eq_dec k i) as [->|Hne].
      * rewrite N.sub_diag in H2. discriminate.
      * split; [lia|].
        replace (i - k) with (N.succ (i - N.succ k)) in H2 by lia.
        change (N.pos p~0) with (2 * N.pos p) in H2.
        now rewrite N.testbit_even_succ in H2 by lia.
  - simpl. split.
    + intros [->|[]]. split; [lia|]. now rewrite N.sub_diag.
    + intros [H1 H2]. left.
      destruct (i - k) eqn:E; [lia|]. discriminate.
Qed.

Lemma gens_In a i : In i (gens a) <-> N.testbit a i = true.
Proof.
  destruct a as [|p]; simpl gens.
  - rewrite N.bits_0. simpl. intuition discriminate.
  - rewrite pgens_In, N.sub_0_r. intuition lia.
Qed.

Lemma pgens_sorted p : forall k, StronglySorted N.lt (pgens p k).
Proof.
  induction p as [p IH|p IH|]; intros k; simpl.
  - constructor; [apply IH|]. apply Forall_forall. intros x Hx.
    apply pgens_In in Hx. lia.
  - apply IH.
  - repeat constructor.
Qed.

Lemma gens_sorted a : StronglySorted N.lt (gens a).
Proof. destruct a; simpl; [constructor | apply pgens_sorted]. Qed.

Lemma pgens_length p : forall k, N.of_nat (length (pgens p k)) = ppop p.
Proof.
  induction p as [p IH|p IH|]; intros k; simpl pgens; simpl ppop; simpl length.
  - rewrite Nat2N.inj_succ. now rewrite IH.
  - apply IH.
  - reflexivity.
Qed.

Lemma pop_count_gens a : pop_count a = N.of_nat (length (gens a)).
Proof. destruct a; simpl; [reflexivity|]. now rewrite pgens_length. Qed.

Lemma sorted_ext (u v : list N) :
  StronglySorted N.lt u -> StronglySorted N.lt v ->
  (forall i, In i u <-> In i v) -> u = v.
Proof.
  intros Hu. revert v. induction Hu as [|x u Hu IH Hx]; intros v Hv E.
  - destruct v as [|y v]; [reflexivity|]. exfalso. apply (proj2 (E y)). now left.
  - destruct Hv as [|y v Hv Hy].
    + exfalso. apply (proj1 (E x)). now left.
    + assert (x = y) as ->.
      { rewrite Forall_forall in Hx, Hy.
        destruct (proj1 (E x) (or_introl eq_refl)) as [->|H1]; [reflexivity|].
        destruct (proj2 (E y) (or_introl eq_refl)) as [->|H2]; [reflexivity|].
        specialize (Hy _ H1). specialize (Hx _ H2). lia. }
      f_equal. apply IH; [assumption|].
      intros i. split; intros Hi.
      * destruct (proj1 (E i) (or_intror Hi)) as [->|H]; [|assumption].
        rewrite Forall_forall in Hx. specialize (Hx _ Hi). lia.
      * destruct (proj2 (E i) (or_intror Hi)) as [->|H]; [|assumption].
        rewrite Forall_forall in Hy. specialize (Hy _ Hi). lia.
Qed.

Lemma sorted_app (u v : list N) :
  StronglySorted N.lt u -> StronglySorted N.lt v ->
  (forall i j, In i u -> In j v -> i < j) -> StronglySorted N.lt (u ++ v).
Proof.
  intros Hu Hv H. induction Hu as [|x u Hu IH Hx]; [assumption|].
  simpl. constructor.
  - apply IH. intros i j Hi Hj. apply H; [now right|assumption].
  - apply Forall_app. split; [assumption|].
    apply Forall_forall. intros j Hj. apply H; [now left|assumption].
Qed.

Lemma sorted_filter f (u : list N) : StronglySorted N.lt u -> StronglySorted N.lt (filter f u).
Proof.
  induction 1 as [|x u Hu IH Hx]; simpl; [constructor|].
  destruct (f x); [|assumption]. constructor; [assumption|].
  rewrite Forall_forall in *. intros y Hy. apply filter_In in Hy. now apply Hx.
Qed.

(** [lo l b], [hi l b]: generators below / above l. *)
Definition lo (l b : N) := filter (fun i => i <? l) (gens b).
Definition hi (l b : N) := filter (fun i => l <? i) (gens b).

Lemma gens_split_notin l b : N.testbit b l = false -> gens b = lo l b ++ hi l b.
Proof.
  intros H. apply sorted_ext.
  - apply gens_sorted.
  - apply sorted_app.
    + apply sorted_filter, gens_sorted.
    + apply sorted_filter, gens_sorted.
    + intros i j Hi Hj. unfold lo, hi in *. rewrite filter_In in *. lia.
  - intros i. unfold lo, hi. rewrite in_app_iff, !filter_In.
    split; [|tauto]. intros Hi.
    assert (i <> l) by (intros ->; apply gens_In in Hi; congruence).
    destruct (N.lt_trichotomy i l) as [H1|[H1|H1]]; [left|lia|right];
      (split; [assumption|lia]).
Qed.

Lemma gens_split_in l b : N.testbit b l = true -> gens b = lo l b ++ [l] ++ hi l b.
Proof.
  intros H. apply sorted_ext.
  - apply gens_sorted.
  - apply sorted_app; [apply sorted_filter, gens_sorted| apply sorted_app| ].
    + repeat constructor.
    + apply sorted_filter, gens_sorted.
    + intros i j [<-|[]] Hj. unfold hi in Hj. rewrite filter_In in Hj. lia.
    + intros i j Hi Hj. unfold lo, hi in *. rewrite in_app_iff, !filter_In in *. simpl in Hj. lia.
  - intros i. unfold lo, hi. rewrite !in_app_iff, !filter_In. simpl. split.
    + intros Hi. destruct (N.lt_trichotomy i l) as [H1|[H1|H1]].
      * left. split; [assumption|lia].
      * right; left; left; congruence.
      * right; right. split; [assumption|lia].
    + intros [[? _]|[[->|[]]|[? _]]]; [assumption| |assumption].
      now apply gens_In.
Qed.

Lemma lo_ext l a b : (forall i, i < l -> N.testbit a i = N.testbit b i) -> lo l a = lo l b.
Proof.
  intros H. apply sorted_ext; try (apply sorted_filter, gens_sorted).
  intros i. unfold lo. rewrite !filter_In, !gens_In.
  split; intros [H1 H2]; (split; [|assumption]); [rewrite <- H|rewrite H]; (assumption || lia).
Qed.

Lemma hi_ext l a b : (forall i, l < i -> N.testbit a i = N.testbit b i) -> hi l a = hi l b.
Proof.
  intros H. apply sorted_ext; try (apply sorted_filter, gens_sorted).
  intros i. unfold hi. rewrite !filter_In, !gens_In.
  split; intros [H1 H2]; (split; [|assumption]); [rewrite <- H|rewrite H]; (assumption || lia).
Qed.

Lemma pow2_bits l i : N.testbit (2 ^ l) i = (l =? i).
Proof. rewrite N.pow2_bits_eqb. reflexivity. Qed.

Lemma ones_bits l i : N.testbit (2 ^ l - 1) i = (i <? l).
Proof.
  replace (2 ^ l - 1) with (N.ones l) by (rewrite N.ones_equiv; lia).
  destruct (i <? l) eqn:E.
  - apply N.ones_spec_low. lia.
  - apply N.ones_spec_high. lia.
Qed.

Lemma lo_gens_land l b : gens (N.land b (2 ^ l - 1)) = lo l b.
Proof.
  apply sorted_ext; [apply gens_sorted|apply sorted_filter, gens_sorted|].
  intros i. unfold lo. rewrite filter_In, !gens_In, N.land_spec, ones_bits, andb_true_iff.
  reflexivity.
Qed.

Lemma gens_inj a b : gens a = gens b -> a = b.
Proof.
  intros H. apply N.bits_inj. intros i.
  destruct (N.testbit a i) eqn:Ea, (N.testbit b i) eqn:Eb; try reflexivity.
  - apply gens_In in Ea. rewrite H in Ea. apply gens_In in Ea. congruence.
  - apply gens_In in Eb. rewrite <- H in Eb. apply gens_In in Eb. congruence.
Qed.

Lemma gens_0 : gens 0 = [].
Proof. reflexivity. Qed.

Lemma gens_pow2 l : gens (2 ^ l) = [l].
Proof.
  apply sorted_ext; [apply gens_sorted|repeat constructor|].
  intros i. rewrite gens_In, pow2_bits. simpl. rewrite N.eqb_eq. intuition.
Qed.

(** the highest generator *)
Lemma gens_log2 a : a <> 0 -> gens a = gens (N.ldiff a (2 ^ N.log2 a)) ++ [N.log2 a].
Proof.
  intros H. apply sorted_ext; [apply gens_sorted| apply sorted_app |].
  - apply gens_sorted.
  - repeat constructor.
  - intros i j Hi [<-|[]]. apply gens_In in Hi.
    rewrite N.ldiff_spec, pow2_bits, andb_true_iff in Hi.
    destruct Hi as [H1 H2].
    destruct (N.lt_trichotomy i (N.log2 a)) as [?|[?|?]]; [assumption| |].
    + subst. rewrite N.eqb_refl in H2. discriminate.
    + rewrite N.bits_above_log2 in H1 by assumption. discriminate.
  - intros i. rewrite in_app_iff, !gens_In, N.ldiff_spec, pow2_bits, andb_true_iff. simpl.
    split.
    + intros Hi. destruct (N.eqb_spec (N.log2 a) i); [right; now left|left]. now split.
    + intros [[? _]|[<-|[]]]; [assumption|]. now apply N.bit_log2.
Qed.

Lemma ldiff_log2_lt a : a <> 0 -> N.ldiff a (2 ^ N.log2 a) < 2 ^ N.log2 a.
Proof.
  intros H.
  destruct (N.eq_dec (N.ldiff a (2 ^ N.log2 a)) 0) as [->|Hn].
  - apply N.neq_0_lt_0, N.pow_nonzero. lia.
  - apply N.log2_lt_pow2; [lia|].
    assert (B := N.bit_log2 _ Hn).
    rewrite N.ldiff_spec, pow2_bits, andb_true_iff in B. destruct B as [B1 B2].
    destruct (N.lt_trichotomy (N.log2 (N.ldiff a (2 ^ N.log2 a))) (N.log2 a)) as [?|[E|E]]; [assumption| |].
    + rewrite E, N.eqb_refl in B2. discriminate.
    + rewrite N.bits_above_log2 in B1 by assumption. discriminate.
Qed.
