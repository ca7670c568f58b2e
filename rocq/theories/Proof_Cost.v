(** The capacity of the expression of a lambda. *)
From Coq Require Import ZArith NArith List Bool Arith Lia.
From Verif Require Import Base Model_Numeric Model_Expr Model_Compute Spec_Expr Spec_Build Spec_Compute Proof_Numeric Proof_Expr2.
Import ListNotations.
Local Open Scope nat_scope.

Definition room (c : nat) (e : rpne) : Prop := rcap e = c /\ length (rnodes e) <= c.
Ltac fin := match goal with
  | H : rpne_of _ _ _ = Ok _ |- _ => let A := fresh in let B := fresh in let C := fresh in let D := fresh in apply rpne_of_ok in H as (A & B & C & D); unfold room; rewrite ?A; split; [lia|lia]
  | H : Ok _ = Ok _ |- _ => injection H as <-; unfold room; cbn; lia
  end.
Ltac cut := repeat match goal with
  | H : bind _ _ = Ok _ |- _ => minv H
  | H : context [match ?x with _ => _ end] |- _ => lazymatch type of H with _ = Ok _ => destruct x eqn:? end
  end; try discriminate.
Lemma room_rescale c x q e : room c x -> rescale x q = Ok e -> room c e.
Proof. intros [A B] H. unfold rescale in H. minv H. injection H as <-. split; assumption. Qed.
Lemma room_neg c x e : room c x -> e_neg x = Ok e -> room c e.
Proof. intros R H. unfold e_neg in H. destruct (0 <? _); [eapply room_rescale; eauto|now injection H as <-]. Qed.
Lemma room_divz c x d e : room c x -> e_divz x d = Ok e -> room c e.
Proof. intros R H. unfold e_divz in H. destruct (0 <? _); [eapply room_rescale; eauto|now injection H as <-]. Qed.
Lemma room_scale c n x e : room c x -> e_scale n x = Ok e -> room c e.
Proof. intros R H. unfold e_scale in H. destruct (_ || _); [injection H as <-; destruct R; split; cbn; [assumption|lia]|eapply room_rescale; eauto]. Qed.
Lemma room_finish c p e : finish_sum c p = Ok e -> room c e.
Proof. unfold finish_sum. destruct p as [out k]. intros H. destruct (k =? 1); [minv H; destruct out; [discriminate|fin]|fin]. Qed.
Lemma room_add md a b l r e : room a l -> room b r -> e_add md l r = Ok e -> room (a + b + 3) e.
Proof.
  intros [L1 L2] [R1 R2] H. unfold e_add in H. rewrite L1, R1 in H.
  destruct (rnodes l) as [|l0 ll] eqn:EL; [fin|]. destruct (rnodes r) as [|r0 rr] eqn:ER; [fin|].
  minv H. minv H.
  repeat match type of H with (if ?b then _ else _) = Ok _ => destruct b end; try (minv H); try (now apply room_finish in H).
  destruct (is_zero _); fin.
Qed.
Lemma room_rev a x e : room a x -> e_rev x = Ok e -> room (a + 1) e.
Proof. intros [A B] H. unfold e_rev in H. rewrite A in H. destruct (rnodes x); [fin|]. minv H. destruct (_ =? _)%N; [fin|minv H; fin]. Qed.
Lemma room_dual a x e : room a x -> e_dual x = Ok e -> room (a + 1) e.
Proof. intros [A B] H. unfold e_dual in H. rewrite A in H. destruct (rnodes x); [fin|]. minv H. fin. Qed.
Lemma room_prod md o a b l r e : room a l -> room b r -> e_prod md o l r = Ok e -> room (a + b + 1) e.
Proof.
  intros [L1 L2] [R1 R2] H. unfold e_prod in H. rewrite L1, R1 in H. destruct (rnodes l); [fin|]. destruct (rnodes r); [fin|].
  minv H. destruct (is_zero _); [fin|]. minv H. minv H. fin.
Qed.
Lemma room_ep md a b l r e : room a l -> room b r -> e_ep md l r = Ok e -> room (a + b + 3) e.
Proof. intros [L1 L2] [R1 R2] H. unfold e_ep in H. rewrite L1, R1 in H. destruct (_ || _); [fin|]. repeat minv H. fin. Qed.
Lemma room_sum c d x : c = d -> room c x -> room d x. Proof. now intros ->. Qed.
Theorem build_cost md sizes u e : build md (lambda_inputs sizes) u = Ok e -> rcap e = cost u /\ length (rnodes e) <= cost u.
Proof.
  intros H. change (room (cost u) e). revert e H.
  assert (B1 : forall c d f x e, (forall y, x = Ok y -> room c y) -> bind1 f x = Ok e -> (forall y e, room c y -> f y = Ok e -> room d e) -> room d e).
  { intros c d f x e X H F. destruct x as [y|]; [|discriminate]. exact (F y e (X y eq_refl) H). }
  assert (B2 : forall a b d f x y e, (forall z, x = Ok z -> room a z) -> (forall z, y = Ok z -> room b z) -> bind2 f x y = Ok e -> (forall z w e, room a z -> room b w -> f z w = Ok e -> room d e) -> room d e).
  { intros a b d f x y e X Y H F. destruct x as [z|]; [|discriminate]. destruct y as [w|]; [|discriminate]. exact (F z w e (X z eq_refl) (Y w eq_refl) H). }
  assert (CO : forall n, room 1 (e_const n 1)) by (intros; split; cbn; lia).
  induction u; intros x H; cbn [build cost] in *.
  - destruct (nth_error _ i) as [y|] eqn:E; [|discriminate]. injection H as <-. apply nth_error_In in E. unfold lambda_inputs in E.
    match type of E with In _ (fst ?p) => assert (G : forall sz c k y, In y (fst (e_entities c k sz)) -> room 1 y); [|exact (G _ _ _ _ E)] end.
    clear. induction sz as [|s sz IH]; intros c k y I; cbn in I; [contradiction|]. destruct (e_entities (c + N.of_nat s) (S k) sz) eqn:E. cbn [fst] in I. destruct I as [<-|I]; [split; cbn; lia|]. apply (IH (c + N.of_nat s)%N (S k)). now rewrite E.
  - injection H as <-. split; cbn; lia.
  - injection H as <-. split; cbn; lia.
  - injection H as <-. split; cbn; lia.
  - exact (B2 _ _ _ _ _ _ _ IHu1 IHu2 H (room_add md _ _)).
  - apply (B2 _ _ _ _ _ _ _ IHu1 IHu2 H). intros z w e A B E. unfold e_sub in E. minv E. exact (room_add md _ _ _ _ _ A (room_neg _ _ _ B E0) E).
  - apply (B1 _ _ _ _ _ IHu H). intros y e R E. exact (room_neg _ _ _ R E).
  - apply (B1 _ _ _ _ _ IHu H). intros y e R E. exact (room_scale _ _ _ _ R E).
  - apply (B1 _ _ _ _ _ IHu H). intros y e R E. exact (room_divz _ _ _ _ R E).
  - apply (B1 _ _ _ _ _ IHu H). intros y e [A B] E. unfold e_zdiv in E. rewrite A in E. minv E. fin.
  - apply (B2 _ _ _ _ _ _ _ IHu1 IHu2 H). intros z w e [A B] [C D] E. unfold e_div in E. rewrite A, C in E. minv E. minv E. fin.
  - apply (B1 _ _ _ _ _ IHu H). intros y e R E. unfold e_addz in E. apply (room_sum (1 + cost u + 3)); [lia|]. exact (room_add md _ _ _ _ _ (CO n) R E).
  - apply (B1 _ _ _ _ _ IHu H). intros y e R E. unfold e_zsub in E. minv E. apply (room_sum (1 + cost u + 3)); [lia|]. exact (room_add md _ _ _ _ _ (CO n) (room_neg _ _ _ R E0) E).
  - apply (B1 _ _ _ _ _ IHu H). intros y e R E. unfold e_subz in E. minv E. apply (room_sum (1 + cost u + 3)); [lia|]. exact (room_add md _ _ _ _ _ (CO v) R E).
  - exact (B1 _ _ _ _ _ IHu H (room_rev _)).
  - exact (B1 _ _ _ _ _ IHu H (room_dual _)).
  - apply (B1 _ _ _ _ _ IHu H). intros y e [A B] E. unfold e_fn in E. rewrite A in E. minv E. fin.
  - destruct (is_const u1).
    + apply (room_sum (cost u2 + cost u1 + 1)); [lia|]. exact (B2 _ _ _ _ _ _ _ IHu2 IHu1 H (room_prod md op_gp _ _)).
    + exact (B2 _ _ _ _ _ _ _ IHu1 IHu2 H (room_prod md op_gp _ _)).
  - exact (B2 _ _ _ _ _ _ _ IHu1 IHu2 H (room_prod md op_lc _ _)).
  - apply (B2 _ _ _ _ _ _ _ IHu1 IHu2 H). intros z w e [A B] [C D] E. unfold e_sip in E. rewrite A, C in E. destruct (rnodes z); [fin|]. destruct (rnodes w); [fin|]. minv E. destruct (is_zero _); [fin|]. minv E. fin.
  - exact (B2 _ _ _ _ _ _ _ IHu1 IHu2 H (room_ep md _ _)).
  - apply (B2 _ _ _ _ _ _ _ IHu1 IHu2 H). intros z w e A B E. unfold e_vee in E. minv E. minv E. minv E.
    apply (room_sum (cost u1 + 1 + (cost u2 + 1) + 3 + 1)); [lia|]. exact (room_dual _ _ _ (room_ep md _ _ _ _ _ (room_dual _ _ _ A E0) (room_dual _ _ _ B E1) E2) E).
  - apply (B2 _ _ _ _ _ _ _ IHu1 IHu2 H). intros z w e A B E. unfold e_sandwich in E. minv E. minv E.
    apply (room_sum (cost u2 + cost u1 + 1 + (cost u2 + 1) + 1)); [lia|]. exact (room_prod md _ _ _ _ _ _ (room_prod md _ _ _ _ _ _ B A E0) (room_rev _ _ _ B E1) E).
  - apply (B2 _ _ _ _ _ _ _ IHu1 IHu2 H). intros z w e [A B] [C D] E. unfold e_scalar_product in E. rewrite A, C in E. destruct (rnodes z); [fin|]. destruct (rnodes w); [fin|]. minv E. destruct (is_zero _); [fin|]. minv E. minv E. fin.
  - apply (B1 _ _ _ _ _ IHu H). intros y e0 [A B] E. unfold e_comp in E. rewrite A in E. minv E. fin.
  - apply (B1 _ _ _ _ _ IHu H). intros y e [A B] E. unfold e_grade in E. rewrite A in E. minv E. fin.
Qed.
Theorem concat_cost md inputs us xs e : mapM (build md (lambda_inputs inputs)) us = Ok xs -> e_concat xs = Ok e -> rcap e = list_sum (map cost us) + length us /\ length (rnodes e) <= list_sum (map cost us) + length us.
Proof.
  intros M H. unfold e_concat in H. apply rpne_of_ok in H as (A & _ & C & D). rewrite A, C.
  assert (G : list_sum (map rcap xs) = list_sum (map cost us) /\ length xs = length us).
  { clear -M. revert xs M. induction us as [|u us IH]; intros xs M; cbn [mapM] in M; [injection M as <-; auto|]. minv M. minv M. injection M as <-. destruct (IH _ E0) as [I1 I2]. cbn. split; [|lia].
    change (fold_right Nat.add 0) with list_sum. destruct (build_cost _ _ _ _ E) as [-> _]. lia. }
  destruct G as [G1 G2]. rewrite <- G1, <- G2. split; [reflexivity|exact D].
Qed.
