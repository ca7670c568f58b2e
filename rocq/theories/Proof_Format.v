(** Formatting. *)
From Coq Require Import NArith List Bool Arith String DecimalString Lia.
From Verif Require Import Spec_Clifford Model_Format Spec_Format Proof_Gens Proof_Blade3.
Import ListNotations.
Local Open Scope string_scope.

Lemma concat_nil_app l : forall s, concat "" (s :: l) = s ++ concat "" l.
Proof. intros s. destruct l as [|t l]; cbn [concat]; [|reflexivity]. induction s as [|c s IH]; cbn; [reflexivity|]. now f_equal. Qed.
Lemma append_nil_r s : s ++ "" = s. Proof. induction s as [|c s IH]; cbn; [reflexivity|]. now f_equal. Qed.
Lemma append_assoc a b c : (a ++ b) ++ c = a ++ b ++ c. Proof. induction a as [|x a IH]; cbn; [reflexivity|]. now f_equal. Qed.
Lemma indices_ok fuel : forall e j, (N.size_nat e <= fuel)%nat -> print_indices fuel e j = concat "" (map print_int (map (N.add j) (gens e))).
Proof.
  induction fuel as [|f IH]; intros e j H.
  - destruct e as [|[]]; cbn in H; try lia. reflexivity.
  - cbn [print_indices]. destruct (N.ltb_spec 0 e) as [P|P]; [|assert (e = 0%N) as -> by lia; reflexivity].
    assert (SZ : (N.size_nat (N.shiftr e 1) <= f)%nat) by (destruct e as [|[]]; cbn in *; lia).
    rewrite (IH _ _ SZ). change 1%N with (N.ones 1) at 1. rewrite N.land_ones. change (2 ^ 1)%N with 2%N. rewrite N.shiftr_div_pow2. change (2 ^ 1)%N with 2%N.
    pose proof (N.div_mod e 2 ltac:(discriminate)) as DM. pose proof (N.mod_lt e 2 ltac:(discriminate)) as ML.
    assert (J : forall g, map (N.add (j + 1)) g = map (N.add j) (map N.succ g)) by (intros g; rewrite map_map; apply map_ext; intros; lia).
    rewrite J. destruct (N.eqb_spec (e mod 2) 1) as [O|O].
    + rewrite DM at 2. rewrite O. rewrite gens_double1. cbn [map]. rewrite concat_nil_app. now rewrite N.add_0_r.
    + replace (e mod 2)%N with 0%N in DM by lia. rewrite N.add_0_r in DM. rewrite DM at 2. rewrite gens_double. reflexivity.
Qed.
Lemma map_add_0 l : map (N.add 0) l = l. Proof. induction l as [|a l IH]; cbn [map]; [reflexivity|]. now rewrite IH. Qed.
Lemma component_ok {T} (show : T -> string) p : print_component show p = show (snd p) ++ label (fst p).
Proof.
  unfold print_component. f_equal. rewrite indices_ok by lia. rewrite map_add_0. unfold label. destruct (N.ltb_spec 0 (fst p)) as [P|P].
  - destruct (gens (fst p)) eqn:G; [|reflexivity]. rewrite <- gens_0 in G. apply gens_inj in G. lia.
  - assert (fst p = 0%N) as -> by lia. reflexivity.
Qed.
Lemma from_ok {T} (show : T -> string) l : forall i size, (i + List.length l = size)%nat -> print_from show l i size = concat " + " (map (fun p => show (snd p) ++ label (fst p)) l).
Proof.
  induction l as [|p l IH]; intros i size H; cbn [print_from map concat]; [reflexivity|]. rewrite component_ok. cbn [List.length] in H. destruct l as [|p' l].
  - cbn [map List.length] in *. replace (i =? size - 1)%nat with true by (symmetry; apply Nat.eqb_eq; lia). cbn [print_from]. now rewrite !append_nil_r.
  - replace (i =? size - 1)%nat with false by (symmetry; apply Nat.eqb_neq; cbn [List.length] in H; lia). rewrite IH by (cbn [List.length] in *; lia). reflexivity.
Qed.
Theorem to_string_ok {T} (show : T -> string) l : to_string show l = written show l.
Proof. destruct l as [|p l]; [reflexivity|]. unfold to_string, written. now apply from_ok. Qed.
(** ** labels *)
Lemma digit_inj i j s t : (i < 10)%N -> (j < 10)%N -> print_int i ++ s = print_int j ++ t -> i = j /\ s = t.
Proof.
  intros I J. assert (C : forall k, (k < 10)%N -> In k [0; 1; 2; 3; 4; 5; 6; 7; 8; 9]%N) by (intros k K; cbn; lia).
  apply C in I, J. cbn in I, J. repeat match goal with H : _ \/ _ |- _ => destruct H as [<-|H] end; try contradiction; vm_compute; intros E; injection E; auto; discriminate.
Qed.
Lemma digit_ne i s : (i < 10)%N -> print_int i ++ s <> "".
Proof.
  intros I. assert (C : In i [0; 1; 2; 3; 4; 5; 6; 7; 8; 9]%N) by (cbn; lia). cbn in C. repeat match goal with H : _ \/ _ |- _ => destruct H as [<-|H] end; try contradiction; discriminate.
Qed.
Lemma digits_inj a : forall b, Forall (fun i => (i < 10)%N) a -> Forall (fun i => (i < 10)%N) b -> concat "" (map print_int a) = concat "" (map print_int b) -> a = b.
Proof.
  induction a as [|i a IH]; intros [|j b] A B E; auto; cbn [map] in E; rewrite ?concat_nil_app in E.
  - exfalso. inversion B; subst. symmetry in E. eapply digit_ne; eauto.
  - exfalso. inversion A; subst. eapply digit_ne; eauto.
  - inversion A; inversion B; subst. apply digit_inj in E as [-> E]; auto. f_equal. now apply IH.
Qed.
Theorem label_inj a b : (a < 2 ^ 10)%N -> (b < 2 ^ 10)%N -> label a = label b -> a = b.
Proof.
  intros A B E. apply gens_inj. assert (F : forall c, (c < 2 ^ 10)%N -> Forall (fun i => (i < 10)%N) (gens c)).
  { intros c C. apply Forall_forall. intros i I. apply gens_In in I. destruct (N.lt_ge_cases i 10) as [L|L]; [exact L|]. exfalso.
    destruct (N.eq_dec c 0) as [->|Z]; [rewrite N.bits_0 in I; discriminate|]. rewrite N.bits_above_log2 in I; [discriminate|]. apply N.log2_lt_pow2 in C; lia. }
  apply digits_inj; [now apply F|now apply F|]. change (fun i => NilZero.string_of_uint (N.to_uint i)) with print_int in *. unfold label in E.
  change (fun i => NilZero.string_of_uint (N.to_uint i)) with print_int in E. destruct (gens a), (gens b); try discriminate; [reflexivity|]. injection E as E. exact E.
Qed.
