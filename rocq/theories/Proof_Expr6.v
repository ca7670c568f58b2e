(** Inputs, tuples of results, and tools for concrete expressions. *)
From Coq Require Import ZArith NArith List Bool Reals Lia Lra ZifyBool ZifyN ZifyNat FunctionalExtensionality.
From Verif Require Import Base Model_Numeric Model_Blade Model_Expr Spec_Numeric Spec_Clifford Spec_MV Spec_Basis Spec_Expr Spec_Build.
From Verif Require Import Proof_Numeric Proof_Val Proof_ProductVal Proof_Expr Proof_Expr2 Proof_Expr3 Proof_Expr4 Proof_Expr5.
Import ListNotations.
Local Open Scope nat_scope.

(** ** inputs *)
Definition offset (sizes : list nat) (k : nat) : N := N.of_nat (list_sum (firstn k sizes)).
Lemma entities_length sizes : forall cid i, length (fst (e_entities cid i sizes)) = length sizes.
Proof. induction sizes as [|s r IH]; intros cid i; cbn [e_entities]; [reflexivity|]. specialize (IH (cid + N.of_nat s)%N (S i)). destruct (e_entities _ _ r). cbn [fst length] in *. now rewrite IH. Qed.
Lemma entities_nth sizes : forall cid i k, k < length sizes ->
  nth_error (fst (e_entities cid i sizes)) k = Some (e_input (cid + offset sizes k) (i + k)).
Proof.
  induction sizes as [|s r IH]; intros cid i k K; cbn [length] in K; [lia|]. cbn [e_entities].
  specialize (IH (cid + N.of_nat s)%N (S i)). destruct (e_entities _ _ r) as [l c]. cbn [fst] in *. destruct k as [|k]; cbn [nth_error].
  - unfold offset. cbn. now rewrite N.add_0_r, Nat.add_0_r.
  - rewrite IH by lia. f_equal. f_equal; [unfold offset; cbn [firstn list_sum fold_right]; change (fold_right Nat.add 0) with list_sum; lia|lia].
Qed.
Lemma entities_input sizes k e : nth_error (fst (e_entities 0 0 sizes)) k = Some e -> exists cid, e = e_input cid k.
Proof.
  intros H. assert (K : k < length sizes) by (rewrite <- (entities_length sizes 0%N 0); apply nth_error_Some; congruence).
  rewrite entities_nth in H by assumption. injection H as <-. eexists. reflexivity.
Qed.
Lemma entities_fits sizes k e : nth_error (fst (e_entities 0 0 sizes)) k = Some e -> fits e.
Proof. intros H. apply entities_input in H as [cid ->]. apply input_fits. Qed.

(** ** tuples *)
Section Sem.
Context (m : metric) (env : list V).
Lemma concat_nodes xs : forall l, fold_left append_as_se xs l = l ++ flat_map (fun x => mknode op_se 0 (length (rnodes x)) (rq x) :: rnodes x) xs.
Proof. induction xs as [|x xs IH]; intros l; cbn [fold_left flat_map]; [now rewrite app_nil_r|]. rewrite IH. unfold append_as_se. now rewrite <- app_assoc. Qed.
Lemma concat_run xs : forall vs t s, Forall2 (fun x v => denotes m env x v /\ nonempty x /\ q_ok (rq x)) xs vs ->
  run m env (flat_map (fun x => mknode op_se 0 (length (rnodes x)) (rq x) :: rnodes x) xs) (t, s) (t, rev vs ++ s).
Proof.
  induction xs as [|x xs IH]; intros vs t s H; inversion H as [|? v ? vs' (D & N & Q) H']; subst; cbn [flat_map rev]; [constructor|].
  apply denotes_inv in D as (w & W & _ & ->); [|exact N]. cbn [app].
  apply (run_se m env _ _ _ t t s w); [reflexivity|reflexivity|exact (nden_run m env _ _ t [] W)|].
  cbn [nq]. unfold se_scale. replace (num (rq x) =? 0)%Z with false by (destruct Q; lia). rewrite <- app_assoc. apply IH. exact H'.
Qed.
Lemma concat_denotes xs vs e : Forall2 (fun x v => denotes m env x v /\ nonempty x /\ q_ok (rq x)) xs vs -> e_concat xs = Ok e ->
  rq e = one /\ run m env (rnodes e) ([], []) ([], rev vs).
Proof.
  intros F H. unfold e_concat in H. apply rpne_of_ok in H as (N & Q & _). split; [assumption|]. rewrite N, concat_nodes, app_nil_l.
  rewrite <- (app_nil_r (rev vs)). now apply concat_run.
Qed.
Lemma concat_safe xs : Forall fits xs -> memory_safe (e_concat xs) .
Proof.
  intros F. unfold e_concat, rpne_of. rewrite concat_nodes, app_nil_l. match goal with |- context [length ?l <=? ?c] => replace (length l <=? c) with true end; [apply Proof_Safe.safe_ok|].
  symmetry. apply Nat.leb_le. induction F as [|x xs [C _] F IH]; [reflexivity|]. cbn [flat_map map list_sum fold_right length app]. rewrite app_length.
  change (fold_right Nat.add 0) with list_sum. lia.
Qed.
(** ** concrete values *)
Lemma vprod_delta k a b : (a < 2 ^ dimension m)%N -> (b < 2 ^ dimension m)%N ->
  vprod m k (delta a) (delta b) = vscale (IZR (snd (blade_product m k a b))) (delta (fst (blade_product m k a b))).
Proof.
  intros A B. apply functional_extensionality. intros c. unfold vprod, bilinear, vscale.
  assert (I : forall x, (x < 2 ^ dimension m)%N -> In x (blades (dim m))). { intros x X. apply (blades_in (geometric m)). unfold dim. rewrite N2Nat.id. exact X. }
  assert (P1 : forall (f : N -> R) x, In x (blades (dim m)) -> Rsum (map (fun y => delta x y * f y)%R (blades (dim m))) = f x).
  { intros f x X. transitivity (linear (dim m) delta f x); [|apply Proof_Basis.linear_delta; now apply (blades_in (geometric m))]. unfold linear. apply Rsum_ext. intros y _. unfold delta. rewrite (N.eqb_sym y). ring. }
  transitivity (Rsum (map (fun a' => delta a a' * Rsum (map (fun b' => delta b b' * (if (fst (blade_product m k a' b') =? c)%N then IZR (snd (blade_product m k a' b')) else 0)) (blades (dim m))))%R (blades (dim m)))).
  { apply Rsum_ext. intros a' _. rewrite <- Rsum_mult_l. apply Rsum_ext. intros b' _. destruct (_ =? _)%N; ring. }
  rewrite (P1 (fun a' => Rsum _)) by auto. rewrite P1 by auto. unfold delta. destruct (_ =? _)%N; ring.
Qed.
End Sem.
(** ** tuples as lists of operands *)
Lemma tuple_items m env xs : forall vs, Forall2 (fun x v => denotes m env x v /\ nonempty x /\ q_ok (rq x)) xs vs ->
  exists its, flat_map (fun x => mknode op_se 0 (length (rnodes x)) (rq x) :: rnodes x) xs = flat_map render its /\ ses m env true its /\ map item_val its = vs.
Proof.
  induction xs as [|x xs IH]; intros vs H; inversion H as [|? v ? vs' (D & N & Q) H']; subst; [exists []; repeat constructor|].
  destruct (IH _ H') as (its & E & S1 & S2). apply denotes_inv in D as (w & W & _ & ->); [|exact N]. destruct Q as [Q1 Q2].
  exists (mkitem 0 (rq x) (rnodes x) w :: its). cbn [flat_map render]. rewrite E. split; [reflexivity|]. split; [constructor; auto; cbn; split; lia|].
  cbn [map]. rewrite S2. unfold item_val, se_scale. cbn [i_q i_val]. replace (num (rq x) =? 0)%Z with false by lia. reflexivity.
Qed.
