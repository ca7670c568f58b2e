(** Decision procedures for the conditions on reshaped programs. *)
From Coq Require Import ZArith NArith List Bool Arith Lia.
From Verif Require Import Base Model_Numeric Model_Stack Model_Expr Model_Dfa Model_Reshape Spec_Expr Spec_Reshape.
Import ListNotations.
Local Open Scope nat_scope.

Definition node_eqb (a b : node) : bool :=
  (no a =? no b)%N && (ncs a =? ncs b)%N && (nex a =? nex b) && (num (nq a) =? num (nq b))%Z && (den (nq a) =? den (nq b))%Z.
Lemma node_eqb_ok a b : node_eqb a b = true -> a = b.
Proof.
  destruct a as [a1 a2 a3 [a4 a5]], b as [b1 b2 b3 [b4 b5]]. unfold node_eqb. cbn. rewrite !andb_true_iff. intros [[[[H1 H2] H3] H4] H5].
  apply N.eqb_eq in H1, H2. apply Nat.eqb_eq in H3. apply Z.eqb_eq in H4, H5. now subst.
Qed.
Fixpoint nodes_eqb (a b : list node) : bool :=
  match a, b with [], [] => true | x :: a', y :: b' => node_eqb x y && nodes_eqb a' b' | _, _ => false end.
Lemma nodes_eqb_ok a : forall b, nodes_eqb a b = true -> a = b.
Proof.
  induction a as [|x a IH]; intros [|y b] H; try discriminate; [reflexivity|]. cbn in H. apply andb_true_iff in H as [H1 H2]. apply node_eqb_ok in H1. subst. f_equal. auto.
Qed.
Lemma nodes_eq_bare a : forall b, map bare a = map bare b -> nodes_eq a b = true.
Proof.
  induction a as [|x a IH]; intros [|y b] H; try discriminate; [reflexivity|]. cbn [map] in H. injection H as H1 H2 H3 H4. cbn [nodes_eq]. rewrite (IH _ H4). unfold node_eq. now rewrite H1, H2, H3, !N.eqb_refl, Nat.eqb_refl.
Qed.
(** the operands of a program: position and length *)
Definition operands (l : list node) : list (nat * nat) :=
  flat_map (fun p => flat_map (fun k => if (p + k <=? length l) && operand (sub l p k) then [(p, k)] else []) (seq 0 (S (length l)))) (seq 0 (S (length l))).
Lemma operands_in l p k : p + k <= length l -> operand (sub l p k) = true -> In (p, k) (operands l).
Proof.
  intros H O. apply in_flat_map. exists p. split; [apply in_seq; lia|]. apply in_flat_map. exists k. split; [apply in_seq; lia|].
  apply Nat.leb_le in H. rewrite H, O. now left.
Qed.
Definition pairs_all (P : nat * nat -> nat * nat -> bool) (l : list (nat * nat)) : bool := forallb (fun a => forallb (P a) l) l.
Lemma pairs_all_ok P l : pairs_all P l = true -> forall a b, In a l -> In b l -> P a b = true.
Proof. unfold pairs_all. rewrite forallb_forall. intros H a b A B. specialize (H a A). rewrite forallb_forall in H. auto. Qed.
Definition identifiedb (l : list node) : bool :=
  pairs_all (fun a b => negb ((1 <? snd a) && (snd a =? snd b) && negb (is_read_op (no (last (sub l (fst a) (snd a)) node0))) && nodes_eq (sub l (fst a) (snd a)) (sub l (fst b) (snd b)))
    || nodes_eqb (sub l (fst a) (snd a)) (sub l (fst b) (snd b))) (operands l).
Lemma identifiedb_ok l : identifiedb l = true -> identified l.
Proof.
  intros H p q k K P Q OP OQ R E. pose proof (pairs_all_ok _ _ H (p, k) (q, k) (operands_in l p k P OP) (operands_in l q k Q OQ)) as W. cbn [fst snd] in W.
  apply Nat.ltb_lt in K. rewrite K, Nat.eqb_refl, R, nodes_eq_bare in W by exact E. cbn in W. now apply nodes_eqb_ok.
Qed.
Definition distinctb (l : list node) : bool :=
  pairs_all (fun a b => negb ((1 <? snd a) && (snd a =? snd b) && negb (is_read_op (no (last (sub l (fst a) (snd a)) node0))) && nodes_eq (sub l (fst a) (snd a)) (sub l (fst b) (snd b))) || (fst a =? fst b)) (operands l).
Lemma distinctb_ok l : distinctb l = true -> distinct l.
Proof.
  intros H p q k K P Q OP OQ R E. pose proof (pairs_all_ok _ _ H (p, k) (q, k) (operands_in l p k P OP) (operands_in l q k Q OQ)) as W. cbn [fst snd] in W.
  apply Nat.ltb_lt in K. rewrite K, Nat.eqb_refl, R, nodes_eq_bare in W by exact E. cbn in W. now apply Nat.eqb_eq.
Qed.
Definition directb (l : list node) : bool := forallb (fun n => negb (existsb (N.eqb (no n)) [op_div; op_sqrt; op_sin; op_cos; op_tan])) l.
Lemma directb_ok l : directb l = true -> direct l.
Proof. unfold directb. rewrite forallb_forall. intros H n I. specialize (H n I). now apply negb_true_iff in H. Qed.
Definition countedb (x : rpne) : bool :=
  match first_pass x with Ok s => counts (N.to_nat (sc_kc s)) 0 (sc_nodes s) (sc_ses s) (length (rnodes x)) | Err _ => true end.
Lemma countedb_ok x : countedb x = true -> counted x.
Proof. intros H s E. unfold countedb in H. now rewrite E in H. Qed.
