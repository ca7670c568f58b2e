(** Which inputs compute accepts. *)
From Coq Require Import NArith List Bool Lia.
From Verif Require Import Base Model_Inputs Spec_Inputs.
Import ListNotations.
Local Open Scope N_scope.

Lemma ids_of l : forall id i, l <> [] -> Forall (fun d => ~ is_number d) (removelast l) -> exists j, rpne_entities l id i = Ok (id + total l, j).
Proof.
  induction l as [|d l IH]; intros id i N F; [easy|]. destruct l as [|d' l].
  - destruct d; cbn; eexists; do 2 f_equal; lia.
  - change (removelast (d :: d' :: l)) with (d :: removelast (d' :: l)) in F. inversion F as [|? ? D F']. subst. destruct d as [t|t n]; [now contradiction D|].
    change (rpne_entities (Entity t n :: d' :: l) id i) with (rpne_entities (d' :: l) (id + n) (i + 1)).
    destruct (IH (id + n) (i + 1) ltac:(easy) F') as [j ->]. eexists. do 2 f_equal. change (total (Entity t n :: d' :: l)) with (n + total (d' :: l)). lia.
Qed.
Lemma ids_number l : forall id i r, rpne_entities l id i = Ok r -> Forall (fun d => ~ is_number d) (removelast l).
Proof.
  induction l as [|d l IH]; intros id i r E; [constructor|]. destruct l as [|d' l]; [constructor|].
  change (removelast (d :: d' :: l)) with (d :: removelast (d' :: l)). destruct d as [t|t n]; [discriminate E|]. constructor; [easy|exact (IH _ _ _ E)].
Qed.
Lemma fits_dec v d : (match d with Number t => t =? v | Entity t n => (n =? 0) || (t =? v) end) = true <-> stored_as v d.
Proof. unfold stored_as. destruct d; cbn; [rewrite N.eqb_eq; split; [now right|intros [H|H]; [discriminate H|exact H]]|rewrite orb_true_iff, !N.eqb_eq; reflexivity]. Qed.
Lemma cells_of v l : l <> [] -> Forall (stored_as v) l -> fill_types v l = Ok (total l).
Proof.
  induction l as [|d l IH]; intros N F; [easy|]. inversion F as [|? ? D F']. subst. cbn [fill_types]. rewrite (proj2 (fits_dec v d) D).
  destruct l as [|d2 l]; [cbn; f_equal; destruct d; cbn; lia|]. rewrite (IH ltac:(easy) F'). cbn [bind]. reflexivity.
Qed.
Lemma cells_fit v l k : fill_types v l = Ok k -> Forall (stored_as v) l.
Proof.
  revert k. induction l as [|d l IH]; intros k E; [constructor|]. cbn [fill_types] in E. destruct (match d with Number t => t =? v | Entity t n => (n =? 0) || (t =? v) end) eqn:D; [|discriminate E].
  constructor; [now apply fits_dec|]. destruct l as [|d' l]; [constructor|]. destruct (fill_types v (d' :: l)) as [k'|] eqn:E'; [|discriminate E]. now apply (IH k').
Qed.
(** ** C59 *)
(** Any number of inputs of one value type, built-in numbers among them, should be accepted. The code
    accepts an entity followed by entities and at most one number, the last input. *)
Theorem C59_accepted_partial l : (exists r, compute_types l = Ok r) <->
  exists d l', l = d :: l' /\ ~ is_number d /\ Forall (fun d => ~ is_number d) (removelast l) /\ Forall (stored_as (value_type d)) l'.
Proof.
  split.
  - intros [r E]. destruct l as [|d l]; [discriminate E|]. exists d, l. destruct d as [t|t n]; [discriminate E|]. unfold compute_types in E. cbn [bind infer_field] in E.
    destruct (rpne_entities (Entity t n :: l) 0 0) as [r'|] eqn:E1; [|discriminate E]. cbn [bind] in E. destruct (fill_types t (Entity t n :: l)) as [k|] eqn:E2; [|discriminate E].
    split; [reflexivity|]. split; [easy|]. split; [exact (ids_number _ _ _ _ E1)|]. apply cells_fit in E2. now inversion E2.
  - intros (d & l' & -> & D & F & S). destruct d as [t|t n]; [now contradiction D|]. unfold compute_types. cbn [bind infer_field].
    destruct (ids_of (Entity t n :: l') 0 0 ltac:(easy) F) as [j ->]. cbn [bind]. rewrite cells_of; [eexists; reflexivity|easy|]. constructor; [now right|exact S].
Qed.
Print Assumptions C59_accepted_partial.
(** Then the value type is that of the first input, and there is one cell for each component of each
    input; the first free id is the number of cells. *)
Theorem C59_layout l v ids k : compute_types l = Ok (v, ids, k) -> (exists d l', l = d :: l' /\ v = value_type d) /\ k = total l /\ ids = k.
Proof.
  intros E. assert (A : exists r, compute_types l = Ok r) by (eexists; exact E). apply C59_accepted_partial in A. destruct A as (d & l' & -> & D & F & S). destruct d as [t|t n]; [now contradiction D|].
  unfold compute_types in E. cbn [bind infer_field] in E. destruct (ids_of (Entity t n :: l') 0 0 ltac:(easy) F) as [j H]. rewrite H in E. cbn [bind] in E.
  rewrite cells_of in E; [|easy|constructor; [now right|exact S]]. cbn [bind fst] in E. injection E as <- <- <-. split; [do 2 eexists; split; reflexivity|]. split; [reflexivity|lia].
Qed.
Print Assumptions C59_layout.
Theorem C59_number_first_refuted : exists l t, l <> [] /\ Forall (fun d => value_type d = t) l /\ compute_types l = Err IllFormed.
Proof. exists [Number 0; Entity 0 3], 0. split; [easy|]. split; [repeat constructor|reflexivity]. Qed.
Print Assumptions C59_number_first_refuted.
Theorem C59_two_numbers_refuted : exists l t d, l <> [] /\ Forall (fun d => value_type d = t) (d :: l) /\ ~ is_number d /\ compute_types (d :: l) = Err IllFormed.
Proof. exists [Number 0; Number 0], 0, (Entity 0 3). split; [easy|]. split; [repeat constructor|]. split; [easy|reflexivity]. Qed.
Print Assumptions C59_two_numbers_refuted.
Example C59_ex : compute_types [Entity 0 3; Entity 0 4; Number 0] = Ok (0, 8, 8).
Proof. reflexivity. Qed.
