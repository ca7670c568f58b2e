(** The text of programs. *)
From Coq Require Import ZArith NArith List Bool Arith String Ascii DecimalString DecimalFacts DecimalN Lia.
From Verif Require Import Base Model_Numeric Model_Expr Model_Format Model_Text Spec_Text Proof_Format.
Import ListNotations.
Local Open Scope string_scope.

(** ** numbers *)
Definition digit (c : ascii) : bool := match c with "0" | "1" | "2" | "3" | "4" | "5" | "6" | "7" | "8" | "9" => true | _ => false end%char.
Fixpoint digits (s : string) : string * string :=
  match s with
  | EmptyString => ("", "")
  | String c s' => if digit c then let '(a, b) := digits s' in (String c a, b) else ("", s)
  end.
Definition stops (s : string) : bool := match s with EmptyString => true | String c _ => negb (digit c) end.
Lemma digits_uint d : forall s, stops s = true -> digits (NilEmpty.string_of_uint d ++ s) = (NilEmpty.string_of_uint d, s).
Proof.
  induction d; intros s S; cbn [NilEmpty.string_of_uint append digits digit]; try (rewrite IHd; auto).
  destruct s as [|c s]; [reflexivity|]. cbn [stops] in S. cbn [digits]. now destruct (digit c).
Qed.
Lemma to_uint_ne n : N.to_uint n <> Decimal.Nil.
Proof. destruct n as [|p]; [discriminate|]. apply DecimalPos.Unsigned.to_uint_nonnil. Qed.
Lemma print_int_nilempty n : print_int n = NilEmpty.string_of_uint (N.to_uint n).
Proof. unfold print_int. pose proof (to_uint_ne n) as H. destruct (N.to_uint n); try reflexivity. congruence. Qed.
Lemma print_int_inj i j s t : stops s = true -> stops t = true -> print_int i ++ s = print_int j ++ t -> i = j /\ s = t.
Proof.
  intros S T E. rewrite !print_int_nilempty in E. apply (f_equal digits) in E. rewrite !digits_uint in E by assumption. injection E as E F. split; [|exact F].
  apply (f_equal NilEmpty.uint_of_string) in E. rewrite !NilEmpty.usu in E. injection E as E. apply (f_equal N.of_uint) in E. now rewrite !DecimalN.Unsigned.of_to in E.
Qed.
Lemma print_int_first i s : exists c r, print_int i ++ s = String c r /\ digit c = true.
Proof. rewrite print_int_nilempty. pose proof (to_uint_ne i) as H. destruct (N.to_uint i); try congruence; cbn; eauto. Qed.
Lemma print_Z_inj i j s t : stops s = true -> stops t = true -> print_Z i ++ s = print_Z j ++ t -> i = j /\ s = t.
Proof.
  intros S T E. unfold print_Z in E. rewrite !append_assoc in E.
  destruct (Z.ltb_spec i 0) as [I|I], (Z.ltb_spec j 0) as [J|J]; cbn [append] in E.
  - injection E as E. apply print_int_inj in E as [E ->]; auto. split; [lia|reflexivity].
  - destruct (print_int_first (Z.abs_N j) t) as (c & r & F & D). rewrite F in E. injection E as <- _. discriminate.
  - destruct (print_int_first (Z.abs_N i) s) as (c & r & F & D). rewrite F in E. injection E as -> _. discriminate.
  - apply print_int_inj in E as [E ->]; auto. split; [lia|reflexivity].
Qed.
Lemma print_nat_inj i j s t : stops s = true -> stops t = true -> print_nat i ++ s = print_nat j ++ t -> i = j /\ s = t.
Proof. intros S T E. apply print_int_inj in E as [E ->]; auto. split; [lia|reflexivity]. Qed.
Lemma print_rat_inj p q s t : stops s = true -> stops t = true -> print_rat p ++ s = print_rat q ++ t -> p = q /\ s = t.
Proof.
  intros S T E. unfold print_rat in E. rewrite !append_assoc in E. apply print_Z_inj in E as [A E]; [|reflexivity..]. cbn [append] in E. injection E as E.
  apply print_Z_inj in E as [B ->]; auto. destruct p, q; cbn in *. now subst.
Qed.
(** ** nodes *)
Lemma op_cases o : (o = 0 \/ o = 1 \/ o = 2 \/ o = 3 \/ o = 4 \/ o = 5 \/ o = 6 \/ o = 7 \/ o = 8 \/ o = 9 \/ o = 10 \/ o = 11 \/ o = 12 \/ o = 13 \/ o = 14 \/ o = 15 \/
  o = 16 \/ o = 17 \/ o = 65536 \/ o = 65537 \/ o = 65538 \/
  (o <> 0 /\ o <> 1 /\ o <> 2 /\ o <> 3 /\ o <> 4 /\ o <> 5 /\ o <> 6 /\ o <> 7 /\ o <> 8 /\ o <> 9 /\ o <> 10 /\ o <> 11 /\ o <> 12 /\ o <> 13 /\ o <> 14 /\ o <> 15 /\
  o <> 16 /\ o <> 17 /\ o <> 65536 /\ o <> 65537 /\ o <> 65538))%N.
Proof. lia. Qed.
Lemma print_other cs n : (no n <> 0 -> no n <> 1 -> no n <> 2 -> no n <> 3 -> no n <> 4 -> no n <> 5 -> no n <> 6 -> no n <> 7 -> no n <> 8 -> no n <> 9 -> no n <> 10 -> no n <> 11 ->
  no n <> 12 -> no n <> 13 -> no n <> 14 -> no n <> 15 -> no n <> 16 -> no n <> 17 -> no n <> 65536 -> no n <> 65537 -> no n <> 65538 ->
  print_node cs n = ("e_" ++ print_int ((no n + (4294967296 - c_scalar)) mod 4294967296) ++ " ")%string)%N.
Proof.
  intros. unfold print_node. cbv zeta. unfold op_id, op_cse, op_se, op_noop, op_rev, op_pd, op_sum, op_gp, op_ep, op_lc, op_sip, op_comp, op_grd, op_div, op_sqrt, op_sin, op_cos, op_tan, c_zero, c_pi, c_e.
  repeat match goal with H : (?a <> ?b)%N |- context [(?a =? ?b)%N] => rewrite (proj2 (N.eqb_neq a b) H); clear H end. reflexivity.
Qed.
Ltac clash := exfalso; match goal with
  | E : print_nat _ ++ _ = String _ _ |- _ => unfold print_nat in E; clash
  | E : String _ _ = print_nat _ ++ _ |- _ => unfold print_nat in E; clash
  | E : print_int ?i ++ ?s = String _ _ |- _ => let c := fresh in let r := fresh in let F := fresh in let D := fresh in destruct (print_int_first i s) as (c & r & F & D); rewrite F in E; injection E as -> _; discriminate
  | E : String _ _ = print_int ?i ++ ?s |- _ => let c := fresh in let r := fresh in let F := fresh in let D := fresh in destruct (print_int_first i s) as (c & r & F & D); rewrite F in E; injection E as <- _; discriminate
  end.
Ltac peel := repeat first
  [ match goal with E : String ?c _ = String ?c _ |- _ => injection E as E end
  | match goal with E : print_rat _ ++ _ = print_rat _ ++ _ |- _ => apply print_rat_inj in E as [? E]; [|reflexivity..] end
  | match goal with E : print_nat _ ++ _ = print_nat _ ++ _ |- _ => apply print_nat_inj in E as [? E]; [|reflexivity..] end
  | match goal with E : print_int _ ++ _ = print_int _ ++ _ |- _ => apply print_int_inj in E as [? E]; [|reflexivity..] end ].
Lemma sub_inj o o' : (o < 2 ^ 32)%N -> (o' < 2 ^ 32)%N -> ((o + (4294967296 - c_scalar)) mod 4294967296 = (o' + (4294967296 - c_scalar)) mod 4294967296)%N -> o = o'.
Proof.
  intros A B E. change (2 ^ 32)%N with 4294967296%N in *. unfold c_scalar in E.
  pose proof (N.div_mod (o + (4294967296 - 65540)) 4294967296 ltac:(discriminate)). pose proof (N.div_mod (o' + (4294967296 - 65540)) 4294967296 ltac:(discriminate)).
  rewrite E in *. assert ((o + (4294967296 - 65540)) / 4294967296 < 2)%N by (apply N.div_lt_upper_bound; lia).
  assert ((o' + (4294967296 - 65540)) / 4294967296 < 2)%N by (apply N.div_lt_upper_bound; lia).
  pose proof (N.mod_lt (o' + (4294967296 - 65540)) 4294967296 ltac:(discriminate)). lia.
Qed.
Lemma parts_other cs o : (o <> 0 -> o <> 1 -> o <> 2 -> o <> 4 -> o <> 5 -> o <> 6 -> o <> 7 -> o <> 8 -> o <> 9 -> o <> 10 -> o <> 11 -> o <> 12 -> o <> 13 -> o <> 14 -> o <> 15 ->
  o <> 16 -> o <> 17 -> parts cs o = [])%N.
Proof. intros. destruct o as [|p]; [congruence|]. do 5 (destruct p as [p|p|]; try reflexivity; try congruence). Qed.
Ltac shown E := cbv [print_node no ncs nex nq op_id op_cse op_se op_noop op_rev op_pd op_sum op_gp op_ep op_lc op_sip op_comp op_grd op_div op_sqrt op_sin op_cos op_tan c_zero c_pi c_e
  N.eqb Pos.eqb print_op print_fn] in E; rewrite ?append_assoc in E; cbn [append] in E.
Ltac other := rewrite print_other by (cbn [no]; assumption); cbn [no]; rewrite ?append_assoc; cbn [append].
Lemma print_node_inj cs a b s t : (no a < 2 ^ 32)%N -> (no b < 2 ^ 32)%N -> print_node cs a ++ s = print_node cs b ++ t -> alike cs a b /\ s = t.
Proof.
  intros A B. unfold alike. destruct a as [o c e q], b as [o' c' e' q']. cbn [no] in *. intros E.
  destruct cs; (destruct (op_cases o) as [H|H]; [|repeat (destruct H as [H|H])];
    [subst o..|destruct H as (?&?&?&?&?&?&?&?&?&?&?&?&?&?&?&?&?&?&?&?&?)]);
   (destruct (op_cases o') as [G|G]; [|repeat (destruct G as [G|G])];
    [subst o'..|destruct G as (?&?&?&?&?&?&?&?&?&?&?&?&?&?&?&?&?&?&?&?&?)]).
  all: repeat match goal with H : context [print_node _ (mknode ?o _ _ _)] |- _ => is_var o; rewrite (print_other _ (mknode o _ _ _)) in H by assumption end.
  all: shown E; try discriminate E; try clash; peel; subst.
  all: try (split; [split; [reflexivity|repeat constructor; assumption]|assumption || reflexivity]).
  all: try clash.
  all: match goal with H : (_ mod _)%N = _ |- _ => apply sub_inj in H; [|assumption..]; subst end.
  all: (split; [split; [reflexivity|rewrite parts_other by assumption; constructor]|reflexivity]).
Qed.
(** ** programs *)
Lemma stops_newline : stops newline = true. Proof. reflexivity. Qed.
Lemma print_nodes_inj cs ix l : forall r i s t, List.length l = List.length r -> Forall (fun n => (no n < 2 ^ 32)%N) l -> Forall (fun n => (no n < 2 ^ 32)%N) r ->
  print_nodes cs ix i l ++ s = print_nodes cs ix i r ++ t -> Forall2 (alike cs) l r /\ s = t.
Proof.
  induction l as [|a l IH]; intros [|b r] i s t L A B E; try discriminate; [split; [constructor|exact E]|]. inversion A; inversion B; subst. cbn [print_nodes] in E. injection L as L.
  rewrite !append_assoc in E. assert (F : print_node cs a ++ (if ix then newline else "") ++ print_nodes cs ix (S i) l ++ s = print_node cs b ++ (if ix then newline else "") ++ print_nodes cs ix (S i) r ++ t).
  { destruct ix; [|exact E]. cbn [append] in E. injection E as E. rewrite ?append_assoc in E. apply print_nat_inj in E as [_ E]; [|reflexivity..]. cbn [append] in E. now injection E. }
  apply print_node_inj in F as [F G]; auto. assert (K : print_nodes cs ix (S i) l ++ s = print_nodes cs ix (S i) r ++ t) by (destruct ix; [cbn [append newline] in G; now injection G|exact G]).
  destruct (IH r (S i) s t L) as [X ->]; auto.
Qed.
Theorem program_text_inj cs ix x y : Forall (fun n => (no n < 2 ^ 32)%N) (rnodes x) -> Forall (fun n => (no n < 2 ^ 32)%N) (rnodes y) ->
  program_text cs ix x = program_text cs ix y -> rq x = rq y /\ Forall2 (alike cs) (rnodes x) (rnodes y).
Proof.
  intros A B E. unfold program_text in E. apply print_nat_inj in E as [L E]; [|reflexivity..]. cbn [append] in E. repeat (injection E as E).
  apply print_rat_inj in E as [Q E]; [|reflexivity..]. cbn [append] in E. injection E as E. split; [exact Q|].
  assert (F : print_nodes cs ix 0 (rnodes x) ++ newline = print_nodes cs ix 0 (rnodes y) ++ newline) by (destruct ix; [now injection E|exact E]).
  now apply print_nodes_inj in F as [F _].
Qed.
Lemma print_node_alike cs a b : alike cs a b -> print_node cs a = print_node cs b.
Proof.
  intros [O P]. destruct a as [o c e q], b as [o' c' e' q']. cbn [no] in O. subst o'. cbn [no] in P.
  destruct (op_cases o) as [H|H]; [|repeat (destruct H as [H|H])]; [subst o..|destruct H as (?&?&?&?&?&?&?&?&?&?&?&?&?&?&?&?&?&?&?&?&?); now rewrite !print_other by assumption].
  all: destruct cs; cbn [parts] in P; repeat match goal with H : Forall _ (_ :: _) |- _ => apply Forall_inv in H as ? ; apply Forall_inv_tail in H end; cbn [same_part ncs nex nq] in *; subst; reflexivity.
Qed.
Theorem program_text_alike cs ix x y : rq x = rq y -> Forall2 (alike cs) (rnodes x) (rnodes y) -> program_text cs ix x = program_text cs ix y.
Proof.
  intros Q F. unfold program_text. rewrite Q. assert (List.length (rnodes x) = List.length (rnodes y)) as -> by (induction F; cbn; auto).
  assert (H : forall i, print_nodes cs ix i (rnodes x) = print_nodes cs ix i (rnodes y)); [|now rewrite H].
  induction F as [|a b l r P F IH]; intros i; [reflexivity|]. cbn [print_nodes]. now rewrite (print_node_alike _ _ _ P), IH.
Qed.
