(** C64: the text of a program. *)
From Coq Require Import ZArith NArith List Bool Arith Reals String DecimalString Lia Lra.
From Verif Require Import Base Model_Numeric Model_Blade Model_Crc Model_Expr Model_Text Spec_Numeric Spec_Clifford Spec_MV Spec_Basis Spec_Expr Spec_Build Spec_Engine Spec_Compute Spec_Text.
From Verif Require Import Model_Dfa Model_Compute Proof_Expr Proof_Expr2 Proof_Expr3 Proof_Expr4 Proof_Expr6 Proof_Nodes Proof_Compute Proof_Text Proof_Text2 Props_Expr Props_Expr2.
Import ListNotations.
Local Open Scope list_scope.
Local Open Scope nat_scope.

(** two programs have the same text exactly if they have the same scale and, node by node, agree in
    what is shown; operators are 32-bit numbers *)
Theorem C64_text cs ix x y : Forall (fun n => (no n < 2 ^ 32)%N) (rnodes x) -> Forall (fun n => (no n < 2 ^ 32)%N) (rnodes y) ->
  program_text cs ix x = program_text cs ix y <-> rq x = rq y /\ Forall2 (alike cs) (rnodes x) (rnodes y).
Proof. intros A B. split; [now apply program_text_inj|]. intros [Q F]. now apply program_text_alike. Qed.
Print Assumptions C64_text.
(** every node starts with the sign of its operator, a blade with its bit mask *)
Theorem C64_signs cs n : (no n < 2 ^ 32)%N -> (forall s, In (no n, s) signs -> exists r, print_node cs n = (s ++ r)%string) /\
  ((c_scalar <= no n)%N -> print_node cs n = ("e_" ++ NilZero.string_of_uint (N.to_uint (no n - c_scalar)) ++ " ")%string).
Proof.
  intros B. split.
  - intros s I. unfold signs in I. cbn [In] in I. destruct n as [o c e q]. cbn [no] in I.
    repeat (destruct I as [I|I]; [apply pair_equal_spec in I as [I1 I2]; subst o s; destruct cs; eexists; reflexivity|]). contradiction.
  - intros C. unfold c_scalar in C. rewrite print_other by lia. unfold c_scalar, Model_Format.print_int. change (2 ^ 32)%N with 4294967296%N in B.
    replace ((no n + (4294967296 - 65540)) mod 4294967296)%N with (no n - 65540)%N; [reflexivity|].
    replace (no n + (4294967296 - 65540))%N with (no n - 65540 + 1 * 4294967296)%N by lia. rewrite N.mod_add by discriminate. symmetry. apply N.mod_small. lia.
Qed.
Print Assumptions C64_signs.
Example C64_signs_ex : print_node false (mknode op_gp 7 0 zero) = "* "%string /\ print_node false (mknode (c_scalar + 5) 7 0 zero) = "e_5 "%string.
Proof. split; reflexivity. Qed.
(** without checksums, the text determines the value, although the number of factors of exterior
    products is not shown *)
Theorem C64_text_value m env ix x y v w : Forall (fun n => (no n < 2 ^ 32)%N) (rnodes x) -> Forall (fun n => (no n < 2 ^ 32)%N) (rnodes y) ->
  ids_name_inputs (rnodes x ++ rnodes y) -> program_text false ix x = program_text false ix y -> denotes m env x v -> denotes m env y w -> v = w.
Proof.
  intros A B N E X Y. apply program_text_inj in E as [Q F]; auto.
  destruct X as [[X ->]|(v' & X & _ & ->)], Y as [[Y ->]|(w' & Y & _ & ->)]; auto.
  - rewrite X in F. inversion F as [H H0|]. exfalso. exact (nden_nonempty _ _ _ _ Y (eq_sym H0)).
  - rewrite Y in F. inversion F as [H H0|]. exfalso. exact (nden_nonempty _ _ _ _ X (eq_sym H)).
  - rewrite Q. f_equal. exact (alike_value m env _ _ _ _ N F X Y).
Qed.
Print Assumptions C64_text_value.
(** the lambdas a user can write over the algebraic operators, with inputs that have components: if
    they have the same text, they mean the same *)
Theorem C64_lambdas_partial m env inputs ix u1 u2 x y v w : List.length inputs = List.length env -> Forall (fun d => d <> []) inputs -> dim m <= 8 ->
  algebraic (dim m) u1 = true -> algebraic (dim m) u2 = true -> faithful m env (lambda_inputs inputs) u1 -> faithful m env (lambda_inputs inputs) u2 ->
  build Exact (lambda_inputs inputs) u1 = Ok x -> build Exact (lambda_inputs inputs) u2 = Ok y -> means m env u1 v -> means m env u2 w ->
  program_text false ix x = program_text false ix y -> v = w.
Proof.
  intros L NE D A1 A2 F1 F2 B1 B2 M1 M2 T.
  destruct (alg_expr inputs _ _ _ A1 B1) as [N1 _]. destruct (alg_expr inputs _ _ _ A2 B2) as [N2 _].
  destruct (lambda_sound m env inputs _ _ _ (eq_sym L) F1 B1 M1) as [D1 _]. destruct (lambda_sound m env inputs _ _ _ (eq_sym L) F2 B2 M2) as [D2 _].
  assert (W : forall l, nodes_ok (alg_op (dim m)) (off inputs) l -> Forall (fun n => (no n < 2 ^ 32)%N) l).
  { intros l N. eapply Forall_impl; [|exact N]. intros n (O & _). destruct O as [O|[O1 O2]].
    - apply existsb_exists in O as (o & I & E). apply N.eqb_eq in E. rewrite E. cbn in I. change (2 ^ 32)%N with 4294967296%N. repeat (destruct I as [<-|I]; [vm_compute; reflexivity|]). contradiction.
    - assert (2 ^ N.of_nat (dim m) <= 2 ^ 8)%N by (apply N.pow_le_mono_r; lia). change (2 ^ 8)%N with 256%N in *. change (2 ^ 32)%N with 4294967296%N. unfold c_scalar in *. lia. }
  apply (C64_text_value m env ix x y v w); auto.
  assert (ID : forall e v, denotes m env e v -> Forall (fun n => no n = op_id -> nex n < List.length env) (rnodes e)).
  { intros e v' [[H _]|(w' & H & _)]; [rewrite H; constructor|exact (nden_ids _ _ _ _ H)]. }
  apply ID in D1, D2. assert (DD : Forall (fun n => no n = op_id -> nex n < List.length env) (rnodes x ++ rnodes y)) by now apply Forall_app.
  assert (NN : nodes_ok (alg_op (dim m)) (off inputs) (rnodes x ++ rnodes y)) by now apply Forall_app.
  unfold nodes_ok in NN. rewrite Forall_forall in DD, NN. intros a b Ia Ib Oa Ob E. destruct (NN a Ia) as (_ & Ea & _). destruct (NN b Ib) as (_ & Eb & _). rewrite (Ea Oa), (Eb Ob) in E.
  pose proof (DD a Ia Oa) as La. pose proof (DD b Ib Ob) as Lb. rewrite <- L in *. unfold off in E. apply Nat2N.inj in E. exact (offset_inj inputs (nex a) (nex b) NE La Lb E).
Qed.
Print Assumptions C64_lambdas_partial.
(** with checksums the scale of a division is not shown: x / y and x / (2 y) have the same text *)
Theorem C64_checksums_hide_scales_refuted : exists m env sizes ix x y v w,
  build Code (inputs sizes) (UDiv (UIn 0) (UIn 1)) = Ok x /\ build Code (inputs sizes) (UDiv (UIn 0) (UScale 2 (UIn 1))) = Ok y /\
  program_text true ix x = program_text true ix y /\ ids_name_inputs (rnodes x ++ rnodes y) /\ denotes m env x v /\ denotes m env y w /\ v <> w.
Proof.
  assert (SC : is_scalar (vscalar 1)) by (intros b B; unfold vscalar; destruct (N.eqb_spec b 0); [contradiction|reflexivity]).
  assert (N1 : vscalar 1 0%N <> 0%R) by (unfold vscalar; cbn; lra).
  exists plane, [vscalar 1; vscalar 1], [1; 1], false. do 2 eexists. exists (vscale (rv one) (vscale (rv one / vscalar 1 0%N) (vscalar 1))), (vscale (rv one) (vscale (rv (mkrat 1 2) / vscalar 1 0%N) (vscalar 1))).
  split; [vm_compute; reflexivity|]. split; [vm_compute; reflexivity|]. split; [vm_compute; reflexivity|]. split; [|split; [|split]].
  - intros a b A B Oa Ob E. cbn [rnodes app In] in A, B.
    repeat match goal with H : _ \/ _ |- _ => destruct H as [<-|H] end; try contradiction; cbn in Oa, Ob, E |- *; congruence || discriminate.
  - apply denotes_intro; [|discriminate]. apply (nd_div plane _ [one_in 0 0] [one_in 1 1]); [now apply nd_id|now apply nd_id|exact SC|exact N1].
  - apply denotes_intro; [|discriminate]. apply (nd_div plane _ [one_in 0 0] [one_in 1 1]); [now apply nd_id|now apply nd_id|exact SC|exact N1].
  - intros E. apply (f_equal (fun f => f 0%N)) in E. unfold vscale, vscalar, rv in E. cbn in E. lra.
Qed.
Print Assumptions C64_checksums_hide_scales_refuted.
(** an input without components has the id of the next one *)
Theorem C64_empty_inputs_refuted : exists m env sizes ix x y v w, List.length sizes = List.length env /\
  build Code (inputs sizes) (UIn 0) = Ok x /\ build Code (inputs sizes) (UIn 1) = Ok y /\ program_text true ix x = program_text true ix y /\
  denotes m env x v /\ denotes m env y w /\ v <> w.
Proof.
  exists plane, [vzero; vscalar 1], [0; 1], false. do 2 eexists. exists (vscale (rv one) vzero), (vscale (rv one) (vscalar 1)). split; [reflexivity|].
  split; [vm_compute; reflexivity|]. split; [vm_compute; reflexivity|]. split; [vm_compute; reflexivity|]. split; [|split].
  - apply denotes_intro; [|discriminate]. now apply (nd_id plane _ 0 0).
  - apply denotes_intro; [|discriminate]. now apply (nd_id plane _ 0 1).
  - intros E. apply (f_equal (fun f => f 0%N)) in E. unfold vscale, vscalar, vzero, rv in E. cbn in E. lra.
Qed.
Print Assumptions C64_empty_inputs_refuted.
Local Open Scope string_scope.
Example C64_ex : match build Code (inputs [2; 2; 4]) (UGp (UAdd (UScale 2 (UIn 0)) (UIn 1)) (URev (UEp (UIn 0) (UIn 2)))) with
  | Ok e => program_text false false e = "12 node(s): 1/1*se(2/1 count: 1) id(0) se(1/1 count: 1) id(2) +(2) se(0/1 count: 1) id(0) se(0/1 count: 1) id(4) ^ ~ * " ++ newline /\
      Forall (fun n => (no n < 2 ^ 32)%N) (rnodes e)
  | Err _ => False end.
Proof.
  match goal with |- match ?b with _ => _ end => let b' := eval vm_compute in b in change b with b' end. cbv beta iota.
  split; [vm_compute; reflexivity|]. cbn [rnodes]. repeat constructor.
Qed.
(** different lambdas with the same text *)
Local Open Scope list_scope.
Definition swapped_1 : uexpr := UGp (UAdd X Y) (UEp X W).
Definition swapped_2 : uexpr := UGp (UAdd Y X) (UEp X W).
Example C64_lambdas_ex : let ins := [[1; 2]; [3; 4]; [5; 6; 7; 8]]%R in
  List.length ins = List.length env_ex /\ Forall (fun d => d <> []) ins /\ dim plane <= 8 /\ swapped_1 <> swapped_2 /\
  algebraic (dim plane) swapped_1 = true /\ algebraic (dim plane) swapped_2 = true /\
  faithful plane env_ex (lambda_inputs ins) swapped_1 /\ faithful plane env_ex (lambda_inputs ins) swapped_2 /\
  match build Exact (lambda_inputs ins) swapped_1, build Exact (lambda_inputs ins) swapped_2 with
  | Ok x, Ok y => program_text false true x = program_text false true y
  | _, _ => False end.
Proof.
  cbv zeta. change (lambda_inputs [[1; 2]; [3; 4]; [5; 6; 7; 8]]%R) with (inputs [2; 2; 4]).
  split; [reflexivity|]. split; [repeat constructor; discriminate|]. split; [cbn; lia|]. split; [discriminate|]. split; [reflexivity|]. split; [reflexivity|].
  split; [unfold swapped_1, X, Y, W; faith|]. split; [unfold swapped_2, X, Y, W; faith|]. vm_compute. reflexivity.
Qed.
