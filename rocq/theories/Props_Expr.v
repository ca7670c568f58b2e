(** C25-C28, C38 and part of C31, C40, C42: what the expression operators build. *)
From Coq Require Import ZArith NArith List Bool Reals Lia Lra.
From Verif Require Import Base Model_Numeric Model_Blade Model_Crc Model_Expr Spec_Numeric Spec_Clifford Spec_MV Spec_Basis Spec_Expr Spec_Build.
From Verif Require Import Proof_Expr Proof_Expr2 Proof_Expr3 Proof_Expr4 Proof_Expr5 Proof_Expr6.
Import ListNotations.
Local Open Scope nat_scope.

(** the inputs of a lambda whose arguments have the given sizes *)
Definition inputs (sizes : list nat) : list rpne := fst (e_entities 0 0 sizes).

(** ** Operators one by one. An expression [denotes] a value; [run] is the stack machine. *)
Theorem C25_denotation_is_what_the_machine_computes m env e v t s : denotes m env e v -> nonempty e ->
  exists w, run m env (rnodes e) (t, s) (t, w :: s) /\ v = vscale (rv (rq e)) w.
Proof.
  intros D N. apply denotes_inv in D as (w & W & _ & ->); [|exact N]. exists w. split; [exact (nden_run m env _ _ t s W)|reflexivity].
Qed.
Print Assumptions C25_denotation_is_what_the_machine_computes.
Theorem C25_denotation_unique m env e v w : denotes m env e v -> denotes m env e w -> v = w.
Proof. exact (denotes_det m env e v w). Qed.
Print Assumptions C25_denotation_unique.
Theorem C25_machine_deterministic m env l st a b : run m env l st a -> run m env l st b -> a = b.
Proof. intros A B. exact (run_det m env l st a A b B). Qed.
Print Assumptions C25_machine_deterministic.
(** addition of two non-zero expressions; the three conditions are those refuted below *)
Theorem C25_add_partial m env l r v w e : nonempty l -> nonempty r -> denotes m env l v -> denotes m env r w ->
  q_ok (rq l) -> q_ok (rq r) -> agree (rnodes l) (rnodes r) -> merge_fair l r -> e_add Exact l r = Ok e ->
  denotes m env e (vadd v w) \/ (cancelled e /\ vadd v w = vzero).
Proof. intros A B C D E F G H I. destruct (add_val m env l r v w e A B C D E F G H I) as [[X _]|X]; auto. Qed.
Print Assumptions C25_add_partial.
(** whole expressions: where every operator's side condition holds, the expression built denotes
    what the user wrote; [means] is the intended meaning, [faithful] collects the conditions *)
Theorem C25_faithful_expressions_partial m env sizes u e v : length sizes = length env ->
  faithful m env (inputs sizes) u -> build Exact (inputs sizes) u = Ok e -> means m env u v ->
  denotes m env e v /\ q_ok (rq e).
Proof.
  intros L F B M. apply (build_sound m env (inputs sizes)) with (u := u); auto.
  - unfold inputs. rewrite entities_length. exact L.
  - intros i x. apply entities_input.
Qed.
Print Assumptions C25_faithful_expressions_partial.
Theorem C25_code_agrees ins u e : build Exact ins u = Ok e -> build Code ins u = Ok e.
Proof. exact (imp_build ins u e). Qed.
Print Assumptions C25_code_agrees.
Theorem C26_binary_products m env o k l r v w e : binop o = Some k -> nonempty l -> nonempty r ->
  denotes m env l v -> denotes m env r w -> e_prod Exact o l r = Ok e -> denotes m env e (vprod m k v w).
Proof. exact (prod_val m env o k l r v w e). Qed.
Print Assumptions C26_binary_products.
Theorem C26_symmetric_inner m env l r v w e : nonempty l -> nonempty r -> denotes m env l v -> denotes m env r w -> e_sip Exact l r = Ok e ->
  (first_checksum_less l r -> denotes m env e (vprod m SymInner v w)) /\ (~ first_checksum_less l r -> denotes m env e (vprod m SymInner w v)).
Proof. exact (sip_val m env l r v w e). Qed.
Print Assumptions C26_symmetric_inner.
(** scalar_product is the scalar part of the geometric product unless both operands have a scalar part *)
Theorem C26_scalar_product_partial m env l r v w e : nonempty l -> nonempty r -> denotes m env l v -> denotes m env r w ->
  e_scalar_product Exact l r = Ok e -> (v 0%N * w 0%N = 0)%R -> denotes m env e (vcomp 0 (vprod m Geometric v w)).
Proof. exact (scalar_product_val m env l r v w e). Qed.
Print Assumptions C26_scalar_product_partial.
Theorem C26_scalar_part_of_geometric_symmetric m v w : vcomp 0 (vprod m Geometric v w) = vcomp 0 (vprod m Geometric w v).
Proof. exact (geo_scalar_sym m v w). Qed.
Print Assumptions C26_scalar_part_of_geometric_symmetric.
Theorem C26_exterior_partial m env l r v w e : denotes m env l v -> denotes m env r w -> e_ep Exact l r = Ok e ->
  (is_wedge l \/ is_wedge r -> (rv (rq l) * rv (rq r) = 1)%R) -> denotes m env e (vprod m Exterior v w).
Proof. exact (ep_val m env l r v w e). Qed.
Print Assumptions C26_exterior_partial.
Theorem C27_scale m env n x v e : denotes m env x v -> e_scale n x = Ok e -> denotes m env e (vscale (IZR n) v).
Proof. exact (scale_val m env n x v e). Qed.
Print Assumptions C27_scale.
Theorem C27_negate m env x v e : denotes m env x v -> e_neg x = Ok e -> denotes m env e (vneg v).
Proof. exact (neg_val m env x v e). Qed.
Print Assumptions C27_negate.
Theorem C27_divide_by_integer m env x d v e : d <> 0%Z -> denotes m env x v -> e_divz x d = Ok e -> denotes m env e (vscale (/ IZR d) v).
Proof. exact (divz_val m env x d v e). Qed.
Print Assumptions C27_divide_by_integer.
Theorem C27_divide_by_expression m env x y v w e : denotes m env x v -> denotes m env y w -> is_scalar w -> w 0%N <> 0%R -> nonempty x ->
  e_div Exact x y = Ok e -> denotes m env e (vscale (/ w 0%N) v).
Proof. exact (div_val m env x y v w e). Qed.
Print Assumptions C27_divide_by_expression.
(** n / x denotes 1 / x whatever n is *)
Theorem C27_integer_over_expression_partial m env n x v e : denotes m env x v -> is_scalar v -> v 0%N <> 0%R -> e_zdiv n x = Ok e ->
  denotes m env e (vscalar (/ v 0%N)).
Proof. exact (zdiv_val m env n x v e). Qed.
Print Assumptions C27_integer_over_expression_partial.
Theorem C28_reverse_partial m env x v e : denotes m env x v -> e_rev x = Ok e -> unscaled x -> denotes m env e (vrev v).
Proof. exact (rev_val m env x v e). Qed.
Print Assumptions C28_reverse_partial.
Theorem C28_dual_partial m env x v e : denotes m env x v -> e_dual x = Ok e -> unscaled x -> denotes m env e (vdual (dim m) v).
Proof. exact (dual_val m env x v e). Qed.
Print Assumptions C28_dual_partial.
(** in general the factor is lost: the result is that of the program without its scale *)
Theorem C28_reverse_and_dual_drop_the_factor m env x w e e' : nden m env (rnodes x) w -> e_rev x = Ok e -> e_dual x = Ok e' ->
  denotes m env e (vrev w) /\ denotes m env e' (vdual (dim m) w).
Proof. intros W A B. split; [exact (rev_drops m env x w e W A)|exact (dual_drops m env x w e' W B)]. Qed.
Print Assumptions C28_reverse_and_dual_drop_the_factor.
Theorem C38_pi m env c : den (rc_q c) <> 0%Z -> denotes m env (rc_convert c) (vscalar (rv (rc_q c) * PI)).
Proof. exact (pi_val m env c). Qed.
Print Assumptions C38_pi.
(** at the level of expressions functions apply to the whole, scaled argument *)
Theorem C40_function_of_expression_partial m env o f x v e : fn o = Some f -> denotes m env x v -> is_scalar v -> q_ok (rq x) -> e_fn o x = Ok e ->
  denotes m env e (vscalar (f (v 0%N))).
Proof. exact (fn_val m env o f x v e). Qed.
Print Assumptions C40_function_of_expression_partial.
Theorem C42_tuple m env xs vs e : Forall2 (fun x v => denotes m env x v /\ nonempty x /\ q_ok (rq x)) xs vs -> e_concat xs = Ok e ->
  rq e = one /\ run m env (rnodes e) ([], []) ([], rev vs).
Proof. exact (concat_denotes m env xs vs e). Qed.
Print Assumptions C42_tuple.
(** input k starts where the inputs before it end *)
Theorem C31_inputs_in_order sizes k : k < length sizes ->
  nth_error (inputs sizes) k = Some (e_input (N.of_nat (list_sum (firstn k sizes))) k).
Proof. exact (entities_nth sizes 0%N 0 k). Qed.
Print Assumptions C31_inputs_in_order.

(** ** bounds *)
Theorem C48_operators_stay_in_bounds md sizes u : guarded md (inputs sizes) u -> memory_safe (build md (inputs sizes) u) /\
  forall e, build md (inputs sizes) u = Ok e -> length (rnodes e) <= rcap e.
Proof.
  intros G. destruct (good_build md (inputs sizes)) with (u := u) as [S F]; [intros i e; apply entities_fits|exact G|].
  split; [exact S|]. intros e E. apply F in E as [L _]. exact L.
Qed.
Print Assumptions C48_operators_stay_in_bounds.
Theorem C48_tuple_stays_in_bounds md sizes us xs : Forall (guarded md (inputs sizes)) us -> mapM (build md (inputs sizes)) us = Ok xs -> memory_safe (e_concat xs).
Proof.
  intros G B. apply concat_safe. revert xs B. induction G as [|u us Gu G IH]; intros xs B; cbn [mapM] in B; [injection B as <-; constructor|].
  destruct (build md (inputs sizes) u) as [x|] eqn:E; cbn [bind] in B; [|discriminate]. destruct (mapM _ us) as [ys|]; cbn [bind] in B; [|discriminate].
  injection B as <-. constructor; [|now apply IH].
  destruct (good_build md (inputs sizes)) with (u := u) as [_ F]; [intros i e'; apply entities_fits|exact Gu|]. now apply F.
Qed.
Print Assumptions C48_tuple_stays_in_bounds.
(** component selection from a zero expression reads before the array *)
Theorem C48_component_of_zero_refuted : exists sizes u, build Code (inputs sizes) u = Err OutOfBounds.
Proof. exists [1], (UComp (UScale 0 (UIn 0)) 1). reflexivity. Qed.
Print Assumptions C48_component_of_zero_refuted.

(** ** Examples: the hypotheses are met *)
Definition plane : metric := mkmetric 2 0 0.
Definition X := UIn 0.
Definition Y := UIn 1.
Definition W := UIn 2.
Definition u_ex : uexpr := UGp (USub (UScale 2 (UAdd X Y)) (UDivZ W 3)) (URev (UEp X Y)).
Definition env_ex : list V := [delta 1; delta 2; vadd (delta 0) (delta 3)].
Ltac agree_tac := intros b c Hb Hc; cbn in Hb, Hc; repeat match goal with H : _ \/ _ |- _ => destruct H as [H|H] end;
  try contradiction; subst; vm_compute; intros E; try reflexivity; discriminate E.
Ltac ev := match goal with
  | |- on2 ?P ?a ?b => let a' := eval vm_compute in a in let b' := eval vm_compute in b in change (on2 P a' b'); cbn [on2]
  | |- on1 ?P ?a => let a' := eval vm_compute in a in change (on1 P a'); cbn [on1]
  end; cbv beta.
Ltac add_tac := split; [intros N; exfalso; apply N; discriminate|split; [intros N; exfalso; apply N; discriminate|intros _ _; split; [agree_tac|split;
  [intros S1 S2; first [left; reflexivity|(destruct S1 as (n1 & E1 & F1); injection E1 as <-; discriminate F1)|(destruct S2 as (n1 & E1 & F1); injection E1 as <-; discriminate F1)|right; cbn; intros c Hc; repeat match goal with H : _ \/ _ |- _ => destruct H as [H|H] end; try contradiction; subst; reflexivity]
  |vm_compute; intros (n & E & _); discriminate E]]]].
Ltac side := repeat ev; first [ exact I | discriminate | cbn; lia | add_tac
  | (intros _; unfold rv; cbn; lra) | (intros [(n & E & F)|(n & E & F)]; injection E as <-; discriminate F) | (unfold rv; cbn; lra) ].
Ltac faith := cbn [faithful]; repeat match goal with |- _ /\ _ => split end; try solve [side].
Example C25_ex : faithful plane env_ex (inputs [2; 2; 4]) u_ex /\ guarded Exact (inputs [2; 2; 4]) u_ex /\
  match build Exact (inputs [2; 2; 4]) u_ex with Ok e => length (rnodes e) = 14 | Err _ => False end.
Proof.
  split; [|split; [cbn; repeat split; lia|vm_compute; reflexivity]]. unfold u_ex, X, Y, W. faith.
Qed.
Ltac ge := match goal with |- some ?a => let a' := eval vm_compute in a in change (some a'); intros x E; injection E as <-; discriminate end.
(** |, ^, ~, !, selection, division, functions, constants *)
Definition u_ex2 : uexpr :=
  UAddZ 3 (UAdd (USip X Y) (UGp (UScale 2 UPi) (UDiv (UGrade (UDual (USandwich W X)) 2) (UFn op_sqrt (UAddZ 1 (UComp X 1)))))).
Example C26_ex : faithful plane env_ex (inputs [2; 2; 4]) u_ex2 /\ guarded Exact (inputs [2; 2; 4]) u_ex2 /\
  match build Exact (inputs [2; 2; 4]) u_ex2 with Ok e => length (rnodes e) = 26 | Err _ => False end.
Proof.
  split; [|split].
  - unfold u_ex2, X, Y, W. faith. ev. do 2 eexists. split; [reflexivity|]. split; reflexivity.
  - unfold u_ex2, X, Y, W. cbn [guarded]. repeat match goal with |- _ /\ _ => split end.
    all: match goal with |- some _ => ge | |- _ \/ _ => left; ge | |- True => exact I | |- _ <> _ => discriminate | |- _ => cbn; lia end.
  - vm_compute. reflexivity.
Qed.
(** the exterior product of three, a dual and a tuple *)
Definition u_ex3 : uexpr := UVee (UEp (UEp X Y) W) (UNeg (UNeg Y)).
Example C42_ex : faithful plane env_ex (inputs [2; 2; 4]) u_ex3 /\
  match mapM (build Exact (inputs [2; 2; 4])) [u_ex; u_ex2; u_ex3] with
  | Ok xs => match e_concat xs with Ok e => length (rnodes e) = 57 | Err _ => False end
  | Err _ => False end.
Proof. split; [unfold u_ex3, X, Y, W; faith|vm_compute; reflexivity]. Qed.

