(** C30 and part of C42: what rpn_reshape does to a program. *)
From Coq Require Import ZArith NArith List Bool Reals Lia Lra.
From Verif Require Import Base Model_Numeric Model_Blade Model_Crc Model_Stack Model_Expr Model_Dfa Model_Reshape.
From Verif Require Import Spec_Numeric Spec_Clifford Spec_MV Spec_Basis Spec_Expr Spec_Build Spec_Engine Spec_Reshape.
From Verif Require Import Proof_Expr Proof_Expr2 Proof_Expr3 Proof_Expr4 Proof_Expr5 Proof_Expr6 Proof_Reshape4 Proof_Reshape5 Proof_Reshape6 Props_Expr Props_Expr2.
Import ListNotations.
Local Open Scope nat_scope.

(** ** The reshaped program computes the value of the program.
    Full statement: without [identified] and [counted]. Missing: both can fail, see below. *)
Theorem C30_reshape_partial m env x y v : denotes m env x v -> nonempty x -> (N.of_nat (length (rnodes x)) < 2 ^ 32)%N -> (N.of_nat (rcap x) < 2 ^ 32)%N ->
  identified (rnodes x) -> counted x -> reshape x = Ok y ->
  exists t w, run m env (rnodes y) ([], []) (t, [w]) /\ v = vscale (rv (rq y)) w.
Proof.
  intros D N L C I K H. apply denotes_inv in D as (w & W & _ & ->); [|exact N].
  destruct (reshape_full m env x y w L C W I K H) as (Q & (t & T) & _). exists t, w. rewrite Q. auto.
Qed.
Print Assumptions C30_reshape_partial.
(** programs in which nothing is shared need no counting *)
Theorem C30_nothing_shared_partial m env x y v : denotes m env x v -> nonempty x -> (N.of_nat (length (rnodes x)) < 2 ^ 32)%N -> (N.of_nat (rcap x) < 2 ^ 32)%N ->
  distinct (rnodes x) -> reshape x = Ok y ->
  exists t w, run m env (rnodes y) ([], []) (t, [w]) /\ v = vscale (rv (rq y)) w.
Proof.
  intros D N L C K H. apply (C30_reshape_partial m env x y v); auto using distinct_identified. apply denotes_inv in D as (w & W & _); [|exact N].
  exact (counted_distinct m env x w L C W K).
Qed.
Print Assumptions C30_nothing_shared_partial.
(** nothing shared and no operation that needs its operand evaluated: no operation is added, removed
    or moved *)
Theorem C30_nothing_moved_partial m env x y v : denotes m env x v -> nonempty x -> (N.of_nat (length (rnodes x)) < 2 ^ 32)%N -> (N.of_nat (rcap x) < 2 ^ 32)%N ->
  distinct (rnodes x) -> direct (rnodes x) -> reshape x = Ok y ->
  map (fun n => (no n, ncs n)) (rnodes y) = map (fun n => (no n, ncs n)) (rnodes x).
Proof. intros D N L C K J H. apply denotes_inv in D as (w & W & _); [|exact N]. exact (nice_single m env x y w L C W K J H). Qed.
Print Assumptions C30_nothing_moved_partial.
(** temporaries are stored only when nothing else is on the stack, and every other node is a node of
    the program or a reference *)
Theorem C30_temporaries_on_empty_stack_partial m env x y v : denotes m env x v -> nonempty x -> (N.of_nat (length (rnodes x)) < 2 ^ 32)%N -> (N.of_nat (rcap x) < 2 ^ 32)%N ->
  identified (rnodes x) -> counted x -> reshape x = Ok y -> stores_on_top (rnodes y).
Proof. intros D N L C I K H. apply denotes_inv in D as (w & W & _); [|exact N]. exact (proj1 (proj2 (proj2 (reshape_full m env x y w L C W I K H)))). Qed.
Print Assumptions C30_temporaries_on_empty_stack_partial.

(** ** Tuples *)
(** Full statement: without [distinct] and [direct]. Missing: false then, see below. *)
Theorem C42_tuple_reshaped_partial m env xs vs e y : Forall2 (fun x v => denotes m env x v /\ nonempty x /\ q_ok (rq x)) xs vs -> e_concat xs = Ok e ->
  (N.of_nat (length (rnodes e)) < 2 ^ 32)%N -> (N.of_nat (rcap e) < 2 ^ 32)%N -> distinct (rnodes e) -> direct (rnodes e) ->
  reshape e = Ok y -> rq y = one /\ run m env (rnodes y) ([], []) ([], rev vs).
Proof.
  intros F H L C D DI R. destruct (concat_denotes m env xs vs e F H) as [Q _]. unfold e_concat in H. apply rpne_of_ok in H as (N & _ & _). rewrite concat_nodes, app_nil_l in N.
  destruct (tuple_items m env xs vs F) as (its & E & S1 & <-). rewrite E in N.
  destruct (nice_tuple m env true its e y L C N S1 D DI R) as (Q' & T & _). split; [congruence|exact T].
Qed.
Print Assumptions C42_tuple_reshaped_partial.

(** ** Examples: the hypotheses are met *)
(** (x*y*w)*(x*y*w): the factor is stored *)
Definition u_shared : uexpr := UGp (UGp (UGp X Y) W) (UGp (UGp X Y) W).
Example C30_ex : match build Code (inputs [2; 2; 4]) u_shared with
  | Ok x => nonempty x /\ identified (rnodes x) /\ counted x /\ match reshape x with Ok y => length (rnodes x) = 11 /\ length (rnodes y) = 9 | Err _ => False end
  | Err _ => False end.
Proof.
  match goal with |- match ?b with _ => _ end => let b' := eval vm_compute in b in change b with b' end. cbv beta iota.
  split; [discriminate|]. split; [apply identifiedb_ok; vm_compute; reflexivity|]. split; [apply countedb_ok; vm_compute; reflexivity|]. vm_compute. auto.
Qed.
Definition u_plain : uexpr := UGp (USub (UScale 2 (UAdd X Y)) (UDivZ W 3)) (URev (UEp X Y)).
Example C30_plain_ex : match build Code (inputs [2; 2; 4]) u_plain with
  | Ok x => nonempty x /\ distinct (rnodes x) /\ direct (rnodes x) /\ match reshape x with Ok y => length (rnodes y) = 14 | Err _ => False end
  | Err _ => False end.
Proof.
  match goal with |- match ?b with _ => _ end => let b' := eval vm_compute in b in change b with b' end. cbv beta iota.
  split; [discriminate|]. split; [apply distinctb_ok; vm_compute; reflexivity|]. split; [apply directb_ok; vm_compute; reflexivity|]. vm_compute. auto.
Qed.
Example C42_reshaped_ex : match mapM (build Code (inputs [2; 2; 4])) [u_plain; u_ex3] with
  | Ok xs => match e_concat xs with
    | Ok e => distinct (rnodes e) /\ direct (rnodes e) /\ match reshape e with Ok y => length (rnodes y) = length (rnodes e) | Err _ => False end
    | Err _ => False end
  | Err _ => False end.
Proof.
  match goal with |- match ?b with _ => _ end => let b' := eval vm_compute in b in change b with b' end. cbv beta iota.
  match goal with |- match ?b with _ => _ end => let b' := eval vm_compute in b in change b with b' end. cbv beta iota.
  split; [apply distinctb_ok; vm_compute; reflexivity|]. split; [apply directb_ok; vm_compute; reflexivity|]. vm_compute. auto.
Qed.

(** ** Refutations: the code as it is *)
Lemma vprod_scalars a b : vprod plane Geometric (vscalar a) (vscalar b) = vscalar (a * b).
Proof.
  assert (S1 : forall r, vscalar r = vscale r (delta 0)).
  { intros r. apply FunctionalExtensionality.functional_extensionality. intros c. unfold vscalar, vscale, delta. rewrite (N.eqb_sym 0). destruct (c =? 0)%N; ring. }
  assert (E1 : vprod plane Geometric (delta 0) (delta 0) = vscale 1 (delta 0)) by (rewrite vprod_delta by reflexivity; reflexivity).
  rewrite !S1, vprod_scale_l, vprod_scale_r, E1. apply FunctionalExtensionality.functional_extensionality. intros c. unfold vscale. ring.
Qed.
Ltac step_tac := eapply run_step; [discriminate|first
  [ eapply st_id; reflexivity | eapply st_cse; reflexivity | eapply st_noop; reflexivity | eapply st_bin; reflexivity ]|].
(** (x+y)*(x-y) becomes (x+y)*(x+y): subexpressions are compared without their scales *)
Definition u_conj : uexpr := UGp (UAdd X Y) (USub X Y).
Theorem C30_scales_ignored_refuted : exists m env sizes x y v t w, build Code (inputs sizes) u_conj = Ok x /\ reshape x = Ok y /\ rq y = one /\
  means m env u_conj v /\ denotes m env x v /\ run m env (rnodes y) ([], []) (t, [w]) /\ v <> w.
Proof.
  exists plane, [vscalar 1; vscalar 1], [1; 1]. do 2 eexists.
  set (i1 := [mkitem 0 one [one_in 0 0] (vscalar 1); mkitem 1 one [one_in 1 1] (vscalar 1)]).
  set (i2 := [mkitem 0 one [one_in 0 0] (vscalar 1); mkitem 1 (mkrat (-1) 1) [one_in 1 1] (vscalar 1)]).
  assert (AD : forall a b, vadd (vscalar a) (vscalar b) = vscalar (a + b)).
  { intros a b. apply FunctionalExtensionality.functional_extensionality. intros c. unfold vadd, vscalar. destruct (c =? 0)%N; ring. }
  assert (SC : forall a b, vscale a (vscalar b) = vscalar (a * b)).
  { intros a b. apply FunctionalExtensionality.functional_extensionality. intros c. unfold vscale, vscalar. destruct (c =? 0)%N; ring. }
  assert (Z0 : vzero = vscalar 0).
  { apply FunctionalExtensionality.functional_extensionality. intros c. unfold vzero, vscalar. now destruct (c =? 0)%N. }
  assert (V1 : vsum (map item_val i1) = vscalar 2). { cbn [map i1 vsum fold_right]. unfold item_val, se_scale. cbn [i_q i_val num one Z.eqb]. rewrite !SC, Z0, !AD. f_equal. rewrite rv_one. lra. }
  assert (V2 : vsum (map item_val i2) = vscalar 0). { cbn [map i2 vsum fold_right]. unfold item_val, se_scale. cbn [i_q i_val num one Z.eqb]. rewrite !SC, Z0, !AD. f_equal. rewrite rv_one. unfold rv. cbn [num den]. lra. }
  exists (vscalar 0), [vscalar 2], (vscalar 4). split; [vm_compute; reflexivity|]. split; [vm_compute; reflexivity|]. split; [reflexivity|]. split; [|split; [|split]].
  - replace (vscalar 0) with (vprod plane Geometric (vadd (vscalar 1) (vscalar 1)) (vadd (vscalar 1) (vneg (vscalar 1)))).
    + repeat constructor.
    + unfold vneg. rewrite SC, !AD, vprod_scalars. f_equal. lra.
  - replace (vscalar 0) with (vscale (rv one) (vprod plane Geometric (vsum (map item_val i1)) (vsum (map item_val i2)))) by (rewrite V1, V2, vprod_scalars, SC, rv_one; f_equal; lra).
    apply denotes_intro; [|discriminate]. apply (nd_bin plane _ op_gp Geometric (_ :: _ :: _ :: _ :: _ :: []) (_ :: _ :: _ :: _ :: _ :: [])); [reflexivity| |].
    + apply (nd_sum plane _ i1); [|discriminate]. repeat (constructor; [now apply nd_id|split; discriminate|]). constructor.
    + apply (nd_sum plane _ i2); [|discriminate]. repeat (constructor; [now apply nd_id|split; discriminate|]). constructor.
  - cbn [rnodes].
    apply (run_se _ _ _ [_] [_; _; _; _; _; _; _] [] [] _ (vscalar 1)); [reflexivity|reflexivity|step_tac; constructor|].
    apply (run_se _ _ _ [_] [_; _; _; _; _] [] [] _ (vscalar 1)); [reflexivity|reflexivity|step_tac; constructor|].
    eapply run_step; [discriminate| |]. { apply (st_sum plane _ _ [] [] [se_scale one (vscalar 1); se_scale one (vscalar 1)]); [reflexivity|discriminate|reflexivity]. }
    replace (vsum _) with (vscalar 2) by (symmetry; exact V1). do 4 step_tac. rewrite vprod_scalars. replace (2 * 2)%R with 4%R by lra. constructor.
  - intros E. apply (f_equal (fun f : V => f 0%N)) in E. revert E. unfold vscalar. cbn. lra.
Qed.
Print Assumptions C30_scales_ignored_refuted.
(** the references of a product are counted wrong: in y * ((x*(x*x)) * ((y*y)*(y*y))) * (x*x) the second y*y
    is computed as x*x. Here equal checksums do mean equal operands. *)
Definition u_count : uexpr := UGp (UGp Y (UGp (UGp X (UGp X X)) (UGp (UGp Y Y) (UGp Y Y)))) (UGp X X).
Theorem C30_references_miscounted_refuted : exists m env sizes x y v t w, build Code (inputs sizes) u_count = Ok x /\ reshape x = Ok y /\ rq y = one /\
  identified (rnodes x) /\ means m env u_count v /\ denotes m env x v /\ run m env (rnodes y) ([], []) (t, [w]) /\ v <> w.
Proof.
  exists plane, [vscalar 2; vscalar 1], [1; 1]. do 2 eexists. exists (vscalar 32), [vscalar 4], (vscalar 128).
  split; [vm_compute; reflexivity|]. split; [vm_compute; reflexivity|]. split; [reflexivity|]. split; [apply identifiedb_ok; vm_compute; reflexivity|].
  assert (M : means plane [vscalar 2; vscalar 1] u_count (vscalar 32)).
  { replace 32%R with (1 * (2 * (2 * 2) * (1 * 1 * (1 * 1))) * (2 * 2))%R by lra. rewrite <- !vprod_scalars. repeat constructor. }
  split; [exact M|]. split; [|split].
  - refine (proj1 (C25_faithful_expressions_partial plane [vscalar 2; vscalar 1] [1; 1] u_count _ _ eq_refl _ _ M)); [unfold u_count, X, Y; faith|vm_compute; reflexivity].
  - cbn [rnodes]. replace (vscalar 128) with (vscalar (1 * (2 * (2 * 2) * (1 * 1 * (2 * 2))) * (2 * 2))) by (f_equal; lra). replace (vscalar 4) with (vscalar (2 * 2)) by (f_equal; lra).
    rewrite <- !vprod_scalars. repeat step_tac. constructor.
  - intros E. apply (f_equal (fun f : V => f 0%N)) in E. revert E. unfold vscalar. cbn. lra.
Qed.
Print Assumptions C30_references_miscounted_refuted.
(** the operand of a function is marked through the last known subexpression, also when there is none:
    sqrt(y[e2][scalar]) and x / y[e2][scalar] read before the array *)
Theorem C30_no_known_subexpression_refuted : exists sizes u x, build Code (inputs sizes) u = Ok x /\ reshape x = Err OutOfBounds.
Proof. exists [1; 2], (UFn op_sqrt (UComp (UComp Y 2) 0)). eexists. split; vm_compute; reflexivity. Qed.
Print Assumptions C30_no_known_subexpression_refuted.
Ltac drop R := match type of R with run _ _ (?n :: _) _ _ => let N := fresh in let S := fresh in let R' := fresh in inversion R as [|? ? ? ? ? N S R'|]; subst; [|discriminate]; clear R; rename R' into R; clear S end.
(** the lengths of the results of a tuple are not adjusted: (x*y, x*y) *)
Theorem C42_lengths_not_adjusted_refuted : exists m env sizes x e y v, build Code (inputs sizes) (UGp X Y) = Ok x /\ e_concat [x; x] = Ok e /\ reshape e = Ok y /\ means m env (UGp X Y) v /\ run m env (rnodes e) ([], []) ([], [v; v]) /\ forall st, ~ run m env (rnodes y) ([], []) st.
Proof.
  exists plane, [vscalar 2; vscalar 1], [1; 1]. do 3 eexists. exists (vscalar (2 * 1)). split; [vm_compute; reflexivity|]. split; [vm_compute; reflexivity|]. split; [vm_compute; reflexivity|].
  assert (M : means plane [vscalar 2; vscalar 1] (UGp X Y) (vscalar (2 * 1))) by (rewrite <- vprod_scalars; repeat constructor). split; [exact M|]. split.
  - cbn [rnodes]. apply (run_se _ _ _ [_; _; _] [_; _; _; _] [] [] _ (vscalar (2 * 1))); [reflexivity|reflexivity|rewrite <- vprod_scalars; repeat step_tac; constructor|].
    apply (run_se _ _ _ [_; _; _] [] [] [] _ (vscalar (2 * 1))); [reflexivity|reflexivity|rewrite <- vprod_scalars; repeat step_tac; constructor|].
    unfold se_scale. cbn [nq num Z.eqb]. replace (rv _) with 1%R by (unfold rv; cbn; lra). rewrite !vscale_1. constructor.
  - cbn [rnodes]. intros st R.
    do 4 drop R. inversion R; subst; [match goal with H : op_se <> op_se |- _ => now apply H | H : _ <> op_se |- _ => now apply H end|]. match goal with H : nex _ = length ?b, RB : run _ _ ?b _ _ |- _ => cbn [nex] in H; rename RB into R1; destruct b as [|b1 [|b2 [|b3 [|]]]]; try discriminate H end.
    match goal with H : _ ++ _ = _ |- _ => injection H as -> -> -> -> end.
    drop R1. inversion R1; subst; [match goal with H : _ <> op_se |- _ => now apply H end|]. match goal with H : nex _ = length ?b |- _ => destruct b as [|c1 [|c2 b]]; discriminate end.
Qed.
Print Assumptions C42_lengths_not_adjusted_refuted.

(** ** What is compared: the checksums of sums *)
Lemma bloom_items L : forall f c i, length L <= f -> N.testbit (bloom f (flat_map render L) c) i = N.testbit c i || existsb (fun s => (i_cs s mod 32 =? i)%N) L.
Proof.
  induction L as [|s L IH]; intros f c i H; [destruct f; cbn; now rewrite orb_false_r|]. destruct f as [|f]; [cbn in H; lia|].
  change (flat_map render (s :: L)) with (mknode op_se (i_cs s) (length (i_body s)) (i_q s) :: i_body s ++ flat_map render L). cbn [bloom nex ncs].
  rewrite skipn_app, skipn_all, Nat.sub_diag. cbn [app skipn]. rewrite IH by (cbn in H; lia). rewrite N.lor_spec, N.pow2_bits_eqb. change 31%N with (N.ones 5). rewrite N.land_ones.
  change (2 ^ 5)%N with 32%N. cbn [existsb]. now rewrite orb_assoc.
Qed.
(** the checksum of a sum is the set of the checksums of its summands modulo 32 *)
Theorem C30_sum_checksum cap L e : length L <> 1 -> finish_sum cap (flat_map render L, length L) = Ok e ->
  exists cs q, rnodes e = flat_map render L ++ [mknode op_sum cs (length L) q] /\ forall i, N.testbit cs i = true <-> exists s, In s L /\ (i_cs s mod 32)%N = i.
Proof.
  intros NE H. unfold finish_sum in H. apply Nat.eqb_neq in NE. rewrite NE in H. apply rpne_of_ok in H as (N & _). do 2 eexists. split; [exact N|]. intros i.
  rewrite bloom_items by apply fm_length. rewrite N.bits_0. cbn [orb]. rewrite existsb_exists. split; intros (s & I & E); exists s; (split; [exact I|]); now apply N.eqb_eq.
Qed.
Print Assumptions C30_sum_checksum.
(** so the sum of two expressions that are not sums has the checksum of the set of theirs: x + y and
    x - y are confused, and so are any two whose checksums agree modulo 32 *)
Theorem C30_two_summands md l r e lf rf : back (rnodes l) = Ok lf -> back (rnodes r) = Ok rf -> no lf <> op_sum -> no rf <> op_sum -> ncs lf <> ncs rf -> e_add md l r = Ok e ->
  exists n, back (rnodes e) = Ok n /\ no n = op_sum /\ forall i, N.testbit (ncs n) i = true <-> i = (ncs lf mod 32)%N \/ i = (ncs rf mod 32)%N.
Proof.
  intros Bl Br Sl Sr NE H. unfold e_add in H. destruct (rnodes l) as [|l0 ln] eqn:El; [discriminate|]. destruct (rnodes r) as [|r0 rn] eqn:Er; [discriminate|].
  rewrite Bl, Br in H. cbn [bind] in H. apply N.eqb_neq in Sl, Sr, NE. rewrite Sl, Sr, NE in H. cbn [andb] in H.
  set (a := mkitem (ncs lf) (rq l) (l0 :: ln) vzero). set (b := mkitem (ncs rf) (rq r) (r0 :: rn) vzero).
  assert (E : finish_sum (rcap l + rcap r + 3) (flat_map render (if (ncs lf <? ncs rf)%N then [a; b] else [b; a]), length (if (ncs lf <? ncs rf)%N then [a; b] else [b; a])) = Ok e).
  { rewrite <- H. destruct (ncs lf <? ncs rf)%N; cbn [flat_map render app length i_body i_cs i_q a b]; now rewrite app_nil_r. }
  apply C30_sum_checksum in E as (cs & q & N & T); [|destruct (ncs lf <? ncs rf)%N; discriminate]. eexists. rewrite N. split; [apply back_app|]. split; [reflexivity|]. cbn [ncs]. intros i. rewrite T.
  destruct (ncs lf <? ncs rf)%N; cbn [In]; split.
  - intros (s & [<-|[<-|[]]] & <-); [left|right]; reflexivity.
  - intros [->| ->]; [exists a|exists b]; (split; [auto|reflexivity]).
  - intros (s & [<-|[<-|[]]] & <-); [right|left]; reflexivity.
  - intros [->| ->]; [exists a|exists b]; (split; [auto|reflexivity]).
Qed.
Print Assumptions C30_two_summands.
Example C30_checksum_ex : exists e n, build Exact (inputs [2; 2; 4]) (UAdd X Y) = Ok e /\ back (rnodes e) = Ok n /\ ncs n = 5%N.
Proof. do 2 eexists. split; [vm_compute; reflexivity|]. split; reflexivity. Qed.
