(** C25-C28, C38: expressions whose built form means something else than was written. *)
From Coq Require Import ZArith NArith List Bool Reals Lia Lra.
From Verif Require Import Base Model_Numeric Model_Blade Model_Crc Model_Expr Spec_Numeric Spec_Clifford Spec_MV Spec_Basis Spec_Expr Spec_Build.
From Verif Require Import Proof_Expr Proof_Expr2 Proof_Expr3 Proof_Expr4 Proof_Expr5 Proof_Expr6 Props_Expr.
Import ListNotations.
Local Open Scope nat_scope.

(** ** Refutations: the code as it is ([Code] mode) *)
Ltac at_ b := let E := fresh in intros E; apply (f_equal (fun f : V => f b)) in E; revert E; unfold item_val, vsum, vneg, vadd, vscale, vscalar, vzero, delta, se_scale, rv; cbn; unfold vscale; cbn; lra.
Definition one_in (k : nat) (o : N) : node := mknode op_id o k q00.
(** 0*x + 2*y is computed as y *)
Theorem C25_add_to_zero_drops_scale_refuted : exists m env sizes e v w, build Code (inputs sizes) (UAdd (UScale 0 X) (UScale 2 Y)) = Ok e /\
  means m env (UAdd (UScale 0 X) (UScale 2 Y)) v /\ denotes m env e w /\ v <> w.
Proof.
  exists plane, [delta 1; delta 1], [1; 1]. eexists. exists (vadd (vscale 0 (delta 1)) (vscale 2 (delta 1))), (vscale (rv one) (delta 1)).
  split; [vm_compute; reflexivity|]. split; [repeat constructor|]. split; [apply denotes_intro; [now apply nd_id|discriminate]|at_ 1%N].
Qed.
Print Assumptions C25_add_to_zero_drops_scale_refuted.
(** 2*(y+w) + (x+z): w is not doubled *)
Definition u_left : uexpr := UAdd (UScale 2 (UAdd Y (UIn 3))) (UAdd X W).
Theorem C25_leftover_summand_wrong_scale_refuted : exists m env sizes e v w, build Code (inputs sizes) u_left = Ok e /\
  means m env u_left v /\ denotes m env e w /\ v <> w.
Proof.
  exists plane, [vzero; vzero; vzero; delta 1], [1; 1; 1; 1]. eexists.
  exists (vadd (vscale 2 (vadd vzero (delta 1))) (vadd vzero vzero)).
  exists (vscale (rv one) (vsum (map item_val [mkitem 0 one [one_in 0 0] vzero; mkitem 1 (mkrat 2 1) [one_in 1 1] vzero; mkitem 2 one [one_in 2 2] vzero; mkitem 3 one [one_in 3 3] (delta 1)]))).
  split; [vm_compute; reflexivity|]. split; [repeat constructor|]. split; [|at_ 1%N].
  apply denotes_intro; [|discriminate].
  apply (nd_sum plane _ [mkitem 0 one [one_in 0 0] vzero; mkitem 1 (mkrat 2 1) [one_in 1 1] vzero; mkitem 2 one [one_in 2 2] vzero; mkitem 3 one [one_in 3 3] (delta 1)]); [|discriminate].
  repeat (constructor; [now apply nd_id|split; discriminate|]). constructor.
Qed.
Print Assumptions C25_leftover_summand_wrong_scale_refuted.
(** sqrt(4x) + sqrt(9x) is computed as 2 sqrt(4x): the scale inside is not compared *)
Definition u_inner : uexpr := UAdd (UFn op_sqrt (UScale 4 X)) (UFn op_sqrt (UScale 9 X)).
Theorem C25_inner_scale_ignored_refuted : exists m env sizes e v w, build Code (inputs sizes) u_inner = Ok e /\
  means m env u_inner v /\ denotes m env e w /\ v <> w.
Proof.
  assert (S4 : sqrt (4 * 1) = 2%R) by (replace (4 * 1)%R with (2 * 2)%R by ring; apply sqrt_square; lra).
  assert (S9 : sqrt (9 * 1) = 3%R) by (replace (9 * 1)%R with (3 * 3)%R by ring; apply sqrt_square; lra).
  assert (SC : forall r, is_scalar (vscale r (vscalar 1))) by (intros r b B; unfold vscale, vscalar; destruct (N.eqb_spec b 0); [contradiction|ring]).
  exists plane, [vscalar 1], [1]. eexists.
  exists (vadd (vscalar (sqrt (vscale 4 (vscalar 1) 0%N))) (vscalar (sqrt (vscale 9 (vscalar 1) 0%N)))), (vscale (rv (mkrat 2 1)) (vscalar (sqrt (rv (mkrat 4 1) * vscalar 1 0%N)))).
  split; [vm_compute; reflexivity|]. split; [apply m_add; apply (m_fn plane _ op_sqrt sqrt); try reflexivity; try apply SC; apply (m_scale plane _ _ _ (vscalar 1)); constructor; reflexivity|]. split.
  - apply denotes_intro; [|discriminate]. apply (nd_fn plane _ op_sqrt sqrt [one_in 0 0]); [reflexivity|now apply nd_id|]. intros b B. unfold vscalar. now destruct (N.eqb_spec b 0).
  - intros E. apply (f_equal (fun f : V => f 0%N)) in E. revert E. unfold vadd, vscale, vscalar, rv. cbn [N.eqb num den]. replace (4 / 1)%R with 4%R by lra. rewrite S4, S9. lra.
Qed.
Print Assumptions C25_inner_scale_ignored_refuted.
(** (x+y) - (x+y) is a sum of no terms, which has no value *)
Definition u_cancel : uexpr := USub (UAdd X Y) (UAdd X Y).
Theorem C25_cancelled_sum_refuted : exists sizes e, build Code (inputs sizes) u_cancel = Ok e /\ cancelled e /\
  forall m env st, ~ run m env (rnodes e) ([], []) st.
Proof.
  exists [1; 1]. eexists. split; [vm_compute; reflexivity|]. split; [eexists; split; [reflexivity|split; reflexivity]|].
  intros m env st R. inversion R as [|n l s0 s1 s2 N S R'|]; subst; [|discriminate].
  inversion S as [| | | | | |? ? ? l O NE LE|? ? ? l O| | | |? ? ? ? ? F| | | |? ? ? O]; try discriminate.
  - destruct l; [now apply NE|discriminate LE].
  - vm_compute in O. now apply O.
Qed.
Print Assumptions C25_cancelled_sum_refuted.
(** x + 0 is computed as x + 1: a zero scale is read as "no scale" *)
Theorem C25_adding_integer_zero_adds_one_refuted : exists m env sizes e v w, build Code (inputs sizes) (UAddZ 0 X) = Ok e /\ rq e = one /\
  means m env (UAddZ 0 X) v /\ run m env (rnodes e) ([], []) ([], [w]) /\ v <> w.
Proof.
  exists plane, [vzero], [1]. eexists. exists (vadd (vscalar 0) vzero), (vsum [se_scale one vzero; se_scale zero (delta 0)]).
  split; [vm_compute; reflexivity|]. split; [reflexivity|]. split; [repeat constructor|]. split; [|at_ 0%N].
  apply (run_se _ _ _ [_] [_; _; _] [] []  _ vzero); [reflexivity|reflexivity|apply (nden_run plane [vzero] [one_in 0 0]); now apply nd_id|].
  apply (run_se _ _ _ [_] [_] [] [] _ (delta 0)); [reflexivity|reflexivity|apply (nden_run plane [vzero] [mknode c_scalar c_scalar 0 q00]); exact (nd_blade plane [vzero] c_scalar c_scalar 0 q00 (N.le_refl _))|].
  eapply run_step; [discriminate| |constructor]. apply (st_sum plane [vzero] _ [] [] [se_scale one vzero; se_scale zero (delta 0)]); [reflexivity|discriminate|reflexivity].
Qed.
Print Assumptions C25_adding_integer_zero_adds_one_refuted.
(** (0*x) * y is computed as y; the same for >> and | *)
Theorem C26_zero_times_x_refuted : exists m env sizes e v w, build Code (inputs sizes) (UGp (UScale 0 X) Y) = Ok e /\
  means m env (UGp (UScale 0 X) Y) v /\ denotes m env e w /\ v <> w.
Proof.
  exists plane, [delta 1; delta 1], [1; 1]. eexists. exists (vprod plane Geometric (vscale 0 (delta 1)) (delta 1)), (vscale (rv one) (delta 1)).
  split; [vm_compute; reflexivity|]. split; [repeat constructor|]. split; [apply denotes_intro; [now apply nd_id|discriminate]|].
  rewrite vscale_0, vprod_0_l. at_ 1%N.
Qed.
Print Assumptions C26_zero_times_x_refuted.
(** (x ^ y) ^ (2*z) loses the 2 *)
Definition three : metric := mkmetric 3 0 0.
Definition u_wedge : uexpr := UEp (UEp X Y) (UScale 2 W).
Theorem C26_wedge_drops_scale_refuted : exists m env sizes e v w, build Code (inputs sizes) u_wedge = Ok e /\
  means m env u_wedge v /\ denotes m env e w /\ v <> w.
Proof.
  exists three, [delta 1; delta 2; delta 4], [1; 1; 1]. eexists.
  exists (vprod three Exterior (vprod three Exterior (delta 1) (delta 2)) (vscale 2 (delta 4))).
  exists (vscale (rv one) (vwedge three (map item_val [mkitem 0 zero [one_in 0 0] (delta 1); mkitem 1 zero [one_in 1 1] (delta 2); mkitem 2 zero [one_in 2 2] (delta 4)]))).
  split; [vm_compute; reflexivity|]. split; [repeat constructor|]. split.
  - apply denotes_intro; [|discriminate].
    apply (nd_ep three _ [mkitem 0 zero [one_in 0 0] (delta 1); mkitem 1 zero [one_in 1 1] (delta 2); mkitem 2 zero [one_in 2 2] (delta 4)]); [|discriminate].
    repeat (constructor; [now apply nd_id|reflexivity|]). constructor.
  - rewrite rv_one, vscale_1. change (item_val ?i) with (i_val i). cbn [map vwedge]. unfold item_val, se_scale. cbn [i_q i_val zero num Z.eqb].
    rewrite vwedge_assoc, !vprod_scale_r.
    assert (E1 : vprod three Exterior (delta 2) (delta 4) = vscale 1 (delta 6)) by (rewrite vprod_delta by reflexivity; reflexivity).
    assert (E2 : vprod three Exterior (delta 1) (delta 6) = vscale 1 (delta 7)) by (rewrite vprod_delta by reflexivity; reflexivity).
    rewrite E1, vprod_scale_r, E2. at_ 7%N.
Qed.
Print Assumptions C26_wedge_drops_scale_refuted.
(** y | x with the checksum of x below that of y is computed as x | y: e1 | e12 instead of e12 | e1 *)
Theorem C26_symmetric_inner_swapped_refuted : exists m env sizes e v w, build Code (inputs sizes) (USip Y X) = Ok e /\
  means m env (USip Y X) v /\ denotes m env e w /\ v <> w.
Proof.
  exists plane, [delta 1; delta 3], [1; 1]. eexists. exists (vprod plane SymInner (delta 3) (delta 1)), (vscale (rv one) (vprod plane SymInner (delta 1) (delta 3))).
  split; [vm_compute; reflexivity|]. split; [repeat constructor|]. split.
  - apply denotes_intro; [|discriminate]. apply (nd_bin plane _ op_sip SymInner [one_in 0 0] [one_in 1 1]); [reflexivity|now apply nd_id|now apply nd_id].
  - assert (E1 : vprod plane SymInner (delta 3) (delta 1) = vscale (-1) (delta 2)) by (rewrite vprod_delta by reflexivity; reflexivity).
    assert (E2 : vprod plane SymInner (delta 1) (delta 3) = vscale 1 (delta 2)) by (rewrite vprod_delta by reflexivity; reflexivity).
    rewrite E1, E2. at_ 2%N.
Qed.
Print Assumptions C26_symmetric_inner_swapped_refuted.
(** the scalar product of two scalars is 0 *)
Theorem C26_scalar_product_of_scalars_refuted : exists m env sizes e v w, build Code (inputs sizes) (UScalarProduct X Y) = Ok e /\
  means m env (UScalarProduct X Y) v /\ denotes m env e w /\ v <> w.
Proof.
  exists plane, [delta 0; delta 0], [1; 1]. eexists. exists (vcomp 0 (vprod plane Geometric (delta 0) (delta 0))), (vscale (rv one) (vcomp (N.of_nat 0) (vprod plane SymInner (delta 0) (delta 0)))).
  split; [vm_compute; reflexivity|]. split; [repeat constructor|]. split.
  - apply denotes_intro; [|discriminate]. apply (nd_comp plane _ [_; _; _]). apply (nd_bin plane _ op_sip SymInner [one_in 0 0] [one_in 1 1]); [reflexivity|now apply nd_id|now apply nd_id].
  - assert (E1 : vprod plane Geometric (delta 0) (delta 0) = vscale 1 (delta 0)) by (rewrite vprod_delta by reflexivity; reflexivity).
    assert (E2 : vprod plane SymInner (delta 0) (delta 0) = vscale 0 (delta 0)) by (rewrite vprod_delta by reflexivity; reflexivity).
    rewrite E1, E2. unfold vcomp. at_ 0%N.
Qed.
Print Assumptions C26_scalar_product_of_scalars_refuted.
(** x % (2*y) is scaled by 2 instead of 4 *)
Theorem C26_sandwich_scale_refuted : exists m env sizes e v w, build Code (inputs sizes) (USandwich X (UScale 2 Y)) = Ok e /\
  means m env (USandwich X (UScale 2 Y)) v /\ denotes m env e w /\ v <> w.
Proof.
  exists plane, [delta 0; delta 0], [1; 1]. eexists.
  exists (vprod plane Geometric (vprod plane Geometric (vscale 2 (delta 0)) (delta 0)) (vrev (vscale 2 (delta 0)))).
  exists (vscale (rv (mkrat 2 1)) (vprod plane Geometric (vprod plane Geometric (delta 0) (delta 0)) (vrev (delta 0)))).
  assert (E1 : vprod plane Geometric (delta 0) (delta 0) = vscale 1 (delta 0)) by (rewrite vprod_delta by reflexivity; reflexivity).
  assert (E2 : vrev (delta 0) = delta 0).
  { apply FunctionalExtensionality.functional_extensionality. intros b. unfold vrev, delta. destruct (N.eqb_spec 0 b) as [<-|]; [cbn|]; ring. }
  split; [vm_compute; reflexivity|]. split; [repeat constructor|]. split.
  - apply denotes_intro; [|discriminate]. apply (nd_bin plane _ op_gp Geometric [_; _; _] [_; _]); [reflexivity| |].
    + apply (nd_bin plane _ op_gp Geometric [one_in 1 1] [one_in 0 0]); [reflexivity|now apply nd_id|now apply nd_id].
    + apply (nd_rev plane _ [one_in 1 1]). now apply nd_id.
  - rewrite vrev_scale, E2, !vprod_scale_l, !vprod_scale_r, !E1, !vprod_scale_l, E1. at_ 0%N.
Qed.
Print Assumptions C26_sandwich_scale_refuted.
(** 2 / x is computed as 1 / x *)
Theorem C27_integer_over_expression_refuted : exists m env sizes e v w, build Code (inputs sizes) (UZDiv 2 X) = Ok e /\
  means m env (UZDiv 2 X) v /\ denotes m env e w /\ v <> w.
Proof.
  assert (SC : is_scalar (vscalar 1)) by (intros b B; unfold vscalar; destruct (N.eqb_spec b 0); [contradiction|reflexivity]).
  assert (N1 : vscalar 1 0%N <> 0%R) by (unfold vscalar; cbn; lra).
  exists plane, [vscalar 1], [1]. eexists. exists (vscalar (2 / vscalar 1 0%N)), (vscale (rv one) (vscale (rv one / vscalar 1 0%N) (delta 0))).
  split; [vm_compute; reflexivity|]. split; [constructor; [constructor; reflexivity|exact SC|exact N1]|]. split; [|at_ 0%N].
  apply denotes_intro; [|discriminate]. apply (nd_div plane _ [_] [one_in 0 0]); [|now apply nd_id|exact SC|exact N1].
  exact (nd_blade plane _ c_scalar c_scalar 0 q00 (N.le_refl _)).
Qed.
Print Assumptions C27_integer_over_expression_refuted.
(** ~(2*x) and !(2*x) lose the 2 *)
Theorem C28_reverse_drops_scale_refuted : exists m env sizes e v w, build Code (inputs sizes) (URev (UScale 2 X)) = Ok e /\
  means m env (URev (UScale 2 X)) v /\ denotes m env e w /\ v <> w.
Proof.
  exists plane, [delta 1], [1]. eexists. exists (vrev (vscale 2 (delta 1))), (vscale (rv one) (vrev (delta 1))).
  split; [vm_compute; reflexivity|]. split; [repeat constructor|]. split; [|unfold vrev; at_ 1%N].
  apply denotes_intro; [|discriminate]. apply (nd_rev plane _ [one_in 0 0]). now apply nd_id.
Qed.
Print Assumptions C28_reverse_drops_scale_refuted.
Theorem C28_dual_drops_scale_refuted : exists m env sizes e v w, build Code (inputs sizes) (UDual (UScale 2 X)) = Ok e /\
  means m env (UDual (UScale 2 X)) v /\ denotes m env e w /\ v <> w.
Proof.
  exists plane, [delta 0], [1]. eexists. exists (vdual (dim plane) (vscale 2 (delta 0))), (vscale (rv one) (vdual (dim plane) (delta 0))).
  split; [vm_compute; reflexivity|]. split; [repeat constructor|]. split.
  2:{ assert (E1 : vdual (dim plane) (delta 0) 3%N = (1 * 1)%R) by reflexivity. rewrite vdual_scale. intros E. apply (f_equal (fun f : V => f 3%N)) in E.
      revert E. unfold vscale, rv. rewrite E1. cbn. lra. }
  apply denotes_intro; [|discriminate]. apply (nd_pd plane _ [one_in 0 0]). now apply nd_id.
Qed.
Print Assumptions C28_dual_drops_scale_refuted.
(** E * x is computed as x * pi *)
Theorem C38_e_is_pi_refuted : exists m env sizes e v w, build Code (inputs sizes) (UGp UE X) = Ok e /\
  means m env (UGp UE X) v /\ denotes m env e w /\ v <> w.
Proof.
  assert (S1 : forall r, vscalar r = vscale r (delta 0)).
  { intros r. apply FunctionalExtensionality.functional_extensionality. intros b. unfold vscalar, vscale, delta. rewrite (N.eqb_sym 0). destruct (b =? 0)%N; ring. }
  assert (E1 : vprod plane Geometric (delta 0) (delta 0) = vscale 1 (delta 0)) by (rewrite vprod_delta by reflexivity; reflexivity).
  exists plane, [delta 0], [1]. eexists. exists (vprod plane Geometric (vscalar (exp 1)) (delta 0)), (vscale (rv one) (vprod plane Geometric (delta 0) (vscalar PI))).
  split; [vm_compute; reflexivity|]. split; [repeat constructor|]. split.
  - apply denotes_intro; [|discriminate]. apply (nd_bin plane _ op_gp Geometric [one_in 0 0] [mknode c_pi c_pi 0 q00]); [reflexivity|now apply nd_id|apply nd_pi].
  - rewrite !S1, vprod_scale_l, vprod_scale_r, E1. pose proof exp_le_3 as E3. pose proof PI2_3_2 as P3. at_ 0%N.
Qed.
Print Assumptions C38_e_is_pi_refuted.

(** ** C35: the checksums of selections *)
(** two components, two grades, and a component and a grade of the same expression are told apart *)
Theorem C35_selections_told_apart x b e e' g g' r r' s s' : back (rnodes x) = Ok b -> (e < 2 ^ 31)%N -> (e' < 2 ^ 31)%N -> (g < 2 ^ 31)%N -> (g' < 2 ^ 31)%N ->
  e_comp x e = Ok r -> e_comp x e' = Ok r' -> e_grade x g = Ok s -> e_grade x g' = Ok s' ->
  exists cr cr' cs cs', back (rnodes r) = Ok cr /\ back (rnodes r') = Ok cr' /\ back (rnodes s) = Ok cs /\ back (rnodes s') = Ok cs' /\
  (ncs cr = ncs cr' <-> e = e') /\ (ncs cs = ncs cs' <-> g = g') /\ ncs cr <> ncs cs.
Proof.
  intros B E E' G G'. unfold e_comp, e_grade, rpne_of. rewrite B. cbn [bind]. rewrite !app_length. cbn [length]. destruct (length (rnodes x) + 1 <=? rcap x + 1); [|discriminate].
  intros [= <-] [= <-] [= <-] [= <-]. cbn [rnodes]. do 4 eexists. assert (K : forall n, back (rnodes x ++ [n]) = Ok n) by (intros n; unfold back; destruct (rnodes x ++ [n]) eqn:Q; [now destruct (rnodes x)|rewrite <- Q, last_last; reflexivity]).
  rewrite !K. do 4 (split; [reflexivity|]). cbn [ncs]. unfold wrap32. change (2 ^ 31)%N with 2147483648%N in *.
  assert (T : forall u v k, (u mod 4294967296 = v mod 4294967296 -> u = v + k -> k < 4294967296 -> k = 0)%N).
  { intros u v k Q -> L. pose proof (N.div_mod (v + k) 4294967296 ltac:(discriminate)) as D1. pose proof (N.div_mod v 4294967296 ltac:(discriminate)) as D2. rewrite Q in D1. clear Q. set (r1 := (v mod 4294967296)%N) in *. set (q1 := ((v + k) / 4294967296)%N) in *. set (q2 := (v / 4294967296)%N) in *. clearbody r1 q1 q2. lia. }
  split; [|split]; [split; [|now intros ->]|split; [|now intros ->]|]; intros Q.
  - destruct (N.le_gt_cases e e') as [L|L].
    + assert (K1 : (ncs b + e' = ncs b + e + (e' - e))%N) by lia. specialize (T _ _ _ (eq_sym Q) K1 ltac:(lia)). lia.
    + assert (K1 : (ncs b + e = ncs b + e' + (e - e'))%N) by lia. specialize (T _ _ _ Q K1 ltac:(lia)). lia.
  - destruct (N.le_gt_cases g g') as [L|L].
    + assert (K1 : (ncs b + (4294967295 - g) = ncs b + (4294967295 - g') + (g' - g))%N) by lia. specialize (T _ _ _ Q K1 ltac:(lia)). lia.
    + assert (K1 : (ncs b + (4294967295 - g') = ncs b + (4294967295 - g) + (g - g'))%N) by lia. specialize (T _ _ _ (eq_sym Q) K1 ltac:(lia)). lia.
  - assert (K1 : (ncs b + (4294967295 - g) = ncs b + e + (4294967295 - g - e))%N) by lia. specialize (T _ _ _ (eq_sym Q) K1 ltac:(lia)). lia.
Qed.
Print Assumptions C35_selections_told_apart.
(** the hypotheses are met *)
Example C35_selections_ex : exists r s, e_comp (e_input 7 0) 3 = Ok r /\ e_grade (e_input 7 0) 1 = Ok s /\ map ncs (rnodes r) = [7; 10]%N /\ map ncs (rnodes s) = [7; 5]%N.
Proof. do 2 eexists. repeat split; vm_compute; reflexivity. Qed.
