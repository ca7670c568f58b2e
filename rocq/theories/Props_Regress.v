(** C45: operator& and Grassmann's regressive product. *)
From Coq Require Import ZArith NArith List Bool Arith Reals Lia Lra.
From Verif Require Import Base Model_Numeric Model_Blade Model_Expr Spec_Numeric Spec_Clifford Spec_MV Spec_Basis Spec_Expr Spec_Build Spec_Regress.
From Verif Require Import Proof_Expr Proof_Expr2 Proof_Expr3 Proof_Expr4 Proof_Expr6 Proof_Regress.
From Verif Require Import Props_Expr.
Import ListNotations.
Local Open Scope nat_scope.

(** ** The regressive product itself: De Morgan's law, the pseudoscalar as unit, associativity,
    graded commutativity *)
Theorem C45_meet_de_morgan m v w : vdual (dim m) (vmeet (dim m) v w) = vprod m Exterior (vdual (dim m) v) (vdual (dim m) w).
Proof. exact (de_morgan m v w). Qed.
Print Assumptions C45_meet_de_morgan.
Theorem C45_meet_unit n v : v_in n v -> vmeet n (delta (2 ^ N.of_nat n - 1)) v = v /\ vmeet n v (delta (2 ^ N.of_nat n - 1)) = v.
Proof. intros I. split; [exact (meet_unit_l n v I)|exact (meet_unit_r n v I)]. Qed.
Print Assumptions C45_meet_unit.
Theorem C45_meet_associative m u v w : vmeet (dim m) (vmeet (dim m) u v) w = vmeet (dim m) u (vmeet (dim m) v w).
Proof. exact (meet_assoc m u v w). Qed.
Print Assumptions C45_meet_associative.
Theorem C45_meet_graded_commutative n r s v w : homogeneous r v -> homogeneous s w ->
  vmeet n v w = vscale (IZR (neg1_pow ((n - r) * (n - s)))) (vmeet n w v).
Proof. exact (meet_commutes n r s v w). Qed.
Print Assumptions C45_meet_graded_commutative.
(** in the plane the lines e1 and e2 meet in a scalar, in space the planes e12 and e13 in e1 *)
Example C45_meet_ex : meet 2 1 2 = (0%N, 1%Z) /\ meet 2 2 1 = (0%N, (-1)%Z) /\ meet 3 3 5 = (1%N, 1%Z) /\ meet 3 5 6 = (4%N, 1%Z) /\ meet 3 1 2 = (0%N, 0%Z) /\
  v_in 2 (delta 1) /\ homogeneous 1 (delta 1) /\ homogeneous 1 (delta 2).
Proof.
  do 5 (split; [reflexivity|]). split; [|split].
  - intros b B. unfold delta. destruct (N.eqb_spec 1 b) as [<-|]; [cbn in B; lia|reflexivity].
  - intros b B. unfold delta. destruct (N.eqb_spec 1 b) as [<-|]; [now elim B|reflexivity].
  - intros b B. unfold delta. destruct (N.eqb_spec 2 b) as [<-|]; [now elim B|reflexivity].
Qed.

(** ** What l & r means: the regressive product, with the sign (-1)^(g (n - g)) on grade g *)
Theorem C45_vee_partial m env l r v w e : denotes m env l v -> denotes m env r w -> unscaled l -> unscaled r -> e_vee Exact l r = Ok e ->
  denotes m env e (vtwist (dim m) (vmeet (dim m) v w)).
Proof.
  intros D D' U U' H. rewrite <- vee_is_twisted_meet. unfold e_vee in H. destruct (e_dual l) as [a|] eqn:E1; cbn [bind] in H; [|discriminate].
  destruct (e_dual r) as [b|] eqn:E2; cbn [bind] in H; [|discriminate]. destruct (e_ep Exact a b) as [c|] eqn:E3; cbn [bind] in H; [|discriminate].
  assert (Q : rq c = one) by exact (ep_one_q _ _ _ (dual_not_wedge _ _ E1) (dual_not_wedge _ _ E2) (dual_q _ _ E1) (dual_q _ _ E2) E3).
  refine (dual_val _ _ _ _ _ _ H _); [|intros _; rewrite Q; exact rv_one].
  refine (ep_val _ _ _ _ _ _ _ (dual_val _ _ _ _ _ D E1 U) (dual_val _ _ _ _ _ D' E2 U') E3 _).
  intros _. rewrite (dual_q _ _ E1), (dual_q _ _ E2), rv_one. ring.
Qed.
Print Assumptions C45_vee_partial.
(** with factors: both are lost *)
Theorem C45_vee_drops_the_factors m env l r v w e : nden m env (rnodes l) v -> nden m env (rnodes r) w -> e_vee Exact l r = Ok e ->
  denotes m env e (vtwist (dim m) (vmeet (dim m) v w)).
Proof.
  intros D D' H. rewrite <- vee_is_twisted_meet. unfold e_vee in H. destruct (e_dual l) as [a|] eqn:E1; cbn [bind] in H; [|discriminate].
  destruct (e_dual r) as [b|] eqn:E2; cbn [bind] in H; [|discriminate]. destruct (e_ep Exact a b) as [c|] eqn:E3; cbn [bind] in H; [|discriminate].
  assert (Q : rq c = one) by exact (ep_one_q _ _ _ (dual_not_wedge _ _ E1) (dual_not_wedge _ _ E2) (dual_q _ _ E1) (dual_q _ _ E2) E3).
  refine (dual_val _ _ _ _ _ _ H _); [|intros _; rewrite Q; exact rv_one].
  refine (ep_val _ _ _ _ _ _ _ (dual_drops _ _ _ _ _ D E1) (dual_drops _ _ _ _ _ D' E2) E3 _).
  intros _. rewrite (dual_q _ _ E1), (dual_q _ _ E2), rv_one. ring.
Qed.
Print Assumptions C45_vee_drops_the_factors.
(** the lambda a & b as a whole *)
Theorem C45_lambda_partial m env sizes a b e v w : length sizes = length env -> faithful m env (inputs sizes) (UVee a b) ->
  build Exact (inputs sizes) (UVee a b) = Ok e -> means m env a v -> means m env b w -> denotes m env e (vtwist (dim m) (vmeet (dim m) v w)).
Proof.
  intros L F B A A'. rewrite <- vee_is_twisted_meet. apply (C25_faithful_expressions_partial m env sizes _ e _ L F B). apply m_vee; assumption.
Qed.
Print Assumptions C45_lambda_partial.
(** in odd dimensions the sign is +1: & is the regressive product *)
Theorem C45_vee_odd_dimension m env l r v w e : Nat.odd (dim m) = true -> denotes m env l v -> denotes m env r w -> unscaled l -> unscaled r -> e_vee Exact l r = Ok e ->
  denotes m env e (vmeet (dim m) v w).
Proof. intros O D D' U U' H. rewrite <- (twist_odd (dim m) (vmeet (dim m) v w) O (meet_in _ _ _)). exact (C45_vee_partial m env l r v w e D D' U U' H). Qed.
Print Assumptions C45_vee_odd_dimension.
(** joining with the pseudoscalar: the sign depends on the grade *)
Theorem C45_join_with_pseudoscalar m env r w e : denotes m env r w -> v_in (dim m) w -> unscaled r ->
  e_vee Exact (e_blade (2 ^ dimension m - 1)%N 1) r = Ok e -> denotes m env e (vtwist (dim m) w).
Proof.
  intros D I U H. rewrite <- (meet_unit_l (dim m) w I) at 1. refine (C45_vee_partial m env _ r _ w e _ D _ U H).
  - replace (delta (2 ^ N.of_nat (dim m) - 1)) with (vscale (IZR 1) (delta (2 ^ dimension m - 1))).
    + exact (blade_val m env _ 1).
    + unfold dim. rewrite N2Nat.id. apply vscale_1.
  - intros _. exact rv_one.
Qed.
Print Assumptions C45_join_with_pseudoscalar.
(** the claim: joining with the pseudoscalar is the identity; false for e1 in dimension four *)
Theorem C45_join_with_pseudoscalar_refuted : exists m env sizes e v, build Code (inputs sizes) (UVee (UBlade (2 ^ dimension m - 1)%N 1) X) = Ok e /\ means m env X v /\ v_in (dim m) v /\ denotes m env e (vneg v) /\ vneg v <> v.
Proof.
  set (m := mkmetric 3 0 1). destruct (build Exact (inputs [1]) (UVee (UBlade (2 ^ dimension m - 1)%N 1) X)) as [e|] eqn:E; [|discriminate E].
  exists m, [delta 1], [1], e, (delta 1). split; [exact (C25_code_agrees _ _ _ E)|]. split; [apply m_in; reflexivity|].
  assert (I : v_in (dim m) (delta 1)) by (intros b B; unfold delta; destruct (N.eqb_spec 1 b) as [<-|]; [cbn in B; lia|reflexivity]). split; [exact I|].
  split.
  - replace (vneg (delta 1)) with (vtwist (dim m) (delta 1)).
    + cbn [build] in E. change (nth_error (inputs [1]) 0) with (Some (nth 0 (inputs [1]) (e_const 0 1))) in E.
      refine (C45_join_with_pseudoscalar m [delta 1] (nth 0 (inputs [1]) (e_const 0 1)) (delta 1) e _ I _ E).
      * pose proof (C25_faithful_expressions_partial m [delta 1] [1] X (nth 0 (inputs [1]) (e_const 0 1)) (delta 1) eq_refl) as F. apply F; [cbn; lia|reflexivity|apply m_in; reflexivity].
      * intros _. exact rv_one.
    + apply FunctionalExtensionality.functional_extensionality. intros b. unfold vtwist, vneg, vscale, delta. destruct (N.eqb_spec 1 b) as [<-|]; [|ring]. change (neg1_pow _) with (-1)%Z. ring.
  - intros X. apply (f_equal (fun v => v 1%N)) in X. unfold vneg, vscale, delta in X. cbn in X. lra.
Qed.
Print Assumptions C45_join_with_pseudoscalar_refuted.
(** & is associative in odd dimensions *)
Theorem C45_vee_associative_odd m u v w : Nat.odd (dim m) = true -> vvee m (vvee m u v) w = vvee m u (vvee m v w).
Proof.
  intros O. rewrite !vee_is_twisted_meet, !(twist_odd _ _ O) by apply meet_in. apply meet_assoc.
Qed.
Print Assumptions C45_vee_associative_odd.
(** but not in dimension four: (I & e1) & e234 is the opposite of I & (e1 & e234) *)
Theorem C45_vee_associative_refuted : exists m u v w, dim m = 4 /\ vvee m (vvee m u v) w <> vvee m u (vvee m v w).
Proof.
  set (m := mkmetric 3 0 1). exists m, (delta 15), (delta 1), (delta 14). split; [reflexivity|]. intros H.
  assert (V1 : v_in 4 (delta 1)) by (intros b B; unfold delta; destruct (N.eqb_spec 1 b) as [<-|]; [cbn in B; lia|reflexivity]).
  assert (M : vmeet 4 (delta 1) (delta 14) 0%N = 1%R).
  { unfold vmeet, bilinear, blades. cbn -[IZR]. unfold delta. cbn -[IZR]. ring. }
  rewrite !vee_is_twisted_meet in H. change (dim m) with 4 in H. change (delta 15) with (delta (2 ^ N.of_nat 4 - 1)) in H. rewrite (meet_unit_l 4 (delta 1) V1) in H.
  rewrite (meet_unit_l 4 _ (twist_in 4 _ (meet_in 4 _ _))) in H. rewrite twist_twist in H.
  replace (vtwist 4 (delta 1)) with (vscale (-1) (delta 1)) in H.
  - apply (f_equal (fun v => v 0%N)) in H. unfold vtwist in H. rewrite M in H. cbn [grade gens length Nat.mul Nat.sub neg1_pow Nat.even] in H.
    unfold vmeet, bilinear in H. rewrite <- (Rmult_1_l (Rsum _)) in H.
    assert (K : vmeet 4 (vscale (-1) (delta 1)) (delta 14) 0%N = (-1)%R).
    { unfold vmeet, bilinear, blades, vscale. cbn -[IZR]. unfold delta. cbn -[IZR]. ring. }
    unfold vmeet, bilinear in K. rewrite K in H. lra.
  - apply FunctionalExtensionality.functional_extensionality. intros b. unfold vtwist, vscale, delta. destruct (N.eqb_spec 1 b) as [<-|]; [|ring]. change (neg1_pow _) with (-1)%Z. ring.
Qed.
Print Assumptions C45_vee_associative_refuted.
(** the factors of the operands are lost *)
Theorem C45_vee_factor_refuted : exists m env sizes e v w, build Code (inputs sizes) (UVee (UScale 2 X) Y) = Ok e /\ means m env (UVee (UScale 2 X) Y) v /\ denotes m env e w /\ v <> w.
Proof.
  destruct (build Exact (inputs [1; 1]) (UVee (UScale 2 X) Y)) as [e|] eqn:E; [|discriminate E].
  exists plane, [delta 1; delta 2], [1; 1], e, (vvee plane (vscale (IZR 2) (delta 1)) (delta 2)), (vtwist 2 (vmeet 2 (delta 1) (delta 2))).
  split; [exact (C25_code_agrees _ _ _ E)|]. split; [unfold vvee; apply m_vee; [apply m_scale|]; apply m_in; reflexivity|]. split.
  - set (x := nth 0 (inputs [1; 1]) (e_const 0 1)). set (y := nth 1 (inputs [1; 1]) (e_const 0 1)).
    assert (E' : bind2 (e_vee Exact) (bind1 (e_scale 2) (Ok x)) (Ok y) = Ok e) by exact E. cbn [bind2 bind1 bind] in E'.
    destruct (e_scale 2 x) as [x2|] eqn:E2; [|discriminate E']. cbn [bind] in E'.
    refine (C45_vee_drops_the_factors plane _ x2 y _ _ e _ _ E').
    + vm_compute in E2. injection E2 as <-. apply nd_id. reflexivity.
    + apply nd_id. reflexivity.
  - rewrite vee_is_twisted_meet. change (dim plane) with 2. intros H. apply (f_equal (fun v => v 0%N)) in H. unfold vtwist in H.
    cbn [grade gens length Nat.mul Nat.sub neg1_pow Nat.even] in H.
    assert (K : vmeet 2 (vscale (IZR 2) (delta 1)) (delta 2) 0%N = 2%R).
    { unfold vmeet, bilinear, blades, vscale. cbn -[IZR]. unfold delta. cbn -[IZR]. ring. }
    assert (L : vmeet 2 (delta 1) (delta 2) 0%N = 1%R).
    { unfold vmeet, bilinear, blades. cbn -[IZR]. unfold delta. cbn -[IZR]. ring. }
    rewrite K, L in H. lra.
Qed.
Print Assumptions C45_vee_factor_refuted.
(** (x ^ y ^ w) & y meets the conditions; its value *)
Example C45_ex : faithful plane env_ex (inputs [2; 2; 4]) u_ex3 /\ (exists v, means plane env_ex u_ex3 v) /\ match build Exact (inputs [2; 2; 4]) u_ex3 with Ok e => nonempty e | Err _ => False end.
Proof.
  split; [unfold u_ex3, X, Y, W; faith|]. split; [|vm_compute; discriminate]. eexists.
  unfold u_ex3, X, Y, W. apply m_vee; [apply m_ep; [apply m_ep|]|apply m_neg, m_neg]; apply m_in; reflexivity.
Qed.
(** in space the join of two inputs, and the pseudoscalar joined with an input *)
Example C45_odd_ex : Nat.odd (dim (mkmetric 3 0 0)) = true /\ match inputs [3; 3] with
  | [x; y] => unscaled x /\ unscaled y /\ denotes (mkmetric 3 0 0) [delta 3; delta 6] x (delta 3) /\ denotes (mkmetric 3 0 0) [delta 3; delta 6] y (delta 6) /\
      v_in 3 (delta 3) /\ (exists e, e_vee Exact x y = Ok e /\ nonempty e) /\ (exists e, e_vee Exact (e_blade (2 ^ dimension (mkmetric 3 0 0) - 1)%N 1) x = Ok e /\ nonempty e)
  | _ => False end.
Proof.
  split; [reflexivity|]. cbv [inputs e_entities fst snd]. split; [intros _; exact rv_one|]. split; [intros _; exact rv_one|].
  assert (G : forall e i v env, (exists cs q, rnodes e = [mknode op_id cs i q]) -> rq e = one -> nth_error env i = Some v ->
     denotes (mkmetric 3 0 0) env e v).
  { intros e i v env H Q E. right. exists v. split; [destruct H as (cs & q & ->); apply nd_id; exact E|]. rewrite Q, rv_one, vscale_1. split; [discriminate|reflexivity]. }
  split; [apply (G _ 0); [repeat eexists|reflexivity|reflexivity]|]. split; [apply (G _ 1); [repeat eexists|reflexivity|reflexivity]|].
  split; [intros b B; unfold delta; destruct (N.eqb_spec 3 b) as [<-|]; [cbn in B; lia|reflexivity]|].
  split; eexists; (split; [vm_compute; reflexivity|discriminate]).
Qed.
