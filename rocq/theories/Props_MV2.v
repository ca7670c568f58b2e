(** C21 (division), C22, C23 (selection), C24 (null basis). *)
From Coq Require Import ZArith NArith List Bool Reals Lra Lia Sorting.Sorted.
From Verif Require Import Base Model_Numeric Model_Blade Model_MV Model_Product Spec_Numeric Spec_Clifford Spec_MV Spec_Basis
  Proof_Layout Proof_Ops Proof_Div Proof_Div2 Proof_Safe Proof_MVAlg Proof_MVFlat Props_MV.
Import ListNotations.
Local Open Scope nat_scope.

(** ** C21 *)
(** by a constant: the divisor has no indeterminates *)
Theorem C21_divide_by_constant x y z tx q m r : packed x tx -> mv_ok tx -> inds y = [] -> mons y = m :: r -> terms y <> [] ->
  den q <> 0%Z -> den (mq m) <> 0%Z -> num (mq m) <> 0%Z -> divide Exact x y q = Ok z ->
  exists tz, packed z tz /\ mv_ok tz /\ forall rho b, val rho tz b = (rv q * val rho tx b / rv (mq m))%R.
Proof. exact (f_divide_const x y z tx q m r). Qed.
Print Assumptions C21_divide_by_constant.
(** by c * d, d not occurring in [x] *)
Theorem C21_divide_by_fresh_indeterminate_partial x y z tx q m r d : packed x tx -> mv_ok tx -> inds y = [d] -> mons y = m :: r -> terms y <> [] ->
  (forall s i, In s (all_mons tx) -> In i (sinds s) -> id i <> id d) -> integral (ideg d) ->
  den q <> 0%Z -> den (mq m) <> 0%Z -> num (mq m) <> 0%Z -> divide Exact x y q = Ok z ->
  exists tz, packed z tz /\ mv_ok tz /\
    forall rho b, rho (id d) <> 0%R -> val rho tz b = (rv q * val rho tx b / (rv (mq m) * dpow (rho (id d)) (ideg d)))%R.
Proof. exact (f_divide_ind x y z tx q m r d). Qed.
Print Assumptions C21_divide_by_fresh_indeterminate_partial.
Theorem C21_divide_code_agrees x y q z : divide Exact x y q = Ok z -> divide Code x y q = Ok z.
Proof. exact (imp_divide x y q z). Qed.
Print Assumptions C21_divide_code_agrees.
(** whatever the divisor: a single indeterminate, also one that occurs in the dividend. (A divisor with
    more has no overload, algebra.hpp:982-1071.) *)
Theorem C18_divide_memory_safe md x y tx q : packed x tx -> length (inds y) <= 1 -> mons y <> [] -> terms y <> [] -> memory_safe (divide md x y q).
Proof. exact (divide_safe md x y tx q). Qed.
Print Assumptions C18_divide_memory_safe.
Definition exd : mv := pack (mkcaps 1 1 1) [(0%N, [gen (mkrat 2 1) 7])].
Example C21_ex : match divide Exact mvy exd (mkrat 3 1), divide Exact mvy (const_mv 0 (mkrat 3 4)) one with
  | Ok a, Ok b => isz a = 7 /\ isz b = 3 | _, _ => False end.
Proof. vm_compute. split; reflexivity. Qed.

Definition a2e1 : list sterm := [(1%N, [mks one (mkrat 2 1) [mkind 0 (mkrat 2 1)]])].
Definition ae1 : list sterm := [(1%N, [gen one 0])].
Definition div_a : mv := pack (mkcaps 1 1 1) [(0%N, [gen one 0])].
Example C18_divide_ex : packed (pack (mkcaps 1 1 1) ae1) ae1 /\ length (inds div_a) <= 1 /\ mons div_a <> [] /\ terms div_a <> [] /\
  match divide Code (pack (mkcaps 1 1 1) ae1) div_a one with Ok z => length (inds z) = 2 | Err _ => False end.
Proof. split; [apply pack_packed|]. split; [cbn; lia|]. split; [discriminate|]. split; [discriminate|vm_compute; reflexivity]. Qed.
(** a^2 e1 / a is e1 instead of a e1 *)
Theorem C21_divide_shared_indeterminate_refuted : exists x tx z tz, packed x tx /\ divide Code x div_a one = Ok z /\ packed z tz /\
  exists rho, rho 0%N <> 0%R /\ val rho tz 1 <> (val rho tx 1 / rho 0%N)%R.
Proof.
  exists (pack (mkcaps 1 1 1) a2e1), a2e1. eexists. exists [(1%N, [mks one (mkrat 3 1) []])].
  split; [apply pack_packed|]. split; [vm_compute; reflexivity|].
  split; [constructor; try reflexivity; cbn; eexists; reflexivity|].
  exists (fun _ => 2%R). split; [lra|]. unfold val, mons_val, mon_val, inds_val, dpow, rv, Rsum, Rprod. cbn. change (Pos.to_nat 2) with 2. change (Pos.to_nat 1) with 1. lra.
Qed.
Print Assumptions C21_divide_shared_indeterminate_refuted.
(** a e1 / a: the monomial claims two indeterminates, only one was written *)
Theorem C21_divide_same_indeterminate_reads_beyond_size_refuted : exists x tx z, packed x tx /\ divide Code x div_a one = Ok z /\
  exists m, nth_error (mons z) 0 = Some m /\ isz z < ioff m + mcount m.
Proof.
  exists (pack (mkcaps 1 1 1) ae1), ae1. eexists. split; [apply pack_packed|]. split; [vm_compute; reflexivity|].
  eexists. split; [reflexivity|]. cbn. lia.
Qed.
Print Assumptions C21_divide_same_indeterminate_reads_beyond_size_refuted.
(** a divisor with several monomials: all but the first coefficient are ignored, b e1 / (1 + a) = b e1 / a *)
Theorem C21_divide_by_a_sum_refuted : exists x tx y ty z tz, packed x tx /\ packed y ty /\ divide Code x y one = Ok z /\ packed z tz /\
  exists rho, val rho ty 0 <> 0%R /\ val rho tz 1 <> (val rho tx 1 / val rho ty 0)%R.
Proof.
  exists (pack (mkcaps 1 1 1) [(1%N, [gen one 1])]), [(1%N, [gen one 1])].
  exists (pack (mkcaps 1 2 1) [(0%N, [mks one zero []; gen one 0])]), [(0%N, [mks one zero []; gen one 0])].
  eexists. exists [(1%N, [mks one (mkrat 2 1) [mkind 0 (mkrat (-1) 1); mkind 1 one]])].
  split; [apply pack_packed|]. split; [apply pack_packed|]. split; [vm_compute; reflexivity|].
  split; [constructor; try reflexivity; cbn; eexists; rewrite ?app_nil_r; reflexivity|].
  exists (fun _ => 1%R). unfold val, mons_val, mon_val, inds_val, dpow, rv, Rsum, Rprod. cbn. change (Pos.to_nat 1) with 1. split; lra.
Qed.
Print Assumptions C21_divide_by_a_sum_refuted.
(** even where the value is right the stored degree is not: b / a is stored with degree 2 *)
Theorem C21_divide_stored_degree_refuted : exists x tx z tz, packed x tx /\ proper 1 tx /\ divide Code x div_a one = Ok z /\ packed z tz /\
  ~ Forall mon_sorted (all_mons tz).
Proof.
  exists (pack (mkcaps 1 1 1) [(1%N, [gen one 1])]), [(1%N, [gen one 1])].
  eexists. exists [(1%N, [mks one (mkrat 2 1) [mkind 0 (mkrat (-1) 1); mkind 1 one]])].
  split; [apply pack_packed|]. split; [proper_tac|]. split; [vm_compute; reflexivity|].
  split; [constructor; try reflexivity; cbn; eexists; rewrite ?app_nil_r; reflexivity|].
  intros H. inversion H as [|? ? (_ & _ & D) _]; subst. discriminate.
Qed.
Print Assumptions C21_divide_stored_degree_refuted.

(** ** C22 *)
Theorem C22_component_value e x z tx : packed x tx -> canonical tx -> mv_ok tx -> component Exact x e = Ok z ->
  exists tz, packed z tz /\ mv_ok tz /\ forall rho b, val rho tz b = if (b =? 0)%N then val rho tx e else 0%R.
Proof. intros X. exact (f_component_val x z tx X e). Qed.
Print Assumptions C22_component_value.
Theorem C22_component_code_agrees e x z : component Exact x e = Ok z -> component Code x e = Ok z.
Proof. exact (imp_component x e z). Qed.
Print Assumptions C22_component_code_agrees.
Theorem C22_extract_value es x z tx : packed x tx -> canonical tx -> mv_ok tx -> StronglySorted N.lt es -> extract Exact x es = Ok z ->
  exists tz, packed z tz /\ mv_ok tz /\
    forall rho b, (In b es -> val rho tz b = val rho tx b) /\ (~ In b es -> val rho tz b = 0%R).
Proof. intros X. exact (f_extract_val x z tx X es). Qed.
Print Assumptions C22_extract_value.
Example C22_ex : match component Exact mvy 2, component Exact mvy 3, extract Exact mvy [1; 2; 3]%N with
  | Ok a, Ok b, Ok c => msz a = 2 /\ tsz b = 0 /\ tsz c = 2 | _, _, _ => False end.
Proof. vm_compute. repeat split; reflexivity. Qed.

(** ** C23 *)
(** full statement: for every canonical multivector; it fails, see below. It holds exactly where no
    blade of a higher grade precedes one of grade [g]. *)
Theorem C23_select_grade_partial g x tx : packed x tx ->
  StronglySorted (fun a b => pop_count b = g -> (pop_count a <= g)%N) (map fst tx) ->
  exists z tz, select_grade x g = Ok z /\ packed z tz /\ forall rho b, val rho tz b = if (pop_count b =? g)%N then val rho tx b else 0%R.
Proof. intros X. exact (f_grade_val x tx X g). Qed.
Print Assumptions C23_select_grade_partial.
Example C23_ex : StronglySorted (fun a b => pop_count b = 1%N -> (pop_count a <= 1)%N) (map fst exy) /\
  match select_grade mvy 1 with Ok z => tsz z = 2 | _ => False end.
Proof. split; [repeat constructor; vm_compute; intros; discriminate|]. vm_compute. reflexivity. Qed.
Definition exg : list sterm := [(3%N, [gen one 0]); (4%N, [gen one 1])].
Theorem C23_select_grade_refuted : exists x tx z tz, packed x tx /\ proper 3 tx /\ select_grade x 1 = Ok z /\ packed z tz /\
  exists rho, val rho tz 4 <> val rho tx 4.
Proof.
  exists (pack (mkcaps 2 2 2) exg), exg. eexists. exists [].
  split; [apply pack_packed|]. split; [proper_tac|]. split; [vm_compute; reflexivity|].
  split; [constructor; try reflexivity; cbn; eexists; reflexivity|].
  exists (fun _ => 2%R). unfold val, mons_val, mon_val, inds_val, dpow, rv, Rsum, Rprod. cbn. change (Pos.to_nat 2) with 2. change (Pos.to_nat 1) with 1. lra.
Qed.
Print Assumptions C23_select_grade_refuted.

(** ** C24 *)
Theorem C24_to_natural_basis_value n x z tx : 2 <= n -> packed x tx -> mv_ok tx -> in_dim n tx -> to_natural_basis Exact (N.of_nat n) x = Ok z ->
  exists tz, packed z tz /\ mv_ok tz /\ in_dim n tz /\ forall rho b, (b < 2 ^ N.of_nat n)%N ->
    val rho tz b = linear n (outermorphism n (null_to_natural n)) (val rho tx) b.
Proof. intros H. exact (f_natural_val n H x z tx). Qed.
Print Assumptions C24_to_natural_basis_value.
Theorem C24_to_null_basis_value n x z tx : 2 <= n -> packed x tx -> mv_ok tx -> in_dim n tx -> to_null_basis Exact (N.of_nat n) x = Ok z ->
  exists tz, packed z tz /\ mv_ok tz /\ in_dim n tz /\ forall rho b, (b < 2 ^ N.of_nat n)%N ->
    val rho tz b = linear n (outermorphism n (natural_to_null n)) (val rho tx) b.
Proof. intros H. exact (f_null_val n H x z tx). Qed.
Print Assumptions C24_to_null_basis_value.
(** as objects *)
Theorem C24_null_then_natural n x y z tx : 2 <= n -> packed x tx -> proper n tx ->
  to_null_basis Exact (N.of_nat n) x = Ok y -> to_natural_basis Exact (N.of_nat n) y = Ok z -> packed z tx.
Proof. intros H. exact (f_null_natural n H x y z tx). Qed.
Print Assumptions C24_null_then_natural.
Theorem C24_natural_then_null n x y z tx : 2 <= n -> packed x tx -> proper n tx ->
  to_natural_basis Exact (N.of_nat n) x = Ok y -> to_null_basis Exact (N.of_nat n) y = Ok z -> packed z tx.
Proof. intros H. exact (f_natural_null n H x y z tx). Qed.
Print Assumptions C24_natural_then_null.
Theorem C24_code_agrees dim x z : (to_null_basis Exact dim x = Ok z -> to_null_basis Code dim x = Ok z) /\
  (to_natural_basis Exact dim x = Ok z -> to_natural_basis Code dim x = Ok z).
Proof. split; exact (imp_change _ x z). Qed.
Print Assumptions C24_code_agrees.
(** a conformal point: x e0 + y e1 + z e2 + no + (x^2 + y^2 + z^2)/2 ni *)
Definition excga : list sterm :=
  let sqr i := mks (mkrat 1 2) (mkrat 2 1) [mkind i (mkrat 2 1)] in
  [(1%N, [gen one 0]); (2%N, [gen one 1]); (4%N, [gen one 2]); (8%N, [mks one zero []]); (16%N, [sqr 0%N; sqr 1%N; sqr 2%N])].
Example C24_ex_proper : proper 5 excga. Proof. proper_tac. Qed.
Example C24_ex : match (y <- to_natural_basis Exact 5 (pack (mkcaps 6 7 5) excga);; z <- to_null_basis Exact 5 y;; Ok (y, z)) with
  | Ok (y, z) => (tsz y, msz y) = (5, 11) /\ firstn 7 (mons z) = mons (pack (mkcaps 6 7 5) excga) | _ => False end.
Proof. vm_compute. split; reflexivity. Qed.
