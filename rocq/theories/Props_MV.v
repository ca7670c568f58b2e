(** C14-C20, C43, C44 and the multivector parts of C11 and C12. [Exact] runs are those in which no
    coefficient is rounded; they are also runs of the code (the _code_agrees theorems). *)
From Coq Require Import ZArith NArith List Bool Reals Lra Lia Sorting.Sorted.
From Verif Require Import Base Model_Numeric Model_Blade Model_MV Model_Product Spec_Numeric Spec_Clifford Spec_MV
  Proof_Layout Proof_SortMap Proof_Collate Proof_CollateVal Proof_Val Proof_Ops3 Proof_Safe Proof_Poly Proof_Proper Proof_MVAlg Proof_MVFlat.
Import ListNotations.
Local Open Scope nat_scope.

(** two vectors of the plane with generic coordinates, as vga entities give them, one with a
    coefficient 1/2, one also with a scalar part 3 *)
Definition gen (q : rat) (i : N) : smon := mks q one [mkind i one].
Definition exx : list sterm := [(1%N, [gen one 0]); (2%N, [gen (mkrat 1 2) 1])].
Definition exy : list sterm := [(0%N, [mks (mkrat 3 1) zero []]); (1%N, [gen one 2]); (2%N, [gen (mkrat (-1) 2) 1; gen one 3])].
Definition mvx : mv := pack (mkcaps 2 2 2) exx.
Definition mvy : mv := pack (mkcaps 4 5 4) exy.
Example mvx_packed : packed mvx exx. Proof. apply pack_packed. Qed.
Example mvy_packed : packed mvy exy. Proof. apply pack_packed. Qed.
Ltac lex := cbn; first [apply lex_nil | apply lex_head; unfold key_lt; cbn; lia | apply lex_tail; lex].
Ltac proper_tac := repeat match goal with
  | |- proper _ _ => constructor
  | |- canonical _ => split; cbn
  | |- mv_ok _ => unfold mv_ok; cbn
  | |- in_dim _ _ => unfold in_dim; cbn
  | |- Forall _ (all_mons _) => cbn
  | |- StronglySorted _ _ => constructor
  | |- Forall _ _ => constructor
  | |- smon_lt _ _ => first [left; cbn; lia | right; split; [reflexivity|lex]]
  | |- mon_ok _ => unfold mon_ok; cbn
  | |- mon_sorted _ => unfold mon_sorted; cbn
  | |- coef_ok _ => unfold coef_ok, lowest; cbn
  | |- integral _ => reflexivity
  | |- _ /\ _ => split; cbn
  | _ => first [discriminate | reflexivity | lia]
  end.
Example exx_proper : proper 2 exx. Proof. proper_tac. Qed.
Example exy_proper : proper 2 exy. Proof. proper_tac. Qed.
Local Notation vga2 := (mkmetric 2 0 0).
Local Notation geo := (blade_product vga2 Geometric).

(** ** C14 *)
Theorem C14_sum_value x y z tx ty : packed x tx -> packed y ty -> mv_ok tx -> mv_ok ty -> sum Exact x y = Ok z ->
  exists tz, packed z tz /\ mv_ok tz /\ forall rho b, val rho tz b = (val rho tx b + val rho ty b)%R.
Proof. intros X Y. exact (f_sum_val x y z tx ty X Y). Qed.
Print Assumptions C14_sum_value.
Theorem C14_sum_code_agrees x y z : sum Exact x y = Ok z -> sum Code x y = Ok z.
Proof. exact (imp_sum x y z). Qed.
Print Assumptions C14_sum_code_agrees.
Theorem C14_sum_commutes n x y tx ty a b : packed x tx -> packed y ty -> proper n tx -> proper n ty ->
  sum Exact x y = Ok a -> sum Exact y x = Ok b -> exists t, packed a t /\ packed b t /\ proper n t.
Proof. intros X Y PX PY. exact (f_sum_comm n x y tx ty X Y PX PY a b). Qed.
Print Assumptions C14_sum_commutes.
Theorem C14_sum_associates n x y z tx ty tz xy l yz r : packed x tx -> packed y ty -> packed z tz ->
  proper n tx -> proper n ty -> proper n tz ->
  sum Exact x y = Ok xy -> sum Exact xy z = Ok l -> sum Exact y z = Ok yz -> sum Exact x yz = Ok r ->
  exists t, packed l t /\ packed r t /\ proper n t.
Proof. intros X Y Z PX PY PZ. exact (f_sum_assoc n x y z tx ty tz X Y Z PX PY PZ xy l yz r). Qed.
Print Assumptions C14_sum_associates.
Example C14_ex : match (a <- sum Exact mvx mvy;; l <- sum Exact a mvx;; b <- sum Exact mvy mvx;; r <- sum Exact mvx b;; Ok (a, b, l, r)) with
  | Ok (a, b, l, r) => a = b /\ tsz a = 3 /\ tsz l = 3 /\ tsz r = 3 | _ => False end.
Proof. vm_compute. repeat split; reflexivity. Qed.

(** ** C15 *)
Theorem C15_sum_canonical md x y z tx ty : packed x tx -> packed y ty -> mv_ok tx -> mv_ok ty -> canonical tx -> canonical ty ->
  sum md x y = Ok z -> exists tz, packed z tz /\ canonical tz.
Proof. intros X Y. exact (f_sum_canon x y z tx ty X Y md). Qed.
Print Assumptions C15_sum_canonical.
Theorem C15_sum_proper n x y z tx ty : packed x tx -> packed y ty -> proper n tx -> proper n ty -> sum Exact x y = Ok z ->
  exists tz, packed z tz /\ proper n tz.
Proof. intros X Y A B H. destruct (sum_flat _ _ _ _ _ _ X Y H) as (t & E & Z). exists t. split; [exact Z|exact (sum_proper n _ _ _ A B E)]. Qed.
Print Assumptions C15_sum_proper.
(** the two halves of b cancel: 5 terms in, 4 monomials out *)
Example C15_ex : canonical exx /\ canonical exy /\ match sum Code mvx mvy with Ok z => (tsz z, msz z) = (3, 4) | _ => False end.
Proof. split; [apply exx_proper|]. split; [apply exy_proper|]. vm_compute. reflexivity. Qed.

(** ** C16 *)
Theorem C16_product_value P n x y z tx ty : packed x tx -> packed y ty -> mv_ok tx -> mv_ok ty -> in_dim n tx -> in_dim n ty ->
  product Exact P x y = Ok z ->
  exists tz, packed z tz /\ mv_ok tz /\
    forall rho, defined rho tx -> defined rho ty -> defined rho tz /\ forall c, val rho tz c = bilinear P n (val rho tx) (val rho ty) c.
Proof. intros X Y. exact (f_product_val x y z tx ty X Y P n). Qed.
Print Assumptions C16_product_value.
Theorem C16_product_code_agrees P x y z : product Exact P x y = Ok z -> product Code P x y = Ok z.
Proof. exact (imp_product P x y z). Qed.
Print Assumptions C16_product_code_agrees.
(** as objects, not only as values *)
Theorem C16_geometric_product_associates m n x y z tx ty tz xy l yz r : packed x tx -> packed y ty -> packed z tz ->
  proper n tx -> proper n ty -> proper n tz ->
  product Exact (geometric m) x y = Ok xy -> product Exact (geometric m) xy z = Ok l ->
  product Exact (geometric m) y z = Ok yz -> product Exact (geometric m) x yz = Ok r ->
  exists t, packed l t /\ packed r t /\ proper n t.
Proof.
  intros X Y Z PX PY PZ. exact (f_product_assoc n x y z tx ty tz X Y Z PX PY PZ _ (blade_product_closed m Geometric n) xy l yz r (assoc_geometric m)).
Qed.
Print Assumptions C16_geometric_product_associates.
Theorem C16_exterior_product_associates n x y z tx ty tz xy l yz r : packed x tx -> packed y ty -> packed z tz ->
  proper n tx -> proper n ty -> proper n tz ->
  product Exact exterior x y = Ok xy -> product Exact exterior xy z = Ok l ->
  product Exact exterior y z = Ok yz -> product Exact exterior x yz = Ok r ->
  exists t, packed l t /\ packed r t /\ proper n t.
Proof.
  intros X Y Z PX PY PZ. exact (f_product_assoc n x y z tx ty tz X Y Z PX PY PZ _ (blade_product_closed vga2 Exterior n) xy l yz r assoc_exterior).
Qed.
Print Assumptions C16_exterior_product_associates.
Theorem C16_products_distribute m k n x y z tx ty tz : packed x tx -> packed y ty -> packed z tz ->
  proper n tx -> proper n ty -> proper n tz -> let P := blade_product m k in
  (forall yz l xy xz r, sum Exact y z = Ok yz -> product Exact P x yz = Ok l -> product Exact P x y = Ok xy ->
     product Exact P x z = Ok xz -> sum Exact xy xz = Ok r -> exists t, packed l t /\ packed r t /\ proper n t) /\
  (forall xy l xz yz r, sum Exact x y = Ok xy -> product Exact P xy z = Ok l -> product Exact P x z = Ok xz ->
     product Exact P y z = Ok yz -> sum Exact xz yz = Ok r -> exists t, packed l t /\ packed r t /\ proper n t).
Proof.
  intros X Y Z PX PY PZ P. split.
  - exact (f_distr_l n x y z tx ty tz X Y Z PX PY PZ P (blade_product_closed m k n)).
  - exact (f_distr_r n x y z tx ty tz X Y Z PX PY PZ P (blade_product_closed m k n)).
Qed.
Print Assumptions C16_products_distribute.
Example C16_ex : match (xy <- product Exact geo mvx mvy;; l <- product Exact geo xy mvx;; yx <- product Exact geo mvy mvx;; r <- product Exact geo mvx yx;;
    s <- sum Exact mvy mvx;; d <- product Exact geo mvx s;; xx <- product Exact geo mvx mvx;; d' <- sum Exact xy xx;; Ok (xy, l, r, d, d')) with
  | Ok (xy, l, r, d, d') => (tsz xy, msz xy) = (4, 8) /\ (tsz l, msz l) = (tsz r, msz r) /\ (tsz d, msz d) = (tsz d', msz d') | _ => False end.
Proof. vm_compute. repeat split; reflexivity. Qed.

(** ** C17 *)
Theorem C17_product_canonical md P x y z tx ty : packed x tx -> packed y ty -> mv_ok tx -> mv_ok ty -> product md P x y = Ok z ->
  exists tz, packed z tz /\ canonical tz /\
    (Forall mon_sorted (all_mons tx) -> Forall mon_sorted (all_mons ty) -> Forall mon_sorted (all_mons tz)).
Proof. intros X Y. exact (f_product_canon x y z tx ty X Y md P). Qed.
Print Assumptions C17_product_canonical.
Theorem C17_product_proper m k n x y z tx ty : packed x tx -> packed y ty -> proper n tx -> proper n ty ->
  product Exact (blade_product m k) x y = Ok z -> exists tz, packed z tz /\ proper n tz.
Proof.
  intros X Y A B H. destruct (product_flat _ _ _ _ _ _ _ X Y H) as (t & E & Z). exists t. split; [exact Z|].
  exact (product_proper _ n _ _ _ (blade_product_closed m k n) A B E).
Qed.
Print Assumptions C17_product_proper.
(** operands need not be sorted: e2 e1, with a repeated and a cancelling term *)
Example C17_ex : let x := pack (mkcaps 3 3 3) [(2%N, [gen one 1]); (1%N, [gen one 0]); (2%N, [gen (mkrat (-1) 1) 1])] in
  match product Code geo x mvx with Ok z => exists r, mons z = [mkmon one (mkrat 2 1) 1 0; mkmon (mkrat 1 2) (mkrat 2 1) 2 1] ++ r | _ => False end.
Proof. vm_compute. eexists. reflexivity. Qed.

(** ** C18 *)
Theorem C18_sum_memory_safe md x y tx ty : packed x tx -> packed y ty -> memory_safe (sum md x y).
Proof. intros X Y. exact (f_sum_safe x y tx ty X Y md). Qed.
Print Assumptions C18_sum_memory_safe.
Theorem C18_product_memory_safe md P x y tx ty : packed x tx -> packed y ty -> memory_safe (product md P x y).
Proof. intros X Y. exact (f_product_safe x y tx ty X Y md P). Qed.
Print Assumptions C18_product_memory_safe.
Theorem C18_unary_memory_safe md q x tx : packed x tx ->
  memory_safe (negate x) /\ memory_safe (reverse x) /\ memory_safe (scale md q x) /\ memory_safe (shift md q x).
Proof. intros X. exact (f_unary_safe x tx X md q). Qed.
Print Assumptions C18_unary_memory_safe.
Theorem C18_dual_memory_safe md dim x tx : packed x tx -> memory_safe (poincare_dual md dim x).
Proof. intros X. exact (f_dual_safe x tx X md dim). Qed.
Print Assumptions C18_dual_memory_safe.
Theorem C18_null_basis_memory_safe md dim x tx : packed x tx ->
  memory_safe (to_null_basis md dim x) /\ memory_safe (to_natural_basis md dim x).
Proof. intros X. split; exact (f_change_safe x tx X md _). Qed.
Print Assumptions C18_null_basis_memory_safe.
Theorem C18_selection_memory_safe md e es g x tx : packed x tx ->
  memory_safe (component md x e) /\ memory_safe (select_grade x g) /\ (canonical tx -> memory_safe (extract md x es)).
Proof. intros X. exact (f_select_safe x tx X md e es g). Qed.
Print Assumptions C18_selection_memory_safe.
Theorem C18_resize_memory_safe x tx c : packed x tx ->
  length (all_inds (all_mons tx)) <= ci c -> length (all_mons tx) <= cm c -> length tx <= ct c ->
  exists z, resize x c = Ok z /\ packed z tx /\ caps_of z = c.
Proof. exact (resize_packed x tx c). Qed.
Print Assumptions C18_resize_memory_safe.
(** shrinking below the sizes writes out of bounds: resize does not check *)
Theorem C18_resize_too_small_refuted : exists x tx c, packed x tx /\ resize x c = Err OutOfBounds.
Proof. exists mvx, exx, (mkcaps 2 2 1). split; [apply pack_packed|]. reflexivity. Qed.
Print Assumptions C18_resize_too_small_refuted.
(** a result that fills its arrays to the last cell *)
Example C18_ex : let x := pack (mkcaps 2 2 2) exx in let y := pack (mkcaps 1 1 1) [(4%N, [gen one 5])] in
  match sum Code x y with Ok z => (isz z, msz z, tsz z) = (3, 3, 3) /\ (length (inds z), length (mons z), length (terms z)) = (3, 3, 3) | _ => False end.
Proof. vm_compute. split; reflexivity. Qed.

(** ** C19 *)
Theorem C19_sum_with_negation_is_empty md x w z tx : packed x tx -> mv_ok tx -> negate x = Ok w -> sum md x w = Ok z -> packed z [].
Proof. intros X. exact (f_sum_neg x tx X md w z). Qed.
Print Assumptions C19_sum_with_negation_is_empty.
Example C19_neg_ex : match negate mvy with Ok w => match sum Code mvy w with Ok z => (isz z, msz z, tsz z) = (0, 0, 0) | _ => False end | _ => False end.
Proof. vm_compute. reflexivity. Qed.
(** two proper multivectors with the same values at all positive inputs are the same object *)
Theorem C19_equal_values_identical_objects n m x y tx ty : packed x tx -> packed y ty -> proper n tx -> proper m ty ->
  (forall rho, (forall i, (0 < rho i)%R) -> forall b, val rho tx b = val rho ty b) -> exists t, packed x t /\ packed y t.
Proof. intros X Y PX. exact (f_identify n x y tx ty X Y PX m). Qed.
Print Assumptions C19_equal_values_identical_objects.
(** in particular an algebraically vanishing multivector has no terms *)
Theorem C19_zero_has_no_terms n x tx : packed x tx -> proper n tx ->
  (forall rho, (forall i, (0 < rho i)%R) -> forall b, val rho tx b = 0%R) -> tsz x = 0.
Proof.
  intros X PX H. assert (E : tx = []).
  { apply (values_identify n n); [assumption| |].
    - constructor; [split; constructor|constructor|constructor|constructor|constructor].
    - intros rho Hr b. rewrite H by assumption. reflexivity. }
  subst tx. apply X.
Qed.
Print Assumptions C19_zero_has_no_terms.
(** (x - y)^2 - (x + y)^2 + 2(xy + yx): expands to nothing *)
Example C19_identity_ex :
  let v := [(1%N, [gen one 0]); (2%N, [gen one 1])] in let u := [(1%N, [gen one 2]); (2%N, [gen one 3])] in
  let X := pack (mkcaps 2 2 2) v in let Y := pack (mkcaps 2 2 2) u in
  match (ny <- negate Y;; d <- sum Code X ny;; s <- sum Code X Y;; dd <- product Code geo d d;; ss <- product Code geo s s;;
         xy <- product Code geo X Y;; yx <- product Code geo Y X;; q <- sum Code xy yx;; q2 <- scale Code (mkrat 2 1) q;;
         nss <- negate ss;; r <- sum Code dd nss;; sum Code r q2) with Ok z => tsz z = 0 | _ => False end.
Proof. vm_compute. reflexivity. Qed.

(** ** C20 *)
Theorem C20_scale_value q x z tx : packed x tx -> den q <> 0%Z -> mv_ok tx -> scale Exact q x = Ok z ->
  exists tz, packed z tz /\ mv_ok tz /\ forall rho b, val rho tz b = (rv q * val rho tx b)%R.
Proof. intros X. exact (f_scale_val x z tx X q). Qed.
Print Assumptions C20_scale_value.
Theorem C20_negate_value x z tx : packed x tx -> mv_ok tx -> negate x = Ok z ->
  exists tz, packed z tz /\ mv_ok tz /\ forall rho b, val rho tz b = (- val rho tx b)%R.
Proof. intros X. exact (f_negate_val x z tx X). Qed.
Print Assumptions C20_negate_value.
Theorem C20_shift_value q x z tx : packed x tx -> den q <> 0%Z -> mv_ok tx -> shift Exact q x = Ok z ->
  exists tz, packed z tz /\ mv_ok tz /\ forall rho b, val rho tz b = (val rho tx b + (if (b =? 0)%N then rv q else 0))%R.
Proof. intros X. exact (f_shift_val x z tx X q). Qed.
Print Assumptions C20_shift_value.
Theorem C20_unary_canonical q x z tx : packed x tx -> canonical tx ->
  (negate x = Ok z -> exists tz, packed z tz /\ canonical tz) /\
  (reverse x = Ok z -> exists tz, packed z tz /\ canonical tz) /\
  (num q <> 0%Z -> scale Exact q x = Ok z -> exists tz, packed z tz /\ canonical tz).
Proof. intros X C. split; [exact (f_negate_canon x z tx X C)|]. split; [exact (f_reverse_canon x z tx X C)|]. intros Q. exact (f_scale_canon x z tx X q Q C). Qed.
Print Assumptions C20_unary_canonical.
Theorem C20_code_agrees q x z :
  (scale Exact q x = Ok z -> scale Code q x = Ok z) /\ (shift Exact q x = Ok z -> shift Code q x = Ok z).
Proof. split; [exact (imp_scale q x z)|exact (imp_shift q x z)]. Qed.
Print Assumptions C20_code_agrees.
(** scaling by zero leaves terms with coefficient 0: not canonical *)
Theorem C20_scale_by_zero_canonical_refuted : exists x tx z tz,
  packed x tx /\ canonical tx /\ scale Code zero x = Ok z /\ packed z tz /\ ~ canonical tz.
Proof.
  pose (r := match scale Code zero mvx with Ok z => z | _ => mvx end).
  exists mvx, exx, r, [(1%N, [gen zero 0]); (2%N, [gen zero 1])].
  split; [apply pack_packed|]. split; [apply exx_proper|]. split; [vm_compute; reflexivity|].
  split; [constructor; try reflexivity; exists []; vm_compute; reflexivity|].
  intros [_ C]. inversion C as [|? ? [_ [_ F]] _]; subst. inversion F as [|? ? F0 _]; subst. now apply F0.
Qed.
Print Assumptions C20_scale_by_zero_canonical_refuted.
Example C20_ex : match (a <- scale Exact (mkrat 3 4) mvy;; b <- negate a;; shift Exact (mkrat 9 4) b) with Ok z => tsz z = 2 | _ => False end.
Proof. vm_compute. reflexivity. Qed.

(** ** C11, C12 for multivectors *)
Theorem C11_reverse_value x z tx : packed x tx -> mv_ok tx -> reverse x = Ok z ->
  exists tz, packed z tz /\ mv_ok tz /\ forall rho b, val rho tz b = (IZR (rev_sign (grade b)) * val rho tx b)%R.
Proof. intros X. exact (f_reverse_val x z tx X). Qed.
Print Assumptions C11_reverse_value.
Theorem C11_reverse_involutive n x a b tx : packed x tx -> proper n tx -> reverse x = Ok a -> reverse a = Ok b -> packed b tx.
Proof. intros X PX. exact (f_reverse_involutive n x tx X PX a b). Qed.
Print Assumptions C11_reverse_involutive.
Theorem C11_reverse_of_product n m x y tx ty xy l rx ry r : packed x tx -> packed y ty -> proper n tx -> proper n ty ->
  product Exact (geometric m) x y = Ok xy -> reverse xy = Ok l ->
  reverse x = Ok rx -> reverse y = Ok ry -> product Exact (geometric m) ry rx = Ok r -> exists t, packed l t /\ packed r t.
Proof. intros X Y PX PY. exact (f_reverse_product n x y tx ty X Y PX PY m xy l rx ry r). Qed.
Print Assumptions C11_reverse_of_product.
Example C11_ex : match (xy <- product Exact (geometric vga2) mvx mvy;; l <- reverse xy;; rx <- reverse mvx;; ry <- reverse mvy;;
    r <- product Exact (geometric vga2) ry rx;; rr <- reverse l;; Ok (l, r, tsz l)) with Ok (l, r, n) => l = r /\ n = 4 | _ => False end.
Proof. vm_compute. split; reflexivity. Qed.
Theorem C12_dual_value dim x z tx : packed x tx -> mv_ok tx -> poincare_dual Exact dim x = Ok z ->
  exists tz, packed z tz /\ mv_ok tz /\ canonical tz /\
    forall rho e, val rho tz (fst (poincare_complement e dim)) = (IZR (snd (poincare_complement e dim)) * val rho tx e)%R.
Proof. intros X. exact (f_dual_val x z tx X dim). Qed.
Print Assumptions C12_dual_value.
Theorem C12_double_dual_value n x a b tx : packed x tx -> proper n tx ->
  poincare_dual Exact (N.of_nat n) x = Ok a -> poincare_dual Exact (N.of_nat n) a = Ok b ->
  exists t, packed b t /\ proper n t /\ forall rho e, (e < 2 ^ N.of_nat n)%N -> val rho t e = (IZR (neg1_pow (grade e * (n - grade e))) * val rho tx e)%R.
Proof. intros X PX. exact (f_dual_double n x tx X PX a b). Qed.
Print Assumptions C12_double_dual_value.
Theorem C12_dual_code_agrees dim x z : poincare_dual Exact dim x = Ok z -> poincare_dual Code dim x = Ok z.
Proof. exact (imp_dual dim x z). Qed.
Print Assumptions C12_dual_code_agrees.
Example C12_mv_ex : match (a <- poincare_dual Exact 2 mvy;; poincare_dual Exact 2 a) with Ok b => tsz b = 3 | _ => False end.
Proof. vm_compute. reflexivity. Qed.

(** ** C43 *)
(** Reading from the buffers [ms], [is] as they were before the call, without overwriting them:
    terms with the monomials they refer to. *)
Theorem C43_collate_equals_collation_of_a_copy md c ts ms is :
  (forall m, In m ms -> ioff m + mcount m <= length is) -> (forall t, In t ts -> moff t + tcount t <= length ms) ->
  length (all_mons (map (sterm_at is ms) ts)) <= cm c -> length (all_inds (all_mons (map (sterm_at is ms) ts))) <= ci c -> length ts <= ct c ->
  match collate md c ts ms is, s_collate md (S (length ts)) (map (sterm_at is ms) ts) with
  | Ok z, Ok t => packed z t
  | Err e, Err e' => e = e'
  | _, _ => False
  end.
Proof.
  intros A B C D E. apply Forall_forall in A, B. pose proof (collate_eq md c ts ms is A B C D E) as H. unfold rr in H.
  destruct (collate md c ts ms is), (s_collate md _ _); try exact H. exact (proj1 H).
Qed.
Print Assumptions C43_collate_equals_collation_of_a_copy.
Theorem C43_collate_keeps_values c ts ms is z :
  (forall m, In m ms -> ioff m + mcount m <= length is) -> (forall t, In t ts -> moff t + tcount t <= length ms) ->
  length (all_mons (map (sterm_at is ms) ts)) <= cm c -> length (all_inds (all_mons (map (sterm_at is ms) ts))) <= ci c -> length ts <= ct c ->
  mv_ok (map (sterm_at is ms) ts) -> collate Exact c ts ms is = Ok z ->
  exists t, packed z t /\ mv_ok t /\ (StronglySorted N.le (map elem ts) -> canonical t) /\
    forall rho b, val rho t b = val rho (map (sterm_at is ms) ts) b.
Proof.
  intros A B C D E O H. apply Forall_forall in A, B. pose proof (collate_eq Exact c ts ms is A B C D E) as HH. rewrite H in HH. unfold rr in HH.
  destruct (s_collate Exact _ _) as [t|] eqn:ES; [|contradiction]. exists t. split; [exact (proj1 HH)|].
  split; [exact (proj2 (s_collate_val (fun _ => 0%R) 0%N _ _ _ O ES))|]. split.
  - intros S0. eapply s_collate_canon; [apply mv_ok_tdegs; exact O| |exact ES]. rewrite map_map. exact S0.
  - intros rho b. exact (proj1 (s_collate_val rho b _ _ _ O ES)).
Qed.
Print Assumptions C43_collate_keeps_values.
Theorem C43_code_agrees c ts ms is z : collate Exact c ts ms is = Ok z -> collate Code c ts ms is = Ok z.
Proof. exact (imp_collate c ts ms is z). Qed.
Print Assumptions C43_code_agrees.
(** two terms on e1 whose monomials are interleaved in the buffer and must be reordered *)
Example C43_ex :
  let is := [mkind 3 one; mkind 1 one; mkind 2 one] in
  let ms := [mkmon one one 1 0; mkmon one one 1 1; mkmon one one 1 2; mkmon one one 1 0] in
  let ts := [mkterm 2 0 1%N; mkterm 2 2 1%N] in
  match collate Code (mkcaps 4 4 2) ts ms is with
  | Ok z => firstn 3 (mons z) = [mkmon one one 1 0; mkmon one one 1 1; mkmon (mkrat 2 1) one 1 2] /\ firstn 3 (inds z) = [mkind 1 one; mkind 2 one; mkind 3 one]
  | _ => False
  end.
Proof. vm_compute. split; reflexivity. Qed.

(** ** C44 *)
Theorem C44_reference_reads_back x tx i0 : packed x tx -> length (terms x) = length tx ->
  exists t, packed (create_ref x i0) t /\ mv_ok t /\ map fst t = map fst tx /\
    (StronglySorted N.lt (map fst tx) -> canonical t) /\
    forall rho sigma, (forall k e ms, nth_error tx k = Some (e, ms) -> sigma (i0 + N.of_nat k)%N = mons_val rho ms) ->
      forall b, val sigma t b = val rho tx b.
Proof. exact (f_create_ref x tx i0). Qed.
Print Assumptions C44_reference_reads_back.
(** with spare capacity the reference has terms the temporary does not *)
Theorem C44_spare_capacity_refuted : exists x tx, packed x tx /\ tsz (create_ref x 0) <> tsz x.
Proof. exists mvy, exy. split; [apply pack_packed|]. vm_compute. discriminate. Qed.
Print Assumptions C44_spare_capacity_refuted.
Example C44_ex : length (terms mvx) = length exx /\ map id (inds (create_ref mvx 7)) = [7%N; 8%N]. Proof. split; reflexivity. Qed.
