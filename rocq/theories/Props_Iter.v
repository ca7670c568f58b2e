(** C70: the iterators of multivectors visit exactly the cells of their ranges, in order, and the
    loops over them compute what the model of Model_MV.v computes with lists. *)
From Coq Require Import ZArith NArith List Bool Arith Lia.
From Verif Require Import Base Model_Numeric Model_Blade Model_MV Model_Product Model_Iter Model_Iter2 Spec_MV Proof_Numeric Proof_Layout Proof_Iter Proof_Iter2 Proof_Iter3 Props_MV.
Import ListNotations.
Local Open Scope nat_scope.

(** ** C70: the iterators *)
(** moving, comparing and subtracting iterators of monomials agree: n steps, or one jump by n, and the
    distance n *)
Theorem C70_monomial_iterator it n : (N.of_nat n < 2 ^ 64)%N ->
  Nat.iter n mit_next it = mit_jump n it /\ mit_minus (mit_jump n it) it = N.of_nat n /\ fst (mit_post it) = it /\ snd (mit_post it) = mit_next it /\
  (mit_eq (mit_jump n it) it = true <-> n = 0) /\ (forall a b, mit_ne a b = negb (mit_eq a b)) /\ forall a b, mit_eq a b = true <-> a = b.
Proof.
  intros L. assert (J : Nat.iter n mit_next it = mit_jump n it).
  { clear L. induction n as [|n IH]; [unfold mit_jump; rewrite Nat.add_0_r; now destruct it|]. change (Nat.iter (S n) mit_next it) with (mit_next (Nat.iter n mit_next it)). rewrite IH. unfold mit_next, mit_jump. cbn. f_equal. lia. }
  assert (EQ : forall a b, mit_eq a b = true <-> a = b).
  { intros [a1 a2] [b1 b2]. unfold mit_eq. cbn. rewrite andb_true_iff, !Nat.eqb_eq. split; [intros [-> ->]; reflexivity|intros E; injection E as -> ->; auto]. }
  split; [exact J|]. split; [unfold mit_minus, mit_jump; cbn [mit_mon]; rewrite Z.mod_small; lia|]. split; [now destruct it|]. split; [now destruct it|]. split; [|split; [|exact EQ]].
  - rewrite EQ. unfold mit_jump. destruct it as [a b]. cbn. split; [intros E; injection E as E; lia|intros ->; f_equal; lia].
  - intros a b. unfold mit_ne, mit_eq. now rewrite negb_andb.
Qed.
Print Assumptions C70_monomial_iterator.
(** those of terms of one multivector, likewise; iterators of different multivectors are not told apart *)
Theorem C70_term_iterator it n : (N.of_nat n < 2 ^ 64)%N ->
  Nat.iter n tit_next it = tit_jump n it /\ tit_minus (tit_jump n it) it = N.of_nat n /\ fst (tit_post it) = it /\ snd (tit_post it) = tit_next it /\
  (tit_eq (tit_jump n it) it = true <-> n = 0) /\ (forall a b, tit_ne a b = negb (tit_eq a b)) /\ (forall a b, tit_inds a = tit_inds b -> tit_mons a = tit_mons b -> tit_eq a b = true <-> a = b).
Proof.
  intros L. assert (J : Nat.iter n tit_next it = tit_jump n it).
  { clear L. induction n as [|n IH]; [unfold tit_jump; rewrite Nat.add_0_r; now destruct it|]. change (Nat.iter (S n) tit_next it) with (tit_next (Nat.iter n tit_next it)). rewrite IH. unfold tit_next, tit_jump. cbn. f_equal. lia. }
  split; [exact J|]. split; [unfold tit_minus, tit_jump; cbn [tit_term]; rewrite Z.mod_small; lia|]. split; [now destruct it|]. split; [now destruct it|]. split; [|split].
  - unfold tit_jump, tit_eq. destruct it as [a b d]. cbn. rewrite Nat.eqb_eq. lia.
  - intros a b. reflexivity.
  - intros [a1 a2 a3] [b1 b2 b3]. cbn. intros -> ->. unfold tit_eq. cbn. rewrite Nat.eqb_eq. split; [now intros ->|intros E; now injection E].
Qed.
Print Assumptions C70_term_iterator.
(** the distance backwards wraps around: it is converted to an unsigned number *)
Theorem C70_distance_backwards it n : 0 < n -> (N.of_nat n < 2 ^ 64)%N -> mit_minus it (mit_jump n it) = (2 ^ 64 - N.of_nat n)%N /\ forall t, tit_minus t (tit_jump n t) = (2 ^ 64 - N.of_nat n)%N.
Proof.
  intros P L. assert (G : forall k, Z.to_N ((Z.of_nat k - Z.of_nat (k + n)) mod 2 ^ 64) = (2 ^ 64 - N.of_nat n)%N).
  { intros k. replace (Z.of_nat k - Z.of_nat (k + n))%Z with (2 ^ 64 - Z.of_nat n + -1 * 2 ^ 64)%Z by lia. rewrite Z.mod_add by lia. rewrite Z.mod_small by lia. lia. }
  split; [exact (G (mit_mon it))|]. intros t. exact (G (tit_term t)).
Qed.
Print Assumptions C70_distance_backwards.

(** ** C70: the loops *)
(** the three nested loops visit every term, monomial and indeterminate in the order of the arrays, and
    access a cell outside of an array exactly if [read] reports it; [fuel] only has to be large enough *)
Theorem C70_nested_loops fuel x : length (inds x) < fuel -> length (mons x) < fuel -> length (terms x) < fuel -> visit fuel x = read x.
Proof. exact (visit_eq fuel x). Qed.
Print Assumptions C70_nested_loops.
(** writing through references while iterating *)
Theorem C70_negate fuel x l : read x = Ok l -> enough fuel x -> p_negate fuel x = negate x.
Proof. exact (p_negate_eq fuel x l). Qed.
Print Assumptions C70_negate.
Theorem C70_reverse fuel x l : read x = Ok l -> enough fuel x -> p_reverse fuel x = reverse x.
Proof. exact (p_reverse_eq fuel x l). Qed.
Print Assumptions C70_reverse.
Theorem C70_divide_by_constant md fuel x y q l m : read x = Ok l -> enough fuel x -> nth_error (mons y) 0 = Some m -> length (terms y) <> 0 -> inds y = [] ->
  p_divide_constant fuel md x m q = divide md x y q.
Proof. exact (p_divide_constant_eq md fuel x y q l m). Qed.
Print Assumptions C70_divide_by_constant.
Theorem C70_extent fuel x l : read x = Ok l -> enough fuel x -> p_extent fuel x = extent x.
Proof. exact (p_extent_eq fuel x l). Qed.
Print Assumptions C70_extent.
(** output iterators: the cells from the first one on hold what was written, the others what they were
    initialised to *)
Theorem C70_output {A} (d : A) cap l : length l <= cap -> store l 0 (repeat d cap) = Ok (length l, l ++ repeat d (cap - length l)).
Proof. intros L. pose proof (store_eq cap d l [] L) as E. unfold fill in E. cbn [length app] in E. now rewrite Nat.sub_0_r in E. Qed.
Print Assumptions C70_output.
Theorem C70_output_beyond {A} (d : A) cap l : cap < length l -> store l 0 (repeat d cap) = Err OutOfBounds.
Proof.
  assert (G : forall (l : list A) p arr, p <= length arr -> length arr - p < length l -> store l p arr = Err OutOfBounds).
  { clear. induction l as [|a l IH]; intros p arr P L; cbn [length] in L; [lia|]. cbn [store]. destruct (set arr p a) as [arr'|e] eqn:E; cbn [bind].
    - pose proof (set_length _ _ _ _ E) as LE. unfold set in E. destruct (Nat.ltb_spec p (length arr)); [|discriminate]. apply IH; lia.
    - unfold set in E. destruct (p <? length arr); [discriminate|]. now injection E as <-. }
  intros L. apply G; rewrite repeat_length; lia.
Qed.
Print Assumptions C70_output_beyond.
(** the sum, with two iterators per level and pointers into the result *)
Theorem C70_sum md fuel x y l r : read x = Ok l -> read y = Ok r -> length (inds x) + length (inds y) < fuel -> length (mons x) + length (mons y) < fuel -> length (terms x) + length (terms y) < fuel ->
  p_sum md fuel x y = sum md x y.
Proof. exact (p_sum_eq md fuel x y l r). Qed.
Print Assumptions C70_sum.
(** the product: four nested loops, the merge of the indeterminates through two pointers, and temporary
    arrays that are not initialised: their contents [gi], [gm] and [gt] have no influence. *)
Theorem C70_product md fuel P x y tx ty gi gm gt : packed x tx -> packed y ty ->
  length (inds x) + length (inds y) < fuel -> length (mons x) + length (mons y) < fuel -> length (terms x) + length (terms y) < fuel ->
  length gi = length (mons x) * length (inds y) + length (mons y) * length (inds x) -> length gm = length (mons x) * length (mons y) -> length gt = length (terms x) * length (terms y) ->
  p_product md fuel P x y gi gm gt = product md P x y.
Proof.
  intros X Y F1 F2 F3 G1 G2 G3. destruct (p_product_eq md fuel P x y gi gm gt _ _ (packed_read _ _ X) (packed_read _ _ Y) F1 F2 F3 G1 G2 G3) as [E|E]; [|exact E].
  destruct (C18_product_memory_safe md P x y tx ty X Y _ E) as [D|[D|D]]; discriminate.
Qed.
Print Assumptions C70_product.
(** operands whose ranges are in bounds, however they overlap: the loops differ from [product] only if
    that leaves an array *)
Theorem C70_product_any md fuel P x y gi gm gt l r : read x = Ok l -> read y = Ok r ->
  length (inds x) + length (inds y) < fuel -> length (mons x) + length (mons y) < fuel -> length (terms x) + length (terms y) < fuel ->
  length gi = length (mons x) * length (inds y) + length (mons y) * length (inds x) -> length gm = length (mons x) * length (mons y) -> length gt = length (terms x) * length (terms y) ->
  product md P x y = Err OutOfBounds \/ p_product md fuel P x y gi gm gt = product md P x y.
Proof. exact (p_product_eq md fuel P x y gi gm gt l r). Qed.
Print Assumptions C70_product_any.
Theorem C70_dual md fuel dim x l : read x = Ok l -> enough fuel x -> p_dual md fuel dim x = poincare_dual md dim x.
Proof. exact (p_dual_eq md fuel dim x l). Qed.
Print Assumptions C70_dual.
(** collate: whatever lies behind the cells it was given has no influence *)
Theorem C70_collate_spare_cells md c ts ms is xm xi : collate md c ts ms is <> Err OutOfBounds -> collate md c ts (ms ++ xm) (is ++ xi) = collate md c ts ms is.
Proof. intros N. destruct (ext_eq _ _ (collate_ext md xm xi c ts ms is)) as [E|E]; [contradiction|exact E]. Qed.
Print Assumptions C70_collate_spare_cells.
(** whether a range is read is decided by its end: an empty range beyond the end of the array is an
    error, too, since a pointer to it may not be formed *)
Theorem C70_empty_range_beyond_end fuel : 1 < fuel -> visit fuel (mkmv 0 0 1 [] [] [mkterm 0 1 0] mop_id) = Err OutOfBounds.
Proof. intros L. rewrite visit_eq; cbn [inds mons terms length]; try lia. reflexivity. Qed.
Print Assumptions C70_empty_range_beyond_end.

(** ** Examples *)
(** x = 2 a b e1 + (3 a - 5) e12, y = -3 a e12 + 7 e2 *)
Definition it_x : mv := mkmv 3 3 2 [mkind 0 one; mkind 1 one; mkind 0 one; ind0] [mkmon (mkrat 2 1) (mkrat 2 1) 2 0; mkmon (mkrat (-5) 1) zero 0 2; mkmon (mkrat 3 1) one 1 2] [mkterm 1 0 1; mkterm 2 1 3; term0] mop_id.
Definition it_y : mv := mkmv 1 2 2 [mkind 0 one] [mkmon (mkrat 7 1) zero 0 0; mkmon (mkrat (-3) 1) one 1 0] [mkterm 1 0 2; mkterm 1 1 3] mop_id.
Example C70_read_ex : (exists l, read it_x = Ok l /\ length l = 2) /\ (exists r, read it_y = Ok r) /\ enough 10 it_x /\ enough 10 it_y /\ visit 10 it_x = read it_x.
Proof. split; [eexists; split; vm_compute; reflexivity|]. split; [eexists; vm_compute; reflexivity|]. split; [repeat split; cbn; lia|]. split; [repeat split; cbn; lia|]. vm_compute. reflexivity. Qed.
(** 3 a e12 cancels; the terms are merged in the order of the blades *)
Example C70_sum_ex : exists z, p_sum Exact 10 it_x it_y = Ok z /\ map elem (firstn (tsz z) (terms z)) = [1; 2; 3]%N /\ msz z = 3 /\ length (mons z) = 5.
Proof. eexists. split; [vm_compute; reflexivity|]. repeat split. Qed.
Example C70_update_ex : (exists z, p_negate 10 it_x = Ok z /\ z <> it_x) /\ (exists z, p_reverse 10 it_x = Ok z /\ map mq (mons z) = [mkrat 2 1; mkrat 5 1; mkrat (-3) 1]) /\
  (exists z, p_divide_constant 10 Exact it_x (mkmon (mkrat 2 1) zero 0 0) one = Ok z /\ map mq (mons z) = [one; mkrat (-5) 2; mkrat 3 2]) /\ p_extent 10 it_x = Ok (2, 2, 2).
Proof. split; [eexists; split; [vm_compute; reflexivity|discriminate]|]. split; [eexists; split; vm_compute; reflexivity|]. split; [eexists; split; vm_compute; reflexivity|vm_compute; reflexivity]. Qed.
(** too few iterations allowed: the hypothesis about [fuel] is needed *)
Example C70_fuel_ex : visit 2 it_x = Err IllFormed.
Proof. vm_compute. reflexivity. Qed.
Example C70_iterator_ex : mit_minus (mkmit 0 5) (mkmit 0 2) = 3%N /\ mit_minus (mkmit 0 2) (mkmit 0 5) = 18446744073709551613%N.
Proof. split; vm_compute; reflexivity. Qed.
Example C70_output_ex : store [1; 2] 0 (repeat 0 4) = Ok (2, [1; 2; 0; 0]) /\ store [1; 2; 3] 0 (repeat 0 2) = Err OutOfBounds.
Proof. split; reflexivity. Qed.
(** (2 a b e1 + (3 a - 5) e12)(7 e2 - 3 a e12) in the plane, with garbage in the temporary arrays *)
Example C70_product_ex : packed it_x [(1%N, [mks (mkrat 2 1) (mkrat 2 1) [mkind 0 one; mkind 1 one]]); (3%N, [mks (mkrat (-5) 1) zero []; mks (mkrat 3 1) one [mkind 0 one]])] /\
  packed it_y [(2%N, [mks (mkrat 7 1) zero []]); (3%N, [mks (mkrat (-3) 1) one [mkind 0 one]])] /\
  (exists z, p_product Exact 10 (blade_product (mkmetric 2 0 0) Geometric) it_x it_y (repeat (mkind 77 minus_one) 11) (repeat (mkmon (mkrat 9 4) one 5 6) 6) (repeat (mkterm 8 9 3) 6) = Ok z /\
    product Exact (blade_product (mkmetric 2 0 0) Geometric) it_x it_y = Ok z /\ map elem (firstn (tsz z) (terms z)) = [0; 1; 2; 3]%N) /\
  (exists z, p_dual Exact 10 2 it_x = Ok z /\ map elem (firstn (tsz z) (terms z)) = [0; 2]%N).
Proof.
  split; [split; try reflexivity; eexists; vm_compute; reflexivity|]. split; [split; try reflexivity; eexists; vm_compute; reflexivity|].
  split; eexists; (split; [vm_compute; reflexivity|]); [split|]; vm_compute; reflexivity.
Qed.
