(** C71: access to the components of entities: members, operator[], constructors, mutable selection. *)
From Coq Require Import ZArith NArith List Bool Arith Reals Lia Lra Sorting.Sorted String.
From Verif Require Import Base Model_Numeric Model_Blade Model_MV Model_Product Model_Expr Model_Dfa Model_Engine Model_Entity Model_Access
  Spec_Numeric Spec_Clifford Spec_Basis Spec_MV Spec_Expr Spec_Dfa Spec_Engine Spec_Entity.
From Verif Require Import Proof_Numeric Proof_Sim Proof_Engine Proof_Entity Proof_Entity2 Props_Entity.
Import ListNotations.
Local Open Scope nat_scope.

(** the multivector [v] with the coefficient of blade [b] replaced by [t] *)
Definition replaced (v : V) (b : N) (t : R) : V := fun a => if (a =? b)%N then t else v a.

(** ** C71: members *)
Lemma set_spec (d : list R) k t : k < List.length d -> exists d', set d k t = Ok d' /\ List.length d' = List.length d /\ forall j, nth_error d' j = if j =? k then Some t else nth_error d j.
Proof.
  intros L. unfold set. rewrite (proj2 (Nat.ltb_lt _ _) L). exists (upd d k t). split; [reflexivity|]. revert k L. induction d as [|a d IH]; intros k L; cbn in L; [lia|].
  destruct k as [|k]; cbn.
  - split; [reflexivity|]. intros [|j]; reflexivity.
  - destruct (IH k ltac:(lia)) as [I1 I2]. split; [lia|]. intros [|j]; [reflexivity|]. cbn. apply I2.
Qed.
Lemma member_index_lt ns n k : member_index ns n = Some k -> k < List.length ns.
Proof. revert k. induction ns as [|l ns IH]; intros k H; cbn in H; [discriminate|]. destruct (existsb _ l); [injection H as <-; cbn; lia|]. destruct (member_index ns n) as [j|]; [|discriminate]. injection H as <-. specialize (IH j eq_refl). cbn. lia. Qed.
(** a member is a cell of the array: assigning to it is seen through the member, through its other names
    and through operator[], and leaves the other members as they are *)
Theorem C71_member ns d n t k : member_index ns n = Some k -> List.length d = List.length ns ->
  exists d', write_member ns d n t = Ok d' /\ put_index d k t = Ok d' /\ List.length d' = List.length d /\ at_index d' k = Ok t /\
  forall n' k', member_index ns n' = Some k' -> read_member ns d' n' = (if k' =? k then Ok t else read_member ns d n') /\ read_member ns d n' = at_index d k'.
Proof.
  intros M L. pose proof (member_index_lt _ _ _ M) as LT. destruct (set_spec d k t ltac:(lia)) as (d' & S1 & S2 & S3). exists d'. unfold write_member, put_index, at_index, read_member, get. rewrite M.
  split; [exact S1|]. split; [exact S1|]. split; [exact S2|]. split; [rewrite S3, Nat.eqb_refl; reflexivity|]. intros n' k' M'. rewrite M', S3. split; [|reflexivity]. now destruct (k' =? k).
Qed.
Print Assumptions C71_member.
(** every type has as many members as size() says, and no name twice *)
Theorem C71_sizes : Forall (fun p => List.length (fst (snd p)) = snd (snd p) /\ NoDup (List.concat (fst (snd p)))) sizes.
Proof.
  apply Forall_forall. intros p H. cbn in H.
  repeat match goal with H : _ \/ _ |- _ => destruct H as [<-|H] end; try contradiction; (split; [reflexivity|]); cbn; repeat constructor; cbn; intuition discriminate.
Qed.
Print Assumptions C71_sizes.
(** the constructors store their arguments in the order of the members, whatever the memory held *)
Theorem C71_constructors a b c d e f : (forall r0 r1 r2, vga_vector_new [r0; r1; r2] a b c = Ok [a; b; c] /\ xyz_new [r0; r1; r2] a b c = Ok [a; b; c] /\ dxy_new [r0; r1; r2] a b c = Ok [a; b; c]) /\
  (forall r0 r1 r2 r3, dxyz_new [r0; r1; r2; r3] a b c d = Ok [a; b; c; d]) /\ (forall r0 r1, xy_new [r0; r1] a b = Ok [a; b]) /\
  forall r0 r1 r2 r3 r4 r5, line_new [r0; r1; r2; r3; r4; r5] a b c d e f = Ok [a; b; c; d; e; f].
Proof. repeat split; reflexivity. Qed.
Print Assumptions C71_constructors.

(** ** C71: what assigning to a member means *)
Lemma entity_val_combine es : forall d d' k b t, NoDup es -> List.length es = List.length d -> nth_error es k = Some b -> List.length d' = List.length d -> (forall j, nth_error d' j = if j =? k then Some t else nth_error d j) ->
  forall a, on_blades es d' a = replaced (on_blades es d) b t a.
Proof.
  unfold on_blades, entity_val, replaced. induction es as [|e es IH]; intros d d' k b t ND L HN LD S a; [destruct k; discriminate|].
  destruct d as [|x d]; [discriminate|]. destruct d' as [|x' d']; [discriminate|]. inversion_clear ND as [|? ? NI ND']. cbn [List.length] in *.
  assert (Z : forall q, ~ In a es -> Rsum (map (fun p : N * R => if (fst p =? a)%N then snd p else 0%R) (combine es q)) = 0%R).
  { clear. induction es as [|e es IH]; intros q NI; [reflexivity|]. destruct q as [|x q]; [reflexivity|]. cbn [combine map Rsum fst snd]. cbn in NI. rewrite (proj2 (N.eqb_neq e a)) by tauto. cbn. rewrite IH by tauto. lra. }
  cbn [combine map fst snd]. destruct k as [|k].
  - cbn in HN. injection HN as ->. pose proof (S 0) as S0. cbn in S0. injection S0 as ->. assert (D : d' = d).
    { apply Proof_SortMap.nth_error_ext. intros j. specialize (S (Datatypes.S j)). exact S. }
    subst d'. cbn [Rsum fold_right]. destruct (N.eqb_spec b a) as [EQ|NE].
    + subst b. rewrite N.eqb_refl. specialize (Z d NI). unfold Rsum in Z. rewrite Z. lra.
    + rewrite (proj2 (N.eqb_neq a b)) by auto. reflexivity.
  - cbn in HN. pose proof (S 0) as S0. cbn in S0. injection S0 as ->. assert (NB : b <> e) by (intros ->; apply NI; now apply nth_error_In in HN).
    cbn [Rsum fold_right]. specialize (IH d d' k b t ND' ltac:(lia) HN ltac:(lia) (fun j => S (Datatypes.S j)) a). unfold Rsum in *. rewrite IH. clear IH Z.
    destruct (N.eqb_spec a b) as [EQ|NE]; [|reflexivity]. rewrite (proj2 (N.eqb_neq e a)) by congruence. lra.
Qed.

(** member or index [k] of the types that store blades is the coefficient of the blade [es[k]]: after the
    assignment the components stand for the same multivector with that coefficient replaced *)
Theorem C71_assignment m nb es d k b t : StronglySorted N.lt es -> Forall (fun e => e < 2 ^ dimension m)%N es -> List.length es = List.length d -> nth_error es k = Some b ->
  exists d', put_index d k t = Ok d' /\ (forall a, on_blades es d' a = replaced (on_blades es d) b t a) /\
  stands m nb (construct_ie es) d (input m nb (on_blades es d)) /\ stands m nb (construct_ie es) d' (input m nb (on_blades es d')).
Proof.
  intros S F L HN. assert (LT : k < List.length d) by (rewrite <- L; apply nth_error_Some; rewrite HN; discriminate).
  destruct (set_spec d k t LT) as (d' & S1 & S2 & S3). exists d'. split; [exact S1|]. split; [|split; apply C34_stored_blades; try assumption; lia].
  apply (entity_val_combine es d d' k b t); try assumption. now apply sorted_nodup.
Qed.
Print Assumptions C71_assignment.
(** outside the array nothing is assigned or read *)
Theorem C71_index_beyond d k t : (List.length d <= k -> at_index d k = Err OutOfBounds /\ put_index d k t = Err OutOfBounds) /\
  (k < List.length d -> at_index d k = Ok (nth k d 0%R) /\ exists d', put_index d k t = Ok d').
Proof.
  split; intros L.
  - unfold at_index, put_index, get, set. rewrite (proj2 (nth_error_None d k) L), (proj2 (Nat.ltb_ge _ _) L). now split.
  - destruct (set_spec d k t L) as (d' & S1 & _). split; [|now exists d']. unfold at_index, get. now rewrite (nth_error_nth' d 0%R L).
Qed.
Print Assumptions C71_index_beyond.

(** ** C71: the members of the types whose components are not blades *)

(** a pga::line, by its members *)
Theorem C71_pga_line dx dy dz mx my mz n t raw d : List.length raw = 6 -> line_new raw dx dy dz mx my mz = Ok d ->
  (forall d', write_member line_members d n t = Ok d' ->
   stands pga_m false pga_line_ie d' (line_v (if String.eqb n "dx" then t else dx) (if String.eqb n "dy" then t else dy) (if String.eqb n "dz" then t else dz)
                                             (if String.eqb n "mx" then t else mx) (if String.eqb n "my" then t else my) (if String.eqb n "mz" then t else mz))) /\
  (In n ["dx"; "dy"; "dz"; "mx"; "my"; "mz"]%string -> exists d', write_member line_members d n t = Ok d').
Proof.
  intros L E. destruct raw as [|r0 [|r1 [|r2 [|r3 [|r4 [|r5 [|]]]]]]]; try discriminate L. injection E as <-. split.
  - intros d' W. unfold write_member in W. cbn [line_members member_index existsb orb] in W. rewrite !Bool.orb_false_r in W.
    destruct (String.eqb_spec n "dx") as [->|]; [injection W as <-; apply C34_pga_line|].
    destruct (String.eqb_spec n "dy") as [->|]; [injection W as <-; apply C34_pga_line|].
    destruct (String.eqb_spec n "dz") as [->|]; [injection W as <-; apply C34_pga_line|].
    destruct (String.eqb_spec n "mx") as [->|]; [injection W as <-; apply C34_pga_line|].
    destruct (String.eqb_spec n "my") as [->|]; [injection W as <-; apply C34_pga_line|].
    destruct (String.eqb_spec n "mz") as [->|]; [injection W as <-; apply C34_pga_line|]. discriminate W.
  - intros I. cbn in I. repeat match goal with H : _ \/ _ |- _ => destruct H as [<-|H] end; try contradiction; eexists; reflexivity.
Qed.
Print Assumptions C71_pga_line.
(** the conformal point, by its members: moving it along one axis moves its null basis components too *)
Theorem C71_cga_point x y z t raw d : List.length raw = 3 -> vga_vector_new raw x y z = Ok d ->
  exists dx dy dz, write_member xyz_uvw d "x" t = Ok dx /\ write_member xyz_uvw d "v" t = Ok dy /\ write_member xyz_uvw d "z" t = Ok dz /\
  stands cga_m true cga_point_ie dx (input cga_m true (conformal_point t y z)) /\ stands cga_m true cga_point_ie dy (input cga_m true (conformal_point x t z)) /\
  stands cga_m true cga_point_ie dz (input cga_m true (conformal_point x y t)).
Proof.
  intros L E. destruct raw as [|r0 [|r1 [|r2 [|]]]]; try discriminate L. injection E as <-. do 3 eexists. repeat split; try apply C34_cga_point; reflexivity.
Qed.
Print Assumptions C71_cga_point.

(** ** C71: entities *)
Lemma combine_fst_snd {A B} (x : list (A * B)) : combine (map fst x) (map snd x) = x.
Proof. induction x as [|[a b] x IH]; [reflexivity|]. cbn. now rewrite IH. Qed.
Lemma entity_put_spec x k t b r : nth_error x k = Some (b, r) -> NoDup (map fst x) ->
  exists x', entity_put x k t = Ok x' /\ map fst x' = map fst x /\ forall a, entity_val x' a = replaced (entity_val x) b t a.
Proof.
  intros HN ND. assert (LT : k < List.length (map snd x)) by (rewrite map_length; apply nth_error_Some; rewrite HN; discriminate).
  destruct (set_spec (map snd x) k t LT) as (d' & S1 & S2 & S3). unfold entity_put. rewrite S1. eexists. split; [reflexivity|]. rewrite map_length in S2. split.
  - clear -S2. rewrite <- (map_length fst) in S2. revert d' S2. induction (map fst x) as [|a l IH]; intros [|e d'] S2; try discriminate; [reflexivity|]. cbn. rewrite IH; [reflexivity|now injection S2].
  - intros a. pose proof (entity_val_combine (map fst x) (map snd x) d' k b t ND) as V. unfold on_blades in V. rewrite combine_fst_snd in V. apply V; [now rewrite !map_length|rewrite nth_error_map, HN; reflexivity|now rewrite map_length|exact S3].
Qed.
(** assigning through the pointer that select returns replaces the coefficient of the blade and no other *)
Theorem C71_select_assignment dim x e t : (e < 2 ^ dim)%N -> NoDup (map fst x) ->
  (In e (map fst x) -> exists x', select_put dim x e t = Ok x' /\ map fst x' = map fst x /\ (forall a, entity_val x' a = replaced (entity_val x) e t a) /\
     forall a, (a < 2 ^ dim)%N -> select dim x' a = if (a =? e)%N then Ok t else select dim x a) /\
  (~ In e (map fst x) -> select_put dim x e t = Err OutOfBounds).
Proof.
  intros D ND. destruct (C33_select_pointer dim x e D) as [P1 P2]. unfold select_put. split; intros I.
  - destruct (P1 I) as (k & r & E & HN & _). rewrite E. cbn [bind]. destruct (entity_put_spec x k t e r HN ND) as (x' & E' & F & V). unfold entity_put in E'. rewrite E'. exists x'. split; [reflexivity|]. split; [exact F|]. split; [exact V|].
    intros a A. rewrite (C33_select_is_coefficient dim x' a A ltac:(now rewrite F)), (C33_select_is_coefficient dim x a A ND), V. unfold replaced. now destruct (a =? e)%N.
  - now rewrite (P2 I).
Qed.
Print Assumptions C71_select_assignment.
(** operator[] counts the stored components in the order of iteration; assigning to it replaces the
    coefficient of the blade stored there *)
Theorem C71_entity_index x k b r t : nth_error x k = Some (b, r) -> NoDup (map fst x) ->
  entity_at x k = Ok r /\ nth_error (entity_visit x) k = Some r /\ r = entity_val x b /\
  exists x', entity_put x k t = Ok x' /\ entity_at x' k = Ok t /\ map fst x' = map fst x /\ forall a, entity_val x' a = replaced (entity_val x) b t a.
Proof.
  intros HN ND. assert (M : nth_error (map snd x) k = Some r) by (rewrite nth_error_map, HN; reflexivity).
  assert (G : forall x r, nth_error (map snd x) k = Some r -> entity_at x k = Ok r) by (intros y q Q; unfold entity_at, get; rewrite Q; destruct y; [destruct k; discriminate|reflexivity]).
  split; [now apply G|]. split; [exact M|]. assert (VB : forall y k q, NoDup (map fst y) -> nth_error y k = Some (b, q) -> q = entity_val y b).
  { clear. intros y k q NDy Ny. pose proof (lookup_val y b NDy) as LV. rewrite <- LV. clear LV. revert k Ny NDy. induction y as [|[c w] y IH]; intros k Ny NDy; [destruct k; discriminate|]. cbn. cbn in NDy. inversion_clear NDy as [|? ? NI NDy'].
    destruct k as [|k]; [injection Ny as -> ->; now rewrite N.eqb_refl|]. cbn in Ny. rewrite (proj2 (N.eqb_neq c b)); [now apply (IH k)|]. intros ->. apply NI. apply nth_error_In in Ny. now apply (in_map fst) in Ny. }
  split; [now apply (VB x k)|]. destruct (entity_put_spec x k t b r HN ND) as (x' & E & F & V). exists x'. split; [exact E|]. split; [|now split]. apply G.
  assert (exists q, nth_error x' k = Some (b, q)) as [q Q].
  { assert (B : nth_error (map fst x') k = Some b) by (rewrite F, nth_error_map, HN; reflexivity). rewrite nth_error_map in B. destruct (nth_error x' k) as [[c q]|]; [|discriminate]. cbn in B. injection B as ->. now exists q. }
  rewrite nth_error_map, Q. cbn. f_equal. rewrite (VB x' k q ltac:(now rewrite F) Q), V. unfold replaced. now rewrite N.eqb_refl.
Qed.
Print Assumptions C71_entity_index.
(** the entity without components reads as zero everywhere and visits nothing; a scalar has one value *)
Theorem C71_zero_and_scalar k v : entity_at [] k = Ok 0%R /\ entity_visit [] = [] /\ (forall a, entity_val [] a = 0%R) /\ scalar_at v k = v.
Proof. repeat split. Qed.
Print Assumptions C71_zero_and_scalar.

(** the hypotheses are met: a vector, a plane, an entity *)
Example C71_ex : member_index xyz_uvw "v" = Some 1 /\ write_member xyz_uvw [1; 2; 3]%R "v" 7%R = Ok [1; 7; 3]%R /\ read_member xyz_uvw [1; 7; 3]%R "y" = Ok 7%R /\
  nth_error pga_plane 2 = Some 4%N /\ replaced (on_blades pga_plane [1; 2; 3; 4]%R) 4 9 4%N = 9%R /\
  select_put 3 entity_ex 3 9%R = Ok [(6%N, 5%R); (0%N, 7%R); (3%N, 9%R)] /\ select_put 3 entity_ex 1 9%R = Err OutOfBounds /\
  NoDup (map fst entity_ex) /\ nth_error entity_ex 1 = Some (0%N, 7%R) /\ entity_at entity_ex 1 = Ok 7%R /\ line_new [0; 0; 0; 0; 0; 0]%R 1 2 3 4 5 6 = Ok [1; 2; 3; 4; 5; 6]%R.
Proof. repeat split. repeat constructor; cbn; intuition discriminate. Qed.
