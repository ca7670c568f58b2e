(** The entity types with forms of their own. *)
From Coq Require Import ZArith NArith List Bool Arith Lia ZifyBool ZifyN ZifyNat Reals Lra Sorting.Sorted.
From Verif Require Import Base Model_Numeric Model_Blade Model_Sort Model_MV Model_Product Model_Expr Model_Dfa Model_Engine Model_Entity
  Spec_Numeric Spec_Clifford Spec_Basis Spec_MV Spec_Expr Spec_Dfa Spec_Engine Spec_Entity
  Proof_Numeric Proof_Layout Proof_Val Proof_Ops Proof_Ops3 Proof_Proper Proof_Engine Proof_Sim Proof_Entity.
Import ListNotations.
Local Open Scope nat_scope.

Lemma represents_stands m nb ie d v : represents m nb ie d v -> stands m nb ie d v.
Proof. intros H. exists ie. split; [|exact H]. intros o. destruct (H o) as (_ & tx & P & _). apply sim_refl. rewrite (pk_isz _ _ P). destruct (pk_inds _ _ P) as [r ->]. rewrite app_length. lia. Qed.

Ltac lex := first [ apply lex_nil | apply lex_head; first [left; cbn; lia | right; split; cbn; [reflexivity | lia]] | apply lex_tail; lex ].
Ltac propers := repeat match goal with
  | |- proper _ _ => constructor
  | |- canonical _ => split; cbn
  | |- mv_ok _ => unfold mv_ok; cbn
  | |- in_dim _ _ => unfold in_dim; cbn
  | |- Forall _ (all_mons _) => cbn
  | |- StronglySorted _ _ => constructor
  | |- Forall _ _ => constructor
  | |- smon_lt _ _ => first [left; cbn; lia | right; split; [reflexivity|lex]]
  | |- mon_ok _ => unfold mon_ok; cbn
  | |- mon_sorted _ => unfold mon_sorted; cbn
  | |- coef_ok _ => unfold coef_ok, lowest; cbn
  | |- integral _ => reflexivity
  | |- _ /\ _ => split; cbn
  | _ => first [discriminate | reflexivity | lia]
  end.
Lemma dpow_two x : dpow x (mkrat 2 1) = (x * x)%R.
Proof. unfold dpow. cbn [den num]. change (1 =? 1)%Z with true. change (powerRZ x 2) with (x * (x * 1))%R. cbv iota. ring. Qed.
Lemma rv_half : rv one_half = (/ 2)%R. Proof. unfold rv, one_half. cbn [num den]. lra. Qed.
Lemma rv_mhalf : rv minus_one_half = (- / 2)%R. Proof. unfold rv, minus_one_half. cbn [num den]. lra. Qed.
Lemma rv_mone : rv minus_one = (-1)%R. Proof. unfold rv, minus_one. cbn [num den]. lra. Qed.
(** the values of a concrete form, given those of its indeterminates *)
Ltac values := unfold val, on_blades, entity_val, mons_val, mon_val, inds_val; cbn [map combine Rsum Rprod fold_right fst snd sq sinds id ideg];
  rewrite ?Proof_Dfa.dpow_one, ?dpow_two, ?rv_one, ?rv_half, ?rv_mhalf, ?rv_mone.
Lemma cell rho (o : N) d : (forall j, j < length d -> rho (o + N.of_nat j)%N = nth j d 0%R) -> forall k, N.to_nat k < length d -> rho (o + k)%N = nth (N.to_nat k) d 0%R.
Proof. intros H k K. rewrite <- (H _ K). now rewrite N2Nat.id. Qed.
Lemma cell0 rho (o : N) d : (forall j, j < length d -> rho (o + N.of_nat j)%N = nth j d 0%R) -> 0 < length d -> rho o = nth 0 d 0%R.
Proof. intros H K. rewrite <- (H _ K). f_equal. cbn. lia. Qed.
Ltac nums := change (N.to_nat 1) with 1; change (N.to_nat 2) with 2; change (N.to_nat 3) with 3; change (N.to_nat 4) with 4; change (N.to_nat 5) with 5; cbn [nth].
Ltac blades := repeat match goal with |- context [(?a =? ?b)%N] => destruct (a =? b)%N end.
Ltac ranges := let s := fresh in let i := fresh in let Hs := fresh in let Hi := fresh in intros ? s i Hs Hi; cbn in Hs; repeat (destruct Hs as [<-|Hs]; [cbn in Hi; repeat (destruct Hi as [<-|Hi]; [cbn; lia|]); contradiction|]); contradiction.
Ltac packs := constructor; cbn; try reflexivity; try (exists []; reflexivity); eexists; reflexivity.

(** pga::line *)
Definition line_ts (o : N) : list sterm :=
  [(3, [mks minus_one one [mkind (o + 3) one]]); (5, [mks one one [mkind (o + 4) one]]); (6, [mks minus_one one [mkind (o + 2) one]]);
   (9, [mks minus_one one [mkind (o + 5) one]]); (10, [mks one one [mkind (o + 1) one]]); (12, [mks minus_one one [mkind o one]])]%N.
Theorem pga_line_stands dx dy dz mx my mz :
  stands pga_m false pga_line_ie [dx; dy; dz; mx; my; mz] (line_v dx dy dz mx my mz).
Proof.
  apply represents_stands. change (line_v dx dy dz mx my mz) with (input pga_m false (line_v dx dy dz mx my mz)). apply (represents_of _ _ _ _ _ line_ts).
  - intros o. split; [packs|]. split; [reflexivity|]. unfold line_ts. propers.
  - ranges.
  - intros o rho H b. unfold line_ts, line_v. values. rewrite !(cell _ _ _ H) by (cbn; lia). rewrite (cell0 _ _ _ H) by (cbn; lia). nums. blades; ring.
Qed.
(** vga::rotor *)
Definition rotor_ts (o : N) : list sterm :=
  [(0, [mks one one [mkind o one]]); (3, [mks minus_one (mkrat 2 1) [mkind (o + 1) one; mkind (o + 4) one]]);
   (5, [mks one (mkrat 2 1) [mkind (o + 1) one; mkind (o + 3) one]]); (6, [mks minus_one (mkrat 2 1) [mkind (o + 1) one; mkind (o + 2) one]])]%N.
Theorem vga_rotor_stands c s x y z : stands vga_m false vga_rotor_ie [c; s; x; y; z] (rotor_v c s x y z).
Proof.
  apply represents_stands. change (rotor_v c s x y z) with (input vga_m false (rotor_v c s x y z)). apply (represents_of _ _ _ _ _ rotor_ts).
  - intros o. split; [packs|]. split; [reflexivity|]. unfold rotor_ts. propers.
  - ranges.
  - intros o rho H b. unfold rotor_ts, rotor_v, axis_bivector, vadd, vscalar, vscale. values. rewrite !(cell _ _ _ H) by (cbn; lia). rewrite (cell0 _ _ _ H) by (cbn; lia). nums.
    rewrite (N.eqb_sym b 0). blades; ring.
Qed.
(** vga::point *)
Definition point_ts (o : N) : list sterm :=
  [(7, [mks minus_one one [mkind (o + 2) one]]); (11, [mks one one [mkind (o + 1) one]]); (13, [mks minus_one one [mkind o one]]); (14, [mks one zero []])]%N.
Theorem vga_point_stands x y z : stands pga_m false vga_point_ie [x; y; z] (point_v x y z).
Proof.
  exists (fun o => let p := vga_point_ie o in mkmv 3 4 4 (inds p) [mkmon minus_one one 1 0; mkmon one one 1 1; mkmon minus_one one 1 2; mkmon one zero 0 3] (terms p) mop_id).
  split; [intros o; constructor; cbn; try reflexivity; repeat (constructor; [unfold mon_sim; cbn; intuition lia|]); constructor|].
  change (point_v x y z) with (input pga_m false (point_v x y z)). apply (represents_of _ _ _ _ _ point_ts).
  - intros o. split; [packs|]. split; [reflexivity|]. unfold point_ts. propers.
  - ranges.
  - intros o rho H b. unfold point_ts, point_v. values. rewrite !(cell _ _ _ H) by (cbn; lia). rewrite (cell0 _ _ _ H) by (cbn; lia). nums. blades; ring.
Qed.
(** cga::point *)
Definition cpoint_ts (o : N) : list sterm :=
  [(1, [mks one one [mkind o one]]); (2, [mks one one [mkind (o + 1) one]]); (4, [mks one one [mkind (o + 2) one]]); (8, [mks one zero []]);
   (16, [mks one_half (mkrat 2 1) [mkind o (mkrat 2 1)]; mks one_half (mkrat 2 1) [mkind (o + 1) (mkrat 2 1)]; mks one_half (mkrat 2 1) [mkind (o + 2) (mkrat 2 1)]])]%N.
Theorem cga_point_stands x y z : stands cga_m true cga_point_ie [x; y; z] (input cga_m true (conformal_point x y z)).
Proof.
  exists (fun o => let p := cga_point_ie o in mkmv 6 7 5 (inds p)
    [mkmon one one 1 0; mkmon one one 1 1; mkmon one one 1 2; mkmon one zero 0 3;
     mkmon one_half (mkrat 2 1) 1 3; mkmon one_half (mkrat 2 1) 1 4; mkmon one_half (mkrat 2 1) 1 5] (terms p) mop_id).
  split; [intros o; constructor; cbn; try reflexivity; repeat (constructor; [unfold mon_sim; cbn; intuition lia|]); constructor|].
  apply (represents_of _ _ _ _ _ cpoint_ts).
  - intros o. split; [packs|]. split; [reflexivity|]. unfold cpoint_ts. propers.
  - ranges.
  - intros o rho H b. unfold cpoint_ts, conformal_point. values. rewrite !(cell _ _ _ H) by (cbn; lia). rewrite !(cell0 _ _ _ H) by (cbn; lia). nums. blades; field.
Qed.
