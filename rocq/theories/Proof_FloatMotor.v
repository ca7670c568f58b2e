(** Rounding errors of the normalization of motors. *)
From Coq Require Import ZArith NArith List Bool Arith Reals Lia Lra.
Require Import Flocq.Core.Core.
From Verif Require Import Base Model_Numeric Model_Blade Model_MV Model_Product Model_Expr Model_Dfa Model_Engine Model_Entity Model_Geometry Model_Compute Model_Float Model_FloatGeo Spec_MV Spec_Expr Spec_Engine Spec_Float.
From Verif Require Import Proof_Numeric Proof_Layout Proof_Val Proof_Ids Proof_Engine Proof_Float Proof_FloatGeo Props_Float.
Import ListNotations.
Local Open Scope R_scope.

Section Sums.
Variable u : R.
Hypotheses (u0 : 0 <= u) (u1 : u < 1).
Variable fl : R -> res R.
Hypothesis FL : rounds u fl.
Notation rel := (rel u).
(** [x'] is a sum of [ws], each with at most [n] roundings *)
Definition sums (n : nat) (x' : R) (ws : list R) : Prop := exists ys, Forall2 (rel n) ys ws /\ x' = Rsum ys.
Lemma sums_scale n m x' ws e e' : sums n x' ws -> rel m e' e -> sums (n + m) (x' * e') (map (fun w => w * e) ws).
Proof.
  intros (ys & F & ->) E. exists (map (fun y => y * e') ys). split.
  - induction F as [|y w ys ws A F IH]; cbn [map]; constructor; [|exact IH]. now apply rel_mul.
  - clear. unfold Rsum. induction ys as [|a l IH]; cbn [map fold_right]; [ring|]. rewrite <- IH. ring.
Qed.
Lemma sums_round n x' y ws : sums n x' ws -> fl x' = Ok y -> sums (n + 1) y ws.
Proof.
  intros S H. apply (fl_rel u u1 fl FL) in H. destruct H as (e & B & ->). replace ws with (map (fun w => w * 1) ws).
  - apply sums_scale; [exact S|]. exists e. split; [exact B|ring].
  - clear. induction ws as [|a l IH]; cbn [map]; [reflexivity|]. now rewrite IH, Rmult_1_r.
Qed.
Lemma sums_mono n m x' ws : (n <= m)%nat -> sums n x' ws -> sums m x' ws.
Proof. intros L (ys & F & ->). exists ys. split; [|reflexivity]. induction F as [|y w ys ws A F IH]; constructor; [now apply (rel_mono u u0 u1 n)|exact IH]. Qed.
Lemma sums_one n x' x : rel n x' x -> sums n x' [x].
Proof. intros H. exists [x']. split; [constructor; [exact H|constructor]|]. unfold Rsum. cbn [fold_right]. ring. Qed.
Lemma sums_app n x' xs y' ys : sums n x' xs -> sums n y' ys -> sums n (x' + y') (xs ++ ys).
Proof.
  intros (a & F & ->) (b & G & ->). exists (a ++ b)%list. split; [now apply Forall2_app|]. clear. unfold Rsum. induction a as [|z l IH]; cbn [fold_right app]; [ring|]. rewrite <- IH. ring.
Qed.
Lemma sums_abs n x' ws : INR n * u < 1 -> sums n x' ws -> Rabs (x' - Rsum ws) <= gamma u n * Rsum (map Rabs ws).
Proof.
  intros L (ys & F & ->). apply (sum_abs u) in F; [|assumption..]. eapply Rle_trans; [exact F|]. apply Rmult_le_compat_r; [|now apply gamma_bound].
  clear. unfold Rsum. induction ws as [|a l IH]; cbn [map fold_right]; [lra|]. pose proof (Rabs_pos a). lra.
Qed.
Lemma entity_sums x data tx e : (length data <= N.to_nat ind_constant_start)%nat -> mop x = mop_id -> packed x tx -> keep tx -> compute_entityF fl x one data = Ok e ->
  Forall2 (fun p (t : sterm) => fst p = fst t /\ sums (sum_roundings (snd t)) (snd p) (map (mon_val (valuation data)) (snd t))) e tx.
Proof.
  intros L O P K H. unfold compute_entityF in H. rewrite (packed_slice _ _ P) in H. cbn [bind] in H.
  assert (G : forall ts pre e, tx = (pre ++ ts)%list ->
    mapM (fun t => v <- cterm_valueF fl x data t;; w <- scale_byF fl one v;; Ok (elem t, w)) (lay_terms (length (all_mons pre)) ts) = Ok e ->
    Forall2 (fun p (t : sterm) => fst p = fst t /\ sums (sum_roundings (snd t)) (snd p) (map (mon_val (valuation data)) (snd t))) e ts).
  { clear H e. induction ts as [|t ts IH]; intros pre e Et H; cbn [lay_terms mapM] in H.
    - injection H as <-. constructor.
    - minv H. rename v into a. minv H. rename v into r. injection H as <-. minv E. minv E. injection E as <-. constructor.
      + cbn [fst snd elem]. split; [reflexivity|]. change (Ok v = Ok v0) in E2. injection E2 as <-. exact (cterm_rel u u0 u1 fl FL x data tx pre t ts v L O P K Et E1).
      + apply (IH (pre ++ [t])%list r); [now rewrite <- app_assoc|]. rewrite all_mons_app, app_length.
        replace (length (all_mons [t])) with (length (snd t)); [assumption|]. unfold all_mons. cbn [flat_map]. now rewrite app_nil_r. }
  exact (G tx [] e eq_refl H).
Qed.
End Sums.

(** the two programs of motor::normalize *)
Definition square_prog : res mv := p <- compiled_one Exact pga_m false [motor_ie] [[0;0;0;0;0;0;0;0]] (UGp (UIn 0) (URev (UIn 0)));; get (fst p) 0.
Definition scale_prog : res mv := p <- compiled_one Exact pga_m false [motor_ie; construct_ie [0;15]%N] [[0;0;0;0;0;0;0;0]; [0;0]] (UGp (UIn 0) (UIn 1));; get (fst p) 0.
Definition square_mv : mv := Eval vm_compute in match square_prog with Ok y => y | Err _ => mkmv 0 0 0 [] [] [] mop_id end.
Definition scale_mv : mv := Eval vm_compute in match scale_prog with Ok y => y | Err _ => mkmv 0 0 0 [] [] [] mop_id end.
Lemma square_packed : packed square_mv (terms_of square_mv). Proof. packs. Qed.
Lemma scale_packed : packed scale_mv (terms_of scale_mv). Proof. packs. Qed.
Lemma square_keep : keep (terms_of square_mv).
Proof. unfold keep. split; [|split]; vm_compute; repeat constructor; discriminate. Qed.
Lemma scale_keep : keep (terms_of scale_mv).
Proof. unfold keep. split; [|split]; vm_compute; repeat constructor; discriminate. Qed.
Lemma square_run fl md a b c d e f g h : compute_oneF fl md pga_m false [motor_ie] [[a;b;c;d;e;f;g;h]] (UGp (UIn 0) (URev (UIn 0))) =
  r <- compute_entityF fl square_mv one [a;b;c;d;e;f;g;h];; Ok [r].
Proof. destruct md; vm_compute; reflexivity. Qed.
Lemma scale_run fl md a b c d e f g h s t : compute_oneF fl md pga_m false [motor_ie; construct_ie [0;15]%N] [[a;b;c;d;e;f;g;h]; [s;t]] (UGp (UIn 0) (UIn 1)) =
  r <- compute_entityF fl scale_mv one [a;b;c;d;e;f;g;h;s;t];; Ok [r].
Proof. destruct md; vm_compute; reflexivity. Qed.
Definition vrow (x : mv) (k : nat) : list smon := snd (nth k (terms_of x) (0%N, [])).

Section Motor.
Variable u : R.
Hypotheses (u0 : 0 <= u) (u1 : u < 1).
Variable fl : R -> res R.
Hypothesis FL : rounds u fl.
Notation rel := (rel u).
Notation sums := (sums u).
Variables d0 d1 d2 d3 d4 d5 d6 d7 : R.
Let d := [d0;d1;d2;d3;d4;d5;d6;d7].
Let n2 := d0 * d0 + d3 * d3 + d5 * d5 + d6 * d6.
Lemma square_row0 : map (mon_val (valuation d)) (vrow square_mv 0) = [d0 * d0; d3 * d3; d5 * d5; d6 * d6].
Proof. unfold d. vm_compute. change R1 with 1. repeat (apply f_equal2; [field|]). reflexivity. Qed.
Lemma square_row1 : map (mon_val (valuation d)) (vrow square_mv 1) = [2 * (d0 * d7); - (2 * (d1 * d6)); 2 * (d2 * d5); - (2 * (d3 * d4))].
Proof. unfold d. vm_compute. change R1 with 1. repeat (apply f_equal2; [field|]). reflexivity. Qed.
Lemma square_rows v : compute_entityF fl square_mv one d = Ok v ->
  exists x y, v = [(0%N, x); (15%N, y)] /\ rel 4 x n2 /\ sums 6 y [2 * (d0 * d7); - (2 * (d1 * d6)); 2 * (d2 * d5); - (2 * (d3 * d4))].
Proof.
  intros H. apply (entity_sums u u0 u1 fl FL _ _ (terms_of square_mv)) in H; [|cbn; lia|reflexivity|exact square_packed|exact square_keep].
  change (terms_of square_mv) with [(0%N, vrow square_mv 0); (15%N, vrow square_mv 1)] in H.
  inversion H as [|p t l l' [A1 A2] H']; subst. inversion H' as [|p' t' m m' [B1 B2] H'']; subst. inversion H''; subst. destruct p as [pb x]. destruct p' as [qb y]. unfold fst, snd in A1, A2, B1, B2. subst pb qb.
  exists x, y. split; [reflexivity|]. rewrite square_row0 in A2. rewrite square_row1 in B2.
  split; [|exact B2]. destruct A2 as (ys & F & ->). change (sum_roundings (vrow square_mv 0)) with 4%nat in F.
  inversion F as [|y0 ? ? ? R0 F1]; subst. inversion F1 as [|y1 ? ? ? R1 F2]; subst. inversion F2 as [|y2 ? ? ? R2 F3]; subst. inversion F3 as [|y3 ? ? ? R3 F4]; subst. inversion F4; subst.
  unfold Rsum. cbn [fold_right]. replace (y0 + (y1 + (y2 + (y3 + 0)))) with (y0 + y1 + y2 + y3) by ring.
  pose proof (Rle_0_sqr d0). pose proof (Rle_0_sqr d3). pose proof (Rle_0_sqr d5). pose proof (Rle_0_sqr d6). unfold Rsqr in *.
  unfold n2. apply rel_add; [assumption..| |assumption|lra|assumption]. apply rel_add; [assumption..| |assumption|lra|assumption]. now apply rel_add.
Qed.
Lemma scale_rows a b : map (fun k => map (mon_val (valuation (d ++ [a; b]))) (vrow scale_mv k)) (seq 0 8) =
  [[d0 * a]; [d1 * a; - (d6 * b)]; [d2 * a; d5 * b]; [d3 * a]; [- (d3 * b); d4 * a]; [d5 * a]; [d6 * a]; [d0 * b; d7 * a]].
Proof. unfold d. vm_compute. change R1 with 1. repeat (apply f_equal2; [repeat (apply f_equal2; [field|]); reflexivity|]). reflexivity. Qed.
Definition rows (v : entity) (a b : R) : Prop := exists r0 r1 r2 r3 r4 r5 r6 r7,
  v = combine [0; 3; 5; 6; 9; 10; 12; 15]%N [r0; r1; r2; r3; r4; r5; r6; r7] /\
  sums 1 r0 [d0 * a] /\ sums 4 r1 [d1 * a; - (d6 * b)] /\ sums 4 r2 [d2 * a; d5 * b] /\ sums 1 r3 [d3 * a] /\
  sums 4 r4 [- (d3 * b); d4 * a] /\ sums 1 r5 [d5 * a] /\ sums 1 r6 [d6 * a] /\ sums 4 r7 [d0 * b; d7 * a].
Lemma scale_value v a b : compute_entityF fl scale_mv one (d ++ [a; b]) = Ok v -> rows v a b.
Proof.
  intros H. apply (entity_sums u u0 u1 fl FL _ _ (terms_of scale_mv)) in H; [|cbn; lia|reflexivity|exact scale_packed|exact scale_keep].
  pose proof (f_equal (fun l => nth 0 l []) (scale_rows a b) : map (mon_val (valuation (d ++ [a; b]))) (vrow scale_mv 0) = [d0 * a]) as S0.
  pose proof (f_equal (fun l => nth 1 l []) (scale_rows a b) : map (mon_val (valuation (d ++ [a; b]))) (vrow scale_mv 1) = [d1 * a; - (d6 * b)]) as S1.
  pose proof (f_equal (fun l => nth 2 l []) (scale_rows a b) : map (mon_val (valuation (d ++ [a; b]))) (vrow scale_mv 2) = [d2 * a; d5 * b]) as S2.
  pose proof (f_equal (fun l => nth 3 l []) (scale_rows a b) : map (mon_val (valuation (d ++ [a; b]))) (vrow scale_mv 3) = [d3 * a]) as S3.
  pose proof (f_equal (fun l => nth 4 l []) (scale_rows a b) : map (mon_val (valuation (d ++ [a; b]))) (vrow scale_mv 4) = [- (d3 * b); d4 * a]) as S4.
  pose proof (f_equal (fun l => nth 5 l []) (scale_rows a b) : map (mon_val (valuation (d ++ [a; b]))) (vrow scale_mv 5) = [d5 * a]) as S5.
  pose proof (f_equal (fun l => nth 6 l []) (scale_rows a b) : map (mon_val (valuation (d ++ [a; b]))) (vrow scale_mv 6) = [d6 * a]) as S6.
  pose proof (f_equal (fun l => nth 7 l []) (scale_rows a b) : map (mon_val (valuation (d ++ [a; b]))) (vrow scale_mv 7) = [d0 * b; d7 * a]) as S7.
  change (terms_of scale_mv) with [(0%N, vrow scale_mv 0); (3%N, vrow scale_mv 1); (5%N, vrow scale_mv 2); (6%N, vrow scale_mv 3); (9%N, vrow scale_mv 4); (10%N, vrow scale_mv 5); (12%N, vrow scale_mv 6); (15%N, vrow scale_mv 7)] in H.
  do 8 (let p := fresh "p" in let A := fresh "A" in let B := fresh "B" in let H' := fresh "H" in
    inversion H as [|p ? ? ? [A B] H']; subst; clear H; rename H' into H; destruct p as [? ?]; unfold fst, snd in A, B; subst).
  inversion H; subst. rewrite S0 in B. rewrite S1 in B0. rewrite S2 in B1. rewrite S3 in B2. rewrite S4 in B3. rewrite S5 in B4. rewrite S6 in B5. rewrite S7 in B6.
  unfold rows. do 8 eexists. split; [reflexivity|].
  repeat split; (assumption || (eapply sums_mono; [exact u0|exact u1| |eassumption]; vm_compute; lia)).
Qed.
Let s := sqrt n2.
(** the exact b of the factor a + b I, and its size without the signs *)
Let be := - (2 * (d0 * d7 - d1 * d6 + d2 * d5 - d3 * d4) / (2 * s * n2)).
Let bs := (Rabs (d0 * d7) + Rabs (d1 * d6) + Rabs (d2 * d5) + Rabs (d3 * d4)) / (s * n2).
Let parts := map (fun w => w * - / (2 * s * n2)) [2 * (d0 * d7); - (2 * (d1 * d6)); 2 * (d2 * d5); - (2 * (d3 * d4))].
Lemma rel_opp n a' a : rel n a' a -> rel n (- a') (- a).
Proof. intros (e & B & ->). exists e. split; [exact B|ring]. Qed.
Lemma two_sums n r p q : sums n r [p; q] -> exists y z, rel n y p /\ rel n z q /\ r = y + z.
Proof.
  intros (ys & F & ->). inversion F as [|y ? ? ? A F1]; subst. inversion F1 as [|z ? ? ? B F2]; subst. inversion F2; subst. exists y, z. repeat split; try assumption. unfold Rsum. cbn [fold_right]. ring.
Qed.
Lemma one_sum n r p : sums n r [p] -> rel n r p.
Proof. intros (ys & F & ->). inversion F as [|y ? ? ? A F1]; subst. inversion F1; subst. unfold Rsum. cbn [fold_right]. now rewrite Rplus_0_r. Qed.
Section Factor.
Variables a b : R.
Hypotheses (NP : 0 < n2) (RA : rel 4 a (/ s)) (RB : sums 16 b parts).
Lemma s_pos : 0 < s. Proof. now apply sqrt_lt_R0. Qed.
(** a component with rounding errors of the factor *)
Lemma component x w r : INR 20 * u < 1 -> (exists y z, rel 4 y (x * a) /\ rel 4 z (w * b) /\ r = y + z) ->
  Rabs (r - (x * / s + w * be)) <= gamma u 20 * (Rabs x * / s + Rabs w * bs).
Proof.
  intros U (y & z & RY & RZ & ->). pose proof s_pos as SP.
  assert (Y : sums 20 y [x * / s]).
  { apply sums_one. apply (rel_mono u u0 u1 8); [lia|]. apply (rel_trans u u1 4 4 _ (x * a)); [exact RY|]. apply (rel_mul u u1 0 4); [now apply rel_refl|exact RA]. }
  assert (Z0 : sums 20 z (map (fun v => v * w) parts)).
  { destruct RZ as (e & B & ->). replace (w * b * e) with (b * (w * e)) by ring. apply (sums_scale u u1 16 4); [exact RB|]. exists e. split; [exact B|ring]. }
  pose proof (sums_app u 20 _ _ _ _ Y Z0) as S. apply (sums_abs u u0 u1) in S; [|exact U].
  assert (N2 : n2 <> 0) by lra. assert (S2 : s <> 0) by lra.
  replace (Rsum ([x * / s] ++ map (fun v => v * w) parts)) with (x * / s + w * be) in S by (unfold parts, be, Rsum; cbn [map app fold_right]; field; split; assumption).
  replace (Rsum (map Rabs ([x * / s] ++ map (fun v => v * w) parts))) with (Rabs x * / s + Rabs w * bs) in S; [exact S|].
  unfold parts, bs, Rsum. cbn [map app fold_right]. rewrite ?Rabs_mult, ?Rabs_Ropp, ?Rabs_mult. rewrite !Rabs_inv, ?Rabs_mult.
  rewrite (Rabs_pos_eq 2), (Rabs_pos_eq s), (Rabs_pos_eq n2) by lra. field. split; assumption.
Qed.
Lemma euclidean x r : rel 1 r (x * a) -> rel 5 r (x * / s).
Proof. intros H. apply (rel_trans u u1 1 4 _ (x * a)); [exact H|]. apply (rel_mul u u1 0 4); [now apply rel_refl|exact RA]. Qed.
End Factor.

Definition near_motor (r : list R) : Prop := exists r0 r1 r2 r3 r4 r5 r6 r7, r = [r0; r1; r2; r3; r4; r5; r6; r7] /\
  (rel 5 r0 (d0 * / s) /\ rel 5 r3 (d3 * / s) /\ rel 5 r5 (d5 * / s) /\ rel 5 r6 (d6 * / s)) /\
  Rabs (r1 - (d1 * / s + - d6 * be)) <= gamma u 20 * (Rabs d1 * / s + Rabs d6 * bs) /\
  Rabs (r2 - (d2 * / s + d5 * be)) <= gamma u 20 * (Rabs d2 * / s + Rabs d5 * bs) /\
  Rabs (r4 - (d4 * / s + - d3 * be)) <= gamma u 20 * (Rabs d4 * / s + Rabs d3 * bs) /\
  Rabs (r7 - (d7 * / s + d0 * be)) <= gamma u 20 * (Rabs d7 * / s + Rabs d0 * bs).
Lemma motor_rel md r : INR 20 * u < 1 -> motor_normalizeF fl md d = Ok r -> 0 < n2 /\ near_motor r.
Proof.
  intros U H. unfold motor_normalizeF in H. unfold d in H at 1. rewrite square_run in H. fold d in H.
  destruct (compute_entityF fl square_mv one d) as [m2|] eqn:E2; [|discriminate]. apply square_rows in E2. destruct E2 as (x & y & -> & RX & RY).
  cbn [single bind get nth_error map snd fst] in H. minv H. rename v into q. minv H. rename v into a. minv H. rename v into t. minv H. rename v into t'. minv H. rename v into b.
  cbn [set length upd Nat.ltb Nat.leb bind] in H. unfold d in H. rewrite scale_run in H. change [d0; d1; d2; d3; d4; d5; d6; d7; a; b] with (d ++ [a; b])%list in H.
  destruct (compute_entityF fl scale_mv one (d ++ [a; b])) as [v|] eqn:E4; [|discriminate]. cbn [single bind get nth_error] in H. apply scale_value in E4.
  assert (N0 : 0 <= n2) by (unfold n2; pose proof (Rle_0_sqr d0); pose proof (Rle_0_sqr d3); pose proof (Rle_0_sqr d5); pose proof (Rle_0_sqr d6); unfold Rsqr in *; lra).
  assert (RQ : rel 3 q s).
  { unfold sqrtF in E. destruct (Rlt_bool x 0); [discriminate|]. apply (fl_rel u u1 fl FL) in E. apply (rel_trans u u1 1 2 _ (sqrt x)); [exact E|]. apply rel_sqrt; [exact u1|exact RX|exact N0]. }
  assert (NP : 0 < n2).
  { destruct N0 as [P|EQ]; [exact P|exfalso]. unfold fdiv in E0. destruct (Req_bool_spec q 0) as [_|NQ]; [discriminate|]. apply NQ. destruct RQ as (e & _ & ->). unfold s. rewrite <- EQ, sqrt_0. ring. }
  split; [exact NP|]. assert (SP : 0 < s) by now apply sqrt_lt_R0.
  assert (RA : rel 4 a (/ s)).
  { replace (/ s) with (1 / s) by (field; lra). exact (fl_div u u1 fl FL 0 3 1 1 q s a (rel_refl u u0 u1 0 1) RQ E0). }
  assert (RT : rel 4 t (2 * s)) by exact (fl_mul u u1 fl FL 0 3 2 2 q s t (rel_refl u u0 u1 0 2) RQ E1).
  assert (RT' : rel 9 t' (2 * s * n2)) by exact (fl_mul u u1 fl FL 4 4 t (2 * s) x n2 t' RT RX E2).
  assert (RB : sums 16 b parts).
  { unfold fdiv in E3. destruct (Req_bool_spec t' 0) as [_|NT]; [discriminate|]. refine (sums_round u u1 fl FL 15 (- y / t') b parts _ E3).
    replace (- y / t') with (y * - / t') by (field; exact NT). apply (sums_scale u u1 6 9); [exact RY|]. apply rel_opp. now apply (rel_inv u u1). }
  destruct E4 as (r0 & r1 & r2 & r3 & r4 & r5 & r6 & r7 & -> & R0 & R1 & R2 & R3 & R4 & R5 & R6 & R7).
  change (Ok [r0; r1; r2; r3; r4; r5; r6; r7] = Ok r) in H. injection H as <-. exists r0, r1, r2, r3, r4, r5, r6, r7. split; [reflexivity|].
  apply one_sum in R0, R3, R5, R6. apply two_sums in R1, R2, R4, R7.
  split; [repeat split; apply (euclidean a); assumption|].
  split; [|split; [|split]].
  - rewrite <- (Rabs_Ropp d6). apply (component a b NP RA RB); [exact U|]. destruct R1 as (y1 & z1 & Y & Z0 & EQ). exists y1, z1. split; [exact Y|]. split; [|exact EQ]. replace (- d6 * b) with (- (d6 * b)) by ring. exact Z0.
  - apply (component a b NP RA RB); [exact U|]. exact R2.
  - rewrite <- (Rabs_Ropp d3). apply (component a b NP RA RB); [exact U|]. destruct R4 as (y1 & z1 & Y & Z0 & EQ). exists z1, y1. split; [exact Z0|]. split; [|rewrite EQ; ring]. replace (- d3 * b) with (- (d3 * b)) by ring. exact Y.
  - apply (component a b NP RA RB); [exact U|]. destruct R7 as (y1 & z1 & Y & Z0 & EQ). exists z1, y1. split; [exact Z0|]. split; [exact Y|]. rewrite EQ. ring.
Qed.
End Motor.
