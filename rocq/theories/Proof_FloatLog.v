(** Rounding errors of the logarithm of motors. *)
From Coq Require Import ZArith NArith List Bool Arith Reals Lia Lra.
Require Import Flocq.Core.Core.
From Verif Require Import Base Model_Numeric Model_Blade Model_MV Model_Product Model_Expr Model_Dfa Model_Engine Model_Entity Model_Geometry Model_Compute Model_Float Model_FloatGeo Spec_MV Spec_Expr Spec_Engine Spec_Float.
From Verif Require Import Proof_Numeric Proof_Layout Proof_Val Proof_Ids Proof_Engine Proof_Float Proof_FloatGeo Props_Float Proof_FloatMotor.
Import ListNotations.
Local Open Scope R_scope.

(** ** The arc tangent does not increase relative errors *)
Lemma atan_scale e x : 0 < e <= 1 -> 0 <= x -> e * atan x <= atan (e * x) <= atan x.
Proof.
  intros E X. split.
  - destruct X as [X|<-]; [|rewrite Rmult_0_r, atan_0; lra].
    pose (f := fun t => atan (e * t) - e * atan t). pose (f' := fun t => / (1 + (e * t) * (e * t)) * e - e * / (1 + t * t)).
    assert (D : forall t, 0 <= t <= x -> derivable_pt_lim f t (f' t)).
    { intros t _. apply derivable_pt_lim_minus.
      - apply (derivable_pt_lim_comp (fun t => e * t) atan).
        + pose proof (derivable_pt_lim_scal Ranalysis1.id e t 1 (derivable_pt_lim_id t)) as L. rewrite Rmult_1_r in L. exact L.
        + replace (e * t * (e * t)) with (Rsqr (e * t)) by reflexivity. replace (/ (1 + Rsqr (e * t))) with (/ (1 + (e * t) ^ 2)) by (f_equal; unfold Rsqr; ring). apply derivable_pt_lim_atan.
      - apply derivable_pt_lim_scal. replace (t * t) with (t ^ 2) by ring. apply derivable_pt_lim_atan. }
    destruct (MVT_cor2 f f' 0 x X D) as (c & M & C). assert (F0 : f 0 = 0) by (unfold f; rewrite Rmult_0_r, atan_0; ring). rewrite F0 in M.
    assert (P : 0 <= f' c).
    { unfold f'. assert (A : 0 < 1 + e * c * (e * c)) by (pose proof (Rle_0_sqr (e * c)); unfold Rsqr in *; lra).
      assert (EE : e * e <= 1) by nra. assert (B : 1 + e * c * (e * c) <= 1 + c * c) by (pose proof (Rle_0_sqr c); unfold Rsqr in *; nra). apply Rinv_le in B; [|exact A]. nra. }
    assert (K : 0 <= f' c * (x - 0)) by (apply Rmult_le_pos; lra). unfold f in M. lra.
  - destruct X as [X|<-]; [|rewrite Rmult_0_r; lra]. destruct (Req_dec e 1) as [->|N1]; [rewrite Rmult_1_l; lra|]. left. apply atan_increasing. nra.
Qed.
Section Atan.
Variable u : R.
Hypotheses (u0 : 0 <= u) (u1 : u < 1).
Notation rel := (rel u).
Lemma rel_between n x' x e : 0 <= x -> (1 - u) ^ n <= e <= 1 -> e * x <= x' <= x -> rel n x' x /\ rel n x x'.
Proof.
  intros X E H. pose proof (pos u u1 n) as P. pose proof (pow_le1 u u0 u1 n) as Q. assert (I : 1 <= / (1 - u) ^ n) by (rewrite <- Rinv_1 at 1; apply Rinv_le; lra).
  destruct X as [X|<-].
  - assert (S : rel n x' x).
    { exists (x' / x). split; [|field; lra]. split.
      - apply Rmult_le_reg_r with x; [exact X|]. unfold Rdiv. rewrite (Rmult_assoc x'), Rinv_l, Rmult_1_r by lra. nra.
      - eapply Rle_trans; [|exact I]. apply Rmult_le_reg_r with x; [exact X|]. unfold Rdiv. rewrite (Rmult_assoc x'), Rinv_l, Rmult_1_r by lra. lra. }
    split; [exact S|]. destruct S as (k & K & ->). assert (KP : 0 < k) by lra. exists (/ k). split; [|field; lra]. split.
    + rewrite <- (Rinv_inv ((1 - u) ^ n)). apply Rinv_le; lra.
    + apply Rinv_le; lra.
  - assert (x' = 0) by lra. subst. split; now apply rel_refl.
Qed.
Lemma rel_flip n x' x : rel n x' x -> exists e, (1 - u) ^ n <= e <= 1 /\ (x' = e * x \/ x = e * x').
Proof.
  intros (k & [A B] & ->). pose proof (pos u u1 n) as P. destruct (Rle_dec k 1) as [L|L].
  - exists k. split; [lra|]. left. ring.
  - exists (/ k). split; [split|].
    + rewrite <- (Rinv_inv ((1 - u) ^ n)). apply Rinv_le; lra.
    + rewrite <- Rinv_1. apply Rinv_le; lra.
    + right. field. lra.
Qed.
Lemma rel_atan n x' x : rel n x' x -> 0 <= x -> rel n (atan x') (atan x).
Proof.
  intros H X. pose proof (pos u u1 n) as P. assert (X' : 0 <= x') by now apply (rel_square u u1 x n). assert (G : forall t, 0 <= t -> 0 <= atan t) by (intros t [T|<-]; [left; rewrite <- atan_0; now apply atan_increasing|rewrite atan_0; lra]).
  destruct (rel_flip n x' x H) as (e & E & [-> | ->]).
  - apply (rel_between n (atan (e * x)) (atan x) e); [now apply G|exact E|]. apply atan_scale; lra.
  - apply (rel_between n (atan (e * x')) (atan x') e); [now apply G|exact E|]. apply atan_scale; lra.
Qed.
Lemma rel_atan_pi n x' x : rel n x' x -> 0 <= x -> rel n (PI - atan x') (PI - atan x).
Proof.
  intros H X. pose proof (pos u u1 n) as P. assert (X' : 0 <= x') by now apply (rel_square u u1 x n). pose proof PI_RGT_0 as PP.
  assert (G : forall e t, (1 - u) ^ n <= e <= 1 -> 0 <= t -> e * (PI - atan (e * t)) <= PI - atan t <= PI - atan (e * t) /\ 0 <= PI - atan (e * t)).
  { intros e t E T. pose proof (atan_scale e t ltac:(lra) T) as [A B]. pose proof (atan_bound t) as [_ C]. assert (D : 0 <= atan t) by (destruct T as [T|<-]; [left; rewrite <- atan_0; now apply atan_increasing|rewrite atan_0; lra]). split; [|lra]. split; [|lra].
    assert (e * atan (e * t) >= e * (e * atan t)) by nra. nra. }
  destruct (rel_flip n x' x H) as (e & E & [-> | ->]).
  - destruct (G e x E X) as [A B]. apply (rel_between n (PI - atan x) (PI - atan (e * x)) e); assumption.
  - destruct (G e x' E X') as [A B]. apply (rel_between n (PI - atan x') (PI - atan (e * x')) e); assumption.
Qed.
Lemma rel_atan2 n y' y x : rel n y' y -> 0 < y -> rel n (atan2 y' x) (atan2 y x).
Proof.
  intros H Y. assert (Y' : 0 < y') by (destruct H as (e & [E _] & ->); pose proof (pos u u1 n); apply Rmult_lt_0_compat; lra).
  assert (S : forall z, 0 <= z -> rel n (y' * z) (y * z)) by (intros z _; destruct H as (e & E & ->); exists e; split; [exact E|ring]).
  unfold atan2. destruct (Rlt_dec 0 x) as [X|X].
  - assert (I : 0 < / x) by now apply Rinv_0_lt_compat. apply rel_atan; [apply S; lra|]. apply Rmult_le_pos; lra.
  - destruct (Rlt_dec x 0) as [X'|X'].
    + destruct (Rle_dec 0 y'); [|lra]. destruct (Rle_dec 0 y); [|lra]. assert (I : 0 < / - x) by (apply Rinv_0_lt_compat; lra).
      assert (N : forall z, atan (z / x) + PI = PI - atan (z * / - x)) by (intros z; replace (z / x) with (- (z * / - x)) by (field; lra); rewrite atan_opp; ring). rewrite !N.
      apply rel_atan_pi; [apply S; lra|]. apply Rmult_le_pos; lra.
    + destruct (Rlt_dec 0 y'); [|lra]. destruct (Rlt_dec 0 y); [|lra]. now apply rel_refl.
Qed.
End Atan.

(** ** The two programs *)
Definition lines : list N := [3; 5; 6; 9; 10; 12]%N.
Definition line_prog : res mv := p <- compiled_one Exact pga_m false [construct_ie lines] [[0;0;0;0;0;0]] (UAdd (USip (UIn 0) (UIn 0)) (UEp (UIn 0) (UIn 0)));; get (fst p) 0.
Definition log_prog : res mv := p <- compiled_one Exact pga_m false [scalar_ie; scalar_ie; construct_ie lines; construct_ie [0;15]%N] [[0]; [0]; [0;0;0;0;0;0]; [0;0]]
  (UGp (UGp (UAdd (UIn 0) (UGp (UIn 1) (UBlade 15 1))) (UIn 2)) (UIn 3));; get (fst p) 0.
Definition line_mv : mv := Eval vm_compute in match line_prog with Ok y => y | Err _ => mkmv 0 0 0 [] [] [] mop_id end.
Definition log_mv : mv := Eval vm_compute in match log_prog with Ok y => y | Err _ => mkmv 0 0 0 [] [] [] mop_id end.
Lemma line_packed : packed line_mv (terms_of line_mv). Proof. packs. Qed.
Lemma log_packed : packed log_mv (terms_of log_mv). Proof. packs. Qed.
Lemma line_keep : keep (terms_of line_mv).
Proof. unfold keep. split; [|split]; vm_compute; repeat constructor; discriminate. Qed.
Lemma log_keep : keep (terms_of log_mv).
Proof. unfold keep. split; [|split]; vm_compute; repeat constructor; discriminate. Qed.
Lemma line_run fl md a b c d e f : compute_oneF fl md pga_m false [construct_ie lines] [[a;b;c;d;e;f]] (UAdd (USip (UIn 0) (UIn 0)) (UEp (UIn 0) (UIn 0))) =
  r <- compute_entityF fl line_mv one [a;b;c;d;e;f];; Ok [r].
Proof. destruct md; vm_compute; reflexivity. Qed.
Lemma logF_run fl md s t a b c d e f i j : compute_oneF fl md pga_m false [scalar_ie; scalar_ie; construct_ie lines; construct_ie [0;15]%N] [[s]; [t]; [a;b;c;d;e;f]; [i;j]]
    (UGp (UGp (UAdd (UIn 0) (UGp (UIn 1) (UBlade 15 1))) (UIn 2)) (UIn 3)) =
  r <- compute_entityF fl log_mv one [s;t;a;b;c;d;e;f;i;j];; Ok [r].
Proof. destruct md; vm_compute; reflexivity. Qed.

Section Log.
Variable u : R.
Hypotheses (u0 : 0 <= u) (u1 : u < 1).
Variable fl : R -> res R.
Hypothesis FL : rounds u fl.
Notation rel := (rel u).
Notation sums := (sums u).
Variables d0 d1 d2 d3 d4 d5 d6 d7 : R.
Let l := [d1;d2;d3;d4;d5;d6].
Let n2 := d3 * d3 + d5 * d5 + d6 * d6.
Lemma line_row0 : map (mon_val (valuation l)) (vrow line_mv 0) = [- (d3 * d3); - (d5 * d5); - (d6 * d6)].
Proof. unfold l. vm_compute. change R1 with 1. repeat (apply f_equal2; [field|]). reflexivity. Qed.
Lemma line_row1 : map (mon_val (valuation l)) (vrow line_mv 1) = [2 * (d1 * d6); - (2 * (d2 * d5)); 2 * (d3 * d4)].
Proof. unfold l. vm_compute. change R1 with 1. repeat (apply f_equal2; [field|]). reflexivity. Qed.
Lemma line_rows v : compute_entityF fl line_mv one l = Ok v ->
  exists x y, v = [(0%N, x); (15%N, y)] /\ rel 5 (- x) n2 /\ sums 5 y [2 * (d1 * d6); - (2 * (d2 * d5)); 2 * (d3 * d4)].
Proof.
  intros H. apply (entity_sums u u0 u1 fl FL _ _ (terms_of line_mv)) in H; [|cbn; lia|reflexivity|exact line_packed|exact line_keep].
  change (terms_of line_mv) with [(0%N, vrow line_mv 0); (15%N, vrow line_mv 1)] in H.
  inversion H as [|p t q q' [A1 A2] H']; subst. inversion H' as [|p' t' m m' [B1 B2] H'']; subst. inversion H''; subst. destruct p as [pb x]. destruct p' as [qb y]. unfold fst, snd in A1, A2, B1, B2. subst pb qb.
  exists x, y. split; [reflexivity|]. rewrite line_row0 in A2. rewrite line_row1 in B2.
  split; [|exact B2]. destruct A2 as (ys & F & ->). change (sum_roundings (vrow line_mv 0)) with 5%nat in F.
  inversion F as [|y0 ? ? ? R0 F1]; subst. inversion F1 as [|y1 ? ? ? R1 F2]; subst. inversion F2 as [|y2 ? ? ? R2 F3]; subst. inversion F3; subst.
  unfold Rsum. cbn [fold_right]. replace (- (y0 + (y1 + (y2 + 0)))) with (- y0 + - y1 + - y2) by ring. apply rel_opp in R0, R1, R2. rewrite Ropp_involutive in R0, R1, R2.
  pose proof (Rle_0_sqr d3). pose proof (Rle_0_sqr d5). pose proof (Rle_0_sqr d6). unfold Rsqr in *.
  unfold n2. apply rel_add; [assumption..| |assumption|lra|assumption]. now apply rel_add.
Qed.
Lemma log_rows s t i j : map (fun k => map (mon_val (valuation ([s; t] ++ l ++ [i; j]))) (vrow log_mv k)) (seq 0 6) =
  [[s * d1 * i; - (s * d6 * j); - (t * d6 * i)]; [s * d2 * i; s * d5 * j; t * d5 * i]; [s * d3 * i]; [- (s * d3 * j); s * d4 * i; - (t * d3 * i)]; [s * d5 * i]; [s * d6 * i]].
Proof. unfold l. vm_compute. change R1 with 1. repeat (apply f_equal2; [repeat (apply f_equal2; [field|]); reflexivity|]). reflexivity. Qed.
Definition lrows (v : entity) (s t i j : R) : Prop := exists r1 r2 r3 r4 r5 r6,
  v = combine lines [r1; r2; r3; r4; r5; r6] /\
  sums 6 r1 [s * d1 * i; - (s * d6 * j); - (t * d6 * i)] /\ sums 6 r2 [s * d2 * i; s * d5 * j; t * d5 * i] /\ sums 2 r3 [s * d3 * i] /\
  sums 6 r4 [- (s * d3 * j); s * d4 * i; - (t * d3 * i)] /\ sums 2 r5 [s * d5 * i] /\ sums 2 r6 [s * d6 * i].
Lemma log_value v s t i j : compute_entityF fl log_mv one ([s; t] ++ l ++ [i; j]) = Ok v -> lrows v s t i j.
Proof.
  intros H. apply (entity_sums u u0 u1 fl FL _ _ (terms_of log_mv)) in H; [|cbn; lia|reflexivity|exact log_packed|exact log_keep].
  pose proof (f_equal (fun l => nth 0 l []) (log_rows s t i j) : map (mon_val (valuation ([s; t] ++ l ++ [i; j]))) (vrow log_mv 0) = [s * d1 * i; - (s * d6 * j); - (t * d6 * i)]) as S0.
  pose proof (f_equal (fun l => nth 1 l []) (log_rows s t i j) : map (mon_val (valuation ([s; t] ++ l ++ [i; j]))) (vrow log_mv 1) = [s * d2 * i; s * d5 * j; t * d5 * i]) as S1.
  pose proof (f_equal (fun l => nth 2 l []) (log_rows s t i j) : map (mon_val (valuation ([s; t] ++ l ++ [i; j]))) (vrow log_mv 2) = [s * d3 * i]) as S2.
  pose proof (f_equal (fun l => nth 3 l []) (log_rows s t i j) : map (mon_val (valuation ([s; t] ++ l ++ [i; j]))) (vrow log_mv 3) = [- (s * d3 * j); s * d4 * i; - (t * d3 * i)]) as S3.
  pose proof (f_equal (fun l => nth 4 l []) (log_rows s t i j) : map (mon_val (valuation ([s; t] ++ l ++ [i; j]))) (vrow log_mv 4) = [s * d5 * i]) as S4.
  pose proof (f_equal (fun l => nth 5 l []) (log_rows s t i j) : map (mon_val (valuation ([s; t] ++ l ++ [i; j]))) (vrow log_mv 5) = [s * d6 * i]) as S5.
  change (terms_of log_mv) with [(3%N, vrow log_mv 0); (5%N, vrow log_mv 1); (6%N, vrow log_mv 2); (9%N, vrow log_mv 3); (10%N, vrow log_mv 4); (12%N, vrow log_mv 5)] in H.
  do 6 (let p := fresh "p" in let A := fresh "A" in let B := fresh "B" in let H' := fresh "H" in
    inversion H as [|p ? ? ? [A B] H']; subst; clear H; rename H' into H; destruct p as [? ?]; unfold fst, snd in A, B; subst).
  inversion H; subst. rewrite S0 in B. rewrite S1 in B0. rewrite S2 in B1. rewrite S3 in B2. rewrite S4 in B3. rewrite S5 in B4.
  unfold lrows. do 6 eexists. split; [reflexivity|].
  repeat split; (assumption || (eapply sums_mono; [exact u0|exact u1| |eassumption]; vm_compute; lia)).
Qed.
Let s := sqrt n2.
Let a := atan2 s d0.
(** the exact p2, and its size without the signs *)
Let pe := - (d1 * d6 - d2 * d5 + d4 * d3) / s.
Let ps := (Rabs (d1 * d6) + Rabs (d2 * d5) + Rabs (d3 * d4)) / s.
Let parts := map (fun w => w * - / (2 * s)) [2 * (d1 * d6); - (2 * (d2 * d5)); 2 * (d3 * d4)].
Lemma three_sums n r p q w : sums n r [p; q; w] -> exists x y z, rel n x p /\ rel n y q /\ rel n z w /\ r = x + y + z.
Proof.
  intros (ys & F & ->). inversion F as [|x ? ? ? A F1]; subst. inversion F1 as [|y ? ? ? B F2]; subst. inversion F2 as [|z ? ? ? C F3]; subst. inversion F3; subst. exists x, y, z. repeat split; try assumption. unfold Rsum. cbn [fold_right]. ring.
Qed.
Section Parts.
Variables s' t i j : R.
Hypotheses (NP : 0 < n2) (D0 : d0 <> 0) (RS : rel 5 s' a) (RT : sums 12 t (map (fun w => w * / d0) parts)) (RI : rel 5 i (/ s)) (RJ : sums 17 j (map (fun w => w * - / n2) parts)).
(** a component of the moment; [w] is the component of the direction, with its sign *)
Lemma log_component x w r : INR 28 * u < 1 -> (exists y0 y1 y2, rel 6 y0 (s' * x * i) /\ rel 6 y1 (s' * w * j) /\ rel 6 y2 (t * w * i) /\ r = y0 + y1 + y2) ->
  Rabs (r - (a * (x * / s) + a * (w * - (pe / n2)) + pe / d0 * (w * / s))) <= gamma u 28 * (Rabs a * Rabs x / s + Rabs w * (Rabs a * ps / n2 + ps / (Rabs d0 * s))).
Proof.
  intros U (y0 & y1 & y2 & R0 & R1 & R2 & ->). assert (SP : 0 < s) by now apply sqrt_lt_R0.
  assert (Y0 : sums 28 y0 [a * x * / s]).
  { apply sums_one. apply (rel_mono u u0 u1 16); [lia|]. apply (rel_trans u u1 6 10 _ (s' * x * i)); [exact R0|]. apply (rel_mul u u1 5 5); [|exact RI]. apply (rel_mul u u1 5 0); [exact RS|now apply rel_refl]. }
  assert (Y1 : sums 28 y1 (map (fun v => v * (a * w)) (map (fun w => w * - / n2) parts))).
  { destruct R1 as (e & B & ->). replace (s' * w * j * e) with (j * (s' * w * e)) by ring. apply (sums_scale u u1 17 11); [exact RJ|]. apply (rel_trans u u1 6 5 _ (s' * w)); [exists e; split; [exact B|reflexivity]|]. apply (rel_mul u u1 5 0); [exact RS|now apply rel_refl]. }
  assert (Y2 : sums 28 y2 (map (fun v => v * (/ s * w)) (map (fun w => w * / d0) parts))).
  { apply (sums_mono u u0 u1 23); [lia|]. destruct R2 as (e & B & ->). replace (t * w * i * e) with (t * (i * w * e)) by ring. apply (sums_scale u u1 12 11); [exact RT|]. apply (rel_trans u u1 6 5 _ (i * w)); [exists e; split; [exact B|reflexivity]|]. apply (rel_mul u u1 5 0); [exact RI|now apply rel_refl]. }
  pose proof (sums_app u 28 _ _ _ _ (sums_app u 28 _ _ _ _ Y0 Y1) Y2) as S. apply (sums_abs u u0 u1) in S; [|exact U].
  assert (N2 : n2 <> 0) by lra. assert (S2 : s <> 0) by lra.
  assert (E1 : Rsum (([a * x * / s] ++ map (fun v => v * (a * w)) (map (fun w => w * - / n2) parts)) ++ map (fun v => v * (/ s * w)) (map (fun w => w * / d0) parts)) =
    a * (x * / s) + a * (w * - (pe / n2)) + pe / d0 * (w * / s)) by (unfold parts, pe, Rsum; cbn [map app fold_right]; field; auto).
  rewrite E1 in S. eapply Rle_trans; [exact S|]. right. f_equal. clear S E1 Y0 Y1 Y2.
  unfold parts, ps, Rsum. cbn [map app fold_right]. rewrite ?Rabs_mult, ?Rabs_Ropp, ?Rabs_mult. rewrite !Rabs_inv, ?Rabs_mult.
  assert (A0 : Rabs d0 <> 0) by now apply Rabs_no_R0. rewrite (Rabs_pos_eq 2), (Rabs_pos_eq s), (Rabs_pos_eq n2) by lra. field. auto.
Qed.
Lemma log_euclidean x r : rel 2 r (s' * x * i) -> rel 12 r (a * (x * / s)).
Proof.
  intros H. rewrite <- Rmult_assoc. apply (rel_trans u u1 2 10 _ (s' * x * i)); [exact H|]. apply (rel_mul u u1 5 5); [|exact RI]. apply (rel_mul u u1 5 0); [exact RS|now apply rel_refl].
Qed.
End Parts.
Definition near_log (e : entity) : Prop := exists r1 r2 r3 r4 r5 r6, e = combine lines [r1; r2; r3; r4; r5; r6] /\
  (rel 12 r3 (a * (d3 * / s)) /\ rel 12 r5 (a * (d5 * / s)) /\ rel 12 r6 (a * (d6 * / s))) /\
  Rabs (r1 - (a * (d1 * / s) + a * (- d6 * - (pe / n2)) + pe / d0 * (- d6 * / s))) <= gamma u 28 * (Rabs a * Rabs d1 / s + Rabs d6 * (Rabs a * ps / n2 + ps / (Rabs d0 * s))) /\
  Rabs (r2 - (a * (d2 * / s) + a * (d5 * - (pe / n2)) + pe / d0 * (d5 * / s))) <= gamma u 28 * (Rabs a * Rabs d2 / s + Rabs d5 * (Rabs a * ps / n2 + ps / (Rabs d0 * s))) /\
  Rabs (r4 - (a * (d4 * / s) + a * (- d3 * - (pe / n2)) + pe / d0 * (- d3 * / s))) <= gamma u 28 * (Rabs a * Rabs d4 / s + Rabs d3 * (Rabs a * ps / n2 + ps / (Rabs d0 * s))).
(** what has been computed before the last product, in either branch *)
Lemma log_steps md e : motor_logF fl md [d0; d1; d2; d3; d4; d5; d6; d7] = Ok e -> 0 < n2 /\ exists q p2 i0 i4 c s' v',
  rel 4 q s /\ sums 11 p2 parts /\ rel 5 i0 (/ s) /\ sums 17 i4 (map (fun w => w * - / n2) parts) /\ rel 1 c (1 / 1000000) /\
  (if Rlt_bool (Rabs d0) c then atan2F fl (- d7) p2 else atan2F fl q d0) = Ok s' /\ (if Rlt_bool (Rabs d0) c then fdiv fl (- d7) q else fdiv fl p2 d0) = Ok v' /\ lrows e s' v' i0 i4.
Proof.
  intros H. unfold motor_logF in H. cbn [get nth_error bind] in H. unfold pga_motor_bivector, slice in H. cbn [length Nat.add Nat.leb firstn skipn bind combine map fst snd] in H.
  change [3; 5; 6; 9; 10; 12]%N with lines in H. rewrite line_run in H. change [d1; d2; d3; d4; d5; d6] with l in H.
  destruct (compute_entityF fl line_mv one l) as [m2|] eqn:E2; [|discriminate H]. apply line_rows in E2. destruct E2 as (x & y & -> & RX & RY). cbn [single bind get nth_error] in H.
  change (select 4 [(0%N, x); (15%N, y)] 0) with (Ok x) in H. change (select 4 [(0%N, x); (15%N, y)] 15) with (Ok y) in H. cbn [bind] in H.
  minv H. rename v into q. minv H. rename v into t. minv H. rename v into p2. minv H. rename v into i0. minv H. rename v into i4. minv H. rename v into c. cbv zeta in H.
  assert (N0 : 0 <= n2) by (unfold n2; pose proof (Rle_0_sqr d3); pose proof (Rle_0_sqr d5); pose proof (Rle_0_sqr d6); unfold Rsqr in *; lra).
  assert (RQ : rel 4 q s).
  { unfold sqrtF in E. destruct (Rlt_bool (- x) 0); [discriminate E|]. apply (fl_rel u u1 fl FL) in E. apply (rel_trans u u1 1 3 _ (sqrt (- x))); [exact E|]. apply rel_sqrt; [exact u1| |exact N0]. apply (rel_mono u u0 u1 5); [lia|exact RX]. }
  assert (NP : 0 < n2).
  { destruct N0 as [P|EQ]; [exact P|exfalso]. unfold fdiv in E2. destruct (Req_bool_spec q 0) as [_|NQ]; [discriminate E2|]. apply NQ. destruct RQ as (k & _ & ->). unfold s. rewrite <- EQ, sqrt_0. ring. }
  split; [exact NP|]. assert (SP : 0 < s) by now apply sqrt_lt_R0.
  assert (RI : rel 5 i0 (/ s)).
  { replace (/ s) with (1 / s) by (field; lra). exact (fl_div u u1 fl FL 0 4 1 1 q s i0 (rel_refl u u0 u1 0 1) RQ E2). }
  assert (RT : rel 5 t (2 * s)) by exact (fl_mul u u1 fl FL 0 4 2 2 q s t (rel_refl u u0 u1 0 2) RQ E0).
  assert (RP : sums 11 p2 parts).
  { unfold fdiv in E1. destruct (Req_bool_spec t 0) as [_|NT]; [discriminate E1|]. refine (sums_round u u1 fl FL 10 (- y / t) p2 parts _ E1).
    replace (- y / t) with (y * - / t) by (field; exact NT). apply (sums_scale u u1 5 5); [exact RY|]. apply rel_opp. now apply (rel_inv u u1). }
  assert (RJ : sums 17 i4 (map (fun w => w * - / n2) parts)).
  { unfold fdiv in E3. destruct (Req_bool_spec x 0) as [_|NX]; [discriminate E3|]. refine (sums_round u u1 fl FL 16 (p2 / x) i4 _ _ E3).
    replace (p2 / x) with (p2 * - / - x) by (field; exact NX). apply (sums_scale u u1 11 5); [exact RP|]. apply rel_opp. now apply (rel_inv u u1). }
  minv H. rename v into s'. minv H. rename v into v'. unfold l in H. rewrite logF_run in H. change [s'; v'; d1; d2; d3; d4; d5; d6; i0; i4] with ([s'; v'] ++ l ++ [i0; i4])%list in H.
  destruct (compute_entityF fl log_mv one ([s'; v'] ++ l ++ [i0; i4])) as [v|] eqn:EL; [|discriminate H]. cbn [single bind get nth_error] in H. apply log_value in EL.
  injection H as <-. apply (fl_rel u u1 fl FL) in E4. exists q, p2, i0, i4, c, s', v'. exact (conj RQ (conj RP (conj RI (conj RJ (conj E4 (conj E5 (conj E6 EL))))))).
Qed.
Lemma log_rel md e : motor_logF fl md [d0; d1; d2; d3; d4; d5; d6; d7] = Ok e -> 0 < n2 /\ (INR 28 * u < 1 -> / 1000000 <= (1 - u) * Rabs d0 -> near_log e).
Proof.
  intros H. destruct (log_steps md e H) as (NP & q & p2 & i0 & i4 & c & s' & v' & RQ & RP & RI & RJ & E4 & E5 & E6 & EL). clear H. split; [exact NP|]. intros U D. assert (SP : 0 < s) by now apply sqrt_lt_R0.
  assert (DP : 0 < Rabs d0) by (pose proof (Rabs_pos d0); nra). assert (DN : d0 <> 0) by (intros EQ; rewrite EQ, Rabs_R0 in DP; lra).
  assert (CL : c <= Rabs d0).
  { destruct E4 as (k & [_ K] & ->). cbn [pow] in K. rewrite Rmult_1_r in K.
    apply Rle_trans with (1 / 1000000 * / (1 - u)); [apply Rmult_le_compat_l; lra|]. apply Rmult_le_reg_l with (1 - u); [lra|]. replace ((1 - u) * (1 / 1000000 * / (1 - u))) with (/ 1000000) by (field; lra). exact D. }
  rewrite Rlt_bool_false in E5, E6 by exact CL.
  assert (RS : rel 5 s' a).
  { unfold atan2F in E5. apply (fl_rel u u1 fl FL) in E5. apply (rel_trans u u1 1 4 _ (atan2 q d0)); [exact E5|]. now apply rel_atan2. }
  assert (RV : sums 12 v' (map (fun w => w * / d0) parts)).
  { unfold fdiv in E6. rewrite Req_bool_false in E6 by exact DN. refine (sums_round u u1 fl FL 11 (p2 / d0) v' _ _ E6).
    replace 11%nat with (11 + 0)%nat by lia. apply (sums_scale u u1 11 0); [exact RP|]. now apply rel_refl. }
  destruct EL as (r1 & r2 & r3 & r4 & r5 & r6 & -> & R1 & R2 & R3 & R4 & R5 & R6). exists r1, r2, r3, r4, r5, r6. split; [reflexivity|].
  apply one_sum in R3, R5, R6. apply three_sums in R1, R2, R4.
  assert (SG : forall k a b y, rel k y (- (a * b)) -> rel k y (a * - b)) by (intros k a' b' y' RR; replace (a' * - b') with (- (a' * b')) by ring; exact RR).
  assert (SG3 : forall k a b c y, rel k y (- (a * b * c)) -> rel k y (a * - b * c)) by (intros k a' b' c' y' RR; replace (a' * - b' * c') with (- (a' * b' * c')) by ring; exact RR).
  split; [repeat split; eapply log_euclidean; eassumption|]. split; [|split].
  - rewrite <- (Rabs_Ropp d6). eapply log_component; [eassumption..|]. destruct R1 as (y0 & y1 & y2 & Y0 & Y1 & Y2 & EQ). exists y0, y1, y2. auto.
  - eapply log_component; [eassumption..|]. exact R2.
  - rewrite <- (Rabs_Ropp d3). eapply log_component; [eassumption..|]. destruct R4 as (y0 & y1 & y2 & Y0 & Y1 & Y2 & EQ). exists y1, y0, y2. repeat split; auto. rewrite EQ. ring.
Qed.
(** near a half turn: the branch for small [d0], where the angle is that of [(p2, - d7)] *)
Lemma atan2_upper y x : 0 < y -> atan2 y x = PI / 2 - atan (x / y).
Proof.
  intros Y. unfold atan2. destruct (Rlt_dec 0 x) as [X|X]; [|destruct (Rlt_dec x 0) as [X'|X']].
  - replace (y / x) with (/ (x / y)) by (field; lra). rewrite atan_inv; [ring|]. apply Rmult_lt_0_compat; [exact X|now apply Rinv_0_lt_compat].
  - destruct (Rle_dec 0 y) as [_|]; [|lra]. replace (y / x) with (- / (- x / y)) by (field; lra). rewrite atan_opp, atan_inv by (apply Rmult_lt_0_compat; [lra|now apply Rinv_0_lt_compat]).
    replace (x / y) with (- (- x / y)) by (field; lra). rewrite atan_opp. field.
  - destruct (Rlt_dec 0 y) as [_|]; [|lra]. replace (x / y) with 0 by (replace x with 0 by lra; field; lra). rewrite atan_0. ring.
Qed.
Lemma atan2_lower y x : y < 0 -> atan2 y x = - atan2 (- y) x.
Proof.
  intros Y. unfold atan2. destruct (Rlt_dec 0 x) as [X|X]; [|destruct (Rlt_dec x 0) as [X'|X']].
  - replace (- y / x) with (- (y / x)) by (field; lra). rewrite atan_opp. ring.
  - destruct (Rle_dec 0 y) as [|_]; [lra|]. destruct (Rle_dec 0 (- y)) as [_|]; [|lra]. replace (- y / x) with (- (y / x)) by (field; lra). rewrite atan_opp. ring.
  - destruct (Rlt_dec 0 y) as [|_]; [lra|]. destruct (Rlt_dec y 0) as [_|]; [|lra]. destruct (Rlt_dec 0 (- y)) as [_|]; [reflexivity|lra].
Qed.
Lemma atan_near x y : Rabs (atan x - atan y) <= Rabs (x - y).
Proof.
  assert (G : forall a b, a < b -> 0 <= atan b - atan a <= b - a).
  { intros a' b L. destruct (MVT_cor2 atan (fun z => / (1 + z ^ 2)) a' b L) as (c & E & _); [intros z _; apply (derivable_pt_lim_atan z)|]. rewrite E.
    assert (P : 0 < 1 + c ^ 2) by nra. assert (I : / (1 + c ^ 2) <= 1) by (rewrite <- Rinv_1 at 2; apply Rinv_le_contravar; nra). apply Rinv_0_lt_compat in P. split; [apply Rmult_le_pos; lra|]. rewrite <- (Rmult_1_l (b - a')) at 2. apply Rmult_le_compat_r; lra. }
  destruct (Rtotal_order x y) as [L|[->|L]].
  - specialize (G x y L). rewrite Rabs_minus_sym, (Rabs_minus_sym x). rewrite !Rabs_pos_eq by lra. lra.
  - unfold Rminus. rewrite !Rplus_opp_r. lra.
  - specialize (G y x L). rewrite !Rabs_pos_eq by lra. lra.
Qed.
Lemma atan2_near y x' x : y <> 0 -> Rabs (atan2 y x' - atan2 y x) <= Rabs (x' - x) / Rabs y.
Proof.
  assert (G : forall y, 0 < y -> Rabs (atan2 y x' - atan2 y x) <= Rabs (x' - x) / Rabs y).
  { intros z Z0. rewrite !atan2_upper by exact Z0. replace (PI / 2 - atan (x' / z) - (PI / 2 - atan (x / z))) with (atan (x / z) - atan (x' / z)) by ring. eapply Rle_trans; [apply atan_near|]. right.
    replace (x / z - x' / z) with (- ((x' - x) / z)) by (field; lra). rewrite Rabs_Ropp. unfold Rdiv. rewrite Rabs_mult, Rabs_inv. reflexivity. }
  intros Y. destruct (Rlt_dec 0 y) as [P|P]; [now apply G|]. rewrite !(atan2_lower y) by lra. rewrite <- (Rabs_Ropp y). eapply Rle_trans; [|apply G; lra]. right. rewrite <- Rabs_Ropp. f_equal. ring.
Qed.
Lemma atan2_le y x : Rabs (atan2 y x) <= PI.
Proof.
  pose proof PI_RGT_0. assert (G : forall y, 0 < y -> Rabs (atan2 y x) <= PI) by (intros z Z0; rewrite atan2_upper by exact Z0; pose proof (atan_bound (x / z)); apply Rabs_le; lra).
  destruct (Rtotal_order y 0) as [L|[->|L]]; [rewrite (atan2_lower y), Rabs_Ropp by exact L; apply G; lra| |now apply G].
  unfold atan2. unfold Rdiv. rewrite !Rmult_0_l, atan_0. destruct (Rlt_dec 0 x), (Rlt_dec x 0), (Rle_dec 0 0), (Rlt_dec 0 0); apply Rabs_le; lra.
Qed.
(** a component of the moment in this branch; [a'] is the angle of the rounded [p2] *)
Definition half_moment (a' x w r : R) : Prop := Rabs (r - (a' * (x * / s) + a' * (w * - (pe / n2)) + - d7 / s * (w * / s))) <= gamma u 28 * (Rabs a' * Rabs x / s + Rabs w * (Rabs a' * ps / n2 + Rabs d7 / n2)).
Lemma half_component a' s' t i j x w r : 0 < n2 -> INR 28 * u < 1 -> rel 1 s' a' -> rel 5 t (- d7 / s) -> rel 5 i (/ s) -> sums 17 j (map (fun w => w * - / n2) parts) ->
  (exists y0 y1 y2, rel 6 y0 (s' * x * i) /\ rel 6 y1 (s' * w * j) /\ rel 6 y2 (t * w * i) /\ r = y0 + y1 + y2) -> half_moment a' x w r.
Proof.
  intros NP U RS RT RI RJ (y0 & y1 & y2 & R0 & R1 & R2 & ->). assert (SP : 0 < s) by now apply sqrt_lt_R0. assert (SS : s * s = n2) by (apply sqrt_sqrt; lra).
  assert (Y0 : sums 28 y0 [a' * x * / s]).
  { apply sums_one. apply (rel_mono u u0 u1 12); [lia|]. apply (rel_trans u u1 6 6 _ (s' * x * i)); [exact R0|]. apply (rel_mul u u1 1 5); [|exact RI]. apply (rel_mul u u1 1 0); [exact RS|now apply rel_refl]. }
  assert (Y1 : sums 28 y1 (map (fun v => v * (a' * w)) (map (fun w => w * - / n2) parts))).
  { apply (sums_mono u u0 u1 24); [lia|]. destruct R1 as (e & B & ->). replace (s' * w * j * e) with (j * (s' * w * e)) by ring. apply (sums_scale u u1 17 7); [exact RJ|]. apply (rel_trans u u1 6 1 _ (s' * w)); [exists e; split; [exact B|reflexivity]|]. apply (rel_mul u u1 1 0); [exact RS|now apply rel_refl]. }
  assert (Y2 : sums 28 y2 [- d7 / s * w * / s]).
  { apply sums_one. apply (rel_mono u u0 u1 16); [lia|]. apply (rel_trans u u1 6 10 _ (t * w * i)); [exact R2|]. apply (rel_mul u u1 5 5); [|exact RI]. apply (rel_mul u u1 5 0); [exact RT|now apply rel_refl]. }
  pose proof (sums_app u 28 _ _ _ _ (sums_app u 28 _ _ _ _ Y0 Y1) Y2) as S. apply (sums_abs u u0 u1) in S; [|exact U]. clear Y0 Y1 Y2.
  assert (N2 : n2 <> 0) by lra. assert (S2 : s <> 0) by lra. unfold half_moment.
  assert (E1 : Rsum (([a' * x * / s] ++ map (fun v => v * (a' * w)) (map (fun w => w * - / n2) parts)) ++ [- d7 / s * w * / s]) =
    a' * (x * / s) + a' * (w * - (pe / n2)) + - d7 / s * (w * / s)) by (unfold parts, pe, Rsum; cbn [map app fold_right]; field; auto).
  rewrite E1 in S. eapply Rle_trans; [exact S|]. right. f_equal. clear S E1.
  unfold parts, ps, Rsum. cbn [map app fold_right]. unfold Rdiv. rewrite ?Rabs_mult, ?Rabs_Ropp, ?Rabs_mult. rewrite !Rabs_inv, ?Rabs_mult.
  rewrite (Rabs_pos_eq 2), (Rabs_pos_eq s), (Rabs_pos_eq n2) by lra. rewrite <- SS. field. auto.
Qed.
Lemma log_half md e : motor_logF fl md [d0; d1; d2; d3; d4; d5; d6; d7] = Ok e -> Rabs d0 < (1 - u) * / 1000000 -> 0 < n2 /\ exists r1 r2 r3 r4 r5 r6 p2, e = combine lines [r1; r2; r3; r4; r5; r6] /\
  sums 11 p2 parts /\ rel 8 r3 (atan2 (- d7) p2 * (d3 * / s)) /\ rel 8 r5 (atan2 (- d7) p2 * (d5 * / s)) /\ rel 8 r6 (atan2 (- d7) p2 * (d6 * / s)) /\
  (INR 28 * u < 1 -> half_moment (atan2 (- d7) p2) d1 (- d6) r1 /\ half_moment (atan2 (- d7) p2) d2 d5 r2 /\ half_moment (atan2 (- d7) p2) d4 (- d3) r4).
Proof.
  intros H D. destruct (log_steps md e H) as (NP & q & p2 & i0 & i4 & c & s' & v' & RQ & RP & RI & RJ & E4 & E5 & E6 & EL). clear H. split; [exact NP|].
  assert (CL : Rabs d0 < c) by (destruct E4 as (k & [K _] & ->); cbn [pow] in K; lra).
  rewrite Rlt_bool_true in E5, E6 by exact CL. unfold atan2F in E5. apply (fl_rel u u1 fl FL) in E5.
  assert (RV : rel 5 v' (- d7 / s)) by exact (fl_div u u1 fl FL 0 4 (- d7) (- d7) q s v' (rel_refl u u0 u1 0 (- d7)) RQ E6).
  destruct EL as (r1 & r2 & r3 & r4 & r5 & r6 & -> & R1 & R2 & R3 & R4 & R5 & R6). apply one_sum in R3, R5, R6. apply three_sums in R1, R2, R4. exists r1, r2, r3, r4, r5, r6, p2. split; [reflexivity|]. split; [exact RP|].
  assert (G : forall r x, rel 2 r (s' * x * i0) -> rel 8 r (atan2 (- d7) p2 * (x * / s))).
  { intros r x R0. rewrite <- Rmult_assoc. apply (rel_trans u u1 2 6 _ (s' * x * i0)); [exact R0|]. apply (rel_mul u u1 1 5); [|exact RI]. apply (rel_mul u u1 1 0); [exact E5|now apply rel_refl]. }
  split; [now apply G|]. split; [now apply G|]. split; [now apply G|]. intros U.
  assert (SG3 : forall k a b c y, rel k y (- (a * b * c)) -> rel k y (a * - b * c)) by (intros k a' b' c' y' RR; replace (a' * - b' * c') with (- (a' * b' * c')) by ring; exact RR).
  split; [|split]; apply (half_component _ s' v' i0 i4); try assumption.
  - destruct R1 as (y0 & y1 & y2 & Y0 & Y1 & Y2 & EQ). exists y0, y1, y2. auto.
  - destruct R4 as (y0 & y1 & y2 & Y0 & Y1 & Y2 & EQ). exists y1, y0, y2. repeat split; auto. rewrite EQ. ring.
Qed.
(** the same with the angle of the exact [p2] *)
Lemma half_near p2 x w r : 0 < n2 -> INR 28 * u < 1 -> d7 <> 0 -> sums 11 p2 parts -> half_moment (atan2 (- d7) p2) x w r -> let a0 := atan2 (- d7) pe in
  Rabs (r - (a0 * (x * / s) + a0 * (w * - (pe / n2)) + - d7 / s * (w * / s))) <= (gamma u 28 * PI + gamma u 11 * ps / Rabs d7) * (Rabs x / s + Rabs w * ps / n2) + gamma u 28 * Rabs w * Rabs d7 / n2.
Proof.
  intros NP U D7 S H a0. assert (SP : 0 < s) by now apply sqrt_lt_R0. assert (PP : Rabs (p2 - pe) <= gamma u 11 * ps).
  { apply (sums_abs u u0 u1) in S; [|cbn in U |- *; lra].
    assert (E1 : Rsum parts = pe) by (unfold parts, pe, Rsum; cbn [map fold_right]; field; lra). rewrite E1 in S. eapply Rle_trans; [exact S|]. right. f_equal.
    unfold parts, ps, Rsum. cbn [map fold_right]. rewrite ?Rabs_mult, ?Rabs_Ropp, ?Rabs_mult. rewrite !Rabs_inv, ?Rabs_mult. rewrite (Rabs_pos_eq 2), (Rabs_pos_eq s) by lra. field. lra. }
  unfold half_moment in H. assert (D7' : - d7 <> 0) by lra. pose proof (atan2_near (- d7) p2 pe D7') as NR. rewrite Rabs_Ropp in NR. pose proof (atan2_le (- d7) p2) as PL. fold a0 in NR. set (a' := atan2 (- d7) p2) in *.
  assert (DP : 0 < / Rabs d7) by (apply Rinv_0_lt_compat; now apply Rabs_pos_lt). assert (NR' : Rabs (a' - a0) <= gamma u 11 * ps / Rabs d7) by (eapply Rle_trans; [exact NR|]; apply Rmult_le_compat_r; [lra|exact PP]).
  assert (P0 : 0 <= ps) by (unfold ps; apply Rmult_le_pos; [pose proof (Rabs_pos (d1 * d6)); pose proof (Rabs_pos (d2 * d5)); pose proof (Rabs_pos (d3 * d4)); lra|left; now apply Rinv_0_lt_compat]).
  assert (PE : Rabs pe <= ps).
  { unfold pe, ps, Rdiv. rewrite Rabs_mult, Rabs_Ropp, Rabs_inv, (Rabs_pos_eq s) by lra. apply Rmult_le_compat_r; [left; now apply Rinv_0_lt_compat|]. rewrite (Rmult_comm d4). eapply Rle_trans; [apply Rabs_triang|]. apply Rplus_le_compat_r. unfold Rminus. eapply Rle_trans; [apply Rabs_triang|]. rewrite Rabs_Ropp. lra. }
  set (y := x * / s + w * - (pe / n2)). set (Y := Rabs x / s + Rabs w * ps / n2). assert (I2 : 0 < / n2) by now apply Rinv_0_lt_compat.
  assert (YL : Rabs y <= Y).
  { unfold y, Y. eapply Rle_trans; [apply Rabs_triang|]. rewrite !Rabs_mult, Rabs_Ropp, Rabs_inv, (Rabs_pos_eq s) by lra. apply Rplus_le_compat_l. unfold Rdiv. rewrite Rabs_mult, (Rabs_pos_eq (/ n2)), (Rmult_assoc _ ps) by lra. apply Rmult_le_compat_l; [apply Rabs_pos|]. apply Rmult_le_compat_r; lra. }
  assert (Y0 : 0 <= Y) by (pose proof (Rabs_pos y); lra).
  assert (G28 : 0 <= gamma u 28) by (unfold gamma; apply Rmult_le_pos; [apply Rmult_le_pos; [apply pos_INR|exact u0]|left; apply Rinv_0_lt_compat; lra]).
  replace (r - (a0 * (x * / s) + a0 * (w * - (pe / n2)) + - d7 / s * (w * / s))) with (r - (a' * (x * / s) + a' * (w * - (pe / n2)) + - d7 / s * (w * / s)) + (a' - a0) * y) by (unfold y; ring).
  eapply Rle_trans; [apply Rabs_triang|]. rewrite (Rabs_mult (a' - a0)).
  apply Rle_trans with (gamma u 28 * (PI * Y + Rabs w * Rabs d7 / n2) + gamma u 11 * ps / Rabs d7 * Y); [|right; unfold Rdiv; ring].
  apply Rplus_le_compat; [|apply Rmult_le_compat; try apply Rabs_pos; assumption]. eapply Rle_trans; [exact H|]. apply Rmult_le_compat_l; [exact G28|].
  apply Rle_trans with (Rabs a' * Y + Rabs w * Rabs d7 / n2); [right; unfold Y, Rdiv; ring|]. apply Rplus_le_compat_r. now apply Rmult_le_compat_r.
Qed.
Lemma parts_near p2 : 0 < n2 -> INR 11 * u < 1 -> sums 11 p2 parts -> Rabs (p2 - pe) <= gamma u 11 * ps.
Proof.
  intros NP U S. assert (SP : 0 < s) by now apply sqrt_lt_R0. apply (sums_abs u u0 u1) in S; [|exact U].
  assert (E1 : Rsum parts = pe) by (unfold parts, pe, Rsum; cbn [map fold_right]; field; lra). rewrite E1 in S. eapply Rle_trans; [exact S|]. right. f_equal.
  unfold parts, ps, Rsum. cbn [map fold_right]. rewrite ?Rabs_mult, ?Rabs_Ropp, ?Rabs_mult. rewrite !Rabs_inv, ?Rabs_mult. rewrite (Rabs_pos_eq 2), (Rabs_pos_eq s) by lra. field. lra.
Qed.
End Log.
