(** C68: evaluation in floating point. *)
From Coq Require Import ZArith NArith List Bool Arith Reals Lia Lra.
Require Import Flocq.Core.Core.
From Verif Require Import Base Model_Numeric Model_Blade Model_MV Model_Product Model_Expr Model_Dfa Model_Reshape Model_Engine Model_Entity Model_Compute Model_Float
  Spec_Numeric Spec_Clifford Spec_Basis Spec_MV Spec_Expr Spec_Build Spec_Dfa Spec_Engine Spec_Entity Spec_Geometry Spec_Reshape Spec_Compute.
From Verif Require Import Proof_Expr6 Proof_Reshape4 Proof_Reshape6 Proof_Applicable Proof_Shared Proof_Progress Proof_Safe Proof_Numeric Proof_Val Proof_Ids Proof_Engine Proof_Engine2 Proof_Sim Proof_Engine3 Proof_Compute Proof_Float Proof_Float2 Proof_Float3 Proof_Float4 Proof_Float5.
From Verif Require Import Props_Expr Props_Entity Props_Engine.
From Verif Require Import Spec_MV Spec_Engine Spec_Float.
Import ListNotations.
Local Open Scope nat_scope.

(** float and double *)
Definition ieee_single : R -> res R := ieee 24 (-149) 128.
Definition ieee_double : R -> res R := ieee 53 (-1074) 1024.
(** the terms of a multivector, for the examples *)
Definition terms_of (x : mv) : list sterm :=
  map (fun t => (elem t, map (fun c => mks (mq c) (mdeg c) (firstn (mcount c) (skipn (ioff c) (inds x)))) (firstn (tcount t) (skipn (moff t) (mons x))))) (firstn (tsz x) (terms x)).
Ltac packs := constructor; try reflexivity; [exists [] | exists [] | exists []]; vm_compute; reflexivity.

(** ** Rounding *)
Theorem C68_ieee_rounds prec emin emax : (0 < prec)%Z -> rounds (roundoff prec) (ieee prec emin emax).
Proof. exact (ieee_rounds prec emin emax). Qed.
Print Assumptions C68_ieee_rounds.
Theorem C68_ieee_integers prec emin emax : (0 < prec)%Z -> (emin + prec <= 1)%Z -> (prec < emax)%Z -> keeps_integers (bpow radix2 prec) (ieee prec emin emax).
Proof. exact (ieee_integers prec emin emax). Qed.
Print Assumptions C68_ieee_integers.
Lemma under_one p : (0 < p)%Z -> (0 <= roundoff p < 1)%R.
Proof. intros P. split; [apply bpow_ge_0|]. change 1%R with (bpow radix2 0). apply bpow_lt. lia. Qed.
Example C68_ieee_ex : ieee_double (IZR 9007199254740991) = Ok (IZR 9007199254740991) /\ forall y, ieee_double (1 / 3) = Ok y -> y <> 0%R.
Proof.
  split; [apply ieee_integers; try lia; rewrite <- abs_IZR; change (bpow radix2 53) with (IZR 9007199254740992); apply IZR_le; vm_compute; discriminate|].
  intros y H. destruct (ieee_rounds 53 (-1074) 1024 eq_refl _ _ H) as (d & D & ->). pose proof (under_one 53 eq_refl) as U.
  apply Rabs_le_inv in D. intros Z0. apply Rmult_integral in Z0. lra.
Qed.

(** ** One component *)
(** every term of a multivector, evaluated on any data and multiplied with the outermost factor *)
Theorem C68_component_error u fl n x q data tx e : (0 <= u < 1)%R -> rounds u fl -> length data <= N.to_nat ind_constant_start -> mop x = mop_id ->
  packed x tx -> proper n tx -> num q <> 0%Z -> (0 < den q)%Z ->
  Forall (fun t : sterm => few_roundings u q (snd t)) tx -> compute_entityF fl x q data = Ok e -> entity_computed u (valuation data) q e tx.
Proof. intros [U0 U1] FL L O P PR Q0 Q1 F H. exact (entity_rel u U0 U1 fl FL x q data tx e L O P (proper_keep n tx PR) Q0 Q1 F H). Qed.
Print Assumptions C68_component_error.
(** the errors of the coefficients *)
Theorem C68_blade_error u rho q e tx b : entity_computed u rho q e tx -> (Rabs (entity_val e b - rv q * val rho tx b) <= error_at u rho q tx b)%R.
Proof. intros H. exact (entity_error u rho q e tx H b). Qed.
Print Assumptions C68_blade_error.

(** ** Programs and lambdas *)
(** any program over the algebraic operators, on any inputs: what is evaluated is known at compile
    time, has the right value, and is evaluated with the errors that its monomials allow *)
Theorem C68_program u fl m nb ies inputs env l q outs t s : (0 <= u < 1)%R -> rounds u fl -> (nb = true -> 2 <= dim m) -> inputs_are m nb ies inputs env -> bound inputs l ->
  num q <> 0%Z -> (0 < den q)%Z -> forallb (algebraic_node (dim m)) l = true -> list_sum (map (@length R) inputs) <= N.to_nat ind_constant_start ->
  run m env l ([], []) (t, s) -> s <> [] -> computeF fl Exact m nb ies inputs l q = Ok outs ->
  exists ys txs, compiled Exact m nb ies (list_sum (map (@length R) inputs)) l = Ok (ys, []) /\ Forall2 shows ys txs /\ Forall (proper (dim m)) txs /\
    Forall2 (fun tx v => forall b, val (valuation (concat inputs)) tx b = output m nb v b) txs (rev s) /\
    Forall2 (fun e tx => Forall (fun t : sterm => few_roundings u q (snd t)) tx -> entity_computed u (valuation (concat inputs)) q e tx) outs txs.
Proof. intros [U0 U1] FL. exact (engine_rounded u U0 U1 fl FL m nb ies inputs env l q outs t s). Qed.
Print Assumptions C68_program.
(** with temporaries: every cell is computed for its term from the cells before it, and the results
    from all cells. Full statement: also how the errors of the cells grow in the results. Missing here:
    a bound on that growth; C68_shared has it *)
Theorem C68_temporaries_partial u fl m nb ies inputs env l q outs : (0 <= u < 1)%R -> rounds u fl -> (nb = true -> 2 <= dim m) -> inputs_are m nb ies inputs env -> bound inputs l ->
  num q <> 0%Z -> (0 < den q)%Z -> applicable m nb ies (list_sum (map (@length R) inputs)) l -> stores_on_top l ->
  neutral_temps m nb ies (list_sum (map (@length R) inputs)) l -> computeF fl Exact m nb ies inputs l q = Ok outs ->
  exists ys ts data, compiled Exact m nb ies (list_sum (map (@length R) inputs)) l = Ok (ys, ts) /\
    (forall j, j < list_sum (map (@length R) inputs) -> nth j data 0%R = nth j (concat inputs) 0%R) /\
    Forall (temp_computed u (valuation data)) ts /\
    (ys = [] /\ outs = [[]] \/ Forall2 (fun e y => exists tx, shows y tx /\ proper (dim m) tx /\ (mop y = mop_id -> Forall (fun t : sterm => few_roundings u q (snd t)) tx -> entity_computed u (valuation data) q e tx)) outs ys).
Proof. intros [U0 U1] FL. exact (temps_rounded u U0 U1 fl FL m nb ies inputs env l q outs). Qed.
Print Assumptions C68_temporaries_partial.
(** from the lambda to the entity. Full statement: without [faithful], [distinct] and [nonempty].
    Missing: false without the first two, see the refutations of C25-C28 and C30 *)
Theorem C68_compute_partial u fl m nb ies inputs env ue outs v : (0 <= u < 1)%R -> rounds u fl -> (nb = true -> 2 <= dim m) -> inputs_are m nb ies inputs env -> length env = length inputs ->
  list_sum (map (@length R) inputs) <= N.to_nat ind_constant_start -> faithful m env (lambda_inputs inputs) ue -> algebraic (dim m) ue = true ->
  on1 (fun e => short e /\ distinct (rnodes e) /\ nonempty e) (build Exact (lambda_inputs inputs) ue) -> means m env ue v ->
  compute_oneF fl Exact m nb ies inputs ue = Ok outs ->
  exists e y q tx, outs = [e] /\ compiled_one Exact m nb ies inputs ue = Ok ([y], q) /\ shows y tx /\
    (Forall (fun t : sterm => few_roundings u q (snd t)) tx ->
      forall b, (Rabs (entity_val e b - output m nb v b) <= error_at u (valuation (concat inputs)) q tx b)%R).
Proof.
  intros [U0 U1] FL Hn IA LE LC FA AL ON ME H. destruct (compute_rounded u U0 U1 fl FL m nb ies inputs env ue outs v Hn IA LE LC FA AL ON ME H) as (e & y & q & tx & A & B & C & _ & D & E).
  exists e, y, q, tx. split; [exact A|]. split; [exact B|]. split; [exact C|]. intros F b. rewrite <- D. exact (entity_error _ _ _ _ _ (E F) b).
Qed.
Print Assumptions C68_compute_partial.
(** without rounding it is the evaluation over the real numbers, for every program *)
Theorem C68_unrounded_agrees fl md m nb ies inputs l q outs : rounds 0 fl -> computeF fl md m nb ies inputs l q = Ok outs -> compute md m nb ies inputs l q = Ok outs.
Proof. intros FL. exact (compute_unrounded fl FL md m nb ies inputs l q outs). Qed.
Print Assumptions C68_unrounded_agrees.
Theorem C68_code_agrees fl m nb ies inputs u outs : compute_oneF fl Exact m nb ies inputs u = Ok outs -> compute_oneF fl Code m nb ies inputs u = Ok outs.
Proof. exact (imp_compute_oneF fl m nb ies inputs u outs). Qed.
Print Assumptions C68_code_agrees.
(** integers are computed exactly while the sums of monomials are within the precision *)
Theorem C68_integers prec emin emax md m nb ies inputs l q ys txs : (0 < prec)%Z -> (emin + prec <= 1)%Z -> (prec < emax)%Z -> Forall (Forall is_integer) inputs ->
  den q = 1%Z -> num q <> 0%Z -> compiled md m nb ies (list_sum (map (@length R) inputs)) l = Ok (ys, []) -> Forall2 shows ys txs -> Forall (fun y => mop y = mop_id) ys ->
  Forall (integer_terms (bpow radix2 prec) (concat inputs) q) txs ->
  exists outs, computeF (ieee prec emin emax) md m nb ies inputs l q = Ok outs /\ compute md m nb ies inputs l q = Ok outs.
Proof. intros P1 P2 P3. exact (compute_integers (bpow radix2 prec) (ieee prec emin emax) md m nb ies inputs l q ys txs (ieee_integers prec emin emax P1 P2 P3)). Qed.
Print Assumptions C68_integers.

(** ** Simplification before rounding *)
(** terms that cancel are not evaluated: (x + y) - x is y without any rounding *)
Theorem C68_cancellation fl md x1 x2 x3 y1 y2 y3 :
  compute_oneF fl md vga_m false [construct_ie [1; 2; 4]%N; construct_ie [1; 2; 4]%N] [[x1; x2; x3]; [y1; y2; y3]] (USub (UAdd (UIn 0) (UIn 1)) (UIn 0)) = Ok [[(1%N, y1); (2%N, y2); (4%N, y3)]].
Proof. destruct md; vm_compute; reflexivity. Qed.
Print Assumptions C68_cancellation.
(** x ^ x has no components *)
Theorem C68_wedge_itself fl md x1 x2 x3 : compute_oneF fl md vga_m false [construct_ie [1; 2; 4]%N] [[x1; x2; x3]] (UEp (UIn 0) (UIn 0)) = Ok [[]].
Proof. destruct md; vm_compute; reflexivity. Qed.
Print Assumptions C68_wedge_itself.
(** the functions of a scalar: one rounding of the value; tan and sqrt only where they are defined *)
Theorem C68_functions fl md a t :
  (fl (sin a) = Ok t -> compute_oneF fl md vga_m false [scalar_ie] [[a]] (UFn op_sin (UIn 0)) = Ok [[(0%N, t)]]) /\
  (fl (cos a) = Ok t -> compute_oneF fl md vga_m false [scalar_ie] [[a]] (UFn op_cos (UIn 0)) = Ok [[(0%N, t)]]) /\
  (cos a <> 0%R -> fl (tan a) = Ok t -> compute_oneF fl md vga_m false [scalar_ie] [[a]] (UFn op_tan (UIn 0)) = Ok [[(0%N, t)]]) /\
  (cos a = 0%R -> compute_oneF fl md vga_m false [scalar_ie] [[a]] (UFn op_tan (UIn 0)) = Err Overflow) /\
  ((0 <= a)%R -> fl (sqrt a) = Ok t -> compute_oneF fl md vga_m false [scalar_ie] [[a]] (UFn op_sqrt (UIn 0)) = Ok [[(0%N, t)]]) /\
  ((a < 0)%R -> compute_oneF fl md vga_m false [scalar_ie] [[a]] (UFn op_sqrt (UIn 0)) = Err Overflow).
Proof.
  split; [|split; [|split; [|split; [|split]]]].
  - intros H. destruct md; cbv -[sin cos tan sqrt Req_bool Rlt_bool Rle IZR]; now rewrite H.
  - intros H. destruct md; cbv -[sin cos tan sqrt Req_bool Rlt_bool Rle IZR]; now rewrite H.
  - intros C H. apply (Req_bool_false _ _) in C. destruct md; cbv -[sin cos tan sqrt Req_bool Rlt_bool Rle IZR]; rewrite C, H; reflexivity.
  - intros C. apply (Req_bool_true _ _) in C. destruct md; cbv -[sin cos tan sqrt Req_bool Rlt_bool Rle IZR]; rewrite C; reflexivity.
  - intros P H. apply (Rlt_bool_false _ _) in P. destruct md; cbv -[sin cos tan sqrt Req_bool Rlt_bool Rle IZR]; rewrite P, H; reflexivity.
  - intros P. apply (Rlt_bool_true _ _) in P. destruct md; cbv -[sin cos tan sqrt Req_bool Rlt_bool Rle IZR]; rewrite P; reflexivity.
Qed.
Print Assumptions C68_functions.
Example C68_cancellation_ex : exists y, compute_oneF ieee_double Code vga_m false [construct_ie [1; 2; 4]%N; construct_ie [1; 2; 4]%N] [[2 ^ 60; 1; 1]; [1; 1 / 3; 1]]%R (USub (UAdd (UIn 0) (UIn 1)) (UIn 0)) = Ok [y] /\ nth 0 (map snd y) 0%R = 1%R.
Proof. eexists. rewrite C68_cancellation. split; reflexivity. Qed.

(** ** No relative error *)
(** what doubles from 2^54 to 2^55 are rounded to *)
Lemma double_near x n : (bpow radix2 54 <= Rabs x < bpow radix2 55)%R -> (Rabs (x * bpow radix2 (-2) - IZR n) < / 2)%R -> (Rabs (IZR n * 4) < bpow radix2 1024)%R -> ieee_double x = Ok (IZR n * 4)%R.
Proof.
  intros B N L. unfold ieee_double, ieee. assert (X0 : x <> 0%R). { intros ->. rewrite Rabs_R0 in B. pose proof (bpow_gt_0 radix2 54). lra. }
  rewrite (Req_bool_false x 0 X0). rewrite Rle_bool_true by (eapply Rle_trans; [|apply B]; apply bpow_le; lia).
  replace (round radix2 (FLT_exp (-1074) 53) ZnearestE x) with (IZR n * 4)%R; [now rewrite Rlt_bool_true|].
  unfold round, scaled_mantissa, cexp. rewrite (mag_unique radix2 x 55 B). change (FLT_exp (-1074) 53 55) with 2%Z. change (- (2))%Z with (-2)%Z.
  rewrite (Znearest_imp _ _ n N). unfold F2R. cbn [Fnum Fexp]. reflexivity.
Qed.
Lemma square_minus fl a b s n d : fl (- (1))%R = Ok (- (1))%R -> fl (- (1) * b)%R = Ok n -> fl (a * a)%R = Ok s -> fl (n + s)%R = Ok d ->
  compute_oneF fl Code vga_m false [construct_ie [0]%N; construct_ie [0]%N] [[a]; [b]] (USub (UGp (UIn 0) (UIn 0)) (UIn 1)) = Ok [[(0%N, d)]].
Proof. intros EM EN ES E0. vm_compute. change R1 with 1%R. now rewrite EM, EN, ES, E0. Qed.
(** Full claim: every component has a small relative error. False, as for any evaluation of sums:
    x x - y in doubles is 0 instead of 1 *)
Theorem C68_relative_error_refuted : exists a b e e', ieee_double a = Ok a /\ ieee_double b = Ok b /\
  compute_oneF ieee_double Code vga_m false [construct_ie [0]%N; construct_ie [0]%N] [[a]; [b]] (USub (UGp (UIn 0) (UIn 0)) (UIn 1)) = Ok [e] /\
  compute_one Code vga_m false [construct_ie [0]%N; construct_ie [0]%N] [[a]; [b]] (USub (UGp (UIn 0) (UIn 0)) (UIn 1)) = Ok [e'] /\
  entity_val e 0 = 0%R /\ entity_val e' 0 = 1%R.
Proof.
  assert (I : forall z, (Z.abs z <= 9007199254740992)%Z -> ieee_double (IZR z) = Ok (IZR z)).
  { intros z H. apply ieee_integers; try lia. rewrite <- abs_IZR. change (bpow radix2 53) with (IZR 9007199254740992). now apply IZR_le. }
  assert (B54 : bpow radix2 54 = IZR 18014398509481984) by reflexivity. assert (B55 : bpow radix2 55 = IZR 36028797018963968) by reflexivity.
  assert (B2 : bpow radix2 (-2) = (/ 4)%R) by reflexivity.
  assert (BIG : (IZR 36028797018963968 < bpow radix2 1024)%R) by (rewrite <- B55; apply bpow_lt; lia).
  set (a := IZR 134217729). set (b := IZR 18014398777917440).
  assert (EA : ieee_double a = Ok a) by (apply I; lia).
  assert (EB : ieee_double b = Ok b). { unfold b. rewrite (double_near _ 4503599694479360); [f_equal; lra|..]; rewrite ?B54, ?B55, ?B2; rewrite Rabs_pos_eq; lra. }
  assert (EN : ieee_double (- (1) * b) = Ok (- b)%R). { unfold b. rewrite (double_near _ (-4503599694479360)); [f_equal; lra|..]; rewrite ?B54, ?B55, ?B2.
    - replace (- (1) * IZR 18014398777917440)%R with (- IZR 18014398777917440)%R by lra. rewrite Rabs_Ropp, Rabs_pos_eq; lra.
    - replace (_ - _)%R with 0%R by lra. rewrite Rabs_R0. lra.
    - replace (-4503599694479360 * 4)%R with (- IZR 18014398777917440)%R by lra. rewrite Rabs_Ropp, Rabs_pos_eq; lra. }
  assert (EM : ieee_double (- (1)) = Ok (- (1))%R) by (replace (- (1))%R with (IZR (-1)) by reflexivity; apply I; lia).
  assert (ES : ieee_double (a * a) = Ok b). { unfold a, b. rewrite <- mult_IZR. rewrite (double_near _ 4503599694479360); [f_equal; lra|..]; rewrite ?B54, ?B55, ?B2; cbn [Z.mul Pos.mul Pos.add Pos.succ]; try (rewrite Rabs_pos_eq; lra). }
  assert (E0 : ieee_double (- b + b) = Ok 0%R) by (replace (- b + b)%R with (IZR 0) by lra; apply I; lia).
  exists a, b. do 2 eexists. split; [exact EA|]. split; [exact EB|]. split; [|split].
  - exact (square_minus ieee_double a b _ _ _ EM EN ES E0).
  - clearbody a b. vm_compute. reflexivity.
  - unfold entity_val, Rsum. cbn. split; [ring|]. change R1 with 1%R. unfold a, b. lra.
Qed.
Print Assumptions C68_relative_error_refuted.

(** ** A rotation *)
Definition rotor_ies : list (N -> mv) := [construct_ie [1; 2; 4]%N; construct_ie [0; 3; 5; 6]%N].
Definition rotated : res mv := p <- compiled_one Exact vga_m false rotor_ies [[0; 0; 0]; [0; 0; 0; 0]]%R (USandwich (UIn 0) (UIn 1));; get (fst p) 0.
Definition rotated_mv : mv := Eval vm_compute in match rotated with Ok y => y | Err _ => mkmv 0 0 0 [] [] [] mop_id end.
Lemma rotated_packed : packed rotated_mv (terms_of rotated_mv). Proof. packs. Qed.
Lemma rotor_run fl md w a b c x y z : compute_oneF fl md vga_m false rotor_ies [[x; y; z]; [w; a; b; c]] (USandwich (UIn 0) (UIn 1)) =
  e <- compute_entityF fl rotated_mv one [x; y; z; w; a; b; c];; Ok [e].
Proof. destruct md; vm_compute; reflexivity. Qed.
Lemma rotated_keep : keep (terms_of rotated_mv).
Proof.
  unfold keep. split; [|split].
  - vm_compute. repeat constructor; try discriminate.
  - vm_compute. repeat constructor; try discriminate.
  - vm_compute. repeat constructor; discriminate.
Qed.
Local Open Scope R_scope.
Definition row (k : nat) : list smon := snd (nth k (terms_of rotated_mv) (0%N, [])).

Section Rows.
Variables w a b c x y z : R.
Let rho := valuation [x; y; z; w; a; b; c].
Lemma row0 : map (mon_val rho) (row 0) = [x * (w * w); - (x * (a * a)); - (x * (b * b)); x * (c * c); 2 * (y * (w * a)); - (2 * (y * (b * c))); 2 * (z * (w * b)); 2 * (z * (a * c))].
Proof. unfold rho. vm_compute. change R1 with 1. repeat (apply f_equal2; [field|]). reflexivity. Qed.
Lemma row1 : map (mon_val rho) (row 1) = [- (2 * (x * (w * a))); - (2 * (x * (b * c))); y * (w * w); - (y * (a * a)); y * (b * b); - (y * (c * c)); 2 * (z * (w * c)); - (2 * (z * (a * b)))].
Proof. unfold rho. vm_compute. change R1 with 1. repeat (apply f_equal2; [field|]). reflexivity. Qed.
Lemma row2 : map (mon_val rho) (row 2) = [- (2 * (x * (w * b))); 2 * (x * (a * c)); - (2 * (y * (w * c))); - (2 * (y * (a * b))); z * (w * w); z * (a * a); - (z * (b * b)); - (z * (c * c))].
Proof. unfold rho. vm_compute. change R1 with 1. repeat (apply f_equal2; [field|]). reflexivity. Qed.
Lemma square_abs r : Rabs r * Rabs r = r * r. Proof. rewrite <- Rabs_mult, Rabs_pos_eq; [reflexivity|]. nra. Qed.
Hypothesis unit_rotor : w * w + a * a + b * b + c * c = 1.
Lemma row_size k : (k < 3)%nat -> mons_size rho (row k) <= Rabs x + Rabs y + Rabs z.
Proof.
  intros K. unfold mons_size. rewrite <- (map_map (mon_val rho) Rabs). assert (T : Rabs 2 = 2) by (apply Rabs_pos_eq; lra).
  pose proof (square_abs w) as W. pose proof (square_abs a) as A. pose proof (square_abs b) as B. pose proof (square_abs c) as C.
  rewrite <- W, <- A, <- B, <- C in unit_rotor.
  destruct k as [|[|[|k]]]; [rewrite row0|rewrite row1|rewrite row2|lia]; unfold Rsum; cbn [map fold_right]; rewrite ?Rabs_Ropp, !Rabs_mult, ?T;
    pose proof (Rabs_pos x) as X0; pose proof (Rabs_pos y) as Y0; pose proof (Rabs_pos z) as Z0; pose proof (Rabs_pos w); pose proof (Rabs_pos a); pose proof (Rabs_pos b); pose proof (Rabs_pos c);
    set (X := Rabs x) in *; set (Y := Rabs y) in *; set (Z1 := Rabs z) in *; set (w' := Rabs w) in *; set (a' := Rabs a) in *; set (b' := Rabs b) in *; set (c' := Rabs c) in *; clearbody X Y Z1 w' a' b' c'.
  - pose proof (f_equal (Rmult X) unit_rotor) as M. pose proof (Rle_0_sqr (w' - a')). pose proof (Rle_0_sqr (b' - c')). pose proof (Rle_0_sqr (w' - b')). pose proof (Rle_0_sqr (a' - c')). unfold Rsqr in *. assert (Y * (2 * (w' * a') + 2 * (b' * c')) <= Y * 1) by (apply Rmult_le_compat_l; lra). assert (Z1 * (2 * (w' * b') + 2 * (a' * c')) <= Z1 * 1) by (apply Rmult_le_compat_l; lra). lra.
  - pose proof (f_equal (Rmult Y) unit_rotor) as M. pose proof (Rle_0_sqr (w' - a')). pose proof (Rle_0_sqr (b' - c')). pose proof (Rle_0_sqr (w' - c')). pose proof (Rle_0_sqr (a' - b')). unfold Rsqr in *. assert (X * (2 * (w' * a') + 2 * (b' * c')) <= X * 1) by (apply Rmult_le_compat_l; lra). assert (Z1 * (2 * (w' * c') + 2 * (a' * b')) <= Z1 * 1) by (apply Rmult_le_compat_l; lra). lra.
  - pose proof (f_equal (Rmult Z1) unit_rotor) as M. pose proof (Rle_0_sqr (w' - b')). pose proof (Rle_0_sqr (a' - c')). pose proof (Rle_0_sqr (w' - c')). pose proof (Rle_0_sqr (a' - b')). unfold Rsqr in *. assert (X * (2 * (w' * b') + 2 * (a' * c')) <= X * 1) by (apply Rmult_le_compat_l; lra). assert (Y * (2 * (w' * c') + 2 * (a' * b')) <= Y * 1) by (apply Rmult_le_compat_l; lra). lra.
Qed.
End Rows.
(** a unit rotor on a vector: at most 11 roundings in each component *)
Theorem C68_rotation u fl md w a b c x y z outs : 0 <= u -> 11 * u < 1 -> rounds u fl -> w * w + a * a + b * b + c * c = 1 ->
  compute_oneF fl md vga_m false rotor_ies [[x; y; z]; [w; a; b; c]] (USandwich (UIn 0) (UIn 1)) = Ok outs ->
  exists e e', outs = [e] /\ compute_one md vga_m false rotor_ies [[x; y; z]; [w; a; b; c]] (USandwich (UIn 0) (UIn 1)) = Ok [e'] /\
    Forall2 (fun p p' : N * R => fst p = fst p' /\ Rabs (snd p - snd p') <= gamma u 11 * (Rabs x + Rabs y + Rabs z)) e e' /\ map fst e = [1; 2; 4]%N.
Proof.
  intros U0 U1 FL UR H. rewrite rotor_run in H. minv H. rename v into e. injection H as <-. rename E into H. exists e. eexists. split; [reflexivity|]. split; [destruct md; vm_compute; reflexivity|].
  assert (FR : forall k, (k < 3)%nat -> INR (roundings one (row k)) = 11) by (intros [|[|[|k]]] K; try lia; vm_compute; change R1 with 1; lra).
  assert (FEW : Forall (fun t : sterm => few_roundings u one (snd t)) (terms_of rotated_mv)).
  { unfold few_roundings. pose proof (FR 0%nat ltac:(lia)). pose proof (FR 1%nat ltac:(lia)). pose proof (FR 2%nat ltac:(lia)). change (terms_of rotated_mv) with [(1%N, row 0); (2%N, row 1); (4%N, row 2)]. apply Forall_cons; [|apply Forall_cons; [|apply Forall_cons; [|apply Forall_nil]]]; cbn beta; unfold snd at 1; [rewrite H0|rewrite H1|rewrite H2]; exact U1. }
  apply (entity_rel u U0 ltac:(lra) fl FL rotated_mv one [x; y; z; w; a; b; c] (terms_of rotated_mv) e ltac:(cbn; lia) eq_refl rotated_packed rotated_keep ltac:(discriminate) eq_refl FEW) in H.
  change (terms_of rotated_mv) with [(1%N, row 0); (2%N, row 1); (4%N, row 2)] in H.
  inversion_clear H as [|[p0 r0] ? e1 ? [F0 C0] H1]. inversion_clear H1 as [|[p1 r1] ? e2 ? [F1 C1] H2]. inversion_clear H2 as [|[p2 r2] ? e3 ? [F2 C2] H3]. inversion_clear H3. cbn [fst snd] in *. subst p0 p1 p2.
  assert (G : forall k r, (k < 3)%nat -> computed_for u (valuation [x; y; z; w; a; b; c]) one (row k) r -> forall r', Rsum (map (mon_val (valuation [x; y; z; w; a; b; c])) (row k)) = r' -> Rabs (r - r') <= gamma u 11 * (Rabs x + Rabs y + Rabs z)).
  { intros k r K CF r' <-. unfold computed_for in CF. assert (O1 : rv one = 1) by (unfold rv; cbn; lra). rewrite O1, Rmult_1_l, Rabs_R1, Rmult_1_l in CF. eapply Rle_trans; [exact CF|].
    replace (roundings one (row k)) with 11%nat by (destruct k as [|[|[|k]]]; try lia; reflexivity). apply Rmult_le_compat_l; [|exact (row_size w a b c x y z UR k K)].
    unfold gamma. replace (INR 11) with 11 by (cbn; lra). apply Rmult_le_pos; [lra|]. left. apply Rinv_0_lt_compat. lra. }
  split; [|reflexivity]. apply Forall2_cons; [|apply Forall2_cons; [|apply Forall2_cons; [|apply Forall2_nil]]]; (split; [reflexivity|]); cbn [snd].
  - apply (G 0%nat); [lia|exact C0|]. rewrite row0. unfold Rsum. cbn [fold_right]. change R1 with 1. ring.
  - apply (G 1%nat); [lia|exact C1|]. rewrite row1. unfold Rsum. cbn [fold_right]. change R1 with 1. ring.
  - apply (G 2%nat); [lia|exact C2|]. rewrite row2. unfold Rsum. cbn [fold_right]. change R1 with 1. ring.
Qed.
Print Assumptions C68_rotation.

(** ** Examples: the hypotheses are met *)
Ltac fews := match goal with |- Forall _ ?l => let l' := eval vm_compute in l in change l with l' end;
  repeat (apply Forall_cons; [unfold few_roundings; match goal with |- INR ?n * _ < 1 => let n' := eval vm_compute in n in change n with n' end; cbn [INR]; lra|]); apply Forall_nil.
(** a rounding that is always off *)
Definition off : R -> res R := fun x => Ok (x * (1 + / 1024)).
Lemma off_rounds : rounds (/ 1024) off.
Proof. intros x y H. injection H as <-. exists (/ 1024). split; [rewrite Rabs_pos_eq; lra|reflexivity]. Qed.
Example C68_rotation_ex : rounds (roundoff 53) ieee_double /\ 11 * roundoff 53 < 1 /\ (3 / 5) * (3 / 5) + (4 / 5) * (4 / 5) + 0 * 0 + 0 * 0 = 1 /\ rounds (/ 1024) off /\
  exists e, compute_oneF off Code vga_m false rotor_ies [[1; 2; 3]; [3 / 5; 4 / 5; 0; 0]] (USandwich (UIn 0) (UIn 1)) = Ok [e].
Proof.
  split; [now apply ieee_rounds|]. split; [|split; [lra|split; [exact off_rounds|eexists; vm_compute; reflexivity]]].
  change (roundoff 53) with (bpow radix2 (-53)). assert (bpow radix2 (-53) <= bpow radix2 (-4)) by (apply bpow_le; lia). assert (bpow radix2 (-4) = / 16) by reflexivity. lra.
Qed.
Example C68_component_ex : exists e tx, compute_entityF off (construct_ie [1; 2; 4]%N 0) (mkrat 2 1) [1; 2; 3] = Ok e /\ packed (construct_ie [1; 2; 4]%N 0) tx /\ proper 3 tx /\ length tx = 3%nat /\
  Forall (fun t : sterm => few_roundings (/ 1024) (mkrat 2 1) (snd t)) tx.
Proof.
  eexists. exists (terms_of (construct_ie [1; 2; 4]%N 0)). split; [vm_compute; reflexivity|]. split; [packs|]. split; [|split; [reflexivity|fews]].
  constructor.
  - split; [repeat constructor|]. match goal with |- Forall _ ?l => let l' := eval vm_compute in l in change l with l' end. repeat constructor; discriminate.
  - vm_compute. repeat constructor; discriminate.
  - vm_compute. repeat constructor; discriminate.
  - vm_compute. repeat constructor; discriminate.
  - vm_compute. repeat constructor.
Qed.
(** 2 x y + ~w, evaluated with a rounding that is always off *)
Definition u_off : uexpr := UAdd (UGp (UScale 2 X) Y) (URev W).
Example C68_compute_ex : on1 (fun e => short e /\ distinct (rnodes e) /\ nonempty e) (build Exact (lambda_inputs data_ex) u_off) /\ faithful plane vals_ex (lambda_inputs data_ex) u_off /\ algebraic (dim plane) u_off = true /\ (exists v, means plane vals_ex u_off v) /\
  (exists e, compute_oneF off Exact plane false ies_ex data_ex u_off = Ok [e] /\ map fst e = [0; 1; 2; 3]%N) /\
  exists y q, compiled_one Exact plane false ies_ex data_ex u_off = Ok ([y], q) /\ Forall (fun t : sterm => few_roundings (/ 1024) q (snd t)) (terms_of y) /\ packed y (terms_of y).
Proof.
  split; [|split; [|split; [|split; [|split]]]].
  - lists. split; [split; vm_compute; reflexivity|]. split; [apply distinctb_ok; vm_compute; reflexivity|discriminate].
  - unfold u_off, X, Y, W. faith.
  - reflexivity.
  - eexists. unfold u_off, X, Y, W. repeat (constructor; try reflexivity; try discriminate).
  - eexists. split; vm_compute; reflexivity.
  - do 2 eexists. split; [vm_compute; reflexivity|]. split; [|packs].
    fews.
Qed.
(** w x is shared and stored first: evaluated with a rounding that is always off *)
Example C68_temporaries_ex : exists l, bound data_ex l /\ stores_on_top l /\ applicable plane false ies_ex (list_sum (map (@length R) data_ex)) l /\
  (exists e, computeF off Exact plane false ies_ex data_ex l one = Ok [e]) /\
  exists y t, compiled Exact plane false ies_ex (list_sum (map (@length R) data_ex)) l = Ok ([y], [t]) /\ mop (fst t) = mop_id /\ packed (fst t) (terms_of (fst t)) /\
    Forall (fun t : sterm => few_roundings (/ 1024) one (snd t)) (terms_of (fst t)).
Proof.
  destruct C29_shared_ex as (FI & FA & AL & ON & (v & ME) & _).
  destruct (build Exact (lambda_inputs data_ex) u_shared) as [x|] eqn:E; [|vm_compute in E; discriminate E]. cbn [on1] in ON. destruct ON as ([S1 S2] & ID & CN & _ & ON).
  destruct (reshape x) as [y|] eqn:EY; [|vm_compute in E; injection E as <-; vm_compute in EY; discriminate EY]. cbn [on1] in ON.
  destruct (lambda_sound plane vals_ex data_ex u_shared x v eq_refl FA E ME) as [[[E1 _]|(w & ND & _)] _]; [vm_compute in E; injection E as <-; discriminate E1|].
  destruct (alg_expr data_ex (dim plane) u_shared x AL E) as [OK _].
  destruct (reshape_full plane vals_ex x y w S1 S2 ND ID CN EY) as (_ & (t & RUN) & TOP & OR). exists (rnodes y).
  split; [eapply origin_bound; [|exact OR]; eapply node_bound; exact OK|]. split; [exact TOP|]. vm_compute in E; injection E as <-; vm_compute in EY; injection EY as <-.
  split; [apply applicableb_ok; vm_compute; reflexivity|]. split; [eexists; vm_compute; reflexivity|]. do 2 eexists. split; [vm_compute; reflexivity|]. split; [reflexivity|]. split; [packs|]. fews.
Qed.
(** integers in doubles: the product of a multivector and two vectors *)
Example C68_integers_ex : exists l y, Forall (Forall is_integer) data_ex /\ length l = 5%nat /\ compiled Code plane false ies_ex (list_sum (map (@length R) data_ex)) l = Ok ([y], []) /\
  packed y (terms_of y) /\ integer_terms (bpow radix2 53) (concat data_ex) one (terms_of y) /\
  exists outs, computeF ieee_double Code plane false ies_ex data_ex l one = Ok outs /\ compute Code plane false ies_ex data_ex l one = Ok outs.
Proof.
  assert (P : exists l y, Forall (Forall is_integer) data_ex /\ length l = 5%nat /\ compiled Code plane false ies_ex (list_sum (map (@length R) data_ex)) l = Ok ([y], []) /\
    packed y (terms_of y) /\ mop y = mop_id /\ integer_terms (bpow radix2 53) (concat data_ex) one (terms_of y)).
  { destruct (build Code (lambda_inputs data_ex) (UGp (UGp W X) Y)) as [x|] eqn:E; [|vm_compute in E; discriminate E]. exists (rnodes x). vm_compute in E. injection E as <-. eexists.
    split; [unfold data_ex; repeat constructor; eexists; reflexivity|]. split; [reflexivity|]. split; [vm_compute; reflexivity|]. split; [packs|]. split; [reflexivity|].
    unfold integer_terms. match goal with |- Forall _ ?l => let l' := eval vm_compute in l in change l with l' end.
    assert (BIG : forall k, 1 <= k -> Rmax 1 (Rabs k) = k) by (intros k K; rewrite Rabs_pos_eq by lra; apply Rmax_right; lra).
    change (bpow radix2 53) with (IZR 9007199254740992).
    assert (IND : forall i, den (ideg i) = 1%Z -> num (ideg i) = 1%Z -> (id i < 8)%N -> den (ideg i) = 1%Z /\ (0 < num (ideg i) <= int_max)%Z /\ (N.to_nat (id i) < length (concat data_ex))%nat /\ (id i < ind_constant_start)%N).
    { intros i D N L. split; [exact D|]. rewrite N. split; [split; [reflexivity|discriminate]|]. unfold data_ex. cbn [concat app length]. split; [lia|]. eapply N.lt_le_trans; [exact L|discriminate]. }
    repeat (apply Forall_cons; [cbn [snd]; split; [discriminate|split]; [repeat (apply Forall_cons; [split; [reflexivity|split; [discriminate|repeat (apply Forall_cons; [apply IND; reflexivity|]); apply Forall_nil]]|]); apply Forall_nil|]|]); try apply Forall_nil.
    all: unfold mon_bound, Rprod, Rsum, data_ex; cbv -[Rmax Rabs IZR Rmult Rplus Rle]; rewrite !BIG by lra; lra. }
  destruct P as (l & y & P1 & P2 & P3 & P4 & P5 & P6). exists l, y. repeat (split; [assumption|]).
  assert (SY : shows y (terms_of y)).
  { exists y. split; [apply sim_refl; rewrite (pk_isz _ _ P4); destruct (pk_inds _ _ P4) as [r ->]; rewrite app_length; lia|exact P4]. }
  exact (C68_integers 53 (-1074) 1024 Code plane false ies_ex data_ex l one [y] [terms_of y] eq_refl ltac:(lia) eq_refl P1 eq_refl ltac:(discriminate) P3
    (Forall2_cons _ _ SY (Forall2_nil _)) (Forall_cons _ P5 (Forall_nil _)) (Forall_cons _ P6 (Forall_nil _))).
Qed.
(** no rounding at all *)
Example C68_unrounded_ex : rounds 0 (fun x => Ok x) /\ exists e, compute_oneF (fun x => Ok x) Code plane false ies_ex data_ex u_off = Ok [e].
Proof. split; [intros x y H; injection H as <-; exists 0; split; [rewrite Rabs_R0; lra|ring]|eexists; vm_compute; reflexivity]. Qed.
