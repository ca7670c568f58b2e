(** Errors of stored subexpressions: how they grow in the results. *)
From Coq Require Import ZArith NArith List Bool Arith Lia ZifyBool ZifyN ZifyNat Reals Lra.
From Verif Require Import Base Model_Numeric Model_Blade Model_Sort Model_MV Model_Product Model_Expr Model_Dfa Model_Reshape Model_Engine Model_Compute Model_Float
  Spec_Numeric Spec_Clifford Spec_Basis Spec_MV Spec_Expr Spec_Build Spec_Dfa Spec_Engine Spec_Reshape Spec_Compute
  Proof_Numeric Proof_Layout Proof_Sum Proof_Ops3 Proof_Safe Proof_Basis Proof_ProductVal Proof_Val Proof_Ops Proof_Proper Proof_MVAlg Proof_MVFlat Proof_Dfa Proof_Dfa2 Proof_Ids Proof_Engine Proof_Engine2 Proof_Sim Proof_Engine3
  Proof_Float Proof_Float2 Proof_Float5.
From Verif Require Import Spec_MV Spec_Engine Spec_Float Spec_FloatTemps.
Import ListNotations.
Local Open Scope nat_scope.

(** ** monomials of values that are slightly wrong *)
Local Open Scope R_scope.
Lemma pow_near x' x d n : Rabs (x' - x) <= d -> Rabs (x' ^ n) <= (Rabs x + d) ^ n /\ Rabs (x' ^ n - x ^ n) <= (Rabs x + d) ^ n - Rabs x ^ n /\ 0 <= Rabs x ^ n <= (Rabs x + d) ^ n.
Proof.
  intros H. pose proof (Rabs_pos x) as X0. assert (D0 : 0 <= d) by (eapply Rle_trans; [apply Rabs_pos|exact H]).
  assert (XP : Rabs x' <= Rabs x + d) by (replace x' with (x + (x' - x)) by ring; eapply Rle_trans; [apply Rabs_triang|lra]).
  induction n as [|n (I1 & I2 & I3 & I4)]; cbn [pow]; [rewrite Rabs_R1; replace (1 - 1) with 0 by ring; rewrite Rabs_R0; lra|].
  pose proof (Rabs_pos (x' ^ n)) as Y0. rewrite !Rabs_mult. split; [apply Rmult_le_compat; auto using Rabs_pos|]. split.
  - replace (x' * x' ^ n - x * x ^ n) with ((x' - x) * x' ^ n + x * (x' ^ n - x ^ n)) by ring. eapply Rle_trans; [apply Rabs_triang|]. rewrite !Rabs_mult.
    assert (A : Rabs (x' - x) * Rabs (x' ^ n) <= d * (Rabs x + d) ^ n) by (apply Rmult_le_compat; auto using Rabs_pos).
    assert (B : Rabs x * Rabs (x' ^ n - x ^ n) <= Rabs x * ((Rabs x + d) ^ n - Rabs x ^ n)) by (apply Rmult_le_compat_l; auto). lra.
  - split; [now apply Rmult_le_pos|]. apply Rmult_le_compat; lra.
Qed.
(** a power with a rational degree *)
Lemma factor_near x' x e d : integral d -> Rabs (x' - x) <= e -> (0 <= num d)%Z \/ e < Rabs x ->
  Rabs (dpow x' d) <= pow_up x e (num d) /\ Rabs (dpow x' d - dpow x d) <= pow_up x e (num d) - Rabs (dpow x d) /\ Rabs (dpow x d) <= pow_up x e (num d).
Proof.
  intros I H S. unfold dpow. rewrite I. cbn [Z.eqb Pos.eqb]. unfold pow_up. destruct (Z.ltb_spec (num d) 0) as [LT|GE].
  - destruct S as [S|S]; [lia|]. assert (E0 : 0 <= e) by (eapply Rle_trans; [apply Rabs_pos|exact H]).
    assert (PW : forall y, powerRZ y (num d) = (/ y) ^ Z.to_nat (- num d)).
    { intros y. destruct (num d) as [|p|p]; try lia. cbn [powerRZ Z.opp Z.to_nat]. now rewrite pow_inv. }
    rewrite !PW, <- pow_inv. assert (X0 : x <> 0) by (intros ->; rewrite Rabs_R0 in S; lra).
    assert (LO : Rabs x - e <= Rabs x') by (pose proof (Rabs_triang_inv x x'); rewrite Rabs_minus_sym in H; lra).
    assert (X1 : x' <> 0) by (intros ->; rewrite Rabs_R0 in LO; lra).
    set (d' := / (Rabs x - e) - / Rabs x). assert (IE : / (Rabs x - e) = Rabs (/ x) + d') by (rewrite Rabs_inv; unfold d'; ring).
    assert (ND : Rabs (/ x' - / x) <= d').
    { replace (/ x' - / x) with ((x - x') / (x * x')) by (field; auto). unfold Rdiv. rewrite Rabs_mult, Rabs_inv, Rabs_mult.
      unfold d'. replace (/ (Rabs x - e) - / Rabs x) with (e * / (Rabs x * (Rabs x - e))) by (field; lra).
      apply Rmult_le_compat; [apply Rabs_pos| |now rewrite Rabs_minus_sym|].
      - left. apply Rinv_0_lt_compat. apply Rmult_lt_0_compat; lra.
      - apply Rinv_le_contravar; [apply Rmult_lt_0_compat; lra|]. apply Rmult_le_compat_l; lra. }
    destruct (pow_near _ _ _ (Z.to_nat (- num d)) ND) as (K1 & K2 & K3 & K4). rewrite IE. rewrite RPow_abs in K2, K4. auto.
  - assert (PW : forall y, powerRZ y (num d) = y ^ Z.to_nat (num d)) by (intros y; rewrite <- (Z2Nat.id (num d)) at 1 by lia; symmetry; apply pow_powerRZ).
    rewrite !PW. destruct (pow_near _ _ _ (Z.to_nat (num d)) H) as (K1 & K2 & K3 & K4). rewrite RPow_abs in K2, K4. auto.
Qed.
Section Near.
Variables rho' rho del : N -> R.
Lemma inds_near l : Forall (fun i => integral (ideg i) /\ ((0 <= num (ideg i))%Z \/ del (id i) < Rabs (rho (id i))) /\ Rabs (rho' (id i) - rho (id i)) <= del (id i)) l ->
  let up := Rprod (map (fun i => pow_up (rho (id i)) (del (id i)) (num (ideg i))) l) in
  Rabs (inds_val rho' l) <= up /\ Rabs (inds_val rho' l - inds_val rho l) <= up - Rabs (inds_val rho l) /\ Rabs (inds_val rho l) <= up.
Proof.
  induction 1 as [|i l (I1 & I2 & I3) F IH]; cbn zeta in *; unfold inds_val, Rprod in *; cbn [map fold_right].
  - rewrite Rabs_R1. replace (1 - 1) with 0 by ring. rewrite Rabs_R0. lra.
  - set (U := fold_right Rmult 1 (map (fun i => pow_up (rho (id i)) (del (id i)) (num (ideg i))) l)) in *.
    set (Y' := fold_right Rmult 1 (map (fun i => dpow (rho' (id i)) (ideg i)) l)) in *. set (Y := fold_right Rmult 1 (map (fun i => dpow (rho (id i)) (ideg i)) l)) in *.
    destruct IH as (J1 & J2 & J3). destruct (factor_near _ _ _ _ I1 I3 I2) as (K1 & K2 & K3).
    set (P := pow_up _ _ _) in *. set (Z' := dpow (rho' (id i)) (ideg i)) in *. set (Z := dpow (rho (id i)) (ideg i)) in *. clearbody U Y' Y P Z' Z.
    pose proof (Rabs_pos Y'). pose proof (Rabs_pos Y). pose proof (Rabs_pos Z'). pose proof (Rabs_pos Z).
    rewrite !Rabs_mult. split; [apply Rmult_le_compat; auto|]. split; [|apply Rmult_le_compat; auto].
    replace (Z' * Y' - Z * Y) with ((Z' - Z) * Y' + Z * (Y' - Y)) by ring. eapply Rle_trans; [apply Rabs_triang|]. rewrite !Rabs_mult.
    assert (A : Rabs (Z' - Z) * Rabs Y' <= (P - Rabs Z) * U) by (apply Rmult_le_compat; auto using Rabs_pos).
    assert (B : Rabs Z * Rabs (Y' - Y) <= Rabs Z * (U - Rabs Y)) by (apply Rmult_le_compat_l; auto). lra.
Qed.
Lemma mons_near ms : Forall mon_ok ms -> apart rho del ms -> idsl (fun i => Rabs (rho' i - rho i) <= del i) ms ->
  mons_size rho' ms <= mons_up rho del ms /\ Rabs (mons_val rho' ms - mons_val rho ms) <= mons_up rho del ms - mons_size rho ms /\ mons_size rho ms <= mons_up rho del ms.
Proof.
  unfold mons_size, mons_up, mons_val, Rsum. induction ms as [|s ms IH]; intros M P I; cbn [map fold_right].
  - replace (0 - 0) with 0 by ring. rewrite Rabs_R0. lra.
  - inversion_clear M as [|? ? M1 M2]. inversion_clear P as [|? ? P1 P2]. inversion_clear I as [|? ? I1 I2]. destruct (IH M2 P2 I2) as (J1 & J2 & J3).
    assert (K : Forall (fun i => integral (ideg i) /\ ((0 <= num (ideg i))%Z \/ del (id i) < Rabs (rho (id i))) /\ Rabs (rho' (id i) - rho (id i)) <= del (id i)) (sinds s)).
    { destruct M1 as (_ & _ & M1). rewrite Forall_forall in *. intros i Hi. auto. }
    apply inds_near in K. cbn zeta in K. destruct K as (K1 & K2 & K3). set (U := Rprod (map (fun i => pow_up (rho (id i)) (del (id i)) (num (ideg i))) (sinds s))) in *. change (mon_up rho del s) with (Rabs (rv (sq s)) * U). clearbody U. change (mon_val rho' s) with (rv (sq s) * inds_val rho' (sinds s)). change (mon_val rho s) with (rv (sq s) * inds_val rho (sinds s)). pose proof (Rabs_pos (rv (sq s))) as Q.
    rewrite !Rabs_mult. pose proof (Rmult_le_compat_l _ _ _ Q K1). pose proof (Rmult_le_compat_l _ _ _ Q K3). split; [lra|]. split; [|lra].
    set (A' := fold_right Rplus 0 (map (mon_val rho') ms)) in *. set (A := fold_right Rplus 0 (map (mon_val rho) ms)) in *.
    replace (rv (sq s) * inds_val rho' (sinds s) + A' - (rv (sq s) * inds_val rho (sinds s) + A)) with (rv (sq s) * (inds_val rho' (sinds s) - inds_val rho (sinds s)) + (A' - A)) by ring.
    eapply Rle_trans; [apply Rabs_triang|]. rewrite Rabs_mult. pose proof (Rmult_le_compat_l _ _ _ Q K2). lra.
Qed.
Lemma gamma_pos u n : 0 <= u -> INR n * u < 1 -> 0 <= gamma u n.
Proof. intros U F. unfold gamma. apply Rmult_le_pos; [apply Rmult_le_pos; [apply pos_INR|exact U]|]. left. apply Rinv_0_lt_compat. lra. Qed.
Lemma term_near u q ms v : 0 <= u -> few_roundings u q ms -> Forall mon_ok ms -> apart rho del ms -> idsl (fun i => Rabs (rho' i - rho i) <= del i) ms ->
  computed_for u rho' q ms v -> Rabs (v - rv q * mons_val rho ms) <= allowed u rho del q ms.
Proof.
  intros U FR M P I C. destruct (mons_near ms M P I) as (A & B & _). unfold computed_for in C. unfold allowed. pose proof (gamma_pos u _ U FR) as G. set (g := gamma u (roundings q ms)) in *.
  replace (v - rv q * mons_val rho ms) with ((v - rv q * mons_val rho' ms) + rv q * (mons_val rho' ms - mons_val rho ms)) by ring. eapply Rle_trans; [apply Rabs_triang|]. rewrite Rabs_mult.
  pose proof (Rabs_pos (rv q)) as Q. pose proof (Rmult_le_compat_l _ _ _ Q A). pose proof (Rmult_le_compat_l _ _ _ Q B). pose proof (Rmult_le_compat_l _ _ _ G H). lra.
Qed.
End Near.
(** ** functions of values that are slightly wrong *)
Lemma lipschitz f f' : (forall x, derivable_pt_lim f x (f' x)) -> (forall x, Rabs (f' x) <= 1) -> forall x y, Rabs (f y - f x) <= Rabs (y - x).
Proof.
  intros D B. assert (G : forall x y, x < y -> Rabs (f y - f x) <= Rabs (y - x)).
  { intros x y L. destruct (MVT_cor2 f f' x y L (fun c _ => D c)) as (c & E & _). rewrite E, Rabs_mult. pose proof (B c). pose proof (Rabs_pos (y - x)). pose proof (Rmult_le_compat_r _ _ _ H0 H). lra. }
  intros x y. destruct (Rtotal_order x y) as [L|[->|L]]; [now apply G| |].
  - rewrite !Rminus_diag_eq by reflexivity. rewrite Rabs_R0. lra.
  - rewrite (Rabs_minus_sym (f y)), (Rabs_minus_sym y). now apply G.
Qed.
Lemma sin_near x y : Rabs (sin y - sin x) <= Rabs (y - x).
Proof. apply (lipschitz sin cos); [apply derivable_pt_lim_sin|]. intros z. apply Rabs_le. pose proof (COS_bound z). lra. Qed.
Lemma cos_near x y : Rabs (cos y - cos x) <= Rabs (y - x).
Proof. apply (lipschitz cos (fun z => - sin z)); [apply derivable_pt_lim_cos|]. intros z. rewrite Rabs_Ropp. apply Rabs_le. pose proof (SIN_bound z). lra. Qed.
Lemma tan_mono x y : - (PI / 2) < x -> x <= y -> y < PI / 2 -> tan x <= tan y.
Proof. intros A [B| ->] C; [|lra]. left. apply tan_increasing; lra. Qed.
Lemma mono_near (f : R -> R) x y a : Rabs (y - x) <= a -> f (x - a) <= f y <= f (x + a) -> Rabs (f y - f x) <= Rmax (f x - f (x - a)) (f (x + a) - f x).
Proof. intros H B. pose proof (Rmax_l (f x - f (x - a)) (f (x + a) - f x)). pose proof (Rmax_r (f x - f (x - a)) (f (x + a) - f x)). apply Rabs_le. lra. Qed.
Lemma change_ok o x y a : Rabs (y - x) <= a -> calm o x a -> Rabs (op_fun o y - op_fun o x) <= change o x a.
Proof.
  intros H C. assert (B : x - a <= y <= x + a) by (clear C; unfold Rabs in H; destruct (Rcase_abs _); lra). destruct o; cbn [op_fun change calm] in *.
  - exact H.
  - eapply Rle_trans; [apply sin_near|exact H].
  - eapply Rle_trans; [apply cos_near|exact H].
  - apply mono_near; [exact H|]. split; apply tan_mono; lra.
  - apply mono_near; [exact H|]. split; apply sqrt_le_1_alt; lra.
Qed.
Lemma fn_near u fl o x y a v : 0 <= u -> rounds u fl -> Rabs (y - x) <= a -> calm o x a -> apply_mv_opF fl o y = Ok v ->
  Rabs (v - op_fun o x) <= match o with mop_id => a | _ => (1 + u) * change o x a + u * Rabs (op_fun o x) end.
Proof.
  intros U FL H C E. pose proof (change_ok o x y a H C) as CH.
  assert (G : o = mop_id /\ v = y \/ o <> mop_id /\ fl (op_fun o y) = Ok v).
  { destruct o; cbn [apply_mv_opF op_fun] in *; [left; split; [reflexivity|congruence]|right; split; [discriminate|exact E]|right; split; [discriminate|exact E]| |]; right; (split; [discriminate|]); destruct (_ : bool); congruence || exact E. }
  destruct G as [[-> ->]|[NI G]]; [exact H|]. destruct (FL _ _ G) as (d & D & ->).
  assert (R : Rabs (op_fun o y * (1 + d) - op_fun o x) <= (1 + u) * change o x a + u * Rabs (op_fun o x)).
  { replace (op_fun o y * (1 + d) - op_fun o x) with ((op_fun o y - op_fun o x) * (1 + d) + d * op_fun o x) by ring. eapply Rle_trans; [apply Rabs_triang|]. rewrite !Rabs_mult.
    assert (D1 : Rabs (1 + d) <= 1 + u) by (eapply Rle_trans; [apply Rabs_triang|]; rewrite Rabs_R1; lra).
    pose proof (Rmult_le_compat _ _ _ _ (Rabs_pos (op_fun o y - op_fun o x)) (Rabs_pos (1 + d)) CH D1). pose proof (Rmult_le_compat_r _ _ _ (Rabs_pos (op_fun o x)) D). lra. }
  destruct o; [congruence|exact R..].
Qed.
Lemma fn_pos u o x a : 0 <= u -> 0 <= a -> calm o x a -> 0 <= match o with mop_id => a | _ => (1 + u) * change o x a + u * Rabs (op_fun o x) end.
Proof.
  intros U A C. assert (CH : 0 <= change o x a). { eapply Rle_trans; [apply Rabs_pos|]. apply (change_ok o x x a); [rewrite Rminus_diag_eq by reflexivity; rewrite Rabs_R0; exact A|exact C]. }
  pose proof (Rmult_le_pos u _ U (Rabs_pos (op_fun o x))). pose proof (Rmult_le_pos u _ U CH). destruct o; [exact A|lra..].
Qed.
(** ** temporaries in their order *)
Local Open Scope nat_scope.
Fixpoint laid (c : N) (ws : list cells) (c' : N) : Prop :=
  match ws with
  | [] => c = c'
  | w :: ws' => c_from w = c /\ keep (c_terms w) /\ idsl (below c) (all_mons (c_terms w)) /\ laid (c + N.of_nat (length (c_terms w)))%N ws' c'
  end.
Lemma laid_le ws : forall c c', laid c ws c' -> (c <= c')%N.
Proof. induction ws as [|w ws IH]; cbn; intros c c' H; [lia|]. destruct H as (_ & _ & _ & H). apply IH in H. lia. Qed.
Lemma in_term tx k (t : sterm) P : nth_error tx k = Some t -> keep tx -> idsl P (all_mons tx) -> Forall mon_ok (snd t) /\ idsl P (snd t).
Proof.
  intros Ht (K & _) I. apply nth_error_split in Ht as (a & b & -> & _). rewrite all_mons_app, all_mons_cons in I. unfold mv_ok in K. rewrite all_mons_app, all_mons_cons in K.
  apply idsl_app in I as [_ I]. apply idsl_app in I as [I _]. apply Forall_app in K as [_ K]. apply Forall_app in K as [K _]. split; assumption.
Qed.
(** the values of the cells [rho'] with rounding *)
Definition rounded (u : R) (fl : R -> res R) (rho' : N -> R) (w : cells) : Prop :=
  forall k t, nth_error (c_terms w) k = Some t -> exists v, computed_for u rho' one (snd t) v /\ apply_mv_opF fl (c_fun w) v = Ok (rho' (c_from w + N.of_nat k)%N).
(** the errors of all cells *)
Lemma cells_near u fl rho' rho del ws : (0 <= u)%R -> rounds u fl -> forall c c', laid c ws c' -> (c' <= ind_constant_start)%N ->
  (forall i, below c i -> Rabs (rho' i - rho i) <= del i)%R ->
  Forall (tame u) ws -> Forall (rounded u fl rho') ws -> Forall (steady u rho del) ws ->
  Forall (exactly rho) ws -> Forall (covered u rho del) ws -> forall i, below c' i -> (Rabs (rho' i - rho i) <= del i)%R.
Proof.
  intros U FL. induction ws as [|w ws IH]; intros c c' L LC B T F S X V; [cbn in L; subst c'; exact B|].
  cbn [laid] in L. destruct L as (<- & K & I & L). inversion_clear T as [|? ? T1 T2]. inversion_clear F as [|? ? F1 F2]. inversion_clear S as [|? ? S1 S2]. inversion_clear X as [|? ? X1 X2]. inversion_clear V as [|? ? V1 V2].
  pose proof (laid_le _ _ _ L) as LE. eapply IH; try eassumption. clear IH T2 F2 S2 X2 V2.
  intros i [Hi|Hi]; [|apply B; right; exact Hi]. destruct (N.ltb_spec i (c_from w)) as [H|H]; [apply B; left; exact H|].
  assert (E : exists k, i = (c_from w + N.of_nat k)%N /\ k < length (c_terms w)) by (exists (N.to_nat (i - c_from w)); lia). destruct E as (k & -> & Hk).
  destruct (nth_error (c_terms w) k) as [t|] eqn:Et; [|apply nth_error_None in Et; lia].
  destruct (in_term _ _ _ _ Et K I) as [MO IT]. pose proof (nth_error_In _ _ Et) as In. unfold tame in T1. rewrite Forall_forall in T1. destruct (T1 t In) as [FR _].
  unfold steady in S1. rewrite Forall_forall in S1. destruct (S1 t In) as [AP CA]. destruct (F1 k t Et) as (v & C & E).
  rewrite (X1 k t Et). eapply Rle_trans; [|exact (V1 k t Et)].
  refine (fn_near u fl (c_fun w) (mons_val rho (snd t)) v (allowed u rho del one (snd t)) _ U FL _ CA E).
  rewrite <- (Rmult_1_l (mons_val rho (snd t))), <- rv_one. eapply term_near; eauto.
  eapply idsl_imp; [|exact IT]. exact B.
Qed.
Lemma up_ext (P : N -> Prop) rho del del' ms : (forall i, P i -> del' i = del i) -> idsl P ms -> mons_up rho del' ms = mons_up rho del ms.
Proof.
  intros H I. unfold mons_up. f_equal. apply map_ext_in. intros s Hs. unfold mon_up. f_equal. f_equal. apply map_ext_in.
  intros i Hi. unfold idsl in I. rewrite Forall_forall in I. specialize (I s Hs). rewrite Forall_forall in I. now rewrite (H _ (I i Hi)).
Qed.
Lemma allowed_ext (P : N -> Prop) u rho del del' q ms : (forall i, P i -> del' i = del i) -> idsl P ms -> allowed u rho del' q ms = allowed u rho del q ms.
Proof. intros H I. unfold allowed. now rewrite (up_ext P rho del del' ms H I). Qed.
Lemma apart_ext (P : N -> Prop) rho del del' ms : (forall i, P i -> del' i = del i) -> idsl P ms -> apart rho del' ms -> apart rho del ms.
Proof.
  intros H I A. unfold apart, idsl in *. rewrite Forall_forall in *. intros s Hs. specialize (I s Hs). specialize (A s Hs). rewrite Forall_forall in *. intros i Hi. rewrite <- (H _ (I i Hi)). auto.
Qed.
Lemma allowed_pos u rho del q ms : (0 <= u)%R -> few_roundings u q ms -> Forall mon_ok ms -> apart rho del ms -> (forall i, 0 <= del i)%R -> (0 <= allowed u rho del q ms)%R.
Proof.
  intros U FR M P D. assert (I : idsl (fun i => (Rabs (rho i - rho i) <= del i)%R) ms).
  { apply Forall_forall. intros s _. apply Forall_forall. intros i _. rewrite Rminus_diag_eq by reflexivity. rewrite Rabs_R0. apply D. }
  destruct (mons_near rho rho del ms M P I) as (_ & _ & C). unfold allowed. pose proof (gamma_pos u _ U FR) as G.
  assert (S0 : (0 <= mons_size rho ms)%R). { unfold mons_size, Rsum. clear. induction ms as [|s ms IH]; cbn; [lra|]. pose proof (Rabs_pos (mon_val rho s)). lra. }
  apply Rmult_le_pos; [apply Rabs_pos|]. pose proof (Rmult_le_pos _ _ G (Rle_trans _ _ _ S0 C)). lra.
Qed.
(** there are such errors, computed cell by cell *)
Lemma cover_exists u rho ws : (0 <= u)%R -> forall c c' del0, laid c ws c' -> (c' <= ind_constant_start)%N -> Forall (tame u) ws ->
  exists del, (forall i, below c i -> del i = del0 i) /\ Forall (cells_allowed u rho del) ws /\
    ((forall i, 0 <= del0 i)%R -> Forall (steady u rho del) ws -> forall i, (0 <= del i)%R).
Proof.
  intros U. induction ws as [|w ws IH]; intros c c' del0 L LC T; [exists del0; repeat split; auto|].
  cbn [laid] in L. destruct L as (<- & K & I & L). inversion_clear T as [|? ? T1 T2]. pose proof (laid_le _ _ _ L) as LE.
  set (del1 := fun i => if (c_from w <=? i)%N && (i <? c_from w + N.of_nat (length (c_terms w)))%N then match nth_error (c_terms w) (N.to_nat (i - c_from w)) with Some t => allowed_fn u rho del0 (c_fun w) (snd t) | None => 0%R end else del0 i).
  assert (D2 : forall i, below (c_from w) i -> del1 i = del0 i).
  { intros i [H|H]; unfold del1; [replace (c_from w <=? i)%N with false by lia; reflexivity|]. replace (i <? _)%N with false by lia. now rewrite andb_false_r. }
  destruct (IH _ _ del1 L LC T2) as (del & E2 & E3 & E1).
  assert (D3 : forall i, below (c_from w) i -> del i = del0 i) by (intros i Hi; rewrite E2 by (eapply below_imp; [|exact Hi]; lia); now apply D2).
  exists del. split; [exact D3|]. split.
  - constructor; [|exact E3]. intros k t Et. assert (KL : k < length (c_terms w)) by (apply nth_error_Some; congruence).
    rewrite E2 by (left; lia). unfold del1 at 1. replace (c_from w <=? _)%N with true by lia. replace (_ <? _)%N with true by lia. cbn [andb].
    replace (N.to_nat _) with k by lia. rewrite Et. destruct (in_term _ _ _ _ Et K I) as [_ IT]. unfold allowed_fn. now rewrite (allowed_ext (below (c_from w)) u rho del0 del one (snd t) D3 IT).
  - intros D0 S. inversion_clear S as [|? ? S1 S2]. apply E1; [|exact S2]. intros i. unfold del1. destruct (_ && _); [|apply D0]. destruct (nth_error _ _) as [t|] eqn:E; [|lra]. destruct (in_term _ _ _ _ E K I) as [MO IT].
    pose proof (nth_error_In _ _ E) as In. unfold tame in T1. rewrite Forall_forall in T1. destruct (T1 t In) as [FR _]. unfold steady in S1. rewrite Forall_forall in S1. destruct (S1 t In) as [AP CA].
    rewrite (allowed_ext (below (c_from w)) u rho del0 del one (snd t) D3 IT) in CA. apply (apart_ext (below (c_from w)) rho del0 del) in AP; [|exact D3|exact IT].
    apply fn_pos; [exact U|now apply allowed_pos|exact CA].
Qed.

(** ** the temporaries of a program *)
Section Rounded.
Variable u : R.
Hypothesis u0 : (0 <= u)%R.
Hypothesis u1 : (u < 1)%R.
Variable fl : R -> res R.
Hypothesis FL : rounds u fl.
Definition stored_as (p : mv * N) (w : cells) : Prop := snd p = c_from w /\ mop (fst p) = c_fun w /\ packed (fst p) (c_terms w).
(** a multivector without its function *)
Definition unmarked (x : mv) : mv := mkmv (isz x) (msz x) (tsz x) (inds x) (mons x) (terms x) mop_id.
Lemma unmarked_packed x tx : packed x tx -> packed (unmarked x) tx.
Proof. intros [A B C D E F]. constructor; assumption. Qed.
Lemma cmon_fn x data c v : num (mq c) <> 0%Z -> cmon_valueF fl x data c = Ok v -> exists v0, cmon_valueF fl (unmarked x) data c = Ok v0 /\ apply_mv_opF fl (mop x) v0 = Ok v.
Proof.
  intros NZ H. unfold cmon_valueF in *. unfold is_zero in *. replace (num (mq c) =? 0)%Z with false in * by lia. cbn [unmarked inds mop]. destruct (mcount c =? 0).
  - minv H. exists v0. rewrite E. split; [reflexivity|exact H].
  - minv H. rewrite E. cbn [bind]. minv H. rewrite E0. cbn [bind]. minv H. rewrite E1. cbn [bind]. minv H. rewrite E2. cbn [bind]. exists v3. split; [reflexivity|exact H].
Qed.
Lemma cterm_fn x data tx pre t post v : packed x tx -> keep tx -> tx = pre ++ t :: post -> mop x = mop_id \/ length (snd t) = 1 ->
  cterm_valueF fl x data (mkterm (length (snd t)) (length (all_mons pre)) (fst t)) = Ok v ->
  exists v0, cterm_valueF fl (unmarked x) data (mkterm (length (snd t)) (length (all_mons pre)) (fst t)) = Ok v0 /\ apply_mv_opF fl (mop x) v0 = Ok v.
Proof.
  intros P (_ & K2 & _) -> [O|O] H.
  - exists v. rewrite O. split; [|reflexivity]. rewrite <- H. unfold unmarked. rewrite <- O. destruct x; reflexivity.
  - destruct (snd t) as [|s [|? ?]] eqn:ET; try discriminate. unfold cterm_valueF in *. cbn [moff tcount length unmarked mons] in *.
    destruct (pk_mons _ _ P) as [rm Em]. rewrite all_mons_app, all_mons_cons, !lay_mons_app, ET in Em. rewrite all_mons_app, all_mons_cons, ET in K2. cbn [lay_mons app] in Em.
    assert (SL : slice (mons x) (length (all_mons pre)) 1 = Ok [mkmon (sq s) (sdeg s) (length (sinds s)) (length (all_inds (all_mons pre)))]).
    { rewrite Em. replace (length (all_mons pre)) with (length (lay_mons 0 (all_mons pre))) by apply lay_mons_length. rewrite <- app_assoc. exact (slice_app (lay_mons 0 (all_mons pre)) [_] _). }
    rewrite SL in H |- *. cbn [bind mapM] in H |- *. apply Forall_app in K2 as [_ K2]. inversion_clear K2 as [|? ? (NZ & _) _].
    minv H. minv E. injection E as <-. cbn [fold_right1F] in H. injection H as <-. destruct (cmon_fn x data (mkmon (sq s) (sdeg s) (length (sinds s)) (length (all_inds (all_mons pre)))) _ NZ E0) as (w & W1 & W2). rewrite W1. cbn [bind fold_right1F]. eauto.
Qed.
Lemma writeF_fn x data0 tx (c : N) : packed x tx -> keep tx -> idsl (below c) (all_mons tx) -> length data0 <= N.to_nat ind_constant_start -> (c <= ind_constant_start)%N ->
  forall ts pre data data', tx = pre ++ ts -> same_below c data0 data ->
    write_tempF fl x (lay_terms (length (all_mons pre)) ts) (c + N.of_nat (length pre)) data = Ok data' ->
    length data' = length data /\
    (forall j, j < N.to_nat c + length pre -> nth j data' 0%R = nth j data 0%R) /\
    (forall k t, nth_error ts k = Some t -> mop x = mop_id \/ length (snd t) = 1 -> N.to_nat c + length pre + k < length data /\
       exists ys, Forall2 (rel u (sum_roundings (snd t))) ys (map (mon_val (valuation data0)) (snd t)) /\ apply_mv_opF fl (mop x) (Rsum ys) = Ok (nth (N.to_nat c + length pre + k) data' 0%R)).
Proof.
  intros P K I L LC. induction ts as [|t ts IH]; intros pre data data' Et SB H; cbn [lay_terms write_tempF] in H.
  - injection H as <-. repeat split; auto. all: destruct k; discriminate.
  - minv H. rename v into a. minv H. rename v into d1. apply set_ok in E0 as [LI ->].
    pose proof (proj1 SB) as LS.
    assert (IT : idsl (below c) (snd t)). { rewrite Et, all_mons_app, all_mons_cons in I. apply idsl_app in I as [_ I]. now apply idsl_app in I as [I _]. }
    assert (SB' : same_below c data0 (upd data (N.to_nat (c + N.of_nat (length pre))) a)).
    { split; [rewrite upd_length; apply SB|]. intros i Hi. rewrite upd_nth by exact LI. replace (_ =? _) with false by lia. now apply SB. }
    replace (length (all_mons pre) + length (snd t)) with (length (all_mons (pre ++ [t]))) in H
      by (rewrite all_mons_app, app_length; f_equal; unfold all_mons; cbn [flat_map]; now rewrite app_nil_r).
    replace (c + N.of_nat (length pre) + 1)%N with (c + N.of_nat (length (pre ++ [t])))%N in H by (rewrite app_length; cbn [length]; lia).
    destruct (IH (pre ++ [t]) _ data' ltac:(now rewrite <- app_assoc) SB' H) as (I1 & I2 & I3).
    rewrite upd_length in I1, I3. rewrite app_length in I2, I3. cbn [length] in I2, I3.
    split; [exact I1|]. split.
    + intros j Hj. rewrite I2 by lia. rewrite upd_nth by exact LI. now replace (_ =? _) with false by lia.
    + intros [|k] t' Ht O; cbn in Ht.
      * injection Ht as <-. split; [lia|]. destruct (cterm_fn x data tx pre t ts a P K Et O E) as (v0 & V1 & V2).
        apply (cterm_rel u u0 u1 fl FL (unmarked x) data tx pre t ts v0 ltac:(lia) eq_refl (unmarked_packed _ _ P) K Et) in V1.
        rewrite (mon_vals_ext (below c) (valuation data0)) in V1; [|intros i Hi; now apply (same_val c)|exact IT].
        destruct V1 as (ys & Y & ->). exists ys. split; [exact Y|]. rewrite I2 by lia. rewrite upd_nth by exact LI. replace (_ =? _) with true by lia. exact V2.
      * destruct (I3 k t' Ht O) as [J1 (ys & J2 & J3)]. split; [lia|]. exists ys. split; [exact J2|]. rewrite J3. f_equal. f_equal. lia.
Qed.
Lemma finalizeF_laid m nb temps : (nb = true -> 2 <= dim m) -> (nb = true -> Forall (fun p => neutral m (fst p)) temps) ->
  forall c c' data data', chain m c temps c' -> (c' <= ind_constant_start)%N -> length data <= N.to_nat ind_constant_start ->
  finalize_tempsF fl Exact m nb temps data = Ok data' ->
  exists ts ws, mapM (fun p => y <- result_mv Exact m nb (fst p);; Ok (y, snd p)) temps = Ok ts /\ Forall2 stored_as ts ws /\ laid c ws c' /\ same_below c data data' /\
    Forall (fun w => tame u w -> rounded u fl (valuation data') w) ws.
Proof.
  intros Hn. induction temps as [|[x i] temps IH]; intros NE c c' data data' CH LC L H; cbn [finalize_tempsF] in H.
  - injection H as <-. exists [], []. split; [reflexivity|]. split; [constructor|]. split; [exact CH|]. split; [apply same_refl|constructor].
  - cbn [chain fst snd] in CH. destruct CH as (-> & LT & (tx & P & SS & DD & K & I) & CH). minv H. rename v into y.
    destruct (neutral_result m nb x tx y (below c) Hn ltac:(intros B; specialize (NE B); now inversion NE) P K I E) as (ty & PY & KY & IY & LY & VY).
    pose proof (chain_le m false ltac:(discriminate) _ _ _ CH) as LE. pose proof (pk_tsz _ _ P) as TS.
    minv H. rename v into d1. unfold compute_tempF in E0. rewrite (packed_slice _ _ PY) in E0. cbn [bind] in E0.
    destruct (writeF_fn y data ty c PY KY IY L ltac:(lia) ty [] data d1 eq_refl (same_refl _ _) ltac:(rewrite N.add_0_r; exact E0)) as (W1 & W2 & W3).
    cbn [length] in W2, W3. rewrite Nat.add_0_r in W2, W3.
    destruct (IH ltac:(intros B; specialize (NE B); now inversion NE) _ _ d1 data' CH LC ltac:(rewrite W1; exact L) H) as (ts & ws & I0 & IS & IL & I1 & I2).
    assert (SB : same_below c data d1). { split; [exact W1|]. intros j Hj. apply W2. lia. }
    exists ((y, c) :: ts), (mkcells c (mop y) ty :: ws). split; [cbn [mapM fst snd]; rewrite E; cbn [bind]; now rewrite I0|].
    split; [constructor; [split; [reflexivity|split; [reflexivity|exact PY]]|exact IS]|].
    split; [cbn [laid c_from c_terms]; split; [reflexivity|]; split; [exact KY|]; split; [exact IY|]; rewrite LY, <- TS; exact IL|].
    split; [eapply same_trans; [|exact SB|exact I1]; lia|]. constructor; [|exact I2].
    intros TM k t Ht. unfold tame in TM. cbn [c_terms c_fun c_from] in *. rewrite Forall_forall in TM. destruct (TM t (nth_error_In _ _ Ht)) as [FR O]. destruct (W3 k t Ht O) as [X1 (ys & X2 & X3)].
    assert (KL : k < length ty) by (apply nth_error_Some; congruence).
    assert (IT : idsl (below c) (snd t)) by (eapply in_term; eauto).
    assert (VE : valuation data' (c + N.of_nat k)%N = nth (N.to_nat c + k) d1 0%R).
    { unfold valuation. replace (_ =? _)%N with false by lia. replace (_ =? _)%N with false by lia. rewrite (proj2 I1) by lia. f_equal. lia. }
    exists (Rsum ys). rewrite VE. split; [|exact X3]. unfold computed_for. apply (computed u u0 u1); [exact FR|].
    replace (map (Rmult (rv one)) (map (mon_val (valuation data')) (snd t))) with (map (mon_val (valuation data)) (snd t)).
    + unfold roundings. change (coefficient_roundings one) with 0. now rewrite Nat.add_0_r.
    + rewrite <- (mon_vals_ext (below c) (valuation data) (valuation data')); [|intros j Hj; apply (same_val c); [lia|eapply same_trans; [|exact SB|exact I1]; lia|exact Hj|exact L]|exact IT].
      rewrite map_map. apply map_ext. intros s. rewrite rv_one. ring.
Qed.
End Rounded.
Lemma finalize_laid u m nb temps : (nb = true -> 2 <= dim m) -> (nb = true -> Forall (fun p => neutral m (fst p)) temps) ->
  forall ts ws c c' data data', chain m c temps c' -> (c' <= ind_constant_start)%N -> length data <= N.to_nat ind_constant_start ->
  mapM (fun p => y <- result_mv Exact m nb (fst p);; Ok (y, snd p)) temps = Ok ts -> Forall2 stored_as ts ws ->
  finalize_temps Exact m nb temps data = Ok data' -> same_below c data data' /\ Forall (fun w => tame u w -> exactly (valuation data') w) ws.
Proof.
  intros Hn. induction temps as [|[x i] temps IH]; intros NE ts ws c c' data data' CH LC L M S H; cbn [finalize_temps] in H.
  - injection H as <-. injection M as <-. inversion_clear S. split; [apply same_refl|constructor].
  - cbn [chain fst snd] in CH. destruct CH as (-> & LT & (tx & P & SS & DD & K & I) & CH). minv H. rename v into y. cbn [mapM fst snd] in M. rewrite E in M. cbn [bind] in M. minv M. rename v into ts'. injection M as <-.
    inversion_clear S as [|? w ? ws' (S1 & SO & S2) S3]. cbn [fst snd] in S1, SO, S2.
    destruct (neutral_result m nb x tx y (below c) Hn ltac:(intros B; specialize (NE B); now inversion NE) P K I E) as (ty & PY & KY & IY & LY & VY).
    pose proof (chain_le m false ltac:(discriminate) _ _ _ CH) as LE. pose proof (pk_tsz _ _ P) as TS.
    minv H. rename v into d1. unfold compute_temp in E1. rewrite (packed_slice _ _ PY) in E1. cbn [bind] in E1.
    destruct (write_ok y data ty c PY KY IY L ltac:(lia) ty [] data d1 eq_refl (same_refl _ _) ltac:(rewrite N.add_0_r; exact E1)) as (W1 & W2 & W3).
    cbn [length] in W2, W3. rewrite Nat.add_0_r in W2, W3.
    destruct (IH ltac:(intros B; specialize (NE B); now inversion NE) _ _ _ _ d1 data' CH LC ltac:(rewrite W1; exact L) E0 S3 H) as [I1 I2].
    assert (SB : same_below c data d1). { split; [exact W1|]. intros j Hj. apply W2. lia. }
    split; [eapply same_trans; [|exact SB|exact I1]; lia|]. constructor; [|exact I2].
    intros TM k t Ht. unfold tame in TM. rewrite Forall_forall in TM. destruct (TM t (nth_error_In _ _ Ht)) as [_ O]. rewrite <- SO in *. rewrite <- (packed_unique _ _ _ PY S2) in Ht. rewrite <- S1. destruct (W3 k t Ht) as [X1 X2].
    assert (KL : k < length ty) by (apply nth_error_Some; congruence).
    assert (IT : idsl (below c) (snd t)) by (eapply in_term; eauto).
    assert (MV : op_fun (mop y) (mons_val (valuation data) (snd t)) = marked_val (valuation data) (mop y) (snd t)).
    { destruct O as [-> |O]; [reflexivity|]. destruct (snd t) as [|s [|? ?]]; try discriminate. unfold mons_val, marked_val, Rsum. cbn [map fold_right]. now rewrite !Rplus_0_r. }
    unfold mons_val in *. rewrite (mon_vals_ext (below c) (valuation data)); [|intros j Hj; apply (same_val c); [lia|eapply same_trans; [|exact SB|exact I1]; lia|exact Hj|exact L]|exact IT].
    rewrite MV, <- X2. unfold valuation. replace (_ =? _)%N with false by lia. replace (_ =? _)%N with false by lia. rewrite (proj2 I1) by lia. f_equal. lia.
Qed.

(** ** what can be evaluated with rounding can be evaluated without *)
Definition can {A B} (x : res A) (y : res B) : Prop := forall a, x = Ok a -> exists b, y = Ok b.
Section Can.
Variable fl : R -> res R.
Lemma can_mapM {A B C} (f : A -> res B) (g : A -> res C) l : (forall a, can (f a) (g a)) -> can (mapM f l) (mapM g l).
Proof.
  intros H. induction l as [|a l IH]; intros r E; [exists []; reflexivity|]. cbn [mapM] in *. minv E. minv E. destruct (H _ _ E0) as [b Hb]. destruct (IH _ E1) as [bs Hbs].
  rewrite Hb. cbn [bind]. rewrite Hbs. cbn [bind]. eauto.
Qed.
Lemma can_fold f (l l' : list R) : length l = length l' -> can (fold_right1F fl f l) (fold_right1 f l').
Proof.
  revert l'. induction l as [|a l IH]; intros [|b l'] L; try discriminate. intros r E. destruct l as [|c l], l' as [|d l']; try discriminate; [eexists; reflexivity|].
  change (fold_right1F fl f (a :: c :: l)) with (y <- fold_right1F fl f (c :: l);; fl (f a y)) in E. minv E. destruct (IH (d :: l') ltac:(cbn in *; lia) _ E0) as [w W].
  change (fold_right1 f (b :: d :: l')) with (y <- fold_right1 f (d :: l');; Ok (f b y)). rewrite W. cbn [bind]. eauto.
Qed.
Lemma can_get {A B} (l : list A) (l' : list B) i : length l = length l' -> can (get l i) (get l' i).
Proof. intros L r E. unfold get in *. destruct (nth_error l i) as [a|] eqn:EA; [|discriminate]. assert (i < length l) by (apply nth_error_Some; congruence). destruct (nth_error l' i) as [b|] eqn:H'; [eauto|apply nth_error_None in H'; lia]. Qed.
Lemma can_factor data data0 i : length data = length data0 -> can (factor_valueF fl data i) (factor_value data0 i).
Proof.
  intros L r E. unfold factor_valueF in E. minv E. unfold factor_value. assert (D : exists b, data_value data0 (id i) = Ok b).
  { unfold data_valueF in E0. unfold data_value. destruct (ind_constant_start <=? id i)%N; [minv E0; eauto|]. eapply can_get; eauto. }
  destruct D as [b ->]. cbn [bind]. destruct (_ && _); [eauto|discriminate].
Qed.
Lemma can_cmon x data data0 c : length data = length data0 -> can (cmon_valueF fl x data c) (cmon_value x data0 c).
Proof.
  intros L r E. unfold cmon_valueF in E. unfold cmon_value. destruct (is_zero (mq c)); [eauto|]. destruct (mcount c =? 0); [eauto|]. minv E. rewrite E0. cbn [bind]. minv E. minv E.
  destruct (can_mapM _ _ _ (fun i => can_factor data data0 i L) _ E1) as [ws W]. rewrite W. cbn [bind].
  assert (LL : length v0 = length ws). { rewrite (mapM_len _ _ _ E1), (mapM_len _ _ _ W). reflexivity. }
  destruct (can_fold Rmult v0 ws LL _ E2) as [p P]. rewrite P. cbn [bind]. destruct (1 <? _)%Z, (scales _); eauto.
Qed.
Lemma can_cterm x data data0 t : length data = length data0 -> can (cterm_valueF fl x data t) (cterm_value x data0 t).
Proof.
  intros L r E. unfold cterm_valueF in E. unfold cterm_value. minv E. rewrite E0. cbn [bind]. minv E. destruct (can_mapM _ _ _ (fun c => can_cmon x data data0 c L) _ E1) as [ws W]. rewrite W. cbn [bind].
  eapply can_fold; [|exact E]. rewrite (mapM_len _ _ _ E1), (mapM_len _ _ _ W). reflexivity.
Qed.
Lemma can_write x ts : forall off data data0 r, length data = length data0 -> write_tempF fl x ts off data = Ok r -> exists r0, write_temp x ts off data0 = Ok r0 /\ length r = length r0.
Proof.
  induction ts as [|t ts IH]; intros off data data0 r L E; cbn [write_tempF write_temp] in *; [injection E as <-; eauto|]. minv E. minv E. destruct (can_cterm x data data0 t L _ E0) as [b ->]. cbn [bind].
  apply set_ok in E1 as [LI ->]. unfold set. replace (_ <? _) with true by lia. cbn [bind]. eapply IH; [|exact E]. now rewrite !upd_length.
Qed.
Lemma can_temps m nb temps : forall data data0 r, length data = length data0 -> finalize_tempsF fl Exact m nb temps data = Ok r -> exists r0, finalize_temps Exact m nb temps data0 = Ok r0 /\ length r = length r0.
Proof.
  induction temps as [|[x i] temps IH]; intros data data0 r L E; cbn [finalize_tempsF finalize_temps] in *; [injection E as <-; eauto|]. minv E. rewrite E0. cbn [bind]. minv E.
  unfold compute_tempF in E1. unfold compute_temp. minv E1. rewrite E2. cbn [bind]. destruct (can_write _ _ _ _ _ _ L E1) as (d & -> & LD). cbn [bind]. eapply IH; eauto.
Qed.
End Can.

(** ** the results *)
Section Results.
Variable u : R.
Hypothesis u0 : (0 <= u)%R.
Hypothesis u1 : (u < 1)%R.
Variable fl : R -> res R.
Hypothesis FL : rounds u fl.
Lemma result_means rho m nb x v P y : (nb = true -> 2 <= dim m) -> syn (dim m) P x -> mv_means rho (dim m) x v -> result_mv Exact m nb x = Ok y ->
  exists ty, packed y ty /\ mop y = mop_id /\ proper (dim m) ty /\ idsl P (all_mons ty) /\ forall b, val rho ty b = output m nb v b.
Proof.
  intros Hn (tx & PX & PR & ID) M E.
  assert (MY : mv_means rho (dim m) y (output m nb v)).
  { unfold result_mv in E. unfold output. destruct nb; [|injection E as <-; exact M]. rewrite <- (dim_N m) in E |- *. exact (null_means _ _ _ _ _ (Hn eq_refl) M E). }
  destruct MY as (ty & PY & MO & PRY & _ & VY). exists ty. split; [exact PY|]. split; [exact MO|]. split; [exact PRY|]. split; [|exact VY].
  unfold result_mv in E. destruct nb; [|injection E as <-; now rewrite <- (packed_unique _ _ _ PX PY)].
  rewrite <- (dim_N m) in E. unfold to_null_basis in E. destruct (change_flat _ _ _ _ _ PX E) as (t & E2 & Z). rewrite <- (packed_unique _ _ _ Z PY).
  eapply idsl_keys; [eapply s_change_keys; [exact (mv_ok_tdegs _ (pr_ok _ _ PR))|exact E2]|exact ID].
Qed.
Lemma results_near m nb q data data0 c args vs outs : (nb = true -> 2 <= dim m) -> length data <= N.to_nat ind_constant_start -> num q <> 0%Z -> (0 < den q)%Z ->
  Forall (syn (dim m) (below c)) args -> Forall2 (mv_means (valuation data0) (dim m)) args vs -> mapM (finalize_entityF fl Exact m nb q data) args = Ok outs ->
  exists ys txs, mapM (result_mv Exact m nb) args = Ok ys /\ Forall2 packed ys txs /\ Forall2 (fun tx v => forall b, val (valuation data0) tx b = output m nb v b) txs vs /\ Forall (proper (dim m)) txs /\
    forall del, (forall i, below c i -> Rabs (valuation data i - valuation data0 i) <= del i)%R ->
      Forall2 (fun e tx => Forall (fun t : sterm => few_roundings u q (snd t) /\ apart (valuation data0) del (snd t)) tx -> entity_near u (valuation data0) del q e tx) outs txs.
Proof.
  intros Hn L Q0 Q1 F G. revert outs F. induction G as [|x v args vs Gx G IH]; intros outs F H; cbn [mapM] in H.
  - injection H as <-. exists [], []. repeat split; constructor.
  - inversion_clear F as [|? ? Fx F']. minv H. rename v0 into e. minv H. rename v0 into es. injection H as <-. destruct (IH es F' E0) as (ys & txs & I1 & I2 & I3 & I4 & I5).
    unfold finalize_entityF in E. minv E. rename v0 into y. destruct (result_means (valuation data0) m nb x v (below c) y Hn Fx Gx E1) as (ty & PY & MO & PRY & IY & VY).
    exists (y :: ys), (ty :: txs). cbn [mapM]. rewrite E1. cbn [bind]. rewrite I1. split; [reflexivity|]. do 3 (split; [constructor; assumption|]).
    intros del C. constructor; [|exact (I5 del C)]. intros T.
    assert (FR : Forall (fun t : sterm => few_roundings u q (snd t)) ty) by (eapply Forall_impl; [|exact T]; cbn; intros ? [? _]; assumption).
    pose proof (entity_rel u u0 u1 fl FL y q data ty e L MO PY (proper_keep _ _ PRY) Q0 Q1 FR E) as EC. pose proof (proper_keep _ _ PRY) as KY. destruct KY as (KY & _). unfold mv_ok in KY.
    clear -u0 EC T C IY KY. unfold entity_near, entity_computed in *. revert T IY KY. induction EC as [|p t e ty [E1 E2] EC IH]; intros T IY KY; constructor.
    + split; [exact E1|]. inversion_clear T as [|? ? [T1 T2] T3]. rewrite all_mons_cons in IY, KY. apply idsl_app in IY as [IY _]. apply Forall_app in KY as [KY _].
      eapply term_near; eauto. eapply idsl_imp; [|exact IY]. exact C.
    + inversion_clear T as [|? ? _ T3]. rewrite all_mons_cons in IY, KY. apply idsl_app in IY as [_ IY]. apply Forall_app in KY as [_ KY]. now apply IH.
Qed.
Theorem shared_rounded0 m nb ies inputs env l q outs t s : (nb = true -> 2 <= dim m) -> inputs_rep m nb ies inputs env -> bound inputs l ->
  num q <> 0%Z -> (0 < den q)%Z -> applicable m nb ies (list_sum (map (@length R) inputs)) l -> stores_on_top l ->
  neutral_temps m nb ies (list_sum (map (@length R) inputs)) l -> run m env l ([], []) (t, s) -> s <> [] -> computeF fl Exact m nb ies inputs l q = Ok outs ->
  exists ys ts ws txs data, compiled Exact m nb ies (list_sum (map (@length R) inputs)) l = Ok (ys, ts) /\ Forall2 stored_as ts ws /\ Forall2 packed ys txs /\
    (forall j, j < list_sum (map (@length R) inputs) -> nth j data 0%R = nth j (concat inputs) 0%R) /\
    Forall2 (fun tx v => forall b, val (valuation data) tx b = output m nb v b) txs (rev s) /\
    (Forall (tame u) ws -> Forall (exactly (valuation data)) ws /\
      (exists del, (forall i, (i < N.of_nat (list_sum (map (@length R) inputs)))%N -> del i = 0%R) /\ Forall (cells_allowed u (valuation data) del) ws /\
        (Forall (steady u (valuation data) del) ws -> forall i, (0 <= del i)%R)) /\
      forall del, (forall i, 0 <= del i)%R -> Forall (steady u (valuation data) del) ws -> Forall (covered u (valuation data) del) ws ->
        Forall2 (fun e tx => Forall (fun t : sterm => few_roundings u q (snd t) /\ apart (valuation data) del (snd t)) tx -> entity_near u (valuation data) del q e tx) outs txs).
Proof.
  intros Hn IA BD Q0 Q1 AP TOP NT RUN NE H. unfold computeF in H. unfold compiled. set (cnt := list_sum (map (@length R) inputs)) in *.
  minv H. rename v into ins. rewrite E. cbn [bind]. destruct (AP ins E) as [FI LC]. minv H. rename v into st. rewrite E0. cbn [bind]. specialize (LC st E0). pose proof E0 as E0'. unfold rpn_eval in E0.
  pose proof (inputs_fresh _ _ _ _ _ _ _ IA BD E) as F0. fold cnt in F0.
  assert (FR0 : fresh m (N.of_nat cnt) (mkrs ins [] [] (N.of_nat cnt))) by (split; [reflexivity|split; [constructor|exact F0]]).
  pose proof (fits_fresh m nb Hn l _ FI _ _ st (Nat.lt_succ_diag_r _) E0 TOP FR0) as (CH & SY & _).
  pose proof (chain_le m nb Hn _ _ _ CH) as LE.
  minv H. rename v into data. minv H. rename v into data'.
  rewrite repeat_app in E1. pose proof (fill_ok inputs [] (repeat 0%R (N.to_nat (r_cnt st - N.of_nat cnt))) (repeat 0%R cnt) (repeat_length _ _)) as FO.
  cbn [app length] in FO. rewrite FO in E1. injection E1 as <-. pose proof (concat_len inputs) as LCT. fold cnt in LCT.
  set (d0 := concat inputs ++ repeat 0%R (N.to_nat (r_cnt st - N.of_nat cnt))) in *.
  assert (LD : length d0 <= N.to_nat ind_constant_start) by (unfold d0; rewrite app_length, repeat_length, LCT; lia).
  destruct (finalizeF_laid u u0 u1 fl FL m nb (r_temps st) Hn (fun B => NT B ins st E E0') _ _ _ _ CH LC LD E2) as (ts & ws & T1 & TS & TL & SB & T2). rewrite T1. cbn [bind].
  destruct (can_temps fl m nb (r_temps st) d0 d0 data' eq_refl E2) as (data0 & X0 & LX).
  destruct (finalize_laid u m nb (r_temps st) Hn (fun B => NT B ins st E E0') ts ws _ _ d0 data0 CH LC LD T1 TS X0) as [SX EX].
  destruct (finalize_ok m nb (r_temps st) Hn (fun B => NT B ins st E E0') _ _ d0 data0 CH LC LD X0) as [_ TH].
  assert (IN : forall j, j < cnt -> nth j data0 0%R = nth j (concat inputs) 0%R).
  { intros j J. rewrite <- (Nat2N.id j). rewrite (proj2 SX) by lia. rewrite Nat2N.id. unfold d0. now rewrite app_nth1 by lia. }
  assert (IM : inputs_mean (valuation data0) m nb env l ins) by (eapply inputs_meant; eauto; fold cnt; lia).
  assert (ST : Forall2 (mv_means (valuation data0) (dim m)) (r_args st) s).
  { destruct (fits_sound m nb env (valuation data0) (valuation_pi data0) (valuation_e data0) Hn l _ FI _ st [] [] t s [] ins (Nat.lt_succ_diag_r _) E0 RUN) as (_ & ST & _); [constructor|constructor|exact TH|now rewrite app_nil_r|exact IM|exact ST]. }
  pose proof (Forall2_len _ _ _ ST) as LS. destruct (r_args st) as [|x args] eqn:EA; [destruct s; [contradiction|discriminate]|].
  assert (FA : Forall (syn (dim m) (below (r_cnt st))) (rev (x :: args))) by now apply Forall_rev.
  destruct (results_near m nb q data' data0 (r_cnt st) (rev (x :: args)) (rev s) outs Hn ltac:(rewrite (proj1 SB); exact LD) Q0 Q1 FA ltac:(now apply Forall2_rev') H) as (ys & txs & Y1 & Y2 & Y3 & _ & Y5).
  rewrite Y1. cbn [bind]. exists ys, ts, ws, txs, data0. split; [reflexivity|]. split; [exact TS|]. split; [exact Y2|]. split; [exact IN|]. split; [exact Y3|].
  intros TM.
  assert (XX : Forall (exactly (valuation data0)) ws).
  { clear -EX TM. induction EX as [|w ws H EX IH]; constructor; inversion_clear TM as [|? ? M1 M2]; auto. }
  split; [exact XX|]. split.
  - destruct (cover_exists u (valuation data0) ws u0 _ _ (fun _ => 0%R) TL LC TM) as (del & D2 & D3 & D1). exists del. split; [intros i Hi; apply D2; left; exact Hi|]. split; [exact D3|]. apply D1. intros; lra.
  - intros del D S C. apply Y5. apply (cells_near u fl (valuation data') (valuation data0) del ws u0 FL _ _ TL LC); [|exact TM| |exact S|exact XX|exact C].
    + intros i Hi. assert (VV : valuation data' i = valuation data0 i).
      { rewrite (same_val (N.of_nat cnt) d0 data' i ltac:(lia) SB Hi LD), (same_val (N.of_nat cnt) d0 data0 i ltac:(lia) SX Hi LD). reflexivity. }
      rewrite VV, Rminus_diag_eq by reflexivity. rewrite Rabs_R0. apply D.
    + clear -T2 TM. induction T2 as [|w ws H T2 IH]; constructor; inversion_clear TM as [|? ? N1 N2]; auto.
Qed.
Theorem shared_rounded m nb ies inputs env l q outs t s : (nb = true -> 2 <= dim m) -> inputs_are m nb ies inputs env -> bound inputs l ->
  num q <> 0%Z -> (0 < den q)%Z -> applicable m nb ies (list_sum (map (@length R) inputs)) l -> stores_on_top l ->
  neutral_temps m nb ies (list_sum (map (@length R) inputs)) l -> run m env l ([], []) (t, s) -> s <> [] -> computeF fl Exact m nb ies inputs l q = Ok outs ->
  exists ys ts ws txs data, compiled Exact m nb ies (list_sum (map (@length R) inputs)) l = Ok (ys, ts) /\ Forall2 stored_like ts ws /\ Forall2 shows ys txs /\
    (forall j, j < list_sum (map (@length R) inputs) -> nth j data 0%R = nth j (concat inputs) 0%R) /\
    Forall2 (fun tx v => forall b, val (valuation data) tx b = output m nb v b) txs (rev s) /\
    (Forall (tame u) ws -> Forall (exactly (valuation data)) ws /\
      (exists del, (forall i, (i < N.of_nat (list_sum (map (@length R) inputs)))%N -> del i = 0%R) /\ Forall (cells_allowed u (valuation data) del) ws /\
        (Forall (steady u (valuation data) del) ws -> forall i, (0 <= del i)%R)) /\
      forall del, (forall i, 0 <= del i)%R -> Forall (steady u (valuation data) del) ws -> Forall (covered u (valuation data) del) ws ->
        Forall2 (fun e tx => Forall (fun t : sterm => few_roundings u q (snd t) /\ apart (valuation data) del (snd t)) tx -> entity_near u (valuation data) del q e tx) outs txs).
Proof.
  intros Hn IA BD Q0 Q1 AP TOP NT RUN NE H. destruct (inputs_choose _ _ _ _ _ IA) as (ies' & L & SI & IR).
  pose proof (eq_trans (eq_sym (computeF_sim fl Exact m nb ies ies' inputs l q L SI)) H) as H'.
  assert (G : applicable m nb ies' (list_sum (map (@length R) inputs)) l /\ neutral_temps m nb ies' (list_sum (map (@length R) inputs)) l).
  { unfold computeF in H; destruct (rpn_inputs ies (rpn_ids l)) as [ins|] eqn:EI; [|discriminate]; cbn [bind] in H.
    destruct (to_use _ _ _ _ (rpn_inputs_sim ies ies' l L SI) EI) as (ins2 & EI2 & SS).
    assert (S0 : ssim (mkrs ins [] [] (N.of_nat (list_sum (map (@length R) inputs)))) (mkrs ins2 [] [] (N.of_nat (list_sum (map (@length R) inputs))))) by (constructor; cbn; auto; constructor).
    split.
    - intros ins' EI'. rewrite EI' in EI2. injection EI2 as <-. destruct (AP ins EI) as [FI LC].
      split; [eapply fits_sim; eauto|]. intros st' E'. destruct (rpn_eval Exact m nb l ins (N.of_nat (list_sum (map (@length R) inputs)))) as [st|] eqn:E; [|discriminate].
      destruct (to_use _ _ _ _ (run_sim Exact m nb _ _ _ _ S0) E) as (st2 & E2 & S2). unfold rpn_eval in E'. rewrite E' in E2. injection E2 as <-. rewrite <- (ss_cnt _ _ S2). now apply LC.
    - intros B ins' st' EI' E'. rewrite EI' in EI2. injection EI2 as <-. destruct (rpn_eval Exact m nb l ins (N.of_nat (list_sum (map (@length R) inputs)))) as [st|] eqn:E; [|discriminate].
      destruct (to_use _ _ _ _ (run_sim Exact m nb _ _ _ _ S0) E) as (st2 & E2 & S2). unfold rpn_eval in E'. rewrite E' in E2. injection E2 as <-.
      pose proof (NT B ins st EI E) as F. pose proof (ss_temps _ _ S2) as T2. revert F. induction T2 as [|p r ps rs [P1 _] T2 IH]; intros F; constructor; inversion_clear F as [|? ? F1 F2]; [|auto].
      unfold neutral in *. now rewrite <- (si_o _ _ P1), <- (si_t _ _ P1), <- (si_ts _ _ P1). }
  destruct G as [AP' NT']. destruct (shared_rounded0 m nb ies' inputs env l q outs t s Hn IR BD Q0 Q1 AP' TOP NT' RUN NE H') as (ys' & ts' & ws & txs & data & A & B & C & D1 & D2 & D3).
  pose proof (compiled_sim Exact m nb ies ies' (list_sum (map (@length R) inputs)) l L SI) as CS. rewrite A in CS.
  destruct (compiled Exact m nb ies _ l) as [[ys ts]|e]; cbn [to] in CS; [|discriminate]. destruct CS as ([a b] & E & S1 & S2). injection E as <- <-. cbn [fst snd] in *.
  exists ys, ts, ws, txs, data. split; [reflexivity|]. split.
  { clear -S2 B. revert ws B. induction S2 as [|p p' ts ts' [P1 P2] S2 IH]; intros ws B; inversion_clear B as [|? w ? ws' (T1 & T0 & T2) C']; constructor; [|auto]. split; [congruence|]. split; [now rewrite (si_o _ _ P1)|]. eexists; eauto. }
  split.
  { clear -S1 C. revert txs C. induction S1 as [|x y ys ys' S S1 IH]; intros txs C; inversion_clear C as [|? tx ? txs' T C']; constructor; [|auto]. eexists; eauto. }
  split; [exact D1|]. split; [exact D2|]. exact D3.
Qed.
End Results.
(** from the components to the coefficients of blades *)
Lemma near_at u rho del q e tx b : entity_near u rho del q e tx -> (Rabs (entity_val e b - rv q * val rho tx b) <= allowed_at u rho del q tx b)%R.
Proof.
  unfold entity_near, allowed_at, entity_val, val, Rsum. induction 1 as [|p t e tx [H1 H2] F IH]; cbn [map fold_right].
  - rewrite Rmult_0_r, Rminus_0_r, Rabs_R0. lra.
  - rewrite H1. destruct (fst t =? b)%N; [|rewrite !Rplus_0_l; exact IH].
    match goal with |- (Rabs (?a + ?x - ?c * (?d + ?y)) <= _)%R => replace (a + x - c * (d + y))%R with ((a - c * d) + (x - c * y))%R by ring end.
    eapply Rle_trans; [apply Rabs_triang|]. lra.
Qed.
(** ** the terms of a multivector are unique *)
Lemma prefix_eq {A} (a b r r' : list A) : a ++ r = b ++ r' -> length a = length b -> a = b.
Proof. revert b. induction a as [|x a IH]; intros [|y b] H L; cbn in *; try lia; [reflexivity|]. injection H as -> H. f_equal. apply IH; [exact H|lia]. Qed.
Lemma lay_terms_fun ts ts' : forall o, lay_terms o ts = lay_terms o ts' -> all_mons ts = all_mons ts' -> ts = ts'.
Proof.
  revert ts'. induction ts as [|[b l] ts IH]; intros [|[b' l'] ts'] o H M; cbn [lay_terms] in H; try discriminate; [reflexivity|]. injection H as HL HB H. cbn [fst snd] in *. subst b'.
  cbn [all_mons flat_map snd] in M. pose proof (prefix_eq _ _ _ _ M HL) as ->. apply app_inv_head in M. f_equal. eapply IH; [exact H|exact M].
Qed.
Lemma lay_mons_fun ms ms' : forall o o', Forall2 (fun a b => mq a = mq b /\ mdeg a = mdeg b /\ mcount a = mcount b) (lay_mons o ms) (lay_mons o' ms') -> all_inds ms = all_inds ms' -> ms = ms'.
Proof.
  revert ms'. induction ms as [|[q d l] ms IH]; intros [|[q' d' l'] ms'] o o' H M; cbn [lay_mons] in H; try (inversion H; fail); [reflexivity|]. inversion_clear H as [|? ? ? ? (H1 & H2 & H3) H']. cbn in H1, H2, H3. subst q' d'.
  cbn [all_inds flat_map sinds] in M. pose proof (prefix_eq _ _ _ _ M H3) as ->. apply app_inv_head in M. f_equal. eapply IH; eauto.
Qed.
Lemma Forall2_prefix {A B} (P : A -> B -> Prop) a r b r' : Forall2 P (a ++ r) (b ++ r') -> length a = length b -> Forall2 P a b.
Proof. revert b. induction a as [|x a IH]; intros [|y b] H L; cbn in *; try lia; [constructor|]. inversion_clear H. constructor; [assumption|]. apply IH; [assumption|lia]. Qed.
Lemma lay_mons_len o ms : length (lay_mons o ms) = length ms.
Proof. revert o. induction ms; intros; cbn; auto. Qed.
Lemma lay_terms_len o ts : length (lay_terms o ts) = length ts.
Proof. revert o. induction ts; intros; cbn; auto. Qed.
Lemma shows_unique y tx tx' : shows y tx -> shows y tx' -> tx = tx'.
Proof.
  intros (a & S & [[i1 I] [m1 M] [t1 T] LI LM LT]) (b & S' & [[i2 I'] [m2 M'] [t2 T'] LI' LM' LT']).
  assert (EI : all_inds (all_mons tx) = all_inds (all_mons tx')).
  { apply (prefix_eq _ _ i1 i2); [rewrite <- I, <- I', <- (si_is _ _ S), <- (si_is _ _ S'); reflexivity|]. rewrite <- LI, <- LI', <- (si_i _ _ S), <- (si_i _ _ S'). reflexivity. }
  assert (EM : all_mons tx = all_mons tx').
  { eapply (lay_mons_fun _ _ 0 0); [|exact EI]. apply (Forall2_prefix _ _ m1 _ m2); [|rewrite !lay_mons_len, <- LM, <- LM', <- (si_m _ _ S), <- (si_m _ _ S'); reflexivity].
    rewrite <- M, <- M'. pose proof (si_ms _ _ S) as A. pose proof (si_ms _ _ S') as B. clear -A B. revert A B. generalize (isz a) (isz b). intros ka kb A. generalize (mons b). induction A as [|x z xs zs (A1 & A2 & A3 & _) A IH]; intros l B; inversion_clear B as [|? w ? ws (B1 & B2 & B3 & _) B']; constructor; [|auto].
    split; [congruence|]. split; congruence. }
  eapply (lay_terms_fun _ _ 0); [|exact EM]. apply (prefix_eq _ _ t1 t2); [rewrite <- T, <- T', <- (si_ts _ _ S), <- (si_ts _ _ S'); reflexivity|]. rewrite !lay_terms_len, <- LT, <- LT', <- (si_t _ _ S), <- (si_t _ _ S'). reflexivity.
Qed.
Lemma as_many fl md m nb ies inputs l q outs ys ts : computeF fl md m nb ies inputs l q = Ok outs -> compiled md m nb ies (list_sum (map (@length R) inputs)) l = Ok (ys, ts) -> ys <> [] -> length outs = length ys.
Proof.
  unfold computeF, compiled. intros H C NE. minv H. rewrite E in C. cbn [bind] in C. minv H. rewrite E0 in C. cbn [bind] in C. minv C. minv C. injection C as <- <-. minv H. minv H.
  pose proof (mapM_len _ _ _ E2) as L. destruct (r_args v0) as [|x args]; [cbn in L; destruct v2; [contradiction|discriminate]|]. apply mapM_len in H. congruence.
Qed.
