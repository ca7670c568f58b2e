(** Uniqueness of the exponential: the differential equation has one solution. *)
From Coq Require Import ZArith NArith List Bool Arith Reals Lia Lra FunctionalExtensionality.
From Verif Require Import Base Model_Blade Spec_Clifford Spec_Basis Spec_MV Spec_Expr Spec_Geometry Proof_Geometry.
Import ListNotations.
Local Open Scope list_scope.
Local Open Scope R_scope.

Lemma Rsum_scale {A} k (f : A -> R) l : Rsum (map (fun a => k * f a) l) = k * Rsum (map f l).
Proof. induction l as [|a l IH]; [cbn [map]; change (Rsum []) with 0; ring|]. cbn [map]. rewrite !Rsum_cons, IH. ring. Qed.
Lemma Rsum_le {A} (f g : A -> R) l : (forall a, In a l -> f a <= g a) -> Rsum (map f l) <= Rsum (map g l).
Proof. induction l as [|a l IH]; intros H; [apply Rle_refl|]. cbn [map]. rewrite !Rsum_cons. apply Rplus_le_compat; [apply H; now left|apply IH; intros; apply H; now right]. Qed.
Lemma Rsum_nonneg {A} (f : A -> R) l : (forall a, 0 <= f a) -> 0 <= Rsum (map f l).
Proof. intros H. induction l as [|a l IH]; [apply Rle_refl|]. cbn [map]. rewrite Rsum_cons. specialize (H a). lra. Qed.
Lemma Rsum_one_le {A} (f : A -> R) l a : (forall a, 0 <= f a) -> In a l -> f a <= Rsum (map f l).
Proof.
  intros H. induction l as [|b l IH]; [easy|]. intros [->|I]; cbn [map]; rewrite Rsum_cons; [pose proof (Rsum_nonneg f l H); lra|]. specialize (IH I). specialize (H b). lra.
Qed.
Lemma Rsum_swap {A B} (f : A -> B -> R) l l' : Rsum (map (fun a => Rsum (map (f a) l')) l) = Rsum (map (fun b => Rsum (map (fun a => f a b) l)) l').
Proof.
  induction l as [|a l IH]; cbn [map].
  - change (Rsum []) with 0. symmetry. apply Rsum_zero. reflexivity.
  - rewrite Rsum_cons, IH, <- Rsum_plus. f_equal.
Qed.
Lemma Rsum_const {A} (k : R) (l : list A) : Rsum (map (fun _ => k) l) = INR (length l) * k.
Proof. induction l as [|a l IH]; [cbn [map]; change (Rsum []) with 0; change (INR (length (@nil A))) with 0; ring|]. cbn [map length]. rewrite Rsum_cons, IH, S_INR. ring. Qed.
Lemma Rsum_derivable {A} (f : A -> R -> R) (f' : A -> R) l t : (forall a, In a l -> derivable_pt_lim (f a) t (f' a)) ->
  derivable_pt_lim (fun t => Rsum (map (fun a => f a t) l)) t (Rsum (map f' l)).
Proof.
  induction l as [|a l IH]; intros H.
  - change (derivable_pt_lim (fct_cte 0) t 0). apply derivable_pt_lim_const.
  - cbn [map]. rewrite Rsum_cons. apply (derivable_pt_lim_plus (f a) (fun t => Rsum (map (fun a => f a t) l))); [apply H; now left|apply IH; intros; apply H; now right].
Qed.

(** a linear system that starts at zero stays there *)
Section Linear.
Variables (I : list N) (L : N -> N -> R) (y : R -> N -> R).
Hypothesis ode : forall t b, In b I -> derivable_pt_lim (fun t => y t b) t (Rsum (map (fun c => L b c * y t c) I)).
Hypothesis start : forall b, In b I -> y 0 b = 0.
Let M := Rsum (map (fun b => Rsum (map (fun c => Rabs (L b c)) I)) I).
Let K := 2 * M * INR (length I).
Let energy t := Rsum (map (fun b => y t b * y t b) I).
Let power t := Rsum (map (fun b => 2 * (y t b * Rsum (map (fun c => L b c * y t c) I))) I).
Lemma bounded b c : In b I -> In c I -> Rabs (L b c) <= M.
Proof.
  intros B C. apply Rle_trans with (Rsum (map (fun c => Rabs (L b c)) I)).
  - apply (Rsum_one_le (fun c => Rabs (L b c)) I c); [intros; apply Rabs_pos|exact C].
  - apply (Rsum_one_le (fun b => Rsum (map (fun c => Rabs (L b c)) I)) I b); [intros; apply Rsum_nonneg; intros; apply Rabs_pos|exact B].
Qed.
Lemma power_le t : power t <= K * energy t.
Proof.
  unfold power. apply Rle_trans with (Rsum (map (fun b => Rsum (map (fun c => M * (y t b * y t b) + M * (y t c * y t c)) I)) I)).
  - apply Rsum_le. intros b B. rewrite <- !Rsum_scale. apply Rsum_le. intros c C. pose proof (bounded b c B C) as H.
    assert (P : 2 * (y t b * (L b c * y t c)) <= Rabs (L b c) * (y t b * y t b + y t c * y t c)).
    { destruct (Rle_dec 0 (L b c)) as [G|G]; [rewrite Rabs_pos_eq by exact G|rewrite Rabs_left by lra].
      - assert (0 <= L b c * ((y t b - y t c) * (y t b - y t c))) by (apply Rmult_le_pos; [exact G|apply Rle_0_sqr]). lra.
      - assert (0 <= - L b c * ((y t b + y t c) * (y t b + y t c))) by (apply Rmult_le_pos; [lra|apply Rle_0_sqr]). lra. }
    assert (Q : Rabs (L b c) * (y t b * y t b + y t c * y t c) <= M * (y t b * y t b + y t c * y t c)).
    { apply Rmult_le_compat_r; [|exact H]. pose proof (Rle_0_sqr (y t b)). pose proof (Rle_0_sqr (y t c)). unfold Rsqr in *. lra. }
    lra.
  - right. unfold K, energy. rewrite (map_ext _ (fun b => INR (length I) * (M * (y t b * y t b)) + M * Rsum (map (fun c => y t c * y t c) I))).
    + rewrite Rsum_plus, Rsum_const, !Rsum_scale. ring.
    + intros b. rewrite Rsum_plus, Rsum_const, Rsum_scale. reflexivity.
Qed.
Lemma energy_derivable t : derivable_pt_lim energy t (power t).
Proof.
  apply (Rsum_derivable (fun b t => y t b * y t b)). intros b B. pose proof (ode t b B) as H.
  replace (2 * (y t b * Rsum (map (fun c => L b c * y t c) I))) with (Rsum (map (fun c => L b c * y t c) I) * y t b + y t b * Rsum (map (fun c => L b c * y t c) I)) by ring.
  exact (derivable_pt_lim_mult _ _ t _ _ H H).
Qed.
Lemma stays_zero b : In b I -> y 1 b = 0.
Proof.
  intros B.
  assert (D : forall t, derivable_pt_lim (fun t => energy t * exp (- K * t)) t (power t * exp (- K * t) + energy t * (exp (- K * t) * (- K)))).
  { intros t. apply (derivable_pt_lim_mult energy (fun t => exp (- K * t))); [apply energy_derivable|].
    assert (U : derivable_pt_lim (fun t => - K * t) t (- K)). { pose proof (derivable_pt_lim_scal (fun t => t) (- K) t 1 (derivable_pt_lim_id t)) as H. rewrite Rmult_1_r in H. exact H. }
    exact (derivable_pt_lim_comp _ exp t _ _ U (derivable_pt_lim_exp _)). }
  destruct (MVT_cor2 (fun t => energy t * exp (- K * t)) _ 0 1 Rlt_0_1 (fun c _ => D c)) as (c & E & _).
  assert (Z0 : energy 0 = 0). { apply Rsum_zero. intros a A. rewrite start by exact A. ring. }
  rewrite Z0 in E. pose proof (exp_pos (- K * c)) as P1. pose proof (exp_pos (- K * 1)) as P2. pose proof (power_le c) as P.
  assert (H : energy 1 * exp (- K * 1) <= 0).
  { assert (0 <= (K * energy c - power c) * exp (- K * c)) by (apply Rmult_le_pos; lra). lra. }
  assert (N : energy 1 <= 0). { apply Rnot_lt_le. intros N. pose proof (Rmult_lt_0_compat _ _ N P2). lra. }
  assert (Q : y 1 b * y 1 b <= energy 1). { apply (Rsum_one_le (fun b => y 1 b * y 1 b) I b); [intros; apply Rle_0_sqr|exact B]. }
  apply Rsqr_0_uniq. apply Rle_antisym; [unfold Rsqr; lra|apply Rle_0_sqr].
Qed.
End Linear.

Lemma prod_as_sum m B y b : vprod m Geometric B y b =
  Rsum (map (fun c => Rsum (map (fun a => if (fst (blade_product m Geometric a c) =? b)%N then B a * IZR (snd (blade_product m Geometric a c)) else 0) (blades (dim m))) * y c) (blades (dim m))).
Proof.
  unfold vprod, bilinear. rewrite Rsum_swap. f_equal. apply map_ext. intros c. rewrite (Rmult_comm _ (y c)), <- Rsum_scale. f_equal. apply map_ext. intros a.
  destruct (_ =? b)%N; ring.
Qed.
Theorem exp_unique m B E E' : is_exp m B E -> is_exp m B E' -> forall b, (b < 2 ^ N.of_nat (dim m))%N -> E b = E' b.
Proof.
  intros (f & F0 & F1 & F) (g & G0 & G1 & G) b Hb.
  assert (Z : f 1 b - g 1 b = 0); [|rewrite F1, G1 in Z; lra].
  set (L := fun b c => Rsum (map (fun a => if (fst (blade_product m Geometric a c) =? b)%N then B a * IZR (snd (blade_product m Geometric a c)) else 0) (blades (dim m)))).
  apply (stays_zero (blades (dim m)) L (fun t b => f t b - g t b)).
  - intros t c _. replace (Rsum (map (fun c0 => L c c0 * (f t c0 - g t c0)) (blades (dim m)))) with (vprod m Geometric B (f t) c - vprod m Geometric B (g t) c).
    + apply (derivable_pt_lim_minus (fun t => f t c) (fun t => g t c)); [apply F|apply G].
    + rewrite !prod_as_sum. fold L.
      rewrite (map_ext (fun c0 => L c c0 * (f t c0 - g t c0)) (fun c0 => L c c0 * f t c0 + -1 * (L c c0 * g t c0))) by (intros; ring).
      rewrite Rsum_plus, Rsum_scale. unfold L. ring.
  - intros c _. rewrite F0, G0. ring.
  - now apply in_blades.
Qed.
