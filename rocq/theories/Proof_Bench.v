(** Taylor bounds of sine and cosine for all reals, for the exponentials of the benchmark (C67). *)
From Coq Require Import Reals Lra Lia.
Local Open Scope R_scope.

(** a function that vanishes at 0 and whose derivative is nonnegative to the right of 0 is nonnegative there *)
Lemma grows (f f' : R -> R) : f 0 = 0 -> (forall x, derivable_pt_lim f x (f' x)) -> (forall x, 0 <= x -> 0 <= f' x) -> forall x, 0 <= x -> 0 <= f x.
Proof.
  intros Z D P x X. destruct (Req_dec x 0) as [->|N]; [rewrite Z; lra|].
  destruct (MVT_cor2 f f' 0 x) as (c & E & C); [lra|intros; apply D|]. rewrite Z in E. pose proof (P c). assert (0 <= f' c * (x - 0)) by (apply Rmult_le_pos; [apply H|]; lra). lra.
Qed.
Lemma der_pow k n x : derivable_pt_lim (fun x => k * x ^ n) x (k * (INR n * x ^ pred n)).
Proof. apply (derivable_pt_lim_scal (fun x => x ^ n)). apply derivable_pt_lim_pow. Qed.

Lemma sin_1 x : 0 <= x -> 0 <= 1 * x ^ 1 - sin x.
Proof.
  apply (grows (fun x => 1 * x ^ 1 - sin x) (fun x => 1 * (INR 1 * x ^ 0) - cos x)).
  - rewrite sin_0. lra.
  - intros y. apply (derivable_pt_lim_minus (fun x => 1 * x ^ 1) sin); [apply der_pow|apply derivable_pt_lim_sin].
  - intros y _. cbn. pose proof (COS_bound y). lra.
Qed.
Lemma cos_2 x : 0 <= x -> 0 <= cos x - (1 - 1 / 2 * x ^ 2).
Proof.
  apply (grows (fun x => cos x - (1 - 1 / 2 * x ^ 2)) (fun x => - sin x - (0 - 1 / 2 * (INR 2 * x ^ 1)))).
  - rewrite cos_0. cbn. lra.
  - intros y. apply (derivable_pt_lim_minus cos (fun x => 1 - 1 / 2 * x ^ 2)); [apply derivable_pt_lim_cos|].
    apply (derivable_pt_lim_minus (fun _ => 1) (fun x => 1 / 2 * x ^ 2)); [apply derivable_pt_lim_const|apply der_pow].
  - intros y Y. cbn -[pow]. pose proof (sin_1 y Y). lra.
Qed.
Lemma sin_3 x : 0 <= x -> 0 <= sin x - (1 * x ^ 1 - 1 / 6 * x ^ 3).
Proof.
  apply (grows (fun x => sin x - (1 * x ^ 1 - 1 / 6 * x ^ 3)) (fun x => cos x - (1 * (INR 1 * x ^ 0) - 1 / 6 * (INR 3 * x ^ 2)))).
  - rewrite sin_0. cbn. lra.
  - intros y. apply (derivable_pt_lim_minus sin (fun x => 1 * x ^ 1 - 1 / 6 * x ^ 3)); [apply derivable_pt_lim_sin|].
    apply (derivable_pt_lim_minus (fun x => 1 * x ^ 1) (fun x => 1 / 6 * x ^ 3)); apply der_pow.
  - intros y Y. replace (INR 3) with 3 by (cbn; lra). pose proof (cos_2 y Y). cbn [INR pow] in *. lra.
Qed.
Lemma cos_4 x : 0 <= x -> 0 <= (1 - 1 / 2 * x ^ 2) + 1 / 24 * x ^ 4 - cos x.
Proof.
  apply (grows (fun x => (1 - 1 / 2 * x ^ 2) + 1 / 24 * x ^ 4 - cos x) (fun x => (0 - 1 / 2 * (INR 2 * x ^ 1)) + 1 / 24 * (INR 4 * x ^ 3) - - sin x)).
  - rewrite cos_0. cbn. lra.
  - intros y. apply (derivable_pt_lim_minus (fun x => (1 - 1 / 2 * x ^ 2) + 1 / 24 * x ^ 4) cos); [|apply derivable_pt_lim_cos].
    apply (derivable_pt_lim_plus (fun x => 1 - 1 / 2 * x ^ 2) (fun x => 1 / 24 * x ^ 4)); [|apply der_pow].
    apply (derivable_pt_lim_minus (fun _ => 1) (fun x => 1 / 2 * x ^ 2)); [apply derivable_pt_lim_const|apply der_pow].
  - intros y Y. replace (INR 4) with 4 by (cbn; lra). replace (INR 2) with 2 by (cbn; lra). pose proof (sin_3 y Y). lra.
Qed.
Lemma sin_5 x : 0 <= x -> 0 <= (1 * x ^ 1 - 1 / 6 * x ^ 3) + 1 / 120 * x ^ 5 - sin x.
Proof.
  apply (grows (fun x => (1 * x ^ 1 - 1 / 6 * x ^ 3) + 1 / 120 * x ^ 5 - sin x) (fun x => (1 * (INR 1 * x ^ 0) - 1 / 6 * (INR 3 * x ^ 2)) + 1 / 120 * (INR 5 * x ^ 4) - cos x)).
  - rewrite sin_0. cbn. lra.
  - intros y. apply (derivable_pt_lim_minus (fun x => (1 * x ^ 1 - 1 / 6 * x ^ 3) + 1 / 120 * x ^ 5) sin); [|apply derivable_pt_lim_sin].
    apply (derivable_pt_lim_plus (fun x => 1 * x ^ 1 - 1 / 6 * x ^ 3) (fun x => 1 / 120 * x ^ 5)); [|apply der_pow].
    apply (derivable_pt_lim_minus (fun x => 1 * x ^ 1) (fun x => 1 / 6 * x ^ 3)); apply der_pow.
  - intros y Y. replace (INR 5) with 5 by (cbn; lra). replace (INR 3) with 3 by (cbn; lra). replace (INR 1) with 1 by (cbn; lra). pose proof (cos_4 y Y). change (y ^ 0) with 1. lra.
Qed.
Lemma cos_6 x : 0 <= x -> 0 <= cos x - ((1 - 1 / 2 * x ^ 2) + 1 / 24 * x ^ 4 - 1 / 720 * x ^ 6).
Proof.
  apply (grows (fun x => cos x - ((1 - 1 / 2 * x ^ 2) + 1 / 24 * x ^ 4 - 1 / 720 * x ^ 6)) (fun x => - sin x - ((0 - 1 / 2 * (INR 2 * x ^ 1)) + 1 / 24 * (INR 4 * x ^ 3) - 1 / 720 * (INR 6 * x ^ 5)))).
  - rewrite cos_0. cbn. lra.
  - intros y. apply (derivable_pt_lim_minus cos (fun x => (1 - 1 / 2 * x ^ 2) + 1 / 24 * x ^ 4 - 1 / 720 * x ^ 6)); [apply derivable_pt_lim_cos|].
    apply (derivable_pt_lim_minus (fun x => (1 - 1 / 2 * x ^ 2) + 1 / 24 * x ^ 4) (fun x => 1 / 720 * x ^ 6)); [|apply der_pow].
    apply (derivable_pt_lim_plus (fun x => 1 - 1 / 2 * x ^ 2) (fun x => 1 / 24 * x ^ 4)); [|apply der_pow].
    apply (derivable_pt_lim_minus (fun _ => 1) (fun x => 1 / 2 * x ^ 2)); [apply derivable_pt_lim_const|apply der_pow].
  - intros y Y. replace (INR 6) with 6 by (cbn; lra). replace (INR 4) with 4 by (cbn; lra). replace (INR 2) with 2 by (cbn; lra). pose proof (sin_5 y Y). lra.
Qed.

(** the remainders of the truncated series, for every real *)
Lemma cos_series x : Rabs (1 - x ^ 2 / 2 + x ^ 4 / 24 - cos x) <= x ^ 6 / 720.
Proof.
  enough (forall x, 0 <= x -> Rabs (1 - x ^ 2 / 2 + x ^ 4 / 24 - cos x) <= x ^ 6 / 720) as H.
  { destruct (Rle_dec 0 x) as [L|L]; [now apply H|]. specialize (H (- x)). rewrite cos_neg in H.
    replace ((- x) ^ 2) with (x ^ 2) in H by ring. replace ((- x) ^ 4) with (x ^ 4) in H by ring. replace ((- x) ^ 6) with (x ^ 6) in H by ring. apply H. lra. }
  intros y Y. pose proof (cos_4 y Y). pose proof (cos_6 y Y). apply Rabs_le. lra.
Qed.
Lemma sin_series x : Rabs (x - x ^ 3 / 6 - sin x) <= Rabs x ^ 5 / 120.
Proof.
  enough (forall x, 0 <= x -> Rabs (x - x ^ 3 / 6 - sin x) <= x ^ 5 / 120) as H.
  { destruct (Rle_dec 0 x) as [L|L]; [rewrite (Rabs_right x) by lra; now apply H|]. specialize (H (- x)). rewrite sin_neg in H. rewrite (Rabs_left x) by lra.
    replace (- x - (- x) ^ 3 / 6 - - sin x) with (- (x - x ^ 3 / 6 - sin x)) in H by field. rewrite Rabs_Ropp in H. apply H. lra. }
  intros y Y. pose proof (sin_3 y Y). pose proof (sin_5 y Y). rewrite pow_1, Rmult_1_l in *. apply Rabs_le. lra.
Qed.
(** the sum of the squares of the truncated series *)
Lemma series_norm x : (1 - x ^ 2 / 2 + x ^ 4 / 24) ^ 2 + (x - x ^ 3 / 6) ^ 2 = 1 - x ^ 6 / 72 + x ^ 8 / 576.
Proof. field. Qed.
Lemma series_norm_pos x : 0 < 1 - x ^ 6 / 72 + x ^ 8 / 576.
Proof.
  rewrite <- series_norm. pose proof (pow2_ge_0 (1 - x ^ 2 / 2 + x ^ 4 / 24)) as A. pose proof (pow2_ge_0 (x - x ^ 3 / 6)) as B.
  destruct (Req_dec ((x - x ^ 3 / 6) ^ 2) 0) as [E|N]; [|lra]. destruct (Req_dec ((1 - x ^ 2 / 2 + x ^ 4 / 24) ^ 2) 0) as [E'|N]; [|lra]. exfalso.
  assert (x - x ^ 3 / 6 = 0) as H by (rewrite <- Rsqr_pow2 in E; apply Rsqr_eq_0; exact E).
  assert (1 - x ^ 2 / 2 + x ^ 4 / 24 = 0) as H' by (rewrite <- Rsqr_pow2 in E'; apply Rsqr_eq_0; exact E').
  replace (x - x ^ 3 / 6) with (x * (1 - x ^ 2 / 6)) in H by field. apply Rmult_integral in H. destruct H as [->|H]; [lra|].
  assert (x ^ 2 = 6) as Q by lra. replace (x ^ 4) with (x ^ 2 * x ^ 2) in H' by ring. rewrite Q in H'. lra.
Qed.
