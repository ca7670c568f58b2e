From Coq Require Import ZArith NArith QArith List Bool Lia ZifyBool ZifyN ZifyNat Reals Lra Floats.SpecFloat.
From Verif Require Import Base Model_Numeric Spec_Numeric.
Import ListNotations.
Open Scope Z_scope.

(** inversion of monadic binds *)
Lemma bind_ok {A B} (x : res A) (f : A -> res B) b :
  bind x f = Ok b -> exists a, x = Ok a /\ f a = Ok b.
Proof. destruct x; simpl; [eauto|discriminate]. Qed.

Ltac minv H :=
  match type of H with
  | bind _ _ = Ok _ => apply bind_ok in H; let a := fresh "v" in let H1 := fresh "E" in
                       destruct H as [a [H1 H]]
  end.

Lemma chk_ok z z' : chk z = Ok z' -> z' = z /\ in_int32 z = true.
Proof. unfold chk. destruct (in_int32 z) eqn:E; [|discriminate]. intros H; injection H as <-. auto. Qed.
Lemma imul_ok a b z : imul a b = Ok z -> z = a * b /\ in_int32 z = true.
Proof. intros H. apply chk_ok in H. destruct H as [-> ?]. auto. Qed.
Lemma iadd_ok a b z : iadd a b = Ok z -> z = a + b /\ in_int32 z = true.
Proof. intros H. apply chk_ok in H. destruct H as [-> ?]. auto. Qed.
Lemma ineg_ok a z : ineg a = Ok z -> z = - a /\ in_int32 z = true.
Proof. intros H. apply chk_ok in H. destruct H as [-> ?]. auto. Qed.
Lemma igcd_ok a b g : igcd a b = Ok g -> g = Z.gcd a b.
Proof. unfold igcd. destruct (_ && _); [|discriminate]. congruence. Qed.
Lemma idiv_ok a b z : idiv a b = Ok z -> z = Z.quot a b /\ b <> 0 /\ in_int32 z = true.
Proof.
  unfold idiv. destruct (Z.eqb_spec b 0); [discriminate|]. intros H. apply chk_ok in H.
  destruct H as [-> ?]. auto.
Qed.

Ltac inv_all :=
  repeat match goal with
  | H : bind _ _ = Ok _ |- _ => minv H
  | H : chk _ = Ok _ |- _ => apply chk_ok in H; destruct H
  | H : imul _ _ = Ok _ |- _ => apply imul_ok in H; destruct H
  | H : iadd _ _ = Ok _ |- _ => apply iadd_ok in H; destruct H
  | H : ineg _ = Ok _ |- _ => apply ineg_ok in H; destruct H
  | H : igcd _ _ = Ok _ |- _ => apply igcd_ok in H
  | H : idiv _ _ = Ok _ |- _ => apply idiv_ok in H; destruct H as [? [? ?]]
  | H : Ok _ = Ok _ |- _ => injection H as H
  | H : Err _ = Ok _ |- _ => discriminate H
  end.

(** ** value relation: cross-multiplied *)
Definition feq (n d n' d' : Z) : Prop := d <> 0 /\ d' <> 0 /\ n * d' = n' * d.

Lemma qval_feq r n d : feq (num r) (den r) n d -> (qval r == inject_Z n / inject_Z d)%Q.
Proof.
  intros [H1 [H2 H]]. unfold qval.
  assert (N1 : ~ (inject_Z (den r) == 0)%Q) by (intros E; apply H1; unfold Qeq in E; simpl in E; lia).
  assert (N2 : ~ (inject_Z d == 0)%Q) by (intros E; apply H2; unfold Qeq in E; simpl in E; lia).
  assert (E : (inject_Z (num r) * inject_Z d == inject_Z n * inject_Z (den r))%Q).
  { rewrite <- !inject_Z_mult. now rewrite H. }
  assert (X : (inject_Z (num r) == inject_Z n * inject_Z (den r) / inject_Z d)%Q).
  { rewrite <- E. field. assumption. }
  rewrite X. field. split; assumption.
Qed.

Lemma rv_feq r n d : feq (num r) (den r) n d -> rv r = (IZR n / IZR d)%R.
Proof.
  intros [H1 [H2 H]]. unfold rv.
  assert (N1 : IZR (den r) <> 0%R) by now apply not_0_IZR.
  assert (N2 : IZR d <> 0%R) by now apply not_0_IZR.
  assert (E : (IZR (num r) * IZR d = IZR n * IZR (den r))%R) by (rewrite <- !mult_IZR; now rewrite H).
  apply (Rmult_eq_reg_r (IZR (den r) * IZR d)); [|now apply Rmult_integral_contrapositive].
  field_simplify; [|assumption|assumption]. lra.
Qed.

Lemma quot_gcd_l n d : Z.gcd n d <> 0 -> Z.quot n (Z.gcd n d) * Z.gcd n d = n.
Proof.
  intros H. destruct (Z.gcd_divide_l n d) as [k Hk]. rewrite Hk at 1. rewrite Z.quot_mul by assumption. lia.
Qed.
Lemma quot_gcd_r n d : Z.gcd n d <> 0 -> Z.quot d (Z.gcd n d) * Z.gcd n d = d.
Proof.
  intros H. destruct (Z.gcd_divide_r n d) as [k Hk]. rewrite Hk at 1. rewrite Z.quot_mul by assumption. lia.
Qed.

(** what a result must satisfy: same value, denominator sign kept, lowest terms, fits *)
Definition good (r : rat) (n d : Z) : Prop :=
  feq (num r) (den r) n d /\ (0 < d -> 0 < den r) /\ lowest r.

Lemma reduced_good n d g n' d' :
  d <> 0 -> g = Z.gcd n d -> 1 < g -> n' = Z.quot n g -> d' = Z.quot d g -> good (mkrat n' d') n d.
Proof.
  intros Hd -> Hg -> ->.
  pose proof (quot_gcd_l n d ltac:(lia)) as Q1. pose proof (quot_gcd_r n d ltac:(lia)) as Q2.
  set (g := Z.gcd n d) in *. set (n' := Z.quot n g) in *. set (d' := Z.quot d g) in *.
  split; [|split]; simpl.
  - split; [|split]; [lia|assumption|]. simpl. rewrite <- Q1, <- Q2 at 1. ring.
  - intros. nia.
  - unfold lowest. simpl.
    assert (E : g * Z.gcd n' d' = g).
    { rewrite <- (Z.gcd_mul_mono_l_nonneg n' d' g) by lia.
      replace (g * n') with n by lia. replace (g * d') with d by lia. reflexivity. }
    nia.
Qed.

Lemma reduce_good n d r : d <> 0 -> reduce n d = Ok r -> good r n d.
Proof.
  intros Hd H. unfold reduce in H. inv_all.
  destruct (1 <? v) eqn:G; inv_all; subst.
  - now apply (reduced_good n d (Z.gcd n d)); try lia.
  - split; [|split]; simpl; auto.
    + now repeat split.
    + unfold lowest. simpl. pose proof (Z.gcd_nonneg n d).
      assert (Z.gcd n d <> 0) by (intros E; apply Z.gcd_eq_0_r in E; contradiction). lia.
Qed.

Lemma reduce_fits n d r : in_int32 n = true -> in_int32 d = true -> reduce n d = Ok r -> fits r.
Proof.
  intros Hn Hd H. unfold reduce in H. inv_all. destruct (1 <? v) eqn:G; inv_all; subst; now split.
Qed.

(** ** the gate *)
Lemma gate_exact r r' : den r <> 0 -> overflow_gate Exact r = Ok r' -> good r' (num r) (den r).
Proof.
  intros Hd H. unfold overflow_gate in H.
  destruct (den r <? 1024) eqn:E; [now apply reduce_good|].
  inv_all. destruct (1 <? v) eqn:G; inv_all; subst.
  - now apply (reduced_good (num r) (den r) (Z.gcd (num r) (den r))); try lia.
  - unfold rounding in H.
    destruct (f64_lt (f64_abs (f64_div _ _)) f64_1em7); [discriminate|].
    destruct (f64_lt _ _); [destruct (_ =? 1); discriminate|]. inv_all. subst.
    split; [|split]; auto.
    + now repeat split.
    + unfold lowest. pose proof (Z.gcd_nonneg (num r') (den r')).
      assert (Z.gcd (num r') (den r') <> 0) by (intros X; apply Z.gcd_eq_0_r in X; contradiction). lia.
Qed.

Lemma gate_exact_code r r' : overflow_gate Exact r = Ok r' -> overflow_gate Code r = Ok r'.
Proof.
  unfold overflow_gate. destruct (den r <? 1024); [auto|].
  destruct (igcd (num r) (den r)); simpl; [|auto]. destruct (1 <? a); [auto|].
  unfold rounding. destruct (f64_lt _ _); [discriminate|]. destruct (f64_lt _ _); [|auto].
  destruct (_ =? 1); discriminate.
Qed.

Lemma gate_code_small r : den r < 1024 -> overflow_gate Code r = overflow_gate Exact r.
Proof. intros H. unfold overflow_gate. now replace (den r <? 1024) with true by lia. Qed.

Lemma gate_code_reducible r : 1 < Z.gcd (num r) (den r) -> overflow_gate Code r = overflow_gate Exact r.
Proof.
  intros H. unfold overflow_gate. destruct (den r <? 1024); [reflexivity|].
  destruct (igcd (num r) (den r)) eqn:G; simpl; [|reflexivity].
  apply igcd_ok in G. subst. now replace (1 <? Z.gcd (num r) (den r)) with true by lia.
Qed.

Lemma gate_fits md r r' : fits r -> overflow_gate md r = Ok r' -> fits r'.
Proof.
  intros [Hn Hd] H. unfold overflow_gate in H.
  destruct (den r <? 1024); [now apply reduce_fits in H|].
  inv_all. destruct (1 <? v); inv_all; subst; [now split|].
  unfold rounding in H. destruct md.
  - destruct (f64_lt (f64_abs (f64_div _ _)) f64_1em7); [injection H as <-; now split|].
    destruct (f64_lt _ _); [|injection H as <-; now split].
    destruct (_ =? 1); inv_all; subst.
    + eapply reduce_fits; [| |eassumption]; assumption.
    + eapply reduce_fits; [| |eassumption]; assumption.
  - destruct (f64_lt (f64_abs (f64_div _ _)) f64_1em7); [discriminate|].
    destruct (f64_lt _ _); [destruct (_ =? 1); discriminate|]. injection H as <-; now split.
Qed.

(** the gate keeps denominators positive, also when it rounds *)
Lemma reduce_pos n d r : 0 < d -> reduce n d = Ok r -> 0 < den r.
Proof. intros Hd H. apply reduce_good in H; [|lia]. now apply H. Qed.

Lemma gate_pos md r r' : 0 < den r -> overflow_gate md r = Ok r' -> 0 < den r'.
Proof.
  intros Hd H. unfold overflow_gate in H.
  destruct (den r <? 1024) eqn:L; [now apply reduce_pos in H|].
  inv_all. destruct (1 <? v) eqn:G; inv_all; subst.
  - pose proof (quot_gcd_r (num r) (den r) ltac:(lia)). simpl. nia.
  - unfold rounding in H. destruct md.
    + destruct (f64_lt (f64_abs (f64_div _ _)) f64_1em7); [injection H as <-; simpl; lia|].
      destruct (f64_lt _ _); [|injection H as <-; assumption].
      destruct (_ =? 1); inv_all; subst; (eapply reduce_pos; [|eassumption]).
      * rewrite Z.quot_div_nonneg by lia. apply Z.div_str_pos. lia.
      * rewrite Z.quot_div_nonneg by lia. apply Z.div_str_pos. lia.
    + destruct (f64_lt (f64_abs (f64_div _ _)) f64_1em7); [discriminate|].
      destruct (f64_lt _ _); [destruct (_ =? 1); discriminate|]. injection H as <-; assumption.
Qed.

(** ** operators in exact mode *)
Lemma feq_refl n d : d <> 0 -> feq n d n d.
Proof. repeat split; auto. Qed.
Lemma feq_zero d : d <> 0 -> feq 0 1 0 d.
Proof. intros. repeat split; lia. Qed.

Definition val_ok (r : rat) (n d : Z) : Prop :=
  feq (num r) (den r) n d /\ (0 < d -> 0 < den r).
Lemma good_val_ok r n d : good r n d -> val_ok r n d.
Proof. intros [H1 [H2 _]]; split; auto. Qed.

Lemma rmul_exact a b r : den a <> 0 -> den b <> 0 -> rmul Exact a b = Ok r ->
  val_ok r (num a * num b) (den a * den b).
Proof.
  intros Ha Hb H. assert (Hab : den a * den b <> 0) by nia.
  unfold rmul in H. inv_all. subst.
  destruct (Z.eqb_spec (num a * num b) 0) as [E|E].
  - injection H as <-. rewrite E. split; simpl; [now apply feq_zero|lia].
  - destruct (1 <? den a * den b) eqn:D.
    + apply gate_exact in H; [|assumption]. now apply good_val_ok.
    + injection H as <-. split; simpl; [now apply feq_refl|auto].
Qed.

Lemma radd_exact a b r : den a <> 0 -> den b <> 0 -> radd Exact a b = Ok r ->
  val_ok r (num a * den b + num b * den a) (den a * den b).
Proof.
  intros Ha Hb H. assert (Hab : den a * den b <> 0) by nia.
  unfold radd in H. inv_all. subst.
  destruct (Z.eqb_spec (num a * den b + num b * den a) 0) as [E|E].
  - injection H as <-. rewrite E. split; simpl; [now apply feq_zero|lia].
  - inv_all. subst. destruct (1 <? den a * den b) eqn:D.
    + apply gate_exact in H; [|assumption]. now apply good_val_ok.
    + injection H as <-. split; simpl; [now apply feq_refl|auto].
Qed.

Lemma rneg_ok a r : rneg a = Ok r -> r = mkrat (- num a) (den a).
Proof. unfold rneg. intros H. inv_all. now subst. Qed.

Lemma rsub_exact a b r : den a <> 0 -> den b <> 0 -> rsub Exact a b = Ok r ->
  val_ok r (num a * den b - num b * den a) (den a * den b).
Proof.
  intros Ha Hb H. unfold rsub in H. minv H. apply rneg_ok in E. subst.
  apply radd_exact in H; [|assumption|assumption]. simpl in H.
  replace (num a * den b - num b * den a) with (num a * den b + - num b * den a) by ring. assumption.
Qed.

Lemma rdiv_exact a b r : den a <> 0 -> den b <> 0 -> num b <> 0 -> rdiv Exact a b = Ok r ->
  feq (num r) (den r) (num a * den b) (num b * den a) /\ 0 < den r.
Proof.
  intros Ha Hb Hn H. assert (Hab : num b * den a <> 0) by nia.
  unfold rdiv in H. inv_all. subst.
  destruct (Z.eqb_spec (num a * den b) 0) as [E|E].
  - injection H as <-. rewrite E. simpl. split; [now apply feq_zero|lia].
  - minv H. match goal with E0 : iabs _ = Ok ?w |- _ =>
      assert (X : w = Z.abs (num b * den a));
      [unfold iabs in E0; destruct (Z.ltb_spec (num b * den a) 0); inv_all; lia|];
      subst w; clear E0 end. destruct (1 <? Z.abs (num b * den a)) eqn:D.
    + destruct (Z.ltb_spec (num b * den a) 0) as [L|L]; inv_all; subst.
      * apply gate_exact in H; simpl in *; [|lia]. destruct H as [[F1 [F2 F3]] [P _]].
        split; [|apply P; lia]. repeat split; try assumption. nia.
      * apply gate_exact in H; simpl in *; [|lia]. destruct H as [F [P _]].
        split; [assumption|apply P; lia].
    + destruct (Z.ltb_spec (num b * den a) 0) as [L|L]; inv_all; subst; simpl.
      * split; [|lia]. repeat split; try lia.
      * split; [|lia]. now apply feq_refl.
Qed.

Lemma rdiv_int_exact a k r : den a <> 0 -> k <> 0 -> rdiv_int Exact a k = Ok r ->
  feq (num r) (den r) (num a) (den a * k) /\ (0 < den a -> 0 < den r).
Proof.
  intros Ha Hk H. unfold rdiv_int in H. destruct (Z.ltb_spec k 0) as [L|L]; inv_all; subst.
  - apply gate_exact in H; simpl in *; [|nia]. destruct H as [[F1 [F2 F3]] [P _]].
    split; [|intros; apply P; nia]. repeat split; try assumption; nia.
  - apply gate_exact in H; simpl in *; [|nia]. destruct H as [F [P _]].
    split; [assumption|intros; apply P; nia].
Qed.

Lemma rmul_assign_good a b r : den a <> 0 -> den b <> 0 -> rmul_assign a b = Ok r ->
  val_ok r (num a * num b) (den a * den b).
Proof.
  intros Ha Hb H. assert (Hab : den a * den b <> 0) by nia.
  unfold rmul_assign in H. inv_all. subst.
  destruct (Z.eqb_spec (num a * num b) 0) as [E|E].
  - injection H as <-. rewrite E. split; simpl; [now apply feq_zero|lia].
  - destruct (1 <? den a * den b) eqn:D.
    + apply reduce_good in H; [|assumption]. now apply good_val_ok.
    + injection H as <-. split; simpl; [now apply feq_refl|auto].
Qed.

Lemma radd_assign_good a b r : den a <> 0 -> den b <> 0 -> radd_assign a b = Ok r ->
  val_ok r (num a * den b + num b * den a) (den a * den b).
Proof.
  intros Ha Hb H. assert (Hab : den a * den b <> 0) by nia.
  unfold radd_assign in H. inv_all. subst.
  destruct (Z.eqb_spec (num a * den b + num b * den a) 0) as [E|E].
  - injection H as <-. rewrite E. split; simpl; [now apply feq_zero|lia].
  - inv_all. subst. destruct (1 <? den a * den b) eqn:D.
    + apply reduce_good in H; [|assumption]. now apply good_val_ok.
    + injection H as <-. split; simpl; [now apply feq_refl|auto].
Qed.

(** ** Q-level statements *)
Lemma inj_ne0 d : d <> 0 -> ~ (inject_Z d == 0)%Q.
Proof. intros H E. apply H. unfold Qeq in E. simpl in E. lia. Qed.

Lemma q_mul a b r : val_ok r (num a * num b) (den a * den b) -> den a <> 0 -> den b <> 0 ->
  (qval r == qval a * qval b)%Q.
Proof.
  intros [H _] Ha Hb. apply qval_feq in H. rewrite H. unfold qval. rewrite !inject_Z_mult.
  field. split; now apply inj_ne0.
Qed.
Lemma q_add a b r : val_ok r (num a * den b + num b * den a) (den a * den b) -> den a <> 0 -> den b <> 0 ->
  (qval r == qval a + qval b)%Q.
Proof.
  intros [H _] Ha Hb. apply qval_feq in H. rewrite H. unfold qval. rewrite inject_Z_plus, !inject_Z_mult.
  field. split; now apply inj_ne0.
Qed.
Lemma q_sub a b r : val_ok r (num a * den b - num b * den a) (den a * den b) -> den a <> 0 -> den b <> 0 ->
  (qval r == qval a - qval b)%Q.
Proof.
  intros [H _] Ha Hb. apply qval_feq in H. rewrite H. unfold qval.
  replace (num a * den b - num b * den a) with (num a * den b + - (num b * den a)) by ring.
  rewrite inject_Z_plus, inject_Z_opp, !inject_Z_mult.
  field. split; now apply inj_ne0.
Qed.
Lemma q_div a b r : feq (num r) (den r) (num a * den b) (num b * den a) -> den a <> 0 -> den b <> 0 -> num b <> 0 ->
  (qval r == qval a / qval b)%Q.
Proof.
  intros H Ha Hb Hn. apply qval_feq in H. rewrite H. unfold qval. rewrite !inject_Z_mult.
  field. repeat split; now apply inj_ne0.
Qed.

(** code mode = exact mode when the raw denominator is below 1024 *)
Lemma rmul_small a b : den a * den b < 1024 -> rmul Code a b = rmul Exact a b.
Proof.
  intros H. unfold rmul. destruct (imul (num a) (num b)); simpl; [|reflexivity].
  destruct (imul (den a) (den b)) eqn:E; simpl; [|reflexivity].
  apply imul_ok in E. destruct E as [-> _]. destruct (a0 =? 0); [reflexivity|].
  destruct (1 <? _); [|reflexivity]. now apply gate_code_small.
Qed.
Lemma radd_small a b : den a * den b < 1024 -> radd Code a b = radd Exact a b.
Proof.
  intros H. unfold radd. destruct (imul (num a) (den b)); simpl; [|reflexivity].
  destruct (imul (num b) (den a)); simpl; [|reflexivity].
  destruct (iadd a0 a1); simpl; [|reflexivity]. destruct (a2 =? 0); [reflexivity|].
  destruct (imul (den a) (den b)) eqn:E; simpl; [|reflexivity].
  apply imul_ok in E. destruct E as [-> _].
  destruct (1 <? _); [|reflexivity]. now apply gate_code_small.
Qed.
Lemma rsub_small a b : den a * den b < 1024 -> rsub Code a b = rsub Exact a b.
Proof.
  intros H. unfold rsub. destruct (rneg b) eqn:E; simpl; [|reflexivity].
  apply rneg_ok in E. subst. now apply radd_small.
Qed.
Lemma rdiv_small a b : Z.abs (num b * den a) < 1024 -> rdiv Code a b = rdiv Exact a b.
Proof.
  intros H. unfold rdiv. destruct (imul (num a) (den b)) as [n|]; simpl; [|reflexivity].
  destruct (imul (num b) (den a)) as [d|] eqn:E; simpl; [|reflexivity].
  apply imul_ok in E. destruct E as [-> _]. destruct (n =? 0); [reflexivity|].
  destruct (iabs _); simpl; [|reflexivity]. destruct (1 <? a0); [|reflexivity].
  destruct (num b * den a <? 0); simpl.
  - destruct (ineg n); simpl; [|reflexivity]. destruct (ineg (num b * den a)) eqn:X; simpl; [|reflexivity].
    apply ineg_ok in X. destruct X as [-> _]. apply gate_code_small. simpl. lia.
  - apply gate_code_small. simpl. lia.
Qed.

Lemma rmul_exact_code a b r : rmul Exact a b = Ok r -> rmul Code a b = Ok r.
Proof.
  unfold rmul. destruct (imul _ _); simpl; [|auto]. destruct (imul _ _); simpl; [|auto].
  destruct (_ =? 0); [auto|]. destruct (1 <? _); [|auto]. apply gate_exact_code.
Qed.
Lemma radd_exact_code a b r : radd Exact a b = Ok r -> radd Code a b = Ok r.
Proof.
  unfold radd. destruct (imul _ _); simpl; [|auto]. destruct (imul _ _); simpl; [|auto].
  destruct (iadd _ _); simpl; [|auto].
  destruct (_ =? 0); [auto|]. destruct (imul _ _); simpl; [|auto]. destruct (1 <? _); [|auto]. apply gate_exact_code.
Qed.

(** results fit 32 bits, in both modes *)
Lemma rmul_fits md a b r : rmul md a b = Ok r -> fits r.
Proof.
  intros H. unfold rmul in H. inv_all. subst. destruct (_ =? 0); [injection H as <-; now split|].
  destruct (1 <? _); [|injection H as <-; now split]. eapply gate_fits; [|eassumption]. now split.
Qed.
Lemma radd_fits md a b r : radd md a b = Ok r -> fits r.
Proof.
  intros H. unfold radd in H. inv_all. subst. destruct (_ =? 0); [injection H as <-; now split|].
  inv_all. destruct (1 <? _); [|injection H as <-; now split]. eapply gate_fits; [|eassumption]. now split.
Qed.
Lemma rdiv_fits md a b r : rdiv md a b = Ok r -> fits r.
Proof.
  intros H. unfold rdiv in H. inv_all. subst. destruct (_ =? 0); [injection H as <-; now split|].
  inv_all. destruct (1 <? _).
  - destruct (_ <? 0); inv_all.
    + eapply gate_fits; [|eassumption]. now split.
    + eapply gate_fits; [|eassumption]. now split.
  - destruct (_ <? 0); inv_all; subst; now split.
Qed.

(** no error other than overflow, and none at all when the exact result fits *)
Definition small (z : Z) : Prop := Z.abs z <= int_max.
Lemma small_in z : small z -> in_int32 z = true.
Proof. unfold small, in_int32, int_min, int_max. lia. Qed.

Lemma reduce_total n d : small n -> small d -> d <> 0 -> exists r, reduce n d = Ok r.
Proof.
  intros Hn Hd H0. unfold reduce, igcd.
  unfold small in *. replace (_ && _) with true by lia. simpl.
  destruct (1 <? Z.gcd n d) eqn:G; [|eauto].
  unfold idiv. replace (Z.gcd n d =? 0) with false by lia. unfold chk.
  assert (A : forall x, Z.abs x <= int_max -> in_int32 (Z.quot x (Z.gcd n d)) = true).
  { intros x Hx. apply small_in. unfold small.
    assert (Q1 : Z.abs (Z.quot x (Z.gcd n d)) = Z.quot (Z.abs x) (Z.gcd n d)).
    { rewrite <- (Z.abs_eq (Z.gcd n d)) at 2 by lia. symmetry. apply Z.quot_abs. lia. }
    rewrite Q1. rewrite Z.quot_div_nonneg by lia.
    assert (Z.abs x / Z.gcd n d <= Z.abs x) by (apply Z.div_le_upper_bound; nia). lia. }
  rewrite !A by assumption. simpl. eauto.
Qed.

Lemma gate_total r : small (num r) -> small (den r) -> 0 < den r -> exists r', overflow_gate Code r = Ok r'.
Proof.
  intros Hn Hd H0. unfold overflow_gate.
  destruct (den r <? 1024) eqn:L; [apply reduce_total; (assumption || lia)|].
  destruct (reduce_total (num r) (den r) Hn Hd ltac:(lia)) as [r0 R0].
  unfold reduce in R0. destruct (igcd (num r) (den r)); simpl in *; [|discriminate].
  destruct (1 <? a); [eauto|]. unfold rounding.
  destruct (f64_lt _ _); [eauto|]. destruct (f64_lt _ _); [|eauto].
  unfold small in *.
  assert (Q2 : forall x, Z.abs x <= int_max + 1 -> Z.abs (Z.quot x 2) <= int_max).
  { intros x Hx. pose proof (Z.quot_abs x 2 ltac:(lia)) as Q1. rewrite <- Q1.
    change (Z.abs 2) with 2. rewrite Z.quot_div_nonneg by lia.
    unfold int_max in *. apply Z.div_le_upper_bound; lia. }
  assert (S : forall x, Z.abs x <= int_max + 1 -> idiv x 2 = Ok (Z.quot x 2)).
  { intros x Hx. unfold idiv. simpl. unfold chk. rewrite small_in; [reflexivity|]. unfold small. auto. }
  destruct (_ =? 1) eqn:O.
  - unfold chk.
    assert (num r - 1 >= int_min) by (unfold int_min, int_max in *; lia).
    replace (in_int32 (num r - 1)) with true by (unfold in_int32, int_min, int_max in *; lia). simpl.
    rewrite S by (unfold int_max in *; lia). simpl. rewrite S by lia. simpl.
    apply reduce_total; unfold small; try (apply Q2; unfold int_max in *; lia).
    rewrite Z.quot_div_nonneg by lia. assert (0 < den r / 2) by (apply Z.div_str_pos; lia). lia.
  - rewrite S by lia. simpl. unfold chk.
    replace (in_int32 (den r - 1)) with true by (unfold in_int32, int_min, int_max in *; lia). simpl.
    rewrite S by (unfold int_max in *; lia). simpl.
    apply reduce_total; unfold small; try (apply Q2; unfold int_max in *; lia).
    rewrite Z.quot_div_nonneg by lia. assert (0 < (den r - 1) / 2) by (apply Z.div_str_pos; lia). lia.
Qed.

Lemma rmul_total a b : small (num a * num b) -> small (den a * den b) -> 0 < den a * den b ->
  exists r, rmul Code a b = Ok r.
Proof.
  intros H1 H2 H3. unfold rmul, imul, chk. rewrite !small_in by assumption. simpl.
  destruct (_ =? 0); [eauto|]. destruct (1 <? _); [|eauto]. now apply gate_total.
Qed.
Lemma radd_total a b : small (num a * den b) -> small (num b * den a) ->
  small (num a * den b + num b * den a) -> small (den a * den b) -> 0 < den a * den b ->
  exists r, radd Code a b = Ok r.
Proof.
  intros H1 H2 H3 H4 H5. unfold radd, imul, iadd, chk. rewrite !small_in by assumption. simpl.
  rewrite !small_in by assumption. simpl.
  destruct (_ =? 0); [eauto|]. destruct (1 <? _); [|eauto]. now apply gate_total.
Qed.

(** ** comparison *)
Lemma rlt_spec a b x : 0 < den a -> 0 < den b -> rlt a b = Ok x -> (x = true <-> (qval a < qval b)%Q).
Proof.
  intros Ha Hb H. unfold rlt in H. inv_all. subst.
  assert (P : forall r, 0 < den r -> (qval r == num r # Z.to_pos (den r))%Q).
  { intros r Hr. rewrite Qmake_Qdiv. unfold qval. rewrite Z2Pos.id by assumption. reflexivity. }
  rewrite (P a Ha), (P b Hb). unfold Qlt. simpl. rewrite !Z2Pos.id by assumption. apply Z.ltb_lt.
Qed.
Lemma rgt_spec a b x : 0 < den a -> 0 < den b -> rgt a b = Ok x -> (x = true <-> (qval b < qval a)%Q).
Proof.
  intros Ha Hb H. apply (rlt_spec b a x Hb Ha).
  unfold rgt in H. unfold rlt. inv_all. subst.
  unfold imul, chk. replace (in_int32 (num b * den a)) with true. replace (in_int32 (num a * den b)) with true.
  reflexivity.
Qed.

(** what == really computes (positive denominators): the left side is the integer part of the right *)
Lemma req_actual a b x : 0 < den a -> 0 < den b -> req a b = Ok x ->
  (x = true <-> num a = Z.quot (num b) (den b) * den a).
Proof.
  intros Ha Hb H. unfold req in H. inv_all. subst.
  rewrite Z.gcd_diag, (Z.abs_eq (den b)) in * by lia.
  assert (G : Z.gcd (num a) (den a) <> 0) by assumption.
  pose proof (quot_gcd_l _ _ G) as L. pose proof (quot_gcd_r _ _ G) as Rr.
  assert (Gp : 0 < Z.gcd (num a) (den a)) by (pose proof (Z.gcd_nonneg (num a) (den a)); lia).
  set (g := Z.gcd (num a) (den a)) in *.
  destruct (Z.eqb_spec (Z.quot (num a) g) (Z.quot (num b) (den b))) as [E|E].
  - inv_all. subst. rewrite Z.quot_same by lia.
    rewrite <- E.
    assert (LW : Z.gcd (Z.quot (num a) g) (Z.quot (den a) g) = 1).
    { assert (X : g * Z.gcd (Z.quot (num a) g) (Z.quot (den a) g) = g).
      { rewrite <- (Z.gcd_mul_mono_l_nonneg _ _ g) by lia.
        rewrite (Z.mul_comm g), (Z.mul_comm g (Z.quot (den a) g)), L, Rr. reflexivity. }
      nia. }
    rewrite Z.eqb_eq. set (n' := Z.quot (num a) g) in *. set (d' := Z.quot (den a) g) in *. split.
    + intros D. rewrite <- L, <- Rr, D. ring.
    + intros D. rewrite <- L in D at 1. rewrite <- Rr in D.
      assert (0 < d') by nia.
      assert (n' = n' * d') by nia. destruct (Z.eq_dec n' 0) as [Z0|Z0]; [|nia].
      rewrite Z0 in LW. simpl in LW. lia.
  - injection H as <-. split; [discriminate|]. intros D. exfalso. apply E.
    set (k := Z.quot (num b) (den b)) in *.
    assert (g = den a).
    { unfold g. rewrite D. rewrite Z.gcd_comm, Z.mul_comm, Z.gcd_mul_diag_l by lia. reflexivity. }
    rewrite D, H. apply Z.quot_mul. lia.
Qed.

Lemma req_integers a b x : den a = 1 -> den b = 1 -> req a b = Ok x -> (x = true <-> (qval a == qval b)%Q).
Proof.
  intros Ha Hb H. rewrite (req_actual a b x ltac:(lia) ltac:(lia) H).
  rewrite Ha, Hb. unfold qval. rewrite Ha, Hb. rewrite Z.quot_1_r.
  unfold Qeq, Qdiv. simpl. lia.
Qed.

(** ** pow *)
Open Scope R_scope.
Lemma pow_loop_inv : forall f (e : nat) t1 t2 a b, (1 <= e)%nat -> (Z.of_nat e < 2 ^ Z.of_nat f)%Z ->
  pow_loop f (Z.of_nat e) t1 t2 = (a, b) -> a * b = t1 * t2 ^ e.
Proof.
  induction f as [|f IH]; intros e t1 t2 a b He Hf H.
  - simpl in Hf. lia.
  - cbn [pow_loop] in H. destruct (1 <? Z.of_nat e)%Z eqn:G.
    + assert (Hs : Z.shiftr (Z.of_nat e) 1 = Z.of_nat (e / 2)).
      { rewrite Z.shiftr_div_pow2 by lia. change (2 ^ 1)%Z with (Z.of_nat 2). now rewrite Nat2Z.inj_div. }
      assert (Hm : Z.land (Z.of_nat e) 1 = Z.of_nat (e mod 2)).
      { change 1%Z with (Z.ones 1) at 1. rewrite Z.land_ones by lia. change (2 ^ 1)%Z with (Z.of_nat 2).
        now rewrite Nat2Z.inj_mod. }
      rewrite Hs, Hm in H.
      pose proof (Nat.div_mod e 2 ltac:(lia)) as D.
      assert (M : (e mod 2 < 2)%nat) by (apply Nat.mod_upper_bound; lia).
      rewrite Nat2Z.inj_succ, Z.pow_succ_r in Hf by lia.
      apply IH in H; [|lia|lia].
      rewrite H. set (k := (e / 2)%nat) in *. clearbody k. clear H Hs Hm G He Hf.
      replace (t2 * t2) with (t2 ^ 2) by ring. rewrite <- pow_mult.
      destruct (e mod 2)%nat as [|[|?]] eqn:P; [| |lia]; simpl (_ =? _)%Z; cbv iota.
      * rewrite Nat.add_0_r in D. rewrite D. reflexivity.
      * rewrite D. rewrite pow_add. ring.
    + injection H as <- <-. replace e with 1%nat by lia. ring.
Qed.

Lemma pow_nonneg_spec s n : (1 <= n <= int_max)%Z -> pow_nonneg s n = s ^ Z.to_nat n.
Proof.
  intros Hn. unfold pow_nonneg.
  repeat match goal with |- context [Z.eqb n ?k] =>
    destruct (Z.eqb_spec n k); [subst; simpl; ring|] end.
  destruct (pow_loop 64 n 1 s) as [a b] eqn:E.
  rewrite <- (Z2Nat.id n) in E at 1 by lia.
  apply pow_loop_inv in E; [|lia|].
  - rewrite E. ring.
  - rewrite Z2Nat.id by lia. unfold int_max in Hn. simpl. lia.
Qed.

Lemma gal_pow_int s n : n <> 0%Z -> (int_min < n <= int_max)%Z -> gal_pow s n 1 = powerRZ s n.
Proof.
  intros Hn Hr. unfold gal_pow. simpl (1 <? 1)%Z. cbv iota.
  destruct (Z.eqb_spec n 1) as [->|H1]; [simpl; ring|].
  destruct (Z.eqb_spec n (-1)) as [->|H2]; [simpl; unfold Rdiv; rewrite Rmult_1_l; f_equal; ring|].
  destruct (Z.ltb_spec n 0) as [L|L].
  - rewrite pow_nonneg_spec by (unfold int_min, int_max in *; lia).
    destruct n as [|p|p]; [lia|lia|]. simpl. unfold Rdiv. rewrite Rmult_1_l. reflexivity.
  - rewrite pow_nonneg_spec by lia. destruct n as [|p|p]; [lia| |lia]. reflexivity.
Qed.

Lemma gal_pow_zero s : gal_pow s 0 1 = s.
Proof. unfold gal_pow, pow_nonneg. simpl. ring. Qed.
Close Scope R_scope.

(** ** bit utilities *)
Open Scope N_scope.
Lemma rot32_arith x : x < 2 ^ 32 -> rot32 x = x / 256 + (x mod 256) * 2 ^ 24.
Proof.
  intros H. unfold rot32.
  assert (E : N.shiftl (N.land x 255) 24 = (x mod 256) * 2 ^ 24).
  { change 255 with (N.ones 8). rewrite N.land_ones, N.shiftl_mul_pow2. reflexivity. }
  rewrite E. assert (M : x mod 256 < 256) by (apply N.mod_lt; lia).
  rewrite (N.mod_small (x mod 256 * 2 ^ 24)) by (change (2 ^ 24) with 16777216; change (2 ^ 32) with 4294967296; lia).
  rewrite N.shiftr_div_pow2. change (2 ^ 8) with 256.
  assert (D : x / 256 < 2 ^ 24) by (apply N.div_lt_upper_bound; [lia|]; exact H).
  rewrite <- N.lxor_lor.
  - rewrite N.add_nocarry_lxor; [reflexivity|].
    apply N.bits_inj. intros i. rewrite N.land_spec, N.bits_0.
    destruct (N.lt_ge_cases i 24) as [L|L].
    + rewrite N.mul_pow2_bits_low by assumption. apply andb_false_r.
    + replace (N.testbit (x / 256) i) with false; [reflexivity|]. symmetry.
      destruct (N.eq_dec (x / 256) 0) as [->|]; [apply N.bits_0|].
      apply N.bits_above_log2. apply N.log2_lt_pow2 in D; lia.
  - apply N.bits_inj. intros i. rewrite N.land_spec, N.bits_0.
    destruct (N.lt_ge_cases i 24) as [L|L].
    + rewrite N.mul_pow2_bits_low by assumption. apply andb_false_r.
    + replace (N.testbit (x / 256) i) with false; [reflexivity|]. symmetry.
      destruct (N.eq_dec (x / 256) 0) as [->|]; [apply N.bits_0|].
      apply N.bits_above_log2. apply N.log2_lt_pow2 in D; lia.
Qed.

Lemma rot32_lt x : x < 2 ^ 32 -> rot32 x < 2 ^ 32.
Proof.
  intros H. rewrite rot32_arith by assumption.
  change (2 ^ 24) with 16777216; change (2 ^ 32) with 4294967296 in *.
  zify; Z.div_mod_to_equations; lia.
Qed.

Lemma rot32_bytes a b c d : a < 256 -> b < 256 -> c < 256 -> d < 256 ->
  rot32 (a + 256 * b + 65536 * c + 16777216 * d) = b + 256 * c + 65536 * d + 16777216 * a.
Proof.
  intros. rewrite rot32_arith by (change (2 ^ 32) with 4294967296; lia).
  change (2 ^ 24) with 16777216.
  replace (a + 256 * b + 65536 * c + 16777216 * d) with (a + (b + 256 * c + 65536 * d) * 256) by lia.
  rewrite N.div_add, N.mod_add, N.div_small, N.mod_small by lia. lia.
Qed.

Lemma rot32_four x : x < 2 ^ 32 -> rot32 (rot32 (rot32 (rot32 x))) = x.
Proof.
  intros H.
  set (a := x mod 256). set (x1 := x / 256). set (b := x1 mod 256). set (x2 := x1 / 256).
  set (c := x2 mod 256). set (d := x2 / 256).
  assert (X : x = a + 256 * x1) by (unfold a, x1; pose proof (N.div_mod x 256); lia).
  assert (X1 : x1 = b + 256 * x2) by (unfold b, x2; pose proof (N.div_mod x1 256); lia).
  assert (X2 : x2 = c + 256 * d) by (unfold c, d; pose proof (N.div_mod x2 256); lia).
  assert (a < 256) by (apply N.mod_lt; lia). assert (b < 256) by (apply N.mod_lt; lia).
  assert (c < 256) by (apply N.mod_lt; lia).
  change (2 ^ 32) with 4294967296 in H.
  assert (d < 256) by lia.
  assert (E : x = a + 256 * b + 65536 * c + 16777216 * d) by lia.
  rewrite E. clearbody a b c d. rewrite !rot32_bytes by assumption. lia.
Qed.

(** windows: bit i of the smeared value is the or of w bits of x from i on *)
Definition win (x : N) (w : nat) (i : N) : bool := existsb (fun j => N.testbit x (i + N.of_nat j)) (seq 0 w).

Lemma win_app x w i : win x (w + w) i = win x w i || win x w (i + N.of_nat w).
Proof.
  unfold win. rewrite seq_app, existsb_app. f_equal.
  simpl. assert (E : forall k s, existsb (fun j => N.testbit x (i + N.of_nat j)) (seq (w + s) k) =
    existsb (fun j => N.testbit x (i + N.of_nat w + N.of_nat j)) (seq s k)).
  { induction k as [|k IH]; intros s; [reflexivity|]. simpl. rewrite <- (IH (S s)).
    f_equal; [f_equal; lia|]. replace (w + S s)%nat with (S (w + s)) by lia. reflexivity. }
  specialize (E w 0%nat). rewrite Nat.add_0_r in E. exact E.
Qed.

Lemma smear_win x y w : (forall i, N.testbit y i = win x w i) ->
  forall i, N.testbit (smear y (N.of_nat w)) i = win x (w + w) i.
Proof.
  intros H i. unfold smear. rewrite N.lor_spec, N.shiftr_spec by lia. now rewrite win_app, !H.
Qed.

Lemma win_full x w : x <> 0 -> (N.to_nat (N.log2 x) < w)%nat -> forall i, win x w i = (i <=? N.log2 x).
Proof.
  intros Hx Hw i. unfold win. apply eq_iff_eq_true. rewrite existsb_exists, N.leb_le. split.
  - intros [j [Hj T]]. destruct (N.le_gt_cases i (N.log2 x)); [assumption|].
    rewrite N.bits_above_log2 in T by lia. discriminate.
  - intros H. exists (N.to_nat (N.log2 x - i)). split; [apply in_seq; lia|].
    replace (i + N.of_nat (N.to_nat (N.log2 x - i))) with (N.log2 x) by lia. now apply N.bit_log2.
Qed.

Lemma next_pow_2_body w s : (w = 32 \/ w = 64) -> 1 <= s -> s <= 2 ^ (w - 1) ->
  least_pow2 s (next_pow_2 w s).
Proof.
  intros Hw H1 H2. unfold next_pow_2. destruct (N.eqb_spec s 0) as [E|E]; [lia|].
  destruct (N.eq_dec s 1) as [->|Hs].
  { assert (next_pow_2 w 1 = 1) as X by (destruct Hw; subst; reflexivity).
    unfold next_pow_2 in X. simpl (1 =? 0) in X. cbv iota in X. rewrite X.
    split; [exists 0; reflexivity|]. split; [lia|]. intros k Hk. lia. }
  set (x := s - 1). assert (Hx : x <> 0) by (unfold x; lia).
  set (k := N.log2 x).
  assert (Hk : k < w - 1).
  { apply N.log2_lt_pow2; [lia|]. unfold x. lia. }
  assert (B1 : forall i, N.testbit x i = win x 1 i).
  { intros i. unfold win. simpl. now rewrite N.add_0_r, orb_false_r. }
  pose proof (smear_win x x 1 B1) as B2.
  pose proof (smear_win x _ _ B2) as B4.
  pose proof (smear_win x _ _ B4) as B8.
  pose proof (smear_win x _ _ B8) as B16.
  pose proof (smear_win x _ _ B16) as B32. simpl (_ + _)%nat in *.
  change (N.of_nat 1) with 1 in *. change (N.of_nat 2) with 2 in *. change (N.of_nat 4) with 4 in *.
  change (N.of_nat 8) with 8 in *. change (N.of_nat 16) with 16 in *.
  assert (F : (if w =? 64 then smear (smear (smear (smear (smear (smear x 1) 2) 4) 8) 16) 32
     else smear (smear (smear (smear (smear x 1) 2) 4) 8) 16) = 2 ^ (k + 1) - 1).
  { replace (2 ^ (k + 1) - 1) with (N.ones (k + 1)) by (rewrite N.ones_equiv; lia).
    apply N.bits_inj. intros i.
    assert (O : N.testbit (N.ones (k + 1)) i = (i <=? k)).
    { destruct (N.leb_spec i k); [apply N.ones_spec_low; lia|apply N.ones_spec_high; lia]. }
    rewrite O. destruct Hw as [->| ->].
    - simpl (32 =? 64). cbv iota. rewrite B32. apply win_full; [assumption|]. fold k. lia.
    - simpl (64 =? 64). cbv iota. pose proof (smear_win x _ _ B32) as B64. simpl (_ + _)%nat in B64.
      change (N.of_nat 32) with 32 in B64. rewrite B64. apply win_full; [assumption|]. fold k. lia. }
  rewrite F.
  assert (P : 2 ^ (k + 1) <> 0) by (apply N.pow_nonzero; lia).
  replace (2 ^ (k + 1) - 1 + 1) with (2 ^ (k + 1)) by lia.
  assert (PL : 2 ^ (k + 1) < 2 ^ w) by (apply N.pow_lt_mono_r; lia).
  rewrite N.mod_small by assumption.
  pose proof (N.log2_spec x ltac:(lia)) as [L1 L2]. fold k in L1, L2. rewrite <- N.add_1_r in L2.
  split; [now exists (k + 1)|]. split; [unfold x in *; lia|].
  intros j Hj. apply N.pow_le_mono_r; [lia|].
  assert (k < j); [|lia].
  apply (N.pow_lt_mono_r_iff 2); [lia|]. unfold x in *. lia.
Qed.

Lemma leading_set_index_spec x : 0 < x -> 2 ^ leading_set_index x <= x < 2 ^ (leading_set_index x + 1).
Proof. intros H. rewrite N.add_1_r. now apply N.log2_spec. Qed.
Close Scope N_scope.

(** ** packaged statements *)
Lemma mul_exact a b r : den a <> 0 -> den b <> 0 -> den a * den b < 1024 -> rmul Code a b = Ok r ->
  (qval r == qval a * qval b)%Q /\ den r <> 0 /\ (0 < den a * den b -> 0 < den r).
Proof.
  intros Ha Hb S H. rewrite rmul_small in H by assumption. apply rmul_exact in H; auto.
  split; [now apply q_mul|]. destruct H as [[? ?] ?]. auto.
Qed.
Lemma add_exact a b r : den a <> 0 -> den b <> 0 -> den a * den b < 1024 -> radd Code a b = Ok r ->
  (qval r == qval a + qval b)%Q /\ den r <> 0 /\ (0 < den a * den b -> 0 < den r).
Proof.
  intros Ha Hb S H. rewrite radd_small in H by assumption. apply radd_exact in H; auto.
  split; [now apply q_add|]. destruct H as [[? ?] ?]. auto.
Qed.
Lemma sub_exact a b r : den a <> 0 -> den b <> 0 -> den a * den b < 1024 -> rsub Code a b = Ok r ->
  (qval r == qval a - qval b)%Q /\ den r <> 0 /\ (0 < den a * den b -> 0 < den r).
Proof.
  intros Ha Hb S H. rewrite rsub_small in H by assumption. apply rsub_exact in H; auto.
  split; [now apply q_sub|]. destruct H as [[? ?] ?]. auto.
Qed.
Lemma div_exact a b r : den a <> 0 -> den b <> 0 -> num b <> 0 -> Z.abs (num b * den a) < 1024 ->
  rdiv Code a b = Ok r -> (qval r == qval a / qval b)%Q /\ 0 < den r.
Proof.
  intros Ha Hb Hn S H. rewrite rdiv_small in H by assumption. apply rdiv_exact in H; auto.
  split; [|apply H]. apply q_div; auto. apply H.
Qed.
Lemma mul_assign_exact a b r : den a <> 0 -> den b <> 0 -> rmul_assign a b = Ok r ->
  (qval r == qval a * qval b)%Q /\ den r <> 0 /\ (0 < den a * den b -> 0 < den r).
Proof.
  intros Ha Hb H. apply rmul_assign_good in H; auto.
  split; [now apply q_mul|]. destruct H as [[? ?] ?]. auto.
Qed.
Lemma add_assign_exact a b r : den a <> 0 -> den b <> 0 -> radd_assign a b = Ok r ->
  (qval r == qval a + qval b)%Q /\ den r <> 0 /\ (0 < den a * den b -> 0 < den r).
Proof.
  intros Ha Hb H. apply radd_assign_good in H; auto.
  split; [now apply q_add|]. destruct H as [[? ?] ?]. auto.
Qed.
Lemma div_int_exact a k r : den a <> 0 -> k <> 0 -> den a * Z.abs k < 1024 -> rdiv_int Code a k = Ok r ->
  (qval r == qval a / inject_Z k)%Q /\ den r <> 0 /\ (0 < den a -> 0 < den r).
Proof.
  intros Ha Hk S H.
  assert (X : rdiv_int Code a k = rdiv_int Exact a k).
  { unfold rdiv_int. destruct (Z.ltb_spec k 0) as [L|L].
    - destruct (ineg (num a)); simpl; [|reflexivity]. destruct (ineg k) eqn:E; simpl; [|reflexivity].
      apply ineg_ok in E. destruct E as [-> _].
      destruct (imul (den a) (-k)) eqn:E; simpl; [|reflexivity]. apply imul_ok in E. destruct E as [-> _].
      apply gate_code_small. simpl. lia.
    - destruct (imul (den a) k) eqn:E; simpl; [|reflexivity]. apply imul_ok in E. destruct E as [-> _].
      apply gate_code_small. simpl. lia. }
  rewrite X in H. apply rdiv_int_exact in H; auto. destruct H as [F P].
  split; [|split; [apply F|assumption]].
  apply qval_feq in F. rewrite F. unfold qval. rewrite !inject_Z_mult. field. split; now apply inj_ne0.
Qed.
Lemma int_mul_exact k a r : den a <> 0 -> rscale_int k a = Ok r ->
  (qval r == inject_Z k * qval a)%Q /\ den r <> 0 /\ (0 < den a -> 0 < den r).
Proof.
  intros Ha H. unfold rscale_int in H.
  destruct ((k =? 0) || (num a =? 0)) eqn:E.
  - injection H as <-. split; [|split; simpl; lia].
    assert (D : k = 0 \/ num a = 0) by lia. unfold qval. simpl.
    destruct D as [->| ->]; [unfold inject_Z; field; now apply inj_ne0|].
    change (inject_Z 0) with 0%Q. field. now apply inj_ne0.
  - inv_all. subst. simpl. split; [|auto]. unfold qval. simpl. rewrite inject_Z_mult. field. now apply inj_ne0.
Qed.

Lemma results_fit md a b r :
  (rmul md a b = Ok r \/ radd md a b = Ok r \/ rsub md a b = Ok r \/ rdiv md a b = Ok r) -> fits r.
Proof.
  intros [H|[H|[H|H]]].
  - now apply rmul_fits in H.
  - now apply radd_fits in H.
  - unfold rsub in H. minv H. now apply radd_fits in H.
  - now apply rdiv_fits in H.
Qed.

Lemma chk_err z e : chk z = Err e -> e = Overflow.
Proof. unfold chk. destruct (in_int32 z); congruence. Qed.
Lemma reduce_err n d e : d <> 0 -> reduce n d = Err e -> e = Overflow.
Proof.
  intros Hd. unfold reduce, igcd. destruct (_ && _); simpl; [|congruence].
  destruct (1 <? Z.gcd n d) eqn:G; [|discriminate].
  unfold idiv. replace (Z.gcd n d =? 0) with false by lia.
  destruct (chk _) eqn:E1; simpl; [|intros H; injection H as <-; now apply chk_err in E1].
  destruct (chk (Z.quot d _)) eqn:E2; simpl; [discriminate|intros H; injection H as <-; now apply chk_err in E2].
Qed.
Lemma gate_err r e : 0 < den r -> overflow_gate Code r = Err e -> e = Overflow.
Proof.
  intros Hd. unfold overflow_gate. destruct (den r <? 1024) eqn:L; [apply reduce_err; lia|].
  unfold igcd. destruct (_ && _); simpl; [|congruence].
  destruct (1 <? Z.gcd (num r) (den r)) eqn:G.
  - unfold idiv. replace (Z.gcd (num r) (den r) =? 0) with false by lia.
    destruct (chk _) eqn:E1; simpl; [|intros H; injection H as <-; now apply chk_err in E1].
    destruct (chk (Z.quot (den r) _)) eqn:E2; simpl; [discriminate|intros H; injection H as <-; now apply chk_err in E2].
  - destruct (f64_lt _ _); [discriminate|]. destruct (f64_lt _ _); [|discriminate].
    destruct (_ =? 1); unfold idiv; simpl.
    + destruct (chk (num r - 1)) eqn:E1; simpl; [|intros H; injection H as <-; now apply chk_err in E1].
      destruct (chk (Z.quot a 2)) eqn:E2; simpl; [|intros H; injection H as <-; now apply chk_err in E2].
      destruct (chk (Z.quot (den r) 2)) eqn:E3; simpl; [|intros H; injection H as <-; now apply chk_err in E3].
      apply reduce_err. apply chk_ok in E3. destruct E3 as [-> _].
      rewrite Z.quot_div_nonneg by lia. assert (0 < den r / 2) by (apply Z.div_str_pos; lia). lia.
    + destruct (chk (Z.quot (num r) 2)) eqn:E2; simpl; [|intros H; injection H as <-; now apply chk_err in E2].
      destruct (chk (den r - 1)) eqn:E1; simpl; [|intros H; injection H as <-; now apply chk_err in E1].
      destruct (chk (Z.quot a0 2)) eqn:E3; simpl; [|intros H; injection H as <-; now apply chk_err in E3].
      apply reduce_err. apply chk_ok in E3. destruct E3 as [-> _]. apply chk_ok in E1. destruct E1 as [-> _].
      rewrite Z.quot_div_nonneg by lia. assert (0 < (den r - 1) / 2) by (apply Z.div_str_pos; lia). lia.
Qed.
Lemma radd_err a b e : 0 < den a -> 0 < den b -> radd Code a b = Err e -> e = Overflow.
Proof.
  intros Ha Hb. unfold radd.
  destruct (imul (num a) (den b)) eqn:E1; simpl; [|intros H; injection H as <-; now apply chk_err in E1].
  destruct (imul (num b) (den a)) eqn:E2; simpl; [|intros H; injection H as <-; now apply chk_err in E2].
  destruct (iadd _ _) eqn:E3; simpl; [|intros H; injection H as <-; now apply chk_err in E3].
  destruct (_ =? 0); [discriminate|].
  destruct (imul (den a) (den b)) eqn:E4; simpl; [|intros H; injection H as <-; now apply chk_err in E4].
  destruct (1 <? a3) eqn:L; [|discriminate]. apply gate_err. simpl. lia.
Qed.
Lemma only_overflow a b e : 0 < den a -> 0 < den b ->
  (rmul Code a b = Err e \/ radd Code a b = Err e \/ rsub Code a b = Err e) -> e = Overflow.
Proof.
  intros Ha Hb [H|[H|H]].
  - unfold rmul in H. revert H.
    destruct (imul (num a) (num b)) eqn:E1; simpl; [|intros H; injection H as <-; now apply chk_err in E1].
    destruct (imul (den a) (den b)) eqn:E4; simpl; [|intros H; injection H as <-; now apply chk_err in E4].
    destruct (_ =? 0); [discriminate|].
    destruct (1 <? a1) eqn:L; [|discriminate]. apply gate_err. simpl. lia.
  - now apply radd_err in H.
  - unfold rsub in H. destruct (rneg b) eqn:E; simpl in H.
    + apply rneg_ok in E. subst. now apply radd_err in H.
    + injection H as <-. unfold rneg in E. destruct (ineg (num b)) eqn:E1; simpl in E; [discriminate|].
      injection E as <-. now apply chk_err in E1.
Qed.

Lemma exact_run_mul a b r : den a <> 0 -> den b <> 0 -> rmul Exact a b = Ok r ->
  rmul Code a b = Ok r /\ (qval r == qval a * qval b)%Q.
Proof. intros. split; [now apply rmul_exact_code|]. apply q_mul; auto. now apply rmul_exact. Qed.
Lemma exact_run_add a b r : den a <> 0 -> den b <> 0 -> radd Exact a b = Ok r ->
  radd Code a b = Ok r /\ (qval r == qval a + qval b)%Q.
Proof. intros. split; [now apply radd_exact_code|]. apply q_add; auto. now apply radd_exact. Qed.

Lemma gate_error_refuted :
  exists r r', 0 < den r /\ fits r /\ overflow_gate Code r = Ok r' /\
    (1 # 10000 < Qabs.Qabs (qval r' - qval r))%Q.
Proof. exists (mkrat 1 4001), zero. repeat split; vm_compute; reflexivity. Qed.

Lemma gate_exact_cases r r' : 0 < den r ->
  den r < 1024 \/ 1 < Z.gcd (num r) (den r) -> overflow_gate Code r = Ok r' ->
  (qval r' == qval r)%Q /\ lowest r'.
Proof.
  intros Hd C H. assert (X : overflow_gate Exact r = Ok r').
  { destruct C; [rewrite <- gate_code_small|rewrite <- gate_code_reducible]; assumption. }
  apply gate_exact in X; [|lia]. destruct X as [F [_ L]]. split; [|exact L].
  apply qval_feq in F. exact F.
Qed.

Lemma req_refuted :
  (exists a, 0 < den a /\ req a a = Ok false) /\
  (exists a b, 0 < den a /\ 0 < den b /\ req a b = Ok true /\ ~ (qval a == qval b)%Q).
Proof.
  split.
  - exists one_half. split; reflexivity.
  - exists one, (mkrat 3 2). repeat split; try reflexivity. vm_compute. discriminate.
Qed.

Lemma pow_zero_refuted : exists s, gal_pow s 0 1 <> powerRZ s 0.
Proof. exists 2%R. rewrite gal_pow_zero. simpl. lra. Qed.

Lemma gal_pow_frac s n d : (0 < s)%R -> 1 < d ->
  (0 < gal_pow s n d)%R /\ powerRZ (gal_pow s n d) d = powerRZ s n.
Proof.
  intros Hs Hd. unfold gal_pow. replace (1 <? d) with true by lia.
  assert (P : forall x, (0 < Rpower s x)%R) by (intros; apply exp_pos).
  split; [apply P|].
  rewrite !powerRZ_Rpower by auto. rewrite Rpower_mult. f_equal. field. apply not_0_IZR. lia.
Qed.

Lemma rne_lowest a b : 0 < den a -> 0 < den b -> lowest a -> lowest b ->
  (rne a b = false <-> (qval a == qval b)%Q).
Proof.
  intros Ha Hb La Lb. unfold rne. rewrite orb_false_iff, !negb_false_iff, !Z.eqb_eq.
  assert (P : forall r, 0 < den r -> (qval r == num r # Z.to_pos (den r))%Q).
  { intros r Hr. rewrite Qmake_Qdiv. unfold qval. rewrite Z2Pos.id by assumption. reflexivity. }
  rewrite (P a Ha), (P b Hb). unfold Qeq. simpl. rewrite !Z2Pos.id by assumption.
  split; [intros [-> ->]; reflexivity|]. intros E.
  assert (D1 : (den a | den b)).
  { apply (Z.gauss _ (num a)); [exists (num b); lia|]. rewrite Z.gcd_comm. exact La. }
  assert (D2 : (den b | den a)).
  { apply (Z.gauss _ (num b)); [exists (num a); lia|]. rewrite Z.gcd_comm. exact Lb. }
  assert (D : den a = den b) by (apply Z.divide_antisym_nonneg; lia || assumption).
  split; [|assumption]. rewrite D in E. nia.
Qed.
