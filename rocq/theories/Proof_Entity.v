(** Entities. *)
From Coq Require Import ZArith NArith List Bool Arith Lia ZifyBool ZifyN ZifyNat Reals Lra Sorting.Sorted.
From Verif Require Import Base Model_Numeric Model_Blade Model_Sort Model_MV Model_Product Model_Expr Model_Dfa Model_Engine Model_Entity
  Spec_Numeric Spec_Clifford Spec_Basis Spec_MV Spec_Expr Spec_Dfa Spec_Engine Spec_Entity
  Proof_Numeric Proof_Layout Proof_Val Proof_Ops Proof_Ops3 Proof_Proper Proof_Engine Proof_Sim.
Import ListNotations.
Local Open Scope nat_scope.

(** ** select *)
Lemma indexof_none e es : forall i, (0 <= i)%Z -> ~ In e es -> indexof e i es = (-1)%Z.
Proof.
  induction es as [|e1 es IH]; intros i P H; [reflexivity|]. cbn [indexof]. replace (e =? e1)%N with false by (symmetry; apply N.eqb_neq; intros ->; apply H; now left).
  destruct es; [reflexivity|]. apply IH; [lia|]. intros X. apply H. now right.
Qed.
Lemma indexof_some e es : forall i, (0 <= i)%Z -> In e es -> exists k, indexof e i es = (i + Z.of_nat k)%Z /\ nth_error es k = Some e /\ forall j, j < k -> nth_error es j <> Some e.
Proof.
  induction es as [|e1 es IH]; intros i P H; [contradiction|]. cbn [indexof]. destruct (N.eqb_spec e e1) as [->|N1].
  - exists 0. split; [lia|]. split; [reflexivity|]. intros; lia.
  - destruct H as [->|H]; [contradiction|]. destruct es as [|e2 es]; [contradiction|]. destruct (IH (i + 1)%Z ltac:(lia) H) as (k & A & B & C).
    exists (S k). rewrite A. split; [lia|]. split; [exact B|]. intros [|j] L; cbn; [congruence|]. apply C. lia.
Qed.
Lemma lookup_none x e : ~ In e (map fst x) -> lookup x e = None.
Proof.
  induction x as [|[b r] x IH]; intros H; [reflexivity|]. cbn [lookup]. replace (b =? e)%N with false by (symmetry; apply N.eqb_neq; intros ->; apply H; now left).
  apply IH. intros X. apply H. now right.
Qed.
Lemma lookup_some x e k : nth_error (map fst x) k = Some e -> (forall j, j < k -> nth_error (map fst x) j <> Some e) ->
  exists r, lookup x e = Some r /\ nth_error x k = Some (e, r).
Proof.
  revert k. induction x as [|[b r] x IH]; intros k A B; [destruct k; discriminate|]. cbn [lookup]. destruct k as [|k].
  - cbn in A. injection A as ->. rewrite N.eqb_refl. exists r. split; reflexivity.
  - replace (b =? e)%N with false. 2:{ symmetry. apply N.eqb_neq. intros ->. apply (B 0); [lia|reflexivity]. }
    apply IH; [exact A|]. intros j L. apply (B (S j)). lia.
Qed.
Lemma lut_get dim es e : (e < 2 ^ dim)%N -> get (element_lut dim es) (N.to_nat e) = Ok (indexof e 0 es).
Proof.
  intros H. unfold get, element_lut. assert (L : N.to_nat e < N.to_nat (2 ^ dim)) by lia.
  rewrite nth_error_map. rewrite (nth_error_nth' _ 0) by (rewrite seq_length; exact L). rewrite seq_nth by exact L. cbn [option_map Nat.add]. now rewrite N2Nat.id.
Qed.
Lemma lut_out dim es e : (2 ^ dim <= e)%N -> get (element_lut dim es) (N.to_nat e) = Err OutOfBounds.
Proof.
  intros H. unfold get. replace (nth_error (element_lut dim es) (N.to_nat e)) with (@None Z); [reflexivity|].
  symmetry. apply nth_error_None. unfold element_lut. rewrite map_length, seq_length. lia.
Qed.
Lemma select_lookup dim x e : (e < 2 ^ dim)%N -> select dim x e = Ok (match lookup x e with Some r => r | None => 0%R end).
Proof.
  intros H. destruct x as [|p x]; [reflexivity|]. unfold select. rewrite lut_get by exact H. cbn [bind].
  destruct (in_dec N.eq_dec e (map fst (p :: x))) as [I|I].
  - destruct (indexof_some e _ 0%Z ltac:(lia) I) as (k & A & B & C). rewrite A. replace (0 + Z.of_nat k =? -1)%Z with false by lia.
    replace (Z.to_nat (0 + Z.of_nat k)) with k by lia. destruct (lookup_some _ _ _ B C) as (r & -> & E). unfold get. rewrite nth_error_map, E. reflexivity.
  - rewrite indexof_none by (auto; lia). rewrite lookup_none by exact I. reflexivity.
Qed.
Lemma select_out dim x e : (2 ^ dim <= e)%N -> x <> [] -> select dim x e = Err OutOfBounds.
Proof. intros H X. destruct x; [contradiction|]. unfold select. now rewrite lut_out. Qed.
Lemma lookup_val x e : NoDup (map fst x) -> match lookup x e with Some r => r | None => 0%R end = entity_val x e.
Proof.
  induction x as [|[b r] x IH]; intros H; [reflexivity|]. cbn [map fst] in H. inversion H as [|? ? A B]; subst. unfold entity_val in *. cbn [lookup map fst snd Rsum fold_right].
  fold (Rsum (map (fun p : N * R => if (fst p =? e)%N then snd p else 0%R) x)). destruct (N.eqb_spec b e) as [->|N1].
  - rewrite <- (IH B), (lookup_none _ _ A). ring.
  - rewrite <- (IH B). ring.
Qed.
Lemma selects_lookup dim x s : Forall (fun e => e < 2 ^ dim)%N s -> selects dim x s = Ok (map (fun e => match lookup x e with Some r => r | None => 0%R end) s).
Proof.
  intros H. assert (E : forall x, mapM (select dim x) s = Ok (map (fun e => match lookup x e with Some r => r | None => 0%R end) s)).
  { intros y. induction H as [|e s H F IH]; [reflexivity|]. cbn [mapM map]. rewrite select_lookup by exact H. cbn [bind]. now rewrite IH. }
  destruct x as [|p x]; [|apply E]. reflexivity.
Qed.
Lemma select_ptr_ok dim x e : (e < 2 ^ dim)%N ->
  (In e (map fst x) -> exists k r, select_ptr dim x e = Ok (Some k) /\ nth_error x k = Some (e, r) /\ lookup x e = Some r) /\
  (~ In e (map fst x) -> select_ptr dim x e = Ok None).
Proof.
  intros H. destruct x as [|p x]; [split; [contradiction|reflexivity]|]. unfold select_ptr. rewrite lut_get by exact H. cbn [bind]. split; intros I.
  - destruct (indexof_some e _ 0%Z ltac:(lia) I) as (k & A & B & C). rewrite A. replace (0 + Z.of_nat k =? -1)%Z with false by lia.
    replace (Z.to_nat (0 + Z.of_nat k)) with k by lia. destruct (lookup_some _ _ _ B C) as (r & L & E). exists k, r. unfold get. rewrite nth_error_map, E. cbn. auto.
  - rewrite indexof_none by (auto; lia). reflexivity.
Qed.
Lemma sorted_nodup l : StronglySorted N.lt l -> NoDup l.
Proof. induction 1 as [|a l H IH F]; constructor; auto. intros I. rewrite Forall_forall in F. specialize (F _ I). lia. Qed.

(** ** the generic indeterminate form *)
Definition as_terms (es : list N) : list sterm := map (fun e => (e, [])) es.
Lemma as_terms_fst es : map fst (as_terms es) = es.
Proof. unfold as_terms. rewrite map_map. apply map_id. Qed.
Lemma as_terms_length es : length (as_terms es) = length es. Proof. apply map_length. Qed.
Lemma construct_packed es o : packed (construct_ie es o) (refs o (as_terms es)).
Proof.
  unfold construct_ie. constructor; cbn [inds mons terms isz msz tsz].
  - exists []. now rewrite app_nil_r, refs_inds, as_terms_length.
  - exists []. rewrite app_nil_r, refs_mons, as_terms_length. symmetry. apply (lay_singles (fun i => mkind (o + N.of_nat i) one)).
  - exists []. rewrite app_nil_r, (lay_refs _ 0 o), as_terms_length. assert (G : forall o' s, map (fun p : nat * N => mkterm 1 (fst p) (snd p)) (combine (seq s (length es)) es) =
      map (fun p : nat * term => mkterm 1 (fst p) (elem (snd p))) (combine (seq s (length es)) (lay_terms o' (as_terms es)))); [|apply G].
    clear. induction es as [|e es IH]; intros; [reflexivity|]. cbn. f_equal. apply IH.
  - now rewrite refs_inds, map_length, seq_length, as_terms_length.
  - now rewrite refs_mons, map_length, seq_length, as_terms_length.
  - rewrite <- as_terms_length. generalize (as_terms es) as ts. clear. intros ts. revert o. induction ts; intros; cbn; auto.
Qed.

Lemma represents_of m nb ie d w (ts : N -> list sterm) : (forall o, packed (ie o) (ts o) /\ mop (ie o) = mop_id /\ proper (dim m) (ts o)) ->
  (forall o s i, In s (all_mons (ts o)) -> In i (sinds s) -> (o <= id i < o + N.of_nat (length d))%N /\ (0 <= num (ideg i))%Z) ->
  (forall o rho, (forall j, j < length d -> rho (o + N.of_nat j)%N = nth j d 0%R) -> forall b, val rho (ts o) b = w b) ->
  represents m nb ie d (input m nb w).
Proof.
  intros P I Vv o. destruct (P o) as (P1 & P2 & P3). split.
  - intros rho H. assert (M : mv_means rho (dim m) (ie o) w).
    { exists (ts o). repeat (split; [assumption|]). split; [|intros b; now apply Vv]. intros s i Hs Hi. right. now apply (I o s). }
    unfold input_means, input. destruct nb; [|exact M]. exists w. split; [exact M|]. reflexivity.
  - exists (ts o). split; [assumption|]. split; [assumption|]. intros s i Hs Hi. now apply (I o s).
Qed.
Lemma construct_val rho es : forall o d b, length es = length d -> (forall j, j < length d -> rho (o + N.of_nat j)%N = nth j d 0%R) ->
  val rho (refs o (as_terms es)) b = on_blades es d b.
Proof.
  unfold on_blades, entity_val. induction es as [|e es IH]; intros o d b L H; [reflexivity|]. destruct d as [|x d]; [discriminate|]. cbn [as_terms map refs combine Rsum fold_right fst snd]. rewrite val_cons.
  f_equal.
  - cbn [fst snd]. destruct (e =? b)%N; [|reflexivity]. rewrite mons_val_cons. change (mons_val rho []) with 0%R. unfold mon_val, inds_val.
    cbn [sq sinds map Rprod fold_right id ideg]. rewrite Proof_Dfa.dpow_one, rv_one. specialize (H 0 ltac:(cbn; lia)). rewrite N.add_0_r in H. cbn [nth] in H. rewrite H. ring.
  - apply IH; [now injection L|]. intros j Hj. specialize (H (S j) ltac:(cbn; lia)). cbn [nth] in H. rewrite <- H. f_equal. lia.
Qed.
Theorem construct_represents m nb es d : StronglySorted N.lt es -> Forall (fun e => e < 2 ^ dimension m)%N es -> length es = length d ->
  represents m nb (construct_ie es) d (input m nb (on_blades es d)).
Proof.
  intros S0 D L. apply (represents_of _ _ _ _ _ (fun o => refs o (as_terms es))).
  - intros o. split; [apply construct_packed|]. split; [reflexivity|]. apply Proof_Dfa.refs_proper.
    + now rewrite as_terms_fst.
    + unfold in_dim, as_terms. rewrite Forall_map. cbn [fst]. unfold dim. rewrite N2Nat.id. exact D.
  - intros o s i Hs Hi. rewrite refs_mons in Hs. apply in_map_iff in Hs as (k & <- & K). rewrite as_terms_length in K. apply in_seq in K. destruct Hi as [<-|[]]. cbn. lia.
  - intros o rho H b. now apply construct_val.
Qed.

(** ** returning an input *)
Lemma gal_pow_one x : gal_pow x 1 1 = x.
Proof. rewrite gal_pow_int; [change (powerRZ x 1) with (x * 1)%R; ring|discriminate|]. unfold int_min, int_max. lia. Qed.
Lemma construct_entity md es d : length es = length d -> (N.of_nat (length d) <= ind_constant_start)%N ->
  finalize_entity md vga_m false one d (construct_ie es 0) = Ok (combine es d).
Proof.
  intros L K. unfold finalize_entity, result_mv. cbn [bind]. unfold compute_entity. cbn [terms tsz construct_ie].
  set (ts := map (fun p : nat * N => mkterm 1 (fst p) (snd p)) (combine (seq 0 (length es)) es)).
  assert (LT : length ts = length es) by (unfold ts; rewrite map_length, combine_length, seq_length; lia).
  unfold slice at 1. rewrite LT, Nat.leb_refl. cbn [bind skipn]. rewrite <- LT, firstn_all. unfold ts. clear ts LT.
  assert (G : forall post pre dp dq, es = pre ++ post -> d = dp ++ dq -> length pre = length dp -> length post = length dq ->
    mapM (fun t => v <- cterm_value (construct_ie es 0) d t;; Ok (elem t, scale_by one v)) (map (fun p : nat * N => mkterm 1 (fst p) (snd p)) (combine (seq (length pre) (length post)) post)) = Ok (combine post dq)).
  { induction post as [|e post IH]; intros pre dp dq E D Lp Lq; [reflexivity|]. destruct dq as [|x dq]; [discriminate|]. cbn [length seq combine map mapM fst snd].
    unfold cterm_value at 1. cbn [mons construct_ie moff tcount].
    assert (NS : forall {A} (f : nat -> A) n k, k < n -> slice (map f (seq 0 n)) k 1 = Ok [f k]).
    { clear. intros A f n k H. unfold slice. rewrite map_length, seq_length. replace (k + 1 <=? n) with true by lia.
      replace (seq 0 n) with (seq 0 k ++ k :: seq (S k) (n - S k)). 2:{ change (k :: seq (S k) (n - S k)) with (seq (0 + k) (S (n - S k))). rewrite <- seq_app. f_equal. lia. }
      rewrite map_app. rewrite skipn_app, skipn_all2 by (rewrite map_length, seq_length; lia). rewrite map_length, seq_length, Nat.sub_diag. reflexivity. }
    assert (LE : length pre < length es) by (rewrite E, app_length; cbn; lia).
    rewrite NS by exact LE. cbn [bind mapM]. unfold cmon_value at 1. cbn [mq]. change (is_zero one) with false. cbv iota. cbn [mcount ioff inds construct_ie Nat.eqb].
    rewrite NS by exact LE. cbn [bind mapM]. unfold factor_value at 1. cbn [id ideg]. unfold data_value. rewrite N.add_0_l.
    assert (LD : length dp < length d) by (rewrite D, app_length; cbn; lia).
    replace (ind_constant_start <=? N.of_nat (length pre))%N with false by lia. rewrite Nat2N.id. unfold get. rewrite D at 1. rewrite nth_error_app2 by lia. rewrite Lp, Nat.sub_diag. cbn [nth_error bind].
    change ((int_min <? num one)%Z && (num one <=? int_max)%Z) with true. cbv iota. cbn [bind mapM num den one fold_right1]. rewrite gal_pow_one.
    change (1 <? Z.abs 1)%Z with false. change (scales 1) with false. cbv iota. cbn [bind mop construct_ie apply_mv_op fold_right1].
    replace (scale_by {| num := 1; den := 1 |} x) with x by reflexivity.
    specialize (IH (pre ++ [e]) (dp ++ [x]) dq). rewrite !app_length in IH. cbn [length] in IH. rewrite Nat.add_1_r in IH. rewrite <- Lp.
    rewrite IH; [reflexivity| | | |]; rewrite <- ?app_assoc; cbn in *; auto; lia. }
  apply (G es [] [] d); auto.
Qed.
Lemma construct_returns md m es d : length es = length d -> es <> [] -> (N.of_nat (length d) <= ind_constant_start)%N ->
  compute md m false [construct_ie es] [d] return_input one = Ok [combine es d].
Proof.
  intros L NE K. pose proof (construct_entity md es d L K) as E. unfold compute. change (rpn_ids return_input) with [(0%N, 0)]. cbn [rpn_inputs mapM nth_error snd fst bind].
  change (rpn_eval md m false return_input [construct_ie es 0] ?c) with (Ok (mkrs [] [] [construct_ie es 0] c)). cbn [bind r_cnt r_temps r_args finalize_temps].
  rewrite N.sub_diag. change (N.to_nat 0) with 0. rewrite Nat.add_0_r.
  pose proof (fill_ok [d] [] [] (repeat 0%R (list_sum (map (@length R) [d])))) as F. cbn [app length] in F. rewrite !app_nil_r in F. rewrite F by (rewrite repeat_length; reflexivity).
  cbn [concat bind]. rewrite app_nil_r. cbn [rev app mapM]. change (finalize_entity md m false one d (construct_ie es 0)) with (finalize_entity md vga_m false one d (construct_ie es 0)). rewrite E. reflexivity.
Qed.
Lemma lookup_combine es : forall d, length es = length d -> NoDup es -> map (fun e => match lookup (combine es d) e with Some r => r | None => 0%R end) es = d.
Proof.
  induction es as [|e es IH]; intros d L ND; destruct d as [|x d]; try discriminate; [reflexivity|]. cbn [map combine lookup]. rewrite N.eqb_refl. f_equal.
  inversion ND as [|? ? A B]; subst. transitivity (map (fun e => match lookup (combine es d) e with Some r => r | None => 0%R end) es); [|apply IH; [now injection L|exact B]]. apply map_ext_in. intros a Ha. replace (e =? a)%N with false; [reflexivity|].
  symmetry. apply N.eqb_neq. intros ->. contradiction.
Qed.
(** the types whose components are the coefficients of fixed blades survive the round trip *)
Theorem construct_round_trip md m es d : length es = length d -> es <> [] -> (N.of_nat (length d) <= ind_constant_start)%N ->
  NoDup es -> Forall (fun e => e < 2 ^ dimension m)%N es ->
  exists e, compute md m false [construct_ie es] [d] return_input one = Ok [e] /\ selects (dimension m) e es = Ok d.
Proof.
  intros L NE K ND D. exists (combine es d). split; [now apply construct_returns|]. rewrite selects_lookup by exact D. f_equal. now apply lookup_combine.
Qed.
