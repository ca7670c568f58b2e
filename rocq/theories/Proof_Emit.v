(** Reshaping, emission: no array is read or written out of bounds. *)
From Coq Require Import ZArith NArith List Bool Arith Lia ZifyBool ZifyN ZifyNat Reals.
From Verif Require Import Base Model_Numeric Model_Blade Model_Stack Model_Expr Model_Dfa Model_Reshape.
From Verif Require Import Spec_Numeric Spec_Clifford Spec_MV Spec_Basis Spec_Expr Spec_Reshape Spec_Scan.
From Verif Require Import Proof_Numeric Proof_Expr Proof_Util Proof_Reshape Proof_Reshape2 Proof_Reshape3 Proof_Reshape4 Proof_Sharing Proof_Scan.
Import ListNotations.
Local Open Scope nat_scope.

(** ** one node *)
Section Shape.
Context (m : metric) (env : list V).
Notation fstep := (fstep m env).
(** the marker of a summand or factor belongs to one node *)
Definition shape (x : seg) : Prop := match fst x with EV _ => True | EM q => exists c x', snd x = [mknode op_se c x' q] end.
Lemma shape_values vs : forall (segs : list seg) s, map fst segs = map EV vs ++ s -> exists a r, segs = a ++ r /\ map fst a = map EV vs /\ map fst r = s.
Proof.
  induction vs as [|v vs IH]; intros segs s E; [exists [], segs; auto|]. destruct segs as [|x segs]; [discriminate|]. cbn in E. injection E as E0 E.
  destruct (IH _ _ E) as (a & r & -> & A & B). exists (x :: a), r. cbn. rewrite E0, A. auto.
Qed.
Lemma shape_items rl : forall (segs : list seg) s, map fst segs = flat_map ev_of rl ++ s -> Forall shape segs ->
  exists its r, segs = flat_map seg_of its ++ r /\ map fst r = s /\ length its = length rl /\ Forall shape r.
Proof.
  induction rl as [|[q v] rl IH]; intros segs s E F; [exists [], segs; repeat split; auto|]. destruct segs as [|[x1 y1] [|[x2 y2] segs]]; try discriminate. cbn in E. injection E as E1 E2 E. subst x1 x2.
  inversion F as [|? ? H1 F']; subst. inversion F' as [|? ? H2 F'']; subst. destruct H2 as (c & x & H2). cbn [snd] in H2. subst y2.
  destruct (IH _ _ E F'') as (its & r & -> & A & B & D). exists ((x, mkitem c q y1 v) :: its), r. cbn. rewrite B. repeat split; auto.
Qed.
Lemma opens_short b l : Forall shape l -> length (opens b l) <= length (outof l).
Proof.
  induction 1 as [|[x y] l S F IH]; [cbn; lia|]. rewrite outof_cons, app_length. cbn [opens snd]. destruct x; [lia|]. destruct S as (c & x' & S). cbn [snd] in S. subst y. cbn [length]. lia.
Qed.
Variable cap : nat.
Hypothesis CAP : (N.of_nat cap < 2 ^ 64)%N.
Let Qt : node -> Prop := fun _ => True.
Let rep_data' := fun A => @rep_data (fun k => k) Qt (fun _ _ _ _ _ => I) cap CAP A.
Let opens_length' := opens_length (fun k => k) Qt (fun _ _ _ _ _ => I) cap CAP.
Let special_no' := special_no (fun k => k) Qt (fun _ _ _ _ _ => I) cap CAP.
Let emit_poly' := emit_poly (fun k => k) Qt (fun _ _ _ _ _ => I) (fun _ _ _ _ => I) cap CAP.
Lemma poly_total n e pre its rest : poly (no n) = true -> nex n = length its -> its <> [] -> seginv pre [] e (flat_map seg_of (rev its) ++ rest) ->
  length (em_out e) < cap -> length (opens (length pre) (flat_map seg_of (rev its) ++ rest)) < length (data (em_st e)) -> exists e', emit_node cap n e = Ok e' /\ length (data (em_st e')) = length (data (em_st e)).
Proof.
  intros PO NX NN [SO SR] LC LS. unfold emit_node, out_append. replace (length (em_out e) <? cap) with true by lia. cbn [bind].
  replace (no n =? op_se)%N with false by (unfold poly in PO; symmetry; apply N.eqb_neq; intros E; rewrite E in PO; vm_compute in PO; discriminate).
  unfold poly in PO. rewrite PO. rewrite app_nil_r in SR.
  destruct (push_rep _ _ (Some (length (em_out e ++ [n]) - 1), N.of_nat (length (em_out e ++ [n]))) SR ltac:(now rewrite map_length)) as (st & P & R & DL). rewrite P. cbn [bind].
  rewrite outof_app, outof_items in SO. rewrite app_length in R |- *. change (length [n]) with 1 in *. replace (length (em_out e) + 1 - 1) with (length (em_out e)) in * by lia.
  set (base := length pre) in *. set (b0 := base + length (outof rest)).
  assert (LE : length (em_out e) = b0 + length (flat_map raw its)) by (rewrite SO, !app_length; unfold b0, base; lia).
  replace (Some (length (em_out e)), N.of_nat (length (em_out e) + 1)) with (mark (length (em_out e))) in R by (unfold mark; do 2 f_equal; lia).
  destruct (rep_data' _ _ _ R) as (DD & CC & SS & LL). set (O := opens base (flat_map seg_of (rev its) ++ rest)) in *.
  assert (LO : length O = length its + length (opens base rest)) by apply opens_length'.
  cbn [length] in CC. rewrite map_length, LO in CC. cbn [length] in LL. rewrite map_length, LO in LL. assert (L1 : 0 < length its) by (destruct its; [congruence|cbn; lia]).
  rewrite CC, NX. rewrite (sub64_le (N.of_nat _) (N.of_nat (length its))) by lia. rewrite (sub64_le _ 1) by lia.
  replace (N.of_nat (S (length its + length (opens base rest))) - N.of_nat (length its) - 1)%N with (N.of_nat (length (map mark (rev (opens base rest))))) by (rewrite map_length, rev_length; lia).
  rewrite SO. rewrite <- !app_assoc. rewrite (app_assoc pre).
  assert (LA : length (pre ++ outof rest) = b0) by (rewrite app_length; reflexivity).
  rewrite (fix_ok st [n] (skipn (length (mark (length (em_out e)) :: map mark O)) (data st))).
  2:{ rewrite DD at 1. cbn [rev]. rewrite <- map_rev. unfold O. rewrite (opens_items (fun k => k) Qt (fun _ _ _ _ _ => I)). fold b0. rewrite LA, LE, !map_app, <- !app_assoc. reflexivity. }
  2:{ exact SS. }
  2:{ rewrite LA, <- LE. lia. }
  cbn [bind]. replace (N.of_nat (length its) + 1)%N with (N.of_nat (S (length its))) by lia.
  destruct (pop_rep st (mark (length (em_out e)) :: map mark O) (length its) R ltac:(cbn [length]; rewrite map_length, LO; lia)) as (f & st' & EF & PP & R' & D'). rewrite PP. cbn [bind].
  assert (LF : length (pre ++ outof rest ++ flat_map raw its) = length ((pre ++ outof rest) ++ flat_map done_ its)).
  { rewrite !app_length. rewrite <- Nat.add_assoc. do 2 f_equal. clear. induction its as [|p r IH]; [reflexivity|]. cbn [flat_map]. rewrite !app_length, IH. reflexivity. }
  rewrite (app_assoc _ (flat_map done_ its)), LF. unfold get. rewrite nth_error_app2, Nat.sub_diag by lia. cbn [nth_error bind]. unfold set.
  replace (_ <? _) with true by (rewrite !app_length; change (length [n]) with 1; symmetry; apply Nat.ltb_lt; lia). cbn [bind]. eexists. split; [reflexivity|]. cbn [em_st]. rewrite D'. exact DL.
Qed.
Variable K : nat.
Definition refb (n : node) : Prop := no n = op_cse -> nex n < K.
Lemma done_refb its : Forall refb (flat_map raw its) -> Forall refb (flat_map done_ its).
Proof.
  induction its as [|p its IH]; intros F; [constructor|]. cbn [flat_map] in *. apply Forall_app in F as [F G]. apply Forall_app. split; [|auto]. unfold raw in F. inversion F; subst. unfold done_, render. constructor; [|assumption]. intros X. vm_compute in X. discriminate.
Qed.
Lemma emit_total n e pre segs s' : refb n -> Forall refb (outof segs) -> seginv pre [] e segs -> Forall shape segs -> fstep n (map fst segs) s' -> length (em_out e) < cap -> length (outof segs) < length (data (em_st e)) ->
  exists e' segs', emit_node cap n e = Ok e' /\ seginv pre [] e' segs' /\ Forall shape segs' /\ map fst segs' = s' /\ length (data (em_st e')) = length (data (em_st e)) /\ length (outof segs') = S (length (outof segs)) /\ Forall refb (outof segs').
Proof.
  intros QN QS SI F FS LC LD. pose proof (opens_short (length pre) segs F) as OS. inversion FS; subst.
  - destruct (shape_values vs segs s ltac:(congruence)) as (a & r & -> & A & B). destruct (special_no' _ H0) as (X1 & X2 & X3). destruct SI as [SO SR].
    unfold emit_node, out_append. replace (length (em_out e) <? cap) with true by lia. cbn [bind]. rewrite X1, X2. eexists. exists ((EV w, outof a ++ [n]) :: r). split; [reflexivity|]. split; [split|split; [|split; [|split; [|split]]]].
    + cbn [em_out]. rewrite SO, outof_app, outof_cons. cbn [snd]. now rewrite <- !app_assoc.
    + cbn [em_st opens]. rewrite (opens_values _ _ vs) in SR by exact A. exact SR.
    + apply Forall_app in F as [_ F]. constructor; [exact I|exact F].
    + cbn. now rewrite B.
    + reflexivity.
    + rewrite outof_cons, outof_app. cbn [snd]. rewrite !app_length. cbn [length]. lia.
    + rewrite outof_cons. rewrite outof_app in QS. apply Forall_app in QS as [Q1 Q2]. cbn [snd]. rewrite !Forall_app. auto.
  - destruct SI as [SO SR]. unfold emit_node, out_append. replace (length (em_out e) <? cap) with true by lia. cbn [bind]. rewrite H. change (op_se =? op_se)%N with true. cbv iota. rewrite app_nil_r in SR.
    destruct (push_rep _ _ (Some (length (em_out e ++ [n]) - 1), N.of_nat (length (em_out e ++ [n]))) SR ltac:(rewrite map_length; lia)) as (st & P & R & DL). rewrite P. cbn [bind].
    eexists. exists ((EM (nq n), [n]) :: segs). split; [reflexivity|]. split; [split; cbn [em_out em_st]|split; [|split; [|split; [|split]]]].
    + rewrite outof_cons, SO. cbn [snd]. now rewrite <- app_assoc.
    + cbn [opens map app]. rewrite app_nil_r. rewrite SO, !app_length in R. cbn [length] in R. unfold mark at 1.
      replace (length pre + length (outof segs) + 1 - 1) with (length pre + length (outof segs)) in R by lia. replace (length pre + length (outof segs) + 1) with (S (length pre + length (outof segs))) in R by lia. exact R.
    + constructor; [|exact F]. exists (ncs n), (nex n). cbn [snd]. rewrite <- H. now destruct n.
    + reflexivity.
    + exact DL.
    + rewrite outof_cons, app_length. cbn [snd length]. lia.
    + rewrite outof_cons, Forall_app. cbn [snd]. auto.
  - destruct (shape_items (rev l) segs s ltac:(unfold stacked in *; congruence) F) as (its & r & -> & A & B & D). rewrite <- (rev_involutive its) in *. set (its' := rev its) in *. clearbody its'.
    assert (LI : length its' = length l) by (rewrite !rev_length in B; exact B). assert (NN : its' <> []) by (destruct its'; [destruct l; [congruence|discriminate]|discriminate]).
    assert (PO : poly (no n) = true) by (unfold poly; rewrite H0; reflexivity).
    destruct (poly_total n e pre its' r PO ltac:(congruence) NN SI LC ltac:(lia)) as (e' & EM & DL). destruct (emit_poly' n e e' pre [] its' r PO ltac:(congruence) NN SI EM) as (q & O1 & O2).
    exists e', ((EV (vsum (map pval l)), flat_map done_ its' ++ [mknode (no n) (ncs n) (nex n) q]) :: r). split; [exact EM|]. split; [split|split; [|split; [|split; [|split]]]].
    + rewrite O1, outof_cons. reflexivity.
    + exact O2.
    + constructor; [exact I|exact D].
    + cbn. now rewrite A.
    + exact DL.
    + rewrite outof_cons, outof_app, outof_items. cbn [snd]. rewrite !app_length. cbn [length]. assert (LF : forall i, length (flat_map done_ i) = length (flat_map raw i)) by (clear; induction i as [|p i IH]; [reflexivity|]; cbn [flat_map]; rewrite !app_length, IH; reflexivity). rewrite LF. lia.
    + rewrite outof_cons. rewrite outof_app, outof_items in QS. apply Forall_app in QS as [Q1 Q2]. cbn [snd]. rewrite !Forall_app. split; [exact Q1|]. split; [now apply done_refb|]. repeat constructor. intros X. exfalso. cbn [no] in X. rewrite X in PO. vm_compute in PO. discriminate.
  - destruct (shape_items (rev l) segs s ltac:(unfold stacked in *; congruence) F) as (its & r & -> & A & B & D). rewrite <- (rev_involutive its) in *. set (its' := rev its) in *. clearbody its'.
    assert (LI : length its' = length l) by (rewrite !rev_length in B; exact B). assert (NN : its' <> []) by (destruct its'; [destruct l; [congruence|discriminate]|discriminate]).
    assert (PO : poly (no n) = true) by (unfold poly; rewrite H0; reflexivity).
    destruct (poly_total n e pre its' r PO ltac:(congruence) NN SI LC ltac:(lia)) as (e' & EM & DL). destruct (emit_poly' n e e' pre [] its' r PO ltac:(congruence) NN SI EM) as (q & O1 & O2).
    exists e', ((EV (vwedge m (map pval l)), flat_map done_ its' ++ [mknode (no n) (ncs n) (nex n) q]) :: r). split; [exact EM|]. split; [split|split; [|split; [|split; [|split]]]].
    + rewrite O1, outof_cons. reflexivity.
    + exact O2.
    + constructor; [exact I|exact D].
    + cbn. now rewrite A.
    + exact DL.
    + rewrite outof_cons, outof_app, outof_items. cbn [snd]. rewrite !app_length. cbn [length]. assert (LF : forall i, length (flat_map done_ i) = length (flat_map raw i)) by (clear; induction i as [|p i IH]; [reflexivity|]; cbn [flat_map]; rewrite !app_length, IH; reflexivity). rewrite LF. lia.
    + rewrite outof_cons. rewrite outof_app, outof_items in QS. apply Forall_app in QS as [Q1 Q2]. cbn [snd]. rewrite !Forall_app. split; [exact Q1|]. split; [now apply done_refb|]. repeat constructor. intros X. exfalso. cbn [no] in X. rewrite X in PO. vm_compute in PO. discriminate.
Qed.
Lemma emits_total (T : nat -> V -> Prop) : forall l s s', trun m env T l s s' -> Forall refb l -> forall pre e segs, Forall refb (outof segs) -> seginv pre [] e segs -> Forall shape segs -> map fst segs = s -> length (em_out e) + length l <= cap ->
  length (outof segs) + length l <= length (data (em_st e)) -> exists e' segs', emits cap l e = Ok e' /\ seginv pre [] e' segs' /\ Forall shape segs' /\ map fst segs' = s' /\ length (data (em_st e')) = length (data (em_st e)) /\ length (outof segs') = length (outof segs) + length l /\ Forall refb (outof segs').
Proof.
  induction 1; intros QL pre e segs QS SI F M LC LD; cbn [emits length] in *.
  - exists e, segs. rewrite Nat.add_0_r. auto 10.
  - subst s. inversion QL; subst. destruct (emit_total n e pre segs s' ltac:(assumption) QS SI F H ltac:(lia) ltac:(lia)) as (e1 & segs1 & -> & S1 & F1 & M1 & D1 & L1 & R1). cbn [bind].
    assert (LO : length (em_out e1) = S (length (em_out e))) by (rewrite (si_out _ _ _ _ S1), (si_out _ _ _ _ SI), !app_length; lia).
    destruct (IHtrun ltac:(assumption) pre e1 segs1 R1 S1 F1 M1 ltac:(lia) ltac:(lia)) as (e' & segs' & A & B & C & D & E & G & J). exists e', segs'. repeat split; auto; try apply B; lia.
  - inversion QL; subst. destruct SI as [SO SR]. assert (X : emit_node cap n e = Ok (mkemit (em_out e ++ [n]) (em_st e))).
    { unfold emit_node, out_append. replace (length (em_out e) <? cap) with true by lia. cbn [bind]. rewrite H. reflexivity. }
    rewrite X. cbn [bind]. destruct (IHtrun ltac:(assumption) pre (mkemit (em_out e ++ [n]) (em_st e)) ((EV v, [n]) :: segs)) as (e' & segs' & A & B & C & D & E & G & J).
    + rewrite outof_cons, Forall_app. cbn [snd]. auto.
    + split; cbn [em_out em_st]; [|exact SR]. rewrite SO, outof_cons. cbn [snd]. now rewrite app_assoc.
    + constructor; [exact I|exact F].
    + reflexivity.
    + cbn [em_out]. rewrite app_length. cbn [length]. lia.
    + cbn [em_st]. rewrite outof_cons, app_length. cbn [snd length]. lia.
    + exists e', segs'. rewrite outof_cons, app_length in G. cbn [snd length] in G. repeat split; auto; try apply B. lia.
Qed.
End Shape.
