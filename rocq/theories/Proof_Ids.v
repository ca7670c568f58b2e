(** Which indeterminates the symbolic evaluation uses: temporaries refer to inputs, constants and
    earlier temporaries only. *)
From Coq Require Import ZArith NArith List Bool Arith Lia ZifyBool ZifyN ZifyNat Reals Sorting.Sorted Sorting.Permutation.
From Verif Require Import Base Model_Numeric Model_Blade Model_Sort Model_MV Model_Product Model_Expr Model_Dfa
  Spec_Numeric Spec_Sort Spec_Clifford Spec_Basis
  Proof_Numeric Proof_Gens Proof_Blade Proof_Blade2 Proof_Blade3 Proof_Blade4 Spec_MV Spec_Expr Spec_Dfa Model_Engine Spec_Engine
  Proof_Sort Proof_SortMap Proof_Layout Proof_Sum Proof_Val Proof_Collate Proof_Product Proof_CollateVal
  Proof_ProductVal Proof_Ops Proof_Ops2 Proof_Basis Proof_Ops3 Proof_Div Proof_Safe Proof_Poly Proof_Proper Proof_MVAlg Proof_MVFlat Proof_Dfa Proof_Dfa2.
Import ListNotations.
Local Open Scope nat_scope.

(** the indeterminates of monomials *)
Definition idsl (P : N -> Prop) (ms : list smon) : Prop := Forall (fun s => Forall (fun i => P (id i)) (sinds s)) ms.
Lemma idsl_app P a b : idsl P (a ++ b) <-> idsl P a /\ idsl P b. Proof. apply Forall_app. Qed.
Lemma idsl_keys P a b : keys_in a b -> idsl P b -> idsl P a.
Proof.
  intros K F. apply Forall_forall. intros s Hs. destruct (K s Hs) as (z & Iz & _ & E). rewrite E. unfold idsl in F. rewrite Forall_forall in F. auto.
Qed.
Lemma idsl_imp (P Q : N -> Prop) ms : (forall i, P i -> Q i) -> idsl P ms -> idsl Q ms.
Proof. intros H F. eapply Forall_impl; [|exact F]. intros s Hs. eapply Forall_impl; [|exact Hs]. auto. Qed.
Lemma pmons_ids md P k ls rs : forall t, idsl P ls -> idsl P rs -> s_pmons md k ls rs = Ok t -> idsl P t.
Proof.
  induction ls as [|l ls IH]; intros t A B H; cbn [s_pmons] in H; [injection H as <-; constructor|].
  inversion_clear A as [|? ? A1 A2]. minv H. rename v into a. minv H. injection H as <-. apply Forall_app. split; [|eapply IH; eauto].
  clear - A1 B E. revert a E. induction rs as [|r rs IH]; intros a E; cbn [s_prow] in E; [injection E as <-; constructor|].
  inversion_clear B as [|? ? B1 B2]. minv E. rename v into m. minv E. injection E as <-. constructor; [|auto].
  unfold s_pmon in E0. minv E0. destruct v0 as [t d]. minv E0. rename v0 into q1. minv E0. injection E0 as <-. cbn [sinds].
  pose proof (s_minds_ids _ _ _ _ _ _ E) as I. apply Forall_forall. intros i Hi. rewrite Forall_forall in A1, B1.
  destruct (I (id i) (in_map id _ _ Hi)) as [G|G]; apply in_map_iff in G as (j & <- & Hj); auto.
Qed.
Lemma pterms_ids md P K ls rs : forall t, idsl P (all_mons ls) -> idsl P (all_mons rs) -> s_pterms md K ls rs = Ok t -> idsl P (all_mons t).
Proof.
  induction ls as [|l ls IH]; intros t A B H; cbn [s_pterms] in H; [injection H as <-; constructor|].
  rewrite all_mons_cons in A. apply idsl_app in A as [A1 A2]. minv H. rename v into a. minv H. injection H as <-. rewrite Proof_Layout.all_mons_app. apply idsl_app.
  split; [|eapply IH; eauto]. clear - A1 B E. revert a E. induction rs as [|r rs IH]; intros a E; cbn [s_ptrow] in E; [injection E as <-; constructor|].
  rewrite all_mons_cons in B. apply idsl_app in B as [B1 B2]. minv E. rename v into m. minv E. injection E as <-. rewrite Proof_Layout.all_mons_app. apply idsl_app. split; [|auto].
  unfold s_pterm in E0. destruct (K (fst l) (fst r)) as [e k]. destruct (k =? 0)%Z; [injection E0 as <-; constructor|].
  destruct (s_pmons md k (snd l) (snd r)) as [pm|] eqn:EM; cbn [bind] in E0; [|discriminate].
  injection E0 as <-. cbn [all_mons flat_map snd]. rewrite app_nil_r. apply (pmons_ids md P) in EM; assumption.
Qed.
Lemma pterms_tdegs K ls rs t : mv_ok ls -> mv_ok rs -> s_pterms Exact K ls rs = Ok t -> mv_ok t.
Proof.
  intros A B H. assert (D : forall ts, ts_def (fun _ => 1%R) ts).
  { intros ts. apply (proj1 (defined_ts K _ _)). intros m i _ _. left. exact R1_neq_R0. }
  exact (proj1 (proj2 (s_pterms_val K (fun _ => 1%R) 0%N ls rs t (proj1 (mv_ok_ts _) A) (proj1 (mv_ok_ts _) B) (D _) (D _) H))).
Qed.

(** what the numeric evaluation relies on *)
Definition keep (tx : list sterm) : Prop := mv_ok tx /\ Forall storable (all_mons tx) /\ Forall (fun t : sterm => snd t <> []) tx.
Lemma proper_keep n tx : proper n tx -> keep tx.
Proof.
  intros [[C1 C1'] C2 C3 C4 C5]. split; [assumption|]. split.
  - rewrite Forall_forall in *. intros s Hs. specialize (C4 s Hs). specialize (C3 s Hs). unfold all_mons in Hs. apply in_flat_map in Hs as (t & It & Is).
    destruct (C1' t It) as (_ & _ & N0). rewrite Forall_forall in N0. split; [exact (N0 s Is)|]. split; [apply C4|apply C3].
  - rewrite Forall_forall in *. intros t It. apply (C1' t It).
Qed.

Section Syn.
Context (n : nat).
(** a multivector on the symbolic stack and one that is about to be stored *)
Definition syn (P : N -> Prop) (x : mv) : Prop := exists tx, packed x tx /\ proper n tx /\ idsl P (all_mons tx).
Definition sto (P : N -> Prop) (x : mv) : Prop :=
  exists tx, packed x tx /\ StronglySorted N.lt (map fst tx) /\ in_dim n tx /\ keep tx /\ idsl P (all_mons tx).
Lemma syn_sto P x : syn P x -> sto P x.
Proof. intros (tx & A & B & C). exists tx. pose proof (proper_keep _ _ B). destruct B as [[B1 _] _ _ _ B5]. auto. Qed.
Lemma syn_imp (P Q : N -> Prop) x : (forall i, P i -> Q i) -> syn P x -> syn Q x.
Proof. intros H (tx & A & B & C). exists tx. repeat (split; [assumption|]). eapply idsl_imp; eauto. Qed.
Lemma shrink_syn P x z : syn P x -> shrink x = Ok z -> syn P z.
Proof. intros (tx & A & B & C) H. exists tx. split; [exact (proj1 (shrink_packed _ _ _ A H))|auto]. Qed.
Lemma sum_syn P x y z : syn P x -> syn P y -> sum Exact x y = Ok z -> syn P z.
Proof.
  intros (tx & A & B & C) (ty & A' & B' & C') H. destruct (sum_flat _ _ _ _ _ _ A A' H) as (t & E & Z). exists t. split; [assumption|].
  split; [exact (sum_proper _ _ _ _ B B' E)|]. eapply idsl_keys; [exact (ss_terms_keys _ _ _ _ E)|]. apply idsl_app. auto.
Qed.
Lemma product_syn m k P x y z : syn P x -> syn P y -> product Exact (blade_product m k) x y = Ok z -> syn P z.
Proof.
  intros (tx & A & B & C) (ty & A' & B' & C') H. destruct (product_flat _ _ _ _ _ _ _ A A' H) as (t & E & Z). exists t. split; [assumption|].
  split; [exact (product_proper _ _ _ _ _ (blade_product_closed m k n) B B' E)|].
  unfold s_product in E. minv E. pose proof (pterms_tdegs _ _ _ _ (pr_ok _ _ B) (pr_ok _ _ B') E0) as W.
  pose proof (sc_canon _ _ _ (mv_ok_tdegs _ W) E) as (_ & _ & _ & K). eapply idsl_keys; [exact K|]. exact (pterms_ids Exact P _ _ _ _ C C' E0).
Qed.
Lemma reverse_syn P x z : syn P x -> reverse x = Ok z -> syn P z.
Proof.
  intros (tx & A & B & C) H. destruct (reverse_flat _ _ _ A H) as (t & E & Z). exists t. split; [assumption|].
  split; [exact (reverse_proper _ _ _ B E)|]. eapply idsl_keys; [eapply s_mapt_keys; exact E|assumption].
Qed.
Lemma scale_syn P q x z : num q <> 0%Z -> (0 < den q)%Z -> syn P x -> Model_MV.scale Exact q x = Ok z -> syn P z.
Proof.
  intros Q D0 (tx & A & B & C) H. destruct (scale_flat _ _ _ _ _ A H) as (t & E & Z). exists t. split; [assumption|].
  split; [exact (scale_proper _ _ _ _ Q D0 B E)|]. eapply idsl_keys; [eapply s_mapt_keys; exact E|assumption].
Qed.
Lemma dual_syn P x z : syn P x -> poincare_dual Exact (N.of_nat n) x = Ok z -> syn P z.
Proof.
  intros (tx & A & B & C) H. destruct (dual_flat _ _ _ _ _ A H) as (t & E & Z). exists t. split; [assumption|].
  split; [exact (dual_proper _ _ _ B E)|]. pose proof (s_dual_canon Exact (N.of_nat n) tx t (mv_ok_tdegs _ (pr_ok _ _ B)) E) as (_ & _ & K & _).
  eapply idsl_keys; eauto.
Qed.
Lemma component_syn P x z e : syn P x -> component Exact x e = Ok z -> syn P z.
Proof.
  intros (tx & A & B & C) H. rewrite (component_eq Exact x tx e A) in H. destruct (s_find Exact e tx) as [t|] eqn:E; cbn [bind] in H; [|discriminate].
  injection H as <-. exists t. split; [apply pack_packed|]. destruct (s_find_proper n e tx t B E) as [G K]. split; [exact G|]. eapply idsl_keys; eauto.
Qed.
Lemma grade_syn P x z g : syn P x -> select_grade x g = Ok z -> syn P z.
Proof.
  intros (tx & A & B & C) H. rewrite (select_grade_eq x tx g A) in H. injection H as <-. exists (s_grade g tx). split; [apply pack_packed|].
  split; [now apply s_grade_proper|]. unfold idsl in *. rewrite Forall_forall in *. intros s Hs. apply C. unfold all_mons in *.
  apply in_flat_map in Hs as (t & It & Is). apply in_flat_map. exists t. split; [now apply s_grade_in in It|assumption].
Qed.
Lemma natural_syn P x z : 2 <= n -> syn P x -> to_natural_basis Exact (N.of_nat n) x = Ok z -> syn P z.
Proof.
  intros N2 (tx & A & B & C) H. destruct (change_flat _ _ _ _ _ A H) as (t & E & Z). exists t. split; [assumption|].
  split; [exact (change_proper _ _ _ _ (natural_ok n N2) (natural_pos n N2) (natural_dim n N2) B E)|].
  eapply idsl_keys; [eapply s_change_keys; [exact (mv_ok_tdegs _ (pr_ok _ _ B))|exact E]|assumption].
Qed.
Lemma zero_syn P : syn P zero_mv.
Proof.
  destruct (zero_means (fun _ => 0%R) n) as (tx & A & _ & B & _). exists tx. split; [exact A|]. split; [exact B|].
  pose proof (pk_tsz _ _ A) as L. destruct tx; [constructor|discriminate].
Qed.
Lemma blade_syn P g : (g < 2 ^ N.of_nat n)%N -> syn P (blade_mv g).
Proof.
  intros G. exists [(g, [mks one zero []])]. split; [constructor; try (exists []; reflexivity); reflexivity|].
  split; [constructor; repeat constructor; cbn; auto; try lia; try discriminate|]. repeat constructor.
Qed.
Lemma float_syn (P : N -> Prop) i : P i -> syn P (float_ie i).
Proof.
  intros G. exists [(0%N, [mks one one [mkind i one]])]. split; [constructor; try (exists []; reflexivity); reflexivity|].
  assert (P0 : (0 < 2 ^ N.of_nat n)%N) by (apply N.neq_0_lt_0, N.pow_nonzero; lia).
  split; [constructor; repeat constructor; cbn; auto; try lia; try discriminate|]. repeat constructor; assumption.
Qed.
Lemma ref_syn (P Q : N -> Prop) x i : length (terms x) = tsz x -> sto Q x -> (forall k, k < tsz x -> P (i + N.of_nat k)%N) -> syn P (create_ref x i).
Proof.
  intros L (tx & A & S0 & D & _) H. rewrite (pk_tsz _ _ A) in L, H. exists (refs i tx). split; [exact (proj1 (create_ref_packed x tx i A L))|].
  split; [now apply refs_proper|]. unfold idsl. rewrite refs_mons. apply Forall_forall. intros s Hs. apply in_map_iff in Hs as (k & <- & Hk). apply in_seq in Hk.
  constructor; [|constructor]. cbn. apply H. lia.
Qed.
Lemma fn_sto P o q x z : num q <> 0%Z -> (0 < den q)%Z -> syn P x -> Model_MV.fn Exact o q x = Ok z -> sto P z.
Proof.
  intros Q Q1 (tx & A & B & C) H. pose proof (proper_keep _ _ B) as (K1 & K2 & K3). destruct (scale_flat _ _ _ _ _ (with_op_packed x o tx A) H) as (t & E & Z). exists t. split; [assumption|].
  pose proof (s_mapt_shape _ _ _ E) as (_ & _ & _ & _ & M2). split; [rewrite M2; apply B|]. split.
  - apply in_dim_elems. rewrite M2. intros e He. eapply in_dim_in; [apply B|exact He].
  - split; [|eapply idsl_keys; [eapply s_mapt_keys; exact E|assumption]].
    split; [exact (proj2 (scale_val (fun _ => 1%R) q tx t 0%N ltac:(lia) K1 E))|]. split; [|eapply mapt_nonempty; eauto].
    eapply mapt_storable; [|exact K2|exact E]. intros p r P1 P2 Hr. exact (scale_keep q p r Q Q1 P1 P2 Hr).
Qed.
Lemma divide_sto P x y q z : num q <> 0%Z -> (0 < den q)%Z -> syn P x -> syn P y -> divisor_for x y = true -> divide Exact x y q = Ok z -> sto P z.
Proof.
  intros Q0 Q1 (tx & A & B & C) (ty & A' & B' & C') DV H. pose proof (proper_keep _ _ B) as (S3 & S4 & S5). unfold divisor_for in DV. apply andb_true_iff in DV as [MS DV].
  destruct (mono_scalar_shape (fun _ => 0%R) y ty A' MS) as [s ->]. destruct (pk_mons _ _ A') as [rm Em]. destruct (pk_inds _ _ A') as [ri Ei].
  destruct (pk_terms _ _ A') as [rt Et].
  assert (T0 : terms y <> []) by (rewrite Et; discriminate). change (all_mons [(0%N, [s])]) with [s] in *. cbn [lay_mons app] in Em. cbn [all_inds flat_map app] in Ei.
  rewrite app_nil_r in Ei. rewrite Em in DV.
  pose proof (proper_keep _ _ B') as (_ & KY & _). change (all_mons [(0%N, [s])]) with [s] in KY. inversion_clear KY as [|? ? (NS & DS & DE) _].
  destruct (inds y) as [|d [|]] eqn:EI; [| |discriminate DV].
  - destruct (rr_ok _ _ _ _ (divide_const_eq Exact x y q _ tx A EI (ex_intro _ rm Em) T0) H) as (t & E & Z & _ & MZ).
    exists t. split; [assumption|]. pose proof (s_mapt_shape _ _ _ E) as (_ & _ & _ & _ & M2). split; [rewrite M2; apply B|]. split.
    + apply in_dim_elems. rewrite M2. intros e He. eapply in_dim_in; [apply B|exact He].
    + split; [|eapply idsl_keys; [eapply s_mapt_keys; exact E|assumption]]. cbn [mq] in E.
      split; [exact (proj2 (divide_const_val (fun _ => 1%R) q (mkmon (sq s) (sdeg s) (length (sinds s)) 0) tx t 0%N ltac:(lia) ltac:(cbn; lia) ltac:(cbn; lia) S3 E))|].
      split; [|eapply mapt_nonempty; eauto].
      eapply mapt_storable; [|exact S4|exact E]. intros p r P1 P2 Hr. cbn beta in Hr. minv Hr. destruct (scale_keep q p _ Q0 Q1 P1 P2 E0) as [K1 K2].
      exact (div_keep _ (sq s) r K1 K2 NS DS Hr).
  - apply andb_true_iff in DV as [MC FR]. cbn [mcount] in MC. destruct (sinds s) as [|d' [|]] eqn:SI; cbn [length] in MC; try lia.
    cbn [app] in Ei. injection Ei as -> <-.
    assert (FF : free_of (id d') tx).
    { apply Forall_forall. intros u Hu Hin. apply in_map_iff in Hin as (i & Ei & Hi).
      assert (IN : In i (firstn (isz x) (inds x))).
      { destruct (pk_inds _ _ A) as [r Er]. rewrite (pk_isz _ _ A), Er. unfold tilen, ilen. rewrite firstn_pre.
        unfold all_inds. apply in_flat_map. eauto. }
      rewrite forallb_forall in FR. specialize (FR i IN). lia. }
    assert (PD : P (id d')). { inversion_clear C' as [|? ? C1 _]. rewrite SI in C1. now inversion_clear C1. }
    destruct (rr_ok _ _ _ _ (divide_ind_eq Exact x y q _ d' tx A EI (ex_intro _ rm Em) T0 FF) H) as (t & E & Z).
    assert (DI : integral (ideg d')). { pose proof (pr_ok _ _ B') as M. unfold mv_ok in M. change (all_mons [(0%N, [s])]) with [s] in M.
      inversion_clear M as [|? ? (_ & _ & M1) _]. rewrite SI in M1. now inversion_clear M1. }
    assert (DN : num (ideg d') <> 0%Z). { pose proof (pr_sorted _ _ B') as M. change (all_mons [(0%N, [s])]) with [s] in M.
      inversion_clear M as [|? ? (_ & M1 & _) _]. rewrite SI in M1. now inversion_clear M1. }
    pose proof (proj2 (s_divide_val (fun _ => 1%R) q d' (sq s) tx t 0%N ltac:(lia) DI ltac:(lia) ltac:(lia) S3 R1_neq_R0 E)) as VV.
    unfold s_divide in E. minv E. rename v into nd. minv E. rename v into t1. cbn [mq] in E1. apply rneg_ok in E0. subst nd.
    assert (M1 : map fst t1 = map fst tx /\ idsl P (all_mons t1)).
    { clear -E1 PD C. revert t1 E1. unfold s_div_terms. induction tx as [|u tx IH]; intros t1 E1; cbn [mapM] in E1; [injection E1 as <-; split; [reflexivity|constructor]|].
      rewrite all_mons_cons in C. apply idsl_app in C as [C1 C2]. minv E1. rename v into u1. minv E1. rename v into t2. injection E1 as <-. destruct (IH C2 t2 E0) as [I1 I2].
      minv E. rename v into l. injection E as <-. cbn [map fst]. split; [now f_equal|]. rewrite all_mons_cons. apply idsl_app. split; [|exact I2]. cbn [snd].
      clear -E1 C1 PD. revert l E1. unfold s_div. induction (snd u) as [|a ms IH]; intros l E1; cbn [mapM] in E1; [injection E1 as <-; constructor|].
      inversion_clear C1 as [|? ? K1 K2]. minv E1. rename v into b. minv E1. rename v into r. injection E1 as <-. constructor; [|now apply IH].
      minv E. minv E. injection E as <-. cbn [sinds]. clear -K1 PD. induction K1 as [|i is Ki K IH]; cbn [ins]; [repeat constructor; assumption|].
      destruct (_ <? _)%N; repeat constructor; auto. }
    assert (S4' : Forall storable (all_mons t1) /\ Forall (fun t : sterm => snd t <> []) t1).
    { clear -E1 S4 S5 NS DS DN. revert t1 E1. unfold s_div_terms. induction tx as [|u tx IH]; intros t1 E1; cbn [mapM] in E1; [injection E1 as <-; split; constructor|].
      minv E1. rename v into u1. minv E1. rename v into t2. injection E1 as <-. rewrite all_mons_cons in S4. apply Forall_app in S4 as [S41 S42].
      inversion_clear S5 as [|? ? S51 S52]. destruct (IH S42 S52 t2 E0) as [I1 I2]. rewrite all_mons_cons. minv E. rename v into l.
      injection E as <-. cbn [snd]. pose proof (s_div_shape _ _ _ _ _ E1) as [LL _].
      split; [apply Forall_app; split; [|exact I1]|constructor; [|exact I2]; cbn; intros ->; destruct (snd u); [contradiction|discriminate]].
      clear -E1 S41 NS DS DN. revert l E1. unfold s_div. induction (snd u) as [|a ms IH]; intros l E1; cbn [mapM] in E1; [injection E1 as <-; constructor|].
      inversion_clear S41 as [|? ? (K1 & K2 & K3) S42]. minv E1. rename v into b. minv E1. rename v into r. injection E1 as <-. constructor; [|now apply IH].
      minv E. minv E. injection E as <-. destruct (div_keep _ _ _ K1 K2 NS DS E2) as [L1 L2]. repeat split; cbn; auto.
      clear -K3 DN. induction K3 as [|i is Ki K IH]; cbn; [constructor; [cbn; lia|constructor]|].
      destruct (_ <? _)%N; (constructor; [first [exact Ki|cbn; lia]|]); [constructor; auto|exact IH]. }
    destruct S4' as [S41 S51].
    destruct M1 as [M1 M3]. pose proof (s_mapt_shape _ _ _ E) as (_ & _ & _ & _ & M2).
    exists t. split; [assumption|]. split; [rewrite M2, M1; apply B|]. split.
    + apply in_dim_elems. rewrite M2, M1. intros e He. eapply in_dim_in; [apply B|exact He].
    + split; [|eapply idsl_keys; [eapply s_mapt_keys; exact E|assumption]]. split; [exact VV|].
      split; [|eapply mapt_nonempty; eauto].
      eapply mapt_storable; [|exact S41|exact E]. intros p r P1 P2 Hr. exact (scale_keep q p r Q0 Q1 P1 P2 Hr).
Qed.
End Syn.

(** ** freshness of the temporaries *)
Definition below (c i : N) : Prop := (i < c)%N \/ (ind_constant_start <= i < ind_constant_start + 2)%N.
Lemma below_imp c c' i : (c <= c')%N -> below c i -> below c' i.
Proof. unfold below. lia. Qed.
Section Fresh.
Context (m : metric) (nb : bool).
Local Notation n := (dim m).
Hypothesis Hn : nb = true -> 2 <= n.
(** the temporaries occupy consecutive indeterminates from [c] to [c'] and refer to earlier ones *)
Fixpoint chain (c : N) (ts : list (mv * N)) (c' : N) : Prop :=
  match ts with
  | [] => c = c'
  | p :: ts' => snd p = c /\ length (terms (fst p)) = tsz (fst p) /\ sto n (below c) (fst p) /\ chain (c + N.of_nat (tsz (fst p))) ts' c'
  end.
Lemma chain_le ts : forall c c', chain c ts c' -> (c <= c')%N.
Proof. induction ts as [|p ts IH]; cbn; intros c c' H; [lia|]. destruct H as (_ & _ & _ & H). apply IH in H. lia. Qed.
Lemma chain_snoc ts x : forall c c', chain c ts c' -> length (terms x) = tsz x -> sto n (below c') x -> chain c (ts ++ [(x, c')]) (c' + N.of_nat (tsz x)).
Proof.
  induction ts as [|p ts IH]; intros c c' H L S0; cbn [app chain] in *.
  - subst c'. cbn. auto.
  - destruct H as (A & B & C & D). repeat (split; [assumption|]). apply IH; auto.
Qed.
Lemma chain_nth ts : forall c c' k x i, chain c ts c' -> nth_error ts k = Some (x, i) ->
  length (terms x) = tsz x /\ sto n (below c') x /\ (i + N.of_nat (tsz x) <= c')%N.
Proof.
  induction ts as [|p ts IH]; intros c c' k x i H E; [destruct k; discriminate|]. cbn [chain] in H. destruct H as (A & B & (tx & C1 & C2 & C3 & CK & C4) & D).
  destruct k as [|k]; cbn in E; [|eapply IH; eauto]. injection E as ->. cbn [fst snd] in *. subst i. pose proof (chain_le _ _ _ D).
  split; [exact B|]. split; [|lia]. exists tx. repeat (split; [assumption|]). eapply idsl_imp; [|exact C4]. intros i. apply below_imp. lia.
Qed.
Definition fresh (c0 : N) (st : rstate) : Prop :=
  chain c0 (r_temps st) (r_cnt st) /\ Forall (syn n (below (r_cnt st))) (r_args st) /\ Forall (syn n (below c0)) (r_in st).
Lemma fold_sum_syn (P : N -> Prop) xs : forall z, Forall (syn n P) xs -> fold_sum Exact xs = Ok z -> syn n P z.
Proof.
  induction xs as [|x xs IH]; intros z F H; [discriminate|]. inversion_clear F as [|? ? Fx Fs]. destruct xs as [|x' xs].
  - injection H as <-. exact Fx.
  - cbn [fold_sum] in H. mop_bind H. apply (sum_syn n P x u); auto.
Qed.
Lemma fold_ep_syn (P : N -> Prop) xs : forall z, Forall (syn n P) xs -> fold_ep Exact m xs = Ok z -> syn n P z.
Proof.
  induction xs as [|x xs IH]; intros z F H; [discriminate|]. inversion_clear F as [|? ? Fx Fs]. destruct xs as [|x' xs].
  - injection H as <-. exact Fx.
  - cbn [fold_ep] in H. mop_bind H. exact (product_syn n m Exterior P x u z Fx (IH u Fs E) H).
Qed.
Lemma topn_all {P : mv -> Prop} k args a r : Forall P args -> topn k args = Ok (a, r) -> Forall P a /\ Forall P r.
Proof.
  intros F H. unfold topn in H. destruct (_ || _); [discriminate|]. injection H as <- <-. rewrite <- (firstn_skipn k args) in F. now apply Forall_app in F.
Qed.
Lemma apply_syn (P : N -> Prop) nd args args' : must_store nd = false -> fit n nd args = true -> no nd <> op_id -> no nd <> op_cse -> no nd <> op_noop ->
  (forall i, (ind_constant_start <= i < ind_constant_start + 2)%N -> P i) ->
  apply_op Exact m nd args = Ok args' -> Forall (syn n P) args -> Forall (syn n P) args'.
Proof.
  intros MS FT N1 N2 N3 PC H A. unfold apply_op in H.
  destruct (N.eqb_spec (no nd) op_rev) as [C0|C0].
  - destruct args as [|x s]; [discriminate|]. cbn [top1 bind] in H. binds. inversion_clear A. constructor; [|assumption]. eapply reverse_syn; eauto.
  - destruct (N.eqb_spec (no nd) op_pd) as [C|C].
    { destruct args as [|x s]; [discriminate|]. cbn [top1 bind] in H. binds. inversion_clear A. constructor; [|assumption].
      match goal with X : poincare_dual _ _ _ = _ |- _ => rewrite <- dim_N in X; eapply dual_syn; [|exact X]; assumption end. }
    destruct (N.eqb_spec (no nd) op_sum) as [C1|C1].
    { minv H. destruct v as [a r]. destruct (topn_all _ _ _ _ A E) as [F1 F2]. binds. constructor; [|exact F2]. eapply shrink_syn; [|eassumption]. eapply fold_sum_syn; [|eassumption]; assumption. }
    destruct (N.eqb_spec (no nd) op_gp) as [C2|C2].
    { destruct args as [|y [|x s]]; try discriminate. cbn [Model_Dfa.top2 bind] in H. binds. inversion_clear A as [|? ? A1 A2]. inversion_clear A2 as [|? ? A3 A4].
      constructor; [|assumption]. eapply shrink_syn; [|eassumption]. eapply product_syn; [exact A3|exact A1|eassumption]. }
    destruct (N.eqb_spec (no nd) op_ep) as [C3|C3].
    { minv H. destruct v as [a r]. destruct (topn_all _ _ _ _ A E) as [F1 F2]. binds. constructor; [|exact F2]. eapply shrink_syn; [|eassumption].
      eapply fold_ep_syn; [|eassumption]. now apply Forall_rev. }
    destruct (N.eqb_spec (no nd) op_lc) as [C4|C4].
    { destruct args as [|y [|x s]]; try discriminate. cbn [Model_Dfa.top2 bind] in H. binds. inversion_clear A as [|? ? A1 A2]. inversion_clear A2 as [|? ? A3 A4].
      constructor; [|assumption]. eapply shrink_syn; [|eassumption]. eapply product_syn; [exact A3|exact A1|eassumption]. }
    destruct (N.eqb_spec (no nd) op_sip) as [C5|C5].
    { destruct args as [|y [|x s]]; try discriminate. cbn [Model_Dfa.top2 bind] in H. binds. inversion_clear A as [|? ? A1 A2]. inversion_clear A2 as [|? ? A3 A4].
      constructor; [|assumption]. eapply shrink_syn; [|eassumption]. eapply product_syn; [exact A3|exact A1|eassumption]. }
    unfold must_store, is_fn in MS.
    destruct (N.eqb_spec (no nd) op_div) as [D1|D1]; [discriminate|]. destruct (N.eqb_spec (no nd) op_sqrt) as [D2|D2]; [discriminate|].
    destruct (N.eqb_spec (no nd) op_sin) as [D3|D3]; [discriminate|]. destruct (N.eqb_spec (no nd) op_cos) as [D4|D4]; [discriminate|].
    destruct (N.eqb_spec (no nd) op_tan) as [D5|D5]; [discriminate|].
    destruct (N.eqb_spec (no nd) op_comp) as [C6|C6].
    { destruct args as [|x s]; [discriminate|]. cbn [top1 bind] in H. binds. inversion_clear A. constructor; [|assumption].
      eapply shrink_syn; [|eassumption]. eapply component_syn; eauto. }
    destruct (N.eqb_spec (no nd) op_grd) as [C7|C7].
    { destruct args as [|x s]; [discriminate|]. cbn [top1 bind] in H. binds. inversion_clear A. constructor; [|assumption].
      eapply shrink_syn; [|eassumption]. eapply grade_syn; eauto. }
    destruct (N.eqb_spec (no nd) c_zero) as [C8|C8]; [binds; constructor; [apply zero_syn|assumption]|].
    unfold fit, is_fn in FT.
    replace (no nd =? op_grd)%N with false in FT by (symmetry; apply N.eqb_neq; assumption). replace (no nd =? op_noop)%N with false in FT by (symmetry; apply N.eqb_neq; assumption). replace (no nd =? op_div)%N with false in FT by (symmetry; apply N.eqb_neq; assumption).
    replace (no nd =? op_sqrt)%N with false in FT by (symmetry; apply N.eqb_neq; assumption). replace (no nd =? op_sin)%N with false in FT by (symmetry; apply N.eqb_neq; assumption). replace (no nd =? op_cos)%N with false in FT by (symmetry; apply N.eqb_neq; assumption).
    replace (no nd =? op_tan)%N with false in FT by (symmetry; apply N.eqb_neq; assumption). cbn [orb] in FT.
    destruct (N.ltb_spec (no nd) c_const_end) as [C9|C9]; binds; (constructor; [|assumption]).
    + apply float_syn. apply PC. replace (c_scalar <=? no nd)%N with false in FT by (clear - C9; unfold c_scalar, c_const_end in *; lia).
      apply existsb_exists in FT as (o & Io & Eo). apply N.eqb_eq in Eo. rewrite Eo in *.
      repeat (destruct Io as [<-|Io]; [first [congruence | split; vm_compute; congruence]|]). destruct Io.
    + apply blade_syn. destruct (N.leb_spec c_scalar (no nd)) as [C10|C10]; [now apply N.ltb_lt in FT|].
      replace (no nd - c_scalar)%N with 0%N by (clear - C10; lia). apply N.neq_0_lt_0, N.pow_nonzero. discriminate.
Qed.
Lemma step_fresh c0 nd st st' : fresh c0 st -> must_store nd = false -> fit n nd (r_args st) = true -> rpn_step Exact m nb nd st = Ok st' -> fresh c0 st'.
Proof.
  intros (F1 & F2 & F3) MS FT H. unfold rpn_step in H. pose proof (chain_le _ _ _ F1) as LE.
  destruct (N.eqb_spec (no nd) op_id) as [C|C].
  { destruct (r_in st) as [|x rest] eqn:EI; [discriminate|]. cbn [top1 bind] in H. inversion_clear F3 as [|? ? G1 G2].
    assert (G3 : syn n (below (r_cnt st)) x) by (eapply syn_imp; [|exact G1]; intros i; apply below_imp; exact LE).
    destruct nb; mop_bind H; injection H as <-; (split; [exact F1|]); (split; [|exact G2]); (constructor; [|exact F2]).
    - rewrite <- dim_N in E. exact (natural_syn n _ _ _ (Hn eq_refl) G3 E).
    - injection E as <-. exact G3. }
  destruct (N.eqb_spec (no nd) op_cse) as [C1|C1].
  { destruct (nth_error (r_temps st) (nex nd)) as [[x i]|] eqn:EN; [|discriminate]. injection H as <-. split; [exact F1|]. split; [|exact F3].
    constructor; [|exact F2]. destruct (chain_nth _ _ _ _ _ _ F1 EN) as (A1 & A2 & A3). eapply ref_syn; [exact A1|exact A2|].
    intros k K. left. cbn [r_cnt]. lia. }
  destruct (N.eqb_spec (no nd) op_noop) as [C2|C2].
  { destruct (r_args st) as [|x s] eqn:EA; [discriminate|]. cbn [top1 bind] in H. injection H as <-. inversion_clear F2 as [|? ? G1 G2].
    unfold fit in FT. rewrite C2 in FT. codes FT. apply Nat.eqb_eq in FT. unfold fresh. cbn [r_temps r_cnt r_args r_in].
    split; [apply chain_snoc; [exact F1|exact FT|now apply syn_sto]|]. split; [|exact F3].
    eapply Forall_impl; [|exact G2]. intros y. apply syn_imp. intros i. apply below_imp. lia. }
  mop_bind H. injection H as <-. split; [exact F1|]. split; [|exact F3]. cbn [r_args r_cnt].
  eapply apply_syn; eauto. intros i. right. assumption.
Qed.
Lemma store_fresh c0 nd k st st1 st2 : fresh c0 st -> must_store nd = true -> fit n nd (r_args st) = true -> rpn_step Exact m nb nd st = Ok st1 ->
  no k = op_noop -> fit n k (r_args st1) = true -> rpn_step Exact m nb k st1 = Ok st2 -> fresh c0 st2.
Proof.
  intros (F1 & F2 & F3) MS FT H C FK K.
  assert (G : exists x s, r_args st1 = x :: s /\ sto n (below (r_cnt st)) x /\ Forall (syn n (below (r_cnt st))) s /\
    r_temps st1 = r_temps st /\ r_cnt st1 = r_cnt st /\ r_in st1 = r_in st).
  { unfold must_store, is_fn in MS. rewrite !orb_true_iff, !N.eqb_eq in MS.
    destruct MS as [MS|[[[MS|MS]|MS]|MS]]; use_code MS H; unfold fit, is_fn in FT; rewrite MS in FT; codes FT; cbn [orb] in FT.
    - destruct (r_args st) as [|y [|x s]]; cbn [Model_Dfa.top2 bind] in H; try discriminate. binds.
      rewrite !andb_true_iff in FT. destruct FT as [[QD QN] FT]. inversion_clear F2 as [|? ? F4 F5]. inversion_clear F5.
      eexists _, _. cbn [r_args r_temps r_cnt r_in]. split; [reflexivity|]. split; [|auto]. eapply divide_sto; [| | | |exact FT|eassumption]; first [assumption|lia].
    - destruct (r_args st) as [|x s]; cbn [top1 bind] in H; try discriminate. binds. rewrite !andb_true_iff in FT. destruct FT as [[QD Q] _].
      inversion_clear F2. eexists _, _. cbn [r_args r_temps r_cnt r_in]. split; [reflexivity|]. split; [|auto].
      eapply fn_sto; [| |eassumption|eassumption]; lia.
    - destruct (r_args st) as [|x s]; cbn [top1 bind] in H; try discriminate. binds. rewrite !andb_true_iff in FT. destruct FT as [[QD Q] _].
      inversion_clear F2. eexists _, _. cbn [r_args r_temps r_cnt r_in]. split; [reflexivity|]. split; [|auto].
      eapply fn_sto; [| |eassumption|eassumption]; lia.
    - destruct (r_args st) as [|x s]; cbn [top1 bind] in H; try discriminate. binds. rewrite !andb_true_iff in FT. destruct FT as [[QD Q] _].
      inversion_clear F2. eexists _, _. cbn [r_args r_temps r_cnt r_in]. split; [reflexivity|]. split; [|auto].
      eapply fn_sto; [| |eassumption|eassumption]; lia.
    - destruct (r_args st) as [|x s]; cbn [top1 bind] in H; try discriminate. binds. rewrite !andb_true_iff in FT. destruct FT as [[QD Q] _].
      inversion_clear F2. eexists _, _. cbn [r_args r_temps r_cnt r_in]. split; [reflexivity|]. split; [|auto].
      eapply fn_sto; [| |eassumption|eassumption]; lia. }
  destruct G as (x & s & E1 & E2 & E3 & E4 & E5 & E6). use_code C K. rewrite E1 in K. cbn [top1 bind] in K. injection K as <-.
  unfold fit in FK. rewrite C, E1 in FK. codes FK. apply Nat.eqb_eq in FK. unfold fresh. cbn [r_temps r_cnt r_args r_in]. rewrite E4, E5, E6.
  split; [apply chain_snoc; assumption|]. split; [|exact F3].
  eapply Forall_impl; [|exact E3]. intros y. apply syn_imp. intros i. apply below_imp. lia.
Qed.
(** without storing, no temporaries appear *)
Lemma step_cnt md nd st st' : no nd <> op_noop -> rpn_step md m nb nd st = Ok st' -> r_cnt st' = r_cnt st /\ r_temps st' = r_temps st.
Proof.
  intros C H. unfold rpn_step in H. destruct (no nd =? op_id)%N; [binds; destruct a; binds; auto|].
  destruct (no nd =? op_cse)%N; [destruct (nth_error _ _) as [[x i]|]; [injection H as <-; auto|discriminate]|].
  destruct (N.eqb_spec (no nd) op_noop); [congruence|]. binds. auto.
Qed.
Lemma run_cnt md f : forall l st st', (forall k, In k l -> no k <> op_noop) -> rpn_run md m nb f l st = Ok st' -> r_cnt st' = r_cnt st /\ r_temps st' = r_temps st.
Proof.
  induction f as [|f IH]; intros l st st' NN H; [discriminate|]. cbn [rpn_run] in H. destruct l as [|nd l]; [injection H as <-; auto|].
  destruct (no nd =? op_se)%N.
  - destruct (_ <? _); [discriminate|]. mop_bind H. mop_bind H.
    apply IH in H; [|intros k K; apply NN; right; rewrite <- (firstn_skipn (nex nd) l); apply in_or_app; now right].
    apply IH in E; [|intros k K; apply NN; right; rewrite <- (firstn_skipn (nex nd) l); apply in_or_app; now left].
    pose proof (close_temps md nd st u u0 E0) as [T _]. cbn [rpn_open r_cnt r_temps] in E. destruct H as [-> ->], E as [E1 E2].
    rewrite T, E2. split; [|reflexivity]. clear - E0. unfold rpn_close in E0. binds. destruct a. binds. reflexivity.
  - mop_bind H. apply IH in H; [|intros k K; apply NN; now right]. destruct H as [-> ->].
    eapply step_cnt; [|exact E]. apply NN. now left.
Qed.
Lemma bodies_app a b : incl (bodies b) (bodies (a ++ b)).
Proof. induction a as [|x a IH]; cbn [app bodies]; [apply incl_refl|]. destruct (_ =? _)%N; [apply incl_tl|]; exact IH. Qed.
Theorem fits_fresh l st : fits Exact m nb l st -> forall c0 f st', length l < f -> rpn_run Exact m nb f l st = Ok st' ->
  stores_on_top l -> fresh c0 st -> fresh c0 st'.
Proof.
  induction 1 as [st|nd l st st1 NS MS FT R FI IH|nd k l st st1 st2 MS NK FT R1 FK R2 FI IH|nd b l st sub st1 NS NX Q FB IHB RB RC FL IHL];
    intros c0 f st' LF RR TOP FR; (destruct f as [|f]; [cbn in LF; lia|]); cbn [rpn_run] in RR; cbn [length] in LF.
  - injection RR as <-. exact FR.
  - replace (no nd =? op_se)%N with false in RR by (symmetry; apply N.eqb_neq; assumption). rewrite R in RR. cbn [bind] in RR.
    eapply IH; [|exact RR| |]; [lia| |eapply step_fresh; eauto]. intros b k Ib. apply TOP. cbn [bodies]. destruct (_ =? _)%N; [right|]; exact Ib.
  - assert (NS : no nd <> op_se) by (intros E; unfold must_store, is_fn in MS; rewrite E in MS; discriminate).
    replace (no nd =? op_se)%N with false in RR by (symmetry; apply N.eqb_neq; assumption). rewrite R1 in RR. cbn [bind] in RR. destruct f as [|f]; [lia|]. cbn [rpn_run] in RR.
    rewrite NK in RR. codes RR. rewrite R2 in RR. cbn [bind] in RR.
    eapply IH; [|exact RR| |]; [lia| |exact (store_fresh c0 nd k st st1 st2 FR MS FT R1 NK FK R2)].
    intros b j Ib. apply TOP. cbn [bodies]. destruct (_ =? _)%N; [right|]; (destruct (_ =? _)%N; [right|]; exact Ib).
  - rewrite NS in RR. codes RR. rewrite app_length in LF. rewrite NX, app_length in RR. replace (length b + length l <? length b) with false in RR by lia.
    rewrite firstn_app, Nat.sub_diag, firstn_all, firstn_O, app_nil_r, skipn_app, Nat.sub_diag, skipn_all, skipn_O in RR. cbn [app] in RR.
    rewrite (run_fuel Exact m nb b f (Datatypes.S (length b)) (rpn_open st) ltac:(lia) ltac:(lia)), RB in RR. cbn [bind] in RR. rewrite RC in RR. cbn [bind] in RR.
    assert (NB : forall k, In k b -> no k <> op_noop).
    { intros k K. apply (TOP b k); [|exact K]. cbn [bodies]. rewrite NS, N.eqb_refl, NX. left. now rewrite firstn_app, Nat.sub_diag, firstn_all, firstn_O, app_nil_r. }
    destruct (run_cnt _ _ _ _ _ NB RB) as [C1 C2]. cbn [rpn_open r_cnt r_temps] in C1, C2.
    assert (FB' : fresh c0 sub).
    { eapply IHB; [|exact RB| |]; [lia| |].
      - intros c k Ic Ik. apply NB. clear - Ic Ik. revert Ic. induction b as [|x b IH]; cbn [bodies]; [intros []|]. destruct (_ =? _)%N.
        + intros [<-|Ic]; right; [|auto]. rewrite <- (firstn_skipn (nex x) b). apply in_or_app. now left.
        + intros Ic. right. auto.
      - destruct FR as (F1 & F2 & F3). split; [exact F1|]. split; [constructor|exact F3]. }
    eapply IHL; [|exact RR| |]; [lia| |].
    + intros c k Ic. apply TOP. cbn [bodies]. rewrite NS, N.eqb_refl. right. now apply bodies_app.
    + destruct FR as (F1 & F2 & F3), FB' as (G1 & G2 & G3). unfold rpn_close in RC. destruct (r_args sub) as [|x s] eqn:EA; [discriminate|]. cbn [top1 bind] in RC.
      mop_bind RC. injection RC as <-. unfold fresh. cbn [r_temps r_cnt r_args r_in]. rewrite C2. rewrite C1 in G2. split; [exact F1|]. split; [|exact G3].
      constructor; [|exact F2]. inversion_clear G2 as [|? ? G4 _]. destruct (Z.eqb_spec (num (nq nd)) 0) as [Q0|Q0]; [injection E as <-; exact G4|].
      destruct Q as [Q|Q]; [lia|]. exact (scale_syn n _ _ _ _ Q0 Q G4 E).
Qed.
End Fresh.
