(** Reshaping stays in bounds: the walks of the second pass, and the whole. *)
From Coq Require Import ZArith NArith List Bool Arith Lia ZifyBool ZifyN ZifyNat Reals.
From Verif Require Import Base Model_Numeric Model_Blade Model_Stack Model_Expr Model_Dfa Model_Reshape.
From Verif Require Import Spec_Numeric Spec_Clifford Spec_MV Spec_Basis Spec_Expr Spec_Reshape Spec_Scan.
From Verif Require Import Proof_Numeric Proof_Expr Proof_Util Proof_Reshape Proof_Reshape2 Proof_Reshape3 Proof_Reshape4 Proof_Sharing Proof_Scan Proof_Emit.
Import ListNotations.
Local Open Scope nat_scope.

(** ** walks *)
Definition forth (M : list node) : Prop := forall p n, nth_error M p = Some n -> no n = op_cse -> p < N.to_nat (ncs n).
Lemma path_up M s j l : forth M -> path M s j l -> (j <= s)%N.
Proof. intros F. induction 1; [lia| |lia]. specialize (F _ _ H0 H1). lia. Qed.
Lemma path_in M s j l n : path M s j l -> In n l -> exists p, nth_error M p = Some n.
Proof. induction 1; intros I; [destruct I| |]; (destruct I as [<-|I]; [eauto|auto]). Qed.
Lemma path_det M s j l l' : path M s j l -> path M s j l' -> l = l'.
Proof.
  intros H. revert l'. induction H; intros l' Q; inversion Q; subst; try congruence.
  - match goal with Y : nth_error M (N.to_nat j) = Some ?z |- _ :: _ = ?z :: _ => rewrite H0 in Y; injection Y as <- end. f_equal. auto.
  - match goal with Y : nth_error M (N.to_nat j) = Some ?z |- _ :: _ = ?z :: _ => rewrite H0 in Y; injection Y as <- end. f_equal. auto.
Qed.
Lemma path_app M s b a l1 l2 : forth M -> path M s a l1 -> (s <= b)%N -> path M b s l2 -> path M b a (l1 ++ l2).
Proof.
  intros F H. induction H; intros SB P2; [exact P2| |]; cbn [app].
  - pose proof (path_up _ _ _ _ F H2) as U. specialize (F _ _ H0 H1) as F1. eapply pa_cse; eauto. lia.
  - pose proof (path_up _ _ _ _ F H2) as U. eapply pa_node; eauto. lia.
Qed.
Lemma path_split M b a l : forth M -> path M b a l -> forall s, (a <= s <= b)%N -> (forall p n, N.to_nat a <= p < N.to_nat s -> nth_error M p = Some n -> no n = op_cse -> (ncs n <= s)%N) ->
  exists l1 l2, l = l1 ++ l2 /\ path M s a l1 /\ path M b s l2.
Proof.
  intros F. induction 1; intros s LE HC.
  - replace s with b by lia. exists [], []. repeat split; constructor.
  - destruct (N.eq_dec j s) as [<-|NE]; [exists [], (n :: l); repeat split; [constructor|eapply pa_cse; eauto]|].
    pose proof (path_up _ _ _ _ F H2) as U. pose proof (F _ _ H0 H1) as F1. pose proof (HC (N.to_nat j) n ltac:(lia) H0 H1) as C1.
    destruct (IHpath s) as (l1 & l2 & -> & P1 & P2); [lia|intros p x P; apply HC; lia|]. exists (n :: l1), l2. repeat split; auto. eapply pa_cse; eauto.
  - destruct (N.eq_dec j s) as [<-|NE]; [exists [], (n :: l); repeat split; [constructor|eapply pa_node; eauto]|].
    destruct (IHpath s) as (l1 & l2 & -> & P1 & P2); [lia|intros p x P; apply HC; lia|]. exists (n :: l1), l2. repeat split; auto. eapply pa_node; eauto.
Qed.
Lemma path_agree M M' s j l : forth M -> path M s j l -> (forall p, N.to_nat j <= p < N.to_nat s -> nth_error M' p = nth_error M p) -> path M' s j l.
Proof.
  intros F. induction 1; intros A; [constructor| |].
  - pose proof (path_up _ _ _ _ F H2) as U. pose proof (F _ _ H0 H1) as F1. eapply pa_cse; [exact H|rewrite A by lia; exact H0|exact H1|]. apply IHpath. intros p P. apply A. lia.
  - pose proof (path_up _ _ _ _ F H2) as U. eapply pa_node; [exact H|rewrite A by lia; exact H0|exact H1|]. apply IHpath. intros p P. apply A. lia.
Qed.
Lemma path_make M b : forth M -> (N.to_nat b <= length M) -> forall d j, N.to_nat b - N.to_nat j <= d -> (j <= b)%N -> (forall p n, N.to_nat j <= p < N.to_nat b -> nth_error M p = Some n -> no n = op_cse -> (ncs n <= b)%N) ->
  exists l, path M b j l /\ length l <= N.to_nat b - N.to_nat j.
Proof.
  intros F LB. induction d as [|d IH]; intros j D J HC.
  - replace j with b by lia. exists []. split; [constructor|cbn; lia].
  - destruct (N.eq_dec j b) as [->|NE]; [exists []; split; [constructor|cbn; lia]|].
    destruct (nth_error M (N.to_nat j)) as [n|] eqn:E; [|apply nth_error_None in E; lia]. destruct (N.eq_dec (no n) op_cse) as [C|C].
    + pose proof (F _ _ E C) as F1. pose proof (HC (N.to_nat j) n ltac:(lia) E C) as C1. destruct (IH (ncs n)) as (l & P & LE); [lia|exact C1|intros p x Q; apply HC; lia|]. exists (n :: l). split; [eapply pa_cse; eauto|cbn [length]; lia].
    + destruct (IH (j + 1)%N) as (l & P & LE); [lia|lia|intros p x Q; apply HC; lia|]. exists (n :: l). split; [eapply pa_node; eauto|cbn [length]; lia].
Qed.
Lemma range_emits cap M s : (N.of_nat (length M) < 2 ^ 32)%N -> forall j l, path M s j l -> forall fuel e, length l < fuel -> emit_range cap fuel M j s e = emits cap l e.
Proof.
  intros SM. induction 1; intros [|f] e LT; try (cbn [length] in LT; lia); cbn [emit_range emits length] in *.
  - now rewrite N.eqb_refl.
  - rewrite (proj2 (N.eqb_neq _ _) H). assert (LJ : N.to_nat j < length M) by (apply nth_error_Some; congruence). destruct (nget_tot M j LJ) as (x & -> & X). rewrite H0 in X. injection X as <-. cbn [bind].
    destruct (emit_node cap n e) as [e1|]; [|reflexivity]. cbn [bind]. rewrite (proj2 (N.eqb_eq _ _) H1). apply IHpath. lia.
  - rewrite (proj2 (N.eqb_neq _ _) H). assert (LJ : N.to_nat j < length M) by (apply nth_error_Some; congruence). destruct (nget_tot M j LJ) as (x & -> & X). rewrite H0 in X. injection X as <-. cbn [bind].
    destruct (emit_node cap n e) as [e1|]; [|reflexivity]. cbn [bind]. rewrite (proj2 (N.eqb_neq _ _) H1), add64_small by lia. apply IHpath. lia.
Qed.
Lemma fix_index_total ses n : (no n = op_cse -> nex n < length ses) -> fix_index ses n = Ok (fixg (gof ses) n).
Proof.
  intros H. destruct (fix_index ses n) as [n'|er] eqn:E; [now rewrite (fix_index_ok _ _ _ E)|]. unfold fix_index in E. destruct (N.eqb_spec (no n) op_cse) as [C|]; [|discriminate]. specialize (H C).
  unfold get in E. destruct (nth_error ses (nex n)) eqn:X; [discriminate|]. apply nth_error_None in X. lia.
Qed.
Lemma fix_all_total ses l : Forall (refb (length ses)) l -> mapM (fix_index ses) l = Ok (map (fixg (gof ses)) l).
Proof. induction 1; [reflexivity|]. cbn [mapM map]. rewrite fix_index_total by assumption. cbn [bind]. now rewrite IHForall. Qed.
Lemma rest_emits cap M ses s : (N.of_nat (length M) < 2 ^ 32)%N -> forall j l, path M s j l -> Forall (refb (length ses)) l -> forall fuel e, length l < fuel -> emit_rest cap fuel M ses j s e = emits cap (map (fixg (gof ses)) l) e.
Proof.
  intros SM. induction 1; intros FA [|f] e LT; try (cbn [length] in LT; lia); cbn [emit_rest emits length map] in *.
  - now rewrite N.eqb_refl.
  - inversion FA; subst. rewrite (proj2 (N.eqb_neq _ _) H). assert (LJ : N.to_nat j < length M) by (apply nth_error_Some; congruence). destruct (nget_tot M j LJ) as (x & -> & X). rewrite H0 in X. injection X as <-. cbn [bind].
    rewrite fix_index_total by assumption. cbn [bind]. destruct (emit_node cap (fixg (gof ses) n) e) as [e1|]; [|reflexivity]. cbn [bind]. rewrite (proj2 (N.eqb_eq _ _) H1). apply IHpath; [assumption|lia].
  - inversion FA; subst. rewrite (proj2 (N.eqb_neq _ _) H). assert (LJ : N.to_nat j < length M) by (apply nth_error_Some; congruence). destruct (nget_tot M j LJ) as (x & -> & X). rewrite H0 in X. injection X as <-. cbn [bind].
    rewrite fix_index_total by assumption. cbn [bind]. destruct (emit_node cap (fixg (gof ses) n) e) as [e1|]; [|reflexivity]. cbn [bind]. rewrite (proj2 (N.eqb_neq _ _) H1), add64_small by lia. apply IHpath; [assumption|lia].
Qed.

Lemma refb_any l : exists K, Forall (refb K) l.
Proof.
  induction l as [|n l (K & H)]; [exists 0; constructor|]. exists (S (nex n + K)). constructor; [intros _; lia|]. eapply Forall_impl; [|exact H]. intros x Q C. specialize (Q C). lia.
Qed.

(** ** the nodes while the candidates are emitted *)
Section Second.
Context (m : metric) (env : list V) (L : list node) (NN : list node) (E : list (nat * nat)).
Hypothesis LK : link L (length L) NN E.
Notation reg := (reg L).
Record col (i : nat) (M : list node) : Prop := {
  co_len : length M = length NN;
  co_node : forall p n, nth_error M p = Some n -> nth_error NN p = Some n \/ no n = op_cse /\ exists k, nex n < i /\ nth_error E (nex n) = Some (p, k) /\ ncs n = N.of_nat (p + k) }.
Lemma col_start : col 0 NN.
Proof. constructor; auto. Qed.
Lemma col_mono i i' M : i <= i' -> col i M -> col i' M.
Proof. intros H [A B]. constructor; [exact A|]. intros p n X. destruct (B p n X) as [Y|(C & k & Y)]; [now left|right]. split; [exact C|]. exists k. intuition lia. Qed.
Lemma col_ref i M p n : col i M -> nth_error M p = Some n -> no n = op_cse -> exists e, ncs n = N.of_nat e /\ reg p e /\ nex n < length E.
Proof.
  intros CO X C. destruct (co_node _ _ CO p n X) as [Y|(_ & k & Y1 & Y2 & Y3)].
  - destruct (lk_ref _ _ _ _ LK p n Y C) as (e & o & k & A1 & A2 & A3 & A4 & _). exists e. repeat split; auto; try apply A3. apply nth_error_Some. congruence.
  - destruct (lk_entry _ _ _ _ LK _ _ _ Y2) as [R _]. exists (p + k). repeat split; auto; try apply R. apply nth_error_Some. congruence.
Qed.
Lemma col_forth i M : col i M -> forth M.
Proof. intros CO p n X C. destruct (col_ref _ _ _ _ CO X C) as (e & -> & (R & _) & _). lia. Qed.
Lemma col_all i M p n : col i M -> nth_error M p = Some n -> no n = op_cse -> (ncs n <= N.of_nat (length L))%N.
Proof. intros CO X C. destruct (col_ref _ _ _ _ CO X C) as (e & -> & (_ & R & _) & _). lia. Qed.
(** no reference leads out of an operand emitted later *)
Lemma col_end i M j o k p n : col i M -> i <= j -> nth_error E j = Some (o, k) -> nth_error M p = Some n -> no n = op_cse -> o <= p < o + k -> N.to_nat (ncs n) <= o + k.
Proof.
  intros CO J EJ X C P. destruct (lk_entry _ _ _ _ LK _ _ _ EJ) as [R _]. destruct (col_ref _ _ _ _ CO X C) as (e & EN & RE & _). rewrite EN, Nat2N.id.
  destruct (Nat.eq_dec p o) as [->|NE]; [|eapply (reg_nested L o (o + k) p e); eauto; lia].
  destruct (co_node _ _ CO o n X) as [Y|(_ & k' & Y1 & Y2 & Y3)].
  - destruct (Nat.le_gt_cases e (o + k)) as [H|H]; [exact H|exfalso]. apply (lk_excl _ _ _ _ LK o (o + k)).
    + exists j. replace (o + k - o) with k by lia. exact EJ.
    + exists n. repeat split; auto. lia.
  - pose proof (lk_order _ _ _ _ LK (nex n) j o k' o k ltac:(lia) Y2 EJ). lia.
Qed.
(** nor over its beginning *)
Lemma col_begin i M j o k p n : col i M -> i <= j -> nth_error E j = Some (o, k) -> nth_error M p = Some n -> no n = op_cse -> p < o -> N.to_nat (ncs n) <= o.
Proof.
  intros CO J EJ X C P. destruct (lk_entry _ _ _ _ LK _ _ _ EJ) as [R _]. destruct (col_ref _ _ _ _ CO X C) as (e & EN & RE & _). rewrite EN, Nat2N.id.
  destruct (Nat.le_gt_cases e o) as [H|H]; [exact H|exfalso]. pose proof (reg_nested L p e o (o + k) RE R P H) as IN.
  destruct (co_node _ _ CO p n X) as [Y|(_ & k' & Y1 & Y2 & Y3)].
  - apply (lk_excl _ _ _ _ LK o (o + k)).
    + exists j. replace (o + k - o) with k by lia. exact EJ.
    + apply (lk_in _ _ _ _ LK p e); auto; [lia|]. exists n. repeat split; auto. lia.
  - pose proof (lk_order _ _ _ _ LK (nex n) j p k' o k ltac:(lia) Y2 EJ). lia.
Qed.
Lemma col_upd i M o k n : col i M -> nth_error E i = Some (o, k) -> o < length M -> col (S i) (upd M o (mknode op_cse (N.of_nat (o + k)) i (nq n))).
Proof.
  intros CO EI LO. destruct (col_mono _ (S i) _ (Nat.le_succ_diag_r i) CO) as [A B]. constructor; [now rewrite upd_len|]. intros p x. rewrite nth_upd by exact LO. destruct (Nat.eqb_spec p o) as [->|_]; [|apply B].
  intros X. injection X as <-. right. split; [reflexivity|]. exists k. cbn [nex ncs]. auto.
Qed.
Variables (ses0 : list cse) (kc : N).
Hypothesis IV : inv m env L (length L) NN ses0 kc.
Hypothesis EE : E = ent ses0 kc.
Hypothesis KS : N.to_nat kc <= length ses0.
Lemma col_inv2 i M ses : col i M -> same ses0 ses -> inv2 m env L (N.to_nat kc) M ses kc.
Proof.
  intros CO SA. pose proof (inv_same _ _ _ _ _ _ _ _ IV SA) as IV'. constructor.
  - rewrite (co_len _ _ CO). apply (iv_len _ _ _ _ _ _ _ IV).
  - rewrite (co_len _ _ CO). apply (iv_small _ _ _ _ _ _ _ IV).
  - intros p n P X. destruct (co_node _ _ CO p n X) as [Y|(_ & k & Y1 & Y2 & Y3)]; [eapply (iv_pad _ _ _ _ _ _ _ IV); eauto|].
    destruct (lk_entry _ _ _ _ LK _ _ _ Y2) as [(R & R' & _) _]. lia.
  - intros p n P X. destruct (co_node _ _ CO p n X) as [Y|(C & k & Y1 & Y2 & Y3)]; [apply (iv_node _ _ _ _ _ _ _ IV'); auto|]. right. split; [exact C|].
    destruct (lk_entry _ _ _ _ LK _ _ _ Y2) as [(R & R' & _) _]. rewrite EE, (ent_same _ _ _ SA) in Y2. apply ent_nth in Y2 as (K & c & Y2 & O1 & O2). exists c, (p + k). rewrite O1, O2. replace (p + k - p) with k by lia. repeat split; auto; lia.
  - intros j c X J. apply (iv_cse _ _ _ _ _ _ _ IV' j c X J).
  - intros j c p n J X Y. lia.
Qed.
Lemma col_refb i M ses p n : col i M -> same ses0 ses -> nth_error M p = Some n -> refb (length ses) n.
Proof.
  intros CO [SL _] X C. destruct (col_ref _ _ _ _ CO X C) as (_ & _ & _ & H). rewrite EE in H. unfold ent in H. rewrite map_length, firstn_length in H. lia.
Qed.
Variable C : nat.
Hypothesis CL : length L <= C.
Hypothesis CS : (N.of_nat C < 2 ^ 32)%N.
Hypothesis KL : N.to_nat kc <= length L.
(** what the emission of the candidates keeps *)
Record emi (i : nat) (M : list node) (ses : list cse) (e : emit) : Prop := {
  em_col : col i M;
  em_same : same ses0 ses;
  em_refs : Forall (refb (length ses)) (em_out e);
  em_rep : exists l, rep (em_st e) l;
  em_data : length (data (em_st e)) = C;
  em_room : exists l, path M (N.of_nat (length L)) 0 l /\ length (em_out e) + length l <= length L + 2 * i }.
Lemma known_total : forall kk i fin M ses e, i + kk = N.to_nat kc -> emi i M ses e -> exists M' ses' e', emit_known (3 * C) kk (N.of_nat i) fin M ses e = Ok (M', ses', e') /\ emi (i + kk) M' ses' e'.
Proof.
  assert (CAP : (N.of_nat (3 * C) < 2 ^ 64)%N) by lia.
  induction kk as [|kk IH]; intros i fin M ses e SUM EM; [exists M, ses, e; rewrite Nat.add_0_r; split; [reflexivity|exact EM]|].
  destruct EM as [CO SA RF (st & RE) DA (lw & PW & RM)]. cbn [emit_known]. pose proof (proj1 SA) as SL. replace (N.of_nat i + 1)%N with (N.of_nat (S i)) by lia. replace (i + S kk) with (S i + kk) by lia.
  destruct (nget_tot ses (N.of_nat i)) as (c & -> & X); [lia|]. cbn [bind]. rewrite Nat2N.id in X.
  destruct ((1 <? c_refs c)%N || c_req c).
  2:{ apply IH; [lia|]. constructor; auto; [eapply col_mono; [|exact CO]; lia|eauto|]. exists lw. split; [exact PW|lia]. }
  assert (EI : nth_error E i = Some (o_ c, k_ c)) by (rewrite EE, (ent_same _ _ _ SA); apply ent_nth; split; [lia|eauto]).
  destruct (lk_entry _ _ _ _ LK _ _ _ EI) as [(R1 & R2 & _) _]. pose proof (iv_len _ _ _ _ _ _ _ IV) as LN. pose proof (iv_small _ _ _ _ _ _ _ IV) as SN. pose proof (co_len _ _ CO) as CLEN.
  pose proof (col_inv2 _ _ _ CO SA) as I2. destruct (i2_cse _ _ _ _ _ _ _ I2 i c X ltac:(lia)) as ((v & ND) & _).
  rewrite nset_tot, Nat2N.id by lia. cbn [bind]. unfold o_, k_ in R1, R2. rewrite add64_small by lia.
  set (o := N.to_nat (c_off c)) in *. set (k := N.to_nat (c_cnt c)) in *. assert (EO : c_off c = N.of_nat o) by (unfold o; lia). assert (EK : (c_off c + c_cnt c)%N = N.of_nat (o + k)) by (unfold o, k; lia). rewrite EK, EO.
  change (o_ c) with o in *. change (k_ c) with k in *. pose proof (col_forth _ _ CO) as FW.
  (* the walk over the whole passes over the operand *)
  destruct (path_split M _ _ lw FW PW (N.of_nat o)) as (l1 & lr & -> & P1 & PR); [lia|intros p n P XN C1; pose proof (col_begin _ _ i o k p n CO (Nat.le_refl i) EI XN C1 ltac:(lia)); lia|].
  destruct (path_split M _ _ lr FW PR (N.of_nat (o + k))) as (l & l2 & -> & P2 & P3); [lia|intros p n P XN C1; pose proof (col_end _ _ i o k p n CO (Nat.le_refl i) EI XN C1 ltac:(lia)); lia|].
  assert (LK1 : length l <= k).
  { destruct (path_make M (N.of_nat (o + k)) FW ltac:(lia) k (N.of_nat o) ltac:(lia) ltac:(lia)) as (l' & P' & LE'); [intros p n P XN C1; pose proof (col_end _ _ i o k p n CO (Nat.le_refl i) EI XN C1 ltac:(lia)); lia|].
    replace l with l'; [lia|]. exact (path_det _ _ _ _ _ P' P2). }
  assert (SM : (N.of_nat (length M) < 2 ^ 32)%N) by lia. rewrite (range_emits _ _ _ SM _ _ P2) by lia.
  assert (TR : trun m env (fun _ _ => True) l [] [EV v]).
  { eapply (path_trun m env L); [exact I2| |exact P2| |]; [lia|auto|]. rewrite !Nat2N.id. replace (o + k - o) with k by lia. now apply nden_frun. }
  assert (RL : Forall (refb (length ses)) l) by (apply Forall_forall; intros n IN; destruct (path_in _ _ _ _ _ P2 IN) as (p & XP); eapply col_refb; eauto).
  rewrite !app_length in RM.
  destruct (emits_total m env (3 * C) CAP (length ses) _ l [] [EV v] TR RL (em_out e) _ [] ltac:(constructor) (start_seg (em_out e) (em_st e) (ex_intro _ st RE)) ltac:(constructor) eq_refl) as (e1 & segs & -> & S1 & _ & _ & D1 & L1 & R3).
  { cbn [em_out]. lia. } { cbn [em_st s_clear data]. unfold outof. cbn [rev flat_map length]. lia. }
  cbn [bind]. assert (LO : length (em_out e1) = length (em_out e) + length l) by (rewrite (si_out _ _ _ _ S1), app_length, L1; reflexivity).
  unfold out_append. replace (length (em_out e1) <? 3 * C) with true by lia. cbn [bind].
  destruct (nget_tot M (N.of_nat o)) as (n0 & -> & XN); [lia|]. cbn [bind]. rewrite nset_tot by lia. cbn [bind]. rewrite Nat2N.id.
  assert (WR : wrap32 (N.of_nat (o + k)) = N.of_nat (o + k)) by (unfold wrap32; apply N.mod_small; lia). rewrite WR.
  apply IH; [lia|]. set (nn := mknode op_cse (N.of_nat (o + k)) i (nq n0)). pose proof (col_upd i M o k n0 CO EI ltac:(lia)) as CO'. fold nn in CO'.
  set (c' := mkcse (c_crc c) (N.of_nat o) (c_cnt c) (c_refs c) fin (c_req c)). assert (SA' : same ses0 (upd ses i c')) by (eapply same_trans; [exact SA|eapply same_upd; [exact X|repeat split; cbn; congruence]]).
  constructor; auto.
  - cbn [em_out]. rewrite upd_len. apply Forall_app. split; [|constructor; [intros Y; vm_compute in Y; discriminate|constructor]]. rewrite (si_out _ _ _ _ S1), Forall_app. split; [exact RF|exact R3].
  - exists (map mark (opens (length (em_out e)) segs)). cbn [em_st]. pose proof (si_rep _ _ _ _ S1) as SR. now rewrite app_nil_r in SR.
  - cbn [em_st]. rewrite D1. cbn [em_st s_clear data]. exact DA.
  - exists (l1 ++ nn :: l2). split.
    + apply (path_app _ (N.of_nat o)); [eapply col_forth; exact CO'| |lia|].
      * eapply path_agree; [exact FW|exact P1|]. intros p P. rewrite nth_upd by lia. now replace (p =? o) with false by lia.
      * eapply pa_cse; [lia|rewrite Nat2N.id, nth_upd, Nat.eqb_refl by lia; reflexivity|reflexivity|]. cbn [ncs nn]. eapply path_agree; [exact FW|exact P3|]. intros p P. rewrite nth_upd by lia. now replace (p =? o) with false by lia.
    + cbn [em_out]. rewrite !app_length. cbn [length]. lia.
Qed.
End Second.

(** ** rpn_reshape *)
Lemma reshape_core m env x s st' : (N.of_nat (rcap x) < 2 ^ 32)%N -> length (rnodes x) <= rcap x -> frun m env (rnodes x) [] st' -> first_pass x = Ok s -> ext (rnodes x) (length (rnodes x)) s ->
  keeps m env (rnodes x) (length (rnodes x)) s -> exists y, reshape x = Ok y.
Proof.
  intros S2 CL FR FP EX KP. set (L := rnodes x) in *. set (C := rcap x) in *.
  unfold reshape. rewrite FP. cbn [bind]. fold C L. destruct EX as [LK XS _ _ KC _ _ _ _]. destruct KP as [IV _].
  destruct (known_total m env L (sc_nodes s) (ent (sc_ses s) (sc_kc s)) LK (sc_ses s) (sc_kc s) IV eq_refl ltac:(lia) C CL S2 KC (N.to_nat (sc_kc s)) 0 0%N (sc_nodes s) (sc_ses s) (mkemit [] (mk_stack (repeat (None, 0%N) C) 0)) eq_refl) as (M & ses & e & EK & EM).
  { pose proof (col_start (sc_nodes s) (ent (sc_ses s) (sc_kc s))) as CO. constructor; cbn [em_out em_st data]; auto.
    - apply same_refl.
    - exists []. apply fresh_rep. rewrite repeat_length. lia.
    - apply repeat_length.
    - destruct (path_make (sc_nodes s) (N.of_nat (length L)) (col_forth L _ _ LK _ _ CO) ltac:(pose proof (iv_len _ _ _ _ _ _ _ IV); lia) (length L) 0 ltac:(lia) ltac:(lia)) as (l & P & LE).
      + intros p n _. apply (col_all L _ _ LK _ _ _ _ CO).
      + exists l. split; [exact P|]. cbn [length]. lia. }
  change (N.of_nat 0) with 0%N in EK. rewrite EK. clear EK. cbn [bind]. cbn [Nat.add] in EM. destruct EM as [CO SA RF (st & RE) DA (l & P & RM)]. rewrite fix_all_total by exact RF. cbn [bind].
  assert (KQ : N.to_nat (sc_kc s) <= length (sc_ses s)) by lia.
  assert (RL : Forall (refb (length ses)) l) by (apply Forall_forall; intros n IN; destruct (path_in _ _ _ _ _ P IN) as (p & XP); exact (col_refb L _ _ LK (sc_ses s) (sc_kc s) eq_refl KQ _ _ _ _ _ CO SA XP)).
  pose proof (iv_len _ _ _ _ _ _ _ IV) as LN. pose proof (iv_small _ _ _ _ _ _ _ IV) as SN. pose proof (co_len _ _ _ _ CO) as CLEN. pose proof (col_forth L _ _ LK _ _ CO) as FW.
  assert (LL : length l <= length L).
  { destruct (path_make M (N.of_nat (length L)) FW ltac:(lia) (length L) 0%N ltac:(lia) ltac:(lia)) as (l' & P' & LE'); [intros p n _; apply (col_all L _ _ LK _ _ _ _ CO)|].
    replace l with l'; [lia|]. exact (path_det _ _ _ _ _ P' P). }
  assert (SM : (N.of_nat (length M) < 2 ^ 32)%N) by lia. rewrite (rest_emits _ _ _ _ SM _ _ P RL) by lia.
  assert (TR : trun m env (fun _ _ => True) l [] st').
  { eapply (path_trun m env L); [exact (col_inv2 m env L _ _ LK (sc_ses s) (sc_kc s) IV eq_refl KQ _ _ _ CO SA)| |exact P| |]; [lia|auto|]. rewrite Nat2N.id, Nat.sub_0_r. unfold sub. change (N.to_nat 0) with 0. rewrite skipn_O, firstn_all. exact FR. }
  apply (trun_fix m env _ (fun _ _ => True) (gof ses)) in TR; [|auto].
  destruct (refb_any (map (fixg (gof ses)) l)) as (KK & HK).
  destruct (emits_total m env (3 * C) ltac:(lia) KK _ _ [] st' TR HK) with (pre := map (fixg (gof ses)) (em_out e)) (e := mkemit (map (fixg (gof ses)) (em_out e)) (s_clear (em_st e))) (segs := @nil seg) as (e' & segs & -> & _).
  - constructor.
  - apply start_seg. eauto.
  - constructor.
  - reflexivity.
  - cbn [em_out]. rewrite !map_length. lia.
  - cbn [em_st s_clear data]. unfold outof. cbn [rev flat_map length]. rewrite map_length. lia.
  - cbn [bind]. eauto.
Qed.
Lemma first_ext m env x st' : (N.of_nat (rcap x) < 2 ^ 32)%N -> length (rnodes x) <= rcap x -> 0 < length (rnodes x) -> frun m env (rnodes x) [] st' -> let s0 := mkscan (rnodes x ++ repeat node0 (rcap x - length (rnodes x))) (repeat cse0 (rcap x)) 0 (mk_stack (repeat 0%N (rcap x)) 0) (repeat 0%N (rcap x)) 0 in
  keeps m env (rnodes x) 0 s0 /\ ext (rnodes x) 0 s0 /\ rep (sc_offs s0) [] /\ first_pass x = scan_all (length (rnodes x)) (N.of_nat (length (@nil node))) s0.
Proof.
  intros S2 CL PL FR s0. set (L := rnodes x) in *. set (C := rcap x) in *. assert (S1 : (N.of_nat (length L) < 2 ^ 32)%N) by lia. split; [|split; [|split]].
  - exact (first_start m env x S1 S2 (frun_nocse m env _ [] _ FR)).
  - constructor; cbn [s0 sc_nodes sc_ses sc_kc sc_se sc_offs sc_refs data count]; rewrite ?repeat_length; try lia.
    + apply link_start. intros n I. apply in_app_or in I as [I|I]; [exact (frun_nocse m env _ [] _ FR n I)|]. apply repeat_spec in I. subst n. intros Q. vm_compute in Q. discriminate.
    + apply Forall_forall. intros r I. apply repeat_spec in I. lia.
    + apply Forall_forall. intros r I. apply repeat_spec in I. lia.
  - cbn [s0 sc_offs]. apply fresh_rep. rewrite repeat_length. lia.
  - reflexivity.
Qed.
Theorem reshape_total m env x v : (N.of_nat (rcap x) < 2 ^ 32)%N -> length (rnodes x) <= rcap x -> nden m env (rnodes x) v -> identified (rnodes x) -> unnested (rnodes x) -> exists y, reshape x = Ok y.
Proof.
  intros S2 CL ND ID UN. assert (S1 : (N.of_nat (length (rnodes x)) < 2 ^ 32)%N) by lia. pose proof (nden_frun m env _ v ND []) as FR.
  assert (PL : 0 < length (rnodes x)) by (destruct (rnodes x) eqn:Q; [inversion FR|cbn; lia]). destruct (first_ext m env x _ S2 CL PL FR) as (K0 & X0 & R0 & FP).
  destruct (nden_goes m env (rnodes x) ID S1 UN (rnodes x) v ND [] [] _ [] ltac:(now rewrite app_nil_r) K0 X0 R0) as (s & ES & EX & _). rewrite ES in FP.
  exact (reshape_core m env x s _ S2 CL FR FP EX (first_pass_ok m env x v s S1 S2 ND ID FP)).
Qed.
Lemma reshape_none x : rnodes x = [] -> exists y, reshape x = Ok y.
Proof. intros E. unfold reshape, first_pass. rewrite E. cbn [length app scan_all bind sc_kc sc_nodes sc_ses N.to_nat emit_known em_out mapM emit_rest]. change (N.of_nat 0) with 0%N. rewrite N.eqb_refl. cbn [bind em_out]. eauto. Qed.
(** the results of a tuple *)
Lemma ses_frun m env k its : Spec_Expr.ses m env k its -> forall s, exists s', frun m env (flat_map render its) s s'.
Proof.
  induction 1 as [|k i l NB _ _ IH]; intros s; [exists s; constructor|]. destruct (IH (EV (i_val i) :: EM (i_q i) :: s)) as (s' & H). exists s'. cbn [flat_map]. unfold render at 1. cbn [app].
  econstructor; [apply fs_se; reflexivity|]. eapply frun_app; [apply nden_frun; exact NB|]. exact H.
Qed.
Theorem reshape_tuple_total m env k its x : (N.of_nat (rcap x) < 2 ^ 32)%N -> length (rnodes x) <= rcap x -> rnodes x = flat_map render its -> Spec_Expr.ses m env k its -> identified (rnodes x) -> unnested (rnodes x) -> exists y, reshape x = Ok y.
Proof.
  intros S2 CL NI SE ID UN. assert (S1 : (N.of_nat (length (rnodes x)) < 2 ^ 32)%N) by lia. destruct (ses_frun m env k its SE []) as (st' & FR). rewrite <- NI in FR.
  destruct (Nat.eq_dec (length (rnodes x)) 0) as [Z|NZ]; [apply reshape_none; now apply length_zero_iff_nil|].
  destruct (first_ext m env x _ S2 CL ltac:(lia) FR) as (K0 & X0 & R0 & FP). set (L := rnodes x) in *.
  assert (GO : goes_items m env L its).
  { clear - SE ID S1 UN. induction SE; [apply nil_goes|]. eapply cons_goes; eauto. eapply nden_goes; eauto. }
  destruct (GO [] [] _ [] ltac:(now rewrite app_nil_r) K0 X0 R0) as (s & ES & EX & _). rewrite <- NI in ES, EX. pose proof FP as FP'. rewrite ES in FP.
  destruct (ses_scans m env L ID S1 k its SE [] [] _ s [] ltac:(now rewrite app_nil_r) K0 R0) as [K1 _]; [rewrite <- NI; exact ES|]. rewrite <- NI in K1.
  exact (reshape_core m env x s _ S2 CL FR FP EX K1).
Qed.
