(** Reshaping keeps the value of a program. *)
From Coq Require Import ZArith NArith List Bool Arith Lia ZifyBool ZifyN ZifyNat Reals.
From Verif Require Import Base Model_Numeric Model_Blade Model_Stack Model_Expr Model_Dfa Model_Reshape.
From Verif Require Import Spec_Numeric Spec_Clifford Spec_MV Spec_Basis Spec_Expr Spec_Reshape Spec_Engine.
From Verif Require Import Proof_Numeric Proof_Expr Proof_Util Proof_Reshape Proof_Reshape2 Proof_Reshape3.
Import ListNotations.
Local Open Scope nat_scope.

(** ** the nodes visited *)
Inductive path (nodes : list node) (stop : N) : N -> list node -> Prop :=
| pa_nil : path nodes stop stop []
| pa_cse j n l : j <> stop -> nth_error nodes (N.to_nat j) = Some n -> no n = op_cse -> path nodes stop (ncs n) l -> path nodes stop j (n :: l)
| pa_node j n l : j <> stop -> nth_error nodes (N.to_nat j) = Some n -> no n <> op_cse -> path nodes stop (j + 1)%N l -> path nodes stop j (n :: l).
Definition refs_of (l : list node) : list nat := map nex (filter (fun n => no n =? op_cse)%N l).
Lemma range_path cap nodes stop : (N.of_nat (length nodes) < 2 ^ 32)%N -> forall fuel j e e', emit_range cap fuel nodes j stop e = Ok e' ->
  exists l, path nodes stop j l /\ emits cap l e = Ok e' /\ references fuel nodes j stop = refs_of l.
Proof.
  intros SM. induction fuel as [|f IH]; intros j e e' H; [discriminate|]. cbn [emit_range references] in *. destruct (N.eqb_spec j stop) as [->|NE].
  - injection H as <-. exists []. repeat split. constructor.
  - minv H. apply nget_ok in E as [E LT]. minv H. rewrite E. destruct (N.eqb_spec (no v) op_cse) as [C|C].
    + apply IH in H as (l & P & EM & RF). exists (v :: l). split; [eapply pa_cse; eauto|]. split; [cbn [emits]; rewrite E0; exact EM|]. unfold refs_of. cbn [filter map]. rewrite (proj2 (N.eqb_eq _ _) C). cbn [map]. now rewrite RF.
    + rewrite add64_small in H by lia. apply IH in H as (l & P & EM & RF). exists (v :: l). split; [eapply pa_node; eauto|]. split; [cbn [emits]; rewrite E0; exact EM|].
      unfold refs_of. cbn [filter]. rewrite (proj2 (N.eqb_neq _ _) C). exact RF.
Qed.
Definition gof (ses : list cse) (k : nat) : nat := match nth_error ses k with Some c => N.to_nat (c_fin c) | None => 0 end.
Lemma fix_index_ok ses n n' : fix_index ses n = Ok n' -> n' = fixg (gof ses) n.
Proof.
  unfold fix_index, fixg, gof. destruct (_ =? _)%N; [|intros E; now injection E as <-]. intros H. minv H. apply get_ok in E. rewrite E. now injection H as <-.
Qed.
Lemma fix_all_ok ses l : forall l', mapM (fix_index ses) l = Ok l' -> l' = map (fixg (gof ses)) l.
Proof.
  induction l as [|n l IH]; intros l' H; cbn [mapM] in H; [now injection H as <-|]. minv H. minv H. injection H as <-. apply fix_index_ok in E as ->. cbn [map]. f_equal. now apply IH.
Qed.
Lemma rest_path cap nodes ses stop : (N.of_nat (length nodes) < 2 ^ 32)%N -> forall fuel j e e', emit_rest cap fuel nodes ses j stop e = Ok e' ->
  exists l, path nodes stop j l /\ emits cap (map (fixg (gof ses)) l) e = Ok e' /\ references fuel nodes j stop = refs_of l.
Proof.
  intros SM. induction fuel as [|f IH]; intros j e e' H; [discriminate|]. cbn [emit_rest references] in *. destruct (N.eqb_spec j stop) as [->|NE].
  - injection H as <-. exists []. repeat split. constructor.
  - minv H. apply nget_ok in E as [E LT]. minv H. apply fix_index_ok in E0. subst v0. minv H. rewrite E. destruct (N.eqb_spec (no v) op_cse) as [C|C].
    + apply IH in H as (l & P & EM & RF). exists (v :: l). split; [eapply pa_cse; eauto|]. split; [cbn [map emits]; rewrite E0; exact EM|]. unfold refs_of. cbn [filter map]. rewrite (proj2 (N.eqb_eq _ _) C). cbn [map]. now rewrite RF.
    + rewrite add64_small in H by lia. apply IH in H as (l & P & EM & RF). exists (v :: l). split; [eapply pa_node; eauto|]. split; [cbn [map emits]; rewrite E0; exact EM|].
      unfold refs_of. cbn [filter]. rewrite (proj2 (N.eqb_neq _ _) C). exact RF.
Qed.
Lemma refs_in l n : In n l -> no n = op_cse -> In (nex n) (refs_of l).
Proof. intros I C. unfold refs_of. apply in_map. apply filter_In. split; [exact I|]. now apply N.eqb_eq. Qed.

Lemma sub_split {L : list node} j e s : j <= e -> e <= s -> sub L j (s - j) = sub L j (e - j) ++ sub L e (s - e).
Proof.
  intros A B. unfold sub. replace (s - j) with ((e - j) + (s - e)) by lia. rewrite <- (firstn_skipn (e - j) (firstn (e - j + (s - e)) (skipn j L))). f_equal.
  - rewrite firstn_firstn. f_equal. lia.
  - rewrite skipn_firstn_comm. f_equal; [lia|]. clear B. revert j e A. induction L as [|a l IH]; intros j e A; [now rewrite !skipn_nil|]. destruct j; [cbn [skipn]; now rewrite Nat.sub_0_r|].
    destruct e; [lia|]. cbn [skipn Nat.sub]. apply IH. lia.
Qed.
Lemma sub_one {L : list node} j n : nth_error L j = Some n -> sub L j 1 = [n].
Proof. unfold sub. revert j. induction L as [|a l IH]; intros [|j] H; try discriminate; [injection H as ->; reflexivity|]. cbn [skipn]. now apply IH. Qed.

Section Emission.
Context (m : metric) (env : list V).
Notation nden := (nden m env). Notation frun := (frun m env). Notation run := (run m env).
Lemma frun_nocse l s s' : frun l s s' -> forall n, In n l -> no n <> op_cse.
Proof.
  induction 1; intros x I; [destruct I|]. destruct I as [<-|I]; [|auto]. intros C. inversion H; subst.
  - rewrite C in H1. vm_compute in H1. discriminate.
  - rewrite C in H1. vm_compute in H1. discriminate.
  - rewrite C in H1. vm_compute in H1. discriminate.
  - rewrite C in H1. vm_compute in H1. discriminate.
Qed.
(** ** where temporaries are stored *)
Definition tidy (l : list node) : Prop := forall p n, nth_error l p = Some n -> no n = op_se -> p + S (nex n) <= length l.
Definition clean (l : list node) : Prop := tidy l /\ stores_on_top l.
Lemma run_tidy l st st' : run l st st' -> tidy l.
Proof.
  induction 1; intros p k E O.
  - destruct p; discriminate.
  - destruct p as [|p]; cbn in E; [injection E as <-; contradiction|]. specialize (IHrun p k E O). cbn [length]. lia.
  - destruct p as [|p]; cbn [nth_error] in E; [injection E as <-; cbn [length]; rewrite app_length; lia|]. cbn [length]. rewrite app_length. destruct (Nat.lt_ge_cases p (length b)) as [LT|GE].
    + rewrite nth_error_app1 in E by exact LT. specialize (IHrun1 p k E O). lia.
    + rewrite nth_error_app2 in E by exact GE. specialize (IHrun2 _ k E O). lia.
Qed.
Lemma run_temps l st st' : run l st st' -> length (fst st) <= length (fst st') /\ (forall k, In k l -> no k = op_noop -> length (fst st) < length (fst st')).
Proof.
  induction 1.
  - split; [lia|]. intros k [].
  - destruct IHrun as [A B]. assert (X : length (fst st) <= length (fst st') /\ (no n = op_noop -> length (fst st) < length (fst st'))).
    { inversion H0; subst; cbn [fst]; split; try lia; try (intros Q; match goal with Y : no n = _ |- _ => rewrite Y in Q; vm_compute in Q; discriminate end); try (rewrite app_length; cbn; lia);
        intros Q; match goal with Y : _ |- _ => rewrite Q in Y; vm_compute in Y; try discriminate; now elim Y end. }
    split; [lia|]. intros k [<-|I] O; [destruct X as [_ X]; specialize (X O); lia|]. specialize (B k I O). lia.
  - cbn [fst] in *. destruct IHrun1 as [A B], IHrun2 as [A' B']. split; [lia|]. intros k [<-|I] O; [rewrite H in O; vm_compute in O; discriminate|]. apply in_app_or in I as [I|I]; [specialize (B k I O)|specialize (B' k I O)]; lia.
Qed.
Lemma bodies_in l : forall b k, In b (bodies l) -> In k b -> In k l.
Proof.
  induction l as [|n l IH]; intros b k I J; [destruct I|]. cbn [bodies] in I. destruct (_ =? _)%N; [|right; eapply IH; eauto]. destruct I as [<-|I]; [|right; eapply IH; eauto].
  right. clear - J. revert J. generalize (nex n). induction l as [|x l IH]; intros [|c] J; cbn in J; try tauto. destruct J as [->|J]; [now left|right; eauto].
Qed.
Lemma run_clean l t s s' : run l (t, s) (t, s') -> clean l.
Proof. intros H. split; [exact (run_tidy _ _ _ H)|]. intros b k I J O. destruct (run_temps _ _ _ H) as [_ X]. specialize (X k (bodies_in _ _ _ I J) O). cbn in X. lia. Qed.
Lemma bodies_app a : forall b, tidy a -> bodies (a ++ b) = bodies a ++ bodies b.
Proof.
  induction a as [|n a IH]; intros b T; [reflexivity|]. cbn [app bodies]. assert (T' : tidy a) by (intros p k E O; specialize (T (S p) k E O); cbn [length] in T; lia). rewrite (IH b T').
  destruct (N.eqb_spec (no n) op_se) as [O|_]; [|reflexivity]. specialize (T 0 n eq_refl O). cbn [length] in T. rewrite firstn_app. replace (nex n - length a) with 0 by lia. cbn [firstn]. now rewrite app_nil_r.
Qed.
Lemma clean_app a b : clean a -> clean b -> clean (a ++ b).
Proof.
  intros [A1 A2] [B1 B2]. split.
  - intros p k E O. rewrite app_length. destruct (Nat.lt_ge_cases p (length a)) as [LT|GE]; [rewrite nth_error_app1 in E by exact LT; specialize (A1 p k E O); lia|].
    rewrite nth_error_app2 in E by exact GE. specialize (B1 _ k E O). lia.
  - intros c k. rewrite (bodies_app a b A1). intros I. apply in_app_or in I as [I|I]; eauto.
Qed.
Lemma clean_one n : no n <> op_se -> clean [n].
Proof.
  intros H. split; [intros [|[|p]] k E; cbn in E; try discriminate; injection E as <-; contradiction|]. intros b k I. cbn [bodies] in I. rewrite (proj2 (N.eqb_neq _ _) H) in I. destruct I.
Qed.

Variable L : list node.
(** a node comes from the original program or is a reference *)
Definition origin (n : node) : Prop := no n = op_cse \/ exists n0, In n0 L /\ no n = no n0 /\ ncs n = ncs n0 /\ (no n <> op_se -> nex n = nex n0) /\ (poly (no n) = false -> nq n = nq n0).
Lemma origin_se c x q x' : origin (mknode op_se c x q) -> origin (mknode op_se c x' q).
Proof. intros [H|(n0 & A & B & C & D & F)]; [vm_compute in H; discriminate|]. right. exists n0. cbn [no ncs nex nq] in *. repeat split; auto. intros X. now elim X. Qed.
Lemma origin_poly n q : poly (no n) = true -> origin n -> origin (mknode (no n) (ncs n) (nex n) q).
Proof. intros P [H|(n0 & A & B & C & D & _)]; [now left|]. right. exists n0. repeat split; auto. cbn [no]. intros X. congruence. Qed.
Lemma origin_fix g n : origin n -> origin (fixg g n).
Proof. unfold fixg. destruct (N.eqb_spec (no n) op_cse) as [E|_]; [|auto]. intros _. left. exact E. Qed.
Record inv2 (lo : nat) (nodes : list node) (ses : list cse) (kc : N) : Prop := {
  i2_len : length L <= length nodes;
  i2_small : (N.of_nat (length nodes) < 2 ^ 32)%N;
  i2_pad : forall p n, length L <= p -> nth_error nodes p = Some n -> no n <> op_cse;
  i2_node : forall p n, p < length L -> nth_error nodes p = Some n -> nth_error L p = Some n /\ no n <> op_cse \/ isref L (length L) ses kc p n;
  i2_cse : forall j c, nth_error ses j = Some c -> j < N.to_nat kc -> good m env L (length L) c;
  i2_order : forall j c p n, lo <= j -> nth_error ses j = Some c -> j < N.to_nat kc -> o_ c <= p < o_ c + k_ c -> nth_error nodes p = Some n -> no n = op_cse ->
    N.to_nat (ncs n) <= o_ c + k_ c -> nex n < j }.
Lemma inv_inv2 nodes ses kc : inv m env L (length L) nodes ses kc -> inv2 0 nodes ses kc.
Proof. intros [A B C D E F G H]. constructor; auto. intros j c p n _. apply F. Qed.
Lemma inv2_lo lo lo' nodes ses kc : lo <= lo' -> inv2 lo nodes ses kc -> inv2 lo' nodes ses kc.
Proof. intros H [A B C D E F]. constructor; auto. intros j c p n J. apply F. lia. Qed.
Lemma inv2_same lo nodes ses ses' kc : inv2 lo nodes ses kc -> same ses ses' -> inv2 lo nodes ses' kc.
Proof.
  intros [A A1 A2 B C D] SM. constructor; auto.
  - intros p n P E. destruct (B p n P E) as [X|(O & c & e & X1 & X2 & X3 & X4 & X5 & X6)]; [now left|right]. split; [exact O|]. destruct (same_back _ _ _ _ SM X1) as (c' & E' & AL).
    destruct (alike_o _ _ AL) as [Q1 Q2]. exists c', e. rewrite <- Q1, <- Q2. repeat (split; [assumption|]). assumption.
  - intros j c E H. destruct (proj2 SM _ _ E) as (c' & E' & AL). eapply good_alike; [exact AL|]. eapply C; eauto.
  - intros j c p n J E H. destruct (proj2 SM _ _ E) as (c' & E' & AL). destruct (alike_o _ _ AL) as [Q1 Q2]. rewrite <- Q1, <- Q2. eapply D; eauto.
Qed.

(** ** a walk corresponds to a run of the original nodes *)
Lemma path_le lo nodes ses kc stop j l : inv2 lo nodes ses kc -> (stop <= N.of_nat (length L))%N -> path nodes stop j l -> (j <= stop)%N.
Proof.
  intros IV ST. induction 1; [lia| |lia]. destruct (Nat.lt_ge_cases (N.to_nat j) (length L)) as [LT|GE].
  - destruct (i2_node _ _ _ _ IV _ _ LT H0) as [[_ C]|(_ & c & e & _ & _ & E & R & _)]; [contradiction|]. lia.
  - exfalso. exact (i2_pad _ _ _ _ IV _ _ GE H0 H1).
Qed.
Lemma path_trun lo nodes ses kc stop (T : nat -> V -> Prop) : inv2 lo nodes ses kc -> (stop <= N.of_nat (length L))%N -> forall j l, path nodes stop j l ->
  (forall p n c v, In n l -> no n = op_cse -> N.to_nat j <= p < N.to_nat stop -> nth_error nodes p = Some n -> (ncs n <= stop)%N -> nth_error ses (nex n) = Some c -> nex n < N.to_nat kc -> nden (sub L (o_ c) (k_ c)) v -> T (nex n) v) ->
  forall s s', frun (sub L (N.to_nat j) (N.to_nat stop - N.to_nat j)) s s' -> trun m env T l s s'.
Proof.
  intros IV ST. induction 1; intros HT s s' FR.
  - rewrite Nat.sub_diag in FR. inversion FR; subst. constructor.
  - pose proof (path_le _ _ _ _ _ _ _ IV ST H2) as LE.
    assert (LJ : (j <= stop)%N) by (apply (path_le _ _ _ _ _ _ _ IV ST (pa_cse _ _ _ _ _ H H0 H1 H2))).
    destruct (i2_node _ _ _ _ IV (N.to_nat j) n ltac:(lia) H0) as [[_ C]|(_ & c & e & E1 & E2 & E3 & E4 & E5 & E6)]; [contradiction|].
    rewrite (sub_split (N.to_nat j) e) in FR by lia. apply frun_split in FR as (s1 & F1 & F2).
    destruct (i2_cse _ _ _ _ IV _ _ E1 E2) as ((v & ND) & _). rewrite E5 in F1. pose proof (frun_det _ _ _ _ _ F1 _ (nden_frun m env _ _ ND s)) as ->.
    eapply tr_ref; [exact H1| |].
    + eapply HT; [left; reflexivity|exact H1| |exact H0|exact LE|exact E1|exact E2|exact ND]. lia.
    + apply IHpath.
      * intros p x c' w I X P. apply HT; [right; exact I|exact X|lia].
      * rewrite E3, Nat2N.id. exact F2.
  - pose proof (path_le _ _ _ _ _ _ _ IV ST H2) as LE. destruct (i2_node _ _ _ _ IV (N.to_nat j) n ltac:(lia) H0) as [[NL _]|(C & _)]; [|contradiction].
    rewrite (sub_split (N.to_nat j) (S (N.to_nat j))) in FR by lia. replace (S (N.to_nat j) - N.to_nat j) with 1 in FR by lia. rewrite (sub_one _ _ NL) in FR. cbn [app] in FR. inversion FR; subst.
    eapply tr_copy; [eassumption|]. apply IHpath.
    + intros p x c' w I X P. apply HT; [right; exact I|exact X|lia].
    + replace (N.to_nat (j + 1)) with (S (N.to_nat j)) by lia. assumption.
Qed.

Lemma path_origin lo nodes ses kc stop : inv2 lo nodes ses kc -> (stop <= N.of_nat (length L))%N -> forall j l, path nodes stop j l -> Forall origin l.
Proof.
  intros IV ST. induction 1; [constructor| |].
  - constructor; [now left|exact IHpath].
  - constructor; [|exact IHpath]. pose proof (path_le _ _ _ _ _ _ _ IV ST H2) as LE. destruct (i2_node _ _ _ _ IV (N.to_nat j) n ltac:(lia) H0) as [[NL _]|(C & _)]; [|contradiction].
    right. exists n. split; [eapply nth_error_In; eauto|auto].
Qed.

(** ** the candidates *)
Definition fins (i : nat) (t : list V) (ses : list cse) : Prop := forall k c v, k < i -> nth_error ses k = Some c -> stored c = true -> nden (sub L (o_ c) (k_ c)) v ->
  nth_error t (N.to_nat (c_fin c)) = Some v.
Definition key (c : cse) := (c_off c, c_cnt c, stored c).
Lemma stored_at_key a b k : option_map key (nth_error a k) = option_map key (nth_error b k) -> stored_at a k = stored_at b k.
Proof. unfold stored_at. destruct (nth_error a k), (nth_error b k); cbn; intros E; try discriminate; [|reflexivity]. injection E as _ _ E. exact E. Qed.
Lemma counts_key a b len : (forall k, option_map key (nth_error a k) = option_map key (nth_error b k)) -> forall kk i nodes, counts kk i nodes a len = counts kk i nodes b len.
Proof.
  intros K. assert (SA : forall l, forallb (stored_at a) l = forallb (stored_at b) l) by (induction l as [|x l IH]; [reflexivity|]; cbn; now rewrite IH, (stored_at_key a b x (K x))).
  induction kk as [|kk IH]; intros i nodes; cbn [counts]; [apply SA|]. pose proof (K i) as Ki. destruct (nth_error a i) as [c|], (nth_error b i) as [d|]; cbn in Ki; try discriminate; [|reflexivity].
  injection Ki as K1 K2 K3. rewrite K1, K2, K3, SA. destruct (stored d); [|apply IH]. f_equal. destruct (nth_error nodes _); [apply IH|reflexivity].
Qed.
Lemma seg_one g t pre below e segs v : seginv pre below e segs -> Forall (okseg m env g t origin) segs -> map fst segs = [EV v] -> exists b, em_out e = pre ++ b /\ oks m env g t origin b v.
Proof.
  intros [SO _] F M. destruct segs as [|[x y] [|]]; try discriminate. cbn in M. injection M as ->. inversion F; subst. exists y. split; [|exact H1]. rewrite SO. unfold outof. cbn. now rewrite app_nil_r.
Qed.
Lemma start_seg pre st : (exists l, rep st l) -> seginv pre [] (mkemit pre (s_clear st)) [].
Proof. intros (l & R). split; [cbn; now rewrite app_nil_r|]. cbn. destruct R as (B & C & rest & D). split; [exact B|]. split; [reflexivity|]. exists (data st). reflexivity. Qed.
Variable cap : nat.
Hypothesis CAP : (N.of_nat cap < 2 ^ 64)%N.
Lemma known_ok kc : forall kk i fin nodes ses e t nodes' ses' e',
  i + kk = N.to_nat kc -> inv2 i nodes ses kc -> fins i t ses -> fin = N.of_nat (length t) -> (exists l, rep (em_st e) l) -> counts kk i nodes ses (length L) = true ->
  emit_known cap kk (N.of_nat i) fin nodes ses e = Ok (nodes', ses', e') ->
  exists add ts, em_out e' = em_out e ++ add /\ (exists l, rep (em_st e') l) /\ inv2 (i + kk) nodes' ses' kc /\ fins (i + kk) (t ++ ts) ses' /\
    (forall k, k < i -> nth_error ses' k = nth_error ses k) /\ counts 0 (i + kk) nodes' ses' (length L) = true /\ Forall (fun n => no n = op_noop \/ origin n) add /\
    forall g, (forall k c, nth_error ses' k = Some c -> g k = N.to_nat (c_fin c)) -> run (map (fixg g) add) (t, []) (t ++ ts, []) /\ clean (map (fixg g) add).
Proof.
  induction kk as [|kk IH]; intros i fin nodes ses e t nodes' ses' e' SUM IV FI FE RE CO H.
  - cbn [emit_known] in H. injection H as <- <- <-. exists [], []. rewrite !app_nil_r, Nat.add_0_r. repeat (split; [assumption || reflexivity|]). split; [constructor|]. intros g _. split; [constructor|]. split; [intros [|p]; discriminate|intros b k []].
  - cbn [emit_known] in H. minv H. rename v into c. apply nget_ok in E as [E LI]. rewrite Nat2N.id in E, LI. cbn [counts] in CO. rewrite E in CO. replace (N.of_nat i + 1)%N with (N.of_nat (S i)) in H by lia.
    fold (stored c) in H. destruct (stored c) eqn:ST.
    + apply andb_true_iff in CO as [CR CO]. minv H. apply nset_ok in E0 as [_ ->]. rewrite ?Nat2N.id in H. minv H. rename v into e1. minv H. apply append_ok in E1 as [-> _]. minv H. rename v into n0. apply nget_ok in E1 as [E1 LO].
      minv H. apply nset_ok in E2 as [_ ->]. rewrite E1 in CO. rewrite ?Nat2N.id in H.
      destruct (i2_cse _ _ _ _ IV i c E ltac:(lia)) as ((v0 & ND) & G2 & _ & G4 & G5 & _).
      pose proof (i2_len _ _ _ _ IV) as LN. pose proof (i2_small _ _ _ _ IV) as SM. unfold o_, k_ in G2.
      assert (WR : wrap32 (c_off c + c_cnt c) = (c_off c + c_cnt c)%N) by (unfold wrap32; apply N.mod_small; lia). rewrite WR in H. rewrite add64_small in E0 by (unfold k_ in G5; lia).
      destruct (range_path cap nodes _ SM _ _ _ _ E0) as (l & PA & EM & RF). rewrite RF in CR. rewrite forallb_forall in CR.
      pose (T := fun k v => k < i /\ exists d, nth_error ses k = Some d /\ stored d = true /\ nden (sub L (o_ d) (k_ d)) v).
      assert (TR : trun m env T l [] [EV v0]).
      { eapply path_trun; [exact IV| |exact PA| |].
        - lia.
        - intros p n d v I C P NP NC ND' NK VD. split.
          + eapply (i2_order _ _ _ _ IV i c p n); auto; unfold o_, k_; lia.
          + exists d. split; [exact ND'|]. split; [|exact VD]. specialize (CR _ (refs_in _ _ I C)). unfold stored_at in CR. now rewrite ND' in CR.
        - replace (N.to_nat (c_off c + c_cnt c) - N.to_nat (c_off c)) with (k_ c) by (unfold k_; lia). now apply nden_frun. }
      assert (OL : Forall origin l) by (eapply path_origin; [exact IV| |exact PA]; lia).
      assert (TG : forall g, (forall k d, k < i -> nth_error ses k = Some d -> g k = N.to_nat (c_fin d)) -> forall k v, T k v -> nth_error t (g k) = Some v).
      { intros g HG k v (KI & d & D1 & D2 & D3). rewrite (HG k d KI D1). eapply FI; eauto. }
      assert (BODY : forall g, (forall k d, k < i -> nth_error ses k = Some d -> g k = N.to_nat (c_fin d)) -> exists b, em_out e1 = em_out e ++ b /\ oks m env g t origin b v0 /\ (exists l, rep (em_st e1) l)).
      { intros g HG. destruct (emits_ok m env origin T g t cap origin_se origin_poly CAP (TG g HG) l [] [EV v0] TR OL (em_out e) [] _ [] e1 (start_seg (em_out e) (em_st e) RE) ltac:(constructor) eq_refl EM) as (segs & S1 & S2 & S3).
        destruct (seg_one _ _ _ _ _ _ _ S1 S2 S3) as (b & B1 & B2). exists b. split; [exact B1|]. split; [exact B2|]. destruct S1 as [_ S1]. eauto. }
      destruct (BODY (gof ses)) as (b & B1 & (BQ & _) & B3); [intros k d _ D; unfold gof; now rewrite D|].
      set (c' := mkcse (c_crc c) (c_off c) (c_cnt c) (c_refs c) fin (c_req c)) in *.
      assert (SA : same ses (upd ses i c')) by (eapply same_upd; [exact E|repeat split]).
      set (nn := mknode op_cse (c_off c + c_cnt c) i (nq n0)) in *.
      assert (IV1 : inv2 (S i) (upd nodes (N.to_nat (c_off c)) nn) (upd ses i c') kc).
      { apply (inv2_same _ _ _ _ _ (inv2_lo _ (S i) _ _ _ (Nat.le_succ_diag_r i) IV)) in SA as IVs. destruct IVs as [A A1 A2 B C D]. constructor; auto.
        - now rewrite upd_len.
        - now rewrite upd_len.
        - intros p n P. rewrite nth_upd by exact LO. destruct (Nat.eqb_spec p (N.to_nat (c_off c))) as [->|_]; [unfold k_ in G5; lia|]. now apply A2.
        - intros p n P. rewrite nth_upd by exact LO. destruct (Nat.eqb_spec p (N.to_nat (c_off c))) as [->|_]; [|now apply B]. intros X. injection X as <-. right. split; [reflexivity|].
          exists c', (N.to_nat (c_off c + c_cnt c)). unfold nn. cbn [nex ncs]. rewrite nth_upd, Nat.eqb_refl by exact LI. unfold o_, k_, c', c_off, c_cnt. fold (c_off c). fold (c_cnt c). unfold k_ in G5.
          split; [reflexivity|]. split; [lia|]. split; [lia|]. split; [lia|]. split; [f_equal; lia|lia].
        - intros j d p n J X Y Z1 Z2 Z3 Z4. rewrite nth_upd in Z2 by exact LO. destruct (Nat.eqb_spec p (N.to_nat (c_off c))) as [->|_]; [injection Z2 as <-; unfold nn; cbn [nex]; lia|]. eapply D; eauto. }
      assert (FI1 : fins (S i) (t ++ [v0]) (upd ses i c')).
      { intros k d v KL D ST' ND'. rewrite nth_upd in D by exact LI. destruct (Nat.eqb_spec k i) as [->|NE].
        - injection D as <-. unfold c'. cbn [c_fin]. rewrite FE, Nat2N.id, nth_error_app2, Nat.sub_diag by lia. cbn. f_equal. exact (nden_det m env _ _ _ ND ND').
        - specialize (FI k d v ltac:(lia) D ST' ND'). rewrite nth_error_app1; [exact FI|]. apply nth_error_Some. congruence. }
      destruct (IH (S i) (fin + 1)%N _ _ (mkemit (em_out e1 ++ [mknode op_noop 0 0 zero]) (em_st e1)) (t ++ [v0]) nodes' ses' e' ltac:(lia) IV1 FI1 ltac:(rewrite app_length; cbn [length]; lia) B3) with (2 := H) as (add & ts & O1 & O2 & O3 & O4 & O5 & O6 & OQ & O7).
      { rewrite <- CO. apply counts_key. intros k. rewrite nth_upd by exact LI. destruct (Nat.eqb_spec k i) as [->|_]; [|reflexivity]. rewrite E. reflexivity. }
      cbn [em_out em_st] in *. exists (b ++ mknode op_noop 0 0 zero :: add), (v0 :: ts).
      replace (i + S kk) with (S i + kk) by lia. split; [rewrite O1, B1, <- !app_assoc; reflexivity|]. split; [exact O2|]. split; [exact O3|].
      rewrite <- app_assoc in O4. split; [exact O4|]. split.
      { intros k K. rewrite O5 by lia. rewrite nth_upd by exact LI. now replace (k =? i) with false by lia. }
      split; [exact O6|]. split.
      { apply Forall_app. split; [eapply Forall_impl; [|exact BQ]; intros; now right|]. constructor; [now left|exact OQ]. }
      intros g HG. rewrite map_app. cbn [map].
      assert (HG' : forall k d, k < i -> nth_error ses k = Some d -> g k = N.to_nat (c_fin d)).
      { intros k d K D. apply HG. rewrite O5 by lia. rewrite nth_upd by exact LI. now replace (k =? i) with false by lia. }
      destruct (BODY g HG') as (b' & B1' & (_ & B2) & _). rewrite B1 in B1'. apply app_inv_head in B1'. subst b'.
      specialize (O7 g HG) as [O7 O8]. change (fixg g (mknode op_noop 0 0 zero)) with (mknode op_noop 0 0 zero). split.
      * eapply run_app; [apply B2|]. econstructor; [intros Q; vm_compute in Q; discriminate|apply st_noop; reflexivity|]. rewrite <- app_assoc in O7. exact O7.
      * apply clean_app; [eapply run_clean; apply (B2 [])|]. apply (clean_app [_]); [apply clean_one; intros Q; vm_compute in Q; discriminate|exact O8].
    + destruct (IH (S i) fin nodes ses e t nodes' ses' e' ltac:(lia) (inv2_lo _ _ _ _ _ (Nat.le_succ_diag_r i) IV)) with (5 := H) as (add & ts & O1 & O2 & O3 & O4 & O5 & O6 & OQ & O7).
      { intros k d v K D ST' ND'. destruct (Nat.eq_dec k i) as [->|NE]; [rewrite E in D; injection D as <-; congruence|]. eapply FI; eauto. lia. }
      { exact FE. } { exact RE. } { exact CO. }
      exists add, ts. replace (i + S kk) with (S i + kk) by lia. repeat (split; [assumption|]). split; [intros k K; apply O5; lia|]. split; [exact O6|]. split; [exact OQ|exact O7].
Qed.
Lemma trun_fix (T T' : nat -> V -> Prop) g l s s' : trun m env T l s s' -> (forall k v, T k v -> T' (g k) v) -> trun m env T' (map (fixg g) l) s s'.
Proof.
  intros H HT. induction H; cbn [map]; [constructor| |].
  - replace (fixg g n) with n; [econstructor; eauto|]. unfold fixg. destruct (N.eqb_spec (no n) op_cse) as [C|]; [|reflexivity]. exfalso.
    apply (frun_nocse [n] s s' (frun_one m env n s s' H) n); [now left|exact C].
  - eapply tr_ref; [unfold fixg; rewrite H; reflexivity| |exact IHtrun]. unfold fixg. rewrite H. change (op_cse =? op_cse)%N with true. cbv iota. cbn [nex]. auto.
Qed.
Lemma fixg_id l : map (fixg (fun k => k)) l = l.
Proof. rewrite <- (map_id l) at 2. apply map_ext. intros []. unfold fixg. cbn. now destruct (_ =? _)%N. Qed.
End Emission.

Lemma first_start m env x : (N.of_nat (length (rnodes x)) < 2 ^ 32)%N -> (N.of_nat (rcap x) < 2 ^ 32)%N -> (forall n, In n (rnodes x) -> no n <> op_cse) ->
  keeps m env (rnodes x) 0 (mkscan (rnodes x ++ repeat node0 (rcap x - length (rnodes x))) (repeat cse0 (rcap x)) 0 (mk_stack (repeat 0%N (rcap x)) 0) (repeat 0%N (rcap x)) 0).
Proof.
  intros S1 S2 NC. set (L := rnodes x) in *. set (C := rcap x) in *. split; cbn [sc_nodes sc_ses sc_kc]; [|intros _ j c _ Q; cbn in Q; lia]. constructor.
  - rewrite app_length. lia.
  - rewrite app_length, repeat_length. lia.
  - intros p n P X. rewrite nth_error_app2 in X by lia. apply nth_error_In, repeat_spec in X. subst n. intros Q. vm_compute in Q. discriminate.
  - intros p n P X. rewrite nth_error_app1 in X by lia. left. split; [exact X|]. apply NC. eapply nth_error_In; eauto.
  - intros j c _ Q. cbn in Q. lia.
  - intros j c p n _ Q. cbn in Q. lia.
  - intros p n c P X. rewrite nth_error_app1 in X by lia. intros Q. exfalso. eapply NC; [eapply nth_error_In; eauto|exact Q].
  - cbn. lia.
Qed.
Lemma first_pass_ok m env x v s : (N.of_nat (length (rnodes x)) < 2 ^ 32)%N -> (N.of_nat (rcap x) < 2 ^ 32)%N -> nden m env (rnodes x) v -> identified (rnodes x) ->
  first_pass x = Ok s -> keeps m env (rnodes x) (length (rnodes x)) s.
Proof.
  intros S1 S2 ND ID E. pose proof (first_start m env x S1 S2 (frun_nocse m env _ [] _ (nden_frun m env _ v ND []))) as K0. unfold first_pass in E.
  destruct (nden_scans m env (rnodes x) ID S1 (rnodes x) v ND [] [] _ s [] ltac:(now rewrite app_nil_r) K0) with (2 := E) as [K1 _]; [|exact K1].
  cbn [sc_offs]. apply fresh_rep. rewrite repeat_length. lia.
Qed.
Theorem reshape_full m env x y v : (N.of_nat (length (rnodes x)) < 2 ^ 32)%N -> (N.of_nat (rcap x) < 2 ^ 32)%N -> nden m env (rnodes x) v -> identified (rnodes x) -> counted x ->
  reshape x = Ok y -> rq y = rq x /\ (exists t, run m env (rnodes y) ([], []) (t, [v])) /\ stores_on_top (rnodes y) /\ Forall (fun n => no n = op_noop \/ origin (rnodes x) n) (rnodes y).
Proof.
  intros S1 S2 ND ID CN H. set (L := rnodes x) in *. set (C := rcap x) in *. unfold reshape in H. minv H. rename v0 into s. specialize (CN s E). fold L in CN. fold C in H.
  pose proof (first_pass_ok m env x v s S1 S2 ND ID E) as K1. fold L in K1. destruct K1 as [K1 _]. apply inv_inv2 in K1. minv H. destruct v0 as [[nodes ses] e].
  assert (CAP : (N.of_nat (3 * C) < 2 ^ 64)%N) by lia.
  destruct (known_ok m env L (3 * C) CAP (sc_kc s) (N.to_nat (sc_kc s)) 0 0%N (sc_nodes s) (sc_ses s) (mkemit [] (mk_stack (repeat (None, 0%N) C) 0)) [] nodes ses e) with (7 := E0) as (add & ts & O1 & (l0 & O2) & O3 & O4 & O5 & O6 & OQ & O7).
  { reflexivity. } { exact K1. } { intros k c w Q. lia. } { reflexivity. } { exists []. cbn [em_st]. apply fresh_rep. rewrite repeat_length. lia. } { exact CN. }
  cbn [em_out app Nat.add] in O1. rewrite O1 in H. minv H. apply fix_all_ok in E1. subst v0. minv H. rename v0 into e'. injection H as <-. cbn [rq rnodes]. split; [reflexivity|].
  cbn [app Nat.add] in O4, O7. cbn [counts] in O6.
  specialize (O7 (gof ses) ltac:(intros k c Q; unfold gof; now rewrite Q)) as [O7 O8].
  destruct (rest_path _ _ _ _ (i2_small _ _ _ _ _ _ _ O3) _ _ _ _ E1) as (l & PA & EM & RF). fold L in PA, RF. rewrite RF, forallb_forall in O6.
  pose (T := fun k w => nth_error ts (gof ses k) = Some w).
  assert (TR : trun m env T l [] [EV v]).
  { eapply (path_trun m env L); [exact O3| |exact PA| |].
    - lia.
    - intros p n d w I CC P NP NC ND' NK VD. unfold T, gof. rewrite ND'. eapply O4; eauto. specialize (O6 _ (refs_in _ _ I CC)). unfold stored_at in O6. now rewrite ND' in O6.
    - rewrite Nat.sub_0_r, Nat2N.id. unfold sub. change (N.to_nat 0) with 0. rewrite skipn_O, firstn_all. now apply nden_frun. }
  assert (TR' : trun m env (fun k w => nth_error ts k = Some w) (map (fixg (gof ses)) l) [] [EV v]) by (eapply trun_fix; [exact TR|]; intros k w Q; exact Q).
  assert (OL : Forall (origin L) (map (fixg (gof ses)) l)).
  { apply Forall_map. eapply Forall_impl; [|exact (path_origin m env L _ _ _ _ _ O3 (N.le_refl _) _ _ PA)]. intros n. apply origin_fix. }
  destruct (emits_ok m env (origin L) (fun k w => nth_error ts k = Some w) (fun k => k) ts (3 * C) (origin_se L) (origin_poly L) CAP ltac:(auto) _ [] [EV v] TR' OL
    _ [] _ [] e' (start_seg (map (fixg (gof ses)) add) (em_st e) (ex_intro _ l0 O2)) ltac:(constructor) eq_refl EM) as (segs & Q1 & Q2 & Q3).
  destruct (seg_one _ _ _ _ _ _ _ _ _ _ Q1 Q2 Q3) as (b & B1 & BQ & B2). rewrite B1. specialize (B2 []). rewrite fixg_id in B2. split; [|split].
  - exists ts. eapply run_app; eauto.
  - apply (clean_app (map (fixg (gof ses)) add) b); [exact O8|]. eapply run_clean; eauto.
  - apply Forall_app. split; [|eapply Forall_impl; [|exact BQ]; intros; now right]. apply Forall_map. eapply Forall_impl; [|exact OQ]. intros n [A|A]; [|right; now apply origin_fix].
    left. unfold fixg. rewrite A. exact A.
Qed.
