(** Reshaping, emission: the nodes written compute the values on the stack. *)
From Coq Require Import ZArith NArith List Bool Arith Lia ZifyBool ZifyN ZifyNat Reals.
From Verif Require Import Base Model_Numeric Model_Blade Model_Stack Model_Expr Model_Dfa Model_Reshape.
From Verif Require Import Spec_Numeric Spec_Clifford Spec_MV Spec_Basis Spec_Expr Spec_Reshape.
From Verif Require Import Proof_Numeric Proof_Expr Proof_Util Proof_Reshape Proof_Reshape2.
Import ListNotations.
Local Open Scope nat_scope.

Section Segs.
Context (m : metric) (env : list V).
Notation step := (step m env). Notation run := (run m env). Notation fstep := (fstep m env).
Lemma run_app a b st st' st'' : run a st st' -> run b st' st'' -> run (a ++ b) st st''.
Proof.
  induction 1; intros HB; [exact HB|cbn; econstructor; eauto|]. cbn. rewrite <- app_assoc. eapply run_se; eauto.
Qed.
Lemma run_one n st st' : no n <> op_se -> step n st st' -> run [n] st st'.
Proof. intros A B. econstructor; [exact A|exact B|constructor]. Qed.

Definition fixg (g : nat -> nat) (n : node) : node := if (no n =? op_cse)%N then mknode (no n) (ncs n) (g (nex n)) (nq n) else n.
Definition seg := (entry * list node)%type.
(** top first *)
Definition outof (l : list seg) : list node := flat_map snd (rev l).
Lemma outof_app a b : outof (a ++ b) = outof b ++ outof a.
Proof. unfold outof. now rewrite rev_app_distr, flat_map_app. Qed.
Lemma outof_cons x b : outof (x :: b) = outof b ++ snd x.
Proof. change (x :: b) with ([x] ++ b). rewrite outof_app. unfold outof at 2. cbn. now rewrite app_nil_r. Qed.

Variables (g : nat -> nat) (t : list V).
(** a property of the nodes that does not depend on what is adjusted *)
Variable Q : node -> Prop.
Hypothesis Qse : forall c x q x', Q (mknode op_se c x q) -> Q (mknode op_se c x' q).
Hypothesis Qpoly : forall n q, poly (no n) = true -> Q n -> Q (mknode (no n) (ncs n) (nex n) q).
Definition oks (b : list node) (v : V) : Prop := Forall Q b /\ forall s, run (map (fixg g) b) (t, s) (t, v :: s).
Definition okseg (x : seg) : Prop :=
  match fst x with
  | EV v => oks (snd x) v
  | EM q => exists c x', snd x = [mknode op_se c x' q] /\ Q (mknode op_se c x' q)
  end.
Fixpoint opens (b : nat) (l : list seg) : list nat :=
  match l with
  | [] => []
  | (EM _, _) :: r => b + length (outof r) :: opens b r
  | (EV _, _) :: r => opens b r
  end.
Definition mark (a : nat) : option nat * N := (Some a, N.of_nat (S a)).
(** the nodes written before, and what the stack held before *)
Record seginv (pre : list node) (below : list (option nat * N)) (e : emit) (l : list seg) : Prop := {
  si_out : em_out e = pre ++ outof l;
  si_rep : rep (em_st e) (map mark (opens (length pre) l) ++ below) }.

(** *** values on top *)
Lemma split_values vs : forall segs s, map fst segs = map EV vs ++ s -> Forall okseg segs ->
  exists a r, segs = a ++ r /\ map fst a = map EV vs /\ map fst r = s /\ Forall okseg a /\ Forall okseg r.
Proof.
  induction vs as [|v vs IH]; intros segs s E F; [exists [], segs; repeat split; auto|]. destruct segs as [|x segs]; [discriminate|]. cbn in E. injection E as E0 E.
  inversion F; subst. destruct (IH _ _ E ltac:(assumption)) as (a & r & -> & A & B & C & D). exists (x :: a), r. cbn. rewrite E0, A. repeat split; auto.
Qed.
Lemma run_values a : forall vs s, map fst a = map EV vs -> Forall okseg a -> run (map (fixg g) (outof a)) (t, s) (t, vs ++ s).
Proof.
  induction a as [|x a IH]; intros [|v vs] s E F; try discriminate; [constructor|]. cbn in E. injection E as E0 E. inversion F; subst. rewrite outof_cons, map_app.
  eapply run_app; [apply (IH vs s E); assumption|]. unfold okseg in H1. rewrite E0 in H1. apply H1.
Qed.
Lemma values_Q a : forall vs, map fst a = map EV vs -> Forall okseg a -> Forall Q (outof a).
Proof.
  induction a as [|x a IH]; intros [|v vs] E F; try discriminate; [constructor|]. cbn in E. injection E as E0 E. inversion F; subst. rewrite outof_cons. apply Forall_app. split; [now apply (IH vs)|].
  unfold okseg in H1. rewrite E0 in H1. apply H1.
Qed.
Lemma opens_values b a : forall vs r, map fst a = map EV vs -> opens b (a ++ r) = opens b r.
Proof. induction a as [|[x y] a IH]; intros [|v vs] r E; try discriminate; [reflexivity|]. cbn in E. injection E as E0 E. subst x. cbn. now apply (IH vs). Qed.

(** *** summands and factors on top *)
Definition raw (p : nat * item) : list node := mknode op_se (i_cs (snd p)) (fst p) (i_q (snd p)) :: i_body (snd p).
Definition seg_of (p : nat * item) : list seg := [(EV (i_val (snd p)), i_body (snd p)); (EM (i_q (snd p)), [mknode op_se (i_cs (snd p)) (fst p) (i_q (snd p))])].
Definition done_ (p : nat * item) : list node := render (snd p).
Fixpoint posns (a : nat) (l : list (nat * item)) : list nat := match l with [] => [] | p :: r => a :: posns (a + length (raw p)) r end.
Lemma posns_app a l p : posns a (l ++ [p]) = posns a l ++ [a + length (flat_map raw l)].
Proof.
  revert a. induction l as [|q l IH]; intros a; [cbn; now rewrite Nat.add_0_r|]. cbn [app posns flat_map]. rewrite IH, app_length. cbn [app]. do 3 f_equal. lia.
Qed.
Lemma outof_items its : outof (flat_map seg_of (rev its)) = flat_map raw its.
Proof.
  induction its as [|p its IH]; [reflexivity|]. cbn [rev]. rewrite flat_map_app, outof_app, IH. cbn [flat_map]. f_equal. unfold outof, raw, seg_of. cbn. now rewrite !app_nil_r.
Qed.
Lemma opens_items b r its : rev (opens b (flat_map seg_of (rev its) ++ r)) = rev (opens b r) ++ posns (b + length (outof r)) its.
Proof.
  induction its as [|p its IH] using rev_ind; [cbn; now rewrite app_nil_r|]. rewrite rev_app_distr. cbn [rev app flat_map]. unfold seg_of at 1. cbn [app opens rev]. rewrite IH, posns_app, <- app_assoc.
  do 3 f_equal. rewrite outof_app, outof_items, app_length. lia.
Qed.
Definition okitem (p : nat * item) : Prop := oks (i_body (snd p)) (i_val (snd p)) /\ Q (mknode op_se (i_cs (snd p)) (fst p) (i_q (snd p))).
Lemma split_items rl : forall segs s, map fst segs = flat_map ev_of rl ++ s -> Forall okseg segs ->
  exists its r, segs = flat_map seg_of its ++ r /\ map fst r = s /\ map (fun p => item_pair (snd p)) its = rl /\ Forall okitem its /\ Forall okseg r.
Proof.
  induction rl as [|[q v] rl IH]; intros segs s E F; [exists [], segs; repeat split; auto|]. destruct segs as [|[x1 y1] [|[x2 y2] segs]]; try discriminate. cbn in E. injection E as E1 E2 E. subst x1 x2.
  inversion F as [|? ? H1 F']; subst. inversion F' as [|? ? H2 F'']; subst. destruct H2 as (c & x & H2 & HQ). cbn [snd] in H2. subst y2. unfold okseg in H1. cbn [fst snd] in H1.
  destruct (IH _ _ E F'') as (its & r & -> & A & B & C & D). exists ((x, mkitem c q y1 v) :: its), r. cbn. rewrite B. repeat split; auto. constructor; [|exact C]. split; assumption.
Qed.
Lemma fix_length l : length (map (fixg g) l) = length l. Proof. apply map_length. Qed.
Lemma items_Q its : Forall okitem its -> Forall Q (flat_map done_ its).
Proof.
  induction 1 as [|p its [[A _] B] _ IH]; [constructor|]. cbn [flat_map done_ render]. cbn [app]. constructor; [eapply Qse; exact B|]. apply Forall_app. auto.
Qed.
Lemma run_items its : forall s, Forall okitem its ->
  run (map (fixg g) (flat_map done_ its)) (t, s) (t, rev (map (fun p => item_val (snd p)) its) ++ s).
Proof.
  induction its as [|p its IH]; intros s F; [constructor|]. inversion F; subst. cbn [flat_map map rev]. rewrite map_app. unfold done_ at 1, render. cbn [map app]. rewrite <- app_assoc. cbn [app].
  eapply run_se; [reflexivity| |apply (proj2 (proj1 H1))|].
  - cbn. now rewrite map_length.
  - cbn [nq fixg no]. apply IH. assumption.
Qed.

(** *** the lengths of the subexpressions *)
Lemma at_mid {A} (d p : list A) x r : d = p ++ x :: r -> at_ d (N.of_nat (length p)) = Ok x.
Proof. intros ->. unfold at_, get. rewrite Nat2N.id, nth_error_app2, Nat.sub_diag by lia. reflexivity. Qed.
Lemma head_posns a l r : exists r', map mark (posns a l ++ [a + length (flat_map raw l)]) ++ r = mark a :: r'.
Proof. destruct l; cbn; [rewrite Nat.add_0_r; eauto|eauto]. Qed.
Lemma fix_ok st tail drest : forall its A dpre,
  data st = dpre ++ map mark (posns (length A) its ++ [length A + length (flat_map raw its)]) ++ drest ->
  (N.of_nat (length (data st)) < 2 ^ 64)%N -> (N.of_nat (length A + length (flat_map raw its) + 1) < 2 ^ 64)%N ->
  fix_lengths (length its) (N.of_nat (length dpre)) st (A ++ flat_map raw its ++ tail) = Ok (A ++ flat_map done_ its ++ tail).
Proof.
  induction its as [|p its IH]; intros A dpre D S1 S2; [reflexivity|]. cbn [length fix_lengths].
  assert (LD : length dpre + 1 < length (data st)) by (rewrite D, !app_length, map_length, app_length; cbn; lia).
  cbn [posns flat_map app map] in D. unfold s_index at 1. rewrite (at_mid _ dpre _ _ D). cbn [bind mark]. rewrite add64_small by lia.
  replace (N.of_nat (length dpre) + 1)%N with (N.of_nat (length (dpre ++ [mark (length A)]))) by (rewrite app_length; cbn; lia).
  assert (D' : data st = (dpre ++ [mark (length A)]) ++ map mark (posns (length A + length (raw p)) its ++ [length A + length (raw p) + length (flat_map raw its)]) ++ drest).
  { rewrite D, <- app_assoc. cbn [app]. do 5 f_equal. rewrite app_length. f_equal. lia. }
  destruct (head_posns (length A + length (raw p)) its drest) as (r' & HR). rewrite HR in D'. unfold s_index. rewrite (at_mid _ _ _ _ D'). rewrite <- HR in D'. cbn [bind mark fst snd].
  unfold get. rewrite nth_error_app2, Nat.sub_diag by lia. cbn [flat_map raw app nth_error bind no ncs nq].
  unfold set. replace (length A <? _) with true by (rewrite !app_length; cbn; symmetry; apply Nat.ltb_lt; lia). cbn [bind]. rewrite upd_at.
  cbn [flat_map app length] in S2. rewrite app_length in S2. assert (LR : length (raw p) = S (length (i_body (snd p)))) by reflexivity.
  rewrite (sub64_le _ (N.of_nat (S (length A)))) by lia. rewrite sub64_le by lia. replace (N.to_nat _) with (length (i_body (snd p))) by lia.
  specialize (IH (A ++ done_ p) (dpre ++ [mark (length A)])). rewrite !app_length in IH. replace (length (done_ p)) with (length (raw p)) in IH by reflexivity.
  specialize (IH D' S1 ltac:(lia)). rewrite app_length. rewrite <- !app_assoc in IH. cbn [done_ render app] in IH. rewrite <- !app_assoc. exact IH.
Qed.

(** *** one node *)
Variable cap : nat.
Hypothesis CAP : (N.of_nat cap < 2 ^ 64)%N.
Lemma append_ok out n out' : out_append cap out n = Ok out' -> out' = out ++ [n] /\ length out < cap.
Proof. unfold out_append. destruct (Nat.ltb_spec (length out) cap); [|discriminate]. intros E. injection E as <-. auto. Qed.
Lemma special_no o : special o = false -> (o =? op_se)%N = false /\ ((o =? op_sum) || (o =? op_ep))%N = false /\ (o =? op_cse)%N = false.
Proof. unfold special. cbn [existsb]. lia. Qed.
Lemma emit_plain n e e' : (no n =? op_se)%N = false -> ((no n =? op_sum) || (no n =? op_ep))%N = false -> emit_node cap n e = Ok e' ->
  em_out e' = em_out e ++ [n] /\ em_st e' = em_st e.
Proof.
  intros A B H. unfold emit_node in H. minv H. apply append_ok in E as [-> _]. rewrite A, B in H. injection H as <-. auto.
Qed.
Lemma rep_data {A} (s : stack A) l : rep s l -> data s = rev l ++ skipn (length l) (data s) /\ count s = N.of_nat (length l) /\ (N.of_nat (length (data s)) < 2 ^ 64)%N /\ length l <= length (data s).
Proof.
  intros (B & C & rest & D). repeat split; auto.
  - rewrite D at 2. rewrite skipn_app, skipn_all2, rev_length, Nat.sub_diag by (rewrite rev_length; lia). cbn. exact D.
  - rewrite D, app_length, rev_length. lia.
Qed.
Lemma opens_length b r its : length (opens b (flat_map seg_of (rev its) ++ r)) = length its + length (opens b r).
Proof.
  rewrite <- rev_length, opens_items, app_length, rev_length. assert (P : forall l a, length (posns a l) = length l) by (induction l; cbn; auto). rewrite P. lia.
Qed.
Lemma opens_skip b r its : skipn (length its) (opens b (flat_map seg_of (rev its) ++ r)) = opens b r.
Proof.
  assert (G : forall l, skipn (length l) (opens b (flat_map seg_of l ++ r)) = opens b r) by (induction l as [|p l IH]; [reflexivity|]; cbn [flat_map seg_of app opens length skipn]; exact IH).
  rewrite <- (rev_length its). apply G.
Qed.
Lemma emit_poly n e e' pre below its rest : poly (no n) = true -> nex n = length its -> its <> [] -> seginv pre below e (flat_map seg_of (rev its) ++ rest) -> emit_node cap n e = Ok e' ->
  exists q, em_out e' = pre ++ outof rest ++ flat_map done_ its ++ [mknode (no n) (ncs n) (nex n) q] /\ rep (em_st e') (map mark (opens (length pre) rest) ++ below).
Proof.
  intros PO NX NN [SO SR] H. unfold emit_node in H. minv H. apply append_ok in E as [-> LC].
  replace (no n =? op_se)%N with false in H by (unfold poly in PO; symmetry; apply N.eqb_neq; intros E; rewrite E in PO; vm_compute in PO; discriminate).
  unfold poly in PO. rewrite PO in H. minv H. rename v into st. apply push_ok with (l := map mark (opens (length pre) (flat_map seg_of (rev its) ++ rest)) ++ below) in E as (R & _ & _); [|exact SR].
  rewrite outof_app, outof_items in SO. rewrite app_length in H. change (length [n]) with 1 in H. replace (length (em_out e) + 1 - 1) with (length (em_out e)) in H by lia.
  rewrite app_length in R. change (length [n]) with 1 in R. replace (length (em_out e) + 1 - 1) with (length (em_out e)) in R by lia.
  set (base := length pre) in *. set (b0 := base + length (outof rest)).
  assert (LE : length (em_out e) = b0 + length (flat_map raw its)) by (rewrite SO, !app_length; unfold b0, base; lia).
  replace (Some (length (em_out e)), N.of_nat (length (em_out e) + 1)) with (mark (length (em_out e))) in R by (unfold mark; do 2 f_equal; lia).
  destruct (rep_data _ _ R) as (DD & CC & SS & LL). set (O := opens base (flat_map seg_of (rev its) ++ rest)) in *.
  assert (LO : length O = length its + length (opens base rest)) by apply opens_length.
  cbn [length] in CC. rewrite app_length, map_length, LO in CC. cbn [length] in LL. rewrite app_length, map_length, LO in LL. assert (L1 : 0 < length its) by (destruct its; [congruence|cbn; lia]).
  rewrite CC, NX in H. rewrite (sub64_le (N.of_nat _) (N.of_nat (length its))) in H by lia. rewrite sub64_le in H by lia.
  replace (N.of_nat (S (length its + length (opens base rest) + length below)) - N.of_nat (length its) - 1)%N with (N.of_nat (length (rev below ++ map mark (rev (opens base rest))))) in H by (rewrite app_length, map_length, !rev_length; lia).
  rewrite SO in H. rewrite <- !app_assoc in H. rewrite (app_assoc pre) in H.
  assert (LA : length (pre ++ outof rest) = b0) by (rewrite app_length; reflexivity).
  rewrite (fix_ok st [n] (skipn (length (mark (length (em_out e)) :: map mark O ++ below)) (data st))) in H.
  2:{ rewrite DD at 1. cbn [rev]. rewrite rev_app_distr, <- map_rev. unfold O. rewrite opens_items. fold b0. rewrite LA, LE, !map_app, <- !app_assoc. reflexivity. }
  2:{ exact SS. }
  2:{ rewrite LA, <- LE. lia. }
  cbn [bind] in H. replace (N.of_nat (length its) + 1)%N with (N.of_nat (S (length its))) in H by lia.
  minv H. destruct v as [f st']. apply pop_ok with (l := mark (length (em_out e)) :: map mark O ++ below) in E as (R' & D' & _); [|exact R|cbn [length]; rewrite app_length, map_length, LO; lia].
  cbn [skipn] in R'. rewrite skipn_app in R'. replace (length its - length (map mark O)) with 0 in R' by (rewrite map_length, LO; lia). cbn [skipn] in R'. rewrite skipn_map in R'. unfold O in R'. rewrite opens_skip in R'.
  assert (LF : length ((pre ++ outof rest) ++ flat_map done_ its) = length (pre ++ outof rest ++ flat_map raw its)).
  { rewrite !app_length. rewrite <- Nat.add_assoc. do 2 f_equal. clear. induction its as [|p r IH]; [reflexivity|]. cbn [flat_map]. rewrite !app_length, IH. reflexivity. }
  rewrite (app_assoc _ (flat_map done_ its)) in H. rewrite <- LF in H.
  unfold get in H. rewrite nth_error_app2, Nat.sub_diag in H by lia. cbn [nth_error bind] in H. unfold set in H.
  replace (_ <? _) with true in H by (rewrite !app_length; change (length [n]) with 1; symmetry; apply Nat.ltb_lt; lia). cbn [bind] in H. rewrite upd_at in H. injection H as <-.
  eexists. split; [|exact R']. cbn [em_out]. rewrite <- !app_assoc. reflexivity.
Qed.
Lemma oks_poly n its q : poly (no n) = true -> nex n = length its -> its <> [] -> Q n -> Forall okitem its ->
  forall v, v = (if (no n =? op_sum)%N then vsum else vwedge m) (map (fun p => item_val (snd p)) its) -> oks (flat_map done_ its ++ [mknode (no n) (ncs n) (nex n) q]) v.
Proof.
  intros PO NX NN QN F v ->. split; [apply Forall_app; split; [now apply items_Q|constructor; [now apply Qpoly|constructor]]|]. intros s. rewrite map_app. eapply run_app; [now apply run_items|]. unfold poly in PO. cbn [map]. unfold fixg. cbn [no].
  assert (X : map (fun p : nat * item => item_val (snd p)) its <> []) by (destruct its; [congruence|discriminate]).
  assert (Y : length (map (fun p : nat * item => item_val (snd p)) its) = nex n) by (rewrite map_length; lia).
  destruct (N.eqb_spec (no n) op_sum) as [E|E].
  - rewrite E. change (op_sum =? op_cse)%N with false. cbv iota. apply run_one; [intros XX; vm_compute in XX; discriminate|]. now apply st_sum.
  - destruct (N.eqb_spec (no n) op_ep) as [E'|E']; [|discriminate]. rewrite E'. change (op_ep =? op_cse)%N with false. cbv iota. apply run_one; [intros XX; vm_compute in XX; discriminate|]. now apply st_ep.
Qed.
Lemma emit_copy pre below e segs n e' s' : Q n -> seginv pre below e segs -> Forall okseg segs -> fstep n (map fst segs) s' -> emit_node cap n e = Ok e' ->
  exists segs', seginv pre below e' segs' /\ Forall okseg segs' /\ map fst segs' = s'.
Proof.
  intros QN SI F FS H. inversion FS; subst.
  - destruct (split_values vs segs s ltac:(congruence) F) as (a & r & -> & A & B & C & D). destruct (special_no _ H1) as (X1 & X2 & X3).
    destruct (emit_plain n e e' X1 X2 H) as [O1 O2]. destruct SI as [SO SR]. exists ((EV w, outof a ++ [n]) :: r). split; [|split].
    + split; [|].
      * rewrite O1, SO, outof_app, outof_cons. cbn [snd]. now rewrite <- !app_assoc.
      * rewrite O2. cbn [opens]. rewrite (opens_values _ _ vs) in SR by exact A. exact SR.
    + constructor; [|exact D]. unfold okseg. cbn [fst snd]. split; [apply Forall_app; split; [now apply (values_Q a vs)|now constructor]|]. intros st. rewrite map_app. eapply run_app; [apply (run_values a vs); assumption|]. cbn [map]. unfold fixg. rewrite X3.
      apply run_one; [apply N.eqb_neq; exact X1|]. now apply step_plain_frame.
    + cbn. now rewrite B.
  - destruct SI as [SO SR]. unfold emit_node in H. minv H. apply append_ok in E as [-> LC]. rewrite H0 in H. change (op_se =? op_se)%N with true in H. cbv iota in H. minv H. injection H as <-.
    apply push_ok with (l := map mark (opens (length pre) segs) ++ below) in E as (R & _ & _); [|exact SR].
    exists ((EM (nq n), [n]) :: segs). split; [|split].
    + split; cbn [em_out em_st].
      * rewrite outof_cons, SO. cbn [snd]. now rewrite <- app_assoc.
      * cbn [opens map app]. rewrite SO, !app_length in R. cbn [length] in R. unfold mark at 1.
        replace (length pre + length (outof segs) + 1 - 1) with (length pre + length (outof segs)) in R by lia. replace (length pre + length (outof segs) + 1) with (S (length pre + length (outof segs))) in R by lia. exact R.
    + constructor; [|exact F]. unfold okseg. cbn [fst snd]. exists (ncs n), (nex n). rewrite <- H0. destruct n; auto.
    + reflexivity.
  - destruct (split_items (rev l) segs s ltac:(unfold stacked in *; congruence) F) as (its & r & -> & A & B & C & D). rewrite <- (rev_involutive its) in *. set (its' := rev its) in *. clearbody its'.
    assert (LI : length its' = length l) by (apply (f_equal (@length _)) in B; rewrite map_length, !rev_length in B; exact B).
    assert (BL : map (fun p => item_pair (snd p)) its' = l) by (rewrite map_rev in B; apply (f_equal (@rev _)) in B; now rewrite !rev_involutive in B).
    assert (NN : its' <> []) by (destruct its'; [destruct l; [congruence|discriminate]|discriminate]).
    destruct (emit_poly n e e' pre below its' r) as (q & O1 & O2); auto; [unfold poly; rewrite H1; reflexivity|congruence|].
    exists ((EV (vsum (map pval l)), flat_map done_ its' ++ [mknode (no n) (ncs n) (nex n) q]) :: r). split; [|split].
    + split; [rewrite O1, outof_cons; reflexivity|exact O2].
    + constructor; [|exact D]. unfold okseg. cbn [fst snd]. apply oks_poly; auto; [unfold poly; rewrite H1; reflexivity|congruence|rewrite <- (rev_involutive its'); now apply Forall_rev|].
      rewrite H1. change (op_sum =? op_sum)%N with true. cbv iota. f_equal. rewrite <- BL, map_map. reflexivity.
    + cbn. now rewrite A.
  - destruct (split_items (rev l) segs s ltac:(unfold stacked in *; congruence) F) as (its & r & -> & A & B & C & D). rewrite <- (rev_involutive its) in *. set (its' := rev its) in *. clearbody its'.
    assert (LI : length its' = length l) by (apply (f_equal (@length _)) in B; rewrite map_length, !rev_length in B; exact B).
    assert (BL : map (fun p => item_pair (snd p)) its' = l) by (rewrite map_rev in B; apply (f_equal (@rev _)) in B; now rewrite !rev_involutive in B).
    assert (NN : its' <> []) by (destruct its'; [destruct l; [congruence|discriminate]|discriminate]).
    destruct (emit_poly n e e' pre below its' r) as (q & O1 & O2); auto; [unfold poly; rewrite H1; reflexivity|congruence|].
    exists ((EV (vwedge m (map pval l)), flat_map done_ its' ++ [mknode (no n) (ncs n) (nex n) q]) :: r). split; [|split].
    + split; [rewrite O1, outof_cons; reflexivity|exact O2].
    + constructor; [|exact D]. unfold okseg. cbn [fst snd]. apply oks_poly; auto; [unfold poly; rewrite H1; reflexivity|congruence|rewrite <- (rev_involutive its'); now apply Forall_rev|].
      rewrite H1. change (op_ep =? op_sum)%N with false. cbv iota. f_equal. rewrite <- BL, map_map. reflexivity.
    + cbn. now rewrite A.
Qed.
Lemma emit_ref pre below e segs n e' v : Q n -> seginv pre below e segs -> Forall okseg segs -> no n = op_cse -> nth_error t (g (nex n)) = Some v -> emit_node cap n e = Ok e' ->
  exists segs', seginv pre below e' segs' /\ Forall okseg segs' /\ map fst segs' = EV v :: map fst segs.
Proof.
  intros QN [SO SR] F NO TV H. destruct (emit_plain n e e') as [O1 O2]; [rewrite NO; reflexivity|rewrite NO; reflexivity|exact H|].
  exists ((EV v, [n]) :: segs). split; [|split; [|reflexivity]].
  - split; [rewrite O1, SO, outof_cons; cbn [snd]; now rewrite app_assoc|]. rewrite O2. exact SR.
  - constructor; [|exact F]. unfold okseg. cbn [fst snd]. split; [now constructor|]. intros s. cbn [map]. unfold fixg. rewrite NO. change (op_cse =? op_cse)%N with true. cbv iota.
    apply run_one; [intros XX; vm_compute in XX; discriminate|]. now apply st_cse.
Qed.

(** *** a list of nodes *)
Fixpoint emits (l : list node) (e : emit) : res emit := match l with [] => Ok e | n :: r => e' <- emit_node cap n e;; emits r e' end.
End Segs.

Section Tokens.
Context (m : metric) (env : list V).
Notation fstep := (fstep m env).
(** copied nodes and references *)
Inductive trun (T : nat -> V -> Prop) : list node -> list entry -> list entry -> Prop :=
| tr_nil s : trun T [] s s
| tr_copy n l s s' s'' : fstep n s s' -> trun T l s' s'' -> trun T (n :: l) s s''
| tr_ref n l v s s'' : no n = op_cse -> T (nex n) v -> trun T l (EV v :: s) s'' -> trun T (n :: l) s s''.
Lemma emits_ok (Q : node -> Prop) (T : nat -> V -> Prop) g t cap : (forall c x q x', Q (mknode op_se c x q) -> Q (mknode op_se c x' q)) ->
  (forall n q, poly (no n) = true -> Q n -> Q (mknode (no n) (ncs n) (nex n) q)) -> (N.of_nat cap < 2 ^ 64)%N -> (forall k v, T k v -> nth_error t (g k) = Some v) ->
  forall l s s', trun T l s s' -> Forall Q l -> forall pre below e segs e', seginv pre below e segs -> Forall (okseg m env g t Q) segs -> map fst segs = s -> emits cap l e = Ok e' ->
  exists segs', seginv pre below e' segs' /\ Forall (okseg m env g t Q) segs' /\ map fst segs' = s'.
Proof.
  intros Q1 Q2 CAP HT. induction 1; intros QL pre below e segs e' SI F M E; cbn [emits] in E.
  - injection E as <-. eauto.
  - inversion QL; subst. minv E. destruct (emit_copy m env g t Q Q1 Q2 cap CAP pre below e segs n v s') as (segs1 & A & B & C); auto. eapply IHtrun; eauto.
  - inversion QL; subst. minv E. destruct (emit_ref m env g t Q cap pre below e segs n v0 v) as (segs1 & A & B & C); auto. eapply IHtrun; eauto.
Qed.
End Tokens.
