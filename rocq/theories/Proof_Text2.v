(** The text without checksums determines the value of a program: a machine that reads only what is
    shown. An exterior product takes the factors on top of the stack, which are marked by their scale
    zero. *)
From Coq Require Import ZArith NArith List Bool Arith Reals Lia.
From Verif Require Import Base Model_Numeric Model_Blade Model_Expr Spec_Numeric Spec_Clifford Spec_MV Spec_Basis Spec_Expr Spec_Engine Spec_Text Proof_Expr.
Import ListNotations.
Local Open Scope nat_scope.

Section Read.
Variable m : metric.
Variable look : N -> option V.
Definition entry : Type := bool * V.
Fixpoint factors (s : list entry) : list V * list entry :=
  match s with
  | (true, v) :: s' => let '(l, r) := factors s' in (v :: l, r)
  | _ => ([], s)
  end.
Definition mark (q : rat) : bool := (num q =? 0)%Z.
Definition act (n : node) (s : list entry) : option (list entry) :=
  if (no n =? op_id)%N then match look (ncs n) with Some v => Some ((false, v) :: s) | None => None end
  else if (no n =? op_rev)%N then match s with (_, v) :: s' => Some ((false, vrev v) :: s') | _ => None end
  else if (no n =? op_pd)%N then match s with (_, v) :: s' => Some ((false, vdual (dim m) v) :: s') | _ => None end
  else if (no n =? op_sum)%N then Some ((false, vsum (rev (map snd (firstn (nex n) s)))) :: skipn (nex n) s)
  else if (no n =? op_ep)%N then let '(l, r) := factors s in Some ((false, vwedge m (rev l)) :: r)
  else if (no n =? op_comp)%N then match s with (_, v) :: s' => Some ((false, vcomp (N.of_nat (nex n)) v) :: s') | _ => None end
  else if (no n =? op_grd)%N then match s with (_, v) :: s' => Some ((false, vgrade (N.of_nat (nex n)) v) :: s') | _ => None end
  else if (no n =? op_div)%N then match s with (_, w) :: (_, v) :: s' => Some ((false, vscale (rv (nq n) / w 0%N) v) :: s') | _ => None end
  else if (no n =? c_pi)%N then Some ((false, vscalar PI) :: s)
  else if (c_scalar <=? no n)%N then Some ((false, delta (no n - c_scalar)) :: s)
  else match binop (no n) with
  | Some k => match s with (_, w) :: (_, v) :: s' => Some ((false, vprod m k v w) :: s') | _ => None end
  | None => match fn (no n) with
    | Some f => match s with (_, v) :: s' => Some ((false, vscalar (f (rv (nq n) * v 0%N)%R)) :: s') | _ => None end
    | None => None end
  end.
Inductive reads : list node -> list entry -> list entry -> Prop :=
| rd_nil s : reads [] s s
| rd_act n l s s' s'' : no n <> op_se -> act n s = Some s' -> reads l s' s'' -> reads (n :: l) s s''
| rd_se n b l s k v s'' : no n = op_se -> nex n = length b -> reads b [] [(k, v)] -> reads l ((mark (nq n), se_scale (nq n) v) :: s) s'' -> reads (n :: b ++ l) s s''.
Lemma alike_part a b p : alike false a b -> In p (parts false (no a)) -> same_part a b p.
Proof. intros [_ F] I. rewrite Forall_forall in F. auto. Qed.
Lemma act_alike a b s : alike false a b -> act a s = act b s.
Proof.
  intros A. pose proof A as [O _]. unfold act. rewrite <- O.
  destruct (N.eqb_spec (no a) op_id) as [E|_]; [assert (ncs a = ncs b) as -> by (apply (alike_part a b Checksum A); rewrite E; cbn; auto); reflexivity|].
  destruct (no a =? op_rev)%N; [reflexivity|]. destruct (no a =? op_pd)%N; [reflexivity|].
  destruct (N.eqb_spec (no a) op_sum) as [E|_]; [assert (nex a = nex b) as -> by (apply (alike_part a b Number A); rewrite E; cbn; auto); reflexivity|].
  destruct (no a =? op_ep)%N; [reflexivity|].
  destruct (N.eqb_spec (no a) op_comp) as [E|_]; [assert (nex a = nex b) as -> by (apply (alike_part a b Number A); rewrite E; cbn; auto); reflexivity|].
  destruct (N.eqb_spec (no a) op_grd) as [E|_]; [assert (nex a = nex b) as -> by (apply (alike_part a b Number A); rewrite E; cbn; auto); reflexivity|].
  destruct (N.eqb_spec (no a) op_div) as [E|_]; [assert (nq a = nq b) as -> by (apply (alike_part a b Scale A); rewrite E; cbn; auto); reflexivity|].
  destruct (no a =? c_pi)%N; [reflexivity|]. destruct (c_scalar <=? no a)%N; [reflexivity|]. destruct (binop (no a)); [reflexivity|].
  destruct (fn (no a)) eqn:F; [|reflexivity]. assert (nq a = nq b) as ->; [|reflexivity]. apply (alike_part a b Scale A). unfold fn in F.
  destruct (N.eqb_spec (no a) op_sqrt) as [E|_]; [rewrite E; cbn; auto|]. destruct (N.eqb_spec (no a) op_sin) as [E|_]; [rewrite E; cbn; auto|].
  destruct (N.eqb_spec (no a) op_cos) as [E|_]; [rewrite E; cbn; auto|]. destruct (N.eqb_spec (no a) op_tan) as [E|_]; [rewrite E; cbn; auto|]. discriminate.
Qed.
Lemma Forall2_app_l {A B} (P : A -> B -> Prop) a : forall b l, Forall2 P (a ++ b) l -> exists x y, l = x ++ y /\ length x = length a /\ Forall2 P a x /\ Forall2 P b y.
Proof.
  induction a as [|c a IH]; intros b l H; [exists [], l; auto|]. inversion H as [|? d ? l' P1 H1]; subst. apply IH in H1 as (x & y & -> & L & X & Y).
  exists (d :: x), y. cbn [length]. repeat split; auto.
Qed.
Lemma reads_alike l s r : reads l s r -> forall l' r', Forall2 (alike false) l l' -> reads l' s r' -> r = r'.
Proof.
  induction 1 as [s|n l s s' s'' N A H IH|n b l s k v s'' N L Hb IHb Hl IHl]; intros l' r' F G.
  - inversion F; subst. now inversion G.
  - inversion F as [|? n' ? l2 Q F']; subst. pose proof Q as [O _]. inversion G; subst; [|congruence]. rewrite (act_alike _ _ _ Q) in A. assert (s'0 = s') as -> by congruence. eauto.
  - inversion F as [|? n' ? l2 Q F']; subst. pose proof Q as [O _]. apply Forall2_app_l in F' as (x & y & -> & Lx & Fx & Fy). inversion G; subst; [congruence|].
    assert (E1 : nex n = nex n') by (apply (alike_part n n' Number Q); rewrite N; cbn; auto). assert (E2 : nq n = nq n') by (apply (alike_part n n' Scale Q); rewrite N; cbn; auto).
    match goal with H : ?b1 ++ ?l1 = x ++ y |- _ => apply app_len_inj in H as [-> ->]; [|congruence] end.
    match goal with H : reads x [] [_] |- _ => apply (IHb _ _ Fx) in H; injection H as <- <- end. rewrite <- E2 in *. eauto.
Qed.
(** ** well formed programs are read with their value *)
Variable env : list V.
Definition known (l : list node) : Prop := forall n v, In n l -> no n = op_id -> nth_error env (nex n) = Some v -> look (ncs n) = Some v.
Definition clear_top (s : list entry) : Prop := match s with (true, _) :: _ => False | _ => True end.
Lemma known_app a b : known (a ++ b) -> known a /\ known b.
Proof. intros K. split; intros n v I; apply K; apply in_or_app; auto. Qed.
Lemma rd_act1 n k s s' st : no n <> op_se -> act n s = Some s' -> reads k s' st -> reads ([n] ++ k) s st.
Proof. intros. cbn [app]. econstructor; eauto. Qed.
Definition readable (l : list node) (v : V) : Prop := known l -> forall s k st, clear_top s -> reads k ((false, v) :: s) st -> reads (l ++ k) s st.
Lemma act_blade o cs ex q s : (c_scalar <= o)%N -> act (mknode o cs ex q) s = Some ((false, delta (o - c_scalar)) :: s).
Proof.
  intros H. unfold act, c_scalar, op_id, op_rev, op_pd, op_sum, op_ep, op_comp, op_grd, op_div, c_pi in *. cbn [no].
  repeat match goal with |- context [(o =? ?n)%N] => rewrite (proj2 (N.eqb_neq o n)) by lia end. rewrite (proj2 (N.leb_le _ _) H). reflexivity.
Qed.
Lemma act_bin o k cs ex q s v w a b : binop o = Some k -> act (mknode o cs ex q) ((a, w) :: (b, v) :: s) = Some ((false, vprod m k v w) :: s).
Proof.
  intros H. unfold act. cbn [no]. pose proof H as H'. unfold binop in H'.
  destruct (N.eqb_spec o op_gp) as [->|_]; [cbn -[vprod]; cbn in H; now injection H as <-|]. destruct (N.eqb_spec o op_lc) as [->|_]; [cbn -[vprod]; cbn in H; now injection H as <-|].
  destruct (N.eqb_spec o op_sip) as [->|_]; [cbn -[vprod]; cbn in H; now injection H as <-|]. discriminate.
Qed.
Lemma act_fn o f cs ex q s v a : fn o = Some f -> act (mknode o cs ex q) ((a, v) :: s) = Some ((false, vscalar (f (rv q * v 0%N)%R)) :: s).
Proof.
  intros H. unfold act. cbn [no]. pose proof H as H'. unfold fn in H'.
  destruct (N.eqb_spec o op_sqrt) as [->|_]; [cbn in H; now injection H as <-|]. destruct (N.eqb_spec o op_sin) as [->|_]; [cbn in H; now injection H as <-|].
  destruct (N.eqb_spec o op_cos) as [->|_]; [cbn in H; now injection H as <-|]. destruct (N.eqb_spec o op_tan) as [->|_]; [cbn in H; now injection H as <-|]. discriminate.
Qed.
Lemma factors_app l s : clear_top s -> factors (map (pair true) l ++ s) = (l, s).
Proof. intros T. induction l as [|v l IH]; cbn [map app factors]; [destruct s as [|[[] ?] ?]; now destruct T|]. now rewrite IH. Qed.
Lemma nden_readable l v : nden m env l v -> readable l v.
Proof.
  intros H.
  apply (nden_mind m env readable (fun k L => known (flat_map render L) -> forall s t st, reads t (map (pair (negb k)) (rev (map item_val L)) ++ s) st -> reads (flat_map render L ++ t) s st))
    with (l := l) (v := v); try exact H; clear l v H; unfold readable.
  - intros cs ex q v E K s k st T R. eapply rd_act1; [discriminate| |exact R]. pose proof (K (mknode op_id cs ex q) v (or_introl eq_refl) eq_refl E) as K'. unfold act. cbn [no ncs] in *. cbn [N.eqb op_id]. now rewrite K'.
  - intros cs ex q K s k st T R. eapply rd_act1; [discriminate| |exact R]. reflexivity.
  - intros o cs ex q E K s k st T R. eapply rd_act1; [cbn; unfold c_scalar, op_se in *; lia| |exact R]. now apply act_blade.
  - intros l v cs ex q E IH K s k st T R. apply known_app in K as [K _]. rewrite <- app_assoc. apply IH; auto. eapply rd_act1; [discriminate| |exact R]. reflexivity.
  - intros l v cs ex q E IH K s k st T R. apply known_app in K as [K _]. rewrite <- app_assoc. apply IH; auto. eapply rd_act1; [discriminate| |exact R]. reflexivity.
  - intros o kk l r v w cs ex q B E1 IH1 E2 IH2 K s k st T R. apply known_app in K as [K1 K]. apply known_app in K as [K2 _]. rewrite <- !app_assoc. apply IH1; auto. apply IH2; [assumption|exact I|].
    eapply rd_act1; [cbn; intros ->; discriminate| |exact R]. now apply act_bin.
  - intros l cs q E IH NE K s k st T R. apply known_app in K as [K _]. rewrite <- app_assoc. apply IH; auto. eapply rd_act1; [discriminate| |exact R]. unfold act. cbn [no nex]. cbn [N.eqb op_id op_rev op_pd op_sum Pos.eqb].
    cbn [negb]. assert (L : length (map (pair false) (rev (map item_val l))) = length l) by now rewrite map_length, rev_length, map_length.
    rewrite <- L, firstn_app, skipn_app, firstn_all, skipn_all, Nat.sub_diag. cbn [firstn skipn app]. rewrite app_nil_r, map_map. cbn [snd]. rewrite map_id, rev_involutive. reflexivity.
  - intros l cs q E IH NE K s k st T R. apply known_app in K as [K _]. rewrite <- app_assoc. apply IH; auto. eapply rd_act1; [discriminate| |exact R]. unfold act. cbn [no nex]. cbn [N.eqb op_id op_rev op_pd op_sum op_ep Pos.eqb].
    cbn [negb]. rewrite factors_app by assumption. now rewrite rev_involutive.
  - intros l v cs ex q E IH K s k st T R. apply known_app in K as [K _]. rewrite <- app_assoc. apply IH; auto. eapply rd_act1; [discriminate| |exact R]. reflexivity.
  - intros l v cs ex q E IH K s k st T R. apply known_app in K as [K _]. rewrite <- app_assoc. apply IH; auto. eapply rd_act1; [discriminate| |exact R]. reflexivity.
  - intros l r v w cs ex q E1 IH1 E2 IH2 S Z K s k st T R. apply known_app in K as [K1 K]. apply known_app in K as [K2 _]. rewrite <- !app_assoc. apply IH1; auto. apply IH2; [assumption|exact I|].
    eapply rd_act1; [discriminate| |exact R]. reflexivity.
  - intros o f l v cs ex q F E IH S K s k st T R. apply known_app in K as [K _]. rewrite <- app_assoc. apply IH; auto. eapply rd_act1; [cbn; intros ->; discriminate| |exact R]. now apply act_fn.
  - intros. assumption.
  - intros k i L Hb IHb Hq HL IHL K s t st R. cbn [flat_map] in *. apply known_app in K as [K1 K2]. rewrite <- app_assoc. unfold render at 1. cbn [app].
    apply rd_se with (k := false) (v := i_val i); [reflexivity|reflexivity| |].
    + rewrite <- (app_nil_r (i_body i)). apply IHb; [|exact I|constructor]. intros n v In_. apply K1. now right.
    + apply IHL; [exact K2|]. cbn [nq]. cbn [map rev] in R. rewrite map_app, <- app_assoc in R. cbn [map app] in R. replace (mark (i_q i)) with (negb k); [exact R|].
      unfold mark, q_for in *. destruct k; [destruct Hq as [Hq _]; symmetry; now apply Z.eqb_neq|now rewrite Hq].
Qed.
End Read.
(** the table of ids of two programs *)
Definition look_in (env : list V) (l : list node) (cs : N) : option V :=
  match find (fun n => (no n =? op_id)%N && (ncs n =? cs)%N) l with Some n => nth_error env (nex n) | None => None end.
Lemma look_known env l k : ids_name_inputs k -> incl l k -> known (look_in env k) env l.
Proof.
  intros N S n v I O E. unfold look_in. destruct (find _ k) as [n'|] eqn:F.
  - apply find_some in F as [I' F]. apply andb_true_iff in F as [F1 F2]. apply N.eqb_eq in F1, F2. rewrite (N n' n I' (S _ I) F1 O F2). exact E.
  - exfalso. pose proof (find_none _ _ F n (S _ I)) as H. cbn in H. rewrite O, !N.eqb_refl in H. discriminate.
Qed.
Theorem alike_value m env l r v w : ids_name_inputs (l ++ r) -> Forall2 (alike false) l r -> nden m env l v -> nden m env r w -> v = w.
Proof.
  intros N F L R. pose proof (look_known env l (l ++ r) N (incl_appl _ (incl_refl _))) as KL. pose proof (look_known env r (l ++ r) N (incl_appr _ (incl_refl _))) as KR.
  pose proof (nden_readable m _ env l v L KL [] [] _ I (rd_nil m _ _)) as A. pose proof (nden_readable m _ env r w R KR [] [] _ I (rd_nil m _ _)) as B. rewrite app_nil_r in A, B.
  pose proof (reads_alike m _ _ _ _ A _ _ F B) as E. congruence.
Qed.
(** ** the inputs of a program *)
Lemma nden_ids m env l v : nden m env l v -> Forall (fun n => no n = op_id -> nex n < length env) l.
Proof.
  intros H. apply (nden_mind m env (fun l _ => Forall (fun n => no n = op_id -> nex n < length env) l) (fun _ L => Forall (fun n => no n = op_id -> nex n < length env) (flat_map render L)))
    with (l := l) (v := v); try exact H; clear l v H; intros.
  all: repeat (apply Forall_app; split); auto.
  all: try (constructor; [|constructor]); cbn [no nex]; try discriminate.
  - intros _. apply nth_error_Some. congruence.
  - intros ->. unfold c_scalar, op_id in *. lia.
  - intros ->. discriminate.
  - intros ->. discriminate.
  - constructor.
  - constructor; [discriminate|]. first [assumption|apply Forall_app; now split].
Qed.
Lemma offset_lt inputs i j : Forall (fun d : list R => d <> []) inputs -> i < j -> i < length inputs -> offset inputs i < offset inputs j.
Proof.
  unfold offset. revert i j. induction inputs as [|d r IH]; intros i j F H L; [cbn in L; lia|]. inversion F; subst. destruct j as [|j]; [lia|]. destruct i as [|i]; cbn [firstn map list_sum fold_right].
  - destruct d; [congruence|]. cbn [length]. change (fold_right Nat.add 0) with list_sum. lia.
  - change (fold_right Nat.add 0) with list_sum. cbn [length] in L. specialize (IH i j ltac:(assumption) ltac:(lia) ltac:(lia)). lia.
Qed.
Lemma offset_inj inputs i j : Forall (fun d : list R => d <> []) inputs -> i < length inputs -> j < length inputs -> offset inputs i = offset inputs j -> i = j.
Proof. intros F I J E. destruct (Nat.lt_trichotomy i j) as [H|[H|H]]; [|exact H|]; apply (offset_lt inputs) in H; auto; lia. Qed.
