(** The operators stay within their node arrays; runs without rounding are runs of the code. *)
From Coq Require Import ZArith NArith List Bool Lia ZifyBool ZifyN ZifyNat Reals.
From Verif Require Import Base Model_Numeric Model_Blade Model_Crc Model_Expr Spec_Numeric Spec_MV Spec_Expr Spec_Build Proof_Safe Proof_Expr2 Proof_Expr3.
Import ListNotations.
Local Open Scope nat_scope.

Lemma safe_rmul_assign a b : memory_safe (rmul_assign a b). Proof. unfold rmul_assign. sf. Qed.
#[global] Hint Resolve safe_rmul_assign : safe.
Definition flat (L : list (node * list node)) : list node := flat_map (fun p => fst p :: snd p) L.
Definition plain (o : N) : Prop := o <> op_sum /\ o <> op_ep.
Inductive wf : list node -> Prop :=
| wf_leaf n : plain (no n) -> no n <> op_rev -> wf [n]
| wf_post l n : wf l -> plain (no n) -> wf (l ++ [n])
| wf_bin l r n : wf l -> wf r -> plain (no n) -> no n <> op_rev -> wf (l ++ r ++ [n])
| wf_list L n : Forall (fun p => nex (fst p) = length (snd p) /\ wf (snd p)) L -> (no n = op_sum \/ no n = op_ep) -> wf (flat L ++ [n]).
Definition items (L : list (node * list node)) : Prop := Forall (fun p => nex (fst p) = length (snd p) /\ wf (snd p)) L.
Lemma wf_nonempty l : wf l -> l <> [].
Proof. intros H E. destruct H; try discriminate; repeat (apply app_eq_nil in E as [? E]); discriminate. Qed.
Lemma wf_list_inv l n : wf l -> back l = Ok n -> no n = op_sum \/ no n = op_ep -> exists L, items L /\ l = flat L ++ [n].
Proof.
  intros H B O. destruct H as [k P _|l k _ P|l r k _ _ P _|L k I _].
  - injection B as <-. destruct P, O; contradiction.
  - rewrite back_app in B. injection B as <-. destruct P, O; contradiction.
  - rewrite back_app2 in B. injection B as <-. destruct P, O; contradiction.
  - rewrite back_app in B. injection B as <-. exists L. auto.
Qed.
Lemma wf_rev_inv l n : wf l -> back l = Ok n -> no n = op_rev -> wf (removelast l).
Proof.
  intros H B O. destruct H as [k P R|l k W P|l r k _ _ P R|L k I S].
  - injection B as <-. contradiction.
  - now rewrite removelast_snoc.
  - rewrite back_app2 in B. injection B as <-. contradiction.
  - rewrite back_app in B. injection B as <-. rewrite O in S. destruct S; discriminate.
Qed.
Lemma wf_back l : wf l -> exists n, back l = Ok n.
Proof. intros H. pose proof (wf_nonempty _ H). destruct l; [congruence|]. eexists. reflexivity. Qed.
Lemma flat_app a b : flat (a ++ b) = flat a ++ flat b. Proof. apply flat_map_app. Qed.
Lemma flat_cons p L : flat (p :: L) = fst p :: snd p ++ flat L. Proof. reflexivity. Qed.
Lemma items_app a b : items a -> items b -> items (a ++ b). Proof. intros. apply Forall_app. auto. Qed.
Definition good {A} (P : A -> Prop) (r : res A) : Prop := memory_safe r /\ forall e, r = Ok e -> P e.
Lemma good_ok {A} (P : A -> Prop) x : P x -> good P (Ok x).
Proof. intros H. split; [apply safe_ok|]. intros e E. now injection E as <-. Qed.
Lemma good_bind {A B} (P : A -> Prop) (Q : B -> Prop) r f : good P r -> (forall a, r = Ok a -> P a -> good Q (f a)) -> good Q (bind r f).
Proof.
  intros [S H] F. split.
  - apply safe_bind; [assumption|]. intros a E. apply F; auto.
  - intros e E. destruct r as [a|]; cbn [bind] in E; [|discriminate]. exact (proj2 (F a eq_refl (H a eq_refl)) e E).
Qed.
Lemma good_any {A} (r : res A) : memory_safe r -> good (fun _ => True) r. Proof. intros; split; auto. Qed.
Lemma good_imp {A} (P Q : A -> Prop) r : good P r -> (forall a, P a -> Q a) -> good Q r.
Proof. intros [S H] F. split; [assumption|]. auto. Qed.
Lemma good_back l : wf l -> good (fun n => back l = Ok n) (back l).
Proof. intros W. destruct (wf_back _ W) as [n E]. rewrite E. now apply good_ok. Qed.
Definition fits (e : rpne) : Prop := length (rnodes e) <= rcap e /\ (rnodes e = [] \/ wf (rnodes e)).
Lemma good_rpne_of cap l q : length l <= cap -> l = [] \/ wf l -> good (fun e => fits e /\ rnodes e = l /\ rcap e = cap) (rpne_of cap l q).
Proof. intros L W. unfold rpne_of. replace (length l <=? cap) with true by lia. apply good_ok. now repeat split. Qed.
Lemma good_rpne cap l q : length l <= cap -> l = [] \/ wf l -> good fits (rpne_of cap l q).
Proof. intros. eapply good_imp; [now apply good_rpne_of|]. now intros a []. Qed.

(** ** merging sums *)
Definition merged (bound : nat) (p : list node * nat) : Prop := exists L, items L /\ fst p = flat L /\ snd p = length L /\ length (fst p) <= bound.
Lemma flat_len_app a b : length (flat (a ++ b)) = length (flat a) + length (flat b). Proof. rewrite flat_app, app_length. reflexivity. Qed.
Lemma good_scale_node n q : good (fun n' => no n' = no n /\ nex n' = nex n) (scale_node n q).
Proof. unfold scale_node. apply (good_bind (fun _ => True)); [apply good_any; auto with safe|]. intros a _ _. now apply good_ok. Qed.
Lemma take_flat L n l : items L -> flat L = n :: l -> exists L', L = (n, firstn (nex n) l) :: L' /\ items L' /\ take (nex n) l = Ok (firstn (nex n) l, flat L') /\ wf (firstn (nex n) l) /\ nex n = length (firstn (nex n) l).
Proof.
  intros I E. destruct L as [|[s c] L]; [discriminate|]. rewrite flat_cons in E. cbn [fst snd] in E. injection E as -> <-.
  inversion I as [|? ? [N W] I']; subst. cbn [fst snd] in *. exists L.
  rewrite N, firstn_app, firstn_all, Nat.sub_diag, app_nil_r, take_body. auto 10.
Qed.
Section Mode.
Variable md : mode.
Lemma good_copy q : forall fuel L O k b, items L -> items O -> k = length O -> length (flat L) < fuel -> length (flat O) + length (flat L) <= b ->
  good (merged b) (copy_rest fuel q (flat L) (flat O) k).
Proof.
  induction fuel as [|f IH]; intros L O k b IL IO K F B; [lia|]. cbn [copy_rest]. destruct (flat L) as [|s l] eqn:E.
  - apply good_ok. exists O. cbn [fst snd length] in *. split; [assumption|]. split; [reflexivity|]. split; [assumption|lia].
  - destruct (take_flat L s l IL E) as (L' & -> & IL' & T & W & N). rewrite flat_cons in E. cbn [fst snd] in E. injection E as E.
    apply (good_bind _ _ _ _ (good_scale_node s q)). intros s' _ [_ Ns]. rewrite T. cbn [bind].
    set (bd := firstn (nex s) l) in *. cbn [length] in *. assert (Ll : length l = length bd + length (flat L')) by (rewrite <- E, app_length; reflexivity).
    replace (flat O ++ s' :: bd) with (flat (O ++ [(s', bd)])) by (rewrite flat_app; unfold flat at 2; cbn; now rewrite app_nil_r).
    apply IH; auto.
    + apply items_app; [assumption|]. constructor; [|constructor]. cbn [fst snd]. split; [congruence|assumption].
    + rewrite app_length. cbn [length]. lia.
    + lia.
    + rewrite flat_len_app. unfold flat at 2. cbn [flat_map fst snd app length]. rewrite app_nil_r. lia.
Qed.
Lemma snoc_flat O s b : flat O ++ s :: b = flat (O ++ [(s, b)]).
Proof. rewrite flat_app. unfold flat at 3. cbn. now rewrite app_nil_r. Qed.
Lemma snoc_len O s b : length (flat (O ++ [(s, b)])) = length (flat O) + S (length b).
Proof. rewrite <- snoc_flat, app_length. reflexivity. Qed.
Lemma snoc_items O s b : items O -> nex s = length b -> wf b -> items (O ++ [(s, b)]).
Proof. intros. apply items_app; [assumption|]. constructor; [now split|constructor]. Qed.
Lemma good_merge ql qr : forall fuel L R O k b, items L -> items R -> items O -> k = length O -> length (flat L) + length (flat R) + 2 <= fuel ->
  length (flat O) + length (flat L) + length (flat R) <= b -> good (merged b) (merge_sums md fuel ql qr (flat L) (flat R) (flat O) k).
Proof.
  induction fuel as [|f IH]; intros L R O k b IL IR IO K F B; [lia|]. cbn [merge_sums].
  destruct (flat L) as [|s l] eqn:EL; [apply good_copy; auto; lia|].
  destruct (flat R) as [|t r] eqn:ER; [rewrite <- EL; apply good_copy; auto; rewrite EL; cbn [length] in *; lia|].
  destruct (take_flat L s l IL EL) as (L' & HL & IL' & T & W & N). destruct (take_flat R t r IR ER) as (R' & HR & IR' & T' & W' & N').
  rewrite T, T'. cbn [bind]. set (bl := firstn (nex s) l) in *. set (br := firstn (nex t) r) in *. 
  assert (Ll : length l = length bl + length (flat L')) by (rewrite HL, flat_cons in EL; cbn [fst snd] in EL; injection EL as EL; rewrite <- EL, app_length; reflexivity).
  assert (Lr : length r = length br + length (flat R')) by (rewrite HR, flat_cons in ER; cbn [fst snd] in ER; injection ER as ER; rewrite <- ER, app_length; reflexivity).
  cbn [length] in *. clearbody bl br.
  destruct (_ && _ && _).
  - do 3 (eapply good_bind; [apply good_any; auto with safe|intros ? _ _]).
    match goal with |- good _ (if is_zero ?q then _ else _) => destruct (is_zero q) end; [apply IH; auto; lia|].
    rewrite snoc_flat. apply IH; auto; [now apply snoc_items|rewrite app_length; cbn [length]; lia|lia|rewrite snoc_len; lia].
  - destruct (_ <? _)%N.
    + apply (good_bind _ _ _ _ (good_scale_node s ql)). intros s' _ [_ Ns]. rewrite snoc_flat, <- ER.
      apply IH; auto; [apply snoc_items; auto; congruence|rewrite app_length; cbn [length]; lia|rewrite ER; cbn [length]; lia|rewrite snoc_len, ER; cbn [length]; lia].
    + apply (good_bind _ _ _ _ (good_scale_node t qr)). intros t' _ [_ Ns]. rewrite snoc_flat, <- EL.
      apply IH; auto; [apply snoc_items; auto; congruence|rewrite app_length; cbn [length]; lia|rewrite EL; cbn [length]; lia|rewrite snoc_len, EL; cbn [length]; lia].
Qed.
Lemma good_merge_one sq_ nsq fin ns : wf ns -> forall fuel (written : bool) L O k b, items L -> items O -> k = length O ->
  length (flat L) + (if written then 0 else 1) < fuel ->
  length (flat O) + length (flat L) + (if written then 0 else S (length ns)) <= b ->
  good (merged b) (merge_one md fuel sq_ nsq fin ns written (flat L) (flat O) k).
Proof.
  intros Wn. induction fuel as [|f IH]; intros written L O k b IL IO K F B; [lia|]. cbn [merge_one].
  assert (SI : forall q, items (O ++ [(mknode op_se (ncs fin) (length ns) q, ns)])) by (intros; apply snoc_items; auto).
  destruct (flat L) as [|s l] eqn:E.
  - cbn [length] in *. destruct written; apply good_ok.
    + exists O. cbn [fst snd]. split; [assumption|]. split; [reflexivity|]. split; [assumption|lia].
    + rewrite snoc_flat. eexists. cbn [fst snd]. split; [apply SI|]. split; [reflexivity|]. rewrite app_length, snoc_len. cbn [length]. lia.
  - destruct (take_flat L s l IL E) as (L' & HL & IL' & T & W & N). rewrite T. cbn [bind]. set (bd := firstn (nex s) l) in *.
    assert (Ll : length l = length bd + length (flat L')) by (rewrite HL, flat_cons in E; cbn [fst snd] in E; injection E as E; rewrite <- E, app_length; reflexivity).
    cbn [length] in *. clearbody bd. destruct (negb written && _ && _ && _) eqn:C.
    + destruct written; [discriminate|]. do 2 (eapply good_bind; [apply good_any; auto with safe|intros ? _ _]).
      match goal with |- good _ (if is_zero ?q then _ else _) => destruct (is_zero q) end; [apply IH; auto; lia|].
      rewrite snoc_flat. apply IH; auto; [rewrite app_length; cbn [length]; lia|lia|rewrite snoc_len; lia].
    + destruct (negb written && (ncs fin <? ncs s)%N) eqn:C'.
      * destruct written; [discriminate|]. rewrite snoc_flat, <- E. apply IH; auto; [rewrite app_length; cbn [length]; lia|rewrite E; cbn [length]; lia|rewrite snoc_len, E; cbn [length]; lia].
      * apply (good_bind _ _ _ _ (good_scale_node s sq_)). intros s' _ [_ Ns]. rewrite snoc_flat.
        apply IH; auto; [apply snoc_items; auto; congruence|rewrite app_length; cbn [length]; lia|destruct written; lia|rewrite snoc_len; destruct written; lia].
Qed.
Lemma good_finish cap b p : merged b p -> S b <= cap -> good fits (finish_sum cap p).
Proof.
  intros (L & IL & E & K & B) C. destruct p as [out k]. cbn [fst snd] in *. subst out k. unfold finish_sum.
  destruct (length L =? 1) eqn:E.
  - destruct L as [|[s bd] [|? ?]]; try discriminate. inversion IL as [|? ? [N W] _]; subst. cbn [fst snd] in *.
    rewrite flat_cons in *. cbn [fst snd length] in *. change (flat []) with (@nil node) in *. rewrite app_nil_r in *.
    unfold rpne_of at 1. cbn [length]. replace (S (length bd) <=? cap) with true by lia. cbn [bind]. apply good_rpne; [lia|now right].
  - apply good_rpne; [rewrite app_length; cbn [length]; lia|]. right. apply wf_list; [assumption|now left].
Qed.
Lemma back_len l n : back l = Ok n -> length (removelast l) = length l - 1.
Proof. intros H. apply back_ok in H as [l' ->]. rewrite removelast_snoc, app_length. cbn. lia. Qed.
Lemma back_inv l n : back l = Ok n -> l <> []. Proof. intros H E. now rewrite E in H. Qed.
Theorem good_add l r : fits l -> fits r -> good fits (e_add md l r).
Proof.
  intros [Cl Wl] [Cr Wr]. unfold e_add.
  destruct (rnodes l) as [|l0 ln] eqn:El; [apply good_rpne; [cbn [length] in *; lia|assumption]|].
  destruct (rnodes r) as [|r0 rn] eqn:Er; [apply good_rpne; [lia|assumption]|].
  destruct Wl as [|Wl]; [discriminate|]. destruct Wr as [|Wr]; [discriminate|].
  set (nl := l0 :: ln) in *. set (nr := r0 :: rn) in *. clearbody nl nr. clear El Er.
  apply (good_bind _ _ _ _ (good_back _ Wl)). intros lf _ Bl. apply (good_bind _ _ _ _ (good_back _ Wr)). intros rf _ Br.
  assert (length nl <> 0) by (destruct nl; [discriminate Bl|discriminate]). assert (length nr <> 0) by (destruct nr; [discriminate Br|discriminate]).
  destruct (N.eqb_spec (no lf) op_sum) as [Sl|Sl]; destruct (N.eqb_spec (no rf) op_sum) as [Sr|Sr]; cbn [andb].
  - destruct (wf_list_inv _ _ Wl Bl (or_introl Sl)) as (L & IL & EL). destruct (wf_list_inv _ _ Wr Br (or_introl Sr)) as (R & IR & ER).
    rewrite EL, ER, !removelast_snoc. rewrite EL, ER, app_length in *. rewrite app_length in *. cbn [length] in *.
    eapply good_bind; [apply (good_merge (rq l) (rq r) _ L R [] 0 (length (flat L) + length (flat R))); auto; [constructor|lia]|].
    intros p _ M. apply (good_finish _ _ _ M). lia.
  - destruct (wf_list_inv _ _ Wl Bl (or_introl Sl)) as (L & IL & EL).
    rewrite EL, removelast_snoc. rewrite EL, app_length in *. cbn [length] in *.
    eapply good_bind; [apply (good_merge_one (rq l) (rq r) rf nr Wr _ false L [] 0 (length (flat L) + S (length nr))); auto; [constructor|lia]|].
    intros p _ M. apply (good_finish _ _ _ M). lia.
  - destruct (wf_list_inv _ _ Wr Br (or_introl Sr)) as (L & IL & EL).
    rewrite EL, removelast_snoc. rewrite EL, app_length in *. cbn [length] in *.
    eapply good_bind; [apply (good_merge_one (rq r) (rq l) lf nl Wl _ false L [] 0 (length (flat L) + S (length nl))); auto; [constructor|lia]|].
    intros p _ M. apply (good_finish _ _ _ M). lia.
  - destruct (_ && _ && _).
    + eapply good_bind; [apply good_any; auto with safe|intros q _ _]. destruct (is_zero q); [apply good_ok; split; [cbn; lia|now left]|apply good_rpne; [lia|now right]].
    + apply (good_finish _ (length nl + length nr + 2)); [|lia]. unfold merged.
      destruct (_ <? _)%N.
      * exists [(mknode op_se (ncs lf) (length nl) (rq l), nl); (mknode op_se (ncs rf) (length nr) (rq r), nr)].
        split; [repeat constructor; assumption|]. unfold flat. cbn [flat_map fst snd]. rewrite app_nil_r. split; [reflexivity|]. split; [reflexivity|].
        rewrite app_length. cbn [length]. lia.
      * exists [(mknode op_se (ncs rf) (length nr) (rq r), nr); (mknode op_se (ncs lf) (length nl) (rq l), nl)].
        split; [repeat constructor; assumption|]. unfold flat. cbn [flat_map fst snd]. rewrite app_nil_r. split; [reflexivity|]. split; [reflexivity|].
        rewrite app_length. cbn [length]. lia.
Qed.
End Mode.
(** ** the other operators *)
Lemma good_append o l : wf l -> plain o -> good (fun l' => wf l' /\ length l' = S (length l) /\ exists n, l' = l ++ [n] /\ no n = o) (append_op o l).
Proof.
  intros W P. unfold append_op. apply (good_bind _ _ _ _ (good_back _ W)). intros b _ _. apply good_ok.
  split; [apply wf_post; [assumption|exact P]|]. split; [rewrite app_length; cbn; lia|]. eauto.
Qed.
Lemma fits_wf x : fits x -> nonempty x -> wf (rnodes x).
Proof. intros [_ [E|W]] N; [exfalso; now apply N|assumption]. Qed.
Lemma plain_dec o : (negb (o =? op_sum) && negb (o =? op_ep))%N = true -> plain o.
Proof. intros H. split; lia. Qed.
Ltac pl := apply plain_dec; reflexivity.
Lemma rpne0_fits c : fits (rpne0 c). Proof. split; [cbn; lia|now left]. Qed.
Lemma good_rescale x q : fits x -> good fits (rescale x q).
Proof. intros F. unfold rescale. eapply good_bind; [apply good_any; auto with safe|intros q' _ _]. now apply good_ok. Qed.
Lemma good_scale n x : fits x -> good fits (e_scale n x).
Proof. intros F. unfold e_scale. destruct (_ || _); [apply good_ok; split; [cbn; lia|now left]|now apply good_rescale]. Qed.
Lemma good_neg x : fits x -> good fits (e_neg x).
Proof. intros F. unfold e_neg. destruct (0 <? _); [now apply good_rescale|now apply good_ok]. Qed.
Lemma good_divz x d : fits x -> good fits (e_divz x d).
Proof. intros F. unfold e_divz. destruct (0 <? _); [now apply good_rescale|now apply good_ok]. Qed.
Lemma const_fits n d : fits (e_const n d).
Proof. split; [cbn; lia|]. right. apply wf_leaf; [pl|discriminate]. Qed.
Lemma blade_fits e n : fits (e_blade e n).
Proof. split; [apply le_n|]. right. apply wf_leaf; [split; cbn [no]; unfold c_scalar, op_sum, op_ep; lia|cbn [no]; unfold c_scalar, op_rev; lia]. Qed.
Lemma conv_fits c : fits (rc_convert c).
Proof. split; [cbn; lia|]. right. apply wf_leaf; [pl|discriminate]. Qed.
Lemma input_fits c i : fits (e_input c i).
Proof. split; [cbn; lia|]. right. apply wf_leaf; [pl|discriminate]. Qed.
Lemma good_sub md l r : fits l -> fits r -> good fits (e_sub md l r).
Proof. intros L R. unfold e_sub. apply (good_bind _ _ _ _ (good_neg r R)). intros r' _ R'. now apply good_add. Qed.
Lemma good_addz md n x : fits x -> good fits (e_addz md n x).
Proof. intros. apply good_add; [apply const_fits|assumption]. Qed.
Lemma good_zsub md n x : fits x -> good fits (e_zsub md n x).
Proof. intros F. unfold e_zsub. apply (good_bind _ _ _ _ (good_neg x F)). intros. apply good_add; [apply const_fits|assumption]. Qed.
Lemma good_subz md x n : fits x -> good fits (e_subz md x n).
Proof. intros F. unfold e_subz. eapply good_bind; [apply good_any; auto with safe|intros n' _ _]. apply good_add; [apply const_fits|assumption]. Qed.
Lemma good_set_q q l : wf l -> length l <> 0 -> (exists l' n, l = l' ++ [n] /\ plain (no n) /\ wf (l' ++ [mknode (no n) (ncs n) (nex n) q])) -> wf (set_q q l) /\ length (set_q q l) = length l.
Proof. intros W N (l' & n & -> & P & W'). rewrite set_q_snoc. split; [exact W'|]. rewrite !app_length. reflexivity. Qed.
Lemma good_post o q cap l : wf l -> plain o -> S (length l) <= cap -> good fits (l' <- append_op o l;; rpne_of cap (set_q q l') one).
Proof.
  intros W P C. apply (good_bind _ _ _ _ (good_append o l W P)). intros l' _ (_ & L & n & -> & On).
  rewrite set_q_snoc. apply good_rpne; [rewrite app_length in *; cbn [length] in *; lia|]. right. apply wf_post; [assumption|cbn; now rewrite On].
Qed.
Lemma good_cat o q cap l r : wf l -> wf r -> plain o -> o <> op_rev -> S (length l + length r) <= cap -> good fits (l' <- append_op o (l ++ r);; rpne_of cap (set_q q l') one).
Proof.
  intros W W' P O C. unfold append_op. destruct (wf_back _ W') as [n B].
  assert (B' : back (l ++ r) = Ok n) by (apply back_ok in B as [r' ->]; apply back_app2). rewrite B'. cbn [bind].
  rewrite set_q_snoc. cbn [no ncs nex]. rewrite <- app_assoc. apply good_rpne; [rewrite !app_length in *; cbn [length] in *; lia|]. right. now apply wf_bin.
Qed.
Lemma good_zdiv n x : fits x -> good fits (e_zdiv n x).
Proof.
  intros [C [E|W]]; unfold e_zdiv.
  - rewrite E, app_nil_r. apply good_post; [apply wf_leaf; [pl|discriminate]|pl|cbn; lia].
  - apply good_cat; [apply wf_leaf; [pl|discriminate]|assumption|pl|discriminate|cbn; lia].
Qed.
Lemma good_div md x y : fits x -> fits y -> nonempty x \/ nonempty y -> good fits (e_div md x y).
Proof.
  intros [Cx Wx] [Cy Wy] N. unfold e_div.
  assert (G : forall q, good fits (l <- append_op op_div (rnodes x ++ rnodes y);; rpne_of (rcap x + rcap y + 1) (set_q q l) one)).
  { intros q. unfold nonempty in N. destruct Wx as [Ex|Wx], Wy as [Ey|Wy].
    - destruct N; congruence.
    - rewrite Ex. apply good_post; [assumption|pl|rewrite Ex in *; cbn [length app] in *; lia].
    - rewrite Ey, app_nil_r. apply good_post; [assumption|pl|lia].
    - apply good_cat; [assumption|assumption|pl|discriminate|lia]. }
  destruct (append_op _ _) as [l|e] eqn:E; cbn [bind] in *.
  - eapply good_bind; [apply good_any; auto with safe|intros q _ _]. apply G.
  - exact (G one).
Qed.
Lemma good_rev x : fits x -> good fits (e_rev x).
Proof.
  intros [C W]. unfold e_rev. destruct (rnodes x) as [|n0 l] eqn:E; [apply good_ok, rpne0_fits|]. destruct W as [|W]; [discriminate|].
  rewrite <- E in *. apply (good_bind _ _ _ _ (good_back _ W)). intros b _ B. destruct (N.eqb_spec (no b) op_rev) as [O|O].
  - apply good_rpne; [rewrite (back_len _ _ B); lia|]. right. exact (wf_rev_inv _ _ W B O).
  - apply (good_bind _ _ _ _ (good_append op_rev _ W ltac:(pl))). intros l' _ (W' & L & _). apply good_rpne; [lia|now right].
Qed.
Lemma good_dual x : fits x -> good fits (e_dual x).
Proof.
  intros [C W]. unfold e_dual. destruct (rnodes x) as [|n0 l] eqn:E; [apply good_ok, rpne0_fits|]. destruct W as [|W]; [discriminate|].
  rewrite <- E in *. apply (good_bind _ _ _ _ (good_append op_pd _ W ltac:(pl))). intros l' _ (W' & L & _). apply good_rpne; [lia|now right].
Qed.
Lemma fn_plain o : fn o <> None -> plain o.
Proof.
  intros H. unfold fn in H. split; intros ->; apply H; reflexivity.
Qed.
Lemma good_fn o x : fits x -> fn o <> None -> nonempty x -> good fits (e_fn o x).
Proof. intros F O N. unfold e_fn. apply good_post; [now apply fits_wf|now apply fn_plain|destruct F; lia]. Qed.
Lemma good_comp x e : fits x -> nonempty x -> good fits (e_comp x e).
Proof.
  intros F N. pose proof (fits_wf _ F N) as W. unfold e_comp. apply (good_bind _ _ _ _ (good_back _ W)). intros b _ _.
  apply good_rpne; [rewrite app_length; destruct F; cbn [length]; lia|]. right. apply wf_post; [assumption|pl].
Qed.
Lemma good_grade x e : fits x -> nonempty x -> good fits (e_grade x e).
Proof.
  intros F N. pose proof (fits_wf _ F N) as W. unfold e_grade. apply (good_bind _ _ _ _ (good_back _ W)). intros b _ _.
  apply good_rpne; [rewrite app_length; destruct F; cbn [length]; lia|]. right. apply wf_post; [assumption|pl].
Qed.
Lemma good_prod md o l r : plain o -> o <> op_rev -> fits l -> fits r -> good fits (e_prod md o l r).
Proof.
  intros P O [Cl Wl] [Cr Wr]. unfold e_prod.
  destruct (rnodes l) as [|l0 ln] eqn:El; [apply good_rpne; [cbn [length] in *; lia|assumption]|].
  destruct (rnodes r) as [|r0 rn] eqn:Er; [apply good_rpne; [lia|assumption]|].
  destruct Wl as [|Wl]; [discriminate|]. destruct Wr as [|Wr]; [discriminate|].
  eapply good_bind; [apply good_any; auto with safe|intros q _ _]. destruct (is_zero q); [apply good_ok, rpne0_fits|].
  apply (good_bind _ _ _ _ (good_back _ Wl)). intros lf _ _. apply (good_bind _ _ _ _ (good_back _ Wr)). intros rf _ _.
  apply good_rpne; [rewrite !app_length; cbn [length] in *; lia|]. right. now apply wf_bin.
Qed.
Lemma good_sip_nodes l r : wf l -> wf r -> good (fun s => wf s /\ length s = length l + length r + 1) (sip_nodes l r).
Proof.
  intros Wl Wr. unfold sip_nodes. apply (good_bind _ _ _ _ (good_back _ Wl)). intros lf _ _. apply (good_bind _ _ _ _ (good_back _ Wr)). intros rf _ _.
  apply good_ok. destruct (_ <? _)%N; rewrite <- app_assoc; (split; [apply wf_bin; [assumption|assumption|pl|discriminate]|rewrite !app_length; cbn [length]; lia]).
Qed.
Lemma good_sip md l r : fits l -> fits r -> good fits (e_sip md l r).
Proof.
  intros [Cl Wl] [Cr Wr]. unfold e_sip.
  destruct (rnodes l) as [|l0 ln] eqn:El; [apply good_rpne; [cbn [length] in *; lia|assumption]|].
  destruct (rnodes r) as [|r0 rn] eqn:Er; [apply good_rpne; [lia|assumption]|].
  destruct Wl as [|Wl]; [discriminate|]. destruct Wr as [|Wr]; [discriminate|].
  eapply good_bind; [apply good_any; auto with safe|intros q _ _]. destruct (is_zero q); [apply good_ok, rpne0_fits|].
  apply (good_bind _ _ _ _ (good_sip_nodes _ _ Wl Wr)). intros s _ [Ws Ls]. apply good_rpne; [cbn [length] in *; lia|now right].
Qed.
Lemma good_scalar_product md l r : fits l -> fits r -> good fits (e_scalar_product md l r).
Proof.
  intros [Cl Wl] [Cr Wr]. unfold e_scalar_product.
  destruct (rnodes l) as [|l0 ln] eqn:El; [apply good_rpne; [cbn [length] in *; lia|assumption]|].
  destruct (rnodes r) as [|r0 rn] eqn:Er; [apply good_rpne; [lia|assumption]|].
  destruct Wl as [|Wl]; [discriminate|]. destruct Wr as [|Wr]; [discriminate|].
  eapply good_bind; [apply good_any; auto with safe|intros q _ _]. destruct (is_zero q); [apply good_ok, rpne0_fits|].
  apply (good_bind _ _ _ _ (good_sip_nodes _ _ Wl Wr)). intros s _ [Ws Ls]. apply (good_bind _ _ _ _ (good_back _ Ws)). intros b _ _.
  apply good_rpne; [rewrite app_length; cbn [length] in *; lia|]. right. apply wf_post; [assumption|pl].
Qed.
Lemma good_factors l lf : wf l -> back l = Ok lf ->
  good (fun f => exists L, items L /\ f = flat L /\ length f <= S (length l)) (if (no lf =? op_ep)%N then Ok (removelast l) else factor l).
Proof.
  intros W B. destruct (N.eqb_spec (no lf) op_ep) as [E|E].
  - destruct (wf_list_inv _ _ W B (or_intror E)) as (L & IL & ->). apply good_ok. exists L. rewrite removelast_snoc, app_length. split; [assumption|]. split; [reflexivity|]. cbn; lia.
  - unfold factor. rewrite B. cbn [bind]. apply good_ok. exists [(mknode op_se (ncs lf) (length l) zero, l)].
    split; [constructor; [split; [reflexivity|assumption]|constructor]|]. unfold flat. cbn [flat_map fst snd]. rewrite app_nil_r. split; [reflexivity|cbn; lia].
Qed.
Lemma good_ep md l r : fits l -> fits r -> good fits (e_ep md l r).
Proof.
  intros [Cl Wl] [Cr Wr]. unfold e_ep. destruct (_ || _ || _ || _) eqn:E; [apply good_ok, rpne0_fits|].
  destruct Wl as [Z0|Wl]; [rewrite Z0 in E; discriminate|]. destruct Wr as [Z0|Wr]; [rewrite Z0, orb_true_r in E; discriminate|].
  apply (good_bind _ _ _ _ (good_back _ Wl)). intros lf _ Bl. apply (good_bind _ _ _ _ (good_back _ Wr)). intros rf _ Br.
  apply (good_bind _ _ _ _ (good_factors _ _ Wl Bl)). intros fl _ (L & IL & -> & Ll). apply (good_bind _ _ _ _ (good_factors _ _ Wr Br)). intros fr _ (R & IR & -> & Lr).
  apply (good_bind (fun _ => True)); [apply good_any; sf|]. intros q _ _.
  apply good_rpne; [rewrite !app_length; cbn [length]; lia|]. right. rewrite <- flat_app. apply wf_list; [now apply items_app|now right].
Qed.
Lemma good_vee md l r : fits l -> fits r -> good fits (e_vee md l r).
Proof.
  intros L R. unfold e_vee. apply (good_bind _ _ _ _ (good_dual _ L)). intros dl _ Fl. apply (good_bind _ _ _ _ (good_dual _ R)). intros dr _ Fr.
  apply (good_bind _ _ _ _ (good_ep md _ _ Fl Fr)). intros w _ W. now apply good_dual.
Qed.
Lemma good_sandwich md l r : fits l -> fits r -> good fits (e_sandwich md l r).
Proof.
  intros L R. unfold e_sandwich, e_gp. apply (good_bind _ _ _ _ (good_prod md op_gp _ _ ltac:(pl) ltac:(discriminate) R L)). intros a _ A.
  apply (good_bind _ _ _ _ (good_rev _ R)). intros b _ B. apply good_prod; [pl|discriminate|assumption|assumption].
Qed.
Theorem good_build md ins : (forall i e, nth_error ins i = Some e -> fits e) -> forall u, guarded md ins u -> good fits (build md ins u).
Proof.
  intros Ins. induction u; cbn [guarded build]; intros G; unfold bind1, bind2; repeat match type of G with _ /\ _ => destruct G as [?G G] end.
  all: repeat match goal with IH : guarded _ _ ?u -> _, H : guarded _ _ ?u |- _ => specialize (IH H) end.
  1: { destruct (nth_error ins i) as [e|] eqn:E; [apply good_ok; exact (Ins _ _ E)|]. apply nth_error_None in E. lia. }
  1: apply good_ok, blade_fits.
  1: apply good_ok, conv_fits.
  1: apply good_ok, conv_fits.
  14: { destruct (is_const u1);
        [apply (good_bind _ _ _ _ IHu2); intros x _ Fx; apply (good_bind _ _ _ _ IHu1); intros y _ Fy
        |apply (good_bind _ _ _ _ IHu1); intros x _ Fx; apply (good_bind _ _ _ _ IHu2); intros y _ Fy];
        (apply good_prod; [pl|discriminate|assumption|assumption]). }
  all: try (apply (good_bind _ _ _ _ IHu1); intros x Ex Fx; apply (good_bind _ _ _ _ IHu2); intros y Ey Fy).
  all: try (apply (good_bind _ _ _ _ IHu); intros x Ex Fx).
  all: first [ now apply good_add | now apply good_sub | now apply good_neg | now apply good_scale | now apply good_divz | now apply good_zdiv
    | now apply good_addz | now apply good_zsub | now apply good_subz | now apply good_rev | now apply good_dual | now apply good_sip | now apply good_ep
    | now apply good_vee | now apply good_sandwich | now apply good_scalar_product | apply good_comp; [assumption|now apply G] | apply good_grade; [assumption|now apply G]
    | apply good_fn; [assumption|assumption|now apply G]
    | apply good_div; [assumption|assumption|destruct G as [G|G]; [left|right]; now apply G]
    | apply good_prod; [pl|discriminate|assumption|assumption] ].
Qed.

(** ** runs without rounding are the code's *)
Lemma imp_merge_sums fuel ql qr : forall ls rs out k, imp (merge_sums Exact fuel ql qr ls rs out k) (merge_sums Code fuel ql qr ls rs out k).
Proof.
  induction fuel as [|f IH]; intros ls rs out k; cbn [merge_sums]; [apply imp_refl|].
  destruct ls as [|s ls]; [apply imp_refl|]. destruct rs as [|t rs]; [apply imp_refl|]. im.
Qed.
Lemma imp_merge_one fuel sq_ nsq fin ns : forall w ls out k, imp (merge_one Exact fuel sq_ nsq fin ns w ls out k) (merge_one Code fuel sq_ nsq fin ns w ls out k).
Proof. induction fuel as [|f IH]; intros w ls out k; cbn [merge_one]; [apply imp_refl|]. destruct ls as [|s ls]; [apply imp_refl|]. im. Qed.
#[local] Hint Resolve imp_merge_sums imp_merge_one : imp.
Lemma imp_add l r : imp (e_add Exact l r) (e_add Code l r).
Proof. unfold e_add. destruct (rnodes l); [apply imp_refl|]. destruct (rnodes r); [apply imp_refl|]. im. Qed.
#[local] Hint Resolve imp_add : imp.
Lemma imp_sub l r : imp (e_sub Exact l r) (e_sub Code l r). Proof. unfold e_sub. im. Qed.
Lemma imp_div l r : imp (e_div Exact l r) (e_div Code l r). Proof. unfold e_div. im. Qed.
Lemma imp_addz n r : imp (e_addz Exact n r) (e_addz Code n r). Proof. unfold e_addz. im. Qed.
Lemma imp_zsub n r : imp (e_zsub Exact n r) (e_zsub Code n r). Proof. unfold e_zsub. im. Qed.
Lemma imp_subz n r : imp (e_subz Exact r n) (e_subz Code r n). Proof. unfold e_subz. im. Qed.
Lemma imp_prod o l r : imp (e_prod Exact o l r) (e_prod Code o l r). Proof. unfold e_prod. im. Qed.
Lemma imp_sip l r : imp (e_sip Exact l r) (e_sip Code l r). Proof. unfold e_sip. im. Qed.
Lemma imp_scalar_product l r : imp (e_scalar_product Exact l r) (e_scalar_product Code l r). Proof. unfold e_scalar_product. im. Qed.
Lemma imp_ep l r : imp (e_ep Exact l r) (e_ep Code l r). Proof. unfold e_ep. im. Qed.
#[local] Hint Resolve imp_sub imp_div imp_addz imp_zsub imp_subz imp_prod imp_sip imp_scalar_product imp_ep : imp.
Lemma imp_vee l r : imp (e_vee Exact l r) (e_vee Code l r). Proof. unfold e_vee. im. Qed.
Lemma imp_sandwich l r : imp (e_sandwich Exact l r) (e_sandwich Code l r). Proof. unfold e_sandwich, e_gp. im. Qed.
#[local] Hint Resolve imp_vee imp_sandwich : imp.
Lemma imp_build ins u : imp (build Exact ins u) (build Code ins u).
Proof. induction u; cbn [build]; unfold bind1, bind2, e_gp, e_lc; im. Qed.
