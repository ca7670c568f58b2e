(** Reshaping, first pass: the references point to equal operands. *)
From Coq Require Import ZArith NArith List Bool Arith Lia ZifyBool ZifyN ZifyNat Reals.
From Verif Require Proof_SortMap.
From Verif Require Import Base Model_Numeric Model_Blade Model_Stack Model_Expr Model_Dfa Model_Reshape.
From Verif Require Import Spec_Numeric Spec_Clifford Spec_MV Spec_Basis Spec_Expr Spec_Reshape.
From Verif Require Import Proof_Numeric Proof_Expr Proof_Util Proof_Reshape.
Import ListNotations.
Local Open Scope nat_scope.

(** ** arrays *)
Lemma get_ok {A} (l : list A) i a : get l i = Ok a -> nth_error l i = Some a.
Proof. unfold get. destruct (nth_error l i); [intros E; now injection E as ->|discriminate]. Qed.
Lemma nget_ok {A} (l : list A) i a : nget l i = Ok a -> nth_error l (N.to_nat i) = Some a /\ N.to_nat i < length l.
Proof. unfold nget. destruct (N.ltb_spec i (N.of_nat (length l))); [|discriminate]. intros E. split; [now apply get_ok|lia]. Qed.
Lemma set_ok {A} (l : list A) i a l' : set l i a = Ok l' -> i < length l /\ l' = upd l i a.
Proof. unfold set. destruct (Nat.ltb_spec i (length l)); [|discriminate]. intros E. injection E as <-. auto. Qed.
Lemma nset_ok {A} (l : list A) i a l' : nset l i a = Ok l' -> N.to_nat i < length l /\ l' = upd l (N.to_nat i) a.
Proof. unfold nset. destruct (_ <? _)%N; [|discriminate]. apply set_ok. Qed.
Lemma nth_upd {A} (l : list A) : forall i j a, i < length l -> nth_error (upd l i a) j = if j =? i then Some a else nth_error l j.
Proof.
  induction l as [|x l IH]; intros i j a H; [cbn in H; lia|]. destruct i, j; cbn [upd nth_error Nat.eqb]; try reflexivity. apply IH. cbn in H. lia.
Qed.
Lemma upd_len {A} (l : list A) i a : length (upd l i a) = length l. Proof. apply upd_length. Qed.
Lemma add64_small a b : (a + b < 2 ^ 64)%N -> add64 a b = (a + b)%N.
Proof. intros H. unfold add64. now apply N.mod_small. Qed.

(** ** the stack *)
Lemma push_ok {A} (s : stack A) l x s' : rep s l -> s_push s x = Ok s' -> rep s' (x :: l) /\ length (data s') = length (data s) /\ length l < length (data s).
Proof.
  intros R P. destruct (Nat.lt_ge_cases (length l) (length (data s))) as [H|H].
  - destruct (push_rep s l x R H) as (s2 & E & R2 & L2). rewrite E in P. injection P as <-. auto.
  - exfalso. pose proof R as (B & C & rest & D). assert (length l <= length (data s)) by (rewrite D, app_length, rev_length; lia). rewrite (push_full s l x R) in P by lia. discriminate.
Qed.
Lemma peek0_ok {A} (s : stack A) x l : rep s (x :: l) -> s_peek0 s = Ok x.
Proof. intros R. destruct (peek_rep s (x :: l) 0 R) as (y & E & P); [cbn; lia|]. injection E as <-. exact P. Qed.
Lemma pop0_ok {A} (s : stack A) x l y s' : rep s (x :: l) -> s_pop0 s = Ok (y, s') -> rep s' l /\ data s' = data s.
Proof.
  intros (B & C & rest & D) P. unfold s_pop0 in P. apply bind_ok in P as (z & _ & P). injection P as _ <-. cbn [length] in C.
  assert (length l < length (data s)) by (rewrite D, app_length, rev_length; cbn; lia).
  split; [|reflexivity]. split; [exact B|]. split; [cbn [count]; rewrite C, sub64_le by lia; lia|]. exists (x :: rest). cbn [data]. rewrite D. cbn [rev]. now rewrite <- app_assoc.
Qed.
Lemma pop_ok {A} (s : stack A) l k y s' : rep s l -> 0 < k <= length l -> s_pop s (N.of_nat k) = Ok (y, s') -> rep s' (skipn k l) /\ data s' = data s /\ nth_error l (k - 1) = Some y.
Proof.
  intros R K P. destruct (pop_rep s l (k - 1) R) as (x & s2 & E & P2 & R2 & D2); [lia|]. replace (S (k - 1)) with k in * by lia. rewrite P2 in P. injection P as <- <-. auto.
Qed.

Section Scan.
Context (m : metric) (env : list V).
Notation nden := (nden m env).
Variable L : list node.
Hypothesis ID : identified L.
Hypothesis SMALL : (N.of_nat (length L) < 2 ^ 32)%N.
(** the checksum of an operand *)
Definition checksum (l : list node) : N := ncs (last l node0).
Definition o_ (c : cse) : nat := N.to_nat (c_off c).
Definition k_ (c : cse) : nat := N.to_nat (c_cnt c).
Definition good (i : nat) (c : cse) : Prop :=
  (exists v, nden (sub L (o_ c) (k_ c)) v) /\ o_ c + k_ c <= i /\ i <= length L /\ c_crc c = checksum (sub L (o_ c) (k_ c)) /\ 0 < k_ c /\ 1 < k_ c /\ is_read_op (no (last (sub L (o_ c) (k_ c)) node0)) = false.
Definition isref (i : nat) (ses : list cse) (kc : N) (p : nat) (n : node) : Prop :=
  no n = op_cse /\ exists c e, nth_error ses (nex n) = Some c /\ nex n < N.to_nat kc /\ ncs n = N.of_nat e /\ p < e <= i /\ sub L p (e - p) = sub L (o_ c) (k_ c) /\ k_ c = e - p.
Record inv (i : nat) (nodes : list node) (ses : list cse) (kc : N) : Prop := {
  iv_len : length L <= length nodes;
  iv_small : (N.of_nat (length nodes) < 2 ^ 32)%N;
  iv_pad : forall p n, length L <= p -> nth_error nodes p = Some n -> no n <> op_cse;
  iv_node : forall p n, p < length L -> nth_error nodes p = Some n -> nth_error L p = Some n /\ no n <> op_cse \/ isref i ses kc p n;
  iv_cse : forall j c, nth_error ses j = Some c -> j < N.to_nat kc -> good i c;
  iv_order : forall j c p n, nth_error ses j = Some c -> j < N.to_nat kc -> o_ c <= p < o_ c + k_ c -> nth_error nodes p = Some n -> no n = op_cse ->
    N.to_nat (ncs n) <= o_ c + k_ c -> nex n < j;
  iv_early : forall p n c, p < length L -> nth_error nodes p = Some n -> no n = op_cse -> nth_error ses (nex n) = Some c -> o_ c < p;
  iv_kc : N.to_nat kc <= length ses }.
(** only the counters differ *)
Definition alike (a b : cse) : Prop := c_crc a = c_crc b /\ c_off a = c_off b /\ c_cnt a = c_cnt b.
Definition same (a b : list cse) : Prop := length a = length b /\ forall j c, nth_error b j = Some c -> exists c', nth_error a j = Some c' /\ alike c' c.
Lemma same_refl a : same a a. Proof. split; [reflexivity|]. intros j c H. exists c. split; [exact H|]. repeat split. Qed.
Lemma same_trans a b c : same a b -> same b c -> same a c.
Proof.
  intros [L1 H1] [L2 H2]. split; [congruence|]. intros j x H. destruct (H2 _ _ H) as (y & E & A). destruct (H1 _ _ E) as (z & E' & A'). exists z. split; [exact E'|].
  destruct A as (? & ? & ?), A' as (? & ? & ?). repeat split; congruence.
Qed.
Lemma same_upd a i c c' : nth_error a i = Some c -> alike c c' -> same a (upd a i c').
Proof.
  intros E A. assert (H : i < length a) by (apply nth_error_Some; congruence). split; [now rewrite upd_len|]. intros j x. rewrite nth_upd by exact H.
  destruct (Nat.eqb_spec j i) as [->|_]; [intros X; injection X as <-; eauto|]. intros X. exists x. split; [exact X|]. repeat split.
Qed.
Lemma same_back a b j c : same a b -> nth_error a j = Some c -> exists c', nth_error b j = Some c' /\ alike c c'.
Proof.
  clear. intros [E H] X. destruct (nth_error b j) as [c'|] eqn:B.
  - exists c'. split; [reflexivity|]. destruct (H _ _ B) as (d & D & A). congruence.
  - apply nth_error_None in B. assert (j < length a) by (apply nth_error_Some; congruence). lia.
Qed.
Lemma alike_o a b : alike a b -> o_ a = o_ b /\ k_ a = k_ b. Proof. intros (_ & A & B). unfold o_, k_. now rewrite A, B. Qed.
Lemma good_alike i a b : alike a b -> good i a -> good i b.
Proof. intros A G. destruct (alike_o _ _ A) as [O K]. destruct A as (C & _ & _). unfold good in *. now rewrite <- O, <- K, <- C. Qed.
Lemma inv_same i nodes ses ses' kc : inv i nodes ses kc -> same ses ses' -> inv i nodes ses' kc.
Proof.
  intros [A A1 A2 B C D F A3] S. constructor; auto.
  - intros p n P E. destruct (B p n P E) as [X|(O & c & e & X1 & X2 & X3 & X4 & X5 & X6)]; [now left|right]. split; [exact O|]. destruct (same_back _ _ _ _ S X1) as (c' & E' & AL).
    destruct (alike_o _ _ AL) as [Q1 Q2]. exists c', e. rewrite <- Q1, <- Q2. repeat (split; [assumption|]). assumption.
  - intros j c E H. destruct (proj2 S _ _ E) as (c' & E' & AL). eapply good_alike; [exact AL|]. eapply C; eauto.
  - intros j c p n E H. destruct (proj2 S _ _ E) as (c' & E' & AL). destruct (alike_o _ _ AL) as [Q1 Q2]. rewrite <- Q1, <- Q2. eapply D; eauto.
  - intros p n c P E O H. destruct (proj2 S _ _ H) as (c' & E' & AL). destruct (alike_o _ _ AL) as [Q1 _]. rewrite <- Q1. eapply F; eauto.
  - destruct S as [<- _]. exact A3.
Qed.
Lemma good_mono i i' c : i <= i' -> i' <= length L -> good i c -> good i' c.
Proof. intros A B (C & D & E & F & G & G1 & G2). unfold good. repeat (split; [assumption || lia|]). assumption. Qed.
Lemma inv_mono i i' nodes ses kc : i <= i' -> i' <= length L -> inv i nodes ses kc -> inv i' nodes ses kc.
Proof.
  intros H H' [A A1 A2 B C D F A3]. constructor; auto.
  - intros p n P E. destruct (B p n P E) as [X|(O & c & e & X1 & X2 & X3 & X4 & X5)]; [now left|right]. split; [exact O|]. exists c, e. repeat split; auto; try lia; apply X5.
  - intros j c E Hj. eapply good_mono; eauto.
Qed.
Lemma inv_here i nodes ses kc n : inv i nodes ses kc -> i < length L -> nth_error nodes i = Some n -> nth_error L i = Some n.
Proof. intros [A A1 A2 B C D F A3] H E. destruct (B i n H E) as [[X _]|(_ & c & e & X)]; [exact X|lia]. Qed.

(** ** registering *)
Lemma find_ok nodes ses next n : forall i j, find_se nodes ses next i n = Ok (Some j) -> i <= j < i + n /\ exists k, nth_error ses j = Some k /\ compare_se nodes ses k next = Ok true.
Proof.
  induction n as [|n IH]; intros i j H; [discriminate|]. cbn [find_se] in H. minv H. minv H. apply get_ok in E. destruct v0.
  - injection H as <-. split; [lia|]. eauto.
  - apply IH in H as [H1 H2]. split; [lia|exact H2].
Qed.
Lemma nth_error_nil {A} j : nth_error (@nil A) j = None.
Proof. now destruct j. Qed.
Lemma sub_nth p k j : j < k -> nth_error (sub L p k) j = nth_error L (p + j).
Proof.
  clear. unfold sub. revert k j. induction p as [|p IH] in L |- *; intros k j J.
  - cbn [skipn Nat.add]. revert k J. induction L as [|a l IH'] in j |- *; intros k J; [now rewrite firstn_nil, !nth_error_nil|]. destruct k; [lia|]. destruct j; [reflexivity|]. cbn. apply IH'. lia.
  - destruct L as [|a l]; [rewrite skipn_nil, firstn_nil; now rewrite !nth_error_nil|]. cbn [skipn Nat.add nth_error]. now apply IH.
Qed.
Lemma sub_eq_nth p q k : sub L p k = sub L q k -> forall j, j < k -> nth_error L (p + j) = nth_error L (q + j).
Proof. clear. intros E j J. rewrite <- !(sub_nth _ k) by exact J. now rewrite E. Qed.
Lemma chase_ok i nodes ses kc : inv i nodes ses kc -> forall fuel p n n', p < length L -> nth_error nodes p = Some n -> chase fuel nodes ses n = Ok n' -> nth_error L p = Some n'.
Proof.
  intros IV. induction fuel as [|f IH]; intros p n n' P E H; cbn [chase] in H.
  - destruct (N.eqb_spec (no n) op_cse) as [O|O]; [discriminate|]. injection H as <-. destruct (iv_node _ _ _ _ IV p n P E) as [[X _]|(X & _)]; [exact X|contradiction].
  - destruct (N.eqb_spec (no n) op_cse) as [O|O].
    + destruct (iv_node _ _ _ _ IV p n P E) as [[_ X]|(_ & c & e & X1 & X2 & X3 & X4 & X5 & X6)]; [contradiction|]. minv H. apply get_ok in E0. rewrite X1 in E0. injection E0 as <-. minv H. apply nget_ok in E0.
      destruct (iv_cse _ _ _ _ IV _ c X1 X2) as (_ & G2 & G3 & _). rewrite <- X6 in X5. pose proof (sub_eq_nth _ _ _ X5 0 ltac:(lia)) as Q. rewrite !Nat.add_0_r in Q. rewrite Q. apply (IH (o_ c) v n'); [lia|exact (proj1 E0)|exact H].
    + injection H as <-. destruct (iv_node _ _ _ _ IV p n P E) as [[X _]|(X & _)]; [exact X|contradiction].
Qed.
Lemma node_eq_bare a b : node_eq a b = true -> bare a = bare b.
Proof. clear. unfold node_eq, bare. rewrite !andb_true_iff, !N.eqb_eq, Nat.eqb_eq. intros [[-> ->] ->]. reflexivity. Qed.
Lemma compare_from_ok i nodes ses kc a b : inv i nodes ses kc -> o_ a + k_ a <= length L -> o_ b + k_ a <= length L -> forall fuel j, compare_from fuel nodes ses a b j = Ok true ->
  forall d, N.to_nat j <= d < k_ a -> option_map bare (nth_error L (o_ a + d)) = option_map bare (nth_error L (o_ b + d)).
Proof.
  intros IV KA KB. induction fuel as [|f IH]; intros j H d D; [discriminate|]. cbn [compare_from] in H. destruct (N.eqb_spec j (c_cnt a)) as [EJ|NE]; [unfold k_ in D; lia|].
  assert (B1 : (c_off a = N.of_nat (o_ a))%N) by (unfold o_; lia). assert (B2 : (c_off b = N.of_nat (o_ b))%N) by (unfold o_; lia).
  rewrite add64_small in H by lia. rewrite add64_small in H by lia. minv H. rename v into x. apply nget_ok in E as [E _]. minv H. rename v into y. apply nget_ok in E0 as [E0 _].
  replace (N.to_nat (c_off a + j)) with (o_ a + N.to_nat j) in E by lia. replace (N.to_nat (c_off b + j)) with (o_ b + N.to_nat j) in E0 by lia.
  destruct ((no x =? op_cse)%N && (no y =? op_cse)%N) eqn:CC.
  - apply andb_true_iff in CC as [CX CY]. apply N.eqb_eq in CX, CY. destruct (Nat.eqb_spec (nex x) (nex y)) as [EX|]; [|discriminate].
    destruct (iv_node _ _ _ _ IV (o_ a + N.to_nat j) x ltac:(lia) E) as [[_ X]|(_ & c & e & X1 & X2 & X3 & X4 & X5 & X6)]; [contradiction|].
    destruct (iv_node _ _ _ _ IV (o_ b + N.to_nat j) y ltac:(lia) E0) as [[_ Y]|(_ & c' & e' & Y1 & Y2 & Y3 & Y4 & Y5 & Y6)]; [contradiction|].
    rewrite <- EX, X1 in Y1. injection Y1 as <-. destruct (iv_cse _ _ _ _ IV _ c X1 X2) as (_ & _ & IL & _).
    rewrite sub64_le in H by (rewrite ?X3, ?B1; lia). specialize (IH _ H d). destruct (Nat.lt_ge_cases d (e - o_ a)) as [LT|GE]; [|apply IH; lia].
    rewrite <- X6 in X5. rewrite <- Y6 in Y5. pose proof (sub_eq_nth _ _ _ X5 (d - N.to_nat j) ltac:(lia)) as Q1. pose proof (sub_eq_nth _ _ _ Y5 (d - N.to_nat j) ltac:(lia)) as Q2.
    replace (o_ a + N.to_nat j + (d - N.to_nat j)) with (o_ a + d) in Q1 by lia. replace (o_ b + N.to_nat j + (d - N.to_nat j)) with (o_ b + d) in Q2 by lia. now rewrite Q1, Q2.
  - minv H. rename v into x'. minv H. rename v into y'. destruct (node_eq x' y') eqn:NQ; [|discriminate]. apply node_eq_bare in NQ. specialize (IH _ H d).
    apply (chase_ok i nodes ses kc IV _ (o_ a + N.to_nat j) x x' ltac:(lia) E) in E1. apply (chase_ok i nodes ses kc IV _ (o_ b + N.to_nat j) y y' ltac:(lia) E0) in E2.
    destruct (Nat.eq_dec d (N.to_nat j)) as [->|NJ]; [rewrite E1, E2; cbn; now rewrite NQ|]. apply IH. rewrite add64_small by lia. lia.
Qed.
Lemma compare_ok i nodes ses kc a b : inv i nodes ses kc -> o_ a + k_ a <= length L -> o_ b + k_ b <= length L -> compare_se nodes ses a b = Ok true ->
  c_cnt a = c_cnt b /\ map bare (sub L (o_ a) (k_ a)) = map bare (sub L (o_ b) (k_ b)).
Proof.
  intros IV A B. unfold compare_se. destruct (N.eqb_spec (c_crc a) (c_crc b)); [|discriminate]. destruct (N.eqb_spec (c_cnt a) (c_cnt b)) as [C|]; [|discriminate]. intros H. split; [exact C|].
  assert (K : k_ b = k_ a) by (unfold k_; now rewrite C). rewrite K in *. pose proof (compare_from_ok i nodes ses kc a b IV A B _ _ H) as Q.
  apply Proof_SortMap.nth_error_ext. intros j. rewrite !nth_error_map. destruct (Nat.lt_ge_cases j (k_ a)) as [LT|GE]; [rewrite !sub_nth by exact LT; apply Q; lia|].
  assert (X : forall p, nth_error (sub L p (k_ a)) j = None) by (intros p; apply nth_error_None; unfold sub; rewrite firstn_length; lia). now rewrite !X.
Qed.
Lemma sub_end off i n : nth_error L i = Some n -> off <= i -> last (sub L off (S i - off)) node0 = n.
Proof.
  intros E O. unfold sub. assert (H : i < length L) by (apply nth_error_Some; congruence).
  rewrite <- (firstn_skipn i L) in E. rewrite nth_error_app2 in E by (rewrite firstn_length; lia). rewrite firstn_length in E. replace (i - Nat.min i (length L)) with 0 in E by lia.
  destruct (skipn i L) as [|x r] eqn:K; [discriminate|]. injection E as ->.
  assert (Q : skipn off L = firstn (i - off) (skipn off L) ++ n :: r).
  { rewrite <- (firstn_skipn (i - off) (skipn off L)) at 1. f_equal. rewrite <- K. clear - O. revert off O. induction L as [|a l IH]; intros off O; [now rewrite !skipn_nil|].
    destruct off; [cbn [skipn]; now rewrite Nat.sub_0_r|]. destruct i; [lia|]. cbn [skipn Nat.sub].
    assert (X : forall i, off <= i -> skipn (i - off) (skipn off l) = skipn i l) by (clear; revert off; induction l as [|a l IH]; intros off i H; [now rewrite !skipn_nil|]; destruct off; [now rewrite Nat.sub_0_r|]; destruct i; [lia|]; cbn; apply IH; lia). apply X. lia. }
  rewrite Q. rewrite firstn_app, firstn_length, skipn_length. replace (Nat.min (i - off) (length L - off)) with (i - off) by lia.
  rewrite firstn_firstn. replace (Nat.min (S i - off) (i - off)) with (i - off) by lia. replace (S i - off - (i - off)) with 1 by lia. cbn [firstn]. now rewrite last_last.
Qed.
Lemma sub_last off i n : nth_error L i = Some n -> off <= i -> checksum (sub L off (S i - off)) = ncs n.
Proof. intros E O. unfold checksum. now rewrite (sub_end off i n E O). Qed.
Lemma reg_ok i nodes ses kc off n v req ses' kc' se : inv i nodes ses kc -> off < i -> is_read_op (no n) = false -> nth_error L i = Some n -> nden (sub L off (S i - off)) v ->
  register_se nodes ses kc (ncs n) (N.of_nat off) (add64 (sub64 (N.of_nat i) (N.of_nat off)) 1) req = Ok (ses', kc', se) ->
  (se = 0%N /\ inv (S i) nodes ses' kc' /\ kc' = (kc + 1)%N /\ N.to_nat kc < length ses /\ exists c, ses' = upd ses (N.to_nat kc) c /\ stored c = req) \/
  ((0 < se)%N /\ kc' = kc /\ inv i nodes ses' kc /\ same ses ses' /\
   exists c, nth_error ses' (N.to_nat (se - 1)) = Some c /\ N.to_nat (se - 1) < N.to_nat kc /\ sub L off (S i - off) = sub L (o_ c) (k_ c) /\ k_ c = S i - off).
Proof.
  intros IV OL RD E ND H. assert (O : off <= i) by lia. assert (IL : i < length L) by (apply nth_error_Some; congruence). unfold register_se in H.
  rewrite sub64_le in H by lia. rewrite add64_small in H by lia. replace (N.of_nat i - N.of_nat off + 1)%N with (N.of_nat (S i - off)) in H by lia.
  minv H. destruct v0 as [j|].
  - right. apply find_ok in E0 as (J & k & EK & CM). minv H. apply get_ok in E0. minv H. apply set_ok in E1 as [_ ->]. injection H as <- <- <-.
    rewrite EK in E0. injection E0 as <-. 
    assert (S : same ses (upd ses j (mkcse (c_crc k) (c_off k) (c_cnt k) (add64 (c_refs k) 1) (c_fin k) (req || c_req k)))) by (eapply same_upd; [exact EK|repeat split]).
    pose proof (iv_cse _ _ _ _ IV j k EK ltac:(lia)) as ((w & G1) & G2 & G3 & G4 & G5 & G6 & G7).
    apply (compare_ok i nodes ses kc) in CM as [C1 C2]; [|exact IV|lia|unfold o_, k_; cbn [c_off c_cnt]; lia]. unfold o_, k_ in C2. cbn [c_off c_cnt] in C1, C2. rewrite !Nat2N.id in C2. fold (o_ k) (k_ k) in C2.
    split; [lia|]. split; [reflexivity|]. split; [eapply inv_same; eauto|]. split; [exact S|]. replace (N.to_nat (N.of_nat j + 1 - 1)) with j by lia.
    destruct (same_back _ _ _ _ S EK) as (k' & EK' & AL). exists k'. destruct (alike_o _ _ AL) as [Q1 Q2]. rewrite <- Q1, <- Q2. split; [exact EK'|]. split; [lia|].
    assert (KK : k_ k = Datatypes.S i - off) by (unfold k_; lia). split; [|exact KK]. rewrite <- KK. apply ID.
    + exact G6. + lia. + lia. + rewrite KK. exact (nden_operand m env _ _ ND). + exact (nden_operand m env _ _ G1).
    + rewrite KK, (sub_end off i n E O). exact RD.
    + rewrite C2. now rewrite KK.
  - left. minv H. apply nset_ok in E1 as [K ->]. injection H as <- <- <-. split; [reflexivity|].
    assert (GN : good (S i) (mkcse (ncs n) (N.of_nat off) (N.of_nat (S i - off)) 1 0 req)).
    { unfold good, o_, k_. cbn [c_off c_cnt c_crc]. rewrite !Nat2N.id. repeat split; try lia; [eauto|symmetry; now apply sub_last|]. rewrite (sub_end off i n E O). exact RD. }
    split; [|split; [reflexivity|]; split; [exact K|]; eexists; split; [reflexivity|]; reflexivity].
    destruct IV as [A A1 A2 B C D F A3]. constructor; auto.
    + intros p x P X. destruct (B p x P X) as [Y|(Y0 & c & e & Y1 & Y2 & Y3 & Y4 & Y5)]; [now left|right]. split; [exact Y0|]. exists c, e. rewrite nth_upd by exact K.
      replace (nex x =? N.to_nat kc) with false by lia. repeat split; auto; try lia; apply Y5.
    + intros j c. rewrite nth_upd by exact K. destruct (Nat.eqb_spec j (N.to_nat kc)) as [->|J]; intros X Y.
      * injection X as <-. exact GN.
      * apply good_mono with (i := i); [lia|lia|]. eapply C; eauto. lia.
    + intros j c p x. rewrite nth_upd by exact K. destruct (Nat.eqb_spec j (N.to_nat kc)) as [->|J]; intros X Y Z1 Z2 Z3 Z4.
      * injection X as <-. unfold o_, k_, c_off, c_cnt in Z1. rewrite !Nat2N.id in Z1. assert (PL : p < length L) by (clear - Z1 IL O; destruct off; lia). destruct (B p x PL Z2) as [[_ W]|(_ & c & e & _ & W & _)]; [contradiction|exact W].
      * eapply D; eauto. lia.
    + intros p x c P X Y W. destruct (B p x P X) as [[_ Q]|(_ & d & e & Y1 & Y2 & _)]; [contradiction|]. rewrite nth_upd in W by exact K. replace (nex x =? N.to_nat kc) with false in W by lia. eapply F; eauto.
    + rewrite upd_len. lia.
Qed.
Lemma dec_refs_same ses i ses' : dec_refs ses i = Ok ses' -> same ses ses'.
Proof. intros H. unfold dec_refs in H. minv H. apply nget_ok in E as [E _]. apply nset_ok in H as [_ ->]. eapply same_upd; [exact E|repeat split]. Qed.
Lemma dec_if_same ses n ses' : dec_if_cse ses n = Ok ses' -> same ses ses'.
Proof. unfold dec_if_cse. destruct (_ =? _)%N; [apply dec_refs_same|]. intros E. injection E as <-. apply same_refl. Qed.
Lemma mark_same ses kc ses' : mark_last ses kc = Ok ses' -> same ses ses'.
Proof. intros H. unfold mark_last in H. minv H. apply nget_ok in E as [E _]. apply nset_ok in H as [_ ->]. eapply same_upd; [exact E|repeat split]. Qed.
Lemma mark_operand_same i off skip s ses' : mark_operand i off skip s = Ok ses' -> same (sc_ses s) ses'.
Proof.
  unfold mark_operand. destruct (_ <? _)%N; [|intros E; injection E as <-; apply same_refl]. intros H. minv H. destruct (_ =? _)%N.
  - minv H. destruct (is_read_op _); [injection H as <-; apply same_refl|]. eapply mark_same; eauto.
  - destruct (_ && _); [eapply mark_same; eauto|]. injection H as <-. apply same_refl.
Qed.
Lemma dec_all_same k : forall j refs ses ses', dec_all k j refs ses = Ok ses' -> same ses ses'.
Proof.
  induction k as [|k IH]; intros j refs ses ses' H; cbn [dec_all] in H; [injection H as <-; apply same_refl|]. minv H. minv H.
  eapply same_trans; [|eapply IH; eauto]. destruct (0 <? v)%N; [eapply dec_refs_same; eauto|]. injection E0 as <-. apply same_refl.
Qed.
Lemma to_cse_ok i nodes ses kc off se nodes' c : inv i nodes ses kc -> i < length L -> off <= i -> to_cse nodes (N.of_nat off) (N.of_nat i) se = Ok nodes' ->
  nth_error ses (N.to_nat (se - 1)) = Some c -> N.to_nat (se - 1) < N.to_nat kc -> sub L off (S i - off) = sub L (o_ c) (k_ c) -> k_ c = S i - off -> inv (S i) nodes' ses kc.
Proof.
  intros IV IL O H E K Q KC. unfold to_cse in H. minv H. apply nget_ok in E0 as [E0 _]. apply nset_ok in H as [K0 ->]. rewrite Nat2N.id in *.
  assert (W : wrap32 (N.of_nat i + 1) = N.of_nat (S i)) by (unfold wrap32; rewrite N.mod_small; lia).
  pose proof (inv_mono i (S i) _ _ _ (Nat.le_succ_diag_r i) IL IV) as IV'. destruct IV' as [A A1 A2 B C D F A3]. constructor; auto.
  - now rewrite upd_len.
  - now rewrite upd_len.
  - intros p n P. rewrite nth_upd by exact K0. destruct (Nat.eqb_spec p off) as [->|_]; [lia|]. now apply A2.
  - intros p n P. rewrite nth_upd by exact K0. destruct (Nat.eqb_spec p off) as [->|_]; [|now apply B]. intros X. injection X as <-. right. split; [reflexivity|].
    exists c, (S i). cbn [nex ncs]. rewrite W. repeat split; auto; lia.
  - intros j d p n E1 J1 P. rewrite nth_upd by exact K0. destruct (Nat.eqb_spec p off) as [->|_]; [|now apply D]. intros X. injection X as <-. cbn [ncs nex]. rewrite W. intros _ X.
    exfalso. destruct (iv_cse _ _ _ _ IV j d E1 J1) as (_ & G & _). lia.
  - intros p n d P. rewrite nth_upd by exact K0. destruct (Nat.eqb_spec p off) as [->|_]; [|now apply F]. intros X. injection X as <-. cbn [nex]. intros _ X. rewrite X in E. injection E as ->.
    destruct (iv_cse _ _ _ _ IV _ c X K) as (_ & G & _). lia.
Qed.

(** ** one node *)
(** nothing is shared and nothing has to be evaluated first *)
Definition nice : Prop := distinct L /\ direct L.
Definition fresh (ses : list cse) (kc : N) : Prop := nice -> forall j c, nth_error ses j = Some c -> j < N.to_nat kc -> stored c = false.
Definition keeps (i : nat) (s : scan) : Prop := inv i (sc_nodes s) (sc_ses s) (sc_kc s) /\ fresh (sc_ses s) (sc_kc s).
Lemma fresh_new ses kc c : N.to_nat kc < length ses -> fresh ses kc -> stored c = false -> fresh (upd ses (N.to_nat kc) c) (kc + 1).
Proof.
  intros K F S N j d. rewrite nth_upd by exact K. destruct (Nat.eqb_spec j (N.to_nat kc)) as [->|NE]; [intros X; now injection X as <-|]. intros X Y. eapply F; eauto. lia.
Qed.
Lemma not_nice i off ses kc nodes c se n : inv i nodes ses kc -> nth_error L i = Some n -> off < i -> nth_error ses (N.to_nat (se - 1)) = Some c -> N.to_nat (se - 1) < N.to_nat kc ->
  sub L off (S i - off) = sub L (o_ c) (k_ c) -> k_ c = S i - off -> nice -> False.
Proof.
  intros IV E O C1 C2 C3 C4 [D _]. assert (IL : i < length L) by (apply nth_error_Some; congruence). destruct (iv_cse _ _ _ _ IV _ c C1 C2) as ((w & G1) & G2 & G3 & G4 & G5 & G6 & G7).
  pose proof (nden_operand m env _ _ G1) as OP. assert (X : off = o_ c); [|lia]. rewrite <- C4 in C3. apply (D off (o_ c) (k_ c)); auto; try lia; rewrite C3; assumption || reflexivity.
Qed.
Lemma unary_ok i n s s' off st v : keeps i s -> nth_error L i = Some n -> rep (sc_offs s) (N.of_nat off :: st) -> off < i -> is_read_op (no n) = false -> nden (sub L off (S i - off)) v ->
  scan_unary (N.of_nat i) n s = Ok s' -> keeps (S i) s' /\ sc_offs s' = sc_offs s.
Proof.
  intros [IV FR] E R O RD ND H. assert (IL : i < length L) by (apply nth_error_Some; congruence). unfold scan_unary in H. rewrite (peek0_ok _ _ _ R) in H. cbn [bind] in H. minv H. destruct v0 as [[ses kc] se].
  destruct (reg_ok _ _ _ _ _ _ _ _ _ _ _ IV O RD E ND E0) as [(-> & IV' & -> & KL & d & -> & SD)|(P & -> & IV' & SA & c & C1 & C2 & C3 & C4)].
  - cbn in H. injection H as <-. split; [split; [exact IV'|now apply fresh_new]|reflexivity].
  - replace (0 <? se)%N with true in H by lia. minv H. minv H. apply dec_if_same in E2. minv H. minv H. injection H as <-. split; [|reflexivity].
    destruct (same_back _ _ _ _ E2 C1) as (c' & C1' & AL). destruct (alike_o _ _ AL) as [Q1 Q2]. rewrite Q1, Q2 in *. split; [|intros NI; exfalso; eapply not_nice; [exact IV'|exact E|exact O|exact C1|exact C2|rewrite Q1, Q2; exact C3|lia|exact NI]]. cbn [sc_nodes sc_ses sc_kc].
    eapply to_cse_ok; [exact (inv_same _ _ _ _ _ IV' E2)|exact IL|exact (Nat.lt_le_incl _ _ O)|exact E3|exact C1'|exact C2|exact C3|lia].
Qed.
Lemma required_ok i n s s' off offs ses0 v : keeps i s -> same (sc_ses s) ses0 -> nth_error L i = Some n -> off < i -> is_read_op (no n) = false -> (nice -> False) -> nden (sub L off (S i - off)) v ->
  scan_required (N.of_nat i) n (N.of_nat off) offs ses0 s = Ok s' -> keeps (S i) s' /\ sc_offs s' = offs.
Proof.
  intros [IV FR] SA0 E O RD NN ND H. assert (IL : i < length L) by (apply nth_error_Some; congruence). pose proof (inv_same _ _ _ _ _ IV SA0) as IV0. unfold scan_required in H. minv H. destruct v0 as [[ses kc] se].
  destruct (reg_ok _ _ _ _ _ _ _ _ _ _ _ IV0 O RD E ND E0) as [(-> & IV' & -> & KL & d & -> & SD)|(P & -> & IV' & SA & c & C1 & C2 & C3 & C4)].
  - cbn in H. injection H as <-. split; [split; [exact IV'|intros NI; now elim NN]|reflexivity].
  - replace (0 <? se)%N with true in H by lia. minv H. minv H. injection H as <-. split; [|reflexivity]. split; [|intros NI; now elim NN]. cbn [sc_nodes sc_ses sc_kc].
    eapply to_cse_ok; [exact IV'|exact IL|exact (Nat.lt_le_incl _ _ O)|exact E1|exact C1|exact C2|exact C3|lia].
Qed.
Lemma div_ok i n s s' off off2 st v : keeps i s -> nth_error L i = Some n -> rep (sc_offs s) (N.of_nat off2 :: N.of_nat off :: st) -> off < i -> is_read_op (no n) = false -> (nice -> False) -> nden (sub L off (S i - off)) v ->
  scan_div (N.of_nat i) n s = Ok s' -> keeps (S i) s' /\ rep (sc_offs s') (N.of_nat off :: st).
Proof.
  intros IV E R O RD NN ND H. unfold scan_div in H. minv H. assert (SA : same (sc_ses s) v0).
  { destruct (_ <? _)%N; [|injection E0 as <-; apply same_refl]. minv E0. eapply mark_operand_same; eauto. }
  minv H. destruct v1 as [x offs]. destruct (pop0_ok _ _ _ _ _ R E1) as [R' _]. rewrite (peek0_ok _ _ _ R') in H. cbn [bind] in H.
  destruct (required_ok _ _ _ _ _ _ _ _ IV SA E O RD NN ND H) as [K ->]. auto.
Qed.
Lemma fn_ok i n s s' off st v : keeps i s -> nth_error L i = Some n -> rep (sc_offs s) (N.of_nat off :: st) -> off < i -> is_read_op (no n) = false -> (nice -> False) -> nden (sub L off (S i - off)) v ->
  scan_fn (N.of_nat i) n s = Ok s' -> keeps (S i) s' /\ rep (sc_offs s') (N.of_nat off :: st).
Proof.
  intros IV E R O RD NN ND H. unfold scan_fn in H. rewrite (peek0_ok _ _ _ R) in H. cbn [bind] in H. minv H. apply mark_operand_same in E0.
  destruct (required_ok _ _ _ _ _ _ _ _ IV E0 E O RD NN ND H) as [K ->]. auto.
Qed.
Lemma binary_ok i n s s' off off2 st v : keeps i s -> nth_error L i = Some n -> rep (sc_offs s) (N.of_nat off2 :: N.of_nat off :: st) -> off < i -> is_read_op (no n) = false -> nden (sub L off (S i - off)) v ->
  scan_binary (N.of_nat i) n s = Ok s' -> keeps (S i) s' /\ rep (sc_offs s') (N.of_nat off :: st).
Proof.
  intros [IV FR] E R O RD ND H. assert (IL : i < length L) by (apply nth_error_Some; congruence). unfold scan_binary in H. minv H. destruct v0 as [x offs]. destruct (pop0_ok _ _ _ _ _ R E0) as [R' _].
  rewrite (peek0_ok _ _ _ R') in H. cbn [bind] in H. minv H. destruct v0 as [[ses kc] se].
  destruct (reg_ok _ _ _ _ _ _ _ _ _ _ _ IV O RD E ND E1) as [(-> & IV' & -> & KL & d & -> & SD)|(P & -> & IV' & SA & c & C1 & C2 & C3 & C4)].
  - cbn in H. injection H as <-. split; [split; [exact IV'|now apply fresh_new]|exact R'].
  - replace (0 <? se)%N with true in H by lia. minv H. minv H. apply dec_if_same in E3. minv H. minv H. apply dec_if_same in E5. minv H. minv H. injection H as <-. split; [|exact R'].
    pose proof (same_trans _ _ _ E3 E5) as SS. destruct (same_back _ _ _ _ SS C1) as (c' & C1' & AL). destruct (alike_o _ _ AL) as [Q1 Q2]. rewrite Q1, Q2 in *. split; [|intros NI; exfalso; eapply not_nice; [exact IV'|exact E|exact O|exact C1|exact C2|rewrite Q1, Q2; exact C3|lia|exact NI]]. cbn [sc_nodes sc_ses sc_kc].
    eapply to_cse_ok; [exact (inv_same _ _ _ _ _ IV' SS)|exact IL|exact (Nat.lt_le_incl _ _ O)|exact E6|exact C1'|exact C2|exact C3|lia].
Qed.
Lemma poly_ok i n s s' off top st v : keeps i s -> nth_error L i = Some n -> 0 < nex n -> (N.of_nat (nex n) < 2 ^ 62)%N -> length top = 2 * nex n - 1 -> rep (sc_offs s) (top ++ N.of_nat off :: st) -> off < i -> is_read_op (no n) = false ->
  nden (sub L off (S i - off)) v -> scan_poly (N.of_nat i) n s = Ok s' -> keeps (S i) s' /\ rep (sc_offs s') (N.of_nat off :: st).
Proof.
  intros [IV FR] E X0 X1 TL R O RD ND H. assert (IL : i < length L) by (apply nth_error_Some; congruence). unfold scan_poly in H.
  rewrite sub64_le in H by lia. replace (2 * N.of_nat (nex n) - 1)%N with (N.of_nat (2 * nex n - 1)) in H by lia. minv H. destruct v0 as [x offs].
  destruct (pop_ok _ _ (2 * nex n - 1) _ _ R ltac:(rewrite app_length; cbn [length]; lia) E0) as (R' & _ & _). rewrite <- TL, skipn_app, Nat.sub_diag, skipn_all in R'. cbn [skipn app] in R'.
  rewrite (peek0_ok _ _ _ R') in H. cbn [bind] in H. minv H. destruct v0 as [[ses kc] se].
  destruct (reg_ok _ _ _ _ _ _ _ _ _ _ _ IV O RD E ND E1) as [(-> & IV' & -> & KL & d & -> & SD)|(P & -> & IV' & SA & c & C1 & C2 & C3 & C4)].
  - cbn [N.ltb] in H. change (0 <? 0)%N with false in H. cbv iota in H. minv H. injection H as <-. split; [split; [exact IV'|now apply fresh_new]|exact R'].
  - replace (0 <? se)%N with true in H by lia. minv H. apply dec_all_same in E2. minv H. minv H. minv H. injection H as <-. split; [|exact R'].
    destruct (same_back _ _ _ _ E2 C1) as (c' & C1' & AL). destruct (alike_o _ _ AL) as [Q1 Q2]. rewrite Q1, Q2 in *. split; [|intros NI; exfalso; eapply not_nice; [exact IV'|exact E|exact O|exact C1|exact C2|rewrite Q1, Q2; exact C3|lia|exact NI]]. cbn [sc_nodes sc_ses sc_kc].
    eapply to_cse_ok; [exact (inv_same _ _ _ _ _ IV' E2)|exact IL|exact (Nat.lt_le_incl _ _ O)|exact E4|exact C1'|exact C2|exact C3|lia].
Qed.
Lemma push_okk i d s s' st : keeps i s -> i < length L -> rep (sc_offs s) st -> scan_push (N.of_nat i) d s = Ok s' -> keeps (S i) s' /\ rep (sc_offs s') (N.of_nat i :: st).
Proof.
  intros [IV FR] IL R H. unfold scan_push in H. minv H. injection H as <-. destruct (push_ok _ _ _ _ R E) as (R' & _). split; [|exact R']. split; [|exact FR]. cbn [sc_nodes sc_ses sc_kc].
  apply inv_mono with (i := i); [lia|lia|exact IV].
Qed.

(** ** whole programs *)
Lemma scan_app a : forall b i s, scan_all (a + b) i s = (s' <- scan_all a i s;; scan_all b (i + N.of_nat a) s').
Proof.
  induction a as [|a IH]; intros b i s; cbn [scan_all Nat.add]; [cbn [bind]; now rewrite N.add_0_r|]. destruct (scan_node i s) as [s1|]; [|reflexivity]. cbn [bind]. rewrite IH.
  replace (i + 1 + N.of_nat a)%N with (i + N.of_nat (S a))%N by lia. reflexivity.
Qed.
Lemma mid {A} (x y : list A) a : nth_error (x ++ a :: y) (length x) = Some a.
Proof. rewrite nth_error_app2 by lia. now rewrite Nat.sub_diag. Qed.
Lemma sub_mid (x l y : list node) : sub (x ++ l ++ y) (length x) (length l) = l.
Proof. unfold sub. rewrite skipn_app, Nat.sub_diag, skipn_all. cbn [skipn app]. rewrite firstn_app, Nat.sub_diag, firstn_all. now rewrite app_nil_r. Qed.
Lemma scan_here i s s' n : keeps i s -> nth_error L i = Some n -> scan_all 1 (N.of_nat i) s = Ok s' ->
  scan_node (N.of_nat i) s = Ok s' /\ nget (sc_nodes s) (N.of_nat i) = Ok n.
Proof.
  intros K E H. cbn [scan_all] in H. minv H. injection H as <-. split; [exact E0|]. unfold scan_node in E0. minv E0. rewrite E1. f_equal. apply nget_ok in E1 as [E1 _]. rewrite Nat2N.id in E1.
  pose proof (inv_here _ _ _ _ _ (proj1 K) ltac:(apply nth_error_Some; congruence) E1). congruence.
Qed.
Definition scans (l : list node) : Prop := forall A B s s' st, L = A ++ l ++ B -> keeps (length A) s -> rep (sc_offs s) st ->
  scan_all (length l) (N.of_nat (length A)) s = Ok s' -> keeps (length A + length l) s' /\ rep (sc_offs s') (N.of_nat (length A) :: st).
Lemma scan_last l n A B s s' : L = A ++ (l ++ [n]) ++ B -> scan_all (length (l ++ [n])) (N.of_nat (length A)) s = Ok s' ->
  exists s1, scan_all (length l) (N.of_nat (length A)) s = Ok s1 /\ scan_all 1 (N.of_nat (length A + length l)) s1 = Ok s' /\ nth_error L (length A + length l) = Some n /\
    sub L (length A) (S (length A + length l) - length A) = l ++ [n].
Proof.
  intros EL H. rewrite app_length in H. change (length [n]) with 1 in H. rewrite scan_app in H. minv H. exists v. split; [exact E|]. rewrite Nat2N.inj_add. split; [exact H|].
  rewrite EL. split.
  - rewrite <- app_assoc, app_assoc. cbn [app]. rewrite <- app_length. apply mid.
  - replace (S (length A + length l) - length A) with (length (l ++ [n])) by (rewrite app_length; change (length [n]) with 1; lia). apply sub_mid.
Qed.
Lemma leaf_scans n : (forall i s s', nget (sc_nodes s) i = Ok n -> scan_node i s = Ok s' -> scan_push i 0 s = Ok s') -> scans [n].
Proof.
  intros F A B s s' st EL K R H. cbn [length] in H. assert (E : nth_error L (length A) = Some n) by (rewrite EL; apply mid).
  destruct (scan_here _ _ _ _ K E H) as [H1 G]. apply F in H1; [|exact G]. cbn [length]. rewrite Nat.add_1_r. eapply push_okk; eauto. apply nth_error_Some. congruence.
Qed.
Lemma nice_not i n : nth_error L i = Some n -> existsb (N.eqb (no n)) [op_div; op_sqrt; op_sin; op_cos; op_tan] = true -> nice -> False.
Proof. clear. intros E X [_ D]. specialize (D n (nth_error_In _ _ E)). congruence. Qed.
Lemma unary_scans l n v : scans l -> nden (l ++ [n]) v ->
  (forall i s s', nget (sc_nodes s) i = Ok n -> scan_node i s = Ok s' -> s' = s \/ is_read_op (no n) = false /\ (scan_unary i n s = Ok s' \/ scan_fn i n s = Ok s' /\ existsb (N.eqb (no n)) [op_div; op_sqrt; op_sin; op_cos; op_tan] = true)) -> 0 < length l -> scans (l ++ [n]).
Proof.
  intros IH ND F L0 A B s s' st EL K R H. destruct (scan_last _ _ _ _ _ _ EL H) as (s1 & H1 & H2 & E & Q).
  destruct (IH A ([n] ++ B) s s1 st ltac:(now rewrite EL, <- !app_assoc) K R H1) as [K1 R1]. destruct (scan_here _ _ _ _ K1 E H2) as [H3 G].
  rewrite app_length. cbn [length]. replace (length A + (length l + 1)) with (S (length A + length l)) by lia. rewrite <- Q in ND. destruct (F _ _ _ G H3) as [->|[RD [H4|[H4 NO]]]].
  - split; [|exact R1]. split; [|exact (proj2 K1)]. apply inv_mono with (i := length A + length l); [lia|apply nth_error_Some; congruence|exact (proj1 K1)].
  - destruct (unary_ok _ _ _ _ (length A) _ _ K1 E R1 ltac:(lia) RD ND H4) as [K2 ->]. auto.
  - exact (fn_ok _ _ _ _ (length A) _ _ K1 E R1 ltac:(lia) RD (nice_not _ _ E NO) ND H4).
Qed.
Lemma binary_scans l r n v : scans l -> scans r -> nden (l ++ r ++ [n]) v ->
  (forall i s s', nget (sc_nodes s) i = Ok n -> scan_node i s = Ok s' -> scan_binary i n s = Ok s' \/ scan_div i n s = Ok s' /\ existsb (N.eqb (no n)) [op_div; op_sqrt; op_sin; op_cos; op_tan] = true) -> is_read_op (no n) = false -> 0 < length l -> scans (l ++ r ++ [n]).
Proof.
  intros IHl IHr ND F RD L0 A B s s' st EL K R H. rewrite (app_assoc l r [n]) in EL, H, ND. destruct (scan_last _ _ _ _ _ _ EL H) as (s1 & H1 & H2 & E & Q).
  rewrite app_length, scan_app in H1. minv H1.
  destruct (IHl A (r ++ [n] ++ B) s v0 st ltac:(now rewrite EL, <- !app_assoc) K R E0) as [K0 R0].
  replace (N.of_nat (length A) + N.of_nat (length l))%N with (N.of_nat (length (A ++ l))) in H1 by (rewrite app_length; lia).
  destruct (IHr (A ++ l) ([n] ++ B) v0 s1 (N.of_nat (length A) :: st) ltac:(now rewrite EL, <- !app_assoc) ltac:(now rewrite app_length) R0 H1) as [K1 R1].
  rewrite app_length, <- Nat.add_assoc, <- app_length in K1. rewrite app_length in R1. destruct (scan_here _ _ _ _ K1 E H2) as [H3 G]. rewrite <- Q in ND.
  rewrite app_assoc. rewrite (app_length (l ++ r)). cbn [length]. replace (length A + (length (l ++ r) + 1)) with (S (length A + length (l ++ r))) by lia.
  destruct (F _ _ _ G H3) as [H4|[H4 NO]]; [eapply binary_ok|eapply div_ok]; eauto using nice_not; rewrite app_length; lia.
Qed.
Definition scans_items (L0 : list item) : Prop := forall A B s s' st, L = A ++ flat_map render L0 ++ B -> keeps (length A) s -> rep (sc_offs s) st ->
  scan_all (length (flat_map render L0)) (N.of_nat (length A)) s = Ok s' ->
  keeps (length A + length (flat_map render L0)) s' /\ exists top, rep (sc_offs s') (top ++ st) /\ length top = 2 * length L0 /\ (L0 <> [] -> last top 0%N = N.of_nat (length A)).
Lemma poly_scans l n v : scans_items l -> l <> [] -> nex n = length l -> nden (flat_map render l ++ [n]) v ->
  (forall i s s', nget (sc_nodes s) i = Ok n -> scan_node i s = Ok s' -> scan_poly i n s = Ok s') -> is_read_op (no n) = false -> scans (flat_map render l ++ [n]).
Proof.
  intros IH NE X ND F RD A B s s' st EL K R H. destruct (scan_last _ _ _ _ _ _ EL H) as (s1 & H1 & H2 & E & Q).
  destruct (IH A ([n] ++ B) s s1 st ltac:(now rewrite EL, <- !app_assoc) K R H1) as (K1 & top & R1 & TL & LT). destruct (scan_here _ _ _ _ K1 E H2) as [H3 G].
  rewrite app_length. cbn [length]. replace (length A + (length (flat_map render l) + 1)) with (S (length A + length (flat_map render l))) by lia. rewrite <- Q in ND.
  assert (LN : length l <= length L).
  { rewrite EL, !app_length. assert (forall k : list item, length k <= length (flat_map render k)) by (induction k; [cbn; lia|]; cbn [flat_map render app length]; rewrite app_length; lia). specialize (H0 l). lia. }
  assert (0 < length l) by (destruct l; [congruence|cbn; lia]).
  destruct top as [|t0 top0] using rev_ind; [cbn in TL; lia|]. clear IHtop0. specialize (LT NE). rewrite last_last in LT. subst t0. rewrite app_length in TL. cbn [length] in TL. rewrite <- app_assoc in R1. cbn [app] in R1.
  eapply poly_ok; [exact K1|exact E|lia|lia| |exact R1| |exact RD|exact ND|apply F; [exact G|exact H3]]; [lia|]. clear - H0 NE. destruct l; [congruence|]. cbn [flat_map render app length]. lia.
Qed.
Lemma no_node o cs ex q : (no (mknode o cs ex q)) = o. Proof. reflexivity. Qed.
Lemma high_scan i n s s' : (c_scalar <= no n)%N -> nget (sc_nodes s) i = Ok n -> scan_node i s = Ok s' -> scan_push i 0 s = Ok s'.
Proof.
  intros H G E. unfold scan_node in E. rewrite G in E. cbn [bind] in E. assert (X : forall k, (k <= 17)%N -> (no n =? k)%N = false) by (intros; apply N.eqb_neq; unfold c_scalar in H; lia).
  unfold is_read_op in E. rewrite !X in E by (unfold op_se, op_sum, op_ep, op_cse, op_noop, op_rev, op_pd, op_comp, op_grd, op_sqrt, op_sin, op_cos, op_tan, op_gp, op_lc, op_sip, op_div; lia). exact E.
Qed.
Ltac go G E := unfold scan_node in E; rewrite G in E; cbn [bind no] in E; exact E.
Lemma nden_pos l v : nden l v -> 0 < length l.
Proof. clear. intros H. destruct l; [|cbn; lia]. pose proof (nden_operand m env _ _ H) as Q. vm_compute in Q. discriminate. Qed.
Lemma nil_scans : scans_items [].
Proof. intros A B s s' st EL K R H. cbn in H. injection H as <-. cbn [flat_map length]. rewrite Nat.add_0_r. split; [exact K|]. exists []. split; [exact R|]. split; [reflexivity|congruence]. Qed.
Lemma cons_scans i L0 : scans (i_body i) -> scans_items L0 -> scans_items (i :: L0).
Proof.
  intros IHb IHL A B s s' st EL K R H. cbn [flat_map] in EL, H |- *. unfold render at 1 in EL. unfold render at 1 in H. unfold render at 1. cbn [app length] in *.
  assert (E : nth_error L (length A) = Some (mknode op_se (i_cs i) (length (i_body i)) (i_q i))) by (rewrite EL; apply mid).
  change (S (length (i_body i ++ flat_map render L0))) with (1 + length (i_body i ++ flat_map render L0)) in H. rewrite scan_app in H. minv H.
  destruct (scan_here _ _ _ _ K E E0) as [H1 G].
  assert (P : scan_push (N.of_nat (length A)) 1 s = Ok v) by (go G H1).
  destruct (push_okk _ _ _ _ _ K ltac:(apply nth_error_Some; congruence) R P) as [K1 R1].
  rewrite app_length, scan_app in H. minv H. set (A1 := A ++ [mknode op_se (i_cs i) (length (i_body i)) (i_q i)]) in *. assert (LA : length A1 = S (length A)) by (unfold A1; rewrite app_length; cbn; lia).
  replace (N.of_nat (length A) + N.of_nat 1)%N with (N.of_nat (length A1)) in E1 by lia. rewrite <- LA in K1.
  destruct (IHb A1 (flat_map render L0 ++ B) v v0 _ ltac:(unfold A1; rewrite EL, <- !app_assoc; cbn [app]; reflexivity) K1 R1 E1) as [K2 R2].
  set (A2 := A1 ++ i_body i). assert (LA2 : length A2 = length A1 + length (i_body i)) by (unfold A2; now rewrite app_length).
  replace (N.of_nat (length A) + N.of_nat 1 + N.of_nat (length (i_body i)))%N with (N.of_nat (length A2)) in H by lia. rewrite <- LA2 in K2.
  destruct (IHL A2 B v0 s' _ ltac:(unfold A2, A1; rewrite EL, <- !app_assoc; cbn [app]; reflexivity) K2 R2 H) as (K3 & top & R3 & T1 & T2).
  split; [rewrite app_length; replace (length A + S (length (i_body i) + length (flat_map render L0))) with (length A2 + length (flat_map render L0)) by lia; exact K3|].
  exists (top ++ [N.of_nat (length A1); N.of_nat (length A)]). split; [rewrite <- app_assoc; exact R3|]. split; [rewrite app_length, T1; cbn [length]; lia|].
  intros _. change [N.of_nat (length A1); N.of_nat (length A)] with ([N.of_nat (length A1)] ++ [N.of_nat (length A)]). rewrite app_assoc. apply last_last.
Qed.
Theorem nden_scans l v : nden l v -> scans l.
Proof.
  intros H. apply (nden_mind m env (fun l _ => scans l) (fun _ => scans_items)) with (l := l) (v := v); try exact H; clear l v H.
  - intros cs ex q v _. apply leaf_scans. intros i s s' G E. go G E.
  - intros cs ex q. apply leaf_scans. intros i s s' G E. go G E.
  - intros o cs ex q H. apply leaf_scans. intros i s s' G E. exact (high_scan i (mknode o cs ex q) s s' H G E).
  - intros l v cs ex q H IH. eapply unary_scans; [exact IH|apply nd_rev; exact H| |exact (nden_pos _ _ H)]. intros i s s' G E. right. split; [reflexivity|]. left. go G E.
  - intros l v cs ex q H IH. eapply unary_scans; [exact IH|apply nd_pd; exact H| |exact (nden_pos _ _ H)]. intros i s s' G E. right. split; [reflexivity|]. left. go G E.
  - intros o k l r v w cs ex q O Hl IHl Hr IHr. eapply binary_scans; [exact IHl|exact IHr|eapply nd_bin; eauto| |destruct (binop_cases _ _ O) as [X|[X|X]]; subst o; reflexivity|exact (nden_pos _ _ Hl)]. intros i s s' G E. left.
    destruct (binop_cases _ _ O) as [X|[X|X]]; subst o; go G E.
  - intros l cs q H IH NE. eapply poly_scans; [exact IH|exact NE|reflexivity|apply nd_sum; auto| |reflexivity]. intros i s s' G E. go G E.
  - intros l cs q H IH NE. eapply poly_scans; [exact IH|exact NE|reflexivity|apply nd_ep; auto| |reflexivity]. intros i s s' G E. go G E.
  - intros l v cs ex q H IH. eapply unary_scans; [exact IH|apply nd_comp; exact H| |exact (nden_pos _ _ H)]. intros i s s' G E. left. unfold scan_node in E. rewrite G in E. cbn [bind no] in E. injection E as <-. reflexivity.
  - intros l v cs ex q H IH. eapply unary_scans; [exact IH|apply nd_grd; exact H| |exact (nden_pos _ _ H)]. intros i s s' G E. left. unfold scan_node in E. rewrite G in E. cbn [bind no] in E. injection E as <-. reflexivity.
  - intros l r v w cs ex q Hl IHl Hr IHr S0 W0. eapply binary_scans; [exact IHl|exact IHr|eapply nd_div; eauto| |reflexivity|exact (nden_pos _ _ Hl)]. intros i s s' G E. right. split; [go G E|reflexivity].
  - intros o f l v cs ex q O Hl IHl S0. eapply unary_scans; [exact IHl|eapply nd_fn; eauto| |exact (nden_pos _ _ Hl)]. intros i s s' G E. right.
    destruct (fn_cases _ _ O) as [X|[X|[X|X]]]; subst o; (split; [reflexivity|]; right; split; [go G E|reflexivity]).
  - intros k. apply nil_scans.
  - intros k i L0 Hb IHb Hq HL IHL. now apply cons_scans.
Qed.
Lemma ses_scans k L0 : ses m env k L0 -> scans_items L0.
Proof. induction 1; [apply nil_scans|]. apply cons_scans; [|assumption]. eapply nden_scans; eauto. Qed.
End Scan.
