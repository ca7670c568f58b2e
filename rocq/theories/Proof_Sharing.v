(** Reshaping: which operands are found again. Operands are nested or disjoint; an operand that is
    found to be a repetition has only parts that are repetitions themselves. *)
From Coq Require Import ZArith NArith List Bool Arith Lia ZifyBool ZifyN ZifyNat.
From Verif Require Import Base Model_Numeric Model_Stack Model_Expr Model_Dfa Model_Reshape Spec_Reshape.
Import ListNotations.
Local Open Scope nat_scope.

(** ** parts of lists *)
Lemma sub_cut (l : list node) p e s : p <= e -> e <= s -> sub l p (s - p) = sub l p (e - p) ++ sub l e (s - e).
Proof.
  intros A B. unfold sub. replace (s - p) with ((e - p) + (s - e)) by lia. rewrite <- (firstn_skipn (e - p) (firstn (e - p + (s - e)) (skipn p l))). f_equal.
  - rewrite firstn_firstn. f_equal. lia.
  - rewrite skipn_firstn_comm. f_equal; [lia|]. clear B. revert p e A. induction l as [|a l IH]; intros p e A; [now rewrite !skipn_nil|]. destruct p; [cbn [skipn]; now rewrite Nat.sub_0_r|].
    destruct e; [lia|]. cbn [skipn Nat.sub]. apply IH. lia.
Qed.
Lemma sub_length (l : list node) p k : p + k <= length l -> length (sub l p k) = k.
Proof. intros H. unfold sub. rewrite firstn_length, skipn_length. lia. Qed.
Lemma sub_sub (l : list node) p k j t : j + t <= k -> sub (sub l p k) j t = sub l (p + j) t.
Proof.
  intros H. unfold sub. rewrite skipn_firstn_comm, firstn_firstn. replace (Nat.min t (k - j)) with t by lia. f_equal. clear. revert p. induction l as [|a l IH]; intros p; [now rewrite !skipn_nil|].
  destruct p; [reflexivity|]. cbn [skipn Nat.add]. apply IH.
Qed.
Lemma sub_part l p q k j t : sub l p k = sub l q k -> j + t <= k -> sub l (p + j) t = sub l (q + j) t.
Proof. intros E H. rewrite <- !(sub_sub l _ k) by exact H. now rewrite E. Qed.

(** ** the height of the stack *)
Lemma depth_app a : forall d b, depth d (a ++ b) = match depth d a with Some d' => depth d' b | None => None end.
Proof. induction a as [|n a IH]; intros d b; [reflexivity|]. cbn [app depth]. destruct (depth_step d n); [apply IH|reflexivity]. Qed.
Lemma depth_step_pos d n d' : depth_step d n = Some d' -> 1 <= d'.
Proof. unfold depth_step. destruct (_ <=? _); [|discriminate]. intros E. injection E as <-. lia. Qed.
Lemma depth_pos l : forall d d', l <> [] -> depth d l = Some d' -> 1 <= d'.
Proof.
  induction l as [|n l IH]; intros d d' NE H; [congruence|]. cbn [depth] in H. destruct (depth_step d n) as [d1|] eqn:E; [|discriminate].
  destruct l as [|x l]; [cbn in H; injection H as <-; eapply depth_step_pos; eauto|]. eapply IH; [discriminate|exact H].
Qed.
Lemma depth_step_shift d n d' c : depth_step d n = Some d' -> depth_step (d + c) n = Some (d' + c).
Proof.
  unfold depth_step. cbv zeta. generalize (if ((no n =? op_sum) || (no n =? op_ep))%N then 2 * nex n else arity (no n)). intros k. destruct (Nat.leb_spec k d); [|discriminate]. intros E. injection E as <-. replace (k <=? d + c) with true by lia. f_equal. lia.
Qed.
Lemma depth_shift l : forall d d' c, depth d l = Some d' -> depth (d + c) l = Some (d' + c).
Proof.
  induction l as [|n l IH]; intros d d' c H; cbn [depth] in *; [now injection H as <-|]. destruct (depth_step d n) as [d1|] eqn:E; [|discriminate].
  rewrite (depth_step_shift _ _ _ c E). now apply IH.
Qed.

Section Sharing.
Variable L : list node.
(** an operand of an operation that is looked up: from [p] up to [e] *)
Definition reg (p e : nat) : Prop := S p < e /\ e <= length L /\ operand (sub L p (e - p)) = true /\ is_read_op (no (last (sub L p (e - p)) node0)) = false.
Lemma operand_depth l : operand l = true -> depth 0 l = Some 1.
Proof. unfold operand. destruct (depth 0 l) as [[|[|]]|]; congruence. Qed.
Lemma sub_ne p k : p < length L -> 0 < k -> sub L p k <> [].
Proof. intros A B E. apply (f_equal (@length _)) in E. unfold sub in E. rewrite firstn_length, skipn_length in E. cbn in E. lia. Qed.
Lemma reg_nested p e p' e' : reg p e -> reg p' e' -> p < p' -> p' < e -> e' <= e.
Proof.
  intros (A1 & A2 & A3 & _) (B1 & B2 & B3 & _) P1 P2. destruct (Nat.le_gt_cases e' e) as [H|H]; [exact H|exfalso].
  apply operand_depth in A3, B3. rewrite (sub_cut L p p' e), depth_app in A3 by lia. rewrite (sub_cut L p' e e'), depth_app in B3 by lia.
  destruct (depth 0 (sub L p (p' - p))) as [d0|] eqn:E0; [|discriminate]. apply depth_pos in E0; [|apply sub_ne; lia].
  destruct (depth 0 (sub L p' (e - p'))) as [d|] eqn:E1; [|discriminate]. pose proof (depth_pos _ _ _ (sub_ne p' (e - p') ltac:(lia) ltac:(lia)) E1) as D.
  apply (depth_shift _ _ _ d0) in E1. rewrite Nat.add_0_l in E1. rewrite E1 in A3. injection A3 as A3. lia.
Qed.
Lemma reg_start p p' e : reg p e -> reg p' e -> p = p'.
Proof.
  assert (G : forall p p', reg p e -> reg p' e -> p < p' -> False).
  { clear. intros p p' (A1 & A2 & A3 & _) (B1 & B2 & B3 & _) P. apply operand_depth in A3, B3. rewrite (sub_cut L p p' e), depth_app in A3 by lia.
    destruct (depth 0 (sub L p (p' - p))) as [d0|] eqn:E0; [|discriminate]. apply depth_pos in E0; [|apply sub_ne; lia]. apply (depth_shift _ _ _ d0) in B3. rewrite Nat.add_0_l, A3 in B3. injection B3 as B3. lia. }
  intros A B. destruct (Nat.lt_trichotomy p p') as [H|[H|H]]; [elim (G p p')|exact H|elim (G p' p)]; auto.
Qed.
Lemma reg_part p q k j t : sub L p k = sub L q k -> p + k <= length L -> q + k <= length L -> j + t <= k -> reg (p + j) (p + j + t) -> reg (q + j) (q + j + t).
Proof.
  intros E P Q J (A1 & A2 & A3 & A4). pose proof (sub_part L p q k j t E J) as S. replace (p + j + t - (p + j)) with t in * by lia.
  unfold reg. replace (q + j + t - (q + j)) with t by lia. rewrite <- S. repeat split; auto; lia.
Qed.

(** ** references and known operands *)
(** the nodes, some of which are references, and the known operands: offset and length *)
Variable i : nat.
Definition matched (N : list node) (p e : nat) : Prop := exists n, nth_error N p = Some n /\ no n = op_cse /\ e <= N.to_nat (ncs n).
Definition known (E : list (nat * nat)) (p e : nat) : Prop := exists j, nth_error E j = Some (p, e - p).
(** wherever a known operand has a reference, it is the largest possible *)
Definition compat (N : list node) (o k : nat) : Prop := forall p e n, nth_error N p = Some n -> no n = op_cse -> reg p e -> o <= p -> e <= o + k -> e - p < k -> e <= N.to_nat (ncs n).
Definition clash (N : list node) (p q k : nat) : Prop := exists j a b, j < k /\ nth_error N (p + j) = Some a /\ nth_error N (q + j) = Some b /\ no a = op_cse /\ no b = op_cse /\
  N.to_nat (ncs a) - (p + j) <> N.to_nat (ncs b) - (q + j).
End Sharing.
Record link (L : list node) (i : nat) (N : list node) (E : list (nat * nat)) : Prop := {
  lk_ref : forall p n, nth_error N p = Some n -> no n = op_cse -> exists e o k, ncs n = N.of_nat e /\ e <= i /\ reg L p e /\ nth_error E (nex n) = Some (o, k) /\ k = e - p /\ sub L o k = sub L p k /\ o < p /\
    compat L N o k /\ forall j' o', j' < nex n -> nth_error E j' = Some (o', k) -> sub L o' k = sub L p k -> ~ compat L N o' k;
  lk_entry : forall j o k, nth_error E j = Some (o, k) -> reg L o (o + k) /\ o + k <= i;
  lk_done : forall p e, reg L p e -> e <= i -> known E p e \/ matched N p e;
  lk_excl : forall p e, known E p e -> matched N p e -> False;
  lk_in : forall p e p' e', reg L p e -> reg L p' e' -> p <= p' -> e' <= e -> matched N p e -> matched N p' e';
  lk_again : forall p q k, reg L p (p + k) -> reg L q (q + k) -> p < q -> q + k <= i -> sub L p k = sub L q k -> matched N p (p + k) -> matched N q (q + k);
  lk_some : forall p k, reg L p (p + k) -> matched N p (p + k) -> exists j o, nth_error E j = Some (o, k) /\ sub L o k = sub L p k /\ compat L N o k;
  lk_clash : forall j1 j2 o1 o2 k, j1 < j2 -> nth_error E j1 = Some (o1, k) -> nth_error E j2 = Some (o2, k) -> sub L o1 k = sub L o2 k -> clash N o1 o2 k;
  lk_order : forall j1 j2 o1 k1 o2 k2, j1 < j2 -> nth_error E j1 = Some (o1, k1) -> nth_error E j2 = Some (o2, k2) -> o1 + k1 < o2 + k2 }.

Section Step.
Variable L : list node.
Notation reg := (reg L). Notation compat := (compat L).
Lemma reg_len p e : reg p e -> S p < e /\ e <= length L. Proof. intros (A & B & _). auto. Qed.
(** a reference at [p] ends at [e] *)
Lemma matched_ref i N E p e : link L i N E -> matched N p e -> exists n f, nth_error N p = Some n /\ no n = op_cse /\ ncs n = N.of_nat f /\ e <= f <= i /\ reg p f.
Proof.
  intros K (n & A & B & C). destruct (lk_ref _ _ _ _ K p n A B) as (f & o & k & F1 & F2 & F3 & _). exists n, f. repeat split; auto; try apply F3. lia.
Qed.
(** references at the same place of two equal matched operands are equally long *)
Lemma inner_ext i N E p q k : link L i N E -> matched N p (p + k) -> matched N q (q + k) -> reg p (p + k) -> reg q (q + k) -> sub L p k = sub L q k ->
  forall t a b, 0 < t < k -> nth_error N (p + t) = Some a -> nth_error N (q + t) = Some b -> no a = op_cse -> no b = op_cse -> N.to_nat (ncs a) - (p + t) = N.to_nat (ncs b) - (q + t).
Proof.
  intros K MP MQ RP RQ SC.
  assert (G : forall p q, matched N q (q + k) -> reg p (p + k) -> reg q (q + k) -> sub L p k = sub L q k -> forall t a b, 0 < t < k -> nth_error N (p + t) = Some a -> nth_error N (q + t) = Some b ->
    no a = op_cse -> no b = op_cse -> N.to_nat (ncs a) - (p + t) <= N.to_nat (ncs b) - (q + t)).
  { clear p q MP MQ RP RQ SC. intros p q MQ RP RQ SC t a b T A B CA CB. destruct (lk_ref _ _ _ _ K _ _ A CA) as (e & _ & _ & EA & _ & RE & _). pose proof (reg_nested L _ _ _ _ RP RE ltac:(lia) ltac:(lia)) as LE.
    pose proof (reg_len _ _ RE). pose proof (reg_len _ _ RP). pose proof (reg_len _ _ RQ).
    assert (RB : reg (q + t) (q + t + (e - (p + t)))) by (apply (reg_part L p q k t (e - (p + t)) SC); try lia; replace (p + t + (e - (p + t))) with e by lia; exact RE).
    destruct (lk_in _ _ _ _ K _ _ _ _ RQ RB ltac:(lia) ltac:(lia) MQ) as (b' & B1 & B2 & B3). rewrite B in B1. injection B1 as <-. lia. }
  intros t a b T A B CA CB. apply Nat.le_antisymm; [apply (G p q)|apply (G q p)]; auto.
Qed.
(** all parts of the operand from [q] on, [k] nodes, that are looked up are matched *)
Definition inside (N : list node) (q k : nat) : Prop := forall p e, reg p e -> q <= p -> e <= q + k -> e - p < k -> matched N p e.
(** then a compatible known operand does not clash with it *)
Lemma compat_no_clash i N E j o k q : link L i N E -> nth_error E j = Some (o, k) -> sub L o k = sub L q k -> reg q (q + k) -> q + k = S i -> inside N q k -> compat N o k -> ~ clash N o q k.
Proof.
  intros K EJ SC RQ QK IN CO (t & a & b & T & A & B & CA & CB & NE). apply NE. clear NE. destruct (lk_entry _ _ _ _ K _ _ _ EJ) as [RO OI]. pose proof (reg_len _ _ RO). pose proof (reg_len _ _ RQ).
  destruct (lk_ref _ _ _ _ K _ _ A CA) as (e & _ & _ & EA & _ & RA & _). destruct (lk_ref _ _ _ _ K _ _ B CB) as (f & _ & _ & EB & FI & RB & _). rewrite EA, EB, !Nat2N.id.
  pose proof (reg_len _ _ RA). pose proof (reg_len _ _ RB).
  (* the reference in the known operand ends inside it *)
  assert (LE : e <= o + k /\ e - (o + t) < k).
  { destruct t as [|t]; [|split; [apply (reg_nested L _ _ _ _ RO RA); lia|pose proof (reg_nested L _ _ _ _ RO RA); lia]]. rewrite Nat.add_0_r in *. destruct (Nat.le_gt_cases (o + k) e) as [X|X]; [|lia].
    exfalso. apply (lk_excl _ _ _ _ K o (o + k)); [exists j; now replace (o + k - o) with k by lia|]. exists a. repeat split; auto. lia. }
  destruct LE as [L1 L2]. apply Nat.le_antisymm.
  - assert (R : reg (q + t) (q + t + (e - (o + t)))) by (apply (reg_part L o q k t (e - (o + t)) SC); try lia; replace (o + t + (e - (o + t))) with e by lia; exact RA).
    destruct (IN _ _ R ltac:(lia) ltac:(lia) ltac:(lia)) as (b' & B1 & _ & B3). rewrite B in B1. injection B1 as <-. lia.
  - assert (R : reg (o + t) (o + t + (f - (q + t)))) by (apply (reg_part L q o k t (f - (q + t)) (eq_sym SC)); try lia; replace (q + t + (f - (q + t))) with f by lia; exact RB).
    pose proof (CO _ _ a A CA R ltac:(lia) ltac:(lia) ltac:(lia)). lia.
Qed.
(** the parts of an operand equal to a known one that does not clash *)
Lemma match_inside i N E j o k q : link L i N E -> nth_error E j = Some (o, k) -> sub L o k = sub L q k -> reg q (q + k) -> q + k = S i -> o < q -> ~ clash N o q k -> inside N q k.
Proof.
  intros K EJ SC RQ QK OQ NC p e R P1 P2 P3. destruct (lk_entry _ _ _ _ K _ _ _ EJ) as [RO OI]. pose proof (reg_len _ _ RO). pose proof (reg_len _ _ RQ). pose proof (reg_len _ _ R).
  assert (EI : e <= i). { destruct (Nat.eq_dec e (S i)) as [X|X]; [|lia]. subst e. rewrite <- QK in R. pose proof (reg_start L _ _ _ R RQ). lia. }
  assert (EX : exists t w, p = q + t /\ e = q + t + w) by (exists (p - q), (e - p); lia). destruct EX as (t & w & -> & ->).
  destruct (lk_done _ _ _ _ K _ _ R EI) as [EN|M]; [|exact M]. exfalso.
  assert (RY : reg (o + t) (o + t + w)) by (apply (reg_part L q o k t w (eq_sym SC)); try lia; exact R).
  pose proof (sub_part L o q k t w SC ltac:(lia)) as SW.
  destruct (lk_done _ _ _ _ K _ _ RY ltac:(lia)) as [EY|MY].
  - destruct EN as (j2 & EN). destruct EY as (j1 & EY). replace (q + t + w - (q + t)) with w in EN by lia. replace (o + t + w - (o + t)) with w in EY by lia.
    assert (J : j1 < j2).
    { destruct (Nat.lt_trichotomy j1 j2) as [J|[->|J]]; [exact J| |]; [rewrite EN in EY; injection EY as EY; lia|]. pose proof (lk_order _ _ _ _ K _ _ _ _ _ _ J EN EY). lia. }
    destruct (lk_clash _ _ _ _ K _ _ _ _ _ J EY EN SW) as (u & a & b & U & A & B & CA & CB & NE). apply NC. exists (t + u), a, b. rewrite !Nat.add_assoc. repeat split; auto. lia.
  - apply (lk_excl _ _ _ _ K _ _ EN). apply (lk_again _ _ _ _ K (o + t) (q + t) w); auto; lia.
Qed.
(** a new known operand *)
Lemma link_new i N E q k : link L i N E -> reg q (q + k) -> q + k = S i -> (forall j o, nth_error E j = Some (o, k) -> sub L o k = sub L q k -> clash N o q k) -> link L (S i) N (E ++ [(q, k)]).
Proof.
  intros K RQ QK CL. pose proof (reg_len _ _ RQ) as LQ.
  assert (SP : forall j o w, nth_error (E ++ [(q, k)]) j = Some (o, w) -> nth_error E j = Some (o, w) \/ j = length E /\ o = q /\ w = k).
  { intros j o w H. destruct (Nat.lt_ge_cases j (length E)) as [X|X]; [left; now rewrite nth_error_app1 in H by exact X|]. right. rewrite nth_error_app2 in H by exact X.
    destruct (j - length E) as [|[|]] eqn:Y; try discriminate. injection H as <- <-. repeat split; lia. }
  assert (OL : forall j o w, nth_error E j = Some (o, w) -> nth_error (E ++ [(q, k)]) j = Some (o, w) /\ j < length E).
  { intros j o w H. assert (X : j < length E) by (apply nth_error_Some; congruence). now rewrite nth_error_app1. }
  assert (NM : forall p, ~ matched N p (S i)).
  { intros p M. destruct (matched_ref _ _ _ _ _ K M) as (n & f & _ & _ & _ & F & _). lia. }
  constructor.
  - intros p n H C. destruct (lk_ref _ _ _ _ K p n H C) as (e & o & w & A1 & A2 & A3 & A4 & A5 & A6 & A7 & A8 & A9). destruct (OL _ _ _ A4) as [B1 B2]. exists e, o, w. repeat split; auto; try apply A3; try lia.
    intros j' o' J H'. destruct (SP _ _ _ H') as [X|[X _]]; [eapply A9; eauto|lia].
  - intros j o w H. destruct (SP _ _ _ H) as [X|(_ & -> & ->)]; [destruct (lk_entry _ _ _ _ K _ _ _ X); split; auto; lia|]. split; [exact RQ|lia].
  - intros p e R EI. destruct (Nat.eq_dec e (S i)) as [->|NE].
    + left. rewrite <- QK in R. rewrite (reg_start L _ _ _ R RQ). exists (length E). rewrite nth_error_app2, Nat.sub_diag by lia. replace (S i - q) with k by lia. reflexivity.
    + destruct (lk_done _ _ _ _ K p e R ltac:(lia)) as [(j & X)|X]; [left|now right]. exists j. now destruct (OL _ _ _ X).
  - intros p e (j & H) M. destruct (SP _ _ _ H) as [X|(_ & -> & X)]; [apply (lk_excl _ _ _ _ K p e); [now exists j|exact M]|]. destruct M as (n & M1 & M2 & M3). apply (NM q). exists n. repeat split; auto. lia.
  - intros p e p' e' R R' P1 P2 M. eapply (lk_in _ _ _ _ K p e); eauto.
  - intros p p' w R R' P1 P2 SC M. destruct (Nat.eq_dec (p' + w) (S i)) as [X|X]; [|apply (lk_again _ _ _ _ K p p' w); auto; lia]. exfalso.
    assert (p' = q) by (apply (reg_start L p' q (q + k)); [replace (q + k) with (p' + w) by lia; exact R'|exact RQ]). subst p'. assert (w = k) by lia. subst w.
    destruct (lk_some _ _ _ _ K p k R M) as (j & o & E1 & E2 & E3). pose proof (reg_len _ _ R).
    apply (compat_no_clash i N E j o k q K E1 ltac:(congruence) RQ QK); [|exact E3|apply (CL j o E1); congruence].
    intros u e RU U1 U2 U3. pose proof (reg_len _ _ RU). assert (EX : exists t v, u = q + t /\ e = q + t + v) by (exists (u - q), (e - u); lia). destruct EX as (t & v & -> & ->).
    assert (RP : reg (p + t) (p + t + v)) by (apply (reg_part L q p k t v (eq_sym SC)); try lia; exact RU).
    apply (lk_again _ _ _ _ K (p + t) (q + t) v); auto; try lia.
    + destruct (Nat.eq_dec (q + t + v) (S i)) as [Y|Y]; [|lia]. rewrite Y, <- QK in RU. pose proof (reg_start L _ _ _ RU RQ). lia.
    + apply (sub_part L p q k); [exact SC|lia].
    + apply (lk_in _ _ _ _ K p (p + k)); auto; lia.
  - intros p w R M. destruct (lk_some _ _ _ _ K p w R M) as (j & o & E1 & E2). exists j, o. split; [now destruct (OL _ _ _ E1)|exact E2].
  - intros j1 j2 o1 o2 w J H1 H2 SC. destruct (SP _ _ _ H2) as [X|(-> & -> & ->)].
    + destruct (SP _ _ _ H1) as [Y|(-> & _)]; [|destruct (OL _ _ _ X); lia]. eapply (lk_clash _ _ _ _ K); eauto.
    + destruct (SP _ _ _ H1) as [Y|(-> & _)]; [|lia]. eapply CL; eauto.
  - intros j1 j2 o1 k1 o2 k2 J H1 H2. destruct (SP _ _ _ H2) as [X|(-> & -> & ->)].
    + destruct (SP _ _ _ H1) as [Y|(-> & _)]; [|destruct (OL _ _ _ X); lia]. eapply (lk_order _ _ _ _ K j1 j2); eauto.
    + destruct (SP _ _ _ H1) as [Y|(-> & _)]; [|lia]. destruct (lk_entry _ _ _ _ K _ _ _ Y). lia.
Qed.

(** an operand that is found again becomes a reference *)
Lemma link_match i N N' E q k j o nd : link L i N E -> reg q (q + k) -> q + k = S i -> nth_error E j = Some (o, k) -> sub L o k = sub L q k -> o < q -> ~ clash N o q k ->
  (forall j' o', j' < j -> nth_error E j' = Some (o', k) -> sub L o' k = sub L q k -> clash N o' q k) ->
  nth_error N' q = Some nd -> (forall p, p <> q -> nth_error N' p = nth_error N p) -> no nd = op_cse -> ncs nd = N.of_nat (S i) -> nex nd = j -> link L (S i) N' E.
Proof.
  intros K RQ QK EJ SC OQ NC FI NQ NO D1 D2 D3. pose proof (reg_len _ _ RQ) as LQ. pose proof (match_inside _ _ _ _ _ _ _ K EJ SC RQ QK OQ NC) as IN.
  assert (MO : forall p e, matched N p e -> matched N' p e).
  { intros p e M. destruct (Nat.eq_dec p q) as [->|X]; [|destruct M as (n & M); exists n; now rewrite NO]. destruct (matched_ref _ _ _ _ _ K M) as (_ & f & _ & _ & _ & F & _). exists nd. repeat split; auto. lia. }
  assert (MI : forall p e, matched N' p e -> p <> q /\ matched N p e \/ p = q /\ e <= S i).
  { intros p e (n & M1 & M2 & M3). destruct (Nat.eq_dec p q) as [->|X]; [right|left].
    - rewrite NQ in M1. injection M1 as <-. split; auto. lia.
    - split; [exact X|]. exists n. now rewrite <- NO. }
  assert (OUT : forall j o k, nth_error E j = Some (o, k) -> o <= q -> q < o + k -> False).
  { intros j1 o1 k1 H1 A B. destruct (lk_entry _ _ _ _ K _ _ _ H1) as [R1 I1]. destruct (Nat.eq_dec o1 q) as [->|X].
    - apply (lk_excl _ _ _ _ K q (q + k1)); [exists j1; now replace (q + k1 - q) with k1 by lia|]. apply IN; auto; lia.
    - pose proof (reg_nested L _ _ _ _ R1 RQ ltac:(lia) B). lia. }
  assert (CO1 : forall j o k, nth_error E j = Some (o, k) -> compat N o k -> compat N' o k).
  { intros j1 o1 k1 H1 C p e n A B R P1 P2 P3. pose proof (reg_len _ _ R). assert (p <> q) by (intros ->; apply (OUT _ _ _ H1); lia). rewrite NO in A by auto. eapply C; eauto. }
  assert (CO2 : forall j o k, nth_error E j = Some (o, k) -> compat N' o k -> compat N o k).
  { intros j1 o1 k1 H1 C p e n A B R P1 P2 P3. pose proof (reg_len _ _ R). assert (p <> q) by (intros ->; apply (OUT _ _ _ H1); lia). rewrite <- NO in A by auto. eapply C; eauto. }
  assert (CC : compat N o k).
  { intros p e n A B R P1 P2 P3. pose proof (reg_len _ _ R). destruct (lk_entry _ _ _ _ K _ _ _ EJ) as [RO OI]. assert (EX : exists t w, p = o + t /\ e = o + t + w) by (exists (p - o), (e - p); lia). destruct EX as (t & w & -> & ->).
    assert (R' : reg (q + t) (q + t + w)) by (apply (reg_part L o q k t w SC); try lia; exact R). destruct (IN _ _ R' ltac:(lia) ltac:(lia) ltac:(lia)) as (b & B1 & B2 & B3).
    destruct (Nat.eq_dec (N.to_nat (ncs n) - (o + t)) (N.to_nat (ncs b) - (q + t))) as [X|X]; [lia|]. elim NC. exists t, n, b. repeat split; auto. lia. }
  constructor.
  - intros p n H C. destruct (Nat.eq_dec p q) as [->|X].
    + rewrite NQ in H. injection H as <-. exists (S i), o, k. rewrite D3. repeat split; auto; try apply RQ; try (rewrite <- QK; apply RQ); try lia; [eapply CO1; eauto|].
      intros j' o' J H' S' C'. eapply (compat_no_clash i N E j' o' k q); eauto.
    + rewrite NO in H by auto. destruct (lk_ref _ _ _ _ K p n H C) as (e & o' & w & A1 & A2 & A3 & A4 & A5 & A6 & A7 & A8 & A9). exists e, o', w. repeat split; auto; try apply A3; try lia; [eapply CO1; eauto|].
      intros j' o1 J H' S' C'. eapply A9; eauto.
  - intros j' o' w H. destruct (lk_entry _ _ _ _ K _ _ _ H). split; auto.
  - intros p e R EI. destruct (Nat.eq_dec e (S i)) as [->|NE].
    + right. rewrite <- QK in R. rewrite (reg_start L _ _ _ R RQ). exists nd. repeat split; auto. lia.
    + destruct (lk_done _ _ _ _ K p e R ltac:(lia)) as [X|X]; [now left|right; now apply MO].
  - intros p e (j' & H) M. destruct (MI _ _ M) as [[_ M']|[-> _]]; [apply (lk_excl _ _ _ _ K p e); [now exists j'|exact M']|]. destruct (lk_entry _ _ _ _ K _ _ _ H) as [R _]. apply reg_len in R. apply (OUT _ _ _ H); lia.
  - intros p e p' e' R R' P1 P2 M. pose proof (reg_len _ _ R'). destruct (MI _ _ M) as [[_ M']|[-> X]]; [apply MO; eapply (lk_in _ _ _ _ K p e); eauto|].
    destruct (Nat.lt_ge_cases (e' - p') k) as [Y|Y]; [apply MO, IN; auto; lia|]. assert (p' = q) by lia. assert (e' = S i) by lia. subst p' e'. exists nd. repeat split; auto. lia.
  - intros p p' w R R' P1 P2 S' M. pose proof (reg_len _ _ R'). destruct (MI _ _ M) as [[_ M']|[-> X]]; [|apply MO, IN; auto; lia].
    destruct (Nat.eq_dec (p' + w) (S i)) as [X|X]; [|apply MO; apply (lk_again _ _ _ _ K p p' w); auto; lia].
    assert (p' = q) by (apply (reg_start L p' q (q + k)); [replace (q + k) with (p' + w) by lia; exact R'|exact RQ]). subst p'. exists nd. repeat split; auto. lia.
  - intros p w R M. pose proof (reg_len _ _ R).
    assert (G : matched N p (p + w) -> exists j o, nth_error E j = Some (o, w) /\ sub L o w = sub L p w /\ compat N' o w).
    { intros M'. destruct (lk_some _ _ _ _ K p w R M') as (j1 & o1 & E1 & E2 & E3). exists j1, o1. repeat split; auto. eapply CO1; eauto. }
    destruct (MI _ _ M) as [[_ M']|[-> X]]; [now apply G|]. destruct (Nat.lt_ge_cases w k) as [Y|Y]; [apply G, IN; auto; lia|]. assert (w = k) by lia. subst w. exists j, o. repeat split; auto. eapply CO1; eauto.
  - intros j1 j2 o1 o2 w J H1 H2 S'. destruct (lk_clash _ _ _ _ K _ _ _ _ _ J H1 H2 S') as (t & a & b & T & A & B & C). exists t, a, b. split; [exact T|].
    rewrite !NO; [auto| |]; intros X; [apply (OUT _ _ _ H2)|apply (OUT _ _ _ H1)]; lia.
  - apply (lk_order _ _ _ _ K).
Qed.
(** a node that is not looked up *)
Lemma link_step i N E : link L i N E -> (forall p, ~ reg p (S i)) -> link L (S i) N E.
Proof.
  intros K NR. constructor.
  - intros p n H C. destruct (lk_ref _ _ _ _ K p n H C) as (e & o' & w & A1 & A2 & A). exists e, o', w. auto.
  - intros j' o' w H. destruct (lk_entry _ _ _ _ K _ _ _ H). split; auto.
  - intros p e R EI. destruct (Nat.eq_dec e (S i)) as [->|NE]; [elim (NR _ R)|]. apply (lk_done _ _ _ _ K); auto. lia.
  - apply (lk_excl _ _ _ _ K).
  - apply (lk_in _ _ _ _ K).
  - intros p q k R R' P1 P2. destruct (Nat.eq_dec (q + k) (S i)) as [X|X]; [rewrite X in R'; elim (NR _ R')|]. apply (lk_again _ _ _ _ K); auto. lia.
  - apply (lk_some _ _ _ _ K).
  - apply (lk_clash _ _ _ _ K).
  - apply (lk_order _ _ _ _ K).
Qed.
Lemma link_start N : (forall n, In n N -> no n <> op_cse) -> link L 0 N [].
Proof.
  intros H. assert (G : forall p n, nth_error N p = Some n -> no n = op_cse -> False) by (intros p n X C; apply nth_error_In in X; now apply (H n)).
  assert (G2 : forall p e, ~ matched N p e) by (intros p e (n & A & B & _); eauto). assert (G3 : forall j (x : nat * nat), nth_error [] j = Some x -> False) by (intros [|] x X; discriminate).
  constructor; try (intros; exfalso; eauto; fail).
  - intros p e R E. apply reg_len in R. lia.
  - intros p e (j & X). exfalso. eauto.
  - intros p e p' e' _ _ _ _ M. elim (G2 _ _ M).
  - intros p q k _ _ _ _ _ M. elim (G2 _ _ M).
  - intros p k _ M. elim (G2 _ _ M).
Qed.
End Step.
