(** Reshaping, first pass: no array is read out of bounds and every loop ends. *)
From Coq Require Import ZArith NArith List Bool Arith Lia ZifyBool ZifyN ZifyNat Reals.
From Verif Require Import Base Model_Numeric Model_Blade Model_Stack Model_Expr Model_Dfa Model_Reshape.
From Verif Require Import Spec_Numeric Spec_Clifford Spec_MV Spec_Basis Spec_Expr Spec_Reshape Spec_Scan.
From Verif Require Import Proof_Numeric Proof_Expr Proof_Util Proof_Reshape Proof_Reshape2 Proof_Sharing.
Import ListNotations.
Local Open Scope nat_scope.

(** ** the table of known subexpressions as offsets and lengths *)
Definition ent (ses : list cse) (kc : N) : list (nat * nat) := map (fun c => (o_ c, k_ c)) (firstn (N.to_nat kc) ses).
Lemma nth_firstn {A} (l : list A) : forall n j, nth_error (firstn n l) j = if j <? n then nth_error l j else None.
Proof.
  induction l as [|a l IH]; intros n j; [rewrite firstn_nil; destruct j; now destruct (_ <? n)|]. destruct n; [now destruct j|]. destruct j; [reflexivity|]. cbn [firstn nth_error]. rewrite IH. reflexivity.
Qed.
Lemma ent_nth ses kc j o k : nth_error (ent ses kc) j = Some (o, k) <-> j < N.to_nat kc /\ exists c, nth_error ses j = Some c /\ o_ c = o /\ k_ c = k.
Proof.
  unfold ent. rewrite nth_error_map, nth_firstn. destruct (Nat.ltb_spec j (N.to_nat kc)); cbn [option_map].
  - destruct (nth_error ses j) as [c|]; cbn [option_map]; split.
    + intros E. injection E as <- <-. split; [assumption|]. now exists c.
    + intros [_ (c' & E & <- & <-)]. now injection E as ->.
    + discriminate.
    + intros [_ (c' & E & _)]. discriminate.
  - split; [discriminate|]. intros [? _]. lia.
Qed.
Lemma ent_same a b kc : same a b -> ent a kc = ent b kc.
Proof.
  intros S. apply Proof_SortMap.nth_error_ext. intros j. unfold ent. rewrite !nth_error_map, !nth_firstn. destruct (j <? N.to_nat kc); [|reflexivity].
  destruct (nth_error a j) as [c|] eqn:E.
  - destruct (same_back _ _ _ _ S E) as (c' & -> & AL). cbn [option_map]. destruct (alike_o _ _ AL) as [-> ->]. reflexivity.
  - apply nth_error_None in E. destruct S as [SL _]. rewrite SL in E. apply nth_error_None in E. now rewrite E.
Qed.
Lemma ent_new ses kc c : N.to_nat kc < length ses -> ent (upd ses (N.to_nat kc) c) (kc + 1) = ent ses kc ++ [(o_ c, k_ c)].
Proof.
  intros H. apply Proof_SortMap.nth_error_ext. intros j. assert (LE : length (ent ses kc) = N.to_nat kc) by (unfold ent; rewrite map_length, firstn_length; lia).
  destruct (Nat.lt_trichotomy j (N.to_nat kc)) as [J|[->|J]].
  - rewrite nth_error_app1 by lia. unfold ent. rewrite !nth_error_map, !nth_firstn, nth_upd by exact H. replace (j <? N.to_nat (kc + 1)) with true by lia. replace (j <? N.to_nat kc) with true by lia. now replace (j =? N.to_nat kc) with false by lia.
  - rewrite nth_error_app2 by lia. rewrite LE, Nat.sub_diag. unfold ent. rewrite !nth_error_map, !nth_firstn, nth_upd by exact H. replace (N.to_nat kc <? N.to_nat (kc + 1)) with true by lia. now rewrite Nat.eqb_refl.
  - transitivity (@None (nat * nat)); [|symmetry]; apply nth_error_None; [|rewrite app_length, LE; cbn [length]; lia]. unfold ent. rewrite map_length, firstn_length, upd_len. lia.
Qed.
Lemma nget_tot {A} (l : list A) i : N.to_nat i < length l -> exists a, nget l i = Ok a /\ nth_error l (N.to_nat i) = Some a.
Proof.
  intros H. unfold nget. replace (i <? N.of_nat (length l))%N with true by lia. unfold get. destruct (nth_error l (N.to_nat i)) as [a|] eqn:E; [eauto|]. apply nth_error_None in E. lia.
Qed.
Lemma nset_tot {A} (l : list A) i a : N.to_nat i < length l -> nset l i a = Ok (upd l (N.to_nat i) a).
Proof. intros H. unfold nset, set. replace (i <? N.of_nat (length l))%N with true by lia. now replace (N.to_nat i <? length l) with true by lia. Qed.
Lemma get_some {A} (l : list A) i a : nth_error l i = Some a -> get l i = Ok a.
Proof. unfold get. now intros ->. Qed.
Lemma clash_dec N p q k : clash N p q k \/ ~ clash N p q k.
Proof.
  set (f := fun j => match nth_error N (p + j), nth_error N (q + j) with
                     | Some a, Some b => ((no a =? op_cse) && (no b =? op_cse))%N && negb (N.to_nat (ncs a) - (p + j) =? N.to_nat (ncs b) - (q + j)) | _, _ => false end).
  destruct (existsb f (seq 0 k)) eqn:E; [left|right].
  - apply existsb_exists in E as (j & J & F). apply in_seq in J. unfold f in F. destruct (nth_error N (p + j)) as [a|] eqn:A; [|discriminate]. destruct (nth_error N (q + j)) as [b|] eqn:B; [|discriminate].
    exists j, a, b. repeat split; auto; lia.
  - intros (j & a & b & J & A & B & CA & CB & X). assert (existsb f (seq 0 k) = true); [|congruence]. apply existsb_exists. exists j. split; [apply in_seq; lia|]. unfold f. rewrite A, B, CA, CB. lia.
Qed.
Lemma node_eq_refl a : node_eq a a = true.
Proof. unfold node_eq. now rewrite !N.eqb_refl, Nat.eqb_refl. Qed.

Lemma mid {A} (x y : list A) a : nth_error (x ++ a :: y) (length x) = Some a.
Proof. rewrite nth_error_app2 by lia. now rewrite Nat.sub_diag. Qed.
Lemma scan_app a : forall b i s, scan_all (a + b) i s = (s' <- scan_all a i s;; scan_all b (i + N.of_nat a) s').
Proof.
  induction a as [|a IH]; intros b i s; cbn [scan_all Nat.add]; [cbn [bind]; now rewrite N.add_0_r|]. destruct (scan_node i s) as [s1|]; [|reflexivity]. cbn [bind]. rewrite IH.
  replace (i + 1 + N.of_nat a)%N with (i + N.of_nat (S a))%N by lia. reflexivity.
Qed.
Lemma sub_one (l : list node) : forall i n, nth_error l i = Some n -> sub l i 1 = [n].
Proof. induction l as [|a l IH]; intros [|i] n H; try discriminate; [now injection H as ->|]. exact (IH i n H). Qed.

Section Scan.
Context (m : metric) (env : list V).
Notation nden := (nden m env).
Variable L : list node.
Hypothesis ID : identified L.
Hypothesis SMALL : (N.of_nat (length L) < 2 ^ 32)%N.
Notation inv := (inv m env L). Notation reg := (reg L).

Section State.
Context (i : nat) (nodes : list node) (ses : list cse) (kc : N).
Hypothesis IV : inv i nodes ses kc.
Hypothesis LK : link L i nodes (ent ses kc).
Hypothesis LS : length L <= length ses.
Lemma chase_total fuel : forall p n, p < length L -> p <= fuel -> nth_error nodes p = Some n -> exists n', chase fuel nodes ses n = Ok n'.
Proof.
  induction fuel as [|f IH]; intros p n P F E; cbn [chase]; (destruct (N.eqb_spec (no n) op_cse) as [C|C]; [|eauto]);
    destruct (iv_node _ _ _ _ _ _ _ IV p n P E) as [[_ X]|(_ & c & e & X1 & X2 & X3 & X4 & X5 & X6)]; try contradiction; pose proof (iv_early _ _ _ _ _ _ _ IV p n c P E C X1) as EA; [lia|].
  rewrite (get_some _ _ _ X1). cbn [bind]. destruct (iv_cse _ _ _ _ _ _ _ IV _ c X1 X2) as (_ & G2 & G3 & _). pose proof (iv_len _ _ _ _ _ _ _ IV) as NL.
  destruct (nget_tot nodes (c_off c)) as (n1 & -> & N1); [fold (o_ c); lia|]. cbn [bind]. apply (IH (o_ c)); [lia|lia|exact N1].
Qed.
(** the comparison of a known operand [a] with the operand from [off] to [i] *)
Lemma compare_total j0 a next off : nth_error ses j0 = Some a -> j0 < N.to_nat kc -> i < length L -> reg off (S i) -> c_off next = N.of_nat off -> k_ a = S i - off ->
  forall fuel j, j <= k_ a -> k_ a - j < fuel -> exists b, compare_from fuel nodes ses a next (N.of_nat j) = Ok b /\
    (b = true -> forall d x y, j <= d < k_ a -> nth_error nodes (o_ a + d) = Some x -> nth_error nodes (off + d) = Some y -> no x = op_cse -> no y = op_cse ->
       N.to_nat (ncs x) - (o_ a + d) = N.to_nat (ncs y) - (off + d)) /\
    (sub L (o_ a) (k_ a) = sub L off (k_ a) -> ~ clash nodes (o_ a) off (k_ a) -> b = true).
Proof.
  intros EA JA IL RO CN KA. pose proof (iv_len _ _ _ _ _ _ _ IV) as NL. destruct (iv_cse _ _ _ _ _ _ _ IV _ a EA JA) as (_ & GA & _). destruct (reg_len _ _ _ RO) as [LO _].
  assert (CA : (c_off a = N.of_nat (o_ a))%N) by (unfold o_; lia). assert (CC : c_cnt a = N.of_nat (k_ a)) by (unfold k_; lia).
  induction fuel as [|f IH]; intros j J F; [lia|]. cbn [compare_from]. rewrite CC, CA, CN. destruct (N.eqb_spec (N.of_nat j) (N.of_nat (k_ a))) as [EJ|NE].
  { exists true. split; [reflexivity|]. split; [|auto]. intros _ d x y D. lia. }
  rewrite !add64_small by lia. destruct (nget_tot nodes (N.of_nat (o_ a) + N.of_nat j)) as (x & -> & EX); [lia|]. destruct (nget_tot nodes (N.of_nat off + N.of_nat j)) as (y & -> & EY); [lia|]. cbn [bind].
  replace (N.to_nat (N.of_nat (o_ a) + N.of_nat j)) with (o_ a + j) in EX by lia. replace (N.to_nat (N.of_nat off + N.of_nat j)) with (off + j) in EY by lia.
  destruct ((no x =? op_cse)%N && (no y =? op_cse)%N) eqn:CB.
  - apply andb_true_iff in CB as [CX CY]. apply N.eqb_eq in CX, CY.
    destruct (lk_ref _ _ _ _ LK _ _ EX CX) as (e & o1 & w & X1 & X2 & X3 & X4 & X5 & X6 & X7 & X8 & X9). destruct (lk_ref _ _ _ _ LK _ _ EY CY) as (e' & o2 & w' & Y1 & Y2 & Y3 & Y4 & Y5 & Y6 & Y7 & Y8 & Y9).
    pose proof (reg_len _ _ _ X3) as RX. pose proof (reg_len _ _ _ Y3) as RY.
    destruct (Nat.eqb_spec (nex x) (nex y)) as [EQ|NQ].
    + rewrite EQ, Y4 in X4. injection X4 as <- <-. rewrite X1. rewrite sub64_le by lia. replace (N.of_nat e - N.of_nat (o_ a))%N with (N.of_nat (j + w')) by lia.
      destruct (IH (j + w') ltac:(lia) ltac:(lia)) as (b & B1 & B2 & B3). exists b. split; [exact B1|]. split; [|exact B3]. intros BT d x' y' D DX DY C1 C2.
      destruct (Nat.lt_ge_cases d (j + w')) as [LT|GE]; [|apply B2; auto; lia]. destruct (Nat.eq_dec d j) as [->|ND].
      * rewrite EX in DX. rewrite EY in DY. injection DX as <-. injection DY as <-. rewrite X1, Y1, !Nat2N.id. lia.
      * replace (o_ a + d) with (o_ a + j + (d - j)) in * by lia. replace (off + d) with (off + j + (d - j)) in * by lia.
        eapply (inner_ext L i nodes _ (o_ a + j) (off + j) w' LK); try eassumption.
        -- exists x. repeat split; auto. lia.
        -- exists y. repeat split; auto. lia.
        -- replace (o_ a + j + w') with e by lia. exact X3.
        -- replace (off + j + w') with e' by lia. exact Y3.
        -- congruence.
        -- lia.
    + exists false. split; [reflexivity|]. split; [discriminate|]. intros SC NC. exfalso.
      assert (EE : w = w').
      { destruct (Nat.eq_dec w w') as [|W]; [assumption|]. elim NC. exists j, x, y. repeat split; auto; [lia|]. rewrite X1, Y1, !Nat2N.id. lia. }
      rewrite <- EE in Y4, Y6, Y8, Y9. assert (SW : sub L (o_ a + j) w = sub L (off + j) w) by (apply (sub_part L _ _ (k_ a)); [exact SC|lia]).
      destruct (Nat.lt_ge_cases (nex x) (nex y)) as [LT|GE]; [apply (Y9 (nex x) o1 LT X4); [congruence|exact X8]|apply (X9 (nex y) o2); [lia|exact Y4|congruence|exact Y8]].
  - destruct (chase_total (length ses) (o_ a + j) x ltac:(lia) ltac:(lia) EX) as (x' & CX). destruct (chase_total (length ses) (off + j) y ltac:(lia) ltac:(lia) EY) as (y' & CY). rewrite CX, CY. cbn [bind].
    destruct (node_eq x' y') eqn:NQ.
    + replace (N.of_nat j + 1)%N with (N.of_nat (S j)) by lia. destruct (IH (S j) ltac:(lia) ltac:(lia)) as (b & B1 & B2 & B3). exists b. split; [exact B1|]. split; [|exact B3].
      intros BT d x1 y1 D DX DY C1 C2. destruct (Nat.eq_dec d j) as [->|ND]; [|apply B2; auto; lia]. rewrite EX in DX. rewrite EY in DY. injection DX as <-. injection DY as <-. rewrite C1, C2 in CB. discriminate.
    + exists false. split; [reflexivity|]. split; [discriminate|]. intros SC _. apply (chase_ok m env L SMALL i nodes ses kc IV _ (o_ a + j) x x' ltac:(lia) EX) in CX.
      apply (chase_ok m env L SMALL i nodes ses kc IV _ (off + j) y y' ltac:(lia) EY) in CY. pose proof (sub_eq_nth L _ _ _ SC j ltac:(lia)) as Q. rewrite CX, CY in Q. injection Q as ->. rewrite node_eq_refl in NQ. discriminate.
Qed.
Lemma find_total next off n v : i < length L -> off < i -> nth_error L i = Some n -> is_read_op (no n) = false -> nden (sub L off (S i - off)) v ->
  c_crc next = ncs n -> c_off next = N.of_nat off -> c_cnt next = N.of_nat (S i - off) -> forall cnt j, j + cnt = N.to_nat kc ->
  exists r, find_se nodes ses next j cnt = Ok r /\
    (forall j' o, j <= j' -> j' < match r with Some x => x | None => N.to_nat kc end -> nth_error (ent ses kc) j' = Some (o, S i - off) -> sub L o (S i - off) = sub L off (S i - off) -> clash nodes o off (S i - off)) /\
    (forall x, r = Some x -> exists o, nth_error (ent ses kc) x = Some (o, S i - off) /\ ~ clash nodes o off (S i - off)).
Proof.
  intros IL OI EN RD ND C1 C2 C3. assert (RO : reg off (S i)).
  { split; [lia|]. split; [lia|]. split; [exact (nden_operand m env _ _ ND)|]. rewrite (sub_end L SMALL off i n EN) by lia. exact RD. }
  pose proof (iv_kc _ _ _ _ _ _ _ IV) as KL. pose proof (iv_len _ _ _ _ _ _ _ IV) as NL.
  induction cnt as [|cnt IH]; intros j J; cbn [find_se].
  { exists None. split; [reflexivity|]. split; [intros; lia|discriminate]. }
  destruct (nth_error ses j) as [a|] eqn:EA; [|apply nth_error_None in EA; lia]. rewrite (get_some _ _ _ EA). cbn [bind]. destruct (iv_cse _ _ _ _ _ _ _ IV _ a EA ltac:(lia)) as (_ & G2 & G3 & G4 & _).
  assert (CM : exists b, compare_se nodes ses a next = Ok b /\ (b = true -> k_ a = S i - off /\ ~ clash nodes (o_ a) off (S i - off)) /\ (b = false -> k_ a = S i - off -> sub L (o_ a) (S i - off) = sub L off (S i - off) -> clash nodes (o_ a) off (S i - off))).
  { unfold compare_se. destruct (N.eqb_spec (c_cnt a) (c_cnt next)) as [CT|CT].
    - assert (KA : k_ a = S i - off) by (unfold k_; lia). destruct (N.eqb_spec (c_crc a) (c_crc next)) as [CR|CR]; cbn [negb orb].
      + destruct (compare_total j a next off EA ltac:(lia) IL RO C2 KA (S (length nodes)) 0 ltac:(lia) ltac:(lia)) as (b & B1 & B2 & B3). exists b. split; [exact B1|]. rewrite <- KA. split.
        * intros BT. split; [reflexivity|]. intros (d & x & y & D & X & Y & CX & CY & NE). apply NE, (B2 BT); auto. lia.
        * intros BF _ SC. destruct (clash_dec nodes (o_ a) off (k_ a)) as [Y|NC]; [exact Y|]. specialize (B3 SC NC). congruence.
      + exists false. split; [reflexivity|]. split; [discriminate|]. intros _ _ SC. elim CR. rewrite G4, C1, KA, SC. apply sub_last; [exact SMALL|exact EN|lia].
    - rewrite orb_true_r. exists false. split; [reflexivity|]. split; [discriminate|]. intros _ KA. elim CT. unfold k_ in KA. lia. }
  destruct CM as (b & -> & B1 & B2). cbn [bind]. destruct b.
  - destruct (B1 eq_refl) as [KA NC]. exists (Some j). split; [reflexivity|]. split; [intros; lia|]. intros x E. injection E as <-. exists (o_ a). split; [|exact NC]. apply ent_nth. split; [lia|]. now exists a.
  - destruct (IH (S j) ltac:(lia)) as (r & R1 & R2 & R3). exists r. split; [exact R1|]. split; [|exact R3]. intros j' o J1 J2 E SC. destruct (Nat.eq_dec j' j) as [->|NJ]; [|apply (R2 j'); auto; lia].
    apply ent_nth in E as (_ & c & E & <- & KA). rewrite EA in E. injection E as <-. now apply B2.
Qed.
(** an operand is looked up *)
Lemma reg_total off n v req : i < length L -> off < i -> nth_error L i = Some n -> is_read_op (no n) = false -> nden (sub L off (S i - off)) v -> N.to_nat kc <= i ->
  exists ses' kc' se, register_se nodes ses kc (ncs n) (N.of_nat off) (add64 (sub64 (N.of_nat i) (N.of_nat off)) 1) req = Ok (ses', kc', se) /\
    (se = 0%N /\ kc' = (kc + 1)%N /\ length ses' = length ses /\ link L (S i) nodes (ent ses' kc') \/
     (0 < se <= kc)%N /\ kc' = kc /\ same ses ses' /\
       forall x, link L (S i) (upd nodes off (mknode op_cse (N.of_nat (S i)) (N.to_nat (se - 1)) x)) (ent ses' kc')).
Proof.
  intros IL OI EN RD ND KI. pose proof (iv_len _ _ _ _ _ _ _ IV) as NL. assert (RO : reg off (off + (S i - off))).
  { replace (off + (S i - off)) with (S i) by lia. split; [lia|]. split; [lia|]. split; [exact (nden_operand m env _ _ ND)|]. rewrite (sub_end L SMALL off i n EN) by lia. exact RD. }
  destruct (find_total (mkcse (ncs n) (N.of_nat off) (N.of_nat (S i - off)) 1 0 req) off n v IL OI EN RD ND eq_refl eq_refl eq_refl (N.to_nat kc) 0 eq_refl) as (r & R1 & R2 & R3).
  unfold register_se. rewrite sub64_le by lia. rewrite add64_small by lia. replace (N.of_nat i - N.of_nat off + 1)%N with (N.of_nat (S i - off)) by lia. rewrite R1. cbn [bind]. destruct r as [x|].
  - destruct (R3 x eq_refl) as (o & EX & NC). pose proof EX as EX'. apply ent_nth in EX' as (XK & c & EC & CO & CK). rewrite (get_some _ _ _ EC). cbn [bind].
    assert (XL : x < length ses) by (apply nth_error_Some; congruence). unfold set. replace (x <? length ses) with true by lia. cbn [bind].
    eexists. exists kc, (N.of_nat x + 1)%N. split; [reflexivity|]. right. split; [lia|]. split; [reflexivity|].
    assert (SA : same ses (upd ses x (mkcse (c_crc c) (c_off c) (c_cnt c) (add64 (c_refs c) 1) (c_fin c) (req || c_req c)))) by (eapply same_upd; [exact EC|repeat split]). split; [exact SA|].
    intros q. rewrite <- (ent_same _ _ kc SA). replace (N.to_nat (N.of_nat x + 1 - 1)) with x by lia.
    assert (SC : sub L o (S i - off) = sub L off (S i - off)).
    { apply (find_ok L SMALL) in R1 as (_ & c' & EC' & CM). rewrite EC in EC'. injection EC' as <-. destruct (iv_cse _ _ _ _ _ _ _ IV _ c EC XK) as ((w & G1) & G2 & G3 & G4 & G5 & G6 & G7).
      apply (compare_ok m env L SMALL i nodes ses kc) in CM as [_ C2]; [|exact IV|lia|unfold o_, k_; cbn [c_off c_cnt]; lia]. unfold o_ at 2, k_ at 2 in C2. cbn [c_off c_cnt] in C2. rewrite !Nat2N.id, CO, CK in C2. rewrite CO, CK in *.
      symmetry. apply ID; auto; try lia.
      - exact (nden_operand m env _ _ ND). - exact (nden_operand m env _ _ G1). - rewrite (sub_end L SMALL off i n EN) by lia. exact RD. }
    destruct (lk_entry _ _ _ _ LK _ _ _ EX) as [RX OX].
    eapply (link_match L i nodes _ (ent ses kc) off (S i - off) x o _ LK RO); eauto; try lia.
    + intros j' o' J E S'. apply (R2 j'); auto. lia.
    + rewrite nth_upd by lia. now rewrite Nat.eqb_refl.
    + intros p NP. rewrite nth_upd by lia. now replace (p =? off) with false by lia.
    + reflexivity. + reflexivity. + reflexivity.
  - rewrite nset_tot by lia. cbn [bind]. eexists. exists (kc + 1)%N, 0%N. split; [reflexivity|]. left. split; [reflexivity|]. split; [reflexivity|]. split; [now rewrite upd_len|].
    rewrite ent_new by lia. unfold o_, k_. cbn [c_off c_cnt]. rewrite !Nat2N.id. apply link_new; auto; try lia. intros j o E SC. apply (R2 j); auto; [lia|]. apply ent_nth in E. lia.
Qed.
End State.

(** ** the state of the first pass *)
Notation keeps := (keeps m env L).
Record ext (i : nat) (s : scan) : Prop := {
  ex_link : link L i (sc_nodes s) (ent (sc_ses s) (sc_kc s));
  ex_ses : length L <= length (sc_ses s);
  ex_refs : length L <= length (sc_refs s);
  ex_offs : length L <= length (data (sc_offs s));
  ex_kc : N.to_nat (sc_kc s) <= i;
  ex_se : N.to_nat (sc_se s) <= i;
  ex_cnt : N.to_nat (count (sc_offs s)) <= i;
  ex_ref : Forall (fun r => (r <= sc_kc s)%N) (sc_refs s);
  ex_off : Forall (fun d => N.to_nat d < length L) (data (sc_offs s)) }.
Lemma dec_refs_total ses j : N.to_nat j < length ses -> exists ses', dec_refs ses j = Ok ses' /\ same ses ses'.
Proof.
  intros H. destruct (dec_refs ses j) as [ses'|e] eqn:E; [exists ses'; split; [reflexivity|now apply (dec_refs_same _ j)]|]. unfold dec_refs in E. destruct (nget_tot ses j H) as (c & Q & _). rewrite Q in E. cbn [bind] in E. rewrite nset_tot in E by exact H. discriminate.
Qed.
Lemma dec_if_total i nodes E ses p n : link L i nodes E -> length E <= length ses -> nth_error nodes p = Some n -> exists ses', dec_if_cse ses n = Ok ses' /\ same ses ses'.
Proof.
  intros K LE H. unfold dec_if_cse. destruct (N.eqb_spec (no n) op_cse) as [C|C]; [|exists ses; split; [reflexivity|apply same_refl]]. apply dec_refs_total.
  destruct (lk_ref _ _ _ _ K _ _ H C) as (e & o & k & _ & _ & _ & Q & _). assert (nex n < length E) by (apply nth_error_Some; congruence). lia.
Qed.
Lemma ent_length ses kc : length (ent ses kc) <= length ses /\ length (ent ses kc) <= N.to_nat kc.
Proof. unfold ent. rewrite map_length, firstn_length. lia. Qed.
Lemma to_cse_total nodes off i se : off < length nodes -> i < length L -> exists q, to_cse nodes (N.of_nat off) (N.of_nat i) se = Ok (upd nodes off (mknode op_cse (N.of_nat (S i)) (N.to_nat (se - 1)) q)).
Proof.
  intros H IL. unfold to_cse. destruct (nget_tot nodes (N.of_nat off)) as (n & -> & _); [lia|]. cbn [bind]. rewrite nset_tot by lia. rewrite Nat2N.id. replace (wrap32 (N.of_nat i + 1)) with (N.of_nat (S i)) by (unfold wrap32; rewrite N.mod_small; lia). eauto.
Qed.
Lemma Forall_upd {A} (P : A -> Prop) l : forall i a, Forall P l -> P a -> Forall P (upd l i a).
Proof. induction l as [|x l IH]; intros i a F H; [destruct i; assumption|]. inversion F; subst. destruct i; cbn [upd]; constructor; auto. Qed.
Lemma note_total refs se r (kc : N) : N.to_nat se <= length refs -> (r <= kc)%N -> Forall (fun x => (x <= kc)%N) refs -> exists refs', note_ref refs se r = Ok refs' /\ length refs' = length refs /\ Forall (fun x => (x <= kc)%N) refs'.
Proof.
  intros H R F. unfold note_ref. destruct (N.ltb_spec 0 se); [|eauto]. rewrite nset_tot by lia. eexists. split; [reflexivity|]. split; [apply upd_len|]. now apply Forall_upd.
Qed.
Lemma zero_total k : forall j refs (kc : N), N.to_nat j + k <= length refs -> N.to_nat j + k <= length L -> Forall (fun x => (x <= kc)%N) refs -> exists refs', zero_all k j refs = Ok refs' /\ length refs' = length refs /\ Forall (fun x => (x <= kc)%N) refs'.
Proof.
  induction k as [|k IH]; intros j refs kc H1 H2 F; cbn [zero_all]; [eauto|]. rewrite nset_tot by lia. cbn [bind]. rewrite add64_small by lia. destruct (IH (j + 1)%N (upd refs (N.to_nat j) 0%N) kc) as (r & A & B & C).
  - rewrite upd_len. lia. - lia. - apply Forall_upd; [exact F|lia]. - exists r. rewrite upd_len in B. auto.
Qed.
Lemma dec_all_total k : forall j refs ses (kc : N), N.to_nat j + k <= length refs -> N.to_nat j + k <= length L -> Forall (fun x => (x <= kc)%N) refs -> N.to_nat kc <= length ses -> exists ses', dec_all k j refs ses = Ok ses' /\ same ses ses'.
Proof.
  induction k as [|k IH]; intros j refs ses kc H1 H2 F K; cbn [dec_all]; [exists ses; split; [reflexivity|apply same_refl]|]. destruct (nget_tot refs j) as (r & -> & E); [lia|]. cbn [bind].
  apply nth_error_In in E. rewrite Forall_forall in F. pose proof (F _ E) as RK. rewrite <- Forall_forall in F.
  assert (Q : exists ses1, (if (0 <? r)%N then dec_refs ses (r - 1) else Ok ses) = Ok ses1 /\ same ses ses1).
  { destruct (N.ltb_spec 0 r); [apply dec_refs_total; lia|]. exists ses. split; [reflexivity|apply same_refl]. }
  destruct Q as (ses1 & -> & S1). cbn [bind]. rewrite add64_small by lia. destruct (IH (j + 1)%N refs ses1 kc) as (ses2 & A & B); [lia|lia|exact F|destruct S1 as [<- _]; exact K|]. exists ses2. split; [exact A|]. eapply same_trans; eauto.
Qed.
Lemma Forall_mono_kc refs (a b : N) : (a <= b)%N -> Forall (fun x => (x <= a)%N) refs -> Forall (fun x => (x <= b)%N) refs.
Proof. intros H. apply Forall_impl. intros. lia. Qed.

(** ** one node *)
Lemma unary_goes i n s off st v : keeps i s -> ext i s -> nth_error L i = Some n -> rep (sc_offs s) (N.of_nat off :: st) -> off < i -> is_read_op (no n) = false -> nden (sub L off (S i - off)) v ->
  exists s', scan_unary (N.of_nat i) n s = Ok s' /\ ext (S i) s' /\ sc_se s' = sc_se s.
Proof.
  intros [IV FR] X E R O RD ND. assert (IL : i < length L) by (apply nth_error_Some; congruence). destruct X as [X1 X2 X3 X4 X5 X6 X7 X8 X9]. pose proof (iv_len _ _ _ _ _ _ _ IV) as NL. unfold scan_unary. rewrite (peek0_ok _ _ _ R). cbn [bind].
  destruct (reg_total i _ _ _ IV X1 X2 off n v false IL O E RD ND X5) as (ses' & kc' & se & -> & [(-> & -> & LE & LK)|(SE & -> & SA & LK)]); cbn [bind].
  - change (0 <? 0)%N with false. cbv iota. eexists. split; [reflexivity|]. split; [|reflexivity]. constructor; cbn [sc_nodes sc_ses sc_kc sc_refs sc_offs sc_se]; auto; try lia. eapply Forall_mono_kc; [|exact X8]. lia.
  - replace (0 <? se)%N with true by lia. destruct (nget_tot (sc_nodes s) (N.of_nat off)) as (p & -> & EP); [lia|]. cbn [bind]. pose proof (ent_length (sc_ses s) (sc_kc s)) as EL. pose proof (proj1 SA) as SL.
    destruct (dec_if_total i _ _ ses' _ p X1 ltac:(lia) EP) as (ses2 & -> & S2). cbn [bind]. destruct (to_cse_total (sc_nodes s) off i se ltac:(lia) IL) as (q & ->). cbn [bind].
    destruct (note_total (sc_refs s) (sc_se s) se (sc_kc s) ltac:(lia) ltac:(lia) X8) as (refs' & -> & RL & RF). cbn [bind]. eexists. split; [reflexivity|]. split; [|reflexivity]. pose proof (proj1 S2) as SL2.
    constructor; cbn [sc_nodes sc_ses sc_kc sc_refs sc_offs sc_se]; auto; try lia. rewrite <- (ent_same _ _ _ S2). apply LK.
Qed.
Lemma required_goes i n s off offs ses0 v : keeps i s -> ext i s -> same (sc_ses s) ses0 -> data offs = data (sc_offs s) -> N.to_nat (count offs) <= i ->
  nth_error L i = Some n -> off < i -> is_read_op (no n) = false -> nden (sub L off (S i - off)) v ->
  exists s', scan_required (N.of_nat i) n (N.of_nat off) offs ses0 s = Ok s' /\ ext (S i) s' /\ sc_se s' = sc_se s.
Proof.
  intros [IV FR] X SA0 DO CO E O RD ND. assert (IL : i < length L) by (apply nth_error_Some; congruence). destruct X as [X1 X2 X3 X4 X5 X6 X7 X8 X9]. pose proof (iv_len _ _ _ _ _ _ _ IV) as NL. pose proof (proj1 SA0) as SL0. rewrite (ent_same _ _ _ SA0) in X1.
  apply (inv_same m env L _ _ _ ses0) in IV; [|exact SA0]. unfold scan_required.
  destruct (reg_total i _ _ _ IV X1 ltac:(lia) off n v true IL O E RD ND X5) as (ses' & kc' & se & -> & [(-> & -> & LE & LK)|(SE & -> & SA & LK)]); cbn [bind].
  - change (0 <? 0)%N with false. cbv iota. eexists. split; [reflexivity|]. split; [|reflexivity]. constructor; cbn [sc_nodes sc_ses sc_kc sc_refs sc_offs sc_se]; auto; rewrite ?DO; auto; try lia. eapply Forall_mono_kc; [|exact X8]. lia.
  - replace (0 <? se)%N with true by lia. pose proof (proj1 SA) as SL. destruct (to_cse_total (sc_nodes s) off i se ltac:(lia) IL) as (q & ->). cbn [bind].
    destruct (note_total (sc_refs s) (sc_se s) se (sc_kc s) ltac:(lia) ltac:(lia) X8) as (refs' & -> & RL & RF). cbn [bind]. eexists. split; [reflexivity|]. split; [|reflexivity].
    constructor; cbn [sc_nodes sc_ses sc_kc sc_refs sc_offs sc_se]; auto; rewrite ?DO; auto; lia.
Qed.

Hypothesis UN : unnested L.
(** the operand of a division or function *)
Lemma known_pos i s p e : ext i s -> reg p e -> e <= i -> (0 < sc_kc s)%N.
Proof.
  intros X R EI. destruct (lk_done _ _ _ _ (ex_link _ _ X) p e R EI) as [(j & K)|(n & A & B & _)]; [apply ent_nth in K; lia|].
  destruct (lk_ref _ _ _ _ (ex_link _ _ X) p n A B) as (f & o & k & _ & _ & _ & Q & _). apply ent_nth in Q. lia.
Qed.
Lemma mark_total i n off skip s w : nth_error L i = Some n -> eager n = true -> keeps i s -> ext i s -> i < length L -> off < i -> nden (sub L off (i - off)) w -> exists ses', mark_operand (N.of_nat i) (N.of_nat off) skip s = Ok ses' /\ same (sc_ses s) ses'.
Proof.
  intros EN EG [IV FR] X IL O ND. pose proof (iv_len _ _ _ _ _ _ _ IV) as NL. pose proof (iv_kc _ _ _ _ _ _ _ IV) as KL.
  destruct (mark_operand (N.of_nat i) (N.of_nat off) skip s) as [ses'|e] eqn:Q; [exists ses'; split; [reflexivity|]; exact (mark_operand_same _ _ _ _ _ Q)|exfalso].
  assert (ML : (0 < sc_kc s)%N -> exists x, mark_last (sc_ses s) (sc_kc s) = Ok x).
  { intros P. unfold mark_last. pose proof (ex_kc _ _ X). rewrite sub64_le by lia. destruct (nget_tot (sc_ses s) (sc_kc s - 1)) as (c & -> & _); [lia|]. cbn [bind]. rewrite nset_tot by lia. eauto. }
  assert (HD : forall p, p < i -> nth_error L p <> None) by (intros p P Z; apply nth_error_None in Z; lia).
  pose proof (nden_operand m env _ _ ND) as OP. unfold mark_operand in Q. destruct (N.ltb_spec 2 (N.of_nat i)) as [I2|]; [|discriminate].
  destruct (nget_tot (sc_nodes s) (N.of_nat off)) as (p & Q1 & _); [lia|]. rewrite Q1 in Q. cbn [bind] in Q.
  destruct (nth_error L (i - 1)) as [l|] eqn:EL; [|now apply (HD (i - 1)); [lia|]].
  assert (RG : S off < i -> is_read_op (no l) = false -> reg off i).
  { intros A B. split; [exact A|]. split; [lia|]. split; [exact OP|]. replace (i - off) with (S (i - 1) - off) by lia. rewrite (sub_end L SMALL off (i - 1) l EL) by lia. exact B. }
  destruct (N.eqb_spec (N.of_nat off) (N.of_nat i - 2)) as [O2|O2].
  - destruct (nget_tot (sc_nodes s) (N.of_nat i - 1)) as (l' & Q2 & EL'); [lia|]. rewrite Q2 in Q. cbn [bind] in Q. replace (N.to_nat (N.of_nat i - 1)) with (i - 1) in EL' by lia.
    assert (l' = l).
    { destruct (iv_node _ _ _ _ _ _ _ IV (i - 1) l' ltac:(lia) EL') as [[Y _]|(Y & c & e' & _)]; [congruence|]. destruct (lk_ref _ _ _ _ (ex_link _ _ X) _ _ EL' Y) as (f & _ & _ & _ & F & R & _). apply reg_len in R. lia. }
    subst l'. destruct (is_read_op (no l)) eqn:RL; [discriminate|]. destruct (ML (known_pos i s off i X (RG ltac:(lia) eq_refl) (le_n i))) as (x & Y). congruence.
  - destruct (N.ltb_spec (N.of_nat off) (N.of_nat i - 2)) as [O3|]; [|discriminate]. cbn [andb] in Q. destruct (negb (skip p)); [|discriminate].
    assert (P : (0 < sc_kc s)%N); [|destruct (ML P) as (x & Y); congruence].
    destruct (is_read_op (no l)) eqn:RL; [|exact (known_pos i s off i X (RG ltac:(lia) eq_refl) (le_n i))].
    destruct (nth_error L (i - 2)) as [k|] eqn:EK; [|now elim (HD (i - 2)); [lia|]].
    assert (RK : is_read_op (no k) = false).
    { destruct (is_read_op (no k)) eqn:RK; [|reflexivity]. rewrite (UN (i - 2) k l n EK) in EG; [discriminate|now replace (S (i - 2)) with (i - 1) by lia|now replace (S (S (i - 2))) with i by lia|exact RK|exact RL]. }
    apply (known_pos i s off (i - 1) X); [|lia]. split; [lia|]. split; [lia|]. replace (i - 1 - off) with (S (i - 2) - off) by lia. split; [|rewrite (sub_end L SMALL off (i - 2) k EK) by lia; exact RK].
    apply operand_depth in OP. rewrite (sub_cut L off (i - 1) i), depth_app in OP by lia. replace (S (i - 2) - off) with (i - 1 - off) by lia.
    assert (LN : sub L (i - 1) (i - (i - 1)) = [l]) by (replace (i - (i - 1)) with 1 by lia; now apply sub_one).
    rewrite LN in OP. unfold operand. destruct (depth 0 (sub L off (i - 1 - off))) as [d|]; [|discriminate]. cbn [depth] in OP. unfold depth_step in OP.
    assert (AR : (if ((no l =? op_sum) || (no l =? op_ep))%N then 2 * nex l else arity (no l)) = 1).
    { unfold is_read_op in RL. apply orb_true_iff in RL as [RL|RL]; apply N.eqb_eq in RL; rewrite RL; reflexivity. }
    rewrite AR in OP. destruct (Nat.leb_spec 1 d); [|discriminate]. injection OP as OP. now replace d with 1 by lia.
Qed.
Lemma pop0_total {A} (s : stack A) x l : rep s (x :: l) -> length (x :: l) < length (data s) -> exists y s', s_pop0 s = Ok (y, s') /\ nth_error (data s) (length (x :: l)) = Some y /\ rep s' l /\ data s' = data s.
Proof.
  intros R H. destruct (s_pop0 s) as [[y s']|e] eqn:E.
  - exists y, s'. split; [reflexivity|]. split; [|exact (pop0_ok _ _ _ _ _ R E)]. unfold s_pop0, at_ in E. apply bind_ok in E as (z & E & P). injection P as <- _. apply get_ok in E. destruct R as (_ & C & _). now rewrite C, Nat2N.id in E.
  - exfalso. unfold s_pop0, at_ in E. destruct R as (_ & C & _). rewrite C, Nat2N.id in E. unfold get in E. destruct (nth_error (data s) (length (x :: l))) eqn:Q; [discriminate|]. apply nth_error_None in Q. lia.
Qed.
Lemma rep_count {A} (s : stack A) l : rep s l -> N.to_nat (count s) = length l. Proof. intros (_ & C & _). lia. Qed.
Lemma div_goes i n s off off2 st v w : keeps i s -> ext i s -> nth_error L i = Some n -> rep (sc_offs s) (N.of_nat off2 :: N.of_nat off :: st) -> off < i -> off2 < i -> is_read_op (no n) = false -> eager n = true ->
  nden (sub L off (S i - off)) v -> nden (sub L off2 (i - off2)) w -> exists s', scan_div (N.of_nat i) n s = Ok s' /\ ext (S i) s' /\ sc_se s' = sc_se s.
Proof.
  intros K X E R O O2 RD EG ND NW. assert (IL : i < length L) by (apply nth_error_Some; congruence). unfold scan_div. pose proof (ex_cnt _ _ X) as CN. pose proof (ex_offs _ _ X) as LO. pose proof (rep_count _ _ R) as CR. rewrite CR in CN. cbn [length] in *.
  assert (Q : exists ses0, (if (2 <? N.of_nat i)%N then off0 <- s_peek0 (sc_offs s);; mark_operand (N.of_nat i) off0 (fun p => ((no p =? op_cse) || (ncs p =? N.of_nat i))%N) s else Ok (sc_ses s)) = Ok ses0 /\ same (sc_ses s) ses0).
  { destruct (_ <? _)%N; [|exists (sc_ses s); split; [reflexivity|apply same_refl]]. rewrite (peek0_ok _ _ _ R). cbn [bind]. exact (mark_total i n off2 _ s w E EG K X IL O2 NW). }
  destruct Q as (ses0 & -> & SA). cbn [bind]. destruct (pop0_total _ _ _ R) as (y & offs & -> & _ & R' & DA); [cbn [length]; lia|]. cbn [bind]. rewrite (peek0_ok _ _ _ R'). cbn [bind].
  eapply required_goes; eauto. rewrite (rep_count _ _ R'). cbn [length]. lia.
Qed.
Lemma fn_goes i n s off st v w : keeps i s -> ext i s -> nth_error L i = Some n -> rep (sc_offs s) (N.of_nat off :: st) -> off < i -> is_read_op (no n) = false -> eager n = true ->
  nden (sub L off (S i - off)) v -> nden (sub L off (i - off)) w -> exists s', scan_fn (N.of_nat i) n s = Ok s' /\ ext (S i) s' /\ sc_se s' = sc_se s.
Proof.
  intros K X E R O RD EG ND NW. assert (IL : i < length L) by (apply nth_error_Some; congruence). unfold scan_fn. rewrite (peek0_ok _ _ _ R). cbn [bind].
  destruct (mark_total i n off (fun p => ((no p =? op_cse) && (ncs p =? N.of_nat i))%N) s w E EG K X IL O NW) as (ses0 & -> & SA). cbn [bind]. eapply required_goes; eauto. exact (ex_cnt _ _ X).
Qed.
Lemma binary_goes i n s off off2 st v : keeps i s -> ext i s -> nth_error L i = Some n -> rep (sc_offs s) (N.of_nat off2 :: N.of_nat off :: st) -> off < i -> is_read_op (no n) = false -> nden (sub L off (S i - off)) v ->
  exists s', scan_binary (N.of_nat i) n s = Ok s' /\ ext (S i) s' /\ sc_se s' = sc_se s.
Proof.
  intros [IV FR] X E R O RD ND. assert (IL : i < length L) by (apply nth_error_Some; congruence). destruct X as [X1 X2 X3 X4 X5 X6 X7 X8 X9]. pose proof (iv_len _ _ _ _ _ _ _ IV) as NL. unfold scan_binary. pose proof (rep_count _ _ R) as CR. cbn [length] in CR.
  destruct (pop0_total _ _ _ R) as (y & offs & -> & EY & R' & DA); [cbn [length]; lia|]. cbn [bind]. rewrite (peek0_ok _ _ _ R'). cbn [bind]. pose proof (rep_count _ _ R') as CR'. cbn [length] in CR'.
  apply nth_error_In in EY. pose proof X9 as X9'. rewrite Forall_forall in X9'. apply X9' in EY. clear X9'.
  destruct (reg_total i _ _ _ IV X1 X2 off n v false IL O E RD ND X5) as (ses' & kc' & se & -> & [(-> & -> & LE & LK)|(SE & -> & SA & LK)]); cbn [bind].
  - change (0 <? 0)%N with false. cbv iota. eexists. split; [reflexivity|]. split; [|reflexivity]. constructor; cbn [sc_nodes sc_ses sc_kc sc_refs sc_offs sc_se]; auto; rewrite ?DA; auto; try lia. eapply Forall_mono_kc; [|exact X8]. lia.
  - replace (0 <? se)%N with true by lia. destruct (nget_tot (sc_nodes s) y) as (p2 & -> & EP2); [lia|]. cbn [bind]. pose proof (ent_length (sc_ses s) (sc_kc s)) as EL. pose proof (proj1 SA) as SL.
    destruct (dec_if_total i _ _ ses' _ p2 X1 ltac:(lia) EP2) as (ses1 & -> & S1). cbn [bind]. pose proof (proj1 S1) as SL1.
    destruct (nget_tot (sc_nodes s) (N.of_nat off)) as (p & -> & EP); [lia|]. cbn [bind].
    destruct (dec_if_total i _ _ ses1 _ p X1 ltac:(lia) EP) as (ses2 & -> & S2). cbn [bind]. destruct (to_cse_total (sc_nodes s) off i se ltac:(lia) IL) as (q & ->). cbn [bind].
    destruct (note_total (sc_refs s) (sc_se s) se (sc_kc s) ltac:(lia) ltac:(lia) X8) as (refs' & -> & RL & RF). cbn [bind]. eexists. split; [reflexivity|]. split; [|reflexivity]. pose proof (proj1 S2) as SL2.
    constructor; cbn [sc_nodes sc_ses sc_kc sc_refs sc_offs sc_se]; auto; rewrite ?DA; auto; try lia. rewrite <- (ent_same _ _ _ (same_trans _ _ _ S1 S2)). apply LK.
Qed.
Lemma poly_goes i n s off top st v : keeps i s -> ext i s -> nth_error L i = Some n -> 0 < nex n -> length top = 2 * nex n - 1 -> rep (sc_offs s) (top ++ N.of_nat off :: st) -> off < i -> is_read_op (no n) = false ->
  nden (sub L off (S i - off)) v -> nex n <= N.to_nat (sc_se s) -> exists s', scan_poly (N.of_nat i) n s = Ok s' /\ ext (S i) s' /\ N.to_nat (sc_se s') = N.to_nat (sc_se s) - nex n.
Proof.
  intros [IV FR] X E X0 TL R O RD ND XS. assert (IL : i < length L) by (apply nth_error_Some; congruence). destruct X as [X1 X2 X3 X4 X5 X6 X7 X8 X9]. pose proof (iv_len _ _ _ _ _ _ _ IV) as NL. unfold scan_poly. pose proof (rep_count _ _ R) as CR. rewrite app_length in CR. cbn [length] in CR.
  rewrite !sub64_le by lia. replace (2 * N.of_nat (nex n) - 1)%N with (N.of_nat (2 * nex n - 1)) by lia.
  destruct (pop_rep _ _ (2 * nex n - 2) R) as (y & offs & EY & P & R' & DA); [rewrite app_length; cbn [length]; lia|]. replace (S (2 * nex n - 2)) with (2 * nex n - 1) in * by lia. rewrite P. cbn [bind].
  rewrite <- TL, skipn_app, Nat.sub_diag, skipn_all in R'. cbn [skipn app] in R'. rewrite (peek0_ok _ _ _ R'). cbn [bind]. pose proof (rep_count _ _ R') as CR'. cbn [length] in CR'.
  destruct (reg_total i _ _ _ IV X1 X2 off n v false IL O E RD ND X5) as (ses' & kc' & se & -> & [(-> & -> & LE & LK)|(SE & -> & SA & LK)]); cbn [bind].
  - change (0 <? 0)%N with false. cbv iota. destruct (zero_total (nex n) (sc_se s - N.of_nat (nex n))%N (sc_refs s) (sc_kc s)) as (refs & -> & RL & RF); [lia|lia|exact X8|]. cbn [bind]. eexists. split; [reflexivity|].
    split; [|cbn [sc_se]; lia]. constructor; cbn [sc_nodes sc_ses sc_kc sc_refs sc_offs sc_se]; auto; rewrite ?DA; auto; try lia. eapply Forall_mono_kc; [|exact RF]. lia.
  - replace (0 <? se)%N with true by lia. pose proof (ent_length (sc_ses s) (sc_kc s)) as EL. pose proof (proj1 SA) as SL. pose proof (iv_kc _ _ _ _ _ _ _ IV) as KL.
    destruct (dec_all_total (nex n) (sc_se s - N.of_nat (nex n))%N (sc_refs s) ses' (sc_kc s)) as (ses2 & -> & S2); [lia|lia|exact X8|lia|]. cbn [bind].
    destruct (zero_total (nex n) (sc_se s - N.of_nat (nex n))%N (sc_refs s) (sc_kc s)) as (refs & -> & RL & RF); [lia|lia|exact X8|]. cbn [bind].
    destruct (to_cse_total (sc_nodes s) off i se ltac:(lia) IL) as (q & ->). cbn [bind].
    destruct (note_total refs (sc_se s - N.of_nat (nex n))%N se (sc_kc s) ltac:(lia) ltac:(lia) RF) as (refs' & -> & RL' & RF'). cbn [bind]. eexists. split; [reflexivity|]. pose proof (proj1 S2) as SL2.
    split; [|cbn [sc_se]; lia]. constructor; cbn [sc_nodes sc_ses sc_kc sc_refs sc_offs sc_se]; auto; rewrite ?DA; auto; try lia. rewrite <- (ent_same _ _ _ S2). apply LK.
Qed.
(** nodes that are not looked up *)
Lemma ext_next i s : ext i s -> (forall p, ~ reg p (S i)) -> ext (S i) s.
Proof. intros [X1 X2 X3 X4 X5 X6 X7 X8 X9] NR. constructor; auto; try lia. now apply link_step. Qed.
Lemma push_goes i d s st : keeps i s -> ext i s -> i < length L -> rep (sc_offs s) st -> (d <= 1)%N -> (forall p, ~ reg p (S i)) -> exists s', scan_push (N.of_nat i) d s = Ok s' /\ ext (S i) s' /\ sc_se s' = (sc_se s + d)%N.
Proof.
  intros K [X1 X2 X3 X4 X5 X6 X7 X8 X9] IL R D NR. unfold scan_push. pose proof (rep_count _ _ R) as CR. destruct (push_rep _ _ (N.of_nat i) R ltac:(lia)) as (offs & P & R' & DL). rewrite P. cbn [bind]. eexists. split; [reflexivity|]. split; [|reflexivity].
  pose proof (rep_count _ _ R') as CR'. cbn [length] in CR'. constructor; cbn [sc_nodes sc_ses sc_kc sc_refs sc_offs sc_se]; auto; try lia; [now apply link_step|].
  unfold s_push, set in P. destruct (_ <? _); [|discriminate]. cbn [bind] in P. injection P as <-. cbn [data]. apply Forall_upd; [exact X9|lia].
Qed.
Lemma leaf_not_reg i n : nth_error L i = Some n -> (if ((no n =? op_sum) || (no n =? op_ep))%N then 2 * nex n else arity (no n)) = 0 -> forall p, ~ reg p (S i).
Proof.
  intros E AR p (A & B & C & _). apply operand_depth in C. rewrite (sub_cut L p i (S i)), depth_app in C by lia. destruct (depth 0 (sub L p (i - p))) as [d|] eqn:D; [|discriminate].
  apply depth_pos in D; [|apply sub_ne; lia]. assert (LN : sub L i (S i - i) = [n]) by (replace (S i - i) with 1 by lia; now apply sub_one).
  rewrite LN in C. cbn [depth] in C. unfold depth_step in C. rewrite AR in C. destruct (0 <=? d); [|discriminate]. injection C as C. lia.
Qed.
Lemma read_not_reg i n : nth_error L i = Some n -> is_read_op (no n) = true -> forall p, ~ reg p (S i).
Proof. intros E RD p (A & B & _ & D). rewrite (sub_end L SMALL p i n E) in D by lia. congruence. Qed.

(** ** whole programs *)
Notation scans := (scans m env L). Notation scans_items := (scans_items m env L).
Definition goes (l : list node) : Prop := forall A B s st, L = A ++ l ++ B -> keeps (length A) s -> ext (length A) s -> rep (sc_offs s) st ->
  exists s', scan_all (length l) (N.of_nat (length A)) s = Ok s' /\ ext (length A + length l) s' /\ sc_se s' = sc_se s.
Definition goes_items (L0 : list item) : Prop := forall A B s st, L = A ++ flat_map render L0 ++ B -> keeps (length A) s -> ext (length A) s -> rep (sc_offs s) st ->
  exists s', scan_all (length (flat_map render L0)) (N.of_nat (length A)) s = Ok s' /\ ext (length A + length (flat_map render L0)) s' /\ N.to_nat (sc_se s') = N.to_nat (sc_se s) + length L0.
Lemma here_total i s n : keeps i s -> nth_error L i = Some n -> nget (sc_nodes s) (N.of_nat i) = Ok n.
Proof.
  intros [IV _] E. assert (IL : i < length L) by (apply nth_error_Some; congruence). pose proof (iv_len _ _ _ _ _ _ _ IV) as NL. destruct (nget_tot (sc_nodes s) (N.of_nat i)) as (x & -> & X); [lia|]. rewrite Nat2N.id in X.
  pose proof (inv_here m env L SMALL _ _ _ _ _ IV IL X). congruence.
Qed.
Lemma at_last (l : list node) n A B : L = A ++ (l ++ [n]) ++ B -> nth_error L (length A + length l) = Some n /\ sub L (length A) (S (length A + length l) - length A) = l ++ [n] /\ sub L (length A) (length A + length l - length A) = l.
Proof.
  intros EL. rewrite EL. split; [|split].
  - rewrite <- app_assoc, app_assoc. cbn [app]. rewrite <- app_length. apply mid.
  - replace (S (length A + length l) - length A) with (length (l ++ [n])) by (rewrite app_length; change (length [n]) with 1; lia). apply sub_mid.
  - replace (length A + length l - length A) with (length l) by lia. rewrite <- app_assoc. apply sub_mid.
Qed.
Lemma scan_one i s n : keeps i s -> nth_error L i = Some n -> scan_all 1 (N.of_nat i) s = scan_node (N.of_nat i) s.
Proof. intros K E. cbn [scan_all]. now destruct (scan_node (N.of_nat i) s). Qed.
Lemma leaf_goes n : (if ((no n =? op_sum) || (no n =? op_ep))%N then 2 * nex n else arity (no n)) = 0 -> (forall i s, nget (sc_nodes s) i = Ok n -> scan_node i s = scan_push i 0 s) -> goes [n].
Proof.
  intros AR F A B s st EL K X R. assert (E : nth_error L (length A) = Some n) by (rewrite EL; apply mid). cbn [length]. rewrite (scan_one _ _ _ K E), (F _ _ (here_total _ _ _ K E)).
  destruct (push_goes (length A) 0 s st K X) as (s' & P & X' & SE); auto; [apply nth_error_Some; congruence|lia|exact (leaf_not_reg _ _ E AR)|]. exists s'. rewrite Nat.add_1_r. split; [exact P|]. split; [exact X'|]. rewrite SE. lia.
Qed.
Lemma unary_all l n v w : nden l w -> goes l -> nden (l ++ [n]) v ->
  (is_read_op (no n) = true /\ (forall i s, nget (sc_nodes s) i = Ok n -> scan_node i s = Ok s) \/
   is_read_op (no n) = false /\ (forall i s, nget (sc_nodes s) i = Ok n -> scan_node i s = scan_unary i n s) \/
   is_read_op (no n) = false /\ eager n = true /\ (forall i s, nget (sc_nodes s) i = Ok n -> scan_node i s = scan_fn i n s)) -> goes (l ++ [n]).
Proof.
  intros NL IH ND F A B s st EL K X R. destruct (at_last _ _ _ _ EL) as (E & Q1 & Q2). pose proof (nden_pos m env _ _ NL) as LP.
  destruct (IH A ([n] ++ B) s st ltac:(now rewrite EL, <- !app_assoc) K X R) as (s1 & S1 & X1 & SE1).
  destruct (nden_scans m env L ID SMALL l w NL A ([n] ++ B) s s1 st ltac:(now rewrite EL, <- !app_assoc) K R S1) as [K1 R1].
  rewrite app_length. cbn [length]. rewrite scan_app, S1. cbn [bind]. replace (N.of_nat (length A) + N.of_nat (length l))%N with (N.of_nat (length A + length l)) by lia. rewrite (scan_one _ _ _ K1 E).
  replace (length A + (length l + 1)) with (S (length A + length l)) by lia. rewrite <- Q1 in ND. rewrite <- Q2 in NL. pose proof (here_total _ _ _ K1 E) as HT. destruct F as [[RD F]|[[RD F]|(RD & EG & F)]]; rewrite (F _ _ HT).
  - exists s1. split; [reflexivity|]. split; [|exact SE1]. apply ext_next; [exact X1|exact (read_not_reg _ _ E RD)].
  - destruct (unary_goes _ n s1 (length A) st v K1 X1 E R1 ltac:(lia) RD ND) as (s' & P & X' & SE). exists s'. split; [exact P|]. split; [exact X'|]. congruence.
  - destruct (fn_goes _ n s1 (length A) st v w K1 X1 E R1 ltac:(lia) RD EG ND NL) as (s' & P & X' & SE). exists s'. split; [exact P|]. split; [exact X'|]. congruence.
Qed.
Lemma binary_all l r n v w u : nden l w -> nden r u -> goes l -> goes r -> nden (l ++ r ++ [n]) v -> is_read_op (no n) = false ->
  ((forall i s, nget (sc_nodes s) i = Ok n -> scan_node i s = scan_binary i n s) \/ eager n = true /\ (forall i s, nget (sc_nodes s) i = Ok n -> scan_node i s = scan_div i n s)) -> goes (l ++ r ++ [n]).
Proof.
  intros NL NR IHl IHr ND RD F A B s st EL K X R. rewrite (app_assoc l r [n]) in *. destruct (at_last _ _ _ _ EL) as (E & Q1 & _). pose proof (nden_pos m env _ _ NL) as LP. pose proof (nden_pos m env _ _ NR) as RP.
  destruct (IHl A (r ++ [n] ++ B) s st ltac:(now rewrite EL, <- !app_assoc) K X R) as (s0 & S0 & X0 & SE0).
  destruct (nden_scans m env L ID SMALL l w NL A (r ++ [n] ++ B) s s0 st ltac:(now rewrite EL, <- !app_assoc) K R S0) as [K0 R0]. rewrite <- app_length in K0, X0.
  destruct (IHr (A ++ l) ([n] ++ B) s0 _ ltac:(now rewrite EL, <- !app_assoc) K0 X0 R0) as (s1 & S1 & X1 & SE1).
  destruct (nden_scans m env L ID SMALL r u NR (A ++ l) ([n] ++ B) s0 s1 _ ltac:(now rewrite EL, <- !app_assoc) K0 R0 S1) as [K1 R1].
  assert (LL : length (A ++ l) + length r = length A + length (l ++ r)) by (rewrite !app_length; lia). rewrite LL in K1, X1.
  assert (SQ : scan_all (length ((l ++ r) ++ [n])) (N.of_nat (length A)) s = scan_node (N.of_nat (length A + length (l ++ r))) s1).
  { rewrite (app_length (l ++ r)), (app_length l r), !scan_app, S0. cbn [bind]. replace (N.of_nat (length A) + N.of_nat (length l))%N with (N.of_nat (length (A ++ l))) by (rewrite app_length; lia). rewrite S1. cbn [bind].
    replace (N.of_nat (length A) + N.of_nat (length l + length r))%N with (N.of_nat (length A + length (l ++ r))) by (rewrite app_length; lia). rewrite <- (app_length l r). exact (scan_one _ _ _ K1 E). }
  rewrite SQ, (app_length (l ++ r)). change (length [n]) with 1.
  replace (length A + (length (l ++ r) + 1)) with (S (length A + length (l ++ r))) by lia. rewrite <- Q1 in ND. pose proof (here_total _ _ _ K1 E) as HT.
  assert (QR : sub L (length (A ++ l)) (length A + length (l ++ r) - length (A ++ l)) = r).
  { rewrite EL, <- LL. replace (length (A ++ l) + length r - length (A ++ l)) with (length r) by lia. rewrite <- !app_assoc, app_assoc. apply sub_mid. }
  rewrite <- QR in NR. rewrite !app_length in *. destruct F as [F|[EG F]]; rewrite (F _ _ HT).
  - destruct (binary_goes _ n s1 (length A) (length A + length l) st v K1 X1 E R1 ltac:(lia) RD ND) as (s' & P & X' & SE). exists s'. split; [exact P|]. split; [exact X'|]. congruence.
  - destruct (div_goes _ n s1 (length A) (length A + length l) st v u K1 X1 E R1 ltac:(lia) ltac:(lia) RD EG ND NR) as (s' & P & X' & SE). exists s'. split; [exact P|]. split; [exact X'|]. congruence.
Qed.
Lemma poly_all k l n v : ses m env k l -> goes_items l -> l <> [] -> nex n = length l -> nden (flat_map render l ++ [n]) v -> is_read_op (no n) = false ->
  (forall i s, nget (sc_nodes s) i = Ok n -> scan_node i s = scan_poly i n s) -> goes (flat_map render l ++ [n]).
Proof.
  intros NS IH NE X0 ND RD F A B s st EL K X R. destruct (at_last _ _ _ _ EL) as (E & Q1 & _).
  destruct (IH A ([n] ++ B) s st ltac:(now rewrite EL, <- !app_assoc) K X R) as (s1 & S1 & X1 & SE1).
  destruct (ses_scans m env L ID SMALL k l NS A ([n] ++ B) s s1 st ltac:(now rewrite EL, <- !app_assoc) K R S1) as (K1 & top & R1 & TL & LT).
  rewrite app_length. cbn [length]. rewrite scan_app, S1. cbn [bind]. replace (N.of_nat (length A) + N.of_nat (length (flat_map render l)))%N with (N.of_nat (length A + length (flat_map render l))) by lia. rewrite (scan_one _ _ _ K1 E).
  replace (length A + (length (flat_map render l) + 1)) with (S (length A + length (flat_map render l))) by lia. rewrite <- Q1 in ND. rewrite (F _ _ (here_total _ _ _ K1 E)).
  assert (0 < length l) by (destruct l; [congruence|cbn; lia]).
  destruct top as [|t0 top0] using rev_ind; [cbn in TL; lia|]. clear IHtop0. specialize (LT NE). rewrite last_last in LT. subst t0. rewrite app_length in TL. cbn [length] in TL. rewrite <- app_assoc in R1. cbn [app] in R1.
  assert (FL : 0 < length (flat_map render l)) by (destruct l; [congruence|cbn [flat_map render app length]; lia]).
  destruct (poly_goes _ n s1 (length A) top0 st v K1 X1 E ltac:(lia) ltac:(lia) R1 ltac:(lia) RD ND ltac:(lia)) as (s' & P & X' & SE). exists s'. split; [exact P|]. split; [exact X'|]. lia.
Qed.
Lemma nil_goes : goes_items [].
Proof. intros A B s st EL K X R. exists s. cbn [flat_map length scan_all]. rewrite !Nat.add_0_r. auto. Qed.
Lemma cons_goes i L0 v : nden (i_body i) v -> goes (i_body i) -> goes_items L0 -> goes_items (i :: L0).
Proof.
  intros NB IHb IHL A B s st EL K X R. cbn [flat_map] in *. change (render i ++ flat_map render L0) with (mknode op_se (i_cs i) (length (i_body i)) (i_q i) :: i_body i ++ flat_map render L0) in *. cbn [app length] in *.
  assert (E : nth_error L (length A) = Some (mknode op_se (i_cs i) (length (i_body i)) (i_q i))) by (rewrite EL; apply mid). assert (IL : length A < length L) by (apply nth_error_Some; congruence).
  change (S (length (i_body i ++ flat_map render L0))) with (1 + length (i_body i ++ flat_map render L0)). rewrite scan_app, (scan_one _ _ _ K E).
  assert (SN : scan_node (N.of_nat (length A)) s = scan_push (N.of_nat (length A)) 1 s) by (unfold scan_node; rewrite (here_total _ _ _ K E); reflexivity). rewrite SN.
  destruct (push_goes (length A) 1 s st K X IL R ltac:(lia) (leaf_not_reg _ _ E eq_refl)) as (s0 & P & X0 & SE0). rewrite P. cbn [bind].
  destruct (push_okk m env L SMALL _ _ _ _ _ K IL R P) as [K0 R0]. rewrite app_length, scan_app. set (A1 := A ++ [mknode op_se (i_cs i) (length (i_body i)) (i_q i)]). assert (LA : length A1 = S (length A)) by (unfold A1; rewrite app_length; cbn; lia).
  rewrite <- LA in K0, X0. replace (N.of_nat (length A) + N.of_nat 1)%N with (N.of_nat (length A1)) by lia.
  destruct (IHb A1 (flat_map render L0 ++ B) s0 _ ltac:(unfold A1; rewrite EL, <- !app_assoc; cbn [app]; reflexivity) K0 X0 R0) as (s1 & S1 & X1 & SE1).
  destruct (nden_scans m env L ID SMALL _ v NB A1 (flat_map render L0 ++ B) s0 s1 _ ltac:(unfold A1; rewrite EL, <- !app_assoc; cbn [app]; reflexivity) K0 R0 S1) as [K1 R1]. rewrite S1. cbn [bind].
  set (A2 := A1 ++ i_body i). assert (LA2 : length A2 = length A1 + length (i_body i)) by (unfold A2; now rewrite app_length).
  rewrite <- LA2 in K1, X1. replace (N.of_nat (length A1) + N.of_nat (length (i_body i)))%N with (N.of_nat (length A2)) by lia.
  destruct (IHL A2 B s1 _ ltac:(unfold A2, A1; rewrite EL, <- !app_assoc; cbn [app]; reflexivity) K1 X1 R1) as (s2 & S2 & X2 & SE2). exists s2. split; [exact S2|].
  split; [replace (length A + (1 + (length (i_body i) + length (flat_map render L0)))) with (length A2 + length (flat_map render L0)) by lia; exact X2|]. lia.
Qed.
Ltac go G := unfold scan_node; rewrite G; reflexivity.
Theorem nden_goes l v : nden l v -> goes l.
Proof.
  intros H. apply (nden_mind m env (fun l _ => goes l) (fun _ => goes_items)) with (l := l) (v := v); try exact H; clear l v H.
  - intros cs ex q v _. apply leaf_goes; [reflexivity|]. intros i s G. go G.
  - intros cs ex q. apply leaf_goes; [reflexivity|]. intros i s G. go G.
  - intros o cs ex q H. assert (X : forall k, (k <= 17)%N -> (o =? k)%N = false) by (intros; apply N.eqb_neq; unfold c_scalar in H; lia).
    apply leaf_goes; [cbn [no nex]; rewrite !X by (unfold op_sum, op_ep; lia); cbn [orb]; unfold arity; cbn [existsb]; rewrite !X by (vm_compute; discriminate); reflexivity|].
    intros i s G. unfold scan_node. rewrite G. cbn [bind no]. unfold is_read_op. rewrite !X by (vm_compute; discriminate). reflexivity.
  - intros l v cs ex q H IH. eapply unary_all; [exact H|exact IH|apply nd_rev; exact H|]. right. left. split; [reflexivity|]. intros i s G. go G.
  - intros l v cs ex q H IH. eapply unary_all; [exact H|exact IH|apply nd_pd; exact H|]. right. left. split; [reflexivity|]. intros i s G. go G.
  - intros o k l r v w cs ex q O Hl IHl Hr IHr. eapply binary_all; [exact Hl|exact Hr|exact IHl|exact IHr|eapply nd_bin; eauto|destruct (binop_cases _ _ O) as [X|[X|X]]; subst o; reflexivity|]. left. intros i s G.
    destruct (binop_cases _ _ O) as [X|[X|X]]; subst o; go G.
  - intros l cs q H IH NE. eapply poly_all; [exact H|exact IH|exact NE|reflexivity|apply nd_sum; auto|reflexivity|]. intros i s G. go G.
  - intros l cs q H IH NE. eapply poly_all; [exact H|exact IH|exact NE|reflexivity|apply nd_ep; auto|reflexivity|]. intros i s G. go G.
  - intros l v cs ex q H IH. eapply unary_all; [exact H|exact IH|apply nd_comp; exact H|]. left. split; [reflexivity|]. intros i s G. go G.
  - intros l v cs ex q H IH. eapply unary_all; [exact H|exact IH|apply nd_grd; exact H|]. left. split; [reflexivity|]. intros i s G. go G.
  - intros l r v w cs ex q Hl IHl Hr IHr S0 W0. eapply binary_all; [exact Hl|exact Hr|exact IHl|exact IHr|eapply nd_div; eauto|reflexivity|]. right. split; [reflexivity|]. intros i s G. go G.
  - intros o f l v cs ex q O Hl IHl S0. eapply unary_all; [exact Hl|exact IHl|eapply nd_fn; eauto|]. right. right. split; [destruct (fn_cases _ _ O) as [X|[X|[X|X]]]; subst o; reflexivity|]. split; [destruct (fn_cases _ _ O) as [X|[X|[X|X]]]; subst o; reflexivity|]. intros i s G.
    destruct (fn_cases _ _ O) as [X|[X|[X|X]]]; subst o; go G.
  - intros k. apply nil_goes.
  - intros k i L0 Hb IHb Hq HL IHL. eapply cons_goes; eauto.
Qed.
End Scan.
