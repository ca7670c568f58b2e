(** The nodes of built expressions: which operations occur, how inputs are numbered, and that
    scales have positive denominators. *)
From Coq Require Import ZArith NArith List Bool Arith Lia ZifyBool ZifyN ZifyNat Reals.
From Verif Require Import Base Model_Numeric Model_Blade Model_Crc Model_Expr Spec_Numeric Spec_Clifford Spec_MV Spec_Basis Spec_Expr Spec_Build.
From Verif Require Import Proof_Numeric.
Import ListNotations.
Local Open Scope nat_scope.

Definition gives {A} (P : A -> Prop) (r : res A) : Prop := forall x, r = Ok x -> P x.
Lemma gives_ok {A} (P : A -> Prop) x : P x -> gives P (Ok x). Proof. intros H y E. now injection E as <-. Qed.
Lemma gives_err {A} (P : A -> Prop) e : gives P (Err e). Proof. intros y E. discriminate. Qed.
Lemma gives_bind {A B} (P : A -> Prop) (Q : B -> Prop) r f : gives P r -> (forall a, P a -> gives Q (f a)) -> gives Q (bind r f).
Proof. intros H F y E. destruct r as [a|]; [|discriminate]. exact (F a (H a eq_refl) y E). Qed.
Lemma gives_true {A} (r : res A) : gives (fun _ => True) r. Proof. intros x _. exact I. Qed.

(** ** positive denominators *)
Definition pos (q : rat) : Prop := (0 < den q)%Z.
Definition posz (q : rat) : Prop := num q = 0%Z \/ pos q.
Lemma pos_posz q : pos q -> posz q. Proof. now right. Qed.
Lemma mul_pos md a b : posz a -> pos b -> gives pos (rmul md a b).
Proof.
  unfold posz, pos. intros A B r E. unfold rmul in E. minv E. minv E. apply imul_ok in E0 as [-> _]. apply imul_ok in E1 as [-> _].
  destruct (_ =? 0)%Z eqn:Z0; [injection E as <-; cbn; lia|]. assert (0 < den a)%Z by (destruct A as [A|A]; [rewrite A in Z0; discriminate Z0|exact A]).
  destruct (1 <? _)%Z; [apply gate_pos in E; [exact E|cbn; nia]|]. injection E as <-. cbn. nia.
Qed.
Lemma add_pos md a b : pos a -> pos b -> gives pos (radd md a b).
Proof.
  unfold pos. intros A B r E. unfold radd in E. minv E. minv E. minv E. destruct (_ =? 0)%Z; [injection E as <-; cbn; lia|]. minv E. apply imul_ok in E3 as [-> _].
  destruct (1 <? _)%Z; [apply gate_pos in E; [exact E|cbn; nia]|]. injection E as <-. cbn. nia.
Qed.
Lemma mul_assign_pos a b : posz a -> pos b -> gives pos (rmul_assign a b).
Proof.
  unfold posz, pos. intros A B r E. unfold rmul_assign in E. minv E. minv E. apply imul_ok in E0 as [-> _]. apply imul_ok in E1 as [-> _].
  destruct (_ =? 0)%Z eqn:Z0; [injection E as <-; cbn; lia|]. assert (0 < den a)%Z by (destruct A as [A|A]; [rewrite A in Z0; discriminate Z0|exact A]).
  destruct (1 <? _)%Z; [apply reduce_pos in E; [exact E|nia]|]. injection E as <-. cbn. nia.
Qed.
Lemma div_pos md a b : pos a -> pos b -> num b <> 0%Z -> gives pos (rdiv md a b).
Proof.
  unfold pos. intros A B N0 r E. unfold rdiv in E. minv E. minv E. apply imul_ok in E0 as [-> _]. apply imul_ok in E1 as [-> _]. destruct (_ =? 0)%Z; [injection E as <-; cbn; lia|].
  minv E. destruct (1 <? _)%Z; destruct (_ <? 0)%Z eqn:S0; try (minv E; minv E; apply ineg_ok in E2 as [-> _]; apply ineg_ok in E1 as [-> _]).
  - apply gate_pos in E; [exact E|cbn; lia].
  - apply gate_pos in E; [exact E|cbn; nia].
  - injection E as <-. cbn. lia.
  - injection E as <-. cbn. nia.
Qed.

Section Nodes.
Variable md : mode.
(** the operations that may occur, and the checksums of the inputs *)
Variable A : N -> Prop.
Variable off : nat -> N.
Definition node_ok (n : node) : Prop := A (no n) /\ (no n = op_id -> ncs n = off (nex n)) /\ posz (nq n).
Definition nodes_ok (l : list node) : Prop := Forall node_ok l.
Definition expr_ok (e : rpne) : Prop := nodes_ok (rnodes e) /\ pos (rq e).
Hypothesis Ase : A op_se.
Lemma se_ok c k q : posz q -> node_ok (mknode op_se c k q).
Proof. intros Q. split; [exact Ase|]. split; [discriminate|exact Q]. Qed.
Lemma op_ok o c k q : A o -> o <> op_id -> posz q -> node_ok (mknode o c k q).
Proof. intros X I Q. split; [exact X|]. split; [intros H; cbn in H; contradiction|exact Q]. Qed.
Lemma q00_ok : posz q00. Proof. now left. Qed.
Lemma rpne_of_ok cap l q : nodes_ok l -> pos q -> gives expr_ok (rpne_of cap l q).
Proof. intros N Q. unfold rpne_of. destruct (_ <=? _); [apply gives_ok; split; assumption|apply gives_err]. Qed.
Lemma scale_ok n q : node_ok n -> pos q -> gives (fun n' => node_ok n' /\ pos (nq n')) (scale_node n q).
Proof.
  intros (X & Y & W) Q r E. unfold scale_node in E. minv E. injection E as <-. pose proof (mul_assign_pos _ _ W Q _ E0). split; [|assumption]. split; [exact X|]. split; [exact Y|]. now right.
Qed.
Lemma take_ok n l : nodes_ok l -> gives (fun p => nodes_ok (fst p) /\ nodes_ok (snd p)) (take n l).
Proof.
  intros N. unfold take. destruct (_ <=? _); [|apply gives_err]. apply gives_ok. cbn. unfold nodes_ok in *. rewrite <- (firstn_skipn n l) in N. now apply Forall_app in N.
Qed.
Lemma app_ok a b : nodes_ok a -> nodes_ok b -> nodes_ok (a ++ b). Proof. intros. apply Forall_app. now split. Qed.
(** the summands written so far *)
Definition out_ok (l : list node) : Prop := nodes_ok l /\ match l with s :: _ => pos (nq s) | [] => True end.
Lemma out_app out h b : out_ok out -> node_ok h -> pos (nq h) -> nodes_ok b -> out_ok (out ++ h :: b).
Proof. intros [O1 O2] H P B. split; [apply app_ok; [exact O1|now constructor]|]. destruct out; assumption. Qed.
Lemma copy_ok q : pos q -> forall fuel l out k, nodes_ok l -> out_ok out -> gives (fun p => out_ok (fst p)) (copy_rest fuel q l out k).
Proof.
  intros Q. induction fuel as [|f IH]; intros l out k L O; cbn [copy_rest]; [apply gives_err|]. destruct l as [|s l]; [now apply gives_ok|].
  inversion_clear L as [|? ? L1 L2]. eapply gives_bind; [apply (scale_ok s q L1 Q)|]. intros s' [S' P']. eapply gives_bind; [apply (take_ok _ _ L2)|]. intros [b r] [B R0].
  apply IH; [exact R0|]. now apply out_app.
Qed.
Lemma merge_ok ql qr : pos ql -> pos qr -> forall fuel l r out k, nodes_ok l -> nodes_ok r -> out_ok out -> gives (fun p => out_ok (fst p)) (merge_sums md fuel ql qr l r out k).
Proof.
  intros Ql Qr. induction fuel as [|f IH]; intros l r out k L R0 O; cbn [merge_sums]; [apply gives_err|]. destruct l as [|s l]; [now apply copy_ok|]. destruct r as [|t r]; [now apply copy_ok|].
  pose proof L as LL. pose proof R0 as RR. inversion_clear L as [|? ? L1 L2]. inversion_clear R0 as [|? ? R1 R2].
  eapply gives_bind; [apply (take_ok _ _ L2)|]. intros [bl l'] [BL L']. eapply gives_bind; [apply (take_ok _ _ R2)|]. intros [br r'] [BR R']. cbn [fst snd] in *.
  destruct (_ && _) eqn:C.
  - eapply gives_bind; [apply (mul_pos md (nq s) ql (proj2 (proj2 L1)) Ql)|]. intros a Pa. eapply gives_bind; [apply (mul_pos md (nq t) qr (proj2 (proj2 R1)) Qr)|]. intros b Pb.
    eapply gives_bind; [apply (add_pos md a b Pa Pb)|]. intros q Pq. destruct (is_zero q); [now apply IH|]. apply IH; auto. apply out_app; auto. apply se_ok. now right.
  - destruct (_ <? _)%N.
    + eapply gives_bind; [apply (scale_ok s ql L1 Ql)|]. intros s' [S' P']. apply IH; auto. now apply out_app.
    + eapply gives_bind; [apply (scale_ok t qr R1 Qr)|]. intros s' [S' P']. apply IH; auto. now apply out_app.
Qed.
Lemma merge_one_ok sq_ nsq fin ns : pos sq_ -> pos nsq -> nodes_ok ns -> forall fuel w l out k, nodes_ok l -> out_ok out ->
  gives (fun p => out_ok (fst p)) (merge_one md fuel sq_ nsq fin ns w l out k).
Proof.
  intros Qs Qn N. induction fuel as [|f IH]; intros w l out k L O; cbn [merge_one]; [apply gives_err|]. 
  assert (W : forall c j q, pos q -> out_ok (out ++ mknode op_se c j q :: ns)) by (intros c j q Q; apply out_app; auto; apply se_ok; now right).
  destruct l as [|s l]; [destruct w; apply gives_ok; cbn [fst]; auto|].
  pose proof L as LL. inversion_clear L as [|? ? L1 L2]. eapply gives_bind; [apply (take_ok _ _ L2)|]. intros [b r] [B R0]. cbn [fst snd] in *.
  destruct (negb w && (ncs s =? ncs fin)%N && (nex s =? length ns) && nodes_eq b ns).
  - eapply gives_bind; [apply (mul_pos md (nq s) sq_ (proj2 (proj2 L1)) Qs)|]. intros a Pa. eapply gives_bind; [apply (add_pos md a nsq Pa Qn)|]. intros q Pq. destruct (is_zero q); apply IH; auto.
  - destruct (negb w && (ncs fin <? ncs s)%N); [apply IH; auto|]. eapply gives_bind; [apply (scale_ok s sq_ L1 Qs)|]. intros s' [S' P']. apply IH; auto. now apply out_app.
Qed.
Lemma removelast_ok l : nodes_ok l -> nodes_ok (removelast l).
Proof. induction 1 as [|x l X L IH]; [constructor|]. cbn [removelast]. destruct l; [constructor|]. now constructor. Qed.
Lemma pos_one : pos one. Proof. unfold pos. cbn. lia. Qed.
Lemma finish_ok cap p : A op_sum -> out_ok (fst p) -> gives expr_ok (finish_sum cap p).
Proof.
  intros As [N Hs]. destruct p as [out k]. unfold finish_sum. cbn [fst snd] in *. destruct (k =? 1) eqn:K.
  - eapply gives_bind; [apply gives_true|]. intros _ _. destruct out as [|s r]; [apply gives_err|]. inversion_clear N as [|? ? N1 N2]. now apply rpne_of_ok.
  - apply rpne_of_ok; [|exact pos_one]. apply app_ok; [exact N|]. constructor; [|constructor]. apply op_ok; [exact As|discriminate|now left].
Qed.
Lemma nil_ok : out_ok []. Proof. split; [constructor|exact I]. Qed.
Lemma rpne0_ok cap : expr_ok (rpne0 cap). Proof. split; [constructor|exact pos_one]. Qed.
Lemma add_ok l r : A op_sum -> expr_ok l -> expr_ok r -> gives expr_ok (e_add md l r).
Proof.
  intros As [L QL] [R0 QR]. unfold e_add. destruct (rnodes l) as [|l0 ln] eqn:El; [apply rpne_of_ok; [assumption|exact pos_one]|].
  destruct (rnodes r) as [|r0 rn] eqn:Er; [apply rpne_of_ok; [assumption|exact pos_one]|]. rewrite <- El in *. rewrite <- Er in *. rewrite El, Er. rewrite <- El, <- Er.
  eapply gives_bind; [apply gives_true|]. intros lf _. eapply gives_bind; [apply gives_true|]. intros rf _.
  destruct (_ && _)%bool; [eapply gives_bind; [apply (merge_ok (rq l) (rq r) QL QR); [now apply removelast_ok|now apply removelast_ok|apply nil_ok]|intros; now apply finish_ok]|].
  destruct (_ =? op_sum)%N; [eapply gives_bind; [apply (merge_one_ok (rq l) (rq r) _ _ QL QR R0); [now apply removelast_ok|apply nil_ok]|intros; now apply finish_ok]|].
  destruct (_ =? op_sum)%N; [eapply gives_bind; [apply (merge_one_ok (rq r) (rq l) _ _ QR QL L); [now apply removelast_ok|apply nil_ok]|intros; now apply finish_ok]|].
  destruct (_ && _ && _)%bool.
  - eapply gives_bind; [apply (add_pos md _ _ QL QR)|]. intros q Q. destruct (is_zero q); [apply gives_ok, rpne0_ok|now apply rpne_of_ok].
  - apply finish_ok; [exact As|]. cbn [fst].
    assert (HL : forall c j, node_ok (mknode op_se c j (rq l))) by (intros; apply se_ok; now right). assert (HR : forall c j, node_ok (mknode op_se c j (rq r))) by (intros; apply se_ok; now right).
    destruct (_ <? _)%N; cbn [app]; (split; [constructor; [auto|apply app_ok; [assumption|constructor; auto]]|assumption]).
Qed.
Lemma rescale_ok x q : expr_ok x -> pos q -> gives expr_ok (rescale x q).
Proof. intros [N Q] P. unfold rescale. eapply gives_bind; [apply (mul_assign_pos _ _ (pos_posz _ Q) P)|]. intros q' Q'. apply gives_ok. now split. Qed.
Lemma neg_ok x : expr_ok x -> gives expr_ok (e_neg x).
Proof. intros H. unfold e_neg. destruct (_ <? _); [apply rescale_ok; [exact H|unfold pos; cbn; lia]|now apply gives_ok]. Qed.
Lemma append_op_ok o l : A o -> o <> op_id -> nodes_ok l -> gives nodes_ok (append_op o l).
Proof. intros X I N r E. unfold append_op in E. minv E. injection E as <-. apply app_ok; [exact N|]. constructor; [|constructor]. apply op_ok; auto. now left. Qed.
Lemma last_app_ok {T} (l : list T) a d : last (l ++ [a]) d = a. Proof. apply last_last. Qed.
Lemma set_q_ok o l q : A o -> o <> op_id -> nodes_ok l -> posz q -> gives (fun l' => nodes_ok (set_q q l')) (append_op o l).
Proof.
  intros X I N Q r E. unfold append_op in E. minv E. injection E as <-. unfold set_q. rewrite removelast_last, last_last. apply app_ok; [exact N|]. constructor; [|constructor]. now apply op_ok.
Qed.
Lemma rev_ok x : A op_rev -> expr_ok x -> gives expr_ok (e_rev x).
Proof.
  intros X [N Q]. unfold e_rev. destruct (rnodes x) as [|a l] eqn:E; [apply gives_ok, rpne0_ok|]. rewrite <- E in *. rewrite E. rewrite <- E. eapply gives_bind; [apply gives_true|]. intros b _.
  destruct (_ =? _)%N; [apply rpne_of_ok; [now apply removelast_ok|exact pos_one]|]. eapply gives_bind; [apply (append_op_ok op_rev _ X ltac:(discriminate) N)|]. intros l' L'. apply rpne_of_ok; [exact L'|exact pos_one].
Qed.
Lemma dual_ok x : A op_pd -> expr_ok x -> gives expr_ok (e_dual x).
Proof.
  intros X [N Q]. unfold e_dual. destruct (rnodes x) as [|a l] eqn:E; [apply gives_ok, rpne0_ok|]. rewrite <- E in *. rewrite E. rewrite <- E.
  eapply gives_bind; [apply (append_op_ok op_pd _ X ltac:(discriminate) N)|]. intros l' L'. apply rpne_of_ok; [exact L'|exact pos_one].
Qed.
Lemma prod_ok o l r : A o -> o <> op_id -> expr_ok l -> expr_ok r -> gives expr_ok (e_prod md o l r).
Proof.
  intros X I [L QL] [R0 QR]. unfold e_prod. destruct (rnodes l) as [|l0 ln] eqn:El; [apply rpne_of_ok; [assumption|exact pos_one]|].
  destruct (rnodes r) as [|r0 rn] eqn:Er; [apply rpne_of_ok; [assumption|exact pos_one]|].
  eapply gives_bind; [apply (mul_pos md _ _ (pos_posz _ QL) QR)|]. intros q Q. destruct (is_zero q); [apply gives_ok, rpne0_ok|].
  eapply gives_bind; [apply gives_true|]. intros lf _. eapply gives_bind; [apply gives_true|]. intros rf _. apply rpne_of_ok; [|exact Q].
  apply app_ok; [exact L|]. apply app_ok; [exact R0|]. constructor; [|constructor]. apply op_ok; auto. now left.
Qed.
Lemma sip_nodes_ok l r : A op_sip -> nodes_ok l -> nodes_ok r -> gives nodes_ok (sip_nodes l r).
Proof.
  intros X L R0. unfold sip_nodes. eapply gives_bind; [apply gives_true|]. intros lf _. eapply gives_bind; [apply gives_true|]. intros rf _. apply gives_ok.
  apply app_ok; [|constructor; [apply op_ok; [exact X|discriminate|now left]|constructor]]. destruct (_ <? _)%N; now apply app_ok.
Qed.
Lemma sip_ok l r : A op_sip -> expr_ok l -> expr_ok r -> gives expr_ok (e_sip md l r).
Proof.
  intros X [L QL] [R0 QR]. unfold e_sip. destruct (rnodes l) as [|l0 ln] eqn:El; [apply rpne_of_ok; [assumption|exact pos_one]|].
  destruct (rnodes r) as [|r0 rn] eqn:Er; [apply rpne_of_ok; [assumption|exact pos_one]|].
  eapply gives_bind; [apply (mul_pos md _ _ (pos_posz _ QL) QR)|]. intros q Q. destruct (is_zero q); [apply gives_ok, rpne0_ok|].
  eapply gives_bind; [apply (sip_nodes_ok _ _ X L R0)|]. intros s S1. now apply rpne_of_ok.
Qed.
Lemma scalar_product_ok l r : A op_sip -> A op_comp -> expr_ok l -> expr_ok r -> gives expr_ok (e_scalar_product md l r).
Proof.
  intros X Y [L QL] [R0 QR]. unfold e_scalar_product. destruct (rnodes l) as [|l0 ln] eqn:El; [apply rpne_of_ok; [assumption|exact pos_one]|].
  destruct (rnodes r) as [|r0 rn] eqn:Er; [apply rpne_of_ok; [assumption|exact pos_one]|].
  eapply gives_bind; [apply (mul_pos md _ _ (pos_posz _ QL) QR)|]. intros q Q. destruct (is_zero q); [apply gives_ok, rpne0_ok|].
  eapply gives_bind; [apply (sip_nodes_ok _ _ X L R0)|]. intros s S1. eapply gives_bind; [apply gives_true|]. intros b _. apply rpne_of_ok; [|exact Q].
  apply app_ok; [exact S1|]. constructor; [|constructor]. apply op_ok; [exact Y|discriminate|now left].
Qed.
Lemma factor_ok l : nodes_ok l -> gives nodes_ok (factor l).
Proof. intros L. unfold factor. eapply gives_bind; [apply gives_true|]. intros b _. apply gives_ok. constructor; [|exact L]. apply se_ok. now left. Qed.
Lemma ep_ok l r : A op_ep -> expr_ok l -> expr_ok r -> gives expr_ok (e_ep md l r).
Proof.
  intros X [L QL] [R0 QR]. unfold e_ep. destruct (_ || _ || _ || _)%bool; [apply gives_ok, rpne0_ok|].
  eapply gives_bind; [apply gives_true|]. intros lf _. eapply gives_bind; [apply gives_true|]. intros rf _.
  apply (gives_bind nodes_ok); [destruct (_ =? _)%N; [apply gives_ok; now apply removelast_ok|now apply factor_ok]|]. intros fl FL.
  apply (gives_bind nodes_ok); [destruct (_ =? _)%N; [apply gives_ok; now apply removelast_ok|now apply factor_ok]|]. intros fr FR.
  apply (gives_bind pos); [destruct (_ || _)%bool; [apply gives_ok; exact pos_one|apply (mul_pos md _ _ (pos_posz _ QL) QR)]|]. intros q Q.
  apply rpne_of_ok; [|exact Q]. apply app_ok; [now apply app_ok|]. constructor; [|constructor]. apply op_ok; [exact X|discriminate|now left].
Qed.
Lemma comp_ok x e : A op_comp -> expr_ok x -> gives expr_ok (e_comp x e).
Proof.
  intros X [N Q]. unfold e_comp. eapply gives_bind; [apply gives_true|]. intros b _. apply rpne_of_ok; [|exact Q]. apply app_ok; [exact N|].
  constructor; [|constructor]. apply op_ok; [exact X|discriminate|now left].
Qed.
Lemma grade_ok x e : A op_grd -> expr_ok x -> gives expr_ok (e_grade x e).
Proof.
  intros X [N Q]. unfold e_grade. eapply gives_bind; [apply gives_true|]. intros b _. apply rpne_of_ok; [|exact Q]. apply app_ok; [exact N|].
  constructor; [|constructor]. apply op_ok; [exact X|discriminate|now left].
Qed.
Lemma const_ok o c q : A o -> o <> op_id -> pos q -> expr_ok (mkrpne [mknode o c 0 q00] q 1).
Proof. intros X I Q. split; [|exact Q]. constructor; [|constructor]. apply op_ok; auto. now left. Qed.
Lemma blade_nid e : (c_scalar + e)%N <> op_id. Proof. unfold c_scalar, op_id. lia. Qed.

(** what a user expression needs *)
Variable ins : list rpne.
Hypothesis Hins : forall i e, nth_error ins i = Some e -> expr_ok e.
Fixpoint needs (u : uexpr) : Prop :=
  match u with
  | UIn _ => True
  | UBlade e _ => A (c_scalar + e)%N
  | UPi | UE => A c_pi
  | UAdd a b | USub a b => A op_sum /\ needs a /\ needs b
  | UNeg a | UScale _ a => needs a
  | UDivZ a d => (0 < d)%Z /\ needs a
  | UZDiv _ a => A op_div /\ A c_scalar /\ needs a /\ on1 (fun x => 0 < num (rq x))%Z (build md ins a)
  | UDiv a b => A op_div /\ needs a /\ needs b /\ on1 (fun x => num (rq x) <> 0)%Z (build md ins b)
  | UAddZ _ a | UZSub _ a | USubZ a _ => A op_sum /\ A c_scalar /\ needs a
  | URev a => A op_rev /\ needs a
  | UDual a => A op_pd /\ needs a
  | UFn o a => A o /\ o <> op_id /\ needs a
  | UGp a b => A op_gp /\ needs a /\ needs b
  | ULc a b => A op_lc /\ needs a /\ needs b
  | USip a b => A op_sip /\ needs a /\ needs b
  | UEp a b => A op_ep /\ needs a /\ needs b
  | UVee a b => A op_ep /\ A op_pd /\ needs a /\ needs b
  | USandwich a b => A op_gp /\ A op_rev /\ needs a /\ needs b
  | UScalarProduct a b => A op_sip /\ A op_comp /\ needs a /\ needs b
  | UComp a _ => A op_comp /\ needs a
  | UGrade a _ => A op_grd /\ needs a
  end.
Lemma bind1_ok f a : gives expr_ok a -> (forall x, a = Ok x -> expr_ok x -> gives expr_ok (f x)) -> gives expr_ok (bind1 f a).
Proof. intros X F. unfold bind1. destruct a as [x|]; [|apply gives_err]. exact (F x eq_refl (X x eq_refl)). Qed.
Lemma bind2_ok f a b : gives expr_ok a -> gives expr_ok b -> (forall x y, b = Ok y -> expr_ok x -> expr_ok y -> gives expr_ok (f x y)) -> gives expr_ok (bind2 f a b).
Proof. intros X Y F. unfold bind2. destruct a as [x|]; [|apply gives_err]. destruct b as [y|]; [|apply gives_err]. exact (F x y eq_refl (X x eq_refl) (Y y eq_refl)). Qed.
Theorem build_ok u : needs u -> gives expr_ok (build md ins u).
Proof.
  induction u; cbn [needs build]; intros H.
  - destruct (nth_error ins i) eqn:E; [apply gives_ok; eapply Hins; eauto|apply gives_err].
  - apply gives_ok, const_ok; [exact H|apply blade_nid|unfold pos; cbn; lia].
  - apply gives_ok, const_ok; [exact H|discriminate|exact pos_one].
  - apply gives_ok, const_ok; [exact H|discriminate|exact pos_one].
  - destruct H as (X & H1 & H2). apply bind2_ok; auto. intros. now apply add_ok.
  - destruct H as (X & H1 & H2). apply bind2_ok; auto. intros x y _ Hx Hy. unfold e_sub. eapply gives_bind; [now apply neg_ok|]. intros. now apply add_ok.
  - apply bind1_ok; auto. intros. now apply neg_ok.
  - apply bind1_ok; auto. intros x _ X. unfold e_scale. destruct (_ || _)%bool; [apply gives_ok; split; [constructor|apply X]|]. apply rescale_ok; [exact X|unfold pos; cbn; lia].
  - destruct H as (D & H). apply bind1_ok; auto. intros x _ X. unfold e_divz. destruct (_ <? _); [|now apply gives_ok]. apply rescale_ok; [exact X|exact D].
  - destruct H as (X & Y & H & P). apply bind1_ok; auto. intros x E [N Q]. rewrite E in P. cbn [on1] in P. unfold e_zdiv.
    eapply gives_bind; [apply (set_q_ok op_div (rnodes (e_const n 1) ++ rnodes x) (reciprocal (rq x)) X); [discriminate| |right; exact P]|].
    + apply app_ok; [|exact N]. constructor; [|constructor]. apply op_ok; [exact Y|discriminate|now left].
    + intros l L. apply rpne_of_ok; [exact L|exact pos_one].
  - destruct H as (X & H1 & H2 & P). apply bind2_ok; auto. intros x y E [Nx Qx] [Ny Qy]. rewrite E in P. cbn [on1] in P. unfold e_div.
    intros r R0. minv R0. minv R0. pose proof (div_pos md _ _ Qx Qy P _ E1) as D. pose proof (set_q_ok op_div (rnodes x ++ rnodes y) v0 X ltac:(discriminate) (app_ok _ _ Nx Ny) (pos_posz _ D) _ E0) as L.
    exact (rpne_of_ok _ _ _ L pos_one _ R0).
  - destruct H as (X & Y & H). apply bind1_ok; auto. intros x _ Hx. apply add_ok; auto. apply const_ok; [exact Y|discriminate|unfold pos; cbn; lia].
  - destruct H as (X & Y & H). apply bind1_ok; auto. intros x _ Hx. unfold e_zsub. eapply gives_bind; [now apply neg_ok|]. intros. apply add_ok; auto. apply const_ok; [exact Y|discriminate|unfold pos; cbn; lia].
  - destruct H as (X & Y & H). apply bind1_ok; auto. intros x _ Hx. unfold e_subz. eapply gives_bind; [apply gives_true|]. intros. apply add_ok; auto. apply const_ok; [exact Y|discriminate|unfold pos; cbn; lia].
  - destruct H as (X & H). apply bind1_ok; auto. intros. now apply rev_ok.
  - destruct H as (X & H). apply bind1_ok; auto. intros. now apply dual_ok.
  - destruct H as (X & Y & H). apply bind1_ok; auto. intros x _ [N Q]. unfold e_fn. eapply gives_bind; [apply (set_q_ok o (rnodes x) (rq x) X Y N); now right|]. intros l L. apply rpne_of_ok; [exact L|exact pos_one].
  - destruct H as (X & H1 & H2). destruct (is_const u1); apply bind2_ok; auto; intros; now apply prod_ok.
  - destruct H as (X & H1 & H2). apply bind2_ok; auto. intros. now apply prod_ok.
  - destruct H as (X & H1 & H2). apply bind2_ok; auto. intros. now apply sip_ok.
  - destruct H as (X & H1 & H2). apply bind2_ok; auto. intros. now apply ep_ok.
  - destruct H as (X & Y & H1 & H2). apply bind2_ok; auto. intros x y _ Hx Hy. unfold e_vee. eapply gives_bind; [apply (dual_ok x Y Hx)|]. intros a Ha.
    eapply gives_bind; [apply (dual_ok y Y Hy)|]. intros b Hb. eapply gives_bind; [apply (ep_ok a b X Ha Hb)|]. intros. now apply dual_ok.
  - destruct H as (X & Y & H1 & H2). apply bind2_ok; auto. intros x y _ Hx Hy. unfold e_sandwich. eapply gives_bind; [apply (prod_ok op_gp y x X ltac:(discriminate) Hy Hx)|]. intros a Ha.
    eapply gives_bind; [apply (rev_ok y Y Hy)|]. intros b Hb. now apply prod_ok.
  - destruct H as (X & Y & H1 & H2). apply bind2_ok; auto. intros. now apply scalar_product_ok.
  - destruct H as (X & H). apply bind1_ok; auto. intros. now apply comp_ok.
  - destruct H as (X & H). apply bind1_ok; auto. intros. now apply grade_ok.
Qed.
End Nodes.
