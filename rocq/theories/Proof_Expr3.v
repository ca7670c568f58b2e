(** The other operators of expr.hpp. *)
From Coq Require Import ZArith NArith List Bool Arith Lia ZifyBool ZifyN ZifyNat Reals Lra FunctionalExtensionality.
From Verif Require Import Base Model_Numeric Model_Blade Model_Crc Model_Expr Spec_Numeric Spec_Clifford Spec_MV Spec_Basis Spec_Expr
  Proof_Numeric Proof_Blade2 Proof_Blade4 Proof_Val Proof_Div Proof_ProductVal Proof_Expr Proof_Expr2.
Import ListNotations.
Local Open Scope nat_scope.

(** the scalar part of the symmetric inner product *)
Lemma sym_scalar m a b : (a =? 0)%N && (b =? 0)%N = false ->
  (if (fst (symmetric_inner m a b) =? 0)%N then IZR (snd (symmetric_inner m a b)) else 0%R) =
  (if (fst (geometric m a b) =? 0)%N then IZR (snd (geometric m a b)) else 0%R).
Proof.
  intros Z0. unfold symmetric_inner. destruct ((a =? 0)%N || (b =? 0)%N) eqn:E.
  - destruct (geometric_unit m b) as [U _]. destruct (geometric_unit m a) as [_ U'].
    destruct (N.eqb_spec a 0) as [->|]; cbn [andb orb] in *.
    + rewrite U. cbn [fst snd N.eqb]. now rewrite Z0.
    + destruct (N.eqb_spec b 0) as [->|]; [|discriminate]. rewrite U'. cbn [fst snd]. replace (a =? 0)%N with false by lia. reflexivity.
  - pose proof (geometric_closed m a b) as C.
    destruct (geometric m a b) as [g mu] eqn:G. cbn [fst snd] in *.
    destruct (Z.eqb_spec mu 0) as [->|]; cbn [fst snd N.eqb]; [now destruct (g =? 0)%N|].
    destruct (Z.eqb_spec (Z.of_N (pop_count g)) (Z.abs (Z.of_N (pop_count a) - Z.of_N (pop_count b)))) as [P|P]; [reflexivity|].
    cbn [fst snd N.eqb]. destruct (N.eqb_spec g 0) as [->|]; [|reflexivity]. exfalso. apply P.
    assert (N.lxor a b = 0%N).
    { destruct (geometric_unit_sign m a b) as [A _]; [rewrite G; cbn; assumption|]. rewrite G in A. cbn in A. congruence. }
    apply N.lxor_eq in H as ->. cbn [pop_count Z.of_N]. lia.
Qed.
Definition K (P : N -> N -> N * Z) (a b : N) : R := if (fst (P a b) =? 0)%N then IZR (snd (P a b)) else 0%R.
Lemma bil_K P n f g : bilinear P n f g 0 = Rsum (map (fun a => Rsum (map (fun b => f a * g b * K P a b)%R (blades n))) (blades n)).
Proof. unfold bilinear, K. apply Rsum_ext. intros a _. apply Rsum_ext. intros b _. destruct (_ =? _)%N; ring. Qed.
Lemma K_geo_off m a b : a <> b -> K (geometric m) a b = 0%R.
Proof.
  intros NE. unfold K. destruct (Z.eq_dec (snd (geometric m a b)) 0) as [->|E]; [now destruct (_ =? _)%N|].
  destruct (geometric_unit_sign m a b E) as [-> _]. destruct (N.eqb_spec (N.lxor a b) 0) as [X|]; [|reflexivity].
  apply N.lxor_eq in X. congruence.
Qed.
Lemma geo_scalar_sym m v w : vcomp 0 (vprod m Geometric v w) = vcomp 0 (vprod m Geometric w v).
Proof.
  unfold vcomp. f_equal. unfold vprod. cbn [blade_product]. rewrite !bil_K, Proof_Basis.Rsum_swap.
  apply Rsum_ext. intros b _. apply Rsum_ext. intros a _.
  change (blade_product m Geometric) with (geometric m).
  destruct (N.eq_dec a b) as [->|NE]; [ring|]. rewrite (K_geo_off m a b NE), (K_geo_off m b a) by congruence. ring.
Qed.
Lemma sip_scalar m v w : (v 0%N * w 0%N = 0)%R -> vcomp 0 (vprod m SymInner v w) = vcomp 0 (vprod m Geometric v w).
Proof.
  intros Z0. unfold vcomp. f_equal. unfold vprod. cbn [blade_product]. rewrite !bil_K.
  apply Rsum_ext. intros a _. apply Rsum_ext. intros b _.
  destruct ((a =? 0)%N && (b =? 0)%N) eqn:E.
  - apply andb_true_iff in E as [E1 E2]. apply N.eqb_eq in E1, E2. subst. rewrite Z0. ring.
  - f_equal. unfold K. now apply sym_scalar.
Qed.

Section Sem.
Context (m : metric) (env : list V).
Notation nden := (nden m env).
Notation ses := (ses m env).
Notation denotes := (denotes m env).
Lemma denotes_intro e w : nden (rnodes e) w -> den (rq e) <> 0%Z -> denotes e (vscale (rv (rq e)) w).
Proof. intros. right. eauto. Qed.
Lemma denotes_inv e v : rnodes e <> [] -> denotes e v -> exists w, nden (rnodes e) w /\ den (rq e) <> 0%Z /\ v = vscale (rv (rq e)) w.
Proof. intros N [[? _]|H]; [congruence|exact H]. Qed.
Lemma denotes_det e v w : denotes e v -> denotes e w -> v = w.
Proof.
  intros [[A ->]|(x & X & _ & ->)] [[B ->]|(y & Y & _ & ->)]; try reflexivity.
  - rewrite A in Y. exfalso. exact (nden_nonempty _ _ _ _ Y eq_refl).
  - rewrite B in X. exfalso. exact (nden_nonempty _ _ _ _ X eq_refl).
  - now rewrite (nden_det _ _ _ _ _ X Y).
Qed.
Lemma append_ok o l l' : append_op o l = Ok l' -> exists cs, l' = l ++ [mknode o cs 0 q00].
Proof. unfold append_op. destruct (back l); cbn [bind]; [|discriminate]. intros H. injection H as <-. eauto. Qed.
Lemma set_q_snoc q l n : set_q q (l ++ [n]) = l ++ [mknode (no n) (ncs n) (nex n) q].
Proof. unfold set_q. now rewrite removelast_snoc, last_last. Qed.
Lemma q_zero_val q v : is_zero q = true -> vscale (rv q) v = vzero.
Proof. intros H. rewrite rv_zero by (unfold is_zero in H; lia). apply vscale_0. Qed.

(** ** products *)
Lemma prod_val o k l r v w e : binop o = Some k -> rnodes l <> [] -> rnodes r <> [] -> denotes l v -> denotes r w ->
  e_prod Exact o l r = Ok e -> denotes e (vprod m k v w).
Proof.
  intros Bo Nl Nr Dl Dr H. apply denotes_inv in Dl as (vl & Hl & Ql & ->); [|assumption]. apply denotes_inv in Dr as (vr & Hr & Qr & ->); [|assumption].
  unfold e_prod in H. rewrite vprod_scale_l, vprod_scale_r, vscale_vscale.
  destruct (nden_back _ _ _ _ Hl) as [lf Bl]. destruct (nden_back _ _ _ _ Hr) as [rf Br].
  destruct (rnodes l) as [|l0 ln]; [congruence|]. destruct (rnodes r) as [|r0 rn]; [congruence|].
  destruct (rmul Exact (rq l) (rq r)) as [q|] eqn:E; cbn [bind] in H; [|discriminate].
  destruct (rv_mul _ _ _ Ql Qr E) as [Vq Dq]. rewrite <- Vq.
  destruct (is_zero q) eqn:Z0.
  - injection H as <-. left. split; [reflexivity|]. now apply q_zero_val.
  - rewrite Bl, Br in H. cbn [bind] in H. apply rpne_of_ok in H as (N & Q & _).
    right. exists (vprod m k vl vr). rewrite N, Q. split; [|split; [assumption|reflexivity]]. now apply nd_bin.
Qed.
Lemma sip_nodes_val ln rn vl vr s : nden ln vl -> nden rn vr -> sip_nodes ln rn = Ok s ->
  exists lf rf, back ln = Ok lf /\ back rn = Ok rf /\
    nden s (if (ncs lf <? ncs rf)%N then vprod m SymInner vl vr else vprod m SymInner vr vl).
Proof.
  intros Hl Hr H. destruct (nden_back _ _ _ _ Hl) as [lf Bl]. destruct (nden_back _ _ _ _ Hr) as [rf Br].
  exists lf, rf. split; [assumption|]. split; [assumption|]. unfold sip_nodes in H. rewrite Bl, Br in H. cbn [bind] in H. injection H as <-.
  destruct (_ <? _)%N; rewrite <- app_assoc; now apply nd_bin.
Qed.
Lemma sip_val l r v w e : rnodes l <> [] -> rnodes r <> [] -> denotes l v -> denotes r w -> e_sip Exact l r = Ok e ->
  (first_checksum_less l r -> denotes e (vprod m SymInner v w)) /\ (~ first_checksum_less l r -> denotes e (vprod m SymInner w v)).
Proof.
  intros Nl Nr Dl Dr H. apply denotes_inv in Dl as (vl & Hl & Ql & ->); [|assumption]. apply denotes_inv in Dr as (vr & Hr & Qr & ->); [|assumption].
  unfold e_sip in H. unfold first_checksum_less. rewrite !vprod_scale_l, !vprod_scale_r, !vscale_vscale.
  destruct (rnodes l) as [|l0 ln]; [congruence|]. destruct (rnodes r) as [|r0 rn]; [congruence|].
  destruct (rmul Exact (rq l) (rq r)) as [q|] eqn:E; cbn [bind] in H; [|discriminate].
  destruct (rv_mul _ _ _ Ql Qr E) as [Vq Dq]. rewrite (Rmult_comm (rv (rq r))), <- Vq.
  destruct (is_zero q) eqn:Z0.
  - injection H as <-. split; intros _; left; (split; [reflexivity|now apply q_zero_val]).
  - destruct (sip_nodes _ _) as [s|] eqn:Es; cbn [bind] in H; [|discriminate].
    destruct (sip_nodes_val _ _ _ _ _ Hl Hr Es) as (lf & rf & Bl & Br & Hs).
    apply rpne_of_ok in H as (N & Q & _). rewrite <- Q. rewrite <- N in Hs. rewrite <- Q in Dq.
    destruct (N.ltb_spec (ncs lf) (ncs rf)) as [C|C].
    + split; intros F; [now apply denotes_intro|]. exfalso. apply F. exists lf, rf. auto.
    + split; intros F; [|now apply denotes_intro]. exfalso. destruct F as (a & b & A & B & L). rewrite Bl in A. rewrite Br in B.
      injection A as <-. injection B as <-. lia.
Qed.
Lemma scalar_product_val l r v w e : rnodes l <> [] -> rnodes r <> [] -> denotes l v -> denotes r w -> e_scalar_product Exact l r = Ok e ->
  (v 0%N * w 0%N = 0)%R -> denotes e (vcomp 0 (vprod m Geometric v w)).
Proof.
  intros Nl Nr Dl Dr H Z1. apply denotes_inv in Dl as (vl & Hl & Ql & ->); [|assumption]. apply denotes_inv in Dr as (vr & Hr & Qr & ->); [|assumption].
  unfold e_scalar_product in H. 
  destruct (rnodes l) as [|l0 ln]; [congruence|]. destruct (rnodes r) as [|r0 rn]; [congruence|].
  destruct (rmul Exact (rq l) (rq r)) as [q|] eqn:E; cbn [bind] in H; [|discriminate].
  destruct (rv_mul _ _ _ Ql Qr E) as [Vq Dq].
  assert (Z2 : forall x y, (vscale (rv (rq l)) x 0%N * vscale (rv (rq r)) y 0%N = rv q * (x 0%N * y 0%N))%R) by (intros; unfold vscale; rewrite Vq; ring).
  rewrite Z2 in Z1. rewrite vprod_scale_l, vprod_scale_r, vscale_vscale, <- Vq, vcomp_scale.
  destruct (is_zero q) eqn:Z0.
  - injection H as <-. left. split; [reflexivity|]. now apply q_zero_val.
  - destruct (sip_nodes _ _) as [s|] eqn:Es; cbn [bind] in H; [|discriminate].
    destruct (sip_nodes_val _ _ _ _ _ Hl Hr Es) as (lf & rf & Bl & Br & Hs).
    destruct (back s) as [bk|]; cbn [bind] in H; [|discriminate].
    apply rpne_of_ok in H as (N & Q & _).
    assert (Z3 : (vl 0%N * vr 0%N = 0)%R).
    { apply Rmult_integral in Z1 as [Z1|]; [|assumption]. exfalso. revert Z1. apply rv_nz. split; [unfold is_zero in Z0; lia|assumption]. }
    rewrite <- Q. rewrite <- Q in Dq.
    assert (Hc : nden (rnodes e) (vcomp 0 (vprod m Geometric vl vr))).
    { rewrite N. assert (X : forall u, nden s u -> nden (s ++ [mknode op_comp (ncs bk) 0 q00]) (vcomp 0 u)) by (intros u Hu; exact (nd_comp m env s u _ 0 _ Hu)).
      destruct (_ <? _)%N.
      - rewrite <- sip_scalar by assumption. now apply X.
      - rewrite geo_scalar_sym, <- sip_scalar by (rewrite Rmult_comm; assumption). now apply X. }
    now apply denotes_intro.
Qed.

(** ** the exterior product *)
Lemma q_for_zero : q_for false zero. Proof. reflexivity. Qed.
Lemma ep_factors x vx lf fl : nden x vx -> back x = Ok lf ->
  (if (no lf =? op_ep)%N then Ok (removelast x) else factor x) = Ok fl ->
  exists L, ses false L /\ L <> [] /\ fl = fm L /\ vwedge m (map item_val L) = vx /\
    (if (no lf =? op_ep)%N then nex lf else 1) = length L.
Proof.
  intros Hx Bx H. destruct (N.eqb_spec (no lf) op_ep) as [E|E].
  - destruct (nden_ep_inv _ _ _ _ _ Hx Bx E) as (L & SL & NL & -> & -> & NX). rewrite removelast_snoc in H. injection H as <-.
    exists L. auto.
  - unfold factor in H. rewrite Bx in H. cbn [bind] in H. injection H as <-.
    exists [mkitem (ncs lf) zero x vx]. split; [apply ses_one; [assumption|exact q_for_zero]|]. split; [discriminate|].
    split; [cbn [flat_map render i_cs i_q i_body]; now rewrite app_nil_r|]. split; [|reflexivity].
    cbn [map vwedge item_val]. unfold item_val, se_scale. reflexivity.
Qed.
Lemma ep_val l r v w e : denotes l v -> denotes r w -> e_ep Exact l r = Ok e ->
  (is_wedge l \/ is_wedge r -> (rv (rq l) * rv (rq r) = 1)%R) -> denotes e (vprod m Exterior v w).
Proof.
  intros Dl Dr H W. unfold e_ep in H.
  destruct (_ || _ || _ || _) eqn:E.
  { injection H as <-. left. split; [reflexivity|].
    apply orb_true_iff in E as [E|E]; [apply orb_true_iff in E as [E|E]; [apply orb_true_iff in E as [E|E]|]|].
    - destruct (rnodes l) eqn:El; [|discriminate]. destruct Dl as [[_ ->]|(x & X & _)]; [apply vprod_0_l|].
      rewrite El in X. exfalso. exact (nden_nonempty _ _ _ _ X eq_refl).
    - destruct (rnodes r) eqn:Er; [|discriminate]. destruct Dr as [[_ ->]|(x & X & _)]; [apply vprod_0_r|].
      rewrite Er in X. exfalso. exact (nden_nonempty _ _ _ _ X eq_refl).
    - destruct Dr as [[_ ->]|(x & _ & _ & ->)]; [apply vprod_0_r|]. rewrite q_zero_val by assumption. apply vprod_0_r.
    - destruct Dl as [[_ ->]|(x & _ & _ & ->)]; [apply vprod_0_l|]. rewrite q_zero_val by assumption. apply vprod_0_l. }
  apply orb_false_iff in E as [E E4]. apply orb_false_iff in E as [E E3]. apply orb_false_iff in E as [E1 E2].
  apply denotes_inv in Dl as (vl & Hl & Ql & ->); [|destruct (rnodes l); discriminate].
  apply denotes_inv in Dr as (vr & Hr & Qr & ->); [|destruct (rnodes r); discriminate].
  rewrite vprod_scale_l, vprod_scale_r, vscale_vscale.
  destruct (nden_back _ _ _ _ Hl) as [lf Bl]. destruct (nden_back _ _ _ _ Hr) as [rf Br].
  rewrite Bl, Br in H. cbn [bind] in H.
  destruct (if (no lf =? op_ep)%N then _ else _) as [fl|] eqn:Fl; cbn [bind] in H; [|discriminate].
  destruct (if (no rf =? op_ep)%N then Ok (removelast (rnodes r)) else _) as [fr|] eqn:Fr; cbn [bind] in H; [|discriminate].
  destruct (ep_factors _ _ _ _ Hl Bl Fl) as (L & SL & NL & -> & WL & KL). destruct (ep_factors _ _ _ _ Hr Br Fr) as (R & SR & NR & -> & WR & KR).
  destruct (if _ || _ then Ok one else _) as [q|] eqn:Eq; cbn [bind] in H; [|discriminate].
  assert (Vq : rv q = (rv (rq l) * rv (rq r))%R /\ den q <> 0%Z).
  { destruct (_ || _) eqn:O.
    - injection Eq as <-. split; [|discriminate]. rewrite W, rv_one; [reflexivity|].
      apply orb_true_iff in O as [O|O]; apply N.eqb_eq in O; [left|right]; eexists; eauto.
    - now apply rv_mul. }
  destruct Vq as [Vq Dq]. apply rpne_of_ok in H as (N & Q & _). rewrite <- Vq.
  right. exists (vprod m Exterior vl vr). rewrite N, Q. split; [|split; [assumption|reflexivity]].
  rewrite KL, KR, <- app_length, <- fm_app, <- WL, <- WR, <- vwedge_app, <- map_app by (now destruct L, R).
  apply nd_ep; [apply ses_app; assumption|now destruct L].
Qed.

(** ** unary operators *)
Lemma rev_val x v e : denotes x v -> e_rev x = Ok e -> (rnodes x <> [] -> rv (rq x) = 1%R) -> denotes e (vrev v).
Proof.
  intros D H Q1. unfold e_rev in H.
  destruct (rnodes x) as [|n0 l] eqn:E.
  - injection H as <-. destruct D as [[_ ->]|(w & W & _)]; [left; split; [reflexivity|]|rewrite E in W; exfalso; exact (nden_nonempty _ _ _ _ W eq_refl)].
    apply functional_extensionality. intro. unfold vrev, vzero. ring.
  - rewrite <- E in *. apply denotes_inv in D as (w & W & _ & ->); [|rewrite E; discriminate]. rewrite Q1 by (rewrite E; discriminate). rewrite vscale_1.
    destruct (nden_back _ _ _ _ W) as [b B]. rewrite B in H. cbn [bind] in H.
    destruct (N.eqb_spec (no b) op_rev) as [C|C].
    + destruct (nden_rev_inv _ _ _ _ _ W B C) as (l' & u & El & Hu & ->). rewrite El, removelast_snoc in H.
      apply rpne_of_ok in H as (N & Q & _). rewrite vrev_rev. right. exists u. rewrite N, Q, rv_one, vscale_1. split; [assumption|]. split; [discriminate|reflexivity].
    + destruct (append_op _ _) as [l'|] eqn:A; cbn [bind] in H; [|discriminate]. apply append_ok in A as [cs ->].
      apply rpne_of_ok in H as (N & Q & _). right. exists (vrev w). rewrite N, Q, rv_one, vscale_1. split; [now apply nd_rev|]. split; [discriminate|reflexivity].
Qed.
Lemma vdual_0 n : vdual n vzero = vzero.
Proof. rewrite <- (vscale_0 vzero) at 1. rewrite vdual_scale. apply vscale_0. Qed.
Lemma dual_val x v e : denotes x v -> e_dual x = Ok e -> (rnodes x <> [] -> rv (rq x) = 1%R) -> denotes e (vdual (dim m) v).
Proof.
  intros D H Q1. unfold e_dual in H.
  destruct (rnodes x) as [|n0 l] eqn:E.
  - injection H as <-. destruct D as [[_ ->]|(w & W & _)]; [left; split; [reflexivity|apply vdual_0]|rewrite E in W; exfalso; exact (nden_nonempty _ _ _ _ W eq_refl)].
  - rewrite <- E in *. apply denotes_inv in D as (w & W & _ & ->); [|rewrite E; discriminate]. rewrite Q1 by (rewrite E; discriminate). rewrite vscale_1.
    destruct (append_op _ _) as [l'|] eqn:A; cbn [bind] in H; [|discriminate]. apply append_ok in A as [cs ->].
    apply rpne_of_ok in H as (N & Q & _). right. exists (vdual (dim m) w). rewrite N, Q, rv_one, vscale_1. split; [now apply nd_pd|]. split; [discriminate|reflexivity].
Qed.
(** what ~ and ! compute in general: the scale is lost *)
Lemma rev_drops x w e : nden (rnodes x) w -> e_rev x = Ok e -> denotes e (vrev w).
Proof.
  intros W H. apply (rev_val (mkrpne (rnodes x) one (rcap x))); [|exact H|intros; apply rv_one].
  right. exists w. split; [exact W|]. split; [discriminate|]. cbn [rq]. now rewrite rv_one, vscale_1.
Qed.
Lemma dual_drops x w e : nden (rnodes x) w -> e_dual x = Ok e -> denotes e (vdual (dim m) w).
Proof.
  intros W H. apply (dual_val (mkrpne (rnodes x) one (rcap x))); [|exact H|intros; apply rv_one].
  right. exists w. split; [exact W|]. split; [discriminate|]. cbn [rq]. now rewrite rv_one, vscale_1.
Qed.
Lemma scalar_descale r v : r <> 0%R -> is_scalar (vscale r v) -> is_scalar v.
Proof. intros R0 H b B. specialize (H b B). unfold vscale in H. apply Rmult_integral in H as [?|?]; [contradiction|assumption]. Qed.
Lemma fn_val o f x v e : fn o = Some f -> denotes x v -> is_scalar v -> q_ok (rq x) -> e_fn o x = Ok e -> denotes e (vscalar (f (v 0%N))).
Proof.
  intros F D S Qx H. unfold e_fn in H.
  destruct (append_op _ _) as [l'|] eqn:A; cbn [bind] in H; [|discriminate].
  destruct (rnodes x) as [|n0 l] eqn:E; [discriminate A|]. rewrite <- E in *.
  apply denotes_inv in D as (w & W & Q & ->); [|rewrite E; discriminate].
  apply append_ok in A as [cs ->]. rewrite set_q_snoc in H. cbn [no ncs nex] in H.
  apply rpne_of_ok in H as (N & Q' & _). right. exists (vscalar (f (rv (rq x) * w 0%N)%R)). rewrite N, Q', rv_one, vscale_1.
  split; [|split; [discriminate|reflexivity]]. apply nd_fn; [assumption|assumption|]. exact (scalar_descale _ _ (rv_nz _ Qx) S).
Qed.
Lemma comp_val x v i e : denotes x v -> e_comp x i = Ok e -> denotes e (vcomp i v).
Proof.
  intros D H. unfold e_comp in H. destruct (back (rnodes x)) as [b|] eqn:B; cbn [bind] in H; [|discriminate].
  apply denotes_inv in D as (w & W & Q & ->); [|intros Z0; rewrite Z0 in B; discriminate].
  apply rpne_of_ok in H as (N & Q' & _). rewrite vcomp_scale. right. exists (vcomp i w). rewrite N, Q'. split; [|auto].
  replace (vcomp i w) with (vcomp (N.of_nat (N.to_nat i)) w) by now rewrite N2Nat.id. now apply nd_comp.
Qed.
Lemma grade_val x v g e : denotes x v -> e_grade x g = Ok e -> denotes e (vgrade g v).
Proof.
  intros D H. unfold e_grade in H. destruct (back (rnodes x)) as [b|] eqn:B; cbn [bind] in H; [|discriminate].
  apply denotes_inv in D as (w & W & Q & ->); [|intros Z0; rewrite Z0 in B; discriminate].
  apply rpne_of_ok in H as (N & Q' & _). rewrite vgrade_scale. right. exists (vgrade g w). rewrite N, Q'. split; [|auto].
  replace (vgrade g w) with (vgrade (N.of_nat (N.to_nat g)) w) by now rewrite N2Nat.id. now apply nd_grd.
Qed.

(** ** scaling *)
Lemma rescale_val x v q e : denotes x v -> den q <> 0%Z -> rescale x q = Ok e -> denotes e (vscale (rv q) v).
Proof.
  intros D Q H. unfold rescale in H. destruct (rmul_assign (rq x) q) as [q'|] eqn:E; cbn [bind] in H; [|discriminate]. injection H as <-.
  destruct D as [[Nx ->]|(w & W & Qx & ->)].
  - left. split; [exact Nx|apply vscale_zero].
  - destruct (rv_mul_assign _ _ _ Qx Q E) as [Vq Dq]. right. exists w. cbn [rnodes rq]. split; [assumption|]. split; [assumption|].
    rewrite vscale_vscale, Vq. f_equal. ring.
Qed.
Lemma rv_int n : rv (mkrat n 1) = IZR n. Proof. unfold rv. cbn [num den]. lra. Qed.
Lemma rv_frac d : d <> 0%Z -> rv (mkrat 1 d) = (/ IZR d)%R. Proof. unfold rv. cbn [num den]. intros. lra. Qed.
Lemma scale_val n x v e : denotes x v -> e_scale n x = Ok e -> denotes e (vscale (IZR n) v).
Proof.
  intros D H. unfold e_scale in H. destruct (_ || _) eqn:E.
  - injection H as <-. left. split; [reflexivity|]. apply orb_true_iff in E as [E|E].
    + apply Z.eqb_eq in E as ->. apply vscale_0.
    + destruct D as [[_ ->]|(w & W & _)]; [apply vscale_zero|]. destruct (rnodes x); [|discriminate]. exfalso; exact (nden_nonempty _ _ _ _ W eq_refl).
  - rewrite <- rv_int. apply (rescale_val x); [assumption|discriminate|assumption].
Qed.
Lemma neg_val x v e : denotes x v -> e_neg x = Ok e -> denotes e (vneg v).
Proof.
  intros D H. unfold e_neg in H. destruct (0 <? _) eqn:E.
  - unfold vneg. replace (-1)%R with (rv minus_one) by (unfold rv; cbn; lra). apply (rescale_val x); [assumption|discriminate|assumption].
  - injection H as <-. left. destruct (rnodes x) eqn:Ex; [|discriminate]. split; [reflexivity|].
    destruct D as [[_ ->]|(w & W & _)]; [apply vscale_zero|]. rewrite Ex in W. exfalso; exact (nden_nonempty _ _ _ _ W eq_refl).
Qed.
Lemma divz_val x d v e : d <> 0%Z -> denotes x v -> e_divz x d = Ok e -> denotes e (vscale (/ IZR d) v).
Proof.
  intros D0 D H. unfold e_divz in H. destruct (0 <? _) eqn:E.
  - rewrite <- rv_frac by assumption. apply (rescale_val x); [assumption|exact D0|assumption].
  - injection H as <-. left. destruct (rnodes x) eqn:Ex; [|discriminate]. split; [reflexivity|].
    destruct D as [[_ ->]|(w & W & _)]; [apply vscale_zero|]. rewrite Ex in W. exfalso; exact (nden_nonempty _ _ _ _ W eq_refl).
Qed.

(** ** leaves *)
Lemma const_val n d : d <> 0%Z -> denotes (e_const n d) (vscalar (IZR n / IZR d)).
Proof.
  intros D. right. exists (delta 0). split; [exact (nd_blade m env c_scalar c_scalar 0 q00 (N.le_refl _))|]. split; [exact D|].
  apply functional_extensionality. intros b. unfold vscalar, vscale, delta, rv. cbn [e_const rq num den]. rewrite (N.eqb_sym 0). destruct (_ =? _)%N; unfold Rdiv; ring.
Qed.
Lemma blade_val b n : denotes (e_blade b n) (vscale (IZR n) (delta b)).
Proof.
  right. exists (delta b). split; [|split; [discriminate|]].
  - replace b with (c_scalar + b - c_scalar)%N at 2 by lia. apply (nd_blade m env). lia.
  - cbn [e_blade rq]. now rewrite rv_int.
Qed.
Lemma input_val cid i v : nth_error env i = Some v -> denotes (e_input cid i) v.
Proof.
  intros H. right. exists v. split; [now apply nd_id|]. split; [discriminate|]. cbn [e_input rq]. now rewrite rv_one, vscale_1.
Qed.
Lemma pi_val c : den (rc_q c) <> 0%Z -> denotes (rc_convert c) (vscalar (rv (rc_q c) * PI)).
Proof.
  intros D. right. exists (vscalar PI). split; [apply nd_pi|]. split; [exact D|].
  apply functional_extensionality. intros b. unfold vscalar, vscale. cbn. destruct (_ =? _)%N; ring.
Qed.
(** ** division *)
Lemma div_val x y v w e : denotes x v -> denotes y w -> is_scalar w -> w 0%N <> 0%R -> rnodes x <> [] ->
  e_div Exact x y = Ok e -> denotes e (vscale (/ w 0%N) v).
Proof.
  intros Dx Dy S W0 Nx H. unfold e_div in H.
  apply denotes_inv in Dx as (vx & Hx & Qx & ->); [|assumption].
  destruct Dy as [[_ ->]|(vy & Hy & Qy & ->)]; [exfalso; apply W0; reflexivity|].
  destruct (append_op _ _) as [l|] eqn:A; cbn [bind] in H; [|discriminate]. apply append_ok in A as [cs ->].
  destruct (rdiv Exact (rq x) (rq y)) as [q|] eqn:Eq; cbn [bind] in H; [|discriminate].
  assert (rv (rq y) <> 0%R) by (intros Z0; apply W0; unfold vscale; rewrite Z0; ring).
  assert (vy 0%N <> 0%R) by (intros Z0; apply W0; unfold vscale; rewrite Z0; ring).
  destruct (rv_div _ _ _ Qx Qy (rv_num_nz _ Qy H0) Eq) as [Vq Dq].
  rewrite set_q_snoc in H. cbn [no ncs nex] in H. apply rpne_of_ok in H as (N & Q & _).
  right. exists (vscale (rv q / vy 0%N) vx). rewrite N, Q, rv_one, vscale_1. rewrite <- app_assoc. split; [|split; [discriminate|]].
  - apply nd_div; try assumption. exact (scalar_descale _ _ H0 S).
  - rewrite vscale_vscale. f_equal. rewrite Vq. unfold vscale. field. auto.
Qed.
Lemma zdiv_val n x v e : denotes x v -> is_scalar v -> v 0%N <> 0%R -> e_zdiv n x = Ok e -> denotes e (vscalar (/ v 0%N)).
Proof.
  intros Dx S W0 H. unfold e_zdiv in H.
  destruct Dx as [[_ ->]|(vy & Hy & Qy & ->)]; [exfalso; apply W0; reflexivity|].
  destruct (append_op _ _) as [l|] eqn:A; cbn [bind] in H; [|discriminate]. apply append_ok in A as [cs ->].
  assert (rv (rq x) <> 0%R) by (intros Z0; apply W0; unfold vscale; rewrite Z0; ring).
  assert (vy 0%N <> 0%R) by (intros Z0; apply W0; unfold vscale; rewrite Z0; ring).
  rewrite set_q_snoc in H. cbn [no ncs nex] in H. apply rpne_of_ok in H as (N & Q & _).
  right. exists (vscale (rv (reciprocal (rq x)) / vy 0%N) (delta 0)). rewrite N, Q, rv_one, vscale_1. rewrite <- app_assoc. split; [|split; [discriminate|]].
  - apply nd_div; try assumption; [exact (nd_blade m env c_scalar c_scalar 0 q00 (N.le_refl _))|]. exact (scalar_descale _ _ H0 S).
  - apply functional_extensionality. intros b. rewrite rv_recip by (split; [now apply rv_num_nz|assumption]).
    unfold vscale, vscalar, delta. rewrite N.eqb_sym. destruct (_ =? _)%N; field; auto.
Qed.
End Sem.
