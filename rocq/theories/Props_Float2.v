(** C68: evaluation in floating point with stored subexpressions. *)
From Coq Require Import ZArith NArith List Bool Arith Reals Lia Lra.
From Flocq Require Import Raux.
From Verif Require Import Base Model_Numeric Model_Blade Model_MV Model_Product Model_Expr Model_Dfa Model_Reshape Model_Engine Model_Entity Model_Compute Model_Float
  Spec_Numeric Spec_Clifford Spec_Basis Spec_MV Spec_Expr Spec_Build Spec_Dfa Spec_Engine Spec_Entity Spec_Geometry Spec_Reshape Spec_Compute.
From Verif Require Import Proof_Expr6 Proof_Reshape4 Proof_Reshape6 Proof_Applicable Proof_Shared Proof_Progress Proof_Safe Proof_Numeric Proof_Val Proof_Ids Proof_Engine Proof_Engine2 Proof_Sim Proof_Engine3 Proof_Compute Proof_Float Proof_Float2 Proof_Float3 Proof_Float5 Proof_Float6 Proof_Float7.
From Verif Require Import Props_Expr Props_Entity Props_Engine Props_Float.
From Verif Require Import Spec_MV Spec_Engine Spec_Float Spec_FloatTemps.
Import ListNotations.
Local Open Scope nat_scope.

(** the terms of a multivector are unique, so that the bounds below are determined at compile time *)
Theorem C68_terms_unique y tx tx' : shows y tx -> shows y tx' -> tx = tx'.
Proof. exact (shows_unique y tx tx'). Qed.
Print Assumptions C68_terms_unique.
(** Any program with stored subexpressions, divisions and functions: there are values of all cells
    without rounding, [data] after the inputs, from which the results have the right values. The
    errors of the cells are bounded one after the other by any [del] that covers them and does not
    reach a pole, and the components of the results are as near as [del] allows *)
Theorem C68_shared u fl m nb ies inputs env l q outs t s : (0 <= u < 1)%R -> rounds u fl -> (nb = true -> 2 <= dim m) -> inputs_are m nb ies inputs env -> bound inputs l ->
  num q <> 0%Z -> (0 < den q)%Z -> applicable m nb ies (list_sum (map (@length R) inputs)) l -> stores_on_top l ->
  neutral_temps m nb ies (list_sum (map (@length R) inputs)) l -> run m env l ([], []) (t, s) -> s <> [] -> computeF fl Exact m nb ies inputs l q = Ok outs ->
  exists ys ts ws txs data, compiled Exact m nb ies (list_sum (map (@length R) inputs)) l = Ok (ys, ts) /\ Forall2 stored_like ts ws /\ Forall2 shows ys txs /\
    (forall j, j < list_sum (map (@length R) inputs) -> nth j data 0%R = nth j (concat inputs) 0%R) /\
    Forall2 (fun tx v => forall b, val (valuation data) tx b = output m nb v b) txs (rev s) /\
    (Forall (tame u) ws -> Forall (exactly (valuation data)) ws /\
      (exists del, (forall i, (i < N.of_nat (list_sum (map (@length R) inputs)))%N -> del i = 0%R) /\ Forall (cells_allowed u (valuation data) del) ws /\
        (Forall (steady u (valuation data) del) ws -> forall i, (0 <= del i)%R)) /\
      forall del, (forall i, 0 <= del i)%R -> Forall (steady u (valuation data) del) ws -> Forall (covered u (valuation data) del) ws ->
        Forall2 (fun e tx => Forall (fun t : sterm => few_roundings u q (snd t) /\ apart (valuation data) del (snd t)) tx -> entity_near u (valuation data) del q e tx) outs txs).
Proof. intros [U0 U1] FL. exact (shared_rounded u U0 U1 fl FL m nb ies inputs env l q outs t s). Qed.
Print Assumptions C68_shared.
(** without divisions and tangents there are no poles *)
Theorem C68_steady u rho del w : c_fun w <> mop_tan -> Forall (fun t : sterm => Forall (fun s => Forall (fun i => (0 <= num (ideg i))%Z) (sinds s)) (snd t)) (c_terms w) -> steady u rho del w.
Proof.
  intros O F. unfold steady. eapply Forall_impl; [|exact F]. cbn. intros t H. split; [|destruct (c_fun w); try exact I; congruence].
  unfold apart. eapply Forall_impl; [|exact H]. cbn. intros s G. eapply Forall_impl; [|exact G]. cbn. auto.
Qed.
Print Assumptions C68_steady.
(** the errors of the coefficients *)
Theorem C68_near_blade u rho del q e tx b : entity_near u rho del q e tx -> (Rabs (entity_val e b - rv q * val rho tx b) <= allowed_at u rho del q tx b)%R.
Proof. exact (near_at u rho del q e tx b). Qed.
Print Assumptions C68_near_blade.
(** from the lambda to the entity: some [del], equal to 0 on the inputs and to what the roundings of
    every stored component allow, bounds the errors of all coefficients of the result. Full statement:
    without [identified] and [counted]. Missing: false without them, see the refutations of C30 *)
Theorem C68_compute_shared_partial u fl m nb ies inputs env ue outs v : (0 <= u < 1)%R -> rounds u fl -> (nb = true -> 2 <= dim m) -> inputs_are m nb ies inputs env -> length env = length inputs ->
  faithful m env (lambda_inputs inputs) ue -> regular (lambda_inputs inputs) ue ->
  on1 (fun e => short e /\ identified (rnodes e) /\ counted e /\ nonempty e /\
    on1 (fun y => applicable m nb ies (list_sum (map (@length R) inputs)) (rnodes y) /\ neutral_temps m nb ies (list_sum (map (@length R) inputs)) (rnodes y)) (reshape e))
    (build Exact (lambda_inputs inputs) ue) -> means m env ue v ->
  compute_oneF fl Exact m nb ies inputs ue = Ok outs ->
  exists e x y z ts ws tx data, outs = [e] /\ build Exact (lambda_inputs inputs) ue = Ok x /\ reshape x = Ok y /\
    compiled Exact m nb ies (list_sum (map (@length R) inputs)) (rnodes y) = Ok ([z], ts) /\ Forall2 stored_like ts ws /\ shows z tx /\
    (forall j, j < list_sum (map (@length R) inputs) -> nth j data 0%R = nth j (concat inputs) 0%R) /\
    (Forall (tame u) ws -> Forall (exactly (valuation data)) ws /\
      exists del, (forall i, (i < N.of_nat (list_sum (map (@length R) inputs)))%N -> del i = 0%R) /\ Forall (cells_allowed u (valuation data) del) ws /\
        (Forall (steady u (valuation data) del) ws -> Forall (fun t : sterm => few_roundings u (rq y) (snd t) /\ apart (valuation data) del (snd t)) tx ->
          (forall i, (0 <= del i)%R) /\ forall b, (Rabs (entity_val e b - output m nb v b) <= allowed_at u (valuation data) del (rq y) tx b)%R)).
Proof. exact (compute_shared_rounded u fl m nb ies inputs env ue outs v). Qed.
Print Assumptions C68_compute_shared_partial.

(** ** Example: w x is shared and stored, and evaluated with a rounding that is always off *)
Lemma shows_packed y tx : packed y tx -> shows y tx.
Proof. intros P. exists y. split; [apply sim_refl; rewrite (pk_isz _ _ P); destruct (pk_inds _ _ P) as [r ->]; rewrite app_length; lia|exact P]. Qed.
(** ** Example: w x is shared and stored, and evaluated with a rounding that is always off *)
Ltac few := unfold few_roundings; match goal with |- (INR ?n * _ < 1)%R => let n' := eval vm_compute in n in change n with n' end; cbn [INR]; lra.
Ltac tames := match goal with |- Forall _ ?l => let l' := eval vm_compute in l in change l with l' end;
  repeat (apply Forall_cons; [split; [few|cbn [snd]; first [left; reflexivity|unfold apart; repeat (apply Forall_cons; [cbn [sinds]; repeat (apply Forall_cons; [left; discriminate|]); apply Forall_nil|]); apply Forall_nil]]|]); apply Forall_nil.
Example C68_shared_ex : (0 <= / 1024 < 1)%R /\ rounds (/ 1024) off /\ faithful plane vals_ex (lambda_inputs data_ex) u_shared /\ regular (lambda_inputs data_ex) u_shared /\
  on1 (fun e => short e /\ identified (rnodes e) /\ counted e /\ nonempty e /\
    on1 (fun y => applicable plane false ies_ex (list_sum (map (@length R) data_ex)) (rnodes y) /\ neutral_temps plane false ies_ex (list_sum (map (@length R) data_ex)) (rnodes y)) (reshape e))
    (build Exact (lambda_inputs data_ex) u_shared) /\
  (exists v, means plane vals_ex u_shared v) /\ (exists e, compute_oneF off Exact plane false ies_ex data_ex u_shared = Ok [e]) /\
  exists x y z t, build Exact (lambda_inputs data_ex) u_shared = Ok x /\ reshape x = Ok y /\
    compiled Exact plane false ies_ex (list_sum (map (@length R) data_ex)) (rnodes y) = Ok ([z], [t]) /\
    let w := mkcells (snd t) mop_id (terms_of (fst t)) in stored_like t w /\ tame (/ 1024) w /\ shows z (terms_of z) /\
    forall rho del, Forall (fun t => few_roundings (/ 1024) (rq y) (snd t) /\ apart rho del (snd t)) (terms_of z) /\ steady (/ 1024) rho del w.
Proof.
  destruct C29_shared_ex as (FI & FA & AL & ON & ME & _). split; [lra|]. split; [exact off_rounds|]. split; [exact FA|]. split; [repeat split|]. split; [|split; [exact ME|split; [eexists; vm_compute; reflexivity|]]].
  - destruct (build Exact (lambda_inputs data_ex) u_shared) as [x|] eqn:E; [|vm_compute in E; discriminate E]. cbn [on1] in *. destruct ON as (S & ID & CN & _ & ON).
    split; [exact S|]. split; [exact ID|]. split; [exact CN|]. vm_compute in E. injection E as <-. split; [discriminate|].
    destruct (reshape _) as [y|] eqn:EY; vm_compute in EY; [|discriminate]. injection EY as <-. cbn [on1]. split; [apply applicableb_ok; vm_compute; reflexivity|]. intros B. discriminate B.
  - clear. do 4 eexists. split; [vm_compute; reflexivity|]. split; [vm_compute; reflexivity|]. split; [vm_compute; reflexivity|]. cbv zeta.
    split; [split; [reflexivity|split; [reflexivity|cbn [c_terms]; apply shows_packed; packs]]|]. split; [unfold tame; cbn [c_terms c_fun]; tames|]. split; [apply shows_packed; packs|]. intros rho del. split; [tames|].
    apply C68_steady; cbn [c_terms c_fun]; [discriminate|]. match goal with |- Forall _ ?l => let l' := eval vm_compute in l in change l with l' end.
    repeat (apply Forall_cons; [repeat (apply Forall_cons; [cbn [sinds]; repeat (apply Forall_cons; [discriminate|]); apply Forall_nil|]); apply Forall_nil|]); apply Forall_nil.
Qed.
(** ** A function and a division: x / sqrt s *)
Definition u_root : uexpr := UDiv (UIn 0) (UFn op_sqrt (UIn 1)).
Definition ies_root : list (N -> mv) := [construct_ie [1; 2]%N; construct_ie [0]%N].
Definition cells_root : list cells :=
  [mkcells 3 mop_sqrt [(0%N, [mks one one [mkind 2 one]])];
   mkcells 4 mop_id [(1%N, [mks one (mkrat 2 1) [mkind 0 one; mkind 3 (mkrat (-1) 1)]]); (2%N, [mks one (mkrat 2 1) [mkind 1 one; mkind 3 (mkrat (-1) 1)]])]].
Definition terms_root : list sterm := [(1%N, [mks one one [mkind 4 one]]); (2%N, [mks one one [mkind 5 one]])].
Lemma root_allowed u fl x1 x2 s outs : (0 <= u < / 2)%R -> rounds u fl -> (0 < s)%R -> compute_oneF fl Exact plane false ies_root [[x1; x2]; [s]] u_root = Ok outs ->
  exists e data del, outs = [e] /\ (nth 0 data 0 = x1 /\ nth 1 data 0 = x2 /\ nth 2 data 0 = s)%R /\ Forall (exactly (valuation data)) cells_root /\
    (forall i, (i < 3)%N -> del i = 0%R) /\ Forall (cells_allowed u (valuation data) del) cells_root /\
    (Forall (steady u (valuation data) del) cells_root -> forall b, (Rabs (entity_val e b - vscale (/ sqrt s) (on_blades [1; 2]%N [x1; x2]) b) <= allowed_at u (valuation data) del one terms_root b)%R).
Proof.
  intros U FL S H. set (ins := [[x1; x2]; [s]]) in *. set (env := [on_blades [1; 2]%N [x1; x2]; on_blades [0]%N [s]]).
  assert (IA : inputs_are plane false ies_root ins env).
  { split; [reflexivity|]. clear H. intros [|[|[|k]]] ie E; try discriminate E; injection E as <-; do 2 eexists; (split; [reflexivity|]; split; [reflexivity|]);
    apply (C34_stored_blades plane false); repeat constructor. }
  assert (S0 : on_blades [0]%N [s] 0%N = s) by (unfold on_blades, entity_val, Rsum; cbn; ring).
  assert (SQ : (0 < sqrt s)%R) by now apply sqrt_lt_R0.
  assert (ME : means plane env u_root (vscale (/ sqrt s) (on_blades [1; 2]%N [x1; x2]))).
  { assert (M1 : means plane env (UFn op_sqrt (UIn 1)) (vscalar (sqrt s))).
    { rewrite <- S0. apply (m_fn plane env op_sqrt sqrt (UIn 1) (on_blades [0]%N [s])); [reflexivity|now constructor|].
      intros b B. unfold on_blades, entity_val, Rsum. cbn [combine map fold_right fst snd]. destruct (N.eqb_spec 0 b); [congruence|]. ring. }
    replace (/ sqrt s)%R with (/ vscalar (sqrt s) 0%N)%R by reflexivity. apply m_div; [now constructor|exact M1|..].
    - intros b B. unfold vscalar. destruct (N.eqb_spec b 0); [contradiction|reflexivity].
    - unfold vscalar. cbn. lra. }
  epose proof (C68_compute_shared_partial u fl plane false ies_root ins env u_root outs _ ltac:(lra) FL ltac:(intros B; discriminate B) IA eq_refl) as T.
  destruct T as (e & x & y & z & ts & ws & tx & data & A1 & A2 & A3 & A4 & A5 & A6 & A7 & A8); [..|exact ME|exact H|].
  - clear H. unfold u_root. faith.
  - clear H. cbn [regular u_root]. split; [exact I|]. split; [split; [intros B; discriminate B|exact I]|]. lists. intros B; discriminate B.
  - clear H. lists. split; [split; vm_compute; reflexivity|]. split; [apply identifiedb_ok; vm_compute; reflexivity|]. split; [apply countedb_ok; vm_compute; reflexivity|]. split; [intros B; discriminate B|].
    lists. split; [apply applicableb_ok; vm_compute; reflexivity|]. intros B. discriminate B.
  - clear H. vm_compute in A2. injection A2 as <-. vm_compute in A3. injection A3 as <-. vm_compute in A4. injection A4 as <- <-. cbn [rq] in A8.
    assert (W : ws = cells_root).
    { inversion_clear A5 as [|? w1 ? ws1 (P1 & P2 & P3) B]. inversion_clear B as [|? w2 ? ws2 (Q1 & Q2 & Q3) C]. inversion_clear C. destruct w1 as [a1 b1 c1], w2 as [a2 b2 c2]. cbn [c_from c_fun c_terms fst snd] in *. cbn in P1, P2, Q1, Q2. subst a1 b1 a2 b2.
      unfold cells_root. f_equal; [f_equal|f_equal; f_equal]; [apply (shows_unique _ _ _ P3)|apply (shows_unique _ _ _ Q3)]; apply shows_packed; packs. }
    assert (T : tx = terms_root) by (apply (shows_unique _ _ _ A6); apply shows_packed; packs). subst ws tx.
    assert (TM : Forall (tame u) cells_root).
    { unfold cells_root, tame. repeat constructor; cbn [c_terms c_fun snd]; try (now left); try (now right); unfold few_roundings; match goal with |- (INR ?n * _ < 1)%R => let n' := eval vm_compute in n in change n with n' end; cbn [INR]; lra. }
    destruct (A8 TM) as (X & del & D1 & D2 & D3). exists e, data, del. split; [exact A1|]. split; [|split; [exact X|split; [exact D1|split; [exact D2|]]]].
    + repeat split; apply A7; cbn; lia.
    + intros ST b. apply D3; [exact ST|]. unfold terms_root.
      repeat (apply Forall_cons; [split; [unfold few_roundings; match goal with |- (INR ?n * _ < 1)%R => let n' := eval vm_compute in n in change n with n' end; cbn [INR]; lra
        |apply Forall_cons; [apply Forall_cons; [left; discriminate|apply Forall_nil]|apply Forall_nil]]|]); apply Forall_nil.
Qed.
(** the allowed errors of a single value, and of a value divided by a positive one *)
Lemma dpow_one x : dpow x one = x.
Proof. exact (Rmult_1_r x). Qed.
Lemma rv_one : rv one = 1%R.
Proof. unfold rv. cbn. field. Qed.
Lemma single_val rho i : mons_val rho [mks one one [mkind i one]] = rho i.
Proof. unfold mons_val, mon_val, inds_val, Rsum, Rprod. cbn [map fold_right sq sinds id ideg]. rewrite dpow_one, rv_one. ring. Qed.
Lemma single_allowed u rho del i : roundings one [mks one one [mkind i one]] = 0 -> allowed u rho del one [mks one one [mkind i one]] = del i.
Proof.
  intros RO. unfold allowed, gamma, mons_up, mon_up, pow_up, mons_size. rewrite RO. cbn [map fold_right sq sinds id ideg num den one Rsum Rprod INR]. change (1 <? 0)%Z with false. cbv iota. change (Z.to_nat 1) with 1.
  assert (E : mon_val rho (mks one one [mkind i one]) = rho i) by (rewrite <- (single_val rho i); unfold mons_val, Rsum; cbn [map fold_right]; ring). rewrite E.
  rewrite rv_one. rewrite Rabs_R1. unfold Rsum, Rprod. cbn [map fold_right pow]. replace (1 - 0 * u)%R with 1%R by ring. unfold Rdiv. rewrite Rinv_1. ring.
Qed.
Lemma quotient_val rho i j : mons_val rho [mks one (mkrat 2 1) [mkind i one; mkind j (mkrat (-1) 1)]] = (rho i * / rho j)%R.
Proof.
  unfold mons_val, mon_val, inds_val, Rsum, Rprod. cbn [map fold_right sq sinds id ideg]. rewrite dpow_one, rv_one.
  replace (dpow (rho j) (mkrat (-1) 1)) with (/ rho j)%R by (change (/ rho j = / (rho j * 1))%R; now rewrite Rmult_1_r). ring.
Qed.
Lemma quotient_allowed u rho del i j : roundings one [mks one (mkrat 2 1) [mkind i one; mkind j (mkrat (-1) 1)]] = 2 -> (0 <= u < / 2)%R -> del i = 0%R -> (0 <= del j < rho j)%R ->
  allowed u rho del one [mks one (mkrat 2 1) [mkind i one; mkind j (mkrat (-1) 1)]] = (Rabs (rho i) * (/ ((1 - 2 * u) * (rho j - del j)) - / rho j))%R.
Proof.
  intros RO U D J.
  unfold allowed, gamma, mons_up, mon_up, pow_up, mons_size. rewrite RO. cbn [map fold_right sq sinds id ideg num den one Rsum Rprod INR]. change (1 <? 0)%Z with false. change (-1 <? 0)%Z with true. cbv iota. change (Z.to_nat 1) with 1. change (Z.to_nat (- -1)) with 1.
  assert (E : mon_val rho (mks one (mkrat 2 1) [mkind i one; mkind j (mkrat (-1) 1)]) = (rho i * / rho j)%R) by (rewrite <- (quotient_val rho i j); unfold mons_val, Rsum; cbn [map fold_right]; ring). rewrite E, D.
  rewrite rv_one. rewrite Rabs_R1. unfold Rsum, Rprod. cbn [map fold_right pow]. rewrite Rabs_mult, (Rabs_pos_eq (/ rho j)) by (left; apply Rinv_0_lt_compat; lra). rewrite (Rabs_pos_eq (rho j)) by lra.
  field. repeat split; lra.
Qed.
(** vectors divided by the root of a number: three roundings, two of which enter the relative error
    once and one of which enters through the stored root, whatever the inputs *)
Theorem C68_root u fl x1 x2 s outs : (0 <= u < / 2)%R -> rounds u fl -> (0 < s)%R -> compute_oneF fl Exact plane false ies_root [[x1; x2]; [s]] u_root = Ok outs ->
  exists e, outs = [e] /\ forall b, (Rabs (entity_val e b - / sqrt s * on_blades [1; 2]%N [x1; x2] b) <= (/ ((1 - 2 * u) * (1 - u)) - 1) * Rabs (/ sqrt s * on_blades [1; 2]%N [x1; x2] b))%R.
Proof.
  intros U FL S H. destruct (root_allowed u fl x1 x2 s outs U FL S H) as (e & data & del & -> & (V0 & V1 & V2) & X & D & AL & NE). clear H. exists e. split; [reflexivity|].
  assert (SQ : (0 < sqrt s)%R) by now apply sqrt_lt_R0. set (rho := valuation data) in *.
  assert (R0 : rho 0%N = x1) by exact V0. assert (R1 : rho 1%N = x2) by exact V1. assert (R2 : rho 2%N = s) by exact V2.
  inversion_clear X as [|? ? X1 X']. inversion_clear X' as [|? ? X2 _]. inversion_clear AL as [|? ? L1 L']. inversion_clear L' as [|? ? L2 _].
  pose proof (X1 0 _ eq_refl) as R3. pose proof (L1 0 _ eq_refl) as D3. pose proof (X2 0 _ eq_refl) as R4. pose proof (X2 1 _ eq_refl) as R5. pose proof (L2 0 _ eq_refl) as D4. pose proof (L2 1 _ eq_refl) as D5.
  clear X1 X2 L1 L2 V0 V1 V2. cbn [c_from c_fun snd] in *.
  change (3 + N.of_nat 0)%N with 3%N in *. change (4 + N.of_nat 0)%N with 4%N in *. change (4 + N.of_nat 1)%N with 5%N in *.
  unfold op_fun in R3, R4, R5. rewrite single_val, R2 in R3. rewrite quotient_val, R3 in R4, R5.
  unfold allowed_fn, change in D3, D4, D5. rewrite single_allowed, single_val, R2, (D 2%N) in D3 by (vm_compute; reflexivity). unfold op_fun in D3.
  replace (sqrt s - sqrt (s - 0))%R with 0%R in D3 by (rewrite Rminus_0_r; ring). replace (sqrt (s + 0) - sqrt s)%R with 0%R in D3 by (rewrite Rplus_0_r; ring).
  rewrite Rmax_left, (Rabs_pos_eq (sqrt s)) in D3 by lra. replace ((1 + u) * 0 + u * sqrt s)%R with (u * sqrt s)%R in D3 by ring.
  assert (J : (0 <= del 3%N < rho 3%N)%R) by (rewrite D3, R3; split; nra).
  rewrite quotient_allowed in D4, D5 by (first [exact U|exact J|vm_compute; reflexivity|apply D; reflexivity]). rewrite D3, R3 in D4, D5.
  assert (ST : Forall (steady u rho del) cells_root).
  { unfold cells_root, steady. repeat (apply Forall_cons; [cbn [c_terms c_fun snd]; repeat (apply Forall_cons; [split; [|exact I]; apply Forall_cons; [cbn [sinds]; repeat (apply Forall_cons; [cbn [ideg num id one]; first [left; discriminate|right; rewrite (Rabs_pos_eq (rho 3%N)); lra]|]); apply Forall_nil|apply Forall_nil]|]); apply Forall_nil|]); apply Forall_nil. }
  intros b. specialize (NE ST b). unfold vscale in NE. eapply Rle_trans; [exact NE|]. unfold allowed_at, terms_root. cbn [map fst snd]. rewrite !single_allowed by (vm_compute; reflexivity). rewrite D4, D5, R0, R1.
  assert (Q : forall x, (Rabs x * (/ ((1 - 2 * u) * (sqrt s - u * sqrt s)) - / sqrt s) = (/ ((1 - 2 * u) * (1 - u)) - 1) * Rabs (/ sqrt s * x))%R).
  { intros x. rewrite Rabs_mult, (Rabs_pos_eq (/ sqrt s)) by (left; now apply Rinv_0_lt_compat). field. repeat split; try lra. }
  rewrite !Q. unfold on_blades, entity_val, Rsum. cbn [combine map fold_right fst snd].
  destruct (N.eqb_spec 1 b) as [<-|B1]; [|destruct (N.eqb_spec 2 b) as [<-|B2]]; cbn [N.eqb Pos.eqb]; rewrite ?Rplus_0_r, ?Rplus_0_l, ?Rmult_0_r, ?Rabs_R0; lra.
Qed.
Print Assumptions C68_root.
(** (3, 4) / sqrt 25 with a rounding that is always off *)
Example C68_root_ex : (0 <= / 1024 < / 2)%R /\ rounds (/ 1024) off /\ (0 < 25)%R /\ exists e, compute_oneF off Exact plane false ies_root [[3; 4]; [25]]%R u_root = Ok [e] /\ map fst e = [1; 2]%N.
Proof.
  split; [lra|]. split; [exact off_rounds|]. split; [lra|].
  cbv -[sin cos tan sqrt Req_bool Rlt_bool Rle IZR Rmult Rdiv Rinv Rplus]. rewrite (Rlt_bool_false 25 0) by lra.
  cbv -[sin cos tan sqrt Req_bool Rlt_bool Rle IZR Rmult Rdiv Rinv Rplus].
  assert (P : (0 < sqrt 25)%R) by (apply sqrt_lt_R0; lra). rewrite !(Req_bool_false _ _) by nra. eexists. split; reflexivity.
Qed.
