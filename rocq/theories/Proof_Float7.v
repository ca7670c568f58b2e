(** Rounded evaluation of lambdas with stored subexpressions. *)
From Coq Require Import ZArith NArith List Bool Arith Lia ZifyBool ZifyN ZifyNat Reals Lra.
From Verif Require Import Base Model_Numeric Model_Blade Model_Sort Model_MV Model_Product Model_Expr Model_Dfa Model_Reshape Model_Engine Model_Compute Model_Float
  Spec_Numeric Spec_Clifford Spec_Basis Spec_MV Spec_Expr Spec_Build Spec_Dfa Spec_Engine Spec_Reshape Spec_Compute
  Proof_Numeric Proof_Layout Proof_Sum Proof_Safe Proof_Basis Proof_ProductVal Proof_Proper Proof_MVFlat Proof_Nodes Proof_Dfa Proof_Dfa2 Proof_Ids Proof_Engine Proof_Engine2 Proof_Sim Proof_Engine3
  Proof_Expr Proof_Expr2 Proof_Expr3 Proof_Expr4 Proof_Reshape Proof_Reshape4 Proof_Reshape5 Proof_Reshape6 Proof_Expr5 Proof_Expr6 Proof_Compute Proof_Float Proof_Float2 Proof_Float6.
From Verif Require Import Spec_MV Spec_Engine Spec_Float Spec_FloatTemps.
Import ListNotations.
Local Open Scope nat_scope.

Theorem compute_shared_rounded u fl m nb ies inputs env ue outs v : (0 <= u < 1)%R -> rounds u fl -> (nb = true -> 2 <= dim m) -> inputs_are m nb ies inputs env -> length env = length inputs ->
  faithful m env (lambda_inputs inputs) ue -> regular (lambda_inputs inputs) ue ->
  on1 (fun e => short e /\ identified (rnodes e) /\ counted e /\ nonempty e /\
    on1 (fun y => applicable m nb ies (list_sum (map (@length R) inputs)) (rnodes y) /\ neutral_temps m nb ies (list_sum (map (@length R) inputs)) (rnodes y)) (reshape e))
    (build Exact (lambda_inputs inputs) ue) -> means m env ue v ->
  compute_oneF fl Exact m nb ies inputs ue = Ok outs ->
  exists e x y z ts ws tx data, outs = [e] /\ build Exact (lambda_inputs inputs) ue = Ok x /\ reshape x = Ok y /\
    compiled Exact m nb ies (list_sum (map (@length R) inputs)) (rnodes y) = Ok ([z], ts) /\ Forall2 stored_like ts ws /\ shows z tx /\
    (forall j, j < list_sum (map (@length R) inputs) -> nth j data 0%R = nth j (concat inputs) 0%R) /\
    (Forall (tame u) ws -> Forall (exactly (valuation data)) ws /\
      exists del, (forall i, (i < N.of_nat (list_sum (map (@length R) inputs)))%N -> del i = 0%R) /\ Forall (cells_allowed u (valuation data) del) ws /\
        (Forall (steady u (valuation data) del) ws -> Forall (fun t : sterm => few_roundings u (rq y) (snd t) /\ apart (valuation data) del (snd t)) tx ->
          (forall i, (0 <= del i)%R) /\ forall b, (Rabs (entity_val e b - output m nb v b) <= allowed_at u (valuation data) del (rq y) tx b)%R)).
Proof.
  intros U FL Hn IA LE FA RG ON ME H. unfold compute_oneF, compute_rpnF in H. minv H. rename v0 into x. rewrite E in ON. cbn [on1] in ON. destruct ON as ([S1 S2] & ID & CN & NE & ON). apply rpn_inner in H. minv H. rename v0 into y. rename E0 into EY.
  rewrite EY in ON. destruct ON as [AP NN].
  destruct (lambda_sound m env inputs ue x v LE FA E ME) as [DE [Q1 Q2]].
  assert (OK : expr_ok (fun _ => True) (off inputs) x).
  { assert (G : gives (expr_ok (fun _ => True) (off inputs)) (build Exact (lambda_inputs inputs) ue)); [|exact (G x E)]. apply build_ok; [exact I| |now apply regular_needs]. apply lambda_ok; exact I. }
  destruct OK as [OK P]. destruct DE as [[E1 E2]|(w & ND & _ & EV)]; [contradiction|].
  destruct (reshape_full m env x y w S1 S2 ND ID CN EY) as (EQ & (t & RUN) & TOP & OR).
  destruct (shared_rounded u (proj1 U) (proj2 U) fl FL m nb ies inputs env (rnodes y) (rq y) outs t [w]) as (ys & ts & ws & txs & data & A1 & A2 & A3 & A4 & A5 & A6); auto; try discriminate.
  - eapply origin_bound; [|exact OR]. eapply node_bound; exact OK.
  - now rewrite EQ.
  - now rewrite EQ.
  - cbn [rev app] in A5. inversion A5 as [|tx ? txs' ? V1 V2]; subst txs. inversion V2; subst txs'. inversion A3 as [|z ? zs ? Z1 Z2]; subst ys. inversion Z2; subst zs.
    assert (L1 : exists e, outs = [e]).
    { pose proof (as_many _ _ _ _ _ _ _ _ _ _ _ H A1 ltac:(discriminate)) as L. destruct outs as [|e [|? ?]]; try discriminate. now exists e. }
    destruct L1 as [e ->].
    exists e, x, y, z, ts, ws, tx, data. split; [reflexivity|]. split; [exact E|]. split; [exact EY|]. split; [exact A1|]. split; [exact A2|]. split; [exact Z1|]. split; [exact A4|].
    intros T1. destruct (A6 T1) as (B1 & (del & D2 & D3 & D1) & B3). split; [exact B1|]. exists del. split; [exact D2|]. split; [exact D3|]. intros S T2. specialize (D1 S). split; [exact D1|].
    assert (CV : Forall (covered u (valuation data) del) ws).
    { eapply Forall_impl; [|exact D3]. cbn. intros a K k t0 N. rewrite (K k t0 N). apply Rle_refl. }
    specialize (B3 del D1 S CV). inversion_clear B3 as [|? ? ? ? C1 _]. specialize (C1 T2). intros b.
    replace (output m nb v b) with (rv (rq y) * val (valuation data) tx b)%R by (rewrite V1, EV, EQ, output_scale; reflexivity). now apply near_at.
Qed.
