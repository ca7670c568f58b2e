(** Deciding whether a program is applicable. *)
From Coq Require Import ZArith NArith List Bool Arith Lia ZifyBool ZifyN ZifyNat Reals.
From Verif Require Import Base Model_Numeric Model_Blade Model_MV Model_Product Model_Expr Model_Dfa Model_Engine Spec_Expr Spec_Dfa Spec_Engine.
Import ListNotations.
Local Open Scope nat_scope.

Section Fits.
Variable m : metric.
Variable nb : bool.
Fixpoint fitsb (fuel : nat) (l : list node) (st : rstate) : bool :=
  match fuel, l with
  | _, [] => true
  | O, _ => false
  | S f, n :: l' =>
    if (no n =? op_se)%N then
      let b := firstn (nex n) l' in
      (length b =? nex n) && ((num (nq n) =? 0)%Z || (0 <? den (nq n))%Z) && fitsb f b (rpn_open st) &&
      match rpn_run Exact m nb (S (length b)) b (rpn_open st) with
      | Ok sub => match rpn_close Exact n st sub with Ok st' => fitsb f (skipn (nex n) l') st' | Err _ => false end
      | Err _ => false end
    else if must_store n then
      match l' with
      | k :: l'' => (no k =? op_noop)%N && fit (dim m) n (r_args st) &&
        match rpn_step Exact m nb n st with
        | Ok st1 => fit (dim m) k (r_args st1) && match rpn_step Exact m nb k st1 with Ok st2 => fitsb f l'' st2 | Err _ => false end
        | Err _ => false end
      | [] => false
      end
    else fit (dim m) n (r_args st) && match rpn_step Exact m nb n st with Ok st' => fitsb f l' st' | Err _ => false end
  end.
Lemma fitsb_ok fuel : forall l st, fitsb fuel l st = true -> fits Exact m nb l st.
Proof.
  induction fuel as [|f IH]; intros [|n l] st H; try discriminate; try constructor. cbn [fitsb] in H.
  destruct (N.eqb_spec (no n) op_se) as [E|E].
  - apply andb_prop in H as [H H4]. apply andb_prop in H as [H H3]. apply andb_prop in H as [H1 H2].
    destruct (rpn_run _ _ _ _ _ _) as [sub|] eqn:E1; [|discriminate]. destruct (rpn_close _ _ _ _) as [st'|] eqn:E2; [|discriminate].
    rewrite <- (firstn_skipn (nex n) l) at 1. apply fits_se with (sub := sub) (st' := st'); auto; lia.
  - destruct (must_store n) eqn:M.
    + destruct l as [|k l]; [discriminate|]. apply andb_prop in H as [H H3]. apply andb_prop in H as [H1 H2]. apply N.eqb_eq in H1.
      destruct (rpn_step Exact m nb n st) as [st1|] eqn:E1; [|discriminate]. apply andb_prop in H3 as [H3 H4]. destruct (rpn_step Exact m nb k st1) as [st2|] eqn:E2; [|discriminate].
      apply fits_store with (st1 := st1) (st2 := st2); auto.
    + apply andb_prop in H as [H1 H2]. destruct (rpn_step Exact m nb n st) as [st'|] eqn:E1; [|discriminate]. apply fits_step with (st' := st'); auto.
Qed.
Definition applicableb (ies : list (N -> mv)) (cnt : nat) (l : list node) : bool :=
  match rpn_inputs ies (rpn_ids l) with
  | Ok ins => fitsb (S (length l)) l (mkrs ins [] [] (N.of_nat cnt)) &&
    match rpn_eval Exact m nb l ins (N.of_nat cnt) with Ok st => (r_cnt st <=? ind_constant_start)%N | Err _ => true end
  | Err _ => true
  end.
Lemma applicableb_ok ies cnt l : applicableb ies cnt l = true -> applicable m nb ies cnt l.
Proof.
  unfold applicableb. intros H ins E. rewrite E in H. apply andb_prop in H as [H1 H2]. split; [exact (fitsb_ok _ _ _ H1)|].
  intros st E1. rewrite E1 in H2. lia.
Qed.
End Fits.
