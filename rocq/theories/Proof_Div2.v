(** Division stays within its arrays, whatever the divisor. *)
From Coq Require Import ZArith NArith List Bool Arith Reals Lia.
From Verif Require Import Base Model_Numeric Model_MV Spec_MV Proof_Numeric Proof_SortMap Proof_Layout Proof_Sum Proof_Ops Proof_Div Proof_Safe.
Import ListNotations.
Local Open Scope nat_scope.

Definition fits {A} (P : A -> Prop) (r : res A) : Prop := match r with Ok a => P a | Err e => e = Overflow \/ e = DivZero \/ e = Rounded end.
Lemma fits_bind {A B} (P : A -> Prop) (Q : B -> Prop) x f : fits P x -> (forall a, P a -> fits Q (f a)) -> fits Q (bind x f).
Proof. destruct x; cbn; auto. Qed.
Lemma fits_safe {A} (r : res A) : memory_safe r -> fits (fun _ => True) r.
Proof. intros S. destruct r; cbn; auto. Qed.
Lemma safe_fits {A} (P : A -> Prop) r : fits P r -> memory_safe r.
Proof. intros F e ->. exact F. Qed.
Definition adds c w ni (w' : wr) : Prop := length (wi w') + ni <= ci c /\ wm w' = wm w /\ wt w' = wt w.
Lemma put_ind_fits c w x ni : length (wi w) + S ni <= ci c -> fits (adds c w ni) (put_ind c w x).
Proof. intros L. unfold put_ind. rewrite app1_ok by lia. cbn. unfold adds. cbn. rewrite app_length. cbn. repeat split; auto; lia. Qed.
Definition extra (written : bool) : nat := if written then 0 else 1.
Lemma div_inds_fits md c d l k : forall w a b, length (wi w) + length l + extra b + k <= ci c ->
  fits (fun '(w', a', b') => adds c w (extra b' + k) w') (div_inds md c d l w a b).
Proof.
  induction l as [|x l IH]; intros w a b L; cbn [div_inds].
  - cbn. unfold adds. cbn [length] in L. repeat split; auto; lia.
  - assert (ST : forall w1 ni b1, adds c w ni w1 -> ni = length l + extra b1 + k -> forall a1, fits (fun '(w', a', b') => adds c w (extra b' + k) w') (div_inds md c d l w1 a1 b1)).
    { intros w1 ni b1 (A1 & A2 & A3) -> a1. specialize (IH w1 a1 b1 ltac:(lia)). destruct (div_inds md c d l w1 a1 b1) as [[[w' a'] b']|]; cbn in *; [|exact IH].
      destruct IH as (B1 & B2 & B3). unfold adds. rewrite B2, B3. auto. }
    cbn [length] in L. assert (KE : forall b1 a1 i, extra b1 <= extra b -> fits (fun '(w', a', b') => adds c w (extra b' + k) w') (w' <- put_ind c w i;; div_inds md c d l w' a1 b1)).
    { intros b1 a1 i B. apply (fits_bind (adds c w (length l + extra b1 + k))); [apply put_ind_fits; lia|]. intros w1 A. exact (ST w1 _ b1 A eq_refl a1). }
    destruct b; cbn [negb]; [now apply KE|]. destruct (id d =? id x)%N.
    + apply (fits_bind (fun _ => True)); [apply fits_safe, safe_radd|]. intros deg _. destruct (negb (is_zero deg)).
      * apply (ST w (length l + extra true + k)); [|reflexivity]. unfold adds. cbn [extra] in *. repeat split; auto; lia.
      * apply KE. cbn. lia.
    + destruct (id d <? id x)%N; [|apply KE; cbn; lia].
      apply (fits_bind (adds c w (S (length l + k)))); [apply put_ind_fits; cbn [extra] in L; lia|]. intros w1 (A1 & A2 & A3).
      apply (fits_bind (adds c w1 (length l + k))); [apply put_ind_fits; lia|]. intros w2 (B1 & B2 & B3).
      apply (ST w2 (length l + k)); [|cbn [extra]; lia]. unfold adds. rewrite B2, B3. auto.
Qed.
Lemma div_mon_fits md c d rq w v ni nm nt : room c w (S (length (snd v) + ni)) (S nm) nt -> fits (fun w' => room c w' ni nm nt) (div_mon md c d rq w v).
Proof.
  intros (R1 & R2 & R3). unfold div_mon. pose proof (div_inds_fits md c d (snd v) ni w false false ltac:(cbn [extra]; lia)) as D.
  destruct (div_inds md c d (snd v) w false false) as [[[w1 ca] wn]|]; cbn [bind]; [|exact D]. cbn in D.
  apply (fits_bind (adds c w ni)).
  { destruct D as (D1 & D2 & D3). destruct wn; cbn [negb extra] in *; [cbn; unfold adds; auto|]. pose proof (put_ind_fits c w1 d ni ltac:(lia)) as P.
    destruct (put_ind c w1 d); cbn in *; [|exact P]. destruct P as (P1 & P2 & P3). unfold adds. rewrite P2, P3. auto. }
  intros w2 (A1 & A2 & A3). apply (fits_bind (fun _ => True)); [apply fits_safe, safe_rsub|]. intros deg _. apply (fits_bind (fun _ => True)); [apply fits_safe, safe_rdiv|]. intros q _.
  unfold put_mon. rewrite A2, app1_ok by lia. cbn. unfold room. cbn. rewrite app_length. cbn. rewrite A3. lia.
Qed.
Lemma div_mons_fits md c d rq vs ni nm nt : forall w, room c w (list_sum (map (fun v : vmon => S (length (snd v))) vs) + ni) (length vs + nm) nt ->
  fits (fun w' => room c w' ni nm nt) (div_mons md c d rq w vs).
Proof.
  induction vs as [|v vs IH]; intros w R; cbn [div_mons]; [exact R|]. cbn [map list_sum fold_right length] in R. fold (list_sum (map (fun v : vmon => S (length (snd v))) vs)) in R.
  apply (fits_bind (fun w' => room c w' (list_sum (map (fun v : vmon => S (length (snd v))) vs) + ni) (length vs + nm) nt)); [|exact IH].
  apply div_mon_fits. unfold room in *. lia.
Qed.
Definition isum (vs : list vterm) : nat := list_sum (map (fun t : vterm => list_sum (map (fun v : vmon => S (length (snd v))) (snd t))) vs).
Definition msum (vs : list vterm) : nat := list_sum (map (fun t : vterm => length (snd t)) vs).
Lemma div_terms_fits md c d rq vs : forall w, room c w (isum vs) (msum vs) (length vs) -> fits (fun w' => room c w' 0 0 0) (div_terms md c d rq w vs).
Proof.
  induction vs as [|v vs IH]; intros w R; cbn [div_terms]; [exact R|]. unfold isum, msum in R. cbn [map list_sum fold_right length] in R. fold (list_sum (map (fun t : vterm => list_sum (map (fun v : vmon => S (length (snd v))) (snd t))) vs)) in R.
  fold (isum vs) in R. fold (list_sum (map (fun t : vterm => length (snd t)) vs)) in R. fold (msum vs) in R.
  apply (fits_bind (fun w' => room c w' (isum vs) (msum vs) (S (length vs)))); [apply div_mons_fits; unfold room in *; lia|]. intros w1 (A1 & A2 & A3).
  apply (fits_bind (fun w' => room c w' (isum vs) (msum vs) (length vs))); [|exact IH]. unfold put_term. rewrite app1_ok by lia. cbn. unfold room. cbn. rewrite app_length. cbn. lia.
Qed.
Lemma lsum_cons a l : list_sum (a :: l) = a + list_sum l.
Proof. reflexivity. Qed.
Lemma view_sums ts : forall a b, isum (view_terms a b ts) = length (all_inds (all_mons ts)) + length (all_mons ts) /\ msum (view_terms a b ts) = length (all_mons ts).
Proof.
  assert (M : forall ms a, list_sum (map (fun v : vmon => S (length (snd v))) (view_mons a ms)) = length (all_inds ms) + length ms /\ length (view_mons a ms) = length ms).
  { induction ms as [|m ms IH]; intros a; cbn [view_mons]; [split; reflexivity|]. destruct (IH (a + length (sinds m))) as [A B]. cbn [map list_sum fold_right length snd] in *.
    fold (list_sum (map (fun v : vmon => S (length (snd v))) (view_mons (a + length (sinds m)) ms))). rewrite A, B. unfold all_inds. cbn [flat_map]. rewrite app_length. lia. }
  induction ts as [|t ts IH]; intros a b; cbn [view_terms]; [split; reflexivity|]. unfold isum, msum in *. destruct (IH (a + length (all_inds (snd t))) (b + length (snd t))) as [A B].
  destruct (M (snd t) a) as [C D]. cbn [map snd]. rewrite !lsum_cons, A, B, C, D.
  unfold all_mons, all_inds. cbn [flat_map]. rewrite flat_map_app, !app_length. lia.
Qed.
Lemma upd_q_safe f n : (forall q, memory_safe (f q)) -> forall off ms, off + n <= length ms -> memory_safe (upd_q f off n ms).
Proof.
  intros F. induction n as [|n IH]; intros off ms L; cbn [upd_q]; [apply safe_ok|]. unfold get. destruct (nth_error ms off) as [m|] eqn:E; [|apply nth_error_None in E; lia]. cbn [bind].
  apply safe_bind; [apply F|]. intros q Eq. unfold set. destruct (off <? length ms)%nat eqn:LT; [|apply Nat.ltb_ge in LT; lia]. cbn [bind]. apply IH. rewrite upd_length. lia.
Qed.
Lemma divide_safe md x y tx q : packed x tx -> length (inds y) <= 1 -> mons y <> [] -> terms y <> [] -> memory_safe (divide md x y q).
Proof.
  intros X I M T. destruct (mons y) as [|m r] eqn:EM; [contradiction|]. destruct (inds y) as [|d [|d' l]] eqn:EI; [| |cbn in I; lia].
  - eapply safe_rr; [exact (divide_const_eq md x y q m tx X EI (ex_intro _ r EM) T)|]. apply safe_mapt. intros e g p E. injection E as <-.
    apply safe_bind; [apply safe_rmul|]. intros. apply safe_rdiv.
  - unfold divide. rewrite EM, EI. destruct (terms y) as [|t0 tr]; [contradiction|]. cbn [length Nat.eqb orb get nth_error bind].
    apply safe_bind; [apply safe_rneg|]. intros nd En. rewrite (packed_read _ _ X). cbn [bind]. pose proof (packed_caps _ _ X) as (A1 & A2 & A3).
    match goal with |- memory_safe (bind (div_terms md ?c ?d ?r wr0 ?l) _) => pose proof (div_terms_fits md c d r l wr0) as F; set (cc := c) in *; set (dd := d) in *; set (ll := l) in * end.
    assert (R : room cc wr0 (isum ll) (msum ll) (length ll)).
    { unfold ll. destruct (view_sums tx 0 0) as [-> ->]. rewrite view_terms_length. unfold room, cc. cbn. unfold tilen, tmlen, ilen in *. lia. }
    specialize (F R). destruct (div_terms md cc dd (mq m) wr0 ll) as [w|e]; cbn [bind fits] in *; [|intros e' E; injection E as <-; exact F].
    unfold scale. apply safe_bind; [|intros; apply safe_ok]. apply upd_q_safe; [intros; apply safe_rmul|]. cbn [msz mons finish]. destruct F as (_ & F & _). unfold fill. rewrite app_length. lia.
Qed.
