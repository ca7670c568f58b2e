From Coq Require Import List Bool Arith NArith Lia ZifyN ZifyNat ZifyBool.
From Verif Require Import Base Model_Stack Spec_Stack Model_Tuple.
Import ListNotations.

(** * Stack *)
Section StackProofs.
Context {A : Type}.
(** the model run of one operation / of a history *)
Definition run_op (s : stack A) (o : sop A) : res (sout A * stack A) :=
  match o with
  | OpPush x => s' <- s_push s x;; Ok (OutNone, s')
  | OpPopN n => ' (x, s') <- s_pop s (N.of_nat n);; Ok (OutVal x, s')
  | OpPeek => x <- s_peek0 s;; Ok (OutVal x, s)
  | OpPeekAt i => x <- s_peek s (N.of_nat i);; Ok (OutVal x, s)
  | OpClear => Ok (OutNone, s_clear s)
  | OpEmpty => Ok (OutBool (s_empty s), s)
  end.
Fixpoint run_ops (s : stack A) (os : list (sop A)) : res (list (sout A)) :=
  match os with
  | [] => Ok []
  | o :: os' => ' (v, s') <- run_op s o;; vs <- run_ops s' os';; Ok (v :: vs)
  end.

Definition rep (s : stack A) (l : list A) : Prop :=
  (N.of_nat (length (data s)) < 2 ^ 64)%N /\ count s = N.of_nat (length l) /\
  exists rest, data s = rev l ++ rest.

Lemma upd_length {B} (l : list B) i x : length (upd l i x) = length l.
Proof. revert i; induction l; intros [|i]; simpl; auto. Qed.

Lemma sub64_le a b : (b <= a)%N -> (a < 2 ^ 64)%N -> sub64 a b = (a - b)%N.
Proof.
  intros H H2. unfold sub64. replace (a + 2 ^ 64 - b)%N with ((a - b) + 1 * 2 ^ 64)%N by lia.
  rewrite N.mod_add by discriminate. apply N.mod_small. lia.
Qed.

Lemma upd_at {B} (p : list B) x s y : upd (p ++ x :: s) (length p) y = p ++ y :: s.
Proof. induction p; simpl; [reflexivity|]. now rewrite IHp. Qed.

Lemma push_rep s l x : rep s l -> length l < length (data s) ->
  exists s', s_push s x = Ok s' /\ rep s' (x :: l) /\ length (data s') = length (data s).
Proof.
  intros (B & C & rest & D) H. unfold s_push, set. rewrite C, Nat2N.id.
  rewrite (proj2 (Nat.ltb_lt _ _) H). cbn [bind].
  eexists. split; [reflexivity|]. split; [|simpl; apply upd_length].
  split; [simpl; rewrite upd_length; exact B|]. split; [simpl; lia|].
  destruct rest as [|y rest]; [rewrite D, app_length, rev_length in H; simpl in H; lia|].
  exists rest. simpl. rewrite D, <- (rev_length l), upd_at, <- app_assoc. reflexivity.
Qed.
Lemma push_full s l x : rep s l -> length l = length (data s) -> s_push s x = Err OutOfBounds.
Proof.
  intros (B & C & rest & D) H. unfold s_push, set. rewrite C, Nat2N.id, H, Nat.ltb_irrefl. reflexivity.
Qed.

Lemma nth_rev_top l (rest : list A) m : m < length l ->
  nth_error (rev l ++ rest) (length l - S m) = nth_error l m.
Proof.
  intros H. rewrite nth_error_app1 by (rewrite rev_length; lia).
  destruct (nth_error l m) eqn:E; [|apply nth_error_None in E; lia].
  rewrite (nth_error_nth' (rev l) a) by (rewrite rev_length; lia). f_equal.
  rewrite rev_nth by lia. replace (length l - S (length l - S m)) with m by lia.
  now apply nth_error_nth.
Qed.

Lemma rep_lookup s l m : rep s l -> m < length l ->
  exists x, nth_error l m = Some x /\ at_ (data s) (sub64 (count s) (N.of_nat (S m))) = Ok x.
Proof.
  intros (B & C & rest & D) H.
  destruct (nth_error l m) eqn:E; [|apply nth_error_None in E; lia]. exists a. split; [reflexivity|].
  assert (length l <= length (data s)) by (rewrite D, app_length, rev_length; lia).
  rewrite C, sub64_le by lia. unfold at_, get. rewrite D.
  replace (N.to_nat (N.of_nat (length l) - N.of_nat (S m))) with (length l - S m) by lia.
  rewrite nth_rev_top by assumption. now rewrite E.
Qed.

Lemma pop_rep s l m : rep s l -> m < length l ->
  exists x s', nth_error l m = Some x /\ s_pop s (N.of_nat (S m)) = Ok (x, s') /\ rep s' (skipn (S m) l) /\ data s' = data s.
Proof.
  intros R H. destruct (rep_lookup s l m R H) as (x & E & L). destruct R as (B & C & rest & D).
  exists x, (mk_stack (data s) (sub64 (count s) (N.of_nat (S m)))). split; [exact E|].
  unfold s_pop. rewrite L. split; [reflexivity|]. split; [|reflexivity].
  assert (length l <= length (data s)) by (rewrite D, app_length, rev_length; lia).
  split; [exact B|]. split; [cbn [count]; rewrite C, sub64_le, skipn_length by lia; lia|].
  exists (rev (firstn (S m) l) ++ rest). cbn [data]. rewrite D. rewrite <- (firstn_skipn (S m) l) at 1.
  rewrite rev_app_distr, app_assoc. reflexivity.
Qed.

Lemma peek_rep s l m : rep s l -> m < length l ->
  exists x, nth_error l m = Some x /\ s_peek s (N.of_nat (S m)) = Ok x.
Proof. intros R H. exact (rep_lookup s l m R H). Qed.

Lemma run_op_sim s l o v l' : rep s l -> sem_op (length (data s)) l o = Some (v, l') ->
  exists s', run_op s o = Ok (v, s') /\ rep s' l' /\ length (data s') = length (data s).
Proof.
  intros R. destruct o as [x|n| |i| |]; cbn [sem_op run_op].
  - destruct (Nat.ltb_spec (length l) (length (data s))) as [H|]; [|discriminate].
    intros E. injection E as <- <-. destruct (push_rep s l x R H) as (s' & E & R' & L).
    rewrite E. exists s'. auto.
  - destruct n as [|m]; [discriminate|]. destruct (nth_error l m) eqn:E; [|discriminate].
    intros X. injection X as <- <-.
    destruct (pop_rep s l m R) as (x & s' & E' & P & R' & L); [apply nth_error_Some; congruence|].
    rewrite P. cbn [bind]. exists s'. split; [congruence|]. split; [assumption|congruence].
  - destruct l as [|x l]; [discriminate|]. intros X. injection X as <- <-.
    destruct (peek_rep s (x :: l) 0 R) as (y & E & P); [simpl; lia|]. injection E as <-.
    change (s_peek0 s) with (s_peek s (N.of_nat 1)). rewrite P. exists s. auto.
  - destruct i as [|m]; [discriminate|]. destruct (nth_error l m) eqn:E; [|discriminate].
    intros X. injection X as <- <-.
    destruct (peek_rep s l m R) as (x & E' & P); [apply nth_error_Some; congruence|].
    rewrite P. exists s. split; [|auto]. cbn [bind]. congruence.
  - intros X. injection X as <- <-. exists (s_clear s). split; [reflexivity|]. split; [|reflexivity].
    destruct R as (B & C & rest & D). split; [exact B|]. split; [reflexivity|]. exists (data s). reflexivity.
  - intros X. injection X as <- <-. exists s. split; [|auto]. do 2 f_equal. f_equal.
    destruct R as (B & C & rest & D). unfold s_empty. rewrite C. destruct l; reflexivity.
Qed.

Lemma run_ops_sim : forall os s l vs, rep s l -> sem_ops (length (data s)) l os = Some vs -> run_ops s os = Ok vs.
Proof.
  induction os as [|o os IH]; intros s l vs R; cbn [sem_ops run_ops].
  - intros E. injection E as <-. reflexivity.
  - destruct (sem_op _ l o) as [[v l']|] eqn:E; [|discriminate].
    destruct (run_op_sim s l o v l' R E) as (s' & E' & R' & L). rewrite E'. cbn [bind].
    destruct (sem_ops _ l' os) eqn:E2; [|discriminate]. intros X. injection X as <-.
    rewrite <- L in E2. rewrite (IH _ _ _ R' E2). reflexivity.
Qed.

Lemma fresh_rep d : (N.of_nat (length d) < 2 ^ 64)%N -> rep (mk_stack d 0) [].
Proof. intros H. split; [exact H|]. split; [reflexivity|]. exists d. reflexivity. Qed.

(** pop() after a push never looks at the pushed element: it returns the cell above it. *)
Lemma pop0_stale s l x s1 : rep s l -> s_push s x = Ok s1 ->
  s_pop0 s1 = (y <- get (data s) (S (length l));; Ok (y, mk_stack (data s1) (count s))).
Proof.
  intros R P. assert (L : length l < length (data s)).
  { destruct (Nat.lt_ge_cases (length l) (length (data s))); [assumption|].
    destruct R as (B & C & rest & D). assert (length l <= length (data s)) by (rewrite D, app_length, rev_length; lia).
    rewrite (push_full s l x) in P by (try lia; repeat split; eauto). discriminate. }
  destruct R as (B & C & rest & D). unfold s_push, set in P. rewrite C, Nat2N.id in P.
  rewrite (proj2 (Nat.ltb_lt _ _) L) in P. cbn [bind] in P. injection P as <-.
  unfold s_pop0, at_. cbn [data count].
  replace (N.to_nat (N.of_nat (length l) + 1)) with (S (length l)) by lia.
  rewrite sub64_le by lia. replace (N.of_nat (length l) + 1 - 1)%N with (N.of_nat (length l)) by lia.
  assert (G : forall (m : list A) k v, nth_error (upd m k v) (S k) = nth_error m (S k)).
  { induction m; intros [|k] v; simpl; auto. destruct k; [|apply IHm]. destruct m; auto. }
  unfold get. rewrite G, C. reflexivity.
Qed.
End StackProofs.

(** * Tuple *)
Section TupleProofs.
Context {A : Type}.

Lemma mapM_ext {B C} (f g : B -> res C) l : (forall x, In x l -> f x = g x) -> mapM f l = mapM g l.
Proof.
  induction l; simpl; intros H; [reflexivity|]. rewrite H by auto. rewrite IHl by auto. reflexivity.
Qed.

Lemma mapM_get_seq : forall n k (t : list A), k + n <= length t ->
  mapM (tget t) (seq k n) = Ok (firstn n (skipn k t)).
Proof.
  induction n as [|n IH]; intros k t H; [reflexivity|]. cbn [seq mapM].
  unfold tget at 1. destruct (nth_error t k) eqn:E; [|apply nth_error_None in E; lia].
  cbn [bind]. rewrite IH by lia. cbn [bind]. f_equal.
  assert (skipn k t = a :: skipn (S k) t) as ->; [|reflexivity].
  clear -E. revert t E. induction k; intros [|x t] E; try discriminate; simpl in *; [congruence|]. apply IHk. exact E.
Qed.
Lemma mapM_map {B C D} (f : C -> res D) (g : B -> C) l : mapM f (map g l) = mapM (fun x => f (g x)) l.
Proof. induction l; simpl; [reflexivity|]. now rewrite IHl. Qed.
Lemma map_add_seq k : forall n j, map (fun i => k + i) (seq j n) = seq (k + j) n.
Proof. induction n; intros; simpl; [reflexivity|]. f_equal. rewrite IHn. f_equal. lia. Qed.
Lemma mapM_get_off n k (t : list A) : k + n <= length t ->
  mapM (fun i => tget t (k + i)) (seq 0 n) = Ok (firstn n (skipn k t)).
Proof.
  intros H. rewrite <- (mapM_map (tget t) (fun i => k + i)), map_add_seq, Nat.add_0_r. now apply mapM_get_seq.
Qed.

Lemma copy_from_spec : forall n j k (t out : list A), j + n <= length t -> j + n + k <= length out ->
  copy_from t k (seq j n) out = Ok (firstn (j + k) out ++ firstn n (skipn j t) ++ skipn (j + k + n) out).
Proof.
  induction n as [|n IH]; intros j k t out H1 H2; cbn [seq copy_from].
  - rewrite Nat.add_0_r. simpl. now rewrite firstn_skipn.
  - unfold tget. destruct (nth_error t j) eqn:E; [|apply nth_error_None in E; lia]. cbn [bind].
    unfold tset. rewrite (proj2 (Nat.ltb_lt _ _)) by lia. cbn [bind].
    rewrite IH by (rewrite ?upd_length; lia). f_equal.
    assert (S1 : skipn j t = a :: skipn (S j) t).
    { clear -E. revert t E. induction j; intros [|x t] E; try discriminate; simpl in *; [congruence|]. apply IHj. exact E. }
    rewrite S1. cbn [firstn app].
    assert (U : forall (m : list A) i v, i < length m -> upd m i v = firstn i m ++ v :: skipn (S i) m).
    { clear. induction m; intros [|i] v H; simpl in *; try lia; [reflexivity|]. f_equal. apply IHm. lia. }
    rewrite U by lia. cbn [plus].
    rewrite firstn_app, firstn_length, Nat.min_l by lia. replace (S (j + k) - (j + k)) with 1 by lia.
    rewrite (firstn_all2 (firstn (j + k) out)) by (rewrite firstn_length; lia). cbn [firstn].
    rewrite skipn_app, firstn_length, Nat.min_l by lia.
    rewrite (skipn_all2 (firstn (j + k) out)) by (rewrite firstn_length; lia). cbn [app].
    replace (S (j + k + n) - (j + k)) with (S n) by lia. rewrite skipn_cons.
    rewrite <- app_assoc. f_equal. cbn [app]. f_equal. f_equal.
    assert (SS : forall (m : list A) x y, skipn x (skipn y m) = skipn (x + y) m).
    { clear. intros m x y. revert m. induction y; intros [|a m]; simpl; rewrite ?Nat.add_0_r, ?skipn_nil; auto.
      rewrite Nat.add_succ_r. simpl. apply IHy. }
    rewrite SS. f_equal. lia.
Qed.

Lemma tpush_spec (dflt : A) (t : list A) v : tpush dflt t v = Ok (v :: t).
Proof.
  unfold tpush, tset. cbn [length repeat Nat.ltb Nat.leb upd bind].
  rewrite copy_from_spec by (simpl; rewrite ?repeat_length; lia). f_equal.
  cbn [plus firstn skipn app]. rewrite firstn_all. f_equal.
  rewrite skipn_all2 by (rewrite repeat_length; lia). apply app_nil_r.
Qed.
Lemma tappend_spec (dflt : A) (t : list A) v : tappend dflt t v = Ok (t ++ [v]).
Proof.
  unfold tappend, tset. rewrite repeat_length. rewrite (proj2 (Nat.ltb_lt _ _)) by lia. cbn [bind].
  rewrite copy_from_spec by (rewrite ?upd_length, ?repeat_length; lia). f_equal.
  cbn [plus firstn skipn app]. rewrite firstn_all. f_equal.
  induction (length t) as [|n IH]; [reflexivity|]. exact IH.
Qed.
Lemma tpop_spec (x : A) (t : list A) : tpop (x :: t) = Ok (x, t).
Proof.
  unfold tpop. cbn [length]. destruct t as [|y t]; [reflexivity|].
  cbn [length Nat.eqb]. change (S (length t)) with (length (y :: t)).
  rewrite (mapM_get_off (length (y :: t)) 1) by (simpl; lia). cbn [bind skipn].
  rewrite firstn_all. reflexivity.
Qed.
Lemma tsplit_spec (t : list A) i : 0 < i <= length t -> tsplit t i = Ok (firstn i t, skipn i t).
Proof.
  intros H. unfold tsplit, split_n. rewrite (proj2 (Nat.ltb_ge _ _)) by lia.
  rewrite (proj2 (Nat.eqb_neq i 0)) by lia.
  rewrite mapM_get_seq by lia. cbn [bind skipn].
  destruct (Nat.eqb_spec (length t - i) 0).
  - f_equal. f_equal. rewrite skipn_all2 by lia. reflexivity.
  - rewrite mapM_get_off by lia. cbn [bind]. f_equal. f_equal. apply firstn_all2. rewrite skipn_length. lia.
Qed.
Lemma tsplit_zero (t : list A) : tsplit t 0 = Ok ([], []).
Proof. reflexivity. Qed.
(** what split_drop computes: it drops the last element, not the indexed one *)
Lemma tsplit_drop_spec (t : list A) i : 0 < i < length t ->
  tsplit_drop t i = Ok (firstn i t, removelast (skipn i t)).
Proof.
  intros H. unfold tsplit_drop, split_n. rewrite (proj2 (Nat.leb_gt _ _)) by lia.
  rewrite (proj2 (Nat.eqb_neq i 0)) by lia.
  rewrite mapM_get_seq by lia. cbn [bind skipn].
  assert (RL : forall (l : list A), removelast l = firstn (length l - 1) l).
  { intros l. now rewrite removelast_firstn_len, Nat.sub_1_r. }
  rewrite RL, skipn_length.
  destruct (Nat.eqb_spec (length t - i - 1) 0) as [E|E].
  - rewrite E. reflexivity.
  - rewrite mapM_get_off by lia. reflexivity.
Qed.
Lemma tsplit_drop_last (t : list A) i : 0 < i -> S i = length t -> tsplit_drop t i = Ok (firstn i t, skipn (S i) t).
Proof.
  intros H1 H2. rewrite tsplit_drop_spec by lia. f_equal. f_equal.
  rewrite (skipn_all2 (n := S i) t) by lia. rewrite removelast_firstn_len, skipn_length.
  replace (Nat.pred (length t - i)) with 0 by lia. reflexivity.
Qed.
Lemma tget_spec (t : list A) i d : i < length t -> tget t i = Ok (nth i t d).
Proof. intros H. unfold tget. now rewrite (nth_error_nth' t d H). Qed.
Lemma tset_spec (t : list A) i v : i < length t -> exists t', tset t i v = Ok t' /\ length t' = length t /\
  forall j, nth_error t' j = if j =? i then Some v else nth_error t j.
Proof.
  intros H. unfold tset. rewrite (proj2 (Nat.ltb_lt _ _) H). eexists. split; [reflexivity|].
  split; [apply upd_length|]. revert i H. induction t as [|x t IH]; intros [|i] H [|j]; simpl in *; try lia; auto.
  apply IH. lia.
Qed.
Lemma tback_spec (t : list A) x : tback (t ++ [x]) = Ok x.
Proof.
  unfold tback. rewrite app_length, Nat.add_comm. simpl. unfold tget.
  rewrite nth_error_app2, Nat.sub_diag by lia. reflexivity.
Qed.
Lemma tapply_spec {B} t (l : list A -> B) : tapply t l = Ok (l t).
Proof.
  unfold tapply. rewrite mapM_get_seq by lia. cbn [bind skipn]. now rewrite firstn_all.
Qed.
Lemma tapply_reverse_spec {B} t (l : list A -> B) : tapply_reverse t l = Ok (l (rev t)).
Proof.
  unfold tapply_reverse.
  assert (H : forall n j, n + j = length t -> mapM (fun i => tget t (length t - i - 1)) (seq j n) = Ok (rev (firstn n t))).
  { induction n as [|n IH]; intros j H; [reflexivity|]. cbn [seq mapM].
    destruct (nth_error t n) eqn:E; [|apply nth_error_None in E; lia].
    unfold tget at 1. replace (length t - j - 1) with n by lia. rewrite E. cbn [bind].
    rewrite IH by lia. cbn [bind]. f_equal.
    assert (firstn (S n) t = firstn n t ++ [a]) as ->.
    { clear -E. revert t E. induction n; intros [|x t] E; try discriminate; simpl in *; [congruence|]. f_equal. now apply IHn. }
    now rewrite rev_app_distr. }
  rewrite H by lia. cbn [bind]. now rewrite firstn_all.
Qed.
Lemma tmutate_spec f (t : list A) : tmutate f t = Ok (map f t).
Proof.
  unfold tmutate.
  assert (H : forall s p, mutate_from f (seq (length p) (length s)) (p ++ s) = Ok (p ++ map f s)).
  { induction s as [|x s IH]; intros p; cbn [length seq mutate_from]; [reflexivity|].
    unfold tget. rewrite nth_error_app2, Nat.sub_diag by lia. cbn [nth_error bind].
    unfold tset. rewrite app_length. cbn [length]. rewrite (proj2 (Nat.ltb_lt _ _)) by lia. cbn [bind].
    rewrite upd_at. specialize (IH (p ++ [f x])). rewrite app_length in IH. simpl in IH.
    rewrite Nat.add_comm in IH. simpl in IH. rewrite <- !app_assoc in IH. exact IH. }
  exact (H t []).
Qed.
Lemma find_t_spec {T} (ty : A -> T) (ty_eqb : T -> T -> bool) t e i : (forall a b, ty_eqb a b = true <-> a = b) ->
  find_t ty ty_eqb t e = Ok i <->
  (exists x, nth_error t i = Some x /\ ty x = e) /\ forall j x, j < i -> nth_error t j = Some x -> ty x <> e.
Proof.
  intros EQ. unfold find_t.
  assert (H : forall n k, n + k = length t ->
    find_t_impl ty ty_eqb t e k n = Ok i <->
    (k <= i /\ (exists x, nth_error t i = Some x /\ ty x = e) /\ forall j x, k <= j < i -> nth_error t j = Some x -> ty x <> e)).
  { induction n as [|n IH]; intros k H; cbn [find_t_impl].
    - split; [discriminate|]. intros (L & (x & E & _) & _).
      apply (f_equal (fun o => match o with Some _ => true | None => false end)) in E.
      destruct (nth_error t i) eqn:E2; [|discriminate]. assert (i < length t) by (apply nth_error_Some; congruence). lia.
    - destruct (nth_error t k) eqn:E; [|apply nth_error_None in E; lia].
      unfold tget. rewrite E. cbn [bind]. destruct (ty_eqb (ty a) e) eqn:Q.
      + apply EQ in Q. split.
        * intros X. injection X as <-. split; [lia|]. split; [eauto|]. intros; lia.
        * intros (L & _ & F). f_equal. destruct (Nat.eq_dec k i); [assumption|].
          exfalso. apply (F k a); auto. lia.
      + assert (NE : ty a <> e) by (intros X; apply EQ in X; congruence).
        destruct (Nat.ltb_spec (k + 1) (length t)).
        * rewrite IH by lia. split.
          -- intros (L & X & F). split; [lia|]. split; [assumption|]. intros j x J Hx.
             destruct (Nat.eq_dec j k) as [->|]; [congruence|]. apply (F j x); auto. lia.
          -- intros (L & X & F). destruct (Nat.eq_dec i k) as [->|].
             { destruct X as (x & Ex & Tx). congruence. }
             split; [lia|]. split; [assumption|]. intros j x J Hx. apply (F j x); auto. lia.
        * split; [discriminate|]. intros (L & (x & E2 & T2) & _).
          assert (i < length t) by (apply nth_error_Some; congruence).
          replace i with k in E2 by lia. congruence. }
  rewrite H by lia. split.
  - intros (_ & X & F). split; [assumption|]. intros j x J. apply F. lia.
  - intros (X & F). split; [lia|]. split; [assumption|]. intros j x J. apply F. lia.
Qed.
End TupleProofs.
