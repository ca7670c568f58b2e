(** The structured operations fail only through their arithmetic; with the refinement equations
    this is memory safety of the flat operations. Also: runs without rounding are the code's runs. *)
From Coq Require Import ZArith NArith List Bool Arith Lia ZifyBool ZifyN ZifyNat Sorting.Permutation.
From Verif Require Import Base Model_Numeric Model_Blade Model_Sort Model_MV Model_Product Spec_Numeric Spec_Sort Spec_MV
  Proof_Numeric Proof_Sort Proof_SortMap Proof_Layout Proof_Sum Proof_Collate Proof_Product
  Proof_Ops Proof_Ops2 Proof_Ops3 Proof_Div.
Import ListNotations.
Local Open Scope nat_scope.

Lemma safe_ok {A} (a : A) : memory_safe (Ok a). Proof. intros e H. discriminate. Qed.
Lemma safe_bind {A B} (x : res A) (f : A -> res B) :
  memory_safe x -> (forall a, x = Ok a -> memory_safe (f a)) -> memory_safe (bind x f).
Proof. intros X F. destruct x as [a|e0]; cbn; [now apply F|]. intros e H. injection H as <-. now apply X. Qed.
Lemma safe_rr {A B} (Q : A -> B -> Prop) x y : rr Q x y -> memory_safe y -> memory_safe x.
Proof. destruct x, y; cbn; try contradiction; intros H; [intros _; apply safe_ok|subst; intros S e E; injection E as <-; now apply S]. Qed.
Lemma safe_mapM {A B} (f : A -> res B) l : (forall a, memory_safe (f a)) -> memory_safe (mapM f l).
Proof. intros F. induction l as [|a l IH]; cbn; [apply safe_ok|]. repeat (apply safe_bind; [auto|intros]). apply safe_ok. Qed.
Lemma safe_err_o {A} : memory_safe (@Err A Overflow). Proof. intros e H. injection H as <-. auto. Qed.
Lemma safe_err_d {A} : memory_safe (@Err A DivZero). Proof. intros e H. injection H as <-. auto. Qed.
Lemma safe_err_r {A} : memory_safe (@Err A Rounded). Proof. intros e H. injection H as <-. auto. Qed.

Ltac sf := repeat first
  [ apply safe_ok | apply safe_err_o | apply safe_err_d | apply safe_err_r | solve [auto with safe]
  | apply safe_bind; [|intros]
  | match goal with |- memory_safe (if ?b then _ else _) => destruct b end
  | match goal with |- memory_safe (match ?b with _ => _ end) => destruct b end ].
Create HintDb safe.
Lemma safe_chk z : memory_safe (chk z). Proof. unfold chk. sf. Qed.
Lemma safe_igcd a b : memory_safe (igcd a b). Proof. unfold igcd, chk. sf. Qed.
Lemma safe_idiv a b : memory_safe (idiv a b). Proof. unfold idiv, chk. sf. Qed.
#[global] Hint Resolve safe_chk safe_igcd safe_idiv : safe.
Lemma safe_imul a b : memory_safe (imul a b). Proof. apply safe_chk. Qed.
Lemma safe_iadd a b : memory_safe (iadd a b). Proof. apply safe_chk. Qed.
Lemma safe_ineg a : memory_safe (ineg a). Proof. apply safe_chk. Qed.
#[global] Hint Resolve safe_imul safe_iadd safe_ineg : safe.
Lemma safe_iabs a : memory_safe (iabs a). Proof. unfold iabs. sf. Qed.
Lemma safe_reduce a b : memory_safe (reduce a b). Proof. unfold reduce. sf. Qed.
#[global] Hint Resolve safe_iabs safe_reduce : safe.
Lemma safe_gate md r : memory_safe (overflow_gate md r). Proof. unfold overflow_gate, rounding. sf. Qed.
#[global] Hint Resolve safe_gate : safe.
Lemma safe_rmul md a b : memory_safe (rmul md a b). Proof. unfold rmul. sf. Qed.
Lemma safe_rdiv md a b : memory_safe (rdiv md a b). Proof. unfold rdiv. sf. Qed.
Lemma safe_radd md a b : memory_safe (radd md a b). Proof. unfold radd. sf. Qed.
Lemma safe_rneg a : memory_safe (rneg a). Proof. unfold rneg. sf. Qed.
#[global] Hint Resolve safe_rmul safe_rdiv safe_radd safe_rneg : safe.
Lemma safe_rsub md a b : memory_safe (rsub md a b). Proof. unfold rsub. sf. Qed.
Lemma safe_rscale a b : memory_safe (rscale_int a b). Proof. unfold rscale_int. sf. Qed.
Lemma safe_radd_assign a b : memory_safe (radd_assign a b). Proof. unfold radd_assign. sf. Qed.
Lemma safe_req a b : memory_safe (req a b). Proof. unfold req. sf. Qed.
Lemma safe_rlt a b : memory_safe (rlt a b). Proof. unfold rlt. sf. Qed.
Lemma safe_rgt a b : memory_safe (rgt a b). Proof. unfold rgt. sf. Qed.
#[global] Hint Resolve safe_rsub safe_rscale safe_radd_assign safe_req safe_rlt safe_rgt : safe.
Lemma safe_ind_eq a b : memory_safe (ind_eq a b). Proof. unfold ind_eq. sf. Qed.
Lemma safe_ind_lt a b : memory_safe (ind_lt a b). Proof. unfold ind_lt. sf. Qed.
#[global] Hint Resolve safe_ind_eq safe_ind_lt : safe.
Lemma safe_lex_side l : forall r, memory_safe (lex_side l r).
Proof. induction l; intros [|b r]; cbn [lex_side]; sf. Qed.
#[global] Hint Resolve safe_lex_side : safe.
Lemma safe_side l r : memory_safe (s_side l r). Proof. unfold s_side. sf. Qed.
Lemma safe_inds_lex l : forall r, memory_safe (inds_lex l r).
Proof. induction l; intros [|b r]; cbn [inds_lex]; sf. Qed.
#[global] Hint Resolve safe_side safe_inds_lex : safe.
Lemma safe_s_lt a b : memory_safe (s_lt a b). Proof. unfold s_lt, mon_lt. sf. Qed.
#[global] Hint Resolve safe_s_lt : safe.
Lemma safe_sort {A} (less : A -> A -> res bool) l : (forall a b, memory_safe (less a b)) ->
  memory_safe (sort_range less l 0 (length l)) /\
  forall l', sort_range less l 0 (length l) = Ok l' -> length l' = length l.
Proof.
  intros L. pose proof (sort_safe less [] l []) as H. cbn [app length] in H. rewrite Nat.add_0_l, app_nil_r in H.
  destruct H as [(s' & E & P)|(a & b & e & E1 & E2)].
  - rewrite E, app_nil_r. split; [apply safe_ok|]. intros l' H. injection H as <-. now rewrite (Permutation_length P).
  - rewrite E2. split; [|discriminate]. intros e' H. injection H as <-. now apply (L a b).
Qed.

Section Mode.
Variable md : mode.
Lemma safe_ss_mons ls rs : memory_safe (ss_mons md ls rs).
Proof.
  revert ls rs. apply (merge_ind (fun ls rs => memory_safe (ss_mons md ls rs))).
  - intros rs. rewrite ss_mons_nil_l. sf.
  - intros ls. rewrite ss_mons_nil_r. sf.
  - intros l ls r rs I1 I2 I3. rewrite ss_mons_cons. sf.
Qed.
Hint Resolve safe_ss_mons : safe.
Lemma safe_ss_terms ls rs : memory_safe (ss_terms md ls rs).
Proof.
  revert ls rs. apply (merge_ind (fun ls rs => memory_safe (ss_terms md ls rs))).
  - intros rs. rewrite ss_terms_nil_l. sf.
  - intros ls. rewrite ss_terms_nil_r. sf.
  - intros l ls r rs I1 I2 I3. rewrite ss_terms_cons. sf.
Qed.
Lemma safe_run cur l : forall q, memory_safe (s_run md cur l q).
Proof. induction l as [|x l IH]; intros q; cbn [s_run]; sf. Qed.
Hint Resolve safe_run : safe.
Lemma run_length cur l : forall q p, s_run md cur l q = Ok p -> length (snd p) <= length l.
Proof.
  induction l as [|x l IH]; intros q p; cbn [s_run]; intros H.
  - injection H as <-. cbn. lia.
  - destruct (s_eq cur x); [minv H; apply IH in H; cbn; lia|]. injection H as <-. cbn. lia.
Qed.
Lemma safe_merge fuel : forall l, length l < fuel -> memory_safe (s_merge md fuel l).
Proof.
  induction fuel as [|fu IH]; intros l L; [lia|]. cbn [s_merge]. destruct l as [|m l]; [sf|].
  apply safe_bind; [sf|]. intros [q rest] E. apply run_length in E. cbn [snd length] in *.
  apply safe_bind; [apply IH; lia|intros; sf].
Qed.
Lemma gather_length e ts : length (fst (s_gather e ts)) <= length ts.
Proof.
  induction ts as [|t ts IH]; cbn; [lia|]. destruct (fst t =? e)%N; [|cbn; lia]. destruct (s_gather e ts); cbn in *; lia.
Qed.
Lemma safe_collate fuel : forall ts, length ts < fuel -> memory_safe (s_collate md fuel ts).
Proof.
  induction fuel as [|fu IH]; intros ts L; [lia|]. cbn [s_collate]. destruct ts as [|t ts]; [sf|].
  pose proof (gather_length (fst t) ts) as G. cbn [s_gather]. rewrite N.eqb_refl.
  destruct (s_gather (fst t) ts) as [rest l]. cbn [fst length] in *.
  destruct (safe_sort s_lt (snd t ++ l) safe_s_lt) as [S1 S2].
  apply safe_bind; [exact S1|]. intros l' E. apply S2 in E. apply safe_bind; [apply safe_merge; lia|].
  intros m _. apply safe_bind; [apply IH; lia|]. intros; sf.
Qed.
Lemma safe_sort_collate ts : memory_safe (s_sort_collate md ts).
Proof.
  unfold s_sort_collate. destruct (safe_sort t_lt ts) as [S1 S2]. { intros. unfold t_lt. sf. }
  apply safe_bind; [exact S1|]. intros ts' E. apply S2 in E. apply safe_collate. lia.
Qed.
Lemma safe_rest l : forall deg, memory_safe (s_rest deg l).
Proof. induction l as [|x l IH]; intros deg; cbn [s_rest]; sf. Qed.
Hint Resolve safe_rest : safe.
Lemma safe_minds ls rs : forall deg, memory_safe (s_minds md ls rs deg).
Proof.
  revert ls rs. apply (merge_ind (fun ls rs => forall deg, memory_safe (s_minds md ls rs deg))).
  - intros rs deg. rewrite s_minds_nil_l. sf.
  - intros ls deg. rewrite s_minds_nil_r. sf.
  - intros l ls r rs I1 I2 I3 deg. rewrite s_minds_cons. sf.
Qed.
Hint Resolve safe_minds : safe.
Lemma safe_pmons k ls rs : memory_safe (s_pmons md k ls rs).
Proof.
  assert (R : forall l rs, memory_safe (s_prow md k l rs)).
  { intros l rs'. induction rs'; cbn [s_prow]; [sf|]. unfold s_pmon. sf. }
  induction ls; cbn [s_pmons]; sf.
Qed.
Hint Resolve safe_pmons : safe.
Lemma safe_pterms P ls rs : memory_safe (s_pterms md P ls rs).
Proof.
  assert (R : forall l rs, memory_safe (s_ptrow md P l rs)).
  { intros l rs'. induction rs'; cbn [s_ptrow]; [sf|]. unfold s_pterm. sf. }
  induction ls; cbn [s_pterms]; sf.
Qed.
Lemma safe_product P ls rs : memory_safe (s_product md P ls rs).
Proof. unfold s_product. apply safe_bind; [apply safe_pterms|]. intros. apply safe_sort_collate. Qed.
Lemma safe_smapq f ms : (forall q, memory_safe (f q)) -> memory_safe (smapq f ms).
Proof. intros F. apply safe_mapM. intros. sf. Qed.
Lemma safe_mapt f ts : (forall e g q, f e = Some g -> memory_safe (g q)) -> memory_safe (s_mapt f ts).
Proof.
  intros F. apply safe_mapM. intros t. unfold s_upd. destruct (f (fst t)) as [g|] eqn:E; [|sf].
  apply safe_bind; [apply safe_smapq; intros; now apply (F _ _ q E)|]. intros. sf.
Qed.
Lemma safe_push s e t : memory_safe (Proof_Ops.s_push md s e t).
Proof. unfold s_push. apply safe_bind; [apply safe_smapq; intros; sf|]. intros. sf. Qed.
Hint Resolve safe_push : safe.
Lemma safe_find e ts : memory_safe (s_find md e ts).
Proof. induction ts as [|t ts IH]; cbn [s_find]; sf. Qed.
Lemma safe_dual dim ts : memory_safe (s_dual md dim ts).
Proof.
  unfold s_dual. apply safe_bind; [|intros; apply safe_sort_collate]. apply safe_mapM. intros t. unfold s_dual_term.
  destruct (poincare_complement (fst t) dim). apply safe_bind; [apply safe_smapq; intros; sf|]. intros. sf.
Qed.
Lemma safe_dist d ts : memory_safe (s_dist md d ts).
Proof. induction ts as [|t ts IH]; cbn [s_dist]; sf. Qed.
Lemma safe_change d ts : memory_safe (s_change md d ts).
Proof.
  unfold s_change. apply safe_bind; [apply safe_dist|]. intros. apply safe_bind; [apply safe_sort_collate|]. intros. apply safe_ss_terms.
Qed.
Lemma safe_extract es ts : memory_safe (s_extract md es ts).
Proof.
  revert es ts. apply (merge_ind (fun es ts => memory_safe (s_extract md es ts))).
  - intros [|]; cbn; sf.
  - intros [|]; cbn; sf.
  - intros e es t ts I1 I2 I3. rewrite s_extract_cons. sf.
Qed.
Lemma safe_divide q d rq ts : memory_safe (s_divide md q d rq ts).
Proof.
  unfold s_divide. apply safe_bind; [sf|]. intros nd _. apply safe_bind.
  - apply safe_mapM. intros t. apply safe_bind; [apply safe_mapM; intros; sf|]. intros; sf.
  - intros. apply safe_mapt. intros e g p G. injection G as <-. sf.
Qed.
End Mode.

(** ** runs without rounding are runs of the code *)
Definition imp {A} (x y : res A) : Prop := forall r, x = Ok r -> y = Ok r.
Lemma imp_refl {A} (x : res A) : imp x x. Proof. intros r H. exact H. Qed.
Lemma imp_bind {A B} (x y : res A) (f g : A -> res B) : imp x y -> (forall a, x = Ok a -> imp (f a) (g a)) -> imp (bind x f) (bind y g).
Proof. intros X F r H. destruct x as [a|]; cbn in H; [|discriminate]. rewrite (X a eq_refl). cbn. now apply F. Qed.
Ltac im := repeat first
  [ match goal with |- imp ?x ?x => apply imp_refl end | solve [auto with imp]
  | apply imp_bind; [|intros]
  | match goal with |- imp (if ?b then _ else _) _ => destruct b end
  | match goal with |- imp (match ?b with _ => _ end) _ => destruct b end ].
Create HintDb imp.
Lemma imp_gate r : imp (overflow_gate Exact r) (overflow_gate Code r).
Proof. intros r'. apply gate_exact_code. Qed.
#[global] Hint Resolve imp_gate : imp.
Lemma imp_rmul a b : imp (rmul Exact a b) (rmul Code a b). Proof. unfold rmul. im. Qed.
Lemma imp_rdiv a b : imp (rdiv Exact a b) (rdiv Code a b). Proof. unfold rdiv. im. Qed.
Lemma imp_radd a b : imp (radd Exact a b) (radd Code a b). Proof. unfold radd. im. Qed.
#[global] Hint Resolve imp_rmul imp_rdiv imp_radd : imp.
Lemma imp_rsub a b : imp (rsub Exact a b) (rsub Code a b). Proof. unfold rsub. im. Qed.
#[global] Hint Resolve imp_rsub : imp.
(** sum *)
Lemma imp_sum_mons c ls rs : forall w, imp (sum_mons Exact c ls rs w) (sum_mons Code c ls rs w).
Proof.
  revert ls rs. apply (merge_ind (fun ls rs => forall w, imp (sum_mons Exact c ls rs w) (sum_mons Code c ls rs w))).
  - intros rs w. rewrite !sum_mons_nil_l. im.
  - intros ls w. rewrite !sum_mons_nil_r. im.
  - intros l ls r rs I1 I2 I3 w. rewrite !sum_mons_cons. im.
Qed.
#[global] Hint Resolve imp_sum_mons : imp.
Lemma imp_sum_terms c ls rs : forall w, imp (sum_terms Exact c ls rs w) (sum_terms Code c ls rs w).
Proof.
  revert ls rs. apply (merge_ind (fun ls rs => forall w, imp (sum_terms Exact c ls rs w) (sum_terms Code c ls rs w))).
  - intros rs w. rewrite !sum_terms_nil_l. im.
  - intros ls w. rewrite !sum_terms_nil_r. im.
  - intros l ls r rs I1 I2 I3 w. rewrite !sum_terms_cons. im.
Qed.
#[global] Hint Resolve imp_sum_terms : imp.
Lemma imp_sum x y : imp (sum Exact x y) (sum Code x y). Proof. unfold sum. im. Qed.
#[global] Hint Resolve imp_sum : imp.
(** coefficient updates *)
Lemma imp_upd_q f g n : (forall q, imp (f q) (g q)) -> forall off ms, imp (upd_q f off n ms) (upd_q g off n ms).
Proof. intros F. induction n as [|n IH]; intros off ms; cbn [upd_q]; im. Qed.
Lemma imp_scale q x : imp (scale Exact q x) (scale Code q x).
Proof. unfold scale. apply imp_bind; [|intros; im]. apply imp_upd_q. intros. im. Qed.
#[global] Hint Resolve imp_scale : imp.
Lemma imp_fn o q x : imp (fn Exact o q x) (fn Code o q x). Proof. apply imp_scale. Qed.
Lemma imp_shift q x : imp (shift Exact q x) (shift Code q x). Proof. apply imp_sum. Qed.
(** division *)
Lemma imp_div_inds c d l : forall w a b, imp (div_inds Exact c d l w a b) (div_inds Code c d l w a b).
Proof. induction l as [|x l IH]; intros w a b; cbn [div_inds]; im. Qed.
#[global] Hint Resolve imp_div_inds : imp.
Lemma imp_div_mons c d rq vs : forall w, imp (div_mons Exact c d rq w vs) (div_mons Code c d rq w vs).
Proof. induction vs as [|v vs IH]; intros w; cbn [div_mons]; unfold div_mon; im. Qed.
#[global] Hint Resolve imp_div_mons : imp.
Lemma imp_div_terms c d rq vs : forall w, imp (div_terms Exact c d rq w vs) (div_terms Code c d rq w vs).
Proof. induction vs as [|v vs IH]; intros w; cbn [div_terms]; im. Qed.
#[global] Hint Resolve imp_div_terms : imp.
Lemma imp_upd_terms f g ts : (forall t q, imp (f t q) (g t q)) -> forall ms,
  imp (upd_terms (fun t => Some (f t)) ts ms) (upd_terms (fun t => Some (g t)) ts ms).
Proof. intros F. induction ts as [|t ts IH]; intros ms; cbn [upd_terms]; [im|]. apply imp_bind; [now apply imp_upd_q|intros; im]. Qed.
Lemma imp_divide x y q : imp (divide Exact x y q) (divide Code x y q).
Proof.
  unfold divide. destruct ((length (mons y) =? 0) || (length (terms y) =? 0)); [im|]. apply imp_bind; [im|]. intros m _.
  destruct (length (inds y)) as [|[|]]; [|im|im].
  apply imp_bind; [im|]. intros ts _. apply imp_bind; [|intros; im].
  apply (imp_upd_terms (fun _ p => a <- rmul Exact q p;; rdiv Exact a (mq m)) (fun _ p => a <- rmul Code q p;; rdiv Code a (mq m))).
  intros. im.
Qed.
(** push *)
Lemma imp_push_mons c s vs : forall w, imp (push_mons Exact c s w vs) (push_mons Code c s w vs).
Proof. induction vs as [|v vs IH]; intros w; cbn [push_mons]; unfold push_mon; im. Qed.
#[global] Hint Resolve imp_push_mons : imp.
Lemma imp_push c w v s e : imp (push Exact c w v s e) (push Code c w v s e). Proof. unfold push. im. Qed.
#[global] Hint Resolve imp_push : imp.
Lemma imp_component x e : imp (component Exact x e) (component Code x e).
Proof. unfold component. apply imp_bind; [im|]. intros l _. apply imp_bind; [|intros; im]. induction l; cbn [find_push]; im. Qed.
(** collate and product *)
Lemma imp_run is cur buf n : forall next q, imp (run_equal Exact is cur buf n next q) (run_equal Code is cur buf n next q).
Proof. induction n as [|n IH]; intros next q; cbn [run_equal]; im. Qed.
#[global] Hint Resolve imp_run : imp.
Lemma imp_merge_mons fuel cp is : forall buf it stop w oi,
  imp (merge_mons Exact fuel cp is buf it stop w oi) (merge_mons Code fuel cp is buf it stop w oi).
Proof. induction fuel as [|fu IH]; intros; cbn [merge_mons]; im. Qed.
#[global] Hint Resolve imp_merge_mons : imp.
Lemma imp_collate_loop fuel c ms is : forall ts buf pos oi ot,
  imp (collate_loop Exact fuel c ms is ts buf pos oi ot) (collate_loop Code fuel c ms is ts buf pos oi ot).
Proof.
  induction fuel as [|fu IH]; intros; cbn [collate_loop]; [im|]. destruct ts; [im|]. apply imp_bind; [im|]. intros [[rest b1] st] _.
  apply imp_bind; [im|]. intros b2 _. apply imp_bind; [im|]. intros [[b3 wr] oi'] _. apply imp_bind; [im|]. intros. im.
Qed.
#[global] Hint Resolve imp_collate_loop : imp.
Lemma imp_collate c ts ms is : imp (collate Exact c ts ms is) (collate Code c ts ms is). Proof. unfold collate. im. Qed.
#[global] Hint Resolve imp_collate : imp.
Lemma imp_dual dim x : imp (poincare_dual Exact dim x) (poincare_dual Code dim x). Proof. unfold poincare_dual. im. Qed.
Lemma imp_merge_inds c ls rs : forall w deg, imp (merge_inds Exact c ls rs w deg) (merge_inds Code c ls rs w deg).
Proof.
  revert rs. induction ls as [|l ls IHl]; [intros rs w deg; destruct rs; cbn [merge_inds]; im|].
  intros rs. induction rs as [|r rs IHr]; intros w deg; [cbn [merge_inds]; im|]. cbn [merge_inds]. im.
Qed.
#[global] Hint Resolve imp_merge_inds : imp.
Lemma imp_prod_mons c k rs ls : forall w, imp (prod_mons Exact c k w ls rs) (prod_mons Code c k w ls rs).
Proof.
  assert (R : forall l rs w, imp (prod_mon_row Exact c k w l rs) (prod_mon_row Code c k w l rs)).
  { intros l rs'. induction rs'; intros w; cbn [prod_mon_row]; unfold prod_mon; im. }
  induction ls; intros w; cbn [prod_mons]; im.
Qed.
#[global] Hint Resolve imp_prod_mons : imp.
Lemma imp_prod_terms P c rs ls : forall w, imp (prod_terms Exact P c w ls rs) (prod_terms Code P c w ls rs).
Proof.
  assert (R : forall l rs w, imp (prod_term_row Exact P c w l rs) (prod_term_row Code P c w l rs)).
  { intros l rs'. induction rs'; intros w; cbn [prod_term_row]; unfold prod_term; im. }
  induction ls; intros w; cbn [prod_terms]; im.
Qed.
#[global] Hint Resolve imp_prod_terms : imp.
Lemma imp_product P x y : imp (product Exact P x y) (product Code P x y). Proof. unfold product. im. Qed.
(** null basis *)
Lemma imp_distribute d c c2 vs : forall l t, imp (distribute Exact d c c2 vs l t) (distribute Code d c c2 vs l t).
Proof. induction vs as [|v vs IH]; intros l t; cbn [distribute]; im. Qed.
#[global] Hint Resolve imp_distribute : imp.
Lemma imp_change d x : imp (change_basis Exact d x) (change_basis Code d x). Proof. unfold change_basis. im. Qed.
