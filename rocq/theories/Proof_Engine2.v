(** Evaluations without rounding are evaluations of the code. *)
From Coq Require Import ZArith NArith List Bool Arith Reals.
From Verif Require Import Base Model_Numeric Model_Blade Model_MV Model_Product Model_Expr Model_Dfa Model_Engine Proof_Safe.
Import ListNotations.
Local Open Scope nat_scope.

#[local] Hint Resolve imp_fn imp_divide imp_component imp_dual imp_product imp_change : imp.
Lemma imp_mapM {A B} (f g : A -> res B) l : (forall a, imp (f a) (g a)) -> imp (mapM f l) (mapM g l).
Proof. intros F. induction l as [|a l IH]; cbn [mapM]; im. Qed.
Lemma imp_fold_sum l : imp (fold_sum Exact l) (fold_sum Code l).
Proof. induction l as [|x l IH]; cbn [fold_sum]; im. Qed.
Lemma imp_fold_ep m l : imp (fold_ep Exact m l) (fold_ep Code m l).
Proof. induction l as [|x l IH]; cbn [fold_ep]; im. Qed.
#[local] Hint Resolve imp_fold_sum imp_fold_ep : imp.
Lemma imp_apply m n args : imp (apply_op Exact m n args) (apply_op Code m n args).
Proof. unfold apply_op. im. Qed.
#[local] Hint Resolve imp_apply : imp.
Lemma imp_step m nb n st : imp (rpn_step Exact m nb n st) (rpn_step Code m nb n st).
Proof. unfold rpn_step, to_natural_basis. im. Qed.
Lemma imp_close n st sub : imp (rpn_close Exact n st sub) (rpn_close Code n st sub).
Proof. unfold rpn_close. im. Qed.
#[local] Hint Resolve imp_step imp_close : imp.
Lemma imp_rpn m nb f : forall l st, imp (rpn_run Exact m nb f l st) (rpn_run Code m nb f l st).
Proof. induction f as [|f IH]; intros l st; cbn [rpn_run]; im. Qed.
Lemma imp_eval m nb l ins cnt : imp (rpn_eval Exact m nb l ins cnt) (rpn_eval Code m nb l ins cnt).
Proof. apply imp_rpn. Qed.
Lemma imp_result m nb x : imp (result_mv Exact m nb x) (result_mv Code m nb x).
Proof. unfold result_mv, to_null_basis. im. Qed.
#[local] Hint Resolve imp_result imp_eval : imp.
Lemma imp_temps m nb l : forall data, imp (finalize_temps Exact m nb l data) (finalize_temps Code m nb l data).
Proof. induction l as [|[x i] l IH]; intros data; cbn [finalize_temps]; im. Qed.
Lemma imp_entity m nb q data x : imp (finalize_entity Exact m nb q data x) (finalize_entity Code m nb q data x).
Proof. unfold finalize_entity. im. Qed.
#[local] Hint Resolve imp_temps imp_entity : imp.
Lemma imp_compute m nb ies inputs l q : imp (compute Exact m nb ies inputs l q) (compute Code m nb ies inputs l q).
Proof.
  unfold compute. apply imp_bind; [im|]. intros ins _. apply imp_bind; [im|]. intros st _. apply imp_bind; [im|]. intros data _.
  apply imp_bind; [im|]. intros data' _. destruct (r_args st); [im|]. apply imp_mapM. intros. im.
Qed.
