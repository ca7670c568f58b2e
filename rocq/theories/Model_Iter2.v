(** Model of the loops of detail::product and detail::poincare_dual through iterators, as Model_Iter
    models those of detail::sum: public/gal/algebra.hpp:1219-1399. *)
From Coq Require Import ZArith NArith List Bool Arith.
From Verif Require Import Base Model_Numeric Model_Blade Model_Sort Model_MV Model_Product Model_Iter.
Import ListNotations.
Local Open Scope nat_scope.

(** ** detail::product, algebra.hpp:1268-1399 *)

(** temp_inds, temp_mons and temp_terms with their iterators, algebra.hpp:1285-1290: the arrays are
    not initialised, they hold [gi], [gm] and [gt]. Of a mon_view only the monomial is kept, its
    ind_start being temp_inds.begin() + the offset of the monomial (lines 1369-1374). *)
Definition p_temp (gi : list ind) (gm : list mon) (gt : list term) : po := mkpo 0 0 0 gi gm gt.

Section Product.
Variable md : mode.
Variable fuel : nat.
(** for (; it != it_end; ++it) { degree += it->degree; *temp_inds_it++ = *it; }, algebra.hpp:1331-1335 *)
Definition p_rest (is : list ind) (it last : nat) (o : po) (deg : rat) : res (po * rat) :=
  iterate ptr_ne S (Ok last)
    (fun p (s : po * rat) => i <- get is p;; d <- radd_assign (snd s) (ideg i);; o' <- p_ind (fst s) i;; Ok (o', d))
    fuel it (o, deg).
(** while (true), algebra.hpp:1319-1367; the pointers are lhs_ind_it, lhs_ind_end, rhs_ind_it and
    rhs_ind_end *)
Fixpoint p_merge (n : nat) (lis ris : list ind) (l le r re : nat) (o : po) (deg : rat) : res (po * rat) :=
  match n with
  | O => Err IllFormed
  | S n' =>
    if (l =? le) && (r =? re) then Ok (o, deg)
    else if (l =? le) || (r =? re) then
      if l =? le then p_rest ris r re o deg else p_rest lis l le o deg
    else
      a <- get lis l;; b <- get ris r;;
      if (id a =? id b)%N then
        nd <- radd md (ideg a) (ideg b);;
        deg' <- radd_assign deg nd;;
        o' <- (if rne_int nd 0 then p_ind o (mkind (id a) nd) else Ok o);;
        p_merge n' lis ris (S l) le (S r) re o' deg'
      else if (id a <? id b)%N then
        o' <- p_ind o a;; deg' <- radd_assign deg (ideg a);; p_merge n' lis ris (S l) le r re o' deg'
      else
        o' <- p_ind o b;; deg' <- radd_assign deg (ideg b);; p_merge n' lis ris l le (S r) re o' deg'
  end.
(** the body of the two loops over monomials, algebra.hpp:1312-1374; [rat degree] is 0 by default
    (numeric.hpp:20-21) *)
Definition p_prod_mon (x y : mv) (mult : Z) (l r : mit) (o : po) : res po :=
  lb <- mit_begin (inds x) (mons x) l;; le <- mit_end (inds x) (mons x) l;;
  rb <- mit_begin (inds y) (mons y) r;; re <- mit_end (inds y) (mons y) r;;
  ' (o1, deg) <- p_merge fuel (inds x) (inds y) lb le rb re o zero;;
  a <- mit_deref (mons x) l;; b <- mit_deref (mons y) r;;
  c <- rscale_int mult (mq a);;
  q <- rmul md c (mq b);;
  p_mon o1 (mkmon q deg (pi o1 - pi o) (pi o)).
(** the two loops over monomials, algebra.hpp:1308-1376 *)
Definition p_prod_mons (x y : mv) (mult : Z) (l r : tit) (o : po) : res po :=
  lb <- tit_begin (mons x) (terms x) l;;
  iterate mit_ne mit_next (tit_end (mons x) (terms x) l)
    (fun lm o =>
       rb <- tit_begin (mons y) (terms y) r;;
       iterate mit_ne mit_next (tit_end (mons y) (terms y) r) (fun rm o => p_prod_mon x y mult lm rm o) fuel rb o)
    fuel lb o.
(** one pair of terms, algebra.hpp:1300-1381 *)
Definition p_prod_term (P : N -> N -> N * Z) (x y : mv) (l r : tit) (o : po) : res po :=
  a <- tit_deref (terms x) l;; b <- tit_deref (terms y) r;;
  let '(e, mult) := P (elem a) (elem b) in
  if (mult =? 0)%Z then Ok o
  else
    o1 <- p_prod_mons x y mult l r o;;
    p_term o1 (mkterm (pm o1 - pm o) (pm o) e).
(** the two loops over terms, algebra.hpp:1296-1383 *)
Definition p_prod_terms (P : N -> N -> N * Z) (x y : mv) (o : po) : res po :=
  iterate tit_ne tit_next (mv_end x)
    (fun l o => iterate tit_ne tit_next (mv_end y) (fun r o => p_prod_term P x y l r o) fuel mv_begin o)
    fuel mv_begin o.
(** detail::product, algebra.hpp:1272-1399: the terms before temp_terms_it are sorted; collate reads
    the terms before temp_terms_it and may read the whole of the other two arrays *)
Definition p_product (P : N -> N -> N * Z) (x y : mv) (gi : list ind) (gm : list mon) (gt : list term) : res mv :=
  o <- p_prod_terms P x y (p_temp gi gm gt);;
  ts <- sort_range (fun a b => Ok (term_lt a b)) (at_ o) 0 (pt o);;
  ts' <- slice ts 0 (pt o);;
  collate md (prod_caps x y) ts' (am o) (ai o).

(** ** detail::poincare_dual, algebra.hpp:1219-1266 *)
(** one monomial, algebra.hpp:1238-1245 *)
Definition p_dual_mon (x : mv) (parity : Z) (it : mit) (o : po) : res po :=
  m <- mit_deref (mons x) it;;
  q <- rscale_int parity (mq m);;
  o1 <- p_mon o (mkmon q (mdeg m) (mcount m) (pi o));;
  p_copy_inds fuel x it o1.
(** one term, algebra.hpp:1233-1246 *)
Definition p_dual_term (dim : N) (x : mv) (it : tit) (o : po) : res po :=
  t <- tit_deref (terms x) it;;
  let '(g, parity) := poincare_complement (elem t) dim in
  o1 <- p_term o (mkterm (tcount t) (pm o) g);;
  b <- tit_begin (mons x) (terms x) it;;
  iterate mit_ne mit_next (tit_end (mons x) (terms x) it) (fun p o => p_dual_mon x parity p o) fuel b o1.
(** detail::poincare_dual, algebra.hpp:1219-1266; the views are made of the first out.size.mon = in.size.mon
    monomials (lines 1249-1253) *)
Definition p_dual (dim : N) (x : mv) : res mv :=
  let c := caps_of x in
  o <- iterate tit_ne tit_next (mv_end x) (fun p o => p_dual_term dim x p o) fuel mv_begin (p_new c);;
  ms <- slice (am o) 0 (msz x);;
  ts <- sort_range (fun a b => Ok (term_lt a b)) (at_ o) 0 (tsz x);;
  ts' <- slice ts 0 (tsz x);;
  collate md c ts' ms (ai o).
End Product.
