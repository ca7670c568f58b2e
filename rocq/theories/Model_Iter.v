(** Model of the iterators of multivectors, public/gal/algebra.hpp:188-434, and of the loops over
    them, with pointers. A pointer into an array is the index of its cell; a pointer may be formed
    up to one past the last cell, and only cells of the array may be read or written. Model_MV.v
    reads the ranges that the iterators visit as lists instead; Props_Iter.v relates the two. *)
From Coq Require Import ZArith NArith List Bool Arith.
From Verif Require Import Base Model_Numeric Model_Blade Model_MV.
Import ListNotations.
Local Open Scope nat_scope.

(** forming the pointer to cell [i] of an array of [n] cells, e.g. algebra.hpp:312 *)
Definition ptr (n i : nat) : res nat := if i <=? n then Ok i else Err OutOfBounds.

(** ** mon_it and const_mon_it, algebra.hpp:188-250, 252-314 *)

(** ind_begin_ and mon_, algebra.hpp:190-191, 254-255 *)
Record mit := mkmit { mit_inds : nat; mit_mon : nat }.
(** operator* and operator->, algebra.hpp:193-201, 257-265 *)
Definition mit_deref (ms : list mon) (it : mit) : res mon := get ms (mit_mon it).
(** operator-(mon_it), algebra.hpp:204-207, 268-271: the difference is converted to size_t *)
Definition mit_minus (a b : mit) : N := Z.to_N ((Z.of_nat (mit_mon a) - Z.of_nat (mit_mon b)) mod 2 ^ 64).
(** operator==, algebra.hpp:214-217, 278-281 *)
Definition mit_eq (a b : mit) : bool := (mit_inds a =? mit_inds b) && (mit_mon a =? mit_mon b).
(** operator!=, algebra.hpp:219-222, 283-286 *)
Definition mit_ne (a b : mit) : bool := negb (mit_inds a =? mit_inds b) || negb (mit_mon a =? mit_mon b).
(** ++it, algebra.hpp:224-228, 288-292 *)
Definition mit_next (it : mit) : mit := mkmit (mit_inds it) (S (mit_mon it)).
(** it++, algebra.hpp:230-233, 294-297: the value and the new iterator *)
Definition mit_post (it : mit) : mit * mit := (mkmit (mit_inds it) (mit_mon it), mkmit (mit_inds it) (S (mit_mon it))).
(** it += jump, algebra.hpp:235-239, 299-303 *)
Definition mit_jump (k : nat) (it : mit) : mit := mkmit (mit_inds it) (mit_mon it + k).
(** begin, cbegin, algebra.hpp:241-244, 305-308 *)
Definition mit_begin (is : list ind) (ms : list mon) (it : mit) : res nat :=
  m <- mit_deref ms it;; ptr (length is) (mit_inds it + ioff m).
(** end, cend, algebra.hpp:246-249, 310-313 *)
Definition mit_end (is : list ind) (ms : list mon) (it : mit) : res nat :=
  m <- mit_deref ms it;; ptr (length is) (mit_inds it + ioff m + mcount m).

(** ** term_it and const_term_it, algebra.hpp:316-374, 376-434 *)

(** ind_begin_, mon_begin_ and term_, algebra.hpp:318-320, 378-380 *)
Record tit := mktit { tit_inds : nat; tit_mons : nat; tit_term : nat }.
(** operator* and operator->, algebra.hpp:322-330, 382-390 *)
Definition tit_deref (ts : list term) (it : tit) : res term := get ts (tit_term it).
(** operator-, algebra.hpp:333-336, 393-396 *)
Definition tit_minus (a b : tit) : N := Z.to_N ((Z.of_nat (tit_term a) - Z.of_nat (tit_term b)) mod 2 ^ 64).
(** operator==, algebra.hpp:338-341, 398-401: only the terms are compared *)
Definition tit_eq (a b : tit) : bool := tit_term a =? tit_term b.
(** operator!=, algebra.hpp:343-346, 403-406 *)
Definition tit_ne (a b : tit) : bool := negb (tit_term a =? tit_term b).
(** ++it, algebra.hpp:348-352, 408-412 *)
Definition tit_next (it : tit) : tit := mktit (tit_inds it) (tit_mons it) (S (tit_term it)).
(** it++, algebra.hpp:354-357, 414-417 *)
Definition tit_post (it : tit) : tit * tit := (mktit (tit_inds it) (tit_mons it) (tit_term it), mktit (tit_inds it) (tit_mons it) (S (tit_term it))).
(** it += jump, algebra.hpp:359-363, 419-423 *)
Definition tit_jump (k : nat) (it : tit) : tit := mktit (tit_inds it) (tit_mons it) (tit_term it + k).
(** begin, cbegin, algebra.hpp:365-368, 425-428 *)
Definition tit_begin (ms : list mon) (ts : list term) (it : tit) : res mit :=
  t <- tit_deref ts it;; p <- ptr (length ms) (tit_mons it + moff t);; Ok (mkmit (tit_inds it) p).
(** end, cend, algebra.hpp:370-373, 430-433 *)
Definition tit_end (ms : list mon) (ts : list term) (it : tit) : res mit :=
  t <- tit_deref ts it;; p <- ptr (length ms) (tit_mons it + moff t + tcount t);; Ok (mkmit (tit_inds it) p).

(** mv::begin, mv::cbegin, algebra.hpp:719-727 *)
Definition mv_begin : tit := mktit 0 0 0.
(** mv::end, mv::cend, algebra.hpp:729-737 *)
Definition mv_end (x : mv) : res tit := p <- ptr (length (terms x)) (tsz x);; Ok (mktit 0 0 p).

(** ** Loops *)

(** for (it = first; it != last; ++it) body, e.g. algebra.hpp:577, with a bound on the number of
    iterations; [last] is evaluated before every iteration *)
Fixpoint iterate {I St} (ne : I -> I -> bool) (next : I -> I) (last : res I) (body : I -> St -> res St) (fuel : nat) (it : I) (s : St) : res St :=
  match fuel with
  | O => Err IllFormed
  | S fuel' =>
    e <- last;;
    if ne it e then s' <- body it s;; iterate ne next last body fuel' (next it) s' else Ok s
  end.
(** != of pointers, e.g. algebra.hpp:598 *)
Definition ptr_ne (a b : nat) : bool := negb (a =? b).

Section Loops.
Variable fuel : nat.
(** the indeterminates of a monomial, in the order of for (i = m.cbegin(); i != m.cend(); ++i),
    algebra.hpp:598-601 *)
Definition visit_inds (is : list ind) (ms : list mon) (it : mit) : res (list ind) :=
  b <- mit_begin is ms it;;
  iterate ptr_ne S (mit_end is ms it) (fun p acc => x <- get is p;; Ok (acc ++ [x])) fuel b [].
(** the monomials of a term with their indeterminates, algebra.hpp:593-602 *)
Definition visit_mons (x : mv) (it : tit) : res (list vmon) :=
  b <- tit_begin (mons x) (terms x) it;;
  iterate mit_ne mit_next (tit_end (mons x) (terms x) it)
    (fun p acc => m <- mit_deref (mons x) p;; l <- visit_inds (inds x) (mons x) p;; Ok (acc ++ [(m, l)])) fuel b [].
(** the nested loops over a whole multivector, algebra.hpp:460-469, 577-604 *)
Definition visit (x : mv) : res (list vterm) :=
  iterate tit_ne tit_next (mv_end x)
    (fun p acc => t <- tit_deref (terms x) p;; l <- visit_mons x p;; Ok (acc ++ [(t, l)])) fuel mv_begin [].

(** for (auto& mon : it) mon.q = f(mon.q), algebra.hpp:973-976, 993-996, 1087-1090: the monomials are
    written while they are visited *)
Definition visit_upd (f : rat -> res rat) (ts : list term) (it : tit) (ms : list mon) : res (list mon) :=
  b <- tit_begin ms ts it;;
  iterate mit_ne mit_next (tit_end ms ts it)
    (fun p cur => m <- mit_deref cur p;; q <- f (mq m);; set cur (mit_mon p) (mkmon q (mdeg m) (mcount m) (ioff m))) fuel b ms.
(** detail::negate, algebra.hpp:968-979 *)
Definition p_negate (x : mv) : res mv :=
  ms <- iterate tit_ne tit_next (mv_end x) (fun p cur => visit_upd rneg (terms x) p cur) fuel mv_begin (mons x);;
  Ok (with_mons x ms).
(** detail::reverse, algebra.hpp:1073-1094; the early continue of algebra.hpp:1078-1081 *)
Definition p_reverse (x : mv) : res mv :=
  ms <- iterate tit_ne tit_next (mv_end x)
    (fun p cur =>
      t <- tit_deref (terms x) p;;
      if (elem t =? 0)%N then Ok cur
      else let grade := pop_count (elem t) in
           let parity := (grade * (grade - 1) / 2)%N in
           if (parity mod 2 =? 1)%N then visit_upd rneg (terms x) p cur else Ok cur) fuel mv_begin (mons x);;
  Ok (with_mons x ms).
(** detail::divide by a constant, algebra.hpp:987-1000 *)
Definition p_divide_constant (md : mode) (x : mv) (m : mon) (q : rat) : res mv :=
  ms <- iterate tit_ne tit_next (mv_end x)
    (fun p cur => visit_upd (fun c => a <- rmul md q c;; rdiv md a (mq m)) (terms x) p cur) fuel mv_begin (mons x);;
  Ok (with_mons x ms).
(** mv::extent, algebra.hpp:694-717: the largest counts *)
Definition p_extent (x : mv) : res (nat * nat * nat) :=
  ' (i, m) <- iterate tit_ne tit_next (mv_end x)
    (fun p s =>
      t <- tit_deref (terms x) p;;
      let s1 := if snd s <? tcount t then (fst s, tcount t) else s in
      b <- tit_begin (mons x) (terms x) p;;
      iterate mit_ne mit_next (tit_end (mons x) (terms x) p)
        (fun pm s => m <- mit_deref (mons x) pm;; Ok (if fst s <? mcount m then (mcount m, snd s) else s)) fuel b s1) fuel mv_begin (0, 0);;
  Ok (i, m, tsz x).
End Loops.

(** *out++ = x for every x of a list, through a pointer into an array, e.g. algebra.hpp:785-788 *)
Fixpoint store {A} (l : list A) (p : nat) (arr : list A) : res (nat * list A) :=
  match l with
  | [] => Ok (p, arr)
  | x :: l' => arr' <- set arr p x;; store l' (S p) arr'
  end.

(** ** detail::sum, algebra.hpp:742-952, with pointers into the operands and into the result *)

(** out_ind_it, out_mon_it, out_term_it and the arrays they point into, algebra.hpp:748, 754-756 *)
Record po := mkpo { pi : nat; pm : nat; pt : nat; ai : list ind; am : list mon; at_ : list term }.
(** *out_ind_it++ = x, e.g. algebra.hpp:787 *)
Definition p_ind (o : po) (x : ind) : res po :=
  a <- set (ai o) (pi o) x;; Ok (mkpo (S (pi o)) (pm o) (pt o) a (am o) (at_ o)).
(** *out_mon_it = m; ++out_mon_it, e.g. algebra.hpp:781-783; the assignments to members of the cell
    are part of [m] *)
Definition p_mon (o : po) (m : mon) : res po :=
  a <- set (am o) (pm o) m;; Ok (mkpo (pi o) (S (pm o)) (pt o) (ai o) a (at_ o)).
(** *out_term_it = t; ++out_term_it, e.g. algebra.hpp:775-777 *)
Definition p_term (o : po) (t : term) : res po :=
  a <- set (at_ o) (pt o) t;; Ok (mkpo (pi o) (pm o) (S (pt o)) (ai o) (am o) a).
(** mv out{} and the iterators, algebra.hpp:748, 754-756 *)
Definition p_new (c : caps) : po := mkpo 0 0 0 (repeat ind0 (ci c)) (repeat mon0 (cm c)) (repeat term0 (ct c)).
(** out.size = ...; return out, algebra.hpp:763-766, 791-794: differences of pointers *)
Definition p_return (o : po) : mv := mkmv (pi o) (pm o) (pt o) (ai o) (am o) (at_ o) mop_id.

Section Sum.
Variable md : mode.
Variable fuel : nat.
(** for (i_it = it.cbegin(); i_it != it.cend(); ++i_it) *out_ind_it++ = *i_it, e.g. algebra.hpp:785-788 *)
Definition p_copy_inds (x : mv) (it : mit) (o : po) : res po :=
  b <- mit_begin (inds x) (mons x) it;;
  iterate ptr_ne S (mit_end (inds x) (mons x) it) (fun p o => i <- get (inds x) p;; p_ind o i) fuel b o.
(** *out_mon_it = *it; ...; copy the indeterminates, e.g. algebra.hpp:781-788 *)
Definition p_copy_mon (x : mv) (it : mit) (o : po) : res po :=
  m <- mit_deref (mons x) it;;
  o1 <- p_mon o (mkmon (mq m) (mdeg m) (mcount m) (pi o));;
  p_copy_inds x it o1.
(** for (; it != end; ++it), algebra.hpp:779-789, 814-823, 936-945 *)
Definition p_copy_mons (x : mv) (it : mit) (last : res mit) (o : po) : res po :=
  iterate mit_ne mit_next last (fun p o => p_copy_mon x p o) fuel it o.
(** one of the left-over terms, algebra.hpp:775-789 *)
Definition p_copy_term (x : mv) (it : tit) (o : po) : res po :=
  t <- tit_deref (terms x) it;;
  o1 <- p_term o (mkterm (tcount t) (pm o) (elem t));;
  b <- tit_begin (mons x) (terms x) it;;
  p_copy_mons x b (tit_end (mons x) (terms x) it) o1.
(** the left-over terms, algebra.hpp:773-790 *)
Definition p_copy_terms (x : mv) (it last : tit) (o : po) : res po :=
  iterate tit_ne tit_next (Ok last) (fun p o => p_copy_term x p o) fuel it o.
(** a term of one operand only, algebra.hpp:932-949 *)
Definition p_copy_term_after (x : mv) (it : tit) (o : po) : res po :=
  b <- tit_begin (mons x) (terms x) it;;
  o1 <- p_copy_mons x b (tit_end (mons x) (terms x) it) o;;
  t <- tit_deref (terms x) it;;
  p_term o1 (mkterm (tcount t) (pm o) (elem t)).
(** the innermost while (true), algebra.hpp:849-914: which block it executes before it ends *)
Fixpoint p_lex (n : nat) (lis ris : list ind) (l le r re : nat) : res side :=
  match n with
  | O => Err IllFormed
  | S n' =>
    if (l =? le) && (r =? re) then Ok Same
    else if (l =? le) || (r =? re) then Ok (if l =? le then TakeL else TakeR)
    else
      a <- get lis l;; b <- get ris r;;
      e <- ind_eq a b;;
      if (e : bool) then p_lex n' lis ris (S l) le (S r) re
      else lt <- ind_lt a b;; Ok (if (lt : bool) then TakeL else TakeR)
  end.
(** the graded lexicographic comparison, algebra.hpp:828-914: which block is executed *)
Definition p_side (x y : mv) (l r : mit) : res side :=
  a <- mit_deref (mons x) l;; b <- mit_deref (mons y) r;;
  if rne (mdeg a) (mdeg b) then lt <- rlt (mdeg a) (mdeg b);; Ok (if (lt : bool) then TakeL else TakeR)
  else
    lb <- mit_begin (inds x) (mons x) l;; le <- mit_end (inds x) (mons x) l;;
    rb <- mit_begin (inds y) (mons y) r;; re <- mit_end (inds y) (mons y) r;;
    p_lex fuel (inds x) (inds y) lb le rb re.
(** the inner while (true), algebra.hpp:804-917 *)
Fixpoint p_sum_mons (n : nat) (x y : mv) (l le r re : mit) (o : po) : res po :=
  match n with
  | O => Err IllFormed
  | S n' =>
    if mit_eq l le && mit_eq r re then Ok o
    else if mit_eq l le || mit_eq r re then
      if mit_eq l le then p_copy_mons y r (Ok re) o else p_copy_mons x l (Ok le) o
    else
      s <- p_side x y l r;;
      match s with
      | TakeL => o' <- p_copy_mon x l o;; p_sum_mons n' x y (mit_next l) le r re o'
      | TakeR => o' <- p_copy_mon y r o;; p_sum_mons n' x y l le (mit_next r) re o'
      | Same =>
        a <- mit_deref (mons x) l;; b <- mit_deref (mons y) r;;
        q <- radd md (mq a) (mq b);;
        o' <- (if is_zero q then Ok o
               else o1 <- p_mon o (mkmon q (mdeg a) (mcount a) (pi o));; p_copy_inds x l o1);;
        p_sum_mons n' x y (mit_next l) le (mit_next r) re o'
      end
  end.
(** the outer while (true), algebra.hpp:758-951 *)
Fixpoint p_sum_terms (n : nat) (x y : mv) (l le r re : tit) (o : po) : res po :=
  match n with
  | O => Err IllFormed
  | S n' =>
    if tit_eq l le && tit_eq r re then Ok o
    else if tit_eq l le || tit_eq r re then
      if tit_eq l le then p_copy_terms y r re o else p_copy_terms x l le o
    else
      a <- tit_deref (terms x) l;; b <- tit_deref (terms y) r;;
      if (elem b =? elem a)%N then
        lb <- tit_begin (mons x) (terms x) l;; lm <- tit_end (mons x) (terms x) l;;
        rb <- tit_begin (mons y) (terms y) r;; rm <- tit_end (mons y) (terms y) r;;
        o1 <- p_sum_mons fuel x y lb lm rb rm o;;
        o2 <- (if pm o1 - pm o =? 0 then Ok o1
               else p_term o1 (mkterm (pm o1 - pm o) (pm o) (elem a)));;
        p_sum_terms n' x y (tit_next l) le (tit_next r) re o2
      else if (elem a <? elem b)%N then
        o' <- p_copy_term_after x l o;; p_sum_terms n' x y (tit_next l) le r re o'
      else
        o' <- p_copy_term_after y r o;; p_sum_terms n' x y l le (tit_next r) re o'
  end.
(** detail::sum, algebra.hpp:742-952 *)
Definition p_sum (x y : mv) : res mv :=
  let c := mkcaps (length (inds x) + length (inds y)) (length (mons x) + length (mons y)) (length (terms x) + length (terms y)) in
  le <- mv_end x;; re <- mv_end y;;
  o <- p_sum_terms fuel x y mv_begin le mv_begin re (p_new c);;
  Ok (p_return o).
End Sum.
