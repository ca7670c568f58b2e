(** Model of the multivectors over indeterminates, public/gal/algebra.hpp: data layout, iteration,
    comparison, sum and the coefficient-wise operations. The products are in Model_Product.v.

    Representation. std::array<T, C> is a list of length C, so capacities are list lengths;
    every read and write is bounds checked. width_t (uint_fast32_t) counters are [nat]: no
    wrap-around is modelled. Iterating over a term or monomial reads the slice of the array it
    refers to; the slice is read as a whole when the iteration starts. *)
From Coq Require Import ZArith NArith List Bool Arith.
From Verif Require Import Base Model_Numeric Model_Blade.
Import ListNotations.
Local Open Scope nat_scope.

(** ** Data, algebra.hpp:37-41, 69-75, 149-154, 181-186, 442-449, 472-496 *)

(** struct ind, algebra.hpp:37-41 *)
Record ind := mkind { id : N; ideg : rat }.
(** struct mon, algebra.hpp:69-75 *)
Record mon := mkmon { mq : rat; mdeg : rat; mcount : nat; ioff : nat }.
(** struct term, algebra.hpp:149-154 *)
Record term := mkterm { tcount : nat; moff : nat; elem : N }.
(** enum mv_op, algebra.hpp:442-449 *)
Inductive mv_op := mop_id | mop_sin | mop_cos | mop_tan | mop_sqrt.
(** struct mv, algebra.hpp:472-496; [isz], [msz], [tsz] are the mv_size fields, algebra.hpp:181-186 *)
Record mv := mkmv { isz : nat; msz : nat; tsz : nat;
                    inds : list ind; mons : list mon; terms : list term; mop : mv_op }.

(** value initialisation of the structs (default member initialisers, algebra.hpp:39-40, 71-74,
    151-153 and numeric.hpp:173-174) *)
Definition ind0 := mkind 4294967295 zero.
(** as above, algebra.hpp:71-74 *)
Definition mon0 := mkmon zero zero 0 0.
(** as above, algebra.hpp:151-153 *)
Definition term0 := mkterm 0 0 0.

(** ** Comparisons *)

(** operator==(ind, ind), algebra.hpp:45-48 *)
Definition ind_eq (a b : ind) : res bool :=
  if (id a =? id b)%N then req (ideg a) (ideg b) else Ok false.
(** operator!=(ind, ind), algebra.hpp:50-53 *)
Definition ind_ne (a b : ind) : bool := negb (id a =? id b)%N || rne (ideg a) (ideg b).
(** operator<(ind, ind), algebra.hpp:55-58 *)
Definition ind_lt (a b : ind) : res bool :=
  if (id a <? id b)%N then Ok true
  else if (id a =? id b)%N then rlt (ideg a) (ideg b) else Ok false.
(** operator<(term, term), algebra.hpp:156-159 *)
Definition term_lt (a b : term) : bool := (elem a <? elem b)%N.

(** struct mon_view, algebra.hpp:78-82: a monomial with its indeterminates *)
Definition vmon := (mon * list ind)%type.
(** a term with the monomials it ranges over, as delivered by (const_)term_it,
    algebra.hpp:252-314, 376-434 *)
Definition vterm := (term * list vmon)%type.

(** the loop of operator==(mon_view, mon_view), algebra.hpp:92-102; the counts are equal *)
Fixpoint inds_same (l r : list ind) : bool :=
  match l, r with
  | a :: l', b :: r' => if ind_ne a b then false else inds_same l' r'
  | _, _ => true
  end.
(** operator==(mon_view, mon_view), algebra.hpp:84-104 *)
Definition mon_eq (l r : vmon) : bool :=
  if rne (mdeg (fst l)) (mdeg (fst r)) || negb (mcount (fst l) =? mcount (fst r)) then false
  else inds_same (snd l) (snd r).

(** the loop of operator<(mon_view, mon_view), algebra.hpp:118-131; [None]: no difference found *)
Fixpoint inds_lex (l r : list ind) : res (option bool) :=
  match l, r with
  | a :: l', b :: r' =>
    ab <- ind_lt a b;;
    if (ab : bool) then Ok (Some true)
    else ba <- ind_lt b a;; if (ba : bool) then Ok (Some false) else inds_lex l' r'
  | _, _ => Ok None
  end.
(** operator<(mon_view, mon_view), algebra.hpp:106-147 *)
Definition mon_lt (l r : vmon) : res bool :=
  lo <- rlt (mdeg (fst l)) (mdeg (fst r));;
  if (lo : bool) then Ok true
  else
    hi <- rgt (mdeg (fst l)) (mdeg (fst r));;
    if (hi : bool) then Ok false
    else
      c <- inds_lex (snd l) (snd r);;
      match c with
      | Some b => Ok b
      | None =>
        if mcount (fst l) =? mcount (fst r) then Ok false
        else Ok (Nat.min (mcount (fst l)) (mcount (fst r)) =? mcount (fst l))
      end.

(** ** Reading: cbegin/cend of mv, terms and monomials, algebra.hpp:305-313, 425-433, 719-732 *)

(** const_mon_it::cbegin .. cend, algebra.hpp:305-313 *)
Definition read_mon (is : list ind) (m : mon) : res vmon :=
  l <- slice is (ioff m) (mcount m);; Ok (m, l).
(** const_term_it::cbegin .. cend, algebra.hpp:425-433 *)
Definition read_term (is : list ind) (ms : list mon) (t : term) : res vterm :=
  l <- slice ms (moff t) (tcount t);;
  vs <- mapM (read_mon is) l;;
  Ok (t, vs).
(** mv::cbegin .. cend, algebra.hpp:719-732 *)
Definition read (x : mv) : res (list vterm) :=
  ts <- slice (terms x) 0 (tsz x);;
  mapM (read_term (inds x) (mons x)) ts.

(** ** Writing through output iterators: *it++ = v *)

(** capacities I, M, T of the destination, algebra.hpp:472-496 *)
Record caps := mkcaps { ci : nat; cm : nat; ct : nat }.
(** what has been written so far through out_ind_it, out_mon_it, out_term_it (algebra.hpp:754-756) *)
Record wr := mkwr { wi : list ind; wm : list mon; wt : list term }.
(** the iterators at the beginning of a fresh result, algebra.hpp:754-756 *)
Definition wr0 := mkwr [] [] [].

(** *it++ = x with a bounds check, e.g. algebra.hpp:787 *)
Definition app1 {A} (cap : nat) (l : list A) (x : A) : res (list A) :=
  if length l <? cap then Ok (l ++ [x]) else Err OutOfBounds.
(** *out_ind_it++ = x, e.g. algebra.hpp:787 *)
Definition put_ind (c : caps) (w : wr) (x : ind) : res wr :=
  l <- app1 (ci c) (wi w) x;; Ok (mkwr l (wm w) (wt w)).
(** *out_mon_it++ = m, e.g. algebra.hpp:781-783 *)
Definition put_mon (c : caps) (w : wr) (m : mon) : res wr :=
  l <- app1 (cm c) (wm w) m;; Ok (mkwr (wi w) l (wt w)).
(** *out_term_it++ = t, e.g. algebra.hpp:775-777 *)
Definition put_term (c : caps) (w : wr) (t : term) : res wr :=
  l <- app1 (ct c) (wt w) t;; Ok (mkwr (wi w) (wm w) l).
(** the loop copying indeterminates, e.g. algebra.hpp:785-788 *)
Fixpoint put_inds (c : caps) (w : wr) (l : list ind) : res wr :=
  match l with [] => Ok w | x :: l' => w' <- put_ind c w x;; put_inds c w' l' end.

(** The block "*out_mon_it = *it; out_mon_it->ind_offset = ...; ++out_mon_it; copy the
    indeterminates", algebra.hpp:781-788, 816-822, 833-839, 880-887, 903-909, 938-944, 595-601. *)
Definition copy_mon (c : caps) (w : wr) (v : vmon) : res wr :=
  let m := fst v in
  w1 <- put_mon c w (mkmon (mq m) (mdeg m) (mcount m) (length (wi w)));;
  put_inds c w1 (snd v).
(** the loop over the monomials of a term, algebra.hpp:779-789, 593-602 *)
Fixpoint copy_mons (c : caps) (w : wr) (vs : list vmon) : res wr :=
  match vs with [] => Ok w | v :: vs' => w' <- copy_mon c w v;; copy_mons c w' vs' end.

(** The block "*out_term_it = *it; out_term_it->mon_offset = ...; ++out_term_it; copy the
    monomials", algebra.hpp:775-789, 590-602. *)
Definition copy_term (c : caps) (w : wr) (v : vterm) : res wr :=
  let t := fst v in
  w1 <- put_term c w (mkterm (tcount t) (length (wm w)) (elem t));;
  copy_mons c w1 (snd v).
(** the loop over the left-over terms, algebra.hpp:768-790 *)
Fixpoint copy_terms (c : caps) (w : wr) (vs : list vterm) : res wr :=
  match vs with [] => Ok w | v :: vs' => w' <- copy_term c w v;; copy_terms c w' vs' end.

(** pad to the capacity: the cells never written keep their initial value, e.g. algebra.hpp:742-756 *)
Definition fill {A} (cap : nat) (d : A) (l : list A) : list A := l ++ repeat d (cap - length l).
(** out.size = {...}; return out, e.g. algebra.hpp:763-766 *)
Definition finish (c : caps) (w : wr) : mv :=
  mkmv (length (wi w)) (length (wm w)) (length (wt w))
       (fill (ci c) ind0 (wi w)) (fill (cm c) mon0 (wm w)) (fill (ct c) term0 (wt w)) mop_id.

(** capacities of an operand, algebra.hpp:472-496 *)
Definition caps_of (x : mv) : caps := mkcaps (length (inds x)) (length (mons x)) (length (terms x)).

Section Mode.
Variable md : mode.

(** ** sum, algebra.hpp:742-952 *)

(** outcome of comparing two monomials in the graded lexicographic comparison, algebra.hpp:804-917 *)
Inductive side := TakeL | TakeR | Same.

(** the lexicographic loop, algebra.hpp:845-914 *)
Fixpoint lex_side (l r : list ind) : res side :=
  match l, r with
  | [], [] => Ok Same
  | [], _ :: _ => Ok TakeL
  | _ :: _, [] => Ok TakeR
  | a :: l', b :: r' =>
    e <- ind_eq a b;;
    if (e : bool) then lex_side l' r'
    else lt <- ind_lt a b;; Ok (if (lt : bool) then TakeL else TakeR)
  end.
(** the comparison at algebra.hpp:828-844 *)
Definition mon_side (l r : vmon) : res side :=
  if rne (mdeg (fst l)) (mdeg (fst r)) then
    lt <- rlt (mdeg (fst l)) (mdeg (fst r));; Ok (if (lt : bool) then TakeL else TakeR)
  else lex_side (snd l) (snd r).

(** the inner while (true), algebra.hpp:804-917 *)
Fixpoint sum_mons (c : caps) (ls : list vmon) : list vmon -> wr -> res wr :=
  fix go (rs : list vmon) (w : wr) : res wr :=
    match ls, rs with
    | [], [] => Ok w
    | [], _ => copy_mons c w rs
    | _, [] => copy_mons c w ls
    | l :: ls', r :: rs' =>
      s <- mon_side l r;;
      match s with
      | TakeL => w' <- copy_mon c w l;; sum_mons c ls' rs w'
      | TakeR => w' <- copy_mon c w r;; go rs' w'
      | Same =>
        q <- radd md (mq (fst l)) (mq (fst r));;
        if is_zero q then sum_mons c ls' rs' w
        else
          let m := fst l in
          w1 <- put_mon c w (mkmon q (mdeg m) (mcount m) (length (wi w)));;
          w2 <- put_inds c w1 (snd l);;
          sum_mons c ls' rs' w2
      end
    end.

(** the term taken alone, algebra.hpp:932-949: monomials first, then the term *)
Definition copy_term_after (c : caps) (w : wr) (v : vterm) : res wr :=
  let t := fst v in
  w1 <- copy_mons c w (snd v);;
  put_term c w1 (mkterm (tcount t) (length (wm w)) (elem t)).

(** the outer while (true), algebra.hpp:758-951 *)
Fixpoint sum_terms (c : caps) (ls : list vterm) : list vterm -> wr -> res wr :=
  fix go (rs : list vterm) (w : wr) : res wr :=
    match ls, rs with
    | [], [] => Ok w
    | [], _ => copy_terms c w rs
    | _, [] => copy_terms c w ls
    | l :: ls', r :: rs' =>
      if (elem (fst r) =? elem (fst l))%N then
        w1 <- sum_mons c (snd l) (snd r) w;;
        let n := length (wm w1) - length (wm w) in
        w2 <- (if n =? 0 then Ok w1
               else put_term c w1 (mkterm n (length (wm w)) (elem (fst l))));;
        sum_terms c ls' rs' w2
      else if (elem (fst l) <? elem (fst r))%N then
        w' <- copy_term_after c w l;; sum_terms c ls' rs w'
      else
        w' <- copy_term_after c w r;; go rs' w'
    end.

(** detail::sum, algebra.hpp:742-952; the capacities of the result are the sums, 745-748 *)
Definition sum (x y : mv) : res mv :=
  let c := mkcaps (length (inds x) + length (inds y)) (length (mons x) + length (mons y))
                  (length (terms x) + length (terms y)) in
  l <- read x;; r <- read y;;
  w <- sum_terms c l r wr0;;
  Ok (finish c w).

(** ** Coefficient-wise operations *)

(** apply [f] to the coefficients of mons[i], i in [off, off + n), e.g. algebra.hpp:961-966, 971-977 *)
Fixpoint upd_q (f : rat -> res rat) (off n : nat) (ms : list mon) : res (list mon) :=
  match n with
  | O => Ok ms
  | S n' =>
    m <- get ms off;;
    q <- f (mq m);;
    ms' <- set ms off (mkmon q (mdeg m) (mcount m) (ioff m));;
    upd_q f (S off) n' ms'
  end.

(** the result of an operation that changes coefficients only, e.g. algebra.hpp:954-979 *)
Definition with_mons (x : mv) (ms : list mon) : mv :=
  mkmv (isz x) (msz x) (tsz x) (inds x) ms (terms x) (mop x).
(** set o, algebra.hpp:525 *)
Definition with_op (x : mv) (o : mv_op) : mv :=
  mkmv (isz x) (msz x) (tsz x) (inds x) (mons x) (terms x) o.

(** mv::scale, algebra.hpp:514-520; detail::scale, algebra.hpp:954-959 *)
Definition scale (q : rat) (x : mv) : res mv :=
  ms <- upd_q (fun p => rmul md q p) 0 (msz x) (mons x);; Ok (with_mons x ms).
(** mv::sin, cos, tan, sqrt, algebra.hpp:523-552 *)
Definition fn (o : mv_op) (q : rat) (x : mv) : res mv := scale q (with_op x o).

(** for (auto& mon : it) mon.q = f(mon.q) over a list of terms, algebra.hpp:971-977, 991-997 *)
Fixpoint upd_terms (f : term -> option (rat -> res rat)) (ts : list term) (ms : list mon) : res (list mon) :=
  match ts with
  | [] => Ok ms
  | t :: ts' =>
    ms' <- match f t with
           | Some g => upd_q g (moff t) (tcount t) ms
           | None => Ok ms
           end;;
    upd_terms f ts' ms'
  end.

(** detail::negate, algebra.hpp:968-979 *)
Definition negate (x : mv) : res mv :=
  ts <- slice (terms x) 0 (tsz x);;
  ms <- upd_terms (fun _ => Some rneg) ts (mons x);; Ok (with_mons x ms).

(** detail::reverse, algebra.hpp:1073-1094 *)
Definition reverse (x : mv) : res mv :=
  ts <- slice (terms x) 0 (tsz x);;
  ms <- upd_terms (fun t => if reverse_negates (elem t) then Some rneg else None) ts (mons x);;
  Ok (with_mons x ms).

(** the one-term multivectors built by shift (algebra.hpp:964) and e<A, G, N, D> (algebra.hpp:1439-1440) *)
Definition const_mv (g : N) (q : rat) : mv :=
  mkmv 0 1 1 [] [mkmon q zero 0 0] [mkterm 1 0 g] mop_id.
(** e<A, G, N, D>, algebra.hpp:1439-1440 *)
Definition basis (g : N) (n d : Z) : mv := const_mv g (mkrat n d).
(** detail::shift, algebra.hpp:961-966 *)
Definition shift (q : rat) (x : mv) : res mv := sum x (const_mv 0 q).

(** ** divide, algebra.hpp:982-1071 *)

(** the loop over the indeterminates of one monomial, algebra.hpp:1015-1049. State: written
    indeterminates, [canceled], [written]. *)
Fixpoint div_inds (c : caps) (d : ind) (l : list ind) (w : wr) (canceled written : bool)
  : res (wr * bool * bool) :=
  match l with
  | [] => Ok (w, canceled, written)
  | x :: l' =>
    if negb written then
      if (id d =? id x)%N then
        deg <- radd md (ideg d) (ideg x);;
        if negb (is_zero deg) then div_inds c d l' w true true
        else w' <- put_ind c w (mkind (id d) deg);; div_inds c d l' w' canceled true
      else if (id d <? id x)%N then
        w1 <- put_ind c w d;; w2 <- put_ind c w1 x;; div_inds c d l' w2 canceled true
      else w' <- put_ind c w x;; div_inds c d l' w' canceled written
    else w' <- put_ind c w x;; div_inds c d l' w' canceled written
  end.
(** one monomial, algebra.hpp:1014-1058; [mcount - 1] is an unsigned subtraction of a count that
    is at least 1 when [canceled] *)
Definition div_mon (c : caps) (d : ind) (rq : rat) (w : wr) (v : vmon) : res wr :=
  let off := length (wi w) in
  ' (w1, canceled, written) <- div_inds c d (snd v) w false false;;
  w2 <- (if negb written then put_ind c w1 d else Ok w1);;
  deg <- rsub md (mdeg (fst v)) (ideg d);;
  q <- rdiv md (mq (fst v)) rq;;
  put_mon c w2 (mkmon q deg (if (canceled : bool) then mcount (fst v) - 1 else mcount (fst v) + 1) off).
(** the loop over the monomials of a term, algebra.hpp:1012-1059 *)
Fixpoint div_mons (c : caps) (d : ind) (rq : rat) (w : wr) (vs : list vmon) : res wr :=
  match vs with [] => Ok w | v :: vs' => w' <- div_mon c d rq w v;; div_mons c d rq w' vs' end.
(** the outer loop, algebra.hpp:1010-1062: the term is copied with its old mon_offset *)
Fixpoint div_terms (c : caps) (d : ind) (rq : rat) (w : wr) (vs : list vterm) : res wr :=
  match vs with
  | [] => Ok w
  | v :: vs' =>
    w1 <- div_mons c d rq w (snd v);;
    w2 <- put_term c w1 (fst v);;
    div_terms c d rq w2 vs'
  end.
(** detail::divide, algebra.hpp:982-1071. I2, M2, T2 are the capacities of [y]; for I2 > 1 the
    function has no return value and its use does not compile. *)
Definition divide (x y : mv) (q : rat) : res mv :=
  if (length (mons y) =? 0) || (length (terms y) =? 0) then Err IllFormed
  else
    m <- get (mons y) 0;;
    match length (inds y) with
    | O =>
      ts <- slice (terms x) 0 (tsz x);;
      ms <- upd_terms (fun _ => Some (fun p => a <- rmul md q p;; rdiv md a (mq m))) ts (mons x);;
      Ok (with_mons x ms)
    | S O =>
      d0 <- get (inds y) 0;;
      nd <- rneg (ideg d0);;
      let d := mkind (id d0) nd in
      let c := mkcaps (length (inds x) + length (mons x)) (length (mons x)) (length (terms x)) in
      l <- read x;;
      w <- div_terms c d (mq m) wr0 l;;
      scale q (finish c w)
    | _ => Err IllFormed
    end.

(** ** push and the selections built on it *)

(** mv::push, algebra.hpp:613-636: appends at size.ind / size.mon / size.term. The monomial and
    term are written after the indeterminates. *)
Definition push_mon (c : caps) (s : rat) (w : wr) (v : vmon) : res wr :=
  let m := fst v in
  w1 <- put_inds c w (snd v);;
  q <- rmul md (mq m) s;;
  put_mon c w1 (mkmon q (mdeg m) (mcount m) (length (wi w))).
(** the loop over the monomials, algebra.hpp:619-631 *)
Fixpoint push_mons (c : caps) (s : rat) (w : wr) (vs : list vmon) : res wr :=
  match vs with [] => Ok w | v :: vs' => w' <- push_mon c s w v;; push_mons c s w' vs' end.
(** mv::push with the term written last, algebra.hpp:613-636 *)
Definition push (c : caps) (w : wr) (v : vterm) (s : rat) (e : N) : res wr :=
  w1 <- push_mons c s w (snd v);;
  put_term c w1 (mkterm (tcount (fst v)) (length (wm w)) e).

(** the loop of operator[], algebra.hpp:558-566 *)
Fixpoint find_push (c : caps) (e : N) (vs : list vterm) : res wr :=
  match vs with
  | [] => Ok wr0
  | v :: vs' => if (elem (fst v) =? e)%N then push c wr0 v one 0 else find_push c e vs'
  end.
(** mv::operator[], algebra.hpp:555-568; also detail::component, algebra.hpp:1401-1405 *)
Definition component (x : mv) (e : N) : res mv :=
  let c := mkcaps (length (inds x)) (length (mons x)) 1 in
  l <- read x;; w <- find_push c e l;; Ok (finish c w).

(** the loop of select_grade, algebra.hpp:577-604 *)
Fixpoint grade_loop (c : caps) (g : N) (w : wr) (vs : list vterm) : res wr :=
  match vs with
  | [] => Ok w
  | v :: vs' =>
    let k := pop_count (elem (fst v)) in
    if (g <? k)%N then Ok w
    else if (k <? g)%N then grade_loop c g w vs'
    else w' <- copy_term c w v;; grade_loop c g w' vs'
  end.
(** mv::select_grade, algebra.hpp:570-610 *)
Definition select_grade (x : mv) (g : N) : res mv :=
  l <- read x;; w <- grade_loop (caps_of x) g wr0 l;; Ok (finish (caps_of x) w).

(** the loop of extract, algebra.hpp:1415-1434 *)
Fixpoint extract_loop (c : caps) (es : list N) : list vterm -> wr -> res wr :=
  fix go (vs : list vterm) (w : wr) : res wr :=
    match es, vs with
    | [], _ => Ok w
    | _, [] => Ok w
    | e :: es', v :: vs' =>
      if (e <? elem (fst v))%N then extract_loop c es' vs w
      else if (elem (fst v) <? e)%N then go vs' w
      else w' <- push c w v one e;; go vs' w'
    end.
(** detail::extract, algebra.hpp:1407-1435 *)
Definition extract (x : mv) (es : list N) : res mv :=
  let c := mkcaps (length (inds x)) (length (mons x)) (length es) in
  l <- read x;; w <- extract_loop c es l wr0;; Ok (finish c w).

End Mode.

(** ** create_ref, resize, extent *)

(** mv::create_ref, algebra.hpp:501-512; T is the term capacity. id + i is a 32/64-bit sum, not
    wrapped here. *)
Definition create_ref (x : mv) (i0 : N) : mv :=
  let n := length (terms x) in
  mkmv n n n
    (map (fun i => mkind (i0 + N.of_nat i) one) (seq 0 n))
    (map (fun i => mkmon one one 1 i) (seq 0 n))
    (map (fun p => mkterm 1 (fst p) (elem (snd p))) (combine (seq 0 n) (terms x)))
    mop_id.

(** copying the first [n] cells into an array of capacity [cap], algebra.hpp:649-660 *)
Definition copy_cells {A} (d : A) (cap n : nat) (l : list A) : res (list A) :=
  s <- slice l 0 n;; if n <=? cap then Ok (fill cap d s) else Err OutOfBounds.
(** mv::resize<I2, M2, T2>, algebra.hpp:638-663 *)
Definition resize (x : mv) (c : caps) : res mv :=
  if (length (inds x) =? ci c) && (length (mons x) =? cm c) && (length (terms x) =? ct c) then Ok x
  else
    is <- copy_cells ind0 (ci c) (isz x) (inds x);;
    ms <- copy_cells mon0 (cm c) (msz x) (mons x);;
    ts <- copy_cells term0 (ct c) (tsz x) (terms x);;
    Ok (mkmv (isz x) (msz x) (tsz x) is ms ts mop_id).

(** mv::extent, algebra.hpp:694-717: (max indeterminates per monomial, max monomials per term,
    number of terms) *)
Definition extent (x : mv) : res (nat * nat * nat) :=
  l <- read x;;
  Ok (fold_left (fun a v => fold_left (fun a' m => Nat.max a' (mcount (fst m))) (snd v) a) l 0,
      fold_left (fun a v => Nat.max a (tcount (fst v))) l 0, tsz x).

(** struct dense_mv, algebra.hpp:436-440 *)
Definition dense := list (term * list (mon * list ind)).
(** copying into an array of capacity [cap] from index 0 on, algebra.hpp:672-689; cells that are
    not written are indeterminate in the code (out is not value initialised) and hold [d] here *)
Definition put_cells {A} (d : A) (cap : nat) (l : list A) : res (list A) :=
  if length l <=? cap then Ok (fill cap d l) else Err OutOfBounds.
(** mv::regularize<IndMax, MonMax, TermMax>, algebra.hpp:665-692, without callers in /repo *)
Definition regularize (x : mv) (c : caps) : res dense :=
  l <- read x;;
  ds <- mapM (fun v : vterm =>
          ms <- mapM (fun m : vmon => is <- put_cells ind0 (ci c) (snd m);; Ok (fst m, is)) (snd v);;
          ms' <- put_cells (mon0, repeat ind0 (ci c)) (cm c) ms;;
          Ok (fst v, ms')) l;;
  put_cells (term0, repeat (mon0, repeat ind0 (ci c)) (cm c)) (ct c) ds.
