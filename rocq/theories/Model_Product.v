(** Model of detail::collate, detail::poincare_dual and detail::product, public/gal/algebra.hpp,
    and of the null basis conversions, public/gal/null_algebra.hpp. *)
From Coq Require Import ZArith NArith List Bool Arith.
From Verif Require Import Base Model_Numeric Model_Blade Model_Sort Model_MV.
Import ListNotations.
Local Open Scope nat_scope.

Section Mode.
Variable md : mode.

(** ** collate, algebra.hpp:1119-1217 *)

(** the comparator lambda, algebra.hpp:1156-1159: both monomials with their indeterminates *)
Definition mon_less (is : list ind) (a b : mon) : res bool :=
  va <- read_mon is a;; vb <- read_mon is b;; mon_lt va vb.

(** copy the raw monomials of one term to the output buffer at [pos], algebra.hpp:1141-1146 *)
Fixpoint copy_raw (l : list mon) (buf : list mon) (pos : nat) : res (list mon * nat) :=
  match l with
  | [] => Ok (buf, pos)
  | m :: l' => buf' <- set buf pos m;; copy_raw l' buf' (S pos)
  end.

(** the loop over terms of the same element, algebra.hpp:1136-1153; returns the remaining terms *)
Fixpoint gather (ms : list mon) (e : N) (ts : list term) (buf : list mon) (pos : nat)
  : res (list term * list mon * nat) :=
  match ts with
  | [] => Ok ([], buf, pos)
  | t :: ts' =>
    if (elem t =? e)%N then
      l <- slice ms (moff t) (tcount t);;
      ' (buf', pos') <- copy_raw l buf pos;;
      gather ms e ts' buf' pos'
    else Ok (ts, buf, pos)
  end.

(** the loop over equal monomials, algebra.hpp:1169-1181; [n] cells remain from [next] on.
    Returns the summed coefficient and the new [next]. *)
Fixpoint run_equal (is : list ind) (cur : vmon) (buf : list mon) (n next : nat) (q : rat)
  : res (rat * nat) :=
  match n with
  | O => Ok (q, next)
  | S n' =>
    x <- get buf next;;
    v <- read_mon is x;;
    if mon_eq cur v then q' <- radd md q (mq x);; run_equal is cur buf n' (S next) q'
    else Ok (q, next)
  end.

(** copying the indeterminates of one monomial to the output, algebra.hpp:1192-1197 *)
Fixpoint put_list (cap : nat) (out : list ind) (l : list ind) : res (list ind) :=
  match l with [] => Ok out | x :: l' => out' <- app1 cap out x;; put_list cap out' l' end.

(** the loop merging the sorted monomials in place, algebra.hpp:1164-1201. [it] reads, [writer]
    writes the same buffer; [stop] is out_mons_it. Returns buffer, writer, output indeterminates. *)
Fixpoint merge_mons (fuel : nat) (capi : nat) (is : list ind) (buf : list mon) (it stop writer : nat)
  (oi : list ind) : res (list mon * nat * list ind) :=
  match fuel with
  | O => Err IllFormed
  | S fu =>
    if it <? stop then
      m <- get buf it;;
      cur <- read_mon is m;;
      ' (q, next) <- run_equal is cur buf (stop - S it) (S it) (mq m);;
      if is_zero q then merge_mons fu capi is buf next stop writer oi
      else
        buf' <- set buf writer (mkmon q (mdeg m) (mcount m) (length oi));;
        (* the loop bound re-reads mon_it->count after the write, algebra.hpp:1193 *)
        m' <- get buf' it;;
        l <- slice is (ioff (fst cur)) (mcount m');;
        oi' <- put_list capi oi l;;
        merge_mons fu capi is buf' next stop (S writer) oi'
    else Ok (buf, writer, oi)
  end.

(** the outer loop, algebra.hpp:1132-1212 *)
Fixpoint collate_loop (fuel : nat) (c : caps) (ms : list mon) (is : list ind) (ts : list term)
  (buf : list mon) (pos : nat) (oi : list ind) (ot : list term)
  : res (list mon * nat * list ind * list term) :=
  match fuel with
  | O => Err IllFormed
  | S fu =>
    match ts with
    | [] => Ok (buf, pos, oi, ot)
    | t :: _ =>
      ' (rest, buf1, stop) <- gather ms (elem t) ts buf pos;;
      buf2 <- sort_range (mon_less is) buf1 pos stop;;
      ' (buf3, writer, oi') <- merge_mons (S (stop - pos)) (ci c) is buf2 pos stop pos oi;;
      let n := writer - pos in
      ot' <- (if 0 <? n then app1 (ct c) ot (mkterm n pos (elem t)) else Ok ot);;
      collate_loop fu c ms is rest buf3 writer oi' ot'
    end
  end.

(** detail::collate, algebra.hpp:1119-1217, writing a value-initialised multivector with
    capacities [c] (algebra.hpp:1256, 1389); [ts], [ms], [is] are the input terms, monomials
    and indeterminates. *)
Definition collate (c : caps) (ts : list term) (ms : list mon) (is : list ind) : res mv :=
  ' (buf, pos, oi, ot) <- collate_loop (S (length ts)) c ms is ts (repeat mon0 (cm c)) 0 [] [];;
  Ok (mkmv (length oi) pos (length ot)
        (fill (ci c) ind0 oi) buf (fill (ct c) term0 ot) mop_id).

(** ** poincare_dual, algebra.hpp:1219-1266 *)

(** one monomial, algebra.hpp:1237-1244 *)
Definition dual_mon (c : caps) (parity : Z) (w : wr) (v : vmon) : res wr :=
  let m := fst v in
  q <- rscale_int parity (mq m);;
  w1 <- put_mon c w (mkmon q (mdeg m) (mcount m) (length (wi w)));;
  put_inds c w1 (snd v).
(** the loop over the monomials, algebra.hpp:1236-1245 *)
Fixpoint dual_mons (c : caps) (parity : Z) (w : wr) (vs : list vmon) : res wr :=
  match vs with [] => Ok w | v :: vs' => w' <- dual_mon c parity w v;; dual_mons c parity w' vs' end.
(** the first loop, algebra.hpp:1231-1246 *)
Fixpoint dual_terms (c : caps) (dim : N) (w : wr) (vs : list vterm) : res wr :=
  match vs with
  | [] => Ok w
  | v :: vs' =>
    let '(g, parity) := poincare_complement (elem (fst v)) dim in
    w1 <- put_term c w (mkterm (tcount (fst v)) (length (wm w)) g);;
    w2 <- dual_mons c parity w1 (snd v);;
    dual_terms c dim w2 vs'
  end.
(** detail::poincare_dual, algebra.hpp:1219-1266. out.size = in.size (line 1224), so the sizes of
    the input determine the ranges that are sorted and collated. *)
Definition poincare_dual (dim : N) (x : mv) : res mv :=
  let c := caps_of x in
  l <- read x;;
  w <- dual_terms c dim wr0 l;;
  let out := finish c w in
  ms <- slice (mons out) 0 (msz x);;
  ts <- sort_range (fun a b => Ok (term_lt a b)) (terms out) 0 (tsz x);;
  ts' <- slice ts 0 (tsz x);;
  collate c ts' ms (inds out).

(** ** product, algebra.hpp:1268-1399 *)

(** the loop over left-over indeterminates, algebra.hpp:1331-1335 *)
Fixpoint rest_inds (c : caps) (w : wr) (deg : rat) (l : list ind) : res (wr * rat) :=
  match l with
  | [] => Ok (w, deg)
  | x :: l' => deg' <- radd_assign deg (ideg x);; w' <- put_ind c w x;; rest_inds c w' deg' l'
  end.
(** the merge of the indeterminates of two monomials, algebra.hpp:1313-1367 *)
Fixpoint merge_inds (c : caps) (ls : list ind) : list ind -> wr -> rat -> res (wr * rat) :=
  fix go (rs : list ind) (w : wr) (deg : rat) : res (wr * rat) :=
    match ls, rs with
    | [], [] => Ok (w, deg)
    | [], _ => rest_inds c w deg rs
    | _, [] => rest_inds c w deg ls
    | l :: ls', r :: rs' =>
      if (id l =? id r)%N then
        nd <- radd md (ideg l) (ideg r);;
        deg' <- radd_assign deg nd;;
        w' <- (if rne_int nd 0 then put_ind c w (mkind (id l) nd) else Ok w);;
        merge_inds c ls' rs' w' deg'
      else if (id l <? id r)%N then
        w' <- put_ind c w l;; deg' <- radd_assign deg (ideg l);; merge_inds c ls' rs w' deg'
      else
        w' <- put_ind c w r;; deg' <- radd_assign deg (ideg r);; go rs' w' deg'
    end.

(** the product of two monomials, algebra.hpp:1312-1374 *)
Definition prod_mon (c : caps) (mult : Z) (w : wr) (l r : vmon) : res wr :=
  let off := length (wi w) in
  ' (w1, deg) <- merge_inds c (snd l) (snd r) w zero;;
  a <- rscale_int mult (mq (fst l));;
  q <- rmul md a (mq (fst r));;
  put_mon c w1 (mkmon q deg (length (wi w1) - off) off).
(** the inner loop over the right monomials, algebra.hpp:1310-1375 *)
Fixpoint prod_mon_row (c : caps) (mult : Z) (w : wr) (l : vmon) (rs : list vmon) : res wr :=
  match rs with [] => Ok w | r :: rs' => w' <- prod_mon c mult w l r;; prod_mon_row c mult w' l rs' end.
(** the two loops over monomials, algebra.hpp:1308-1376 *)
Fixpoint prod_mons (c : caps) (mult : Z) (w : wr) (ls rs : list vmon) : res wr :=
  match ls with [] => Ok w | l :: ls' => w' <- prod_mon_row c mult w l rs;; prod_mons c mult w' ls' rs end.
(** one pair of terms, algebra.hpp:1300-1381 *)
Definition prod_term (P : N -> N -> N * Z) (c : caps) (w : wr) (l r : vterm) : res wr :=
  let '(e, mult) := P (elem (fst l)) (elem (fst r)) in
  if (mult =? 0)%Z then Ok w
  else
    w1 <- prod_mons c mult w (snd l) (snd r);;
    put_term c w1 (mkterm (length (wm w1) - length (wm w)) (length (wm w)) e).
(** the inner loop over the right terms, algebra.hpp:1298-1382 *)
Fixpoint prod_term_row (P : N -> N -> N * Z) (c : caps) (w : wr) (l : vterm) (rs : list vterm) : res wr :=
  match rs with [] => Ok w | r :: rs' => w' <- prod_term P c w l r;; prod_term_row P c w' l rs' end.
(** the two loops over terms, algebra.hpp:1296-1383 *)
Fixpoint prod_terms (P : N -> N -> N * Z) (c : caps) (w : wr) (ls rs : list vterm) : res wr :=
  match ls with [] => Ok w | l :: ls' => w' <- prod_term_row P c w l rs;; prod_terms P c w' ls' rs end.

(** capacities of a product, algebra.hpp:1279-1281 *)
Definition prod_caps (x y : mv) : caps :=
  mkcaps (length (mons x) * length (inds y) + length (mons y) * length (inds x))
         (length (mons x) * length (mons y)) (length (terms x) * length (terms y)).

(** detail::product, algebra.hpp:1272-1399; [P] is the product of basis elements *)
Definition product (P : N -> N -> N * Z) (x y : mv) : res mv :=
  let c := prod_caps x y in
  l <- read x;; r <- read y;;
  w <- prod_terms P c wr0 l r;;
  ts <- sort_range (fun a b => Ok (term_lt a b)) (wt w) 0 (length (wt w));;
  collate c ts (wm w) (wi w).

(** ** Null basis, null_algebra.hpp:22-147 *)

(** the destinations of one term: to [lhs] unchanged, or two scaled copies to [temp],
    null_algebra.hpp:34-61, 99-123 *)
Inductive dest := Keep | Split (q1 : rat) (e1 : N) (q2 : rat) (e2 : N).

(** branches of to_null_basis, null_algebra.hpp:36-60 *)
Definition null_dest (dim : N) (e : N) : dest :=
  let ep := (2 ^ (dim - 2))%N in
  let en := (2 ^ (dim - 1))%N in
  let enp := N.lxor ep en in
  if negb (N.land e enp =? 0)%N then
    if negb (N.land e en =? 0)%N && negb (N.land e ep =? 0)%N then Keep
    else if negb (N.land e ep =? 0)%N then Split one e minus_one_half (N.lxor e enp)
    else Split one (N.lxor e enp) one_half e
  else Keep.
(** branches of to_natural_basis, null_algebra.hpp:99-123 *)
Definition natural_dest (dim : N) (e : N) : dest :=
  let no := (2 ^ (dim - 2))%N in
  let ni := (2 ^ (dim - 1))%N in
  let noi := N.lxor no ni in
  if negb (N.land e noi =? 0)%N then
    if negb (N.land e no =? 0)%N && negb (N.land e ni =? 0)%N then Keep
    else if negb (N.land e no =? 0)%N then Split one_half e one_half (N.lxor e noi)
    else Split minus_one (N.lxor e noi) one e
  else Keep.

(** the loop distributing the terms, null_algebra.hpp:34-61 / 97-124 *)
Fixpoint distribute (d : N -> dest) (c c2 : caps) (vs : list vterm) (lhs temp : wr) : res (wr * wr) :=
  match vs with
  | [] => Ok (lhs, temp)
  | v :: vs' =>
    match d (elem (fst v)) with
    | Keep => lhs' <- push md c lhs v one (elem (fst v));; distribute d c c2 vs' lhs' temp
    | Split q1 e1 q2 e2 =>
      t1 <- push md c2 temp v q1 e1;; t2 <- push md c2 t1 v q2 e2;; distribute d c c2 vs' lhs t2
    end
  end.

(** the common body of to_null_basis and to_natural_basis, null_algebra.hpp:25-82 / 88-145 *)
Definition change_basis (d : N -> dest) (x : mv) : res mv :=
  let c := caps_of x in
  let c2 := mkcaps (2 * ci c) (2 * cm c) (2 * ct c) in
  l <- read x;;
  ' (lhs, temp) <- distribute d c c2 l wr0 wr0;;
  ts <- sort_range (fun a b => Ok (term_lt a b)) (wt temp) 0 (length (wt temp));;
  rhs <- collate c2 ts (wm temp) (wi temp);;
  sum md (finish c lhs) rhs.
(** to_null_basis, null_algebra.hpp:22-83 *)
Definition to_null_basis (dim : N) (x : mv) : res mv := change_basis (null_dest dim) x.
(** to_natural_basis, null_algebra.hpp:85-147 *)
Definition to_natural_basis (dim : N) (x : mv) : res mv := change_basis (natural_dest dim) x.

End Mode.
