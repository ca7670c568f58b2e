(** Model of public/gal/expr.hpp: expressions in reverse Polish notation and the operators that
    build them. *)
From Coq Require Import ZArith NArith List Bool.
From Verif Require Import Base Model_Numeric Model_Blade Model_Crc.
Import ListNotations.
Local Open Scope nat_scope.

(** enum op, expr.hpp:28-66 *)
Definition op_id : N := 0.
Definition op_cse : N := 1. (* expr.hpp:32 *)
Definition op_se : N := 2. (* expr.hpp:34 *)
Definition op_noop : N := 3. (* expr.hpp:36 *)
Definition op_rev : N := 4. (* expr.hpp:40 *)
Definition op_pd : N := 5. (* expr.hpp:41 *)
Definition op_sum : N := 6. (* expr.hpp:42 *)
Definition op_gp : N := 7. (* expr.hpp:43 *)
Definition op_ep : N := 8. (* expr.hpp:44 *)
Definition op_lc : N := 9. (* expr.hpp:45 *)
Definition op_sip : N := 10. (* expr.hpp:46 *)
Definition op_comp : N := 11. (* expr.hpp:47 *)
Definition op_div : N := 12. (* expr.hpp:48 *)
Definition op_grd : N := 13. (* expr.hpp:49 *)
Definition op_sqrt : N := 14. (* expr.hpp:52 *)
Definition op_sin : N := 15. (* expr.hpp:53 *)
Definition op_cos : N := 16. (* expr.hpp:54 *)
Definition op_tan : N := 17. (* expr.hpp:55 *)
Definition c_zero : N := 65536. (* expr.hpp:58 *)
Definition c_pi : N := 65537. (* expr.hpp:59-60; c_const_start is the same number *)
Definition c_e : N := 65538. (* expr.hpp:61 *)
Definition c_const_end : N := 65539. (* expr.hpp:62 *)
Definition c_scalar : N := 65540. (* expr.hpp:63 *)

(** struct node, expr.hpp:82-124. [nex] is unbounded here (width_t is a 64-bit count in the code). *)
Record node := mknode { no : N; ncs : N; nex : nat; nq : rat }.
(** the default of node::q, expr.hpp:113 *)
Definition q00 : rat := mkrat 0 0.
(** node::operator==, expr.hpp:115-118: the scale q is not compared *)
Definition node_eq (a b : node) : bool := ((no a =? no b) && (ncs a =? ncs b))%N && (nex a =? nex b).
(** comparison of two node ranges of the same length, expr.hpp:464-473, 561-569 and
    rpne::operator==, expr.hpp:257-274 *)
Fixpoint nodes_eq (l r : list node) : bool :=
  match l, r with
  | [], [] => true
  | a :: l', b :: r' => node_eq a b && nodes_eq l' r'
  | _, _ => false
  end.

(** struct rpne, expr.hpp:129-275: the first [count] nodes, the scale, the capacity S. *)
Record rpne := mkrpne { rnodes : list node; rq : rat; rcap : nat }.
(** a finished result: more nodes than the capacity are writes beyond the array, expr.hpp:137 *)
Definition rpne_of (cap : nat) (l : list node) (q : rat) : res rpne :=
  if length l <=? cap then Ok (mkrpne l q cap) else Err OutOfBounds.
(** the default constructed expression of capacity [cap], expr.hpp:137-140 *)
Definition rpne0 (cap : nat) : rpne := mkrpne [] one cap.
(** rpne::back, expr.hpp:247-255; on an empty expression it reads nodes[-1] *)
Definition back (l : list node) : res node :=
  match l with [] => Err OutOfBounds | _ => Ok (last l (mknode 0 0 0 q00)) end.
(** 32-bit wrap of crc_t, crc.hpp:10 *)
Definition wrap32 (x : N) : N := (x mod 4294967296)%N.
(** rpne::append(op), expr.hpp:237-240; the right side is evaluated before count++ *)
Definition append_op (o : N) (l : list node) : res (list node) :=
  b <- back l;; Ok (l ++ [mknode o (crc32 (wrap32 (N.shiftl o 8 + ncs b))) 0 q00]).
(** rpne::append_as_se, expr.hpp:227-235 *)
Definition append_as_se (l : list node) (src : rpne) : list node :=
  l ++ mknode op_se 0 (length (rnodes src)) (rq src) :: rnodes src.

(** rpne::operator[], expr.hpp:142-151 *)
Definition e_comp (x : rpne) (e : N) : res rpne :=
  b <- back (rnodes x);;
  rpne_of (rcap x + 1) (rnodes x ++ [mknode op_comp (wrap32 (ncs b + e)) (N.to_nat e) q00]) (rq x).
(** rpne::select_grade, expr.hpp:153-160; ~g is the int -g-1 *)
Definition e_grade (x : rpne) (g : N) : res rpne :=
  b <- back (rnodes x);;
  rpne_of (rcap x + 1) (rnodes x ++ [mknode op_grd (wrap32 (ncs b + (4294967295 - g))) (N.to_nat g) q00]) (rq x).

(** one element of rpne_entities, expr.hpp:280-281 *)
Definition e_input (cid : N) (i : nat) : rpne := mkrpne [mknode op_id cid i q00] one 1.
(** rpne_entities, expr.hpp:277-313, for inputs of the given sizes (a floating point input has
    size 1); the ids start at [cid], the indices at [i] *)
Fixpoint e_entities (cid : N) (i : nat) (sizes : list nat) : list rpne * N :=
  match sizes with
  | [] => ([], cid)
  | s :: r => let '(l, c) := e_entities (cid + N.of_nat s) (S i) r in (e_input cid i :: l, c)
  end.
(** a basis blade as in rpne_pseudoscalar, expr.hpp:315-320, and the user defined literals
    (for instance cga.hpp:18-60): node{c_scalar + e, c_scalar + e}, scale n *)
Definition e_blade (e : N) (n : Z) : rpne := mkrpne [mknode (c_scalar + e) (c_scalar + e) 0 q00] (mkrat n 1) 1.
(** rpne_from_constant, expr.hpp:322-330 *)
Definition e_const (n d : Z) : rpne := mkrpne [mknode c_scalar c_scalar 0 q00] (mkrat n d) 1.
(** struct rpne_constant, expr.hpp:363-366 *)
Record rconst := mkrconst { rc_id : N; rc_q : rat }.
Definition c_PI : rconst := mkrconst 4294967167 one. (* expr.hpp:376, algebra.hpp:15-20 *)
Definition c_E : rconst := mkrconst 4294967168 one. (* expr.hpp:377, algebra.hpp:15-20 *)
(** rpne_constant::convert, expr.hpp:368-372: the id is not consulted *)
Definition rc_convert (c : rconst) : rpne := mkrpne [mknode c_pi c_pi 0 q00] (rc_q c) 1.
(** operator*(int, rpne_constant), expr.hpp:720-724 (and the mirrored one, 726-730) *)
Definition rc_scale (n : Z) (c : rconst) : res rconst := q <- rmul_assign (rc_q c) (mkrat n 1);; Ok (mkrconst (rc_id c) q).
(** operator/(rpne_constant, int), expr.hpp:732-736 *)
Definition rc_div (c : rconst) (d : Z) : res rconst := q <- rmul_assign (rc_q c) (mkrat 1 d);; Ok (mkrconst (rc_id c) q).
(** rpne_concat, expr.hpp:339-361, on a tuple of expressions *)
Definition e_concat (xs : list rpne) : res rpne :=
  rpne_of (list_sum (map rcap xs) + length xs) (fold_left append_as_se xs []) one.

(** the next [n] nodes after a summand or factor node, expr.hpp:432-435, 601-604 *)
Definition take (n : nat) (l : list node) : res (list node * list node) :=
  if n <=? length l then Ok (firstn n l, skipn n l) else Err OutOfBounds.
(** node::q *= q, as in expr.hpp:430, 446, 506, 515, 609 *)
Definition scale_node (n : node) (q : rat) : res node :=
  q' <- rmul_assign (nq n) q;; Ok (mknode (no n) (ncs n) (nex n) q').

(** Copying the remaining summands, expr.hpp:425-437 and 441-453; returns the output and
    the number of summands. In both places the factor is rhs.q. *)
Fixpoint copy_rest (fuel : nat) (q : rat) (ls out : list node) (k : nat) : res (list node * nat) :=
  match fuel with
  | O => Err IllFormed
  | S f =>
    match ls with
    | [] => Ok (out, k)
    | s :: ls' =>
      s' <- scale_node s q;;
      ' (b, ls2) <- take (nex s) ls';;
      copy_rest f q ls2 (out ++ s' :: b) (S k)
    end
  end.
Section Mode.
Variable md : mode.
(** Merging two sums, expr.hpp:419-523; [ls] and [rs] are the nodes not yet read, without the final
    sum node. The bodies of both summands are taken before they are compared, which only matters
    for malformed expressions. *)
Fixpoint merge_sums (fuel : nat) (ql qr : rat) (ls rs out : list node) (k : nat) : res (list node * nat) :=
  match fuel with
  | O => Err IllFormed
  | S f =>
    match ls, rs with
    | [], _ => copy_rest f qr rs out k
    | _, [] => copy_rest f qr ls out k
    | s :: ls', t :: rs' =>
      ' (bl, ls2) <- take (nex s) ls';;
      ' (br, rs2) <- take (nex t) rs';;
      if (ncs s =? ncs t)%N && (nex s =? nex t) && nodes_eq bl br then
        a <- rmul md (nq s) ql;;
        b <- rmul md (nq t) qr;;
        q <- radd md a b;;
        if is_zero q then merge_sums f ql qr ls2 rs2 out k
        else merge_sums f ql qr ls2 rs2 (out ++ mknode op_se (ncs s) (nex s) q :: bl) (S k)
      else if (ncs s <? ncs t)%N then
        s' <- scale_node s ql;;
        merge_sums f ql qr ls2 rs (out ++ s' :: bl) (S k)
      else
        t' <- scale_node t qr;;
        merge_sums f ql qr ls rs2 (out ++ t' :: br) (S k)
    end
  end.
(** Merging a non-sum [ns] with final node [fin] into a sum, expr.hpp:539-617 *)
Fixpoint merge_one (fuel : nat) (sumq nsq : rat) (fin : node) (ns : list node) (written : bool)
  (ls out : list node) (k : nat) : res (list node * nat) :=
  match fuel with
  | O => Err IllFormed
  | S f =>
    match ls with
    | [] => if written then Ok (out, k) else Ok (out ++ mknode op_se (ncs fin) (length ns) nsq :: ns, S k)
    | s :: ls' =>
      ' (b, ls2) <- take (nex s) ls';;
      if negb written && (ncs s =? ncs fin)%N && (nex s =? length ns) && nodes_eq b ns then
        a <- rmul md (nq s) sumq;;
        q <- radd md a nsq;;
        if is_zero q then merge_one f sumq nsq fin ns true ls2 out k
        else merge_one f sumq nsq fin ns true ls2 (out ++ mknode op_se (ncs fin) (length ns) q :: ns) (S k)
      else if negb written && (ncs fin <? ncs s)%N then
        merge_one f sumq nsq fin ns true ls (out ++ mknode op_se (ncs fin) (length ns) nsq :: ns) (S k)
      else
        s' <- scale_node s sumq;;
        merge_one f sumq nsq fin ns written ls2 (out ++ s' :: b) (S k)
    end
  end.
End Mode.
(** the pseudo bloom filter, expr.hpp:684-693 and 1035-1043: hopping over [nex] nodes *)
Fixpoint bloom (fuel : nat) (l : list node) (c : N) : N :=
  match fuel with
  | O => c
  | S f => match l with
           | [] => c
           | s :: l' => bloom f (skipn (nex s) l') (N.lor c (2 ^ (N.land (ncs s) 31)))
           end
  end.
(** the tail of operator+, expr.hpp:671-702 *)
Definition finish_sum (cap : nat) (p : list node * nat) : res rpne :=
  let '(out, k) := p in
  if k =? 1 then
    _ <- rpne_of cap out one;;
    match out with [] => Err OutOfBounds | s :: r => rpne_of cap r (nq s) end
  else
    rpne_of cap (out ++ [mknode op_sum (bloom (length out) out 0) k (mkrat 0 (Z.of_nat (S (length out))))]) one.
(** operator+, expr.hpp:379-703 *)
Definition e_add (md : mode) (l r : rpne) : res rpne :=
  let cap := rcap l + rcap r + 3 in
  match rnodes l, rnodes r with
  | [], rn => rpne_of cap rn one
  | ln, [] => rpne_of cap ln one
  | ln, rn =>
    lf <- back ln;;
    rf <- back rn;;
    let lsum := (no lf =? op_sum)%N in
    let rsum := (no rf =? op_sum)%N in
    if lsum && rsum then
      p <- merge_sums md (length ln + length rn) (rq l) (rq r) (removelast ln) (removelast rn) [] 0;;
      finish_sum cap p
    else if lsum then
      p <- merge_one md (2 * length ln) (rq l) (rq r) rf rn false (removelast ln) [] 0;;
      finish_sum cap p
    else if rsum then
      p <- merge_one md (2 * length rn) (rq r) (rq l) lf ln false (removelast rn) [] 0;;
      finish_sum cap p
    else if (ncs lf =? ncs rf)%N && (length ln =? length rn) && nodes_eq ln rn then
      q <- radd md (rq l) (rq r);;
      if is_zero q then Ok (rpne0 cap) else rpne_of cap ln q
    else
      let sl := mknode op_se (ncs lf) (length ln) (rq l) :: ln in
      let sr := mknode op_se (ncs rf) (length rn) (rq r) :: rn in
      finish_sum cap (if (ncs lf <? ncs rf)%N then sl ++ sr else sr ++ sl, 2)
  end.
(** q *= on the scale of an expression, expr.hpp:715, 743, 759 *)
Definition rescale (x : rpne) (q : rat) : res rpne := q' <- rmul_assign (rq x) q;; Ok (mkrpne (rnodes x) q' (rcap x)).
(** operator*(int, rpne), expr.hpp:705-718 *)
Definition e_scale (n : Z) (x : rpne) : res rpne :=
  if (n =? 0)%Z || (length (rnodes x) =? 0) then Ok (mkrpne [] (rq x) (rcap x)) else rescale x (mkrat n 1).
(** unary operator-, expr.hpp:738-746 *)
Definition e_neg (x : rpne) : res rpne := if 0 <? length (rnodes x) then rescale x minus_one else Ok x.
(** operator-(rpne, rpne), expr.hpp:748-752 *)
Definition e_sub (md : mode) (l r : rpne) : res rpne := r' <- e_neg r;; e_add md l r'.
(** operator/(rpne, int), expr.hpp:754-762 *)
Definition e_divz (x : rpne) (d : Z) : res rpne := if 0 <? length (rnodes x) then rescale x (mkrat 1 d) else Ok x.
(** the scale of the node last appended is set, expr.hpp:771, 783 *)
Definition set_q (q : rat) (l : list node) : list node :=
  removelast l ++ [let b := last l (mknode 0 0 0 q00) in mknode (no b) (ncs b) (nex b) q].
(** operator/(int, rpne), expr.hpp:764-774: the scale n of the constant is lost by append *)
Definition e_zdiv (n : Z) (x : rpne) : res rpne :=
  l <- append_op op_div (rnodes (e_const n 1) ++ rnodes x);;
  rpne_of (rcap x + 2) (set_q (reciprocal (rq x)) l) one.
(** operator/(rpne, rpne), expr.hpp:776-786 *)
Definition e_div (md : mode) (x y : rpne) : res rpne :=
  l <- append_op op_div (rnodes x ++ rnodes y);;
  q <- rdiv md (rq x) (rq y);;
  rpne_of (rcap x + rcap y + 1) (set_q q l) one.
(** operator/(rpne_constant, rpne), expr.hpp:788-792 *)
Definition e_cdiv (md : mode) (c : rconst) (x : rpne) : res rpne := e_div md (rc_convert c) x.
(** operator/(rpne, rpne_constant), expr.hpp:794-798 *)
Definition e_divc (md : mode) (x : rpne) (c : rconst) : res rpne := e_div md x (rc_convert c).
(** operator+(int, rpne), expr.hpp:800-804, and operator+(rpne, int), 812-816 *)
Definition e_addz (md : mode) (n : Z) (x : rpne) : res rpne := e_add md (e_const n 1) x.
(** operator-(int, rpne), expr.hpp:806-810 *)
Definition e_zsub (md : mode) (n : Z) (x : rpne) : res rpne := x' <- e_neg x;; e_add md (e_const n 1) x'.
(** operator-(rpne, int), expr.hpp:818-822 *)
Definition e_subz (md : mode) (x : rpne) (n : Z) : res rpne := n' <- ineg n;; e_add md (e_const n' 1) x.
(** operator~, expr.hpp:824-844 *)
Definition e_rev (x : rpne) : res rpne :=
  match rnodes x with
  | [] => Ok (rpne0 (rcap x + 1))
  | l => b <- back l;;
         if (no b =? op_rev)%N then rpne_of (rcap x + 1) (removelast l) one
         else l' <- append_op op_rev l;; rpne_of (rcap x + 1) l' one
  end.
(** operator!, expr.hpp:846-858 *)
Definition e_dual (x : rpne) : res rpne :=
  match rnodes x with
  | [] => Ok (rpne0 (rcap x + 1))
  | l => l' <- append_op op_pd l;; rpne_of (rcap x + 1) l' one
  end.
(** sqrt, sin, cos, tan, expr.hpp:860-902 *)
Definition e_fn (o : N) (x : rpne) : res rpne :=
  l <- append_op o (rnodes x);; rpne_of (rcap x + 1) (set_q (rq x) l) one.
(** operator* and operator>>, expr.hpp:932-960 and 1059-1087 *)
Definition e_prod (md : mode) (o : N) (l r : rpne) : res rpne :=
  let cap := rcap l + rcap r + 1 in
  match rnodes l, rnodes r with
  | [], rn => rpne_of cap rn one
  | ln, [] => rpne_of cap ln one
  | ln, rn =>
    q <- rmul md (rq l) (rq r);;
    if is_zero q then Ok (rpne0 cap)
    else
      lf <- back ln;;
      rf <- back rn;;
      rpne_of cap (ln ++ rn ++ [mknode o (crc32 (wrap32 (ncs lf + not32 (ncs rf) + N.shiftl o 8))) 0 q00]) q
  end.
Definition e_gp (md : mode) := e_prod md op_gp. (* expr.hpp:932-960 *)
Definition e_lc (md : mode) := e_prod md op_lc. (* expr.hpp:1059-1087 *)
(** operator*(rpne, rpne_constant), expr.hpp:962-966, and operator*(rpne_constant, rpne),
    968-972, which multiplies in the same order *)
Definition e_mulc (md : mode) (x : rpne) (c : rconst) : res rpne := e_gp md x (rc_convert c).
(** the common part of operator| and scalar_product, expr.hpp:1089-1125 and 1133-1171 *)
Definition sip_nodes (ln rn : list node) : res (list node) :=
  lf <- back ln;;
  rf <- back rn;;
  let c := crc32 (wrap32 (ncs lf + ncs rf + N.shiftl op_sip 8)) in
  Ok ((if (ncs lf <? ncs rf)%N then ln ++ rn else rn ++ ln) ++ [mknode op_sip c 0 q00]).
(** operator|, expr.hpp:1089-1125 *)
Definition e_sip (md : mode) (l r : rpne) : res rpne :=
  let cap := rcap l + rcap r + 1 in
  match rnodes l, rnodes r with
  | [], rn => rpne_of cap rn one
  | ln, [] => rpne_of cap ln one
  | ln, rn =>
    q <- rmul md (rq l) (rq r);;
    if is_zero q then Ok (rpne0 cap) else s <- sip_nodes ln rn;; rpne_of cap s q
  end.
(** scalar_product, expr.hpp:1133-1176 *)
Definition e_scalar_product (md : mode) (l r : rpne) : res rpne :=
  let cap := rcap l + rcap r + 2 in
  match rnodes l, rnodes r with
  | [], rn => rpne_of cap rn one
  | ln, [] => rpne_of cap ln one
  | ln, rn =>
    q <- rmul md (rq l) (rq r);;
    if is_zero q then Ok (rpne0 cap)
    else
      s <- sip_nodes ln rn;;
      b <- back s;;
      rpne_of cap (s ++ [mknode op_comp (ncs b) 0 q00]) q
  end.
(** one factor of an exterior product, expr.hpp:1005-1007, 1012-1014, 1028-1031 *)
Definition factor (l : list node) : res (list node) :=
  b <- back l;; Ok (mknode op_se (ncs b) (length l) zero :: l).
(** operator^, expr.hpp:974-1051; the bloom filter loop starts at index 1 *)
Definition e_ep (md : mode) (l r : rpne) : res rpne :=
  let cap := rcap l + rcap r + 3 in
  if (length (rnodes l) =? 0) || (length (rnodes r) =? 0) || is_zero (rq r) || is_zero (rq l) then Ok (rpne0 cap)
  else
    lf <- back (rnodes l);;
    rf <- back (rnodes r);;
    let lep := (no lf =? op_ep)%N in
    let rep := (no rf =? op_ep)%N in
    fl <- (if lep then Ok (removelast (rnodes l)) else factor (rnodes l));;
    fr <- (if rep then Ok (removelast (rnodes r)) else factor (rnodes r));;
    let k := (if lep then nex lf else 1) + (if rep then nex rf else 1) in
    q <- (if lep || rep then Ok one else rmul md (rq l) (rq r));;
    let out := fl ++ fr in
    rpne_of cap (out ++ [mknode op_ep (bloom (length out) (skipn 1 out) 0) k (mkrat 0 (Z.of_nat (S (length out))))]) q.
(** operator&, expr.hpp:1053-1057 *)
Definition e_vee (md : mode) (l r : rpne) : res rpne :=
  dl <- e_dual l;; dr <- e_dual r;; w <- e_ep md dl dr;; e_dual w.
(** operator%, expr.hpp:1127-1131 *)
Definition e_sandwich (md : mode) (l r : rpne) : res rpne :=
  a <- e_gp md r l;; b <- e_rev r;; e_gp md a b.
(** exp, expr.hpp:904-919, for metric dimension [d] *)
Definition e_exp (md : mode) (d : N) (x : rpne) : res rpne :=
  let ps := e_blade (2 ^ d - 1) 1 in
  s0 <- e_sip md x x;; s <- e_comp s0 0;;
  p0 <- e_ep md x x;; p <- e_comp p0 (2 ^ d - 1);;
  ns <- e_neg s;; u <- e_fn op_sqrt ns;;
  np <- e_neg p;; u2 <- e_scale 2 u;; v <- e_div md np u2;;
  iu <- e_zdiv 1 u;; vs <- e_div md v s;; vsp <- e_gp md vs ps;; inv_norm <- e_add md iu vsp;;
  cosu <- e_fn op_cos u;; sinu <- e_fn op_sin u;;
  vsin <- e_gp md v sinu;; vsinp <- e_gp md vsin ps;; real <- e_sub md cosu vsinp;;
  vcos <- e_gp md v cosu;; vcosp <- e_gp md vcos ps;; ideal <- e_add md sinu vcosp;;
  iin <- e_gp md ideal inv_norm;; iix <- e_gp md iin x;; e_add md real iix.
