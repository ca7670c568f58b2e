(** Model of rpn_reshape, public/gal/dfa.hpp:136-586: common subexpressions and the operands that
    must be evaluated first are moved to the front of the program. Indices are width_t, a 64 bit
    unsigned number on the platform modelled (algebra.hpp:10), arrays are bounds checked, and a loop
    that would not end reports [IllFormed]. *)
From Coq Require Import ZArith NArith List Bool Arith.
From Verif Require Import Base Model_Numeric Model_Stack Model_Expr Model_Dfa.
Import ListNotations.
Local Open Scope N_scope.

(** a default constructed node, expr.hpp:82-115 *)
Definition node0 : node := mknode 0 0 0 q00.
(** is_read_op, expr.hpp:68-79 *)
Definition is_read_op (o : N) : bool := (o =? op_comp) || (o =? op_grd).
(** struct cse, dfa.hpp:136-144 *)
Record cse := mkcse { c_crc : N; c_off : N; c_cnt : N; c_refs : N; c_fin : N; c_req : bool }.
(** a default constructed cse, dfa.hpp:136-144 *)
Definition cse0 : cse := mkcse 0 0 0 0 0 false.
(** array access with an unsigned index (dfa.hpp:164 and others) *)
Definition nget {A} (l : list A) (i : N) : res A := if i <? N.of_nat (length l) then get l (N.to_nat i) else Err OutOfBounds.
(** array update with an unsigned index (dfa.hpp:231 and others) *)
Definition nset {A} (l : list A) (i : N) (a : A) : res (list A) := if i <? N.of_nat (length l) then set l (N.to_nat i) a else Err OutOfBounds.
(** unsigned addition wraps (dfa.hpp:164, 273 and others) *)
Definition add64 (a b : N) : N := (a + b) mod 2 ^ 64.

(** while (n->o == op_cse) n = &exp.nodes[known.ses[n->ex].offset], dfa.hpp:180-187, 189-196 *)
Fixpoint chase (fuel : nat) (nodes : list node) (ses : list cse) (n : node) : res node :=
  if no n =? op_cse then
    match fuel with
    | O => Err IllFormed
    | S f => c <- get ses (nex n);; n' <- nget nodes (c_off c);; chase f nodes ses n'
    end
  else Ok n.
(** the loop of compare_se from position [i] on, dfa.hpp:162-204 *)
Fixpoint compare_from (fuel : nat) (nodes : list node) (ses : list cse) (lhs rhs : cse) (i : N) : res bool :=
  match fuel with
  | O => Err IllFormed
  | S f =>
    if i =? c_cnt lhs then Ok true
    else
      a <- nget nodes (add64 (c_off lhs) i);;
      b <- nget nodes (add64 (c_off rhs) i);;
      if (no a =? op_cse) && (no b =? op_cse) then
        if (nex a =? nex b)%nat then compare_from f nodes ses lhs rhs (sub64 (ncs a) (c_off lhs)) else Ok false
      else
        a' <- chase (length ses) nodes ses a;;
        b' <- chase (length ses) nodes ses b;;
        if node_eq a' b' then compare_from f nodes ses lhs rhs (add64 i 1) else Ok false
  end.
(** compare_se, dfa.hpp:153-207 *)
Definition compare_se (nodes : list node) (ses : list cse) (lhs rhs : cse) : res bool :=
  if negb (c_crc lhs =? c_crc rhs) || negb (c_cnt lhs =? c_cnt rhs) then Ok false
  else compare_from (S (length nodes)) nodes ses lhs rhs 0.

(** the search of register_se from index [i] on, [n] entries left, dfa.hpp:220-229 *)
Fixpoint find_se (nodes : list node) (ses : list cse) (next : cse) (i : nat) (n : nat) : res (option nat) :=
  match n with
  | O => Ok None
  | S n' =>
    k <- get ses i;;
    b <- compare_se nodes ses k next;;
    if b then Ok (Some i) else find_se nodes ses next (S i) n'
  end.
(** register_se, dfa.hpp:211-233: the array of known subexpressions, their number, and the
    index plus one of the entry that matched, 0 for a new one *)
Definition register_se (nodes : list node) (ses : list cse) (kc : N) (crc off cnt : N) (req : bool) : res (list cse * N * N) :=
  let next := mkcse crc off cnt 1 0 req in
  f <- find_se nodes ses next 0 (N.to_nat kc);;
  match f with
  | Some i =>
    k <- get ses i;;
    ses' <- set ses i (mkcse (c_crc k) (c_off k) (c_cnt k) (add64 (c_refs k) 1) (c_fin k) (req || c_req k));;
    Ok (ses', kc, N.of_nat i + 1)
  | None => ses' <- nset ses kc next;; Ok (ses', kc + 1, 0)
  end.

(** ** First pass, dfa.hpp:254-467 *)

(** the local variables expr, known, offsets, se_refs, se_count, dfa.hpp:243-257 *)
Record scan := mkscan { sc_nodes : list node; sc_ses : list cse; sc_kc : N; sc_offs : stack N; sc_refs : list N; sc_se : N }.
(** --known.ses[i].refs, dfa.hpp:279, 386, 391, 421 *)
Definition dec_refs (ses : list cse) (i : N) : res (list cse) :=
  k <- nget ses i;; nset ses i (mkcse (c_crc k) (c_off k) (c_cnt k) (sub64 (c_refs k) 1) (c_fin k) (c_req k)).
(** if (n.o == op_cse) --known.ses[n.ex].refs, dfa.hpp:276-280, 383-392 *)
Definition dec_if_cse (ses : list cse) (n : node) : res (list cse) :=
  if no n =? op_cse then dec_refs ses (N.of_nat (nex n)) else Ok ses.
(** known.ses[known.count - 1].required = true, dfa.hpp:308, 312, 347, 351 *)
Definition mark_last (ses : list cse) (kc : N) : res (list cse) :=
  k <- nget ses (sub64 kc 1);; nset ses (sub64 kc 1) (mkcse (c_crc k) (c_off k) (c_cnt k) (c_refs k) (c_fin k) true).
(** ref.o = op_cse; ref.checksum = i + 1; ref.ex = se_i - 1, dfa.hpp:282-285, 323-326, 360-363,
    394-397, 434-437 *)
Definition to_cse (nodes : list node) (off : N) (i se_i : N) : res (list node) :=
  n <- nget nodes off;; nset nodes off (mknode op_cse (wrap32 (i + 1)) (N.to_nat (se_i - 1)) (nq n)).
(** if (se_count > 0) se_refs[se_count - 1] = se_i, dfa.hpp:286-291, 327-330, 364-367, 398-401, 451-454 *)
Definition note_ref (refs : list N) (se : N) (se_i : N) : res (list N) :=
  if 0 <? se then nset refs (se - 1) se_i else Ok refs.
(** op_rev and op_pd, dfa.hpp:269-294 *)
Definition scan_unary (i : N) (n : node) (s : scan) : res scan :=
  off <- s_peek0 (sc_offs s);;
  ' (ses, kc, se_i) <- register_se (sc_nodes s) (sc_ses s) (sc_kc s) (ncs n) off (add64 (sub64 i off) 1) false;;
  if 0 <? se_i then
    p <- nget (sc_nodes s) off;;
    ses' <- dec_if_cse ses p;;
    nodes <- to_cse (sc_nodes s) off i se_i;;
    refs <- note_ref (sc_refs s) (sc_se s) se_i;;
    Ok (mkscan nodes ses' kc (sc_offs s) refs (sc_se s))
  else Ok (mkscan (sc_nodes s) ses kc (sc_offs s) (sc_refs s) (sc_se s)).
(** the operand of a division or function is marked as required, dfa.hpp:302-314 and 342-353;
    [skip] is the condition on the first node of the operand *)
Definition mark_operand (i : N) (off : N) (skip : node -> bool) (s : scan) : res (list cse) :=
  if 2 <? i then
    p <- nget (sc_nodes s) off;;
    if off =? i - 2 then
      l <- nget (sc_nodes s) (i - 1);;
      if is_read_op (no l) then Ok (sc_ses s) else mark_last (sc_ses s) (sc_kc s)
    else if (off <? i - 2) && negb (skip p) then mark_last (sc_ses s) (sc_kc s)
    else Ok (sc_ses s)
  else Ok (sc_ses s).
(** the rest of op_div, dfa.hpp:318-332, and of the functions, 355-369 *)
Definition scan_required (i : N) (n : node) (off : N) (offs : stack N) (ses0 : list cse) (s : scan) : res scan :=
  ' (ses, kc, se_i) <- register_se (sc_nodes s) ses0 (sc_kc s) (ncs n) off (add64 (sub64 i off) 1) true;;
  if 0 <? se_i then
    nodes <- to_cse (sc_nodes s) off i se_i;;
    refs <- note_ref (sc_refs s) (sc_se s) se_i;;
    Ok (mkscan nodes ses kc offs refs (sc_se s))
  else Ok (mkscan (sc_nodes s) ses kc offs (sc_refs s) (sc_se s)).
(** op_div, dfa.hpp:295-333 *)
Definition scan_div (i : N) (n : node) (s : scan) : res scan :=
  ses0 <- (if 2 <? i then
             off <- s_peek0 (sc_offs s);; mark_operand i off (fun p => (no p =? op_cse) || (ncs p =? i)) s
           else Ok (sc_ses s));;
  ' (_, offs) <- s_pop0 (sc_offs s);;
  off <- s_peek0 offs;;
  scan_required i n off offs ses0 s.
(** op_sqrt, op_sin, op_cos, op_tan, dfa.hpp:334-370 *)
Definition scan_fn (i : N) (n : node) (s : scan) : res scan :=
  off <- s_peek0 (sc_offs s);;
  ses0 <- mark_operand i off (fun p => (no p =? op_cse) && (ncs p =? i)) s;;
  scan_required i n off (sc_offs s) ses0 s.
(** op_gp, op_lc, op_sip, dfa.hpp:371-404 *)
Definition scan_binary (i : N) (n : node) (s : scan) : res scan :=
  ' (last, offs) <- s_pop0 (sc_offs s);;
  off <- s_peek0 offs;;
  ' (ses, kc, se_i) <- register_se (sc_nodes s) (sc_ses s) (sc_kc s) (ncs n) off (add64 (sub64 i off) 1) false;;
  if 0 <? se_i then
    second <- nget (sc_nodes s) last;;
    ses1 <- dec_if_cse ses second;;
    first <- nget (sc_nodes s) off;;
    ses2 <- dec_if_cse ses1 first;;
    nodes <- to_cse (sc_nodes s) off i se_i;;
    refs <- note_ref (sc_refs s) (sc_se s) se_i;;
    Ok (mkscan nodes ses2 kc offs refs (sc_se s))
  else Ok (mkscan (sc_nodes s) ses kc offs (sc_refs s) (sc_se s)).
(** for (j = se_count - n.ex; j != se_count; ++j) if (se_refs[j] > 0) --known.ses[se_refs[j] - 1].refs,
    dfa.hpp:417-423; [k] iterations from [j] on *)
Fixpoint dec_all (k : nat) (j : N) (refs : list N) (ses : list cse) : res (list cse) :=
  match k with
  | O => Ok ses
  | S k' =>
    r <- nget refs j;;
    ses' <- (if 0 <? r then dec_refs ses (r - 1) else Ok ses);;
    dec_all k' (add64 j 1) refs ses'
  end.
(** for (j = se_count - n.ex; j != se_count; ++j) se_refs[j] = 0, dfa.hpp:427-430, 441-444 *)
Fixpoint zero_all (k : nat) (j : N) (refs : list N) : res (list N) :=
  match k with
  | O => Ok refs
  | S k' => refs' <- nset refs j 0;; zero_all k' (add64 j 1) refs'
  end.
(** op_sum and op_ep, dfa.hpp:405-456 *)
Definition scan_poly (i : N) (n : node) (s : scan) : res scan :=
  let ex := N.of_nat (nex n) in
  ' (_, offs) <- s_pop (sc_offs s) (sub64 (2 * ex) 1);;
  off <- s_peek0 offs;;
  ' (ses, kc, se_i) <- register_se (sc_nodes s) (sc_ses s) (sc_kc s) (ncs n) off (add64 (sub64 i off) 1) false;;
  let start := sub64 (sc_se s) ex in
  if 0 <? se_i then
    ses' <- dec_all (nex n) start (sc_refs s) ses;;
    refs <- zero_all (nex n) start (sc_refs s);;
    nodes <- to_cse (sc_nodes s) off i se_i;;
    refs' <- note_ref refs start se_i;;
    Ok (mkscan nodes ses' kc offs refs' start)
  else
    refs <- zero_all (nex n) start (sc_refs s);;
    Ok (mkscan (sc_nodes s) ses kc offs refs start).
(** op_se and the other operations, dfa.hpp:457-465 *)
Definition scan_push (i : N) (d : N) (s : scan) : res scan :=
  offs <- s_push (sc_offs s) i;; Ok (mkscan (sc_nodes s) (sc_ses s) (sc_kc s) offs (sc_refs s) (sc_se s + d)).
(** the switch, dfa.hpp:263-466 *)
Definition scan_node (i : N) (s : scan) : res scan :=
  n <- nget (sc_nodes s) i;;
  let o := no n in
  if is_read_op o then Ok s
  else if (o =? op_rev) || (o =? op_pd) then scan_unary i n s
  else if o =? op_div then scan_div i n s
  else if (o =? op_sqrt) || (o =? op_sin) || (o =? op_cos) || (o =? op_tan) then scan_fn i n s
  else if (o =? op_gp) || (o =? op_lc) || (o =? op_sip) then scan_binary i n s
  else if (o =? op_sum) || (o =? op_ep) then scan_poly i n s
  else if o =? op_se then scan_push i 1 s
  else scan_push i 0 s.
(** the loop over the nodes, dfa.hpp:259-467: [k] nodes left from [i] on *)
Fixpoint scan_all (k : nat) (i : N) (s : scan) : res scan :=
  match k with
  | O => Ok s
  | S k' => s' <- scan_node i s;; scan_all k' (i + 1) s'
  end.

(** ** Writing the program, dfa.hpp:469-585 *)

(** the output and the stack of the summands and factors whose lengths are not yet known; a pointer
    to a node is its index, dfa.hpp:252, 475 *)
Record emit := mkemit { em_out : list node; em_st : stack (option nat * N) }.
Section Emit.
(** the capacity of the output, dfa.hpp:252 *)
Variable cap : nat.
(** out.append(n), expr.hpp:192-195 *)
Definition out_append (out : list node) (n : node) : res (list node) :=
  if (length out <? cap)%nat then Ok (out ++ [n]) else Err OutOfBounds.
(** se->ex = next_offset - offset - 1 for [k] entries of the stack from [j] on, dfa.hpp:499-504,
    561-566 *)
Fixpoint fix_lengths (k : nat) (j : N) (st : stack (option nat * N)) (out : list node) : res (list node) :=
  match k with
  | O => Ok out
  | S k' =>
    ' (p, off) <- s_index st j;;
    ' (_, next) <- s_index st (add64 j 1);;
    match p with
    | None => Err OutOfBounds
    | Some a =>
      n <- get out a;;
      out' <- set out a (mknode (no n) (ncs n) (N.to_nat (sub64 (sub64 next off) 1)) (nq n));;
      fix_lengths k' (add64 j 1) st out'
    end
  end.
(** a node is appended and the lengths are adjusted, dfa.hpp:487-508, 547-570. The lengths are
    stored in a 32 bit den_t *)
Definition emit_node (n : node) (e : emit) : res emit :=
  out <- out_append (em_out e) n;;
  let a := (length out - 1)%nat in
  let c := N.of_nat (length out) in
  if no n =? op_se then
    st <- s_push (em_st e) (Some a, c);; Ok (mkemit out st)
  else if (no n =? op_sum) || (no n =? op_ep) then
    st <- s_push (em_st e) (Some a, c);;
    let ex := N.of_nat (nex n) in
    out' <- fix_lengths (nex n) (sub64 (sub64 (count st) ex) 1) st out;;
    ' (f, st') <- s_pop st (ex + 1);;
    l <- get out' a;;
    out'' <- set out' a (mknode (no l) (ncs l) (nex l) (mkrat (num (nq l)) (Z.of_N (sub64 (sub64 c (snd f)) 1))));;
    Ok (mkemit out'' st')
  else Ok (mkemit out (em_st e)).
(** the nodes from [j] up to [stop]; the nodes of a common subexpression are skipped,
    dfa.hpp:485-520 *)
Fixpoint emit_range (fuel : nat) (nodes : list node) (j stop : N) (e : emit) : res emit :=
  match fuel with
  | O => Err IllFormed
  | S f =>
    if j =? stop then Ok e
    else
      n <- nget nodes j;;
      e' <- emit_node n e;;
      emit_range f nodes (if no n =? op_cse then ncs n else add64 j 1) stop e'
  end.
(** the loop over the candidates, dfa.hpp:477-530: [k] left from [i] on, [fin] is cse_count *)
Fixpoint emit_known (k : nat) (i : N) (fin : N) (nodes : list node) (ses : list cse) (e : emit) : res (list node * list cse * emit) :=
  match k with
  | O => Ok (nodes, ses, e)
  | S k' =>
    c <- nget ses i;;
    if (1 <? c_refs c) || c_req c then
      ses' <- nset ses i (mkcse (c_crc c) (c_off c) (c_cnt c) (c_refs c) fin (c_req c));;
      e' <- emit_range (S (length nodes)) nodes (c_off c) (add64 (c_off c) (c_cnt c)) (mkemit (em_out e) (s_clear (em_st e)));;
      out <- out_append (em_out e') (mknode op_noop 0 0 zero);;
      n <- nget nodes (c_off c);;
      nodes' <- nset nodes (c_off c) (mknode op_cse (wrap32 (c_off c + c_cnt c)) (N.to_nat i) (nq n));;
      emit_known k' (i + 1) (fin + 1) nodes' ses' (mkemit out (em_st e'))
    else emit_known k' (i + 1) fin nodes ses e
  end.
(** the indices of the temporaries, dfa.hpp:532-540, 572-575 *)
Definition fix_index (ses : list cse) (n : node) : res node :=
  if no n =? op_cse then c <- get ses (nex n);; Ok (mknode (no n) (ncs n) (N.to_nat (c_fin c)) (nq n)) else Ok n.
(** the remaining expression, dfa.hpp:542-582 *)
Fixpoint emit_rest (fuel : nat) (nodes : list node) (ses : list cse) (i stop : N) (e : emit) : res emit :=
  match fuel with
  | O => Err IllFormed
  | S f =>
    if i =? stop then Ok e
    else
      n <- nget nodes i;;
      n' <- fix_index ses n;;
      e' <- emit_node n' e;;
      emit_rest f nodes ses (if no n =? op_cse then ncs n else add64 i 1) stop e'
  end.
End Emit.
(** the local variables before and after the first pass, dfa.hpp:243-467 *)
Definition first_pass (x : rpne) : res scan :=
  let C := rcap x in
  let nodes0 := rnodes x ++ repeat node0 (C - length (rnodes x)) in
  scan_all (length (rnodes x)) 0 (mkscan nodes0 (repeat cse0 C) 0 (mk_stack (repeat 0 C) 0) (repeat 0 C) 0).
(** rpn_reshape, dfa.hpp:235-586 *)
Definition reshape (x : rpne) : res rpne :=
  let C := rcap x in
  s <- first_pass x;;
  ' (nodes, ses, e) <- emit_known (3 * C) (N.to_nat (sc_kc s)) 0 0 (sc_nodes s) (sc_ses s) (mkemit [] (mk_stack (repeat (None, 0) C) 0));;
  out <- mapM (fix_index ses) (em_out e);;
  e' <- emit_rest (3 * C) (S (length nodes)) nodes ses 0 (N.of_nat (length (rnodes x))) (mkemit out (s_clear (em_st e)));;
  Ok (mkrpne (em_out e') (rq x) (3 * C)).
