(** What the reshaping of a program should preserve, and when. *)
From Coq Require Import ZArith NArith List Bool Arith.
From Verif Require Import Base Model_Numeric Model_Stack Model_Expr Model_Dfa Model_Reshape Spec_Expr.
Import ListNotations.
Local Open Scope nat_scope.

(** ** Operands *)

(** the [k] nodes from position [p] on *)
Definition sub (l : list node) (p k : nat) : list node := firstn k (skipn p l).
(** how many values an operation takes from the stack *)
Definition arity (o : N) : nat :=
  if existsb (N.eqb o) [op_rev; op_pd; op_comp; op_grd; op_sqrt; op_sin; op_cos; op_tan] then 1
  else if existsb (N.eqb o) [op_gp; op_lc; op_sip; op_div] then 2 else 0.
(** the height of the stack after a node; the marker of a summand or factor occupies a cell too *)
Definition depth_step (d : nat) (n : node) : option nat :=
  let k := if ((no n =? op_sum) || (no n =? op_ep))%N then 2 * nex n else arity (no n) in
  if k <=? d then Some (S (d - k)) else None.
Fixpoint depth (d : nat) (l : list node) : option nat :=
  match l with
  | [] => Some d
  | n :: r => match depth_step d n with Some d' => depth d' r | None => None end
  end.
(** the nodes compute one value *)
Definition operand (l : list node) : bool := match depth 0 l with Some 1 => true | _ => false end.

(** ** When operands are told apart *)

(** a node without its scale: what node::operator== compares (expr.hpp:115-118) *)
Definition bare (n : node) : N * N * nat := (no n, ncs n, nex n).
(** two operands that differ at most in scales are the same, unless they are selections (op_comp,
    op_grd) *)
Definition identified (l : list node) : Prop :=
  forall p q k, 1 < k -> p + k <= length l -> q + k <= length l -> operand (sub l p k) = true -> operand (sub l q k) = true ->
    is_read_op (no (last (sub l p k) node0)) = false ->
    map bare (sub l p k) = map bare (sub l q k) -> sub l p k = sub l q k.
(** no operation but selection is applied twice to operands that differ at most in scales *)
Definition distinct (l : list node) : Prop :=
  forall p q k, 1 < k -> p + k <= length l -> q + k <= length l -> operand (sub l p k) = true -> operand (sub l q k) = true ->
    is_read_op (no (last (sub l p k) node0)) = false ->
    map bare (sub l p k) = map bare (sub l q k) -> p = q.

(** no operation requires that its operand be evaluated first *)
Definition direct (l : list node) : Prop :=
  forall n, In n l -> existsb (N.eqb (no n)) [op_div; op_sqrt; op_sin; op_cos; op_tan] = false.

(** ** When references are counted right *)

(** a subexpression that is stored in a temporary *)
Definition stored (c : cse) : bool := ((1 <? c_refs c)%N || c_req c)%bool.
Definition stored_at (ses : list cse) (k : nat) : bool := match nth_error ses k with Some c => stored c | None => false end.
(** the references met between two positions when the nodes of each referenced subexpression are
    skipped *)
Fixpoint references (fuel : nat) (nodes : list node) (j stop : N) : list nat :=
  match fuel with
  | O => []
  | S f =>
    if (j =? stop)%N then []
    else match nth_error nodes (N.to_nat j) with
         | None => []
         | Some n => if (no n =? op_cse)%N then nex n :: references f nodes (ncs n) stop else references f nodes (j + 1) stop
         end
  end.
(** every reference written to the program is to a subexpression that is stored: first the
    [k] candidates from [i] on, then the rest of the program *)
Fixpoint counts (k i : nat) (nodes : list node) (ses : list cse) (len : nat) : bool :=
  match k with
  | O => forallb (stored_at ses) (references (S (length nodes)) nodes 0 (N.of_nat len))
  | S k' =>
    match nth_error ses i with
    | None => false
    | Some c =>
      if stored c then
        forallb (stored_at ses) (references (S (length nodes)) nodes (c_off c) (c_off c + c_cnt c)) &&
        match nth_error nodes (N.to_nat (c_off c)) with
        | None => false
        | Some n => counts k' (S i) (upd nodes (N.to_nat (c_off c)) (mknode op_cse (c_off c + c_cnt c) i (nq n))) ses len
        end
      else counts k' (S i) nodes ses len
    end
  end.
(** the references counted by the first pass suffice *)
Definition counted (x : rpne) : Prop := forall s, first_pass x = Ok s ->
  counts (N.to_nat (sc_kc s)) 0 (sc_nodes s) (sc_ses s) (length (rnodes x)) = true.
