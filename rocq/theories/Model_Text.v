(** Model of to_string for programs, public/gal/expr.hpp:1178-1338 (only compiled with GAL_DEBUG). *)
From Coq Require Import ZArith NArith List Bool String Ascii.
From Verif Require Import Base Model_Numeric Model_Expr Model_Format.
Import ListNotations.
Local Open Scope string_scope.

(** stream << i for a signed 32-bit number, expr.hpp:1186, 1208, 1293 *)
Definition print_Z (z : Z) : string := (if (z <? 0)%Z then "-" else "") ++ print_int (Z.abs_N z).
(** stream << e for a width_t, a 64-bit count that is unbounded here, expr.hpp:1186, 1195, 1205 *)
Definition print_nat (i : nat) : string := print_int (N.of_nat i).
(** num / den, expr.hpp:1186, 1208, 1293, 1297 *)
Definition print_rat (q : rat) : string := print_Z (num q) ++ "/" ++ print_Z (den q).
(** std::endl and '\n', expr.hpp:1189, 1331, 1334 *)
Definition newline : string := String (ascii_of_nat 10) "".
(** the operators whose checksum is shown on request only, expr.hpp:1213-1232, 1243-1252,
    1263-1282 *)
Definition print_op (cs : bool) (s : string) (n : node) : string :=
  if cs then s ++ "(" ++ print_int (ncs n) ++ ") " else s ++ " ".
(** the scalar functions, expr.hpp:1300-1315 *)
Definition print_fn (s : string) (n : node) : string := s ++ "(" ++ print_rat (nq n) ++ ") ".
(** one node, expr.hpp:1198-1328; every other operator is printed as a blade, its number less
    c_scalar modulo 2^32 *)
Definition print_node (cs : bool) (n : node) : string :=
  let o := no n in
  if (o =? op_id)%N then "id(" ++ print_int (ncs n) ++ ") "
  else if (o =? op_cse)%N then "cse(" ++ print_nat (nex n) ++ ") "
  else if (o =? op_se)%N then "se(" ++ print_rat (nq n) ++ " count: " ++ print_nat (nex n) ++ ") "
  else if (o =? op_noop)%N then "noop "
  else if (o =? op_rev)%N then print_op cs "~" n
  else if (o =? op_pd)%N then print_op cs "!" n
  else if (o =? op_sum)%N then
    if cs then "+(" ++ print_nat (nex n) ++ ", " ++ print_int (ncs n) ++ ") " else "+(" ++ print_nat (nex n) ++ ") "
  else if (o =? op_gp)%N then print_op cs "*" n
  else if (o =? op_ep)%N then
    if cs then "^(" ++ print_nat (nex n) ++ ", " ++ print_int (ncs n) ++ ") " else "^ "
  else if (o =? op_lc)%N then print_op cs "<<" n
  else if (o =? op_sip)%N then print_op cs "|" n
  else if (o =? op_comp)%N then "[" ++ print_nat (nex n) ++ "] "
  else if (o =? op_grd)%N then "<" ++ print_nat (nex n) ++ "> "
  else if (o =? op_div)%N then
    if cs then "/(" ++ print_int (ncs n) ++ ") " else "/(" ++ print_rat (nq n) ++ ") "
  else if (o =? op_sqrt)%N then print_fn "sqrt" n
  else if (o =? op_sin)%N then print_fn "sin" n
  else if (o =? op_cos)%N then print_fn "cos" n
  else if (o =? op_tan)%N then print_fn "tan" n
  else if (o =? c_zero)%N then "0 "
  else if (o =? c_pi)%N then "pi "
  else if (o =? c_e)%N then "e "
  else "e_" ++ print_int ((o + (4294967296 - c_scalar)) mod 4294967296) ++ " ".
(** the loop over the nodes from index [i] on, expr.hpp:1191-1333 *)
Fixpoint print_nodes (cs ix : bool) (i : nat) (l : list node) : string :=
  match l with
  | [] => ""
  | n :: l' => (if ix then "[" ++ print_nat i ++ "] - " else "") ++ print_node cs n ++ (if ix then newline else "") ++ print_nodes cs ix (S i) l'
  end.
(** to_string(rpne, show_checksums, index), expr.hpp:1179-1338 *)
Definition program_text (cs ix : bool) (e : rpne) : string :=
  print_nat (List.length (rnodes e)) ++ " node(s): " ++ print_rat (rq e) ++ "*" ++ (if ix then newline else "") ++
  print_nodes cs ix 0 (rnodes e) ++ newline.
