(** Model of public/gal/format.hpp. *)
From Coq Require Import NArith List Bool Arith String DecimalString.
Import ListNotations.
Local Open Scope string_scope.

(** stream << j for a non-negative int, format.hpp:32 *)
Definition print_int (j : N) : string := NilZero.string_of_uint (N.to_uint j).
(** while (e > 0), format.hpp:28-36; [e] has at most [fuel] bits *)
Fixpoint print_indices (fuel : nat) (e : N) (j : N) : string :=
  match fuel with
  | O => ""
  | S f => if (0 <? e)%N then (if (N.land e 1 =? 1)%N then print_int j else "") ++ print_indices f (N.shiftr e 1) (j + 1)%N else ""
  end.
Section Format.
(** the type of the components and what stream << x writes for one, format.hpp:21; the formatting of
    floating point numbers is the standard library's *)
Variable T : Type.
Variable show : T -> string.
(** one component, format.hpp:21-36 *)
Definition print_component (p : N * T) : string :=
  show (snd p) ++ (if (0 <? fst p)%N then "e" else "") ++ print_indices (N.size_nat (fst p)) (fst p) 0.
(** the loop over the components from index [i] on, [size] components in all, format.hpp:19-42 *)
Fixpoint print_from (l : list (N * T)) (i size : nat) : string :=
  match l with
  | [] => ""
  | p :: l' => print_component p ++ (if (i =? size - 1)%nat then "" else " + ") ++ print_from l' (S i) size
  end.
(** to_string, format.hpp:10-47 *)
Definition to_string (l : list (N * T)) : string :=
  match l with [] => "0" | _ => print_from l 0 (List.length l) end.
End Format.
Arguments print_component {T}.
Arguments print_from {T}.
Arguments to_string {T}.
