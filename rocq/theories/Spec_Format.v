(** How an entity should be written. *)
From Coq Require Import NArith List Bool Arith String DecimalString.
From Verif Require Import Spec_Clifford.
Import ListNotations.
Local Open Scope string_scope.

(** the label of a blade: e followed by the indices of its generators in ascending order, nothing
    for the scalar *)
Definition label (b : N) : string :=
  match gens b with
  | [] => ""
  | l => "e" ++ concat "" (map (fun i => NilZero.string_of_uint (N.to_uint i)) l)
  end.
(** the components with their labels, joined by + *)
Definition written {T} (show : T -> string) (l : list (N * T)) : string :=
  match l with
  | [] => "0"
  | _ => concat " + " (map (fun p => show (snd p) ++ label (fst p)) l)
  end.
