(** C41: formatting. *)
From Coq Require Import NArith List Bool Arith String.
From Verif Require Import Spec_Clifford Model_Format Spec_Format Proof_Format.
Import ListNotations.
Local Open Scope string_scope.

(** every component once, in order, with its label, whatever the type of the components *)
Theorem C41_to_string (T : Type) (show : T -> string) (l : list (N * T)) : to_string show l = written show l.
Proof. exact (to_string_ok show l). Qed.
Print Assumptions C41_to_string.
(** different blades have different labels up to dimension 10; a blade has 8 bits in the library
    (algebra.hpp:11) *)
Theorem C41_labels_distinct a b : (a < 2 ^ 10)%N -> (b < 2 ^ 10)%N -> label a = label b -> a = b.
Proof. exact (label_inj a b). Qed.
Print Assumptions C41_labels_distinct.
(** the bound is needed: generators 1 and 23, generators 1, 2 and 3 *)
Example C41_bound_needed : label (2 + 2 ^ 23) = label 14.
Proof. vm_compute. reflexivity. Qed.
Example C41_ex : to_string (fun s : string => s) [(0%N, "2"); (13%N, "-0.5"); (2%N, "7")] = "2 + -0.5e023 + 7e1" /\ to_string (fun s : string => s) [] = "0".
Proof. split; vm_compute; reflexivity. Qed.
