(** The bitwise definition of reflected CRC-32 (polynomial 0xEDB88320, initial value and final
    complement all ones), message given as a list of bits, least significant bit of each byte
    first. *)
From Coq Require Import NArith List Bool.
Import ListNotations.
Local Open Scope N_scope.

Definition poly : N := 0xEDB88320.
Definition bit_step (c : N) (b : bool) : N :=
  N.lxor (N.shiftr c 1) (if xorb (N.odd c) b then poly else 0).
Definition crc_bits (msg : list bool) : N := N.lxor (fold_left bit_step msg 0xffffffff) 0xffffffff.

(** the [n] low bits of [x], least significant first *)
Fixpoint low_bits (n : nat) (x : N) : list bool :=
  match n with O => [] | S n' => N.odd x :: low_bits n' (N.div2 x) end.
