(** The null basis of a conformal algebra: linear maps given by the images of the basis blades, and the
    outermorphism extending the images of the generators. *)
From Coq Require Import ZArith NArith List Bool Reals.
From Verif Require Import Model_Blade Spec_Clifford Spec_MV.
Import ListNotations.
Local Open Scope nat_scope.

(** the basis blade [a] as a multivector *)
Definition delta (a b : N) : R := if (a =? b)%N then 1%R else 0%R.
(** image of a multivector under the linear map sending blade [a] to [m a] *)
Definition linear (n : nat) (m : N -> N -> R) (f : N -> R) (b : N) : R :=
  Rsum (map (fun a => (f a * m a b)%R) (blades n)).
(** wedge of a list of multivectors *)
Definition wedge_all (n : nat) (l : list (N -> R)) : N -> R :=
  fold_right (fun v w => bilinear exterior n v w) (delta 0) l.
(** the linear map that sends generator i to [img i] and respects the wedge *)
Definition outermorphism (n : nat) (img : N -> N -> R) (a : N) : N -> R := wedge_all n (map img (gens a)).
(** no = (ep + en) / 2, ni = en - ep; the last two generators are ep and en in the natural
    basis, no and ni in the null basis *)
Definition null_to_natural (n : nat) (i : N) : N -> R :=
  let ep := (2 ^ (N.of_nat n - 2))%N in
  let en := (2 ^ (N.of_nat n - 1))%N in
  if (i =? N.of_nat n - 2)%N then (fun b => (delta ep b + delta en b) / 2)%R
  else if (i =? N.of_nat n - 1)%N then (fun b => delta en b - delta ep b)%R
  else delta (2 ^ i).
(** conversely ep = no - ni / 2, en = no + ni / 2 *)
Definition natural_to_null (n : nat) (i : N) : N -> R :=
  let no := (2 ^ (N.of_nat n - 2))%N in
  let ni := (2 ^ (N.of_nat n - 1))%N in
  if (i =? N.of_nat n - 2)%N then (fun b => delta no b - delta ni b / 2)%R
  else if (i =? N.of_nat n - 1)%N then (fun b => delta no b + delta ni b / 2)%R
  else delta (2 ^ i).
