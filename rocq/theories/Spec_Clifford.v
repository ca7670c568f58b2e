(** Independent specification of the Clifford algebra over an orthogonal basis
    e_0, e_1, ... with squares given by [q]. Words are lists of generator indices;
    a scaled word (c, w) stands for c * e_{w_0} e_{w_1} ... *)
From Coq Require Import ZArith NArith List.
Import ListNotations.
Open Scope Z_scope.

(** The congruence generated by the defining relations. *)
Inductive cl_eq (q : N -> Z) : Z * list N -> Z * list N -> Prop :=
| cl_refl x : cl_eq q x x
| cl_sym x y : cl_eq q x y -> cl_eq q y x
| cl_trans x y z : cl_eq q x y -> cl_eq q y z -> cl_eq q x z
| cl_swap c u v i j : i <> j -> cl_eq q (c, u ++ [i; j] ++ v) (- c, u ++ [j; i] ++ v)
| cl_square c u v i : cl_eq q (c, u ++ [i; i] ++ v) (c * q i, u ++ v)
| cl_zero u v : cl_eq q (0, u) (0, v).

(** The generators of a blade, in increasing order: the word a bitmask stands for. *)
Fixpoint pgens (p : positive) (k : N) : list N :=
  match p with
  | xH => [k]
  | xO p' => pgens p' (N.succ k)
  | xI p' => k :: pgens p' (N.succ k)
  end.
Definition gens (a : N) : list N := match a with N0 => [] | Npos p => pgens p 0 end.

(** Closed form: number of out-of-order pairs and product of contracted squares. *)
Definition inversions (u v : list N) : nat :=
  length (filter (fun '(i, j) => (j <? i)%N) (list_prod u v)).
Definition neg1_pow (n : nat) : Z := if Nat.even n then 1 else -1.
Definition squares (q : N -> Z) (w : list N) : Z := fold_right Z.mul 1 (map q w).
(** Coefficient of e_{a xor b} in e_a e_b. *)
Definition cl_coef (q : N -> Z) (a b : N) : Z :=
  neg1_pow (inversions (gens a) (gens b)) * squares q (gens (N.land a b)).
(** Grade of a blade. *)
Definition grade (a : N) : nat := length (gens a).
(** Sign of reversion on grade k. *)
Definition rev_sign (k : nat) : Z := neg1_pow (k * (k - 1) / 2).

(** Squares of the generators in signature (p, v, r): the first r are degenerate, the next
    p square to +1, the rest to -1. *)
Definition sig_square (p v r i : N) : Z :=
  if (i <? r)%N then 0 else if (i <? r + p)%N then 1 else -1.

(** Scaled blades: (blade, integer). Equality of what they stand for: the zero multiple of
    any blade is zero. *)
Definition same_blade (x y : N * Z) : Prop := x = y \/ (snd x = 0 /\ snd y = 0).
(** Product of scaled blades extending a product of blades. *)
Definition sbmul (f : N -> N -> N * Z) (x y : N * Z) : N * Z :=
  let '(r, s) := f (fst x) (fst y) in (r, snd x * snd y * s).
