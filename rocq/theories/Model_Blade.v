(** Model of the blade-level part of public/gal/geometric_algebra.hpp and of the
    blade-level helpers of public/gal/algebra.hpp. A blade is a bitmask in [N]: bit i
    set means generator e_i is a factor. *)
From Coq Require Import ZArith NArith List Bool.
From Verif Require Import Base Model_Numeric.
Import ListNotations.
Open Scope N_scope.

(** metric<P,V,R>, geometric_algebra.hpp:27-38: P positive, V negative, R degenerate generators. *)
Record metric := mkmetric { mp : N; mv_ : N; mr : N }.
(** metric::dimension, geometric_algebra.hpp:38 *)
Definition dimension (m : metric) : N := mp m + mv_ m + mr m.

(** metric::dot, geometric_algebra.hpp:43-58 *)
Definition dot (m : metric) (lhs rhs : N) : Z :=
  if negb (lhs =? rhs) || (lhs <? mr m) then 0%Z
  else if (mr m + mp m <=? lhs) then (-1)%Z
  else 1%Z.

(** metric::intercept, geometric_algebra.hpp:64-75 *)
Definition intercept (m : metric) (e blade : N) : Z * Z :=
  if negb (N.land blade (2 ^ e) =? 0) then (Z.of_N e, dot m e e) else ((-1)%Z, 0%Z).

(** elem_t = uint_fast8_t, algebra.hpp:11 (8 bits on the supported platforms), so the [swaps] counters
    wrap, geometric_algebra.hpp:152, 210, 239 *)
Definition wrap8 (x : N) : N := x mod 256.
(** g &= ~(1 << l), geometric_algebra.hpp:178, 181, 216, 252, 253 *)
Definition clr (g l : N) : N := N.ldiff g (2 ^ l).
(** g |= 1 << l, geometric_algebra.hpp:164, 217 *)
Definition setb (g l : N) : N := N.lor g (2 ^ l).
(** pop_count(g & ((1 << l) - 1)), geometric_algebra.hpp:163, 169, 215, 251 *)
Definition pop_below (g l : N) : N := pop_count (N.land g (2 ^ l - 1)).
(** swaps % 2 == 0 ? 1 : -1, geometric_algebra.hpp:183, 219, 261, algebra.hpp:1116 *)
Definition sign_of (swaps : N) : Z := if swaps mod 2 =? 0 then 1%Z else (-1)%Z.

(** while (g1 > 0), geometric_algebra.hpp:156, 212, 241, algebra.hpp:1103: every loop removes one bit
    of [g1] per iteration, this many iterations suffice *)
Definition fuel_for (g1 : N) : nat := S (N.to_nat (N.size g1)).

(** the while loop of geometric::product, geometric_algebra.hpp:155-183.
    [None]: the early return {0, 0}. *)
Fixpoint geo_loop (m : metric) (fuel : nat) (g1 g2 swaps : N) : option N :=
  match fuel with
  | O => None
  | S f =>
    if 0 <? g1 then
      let l := leading_set_index g1 in
      let '(index, d) := intercept m l g2 in
      if (index =? -1)%Z then
        geo_loop m f (clr g1 l) (setb g2 l) (wrap8 (swaps + pop_below g2 l))
      else
        let i := Z.to_N index in
        let swaps := wrap8 (swaps + pop_below g2 i) in
        if (d =? 0)%Z then None
        else geo_loop m f (clr g1 l) (clr g2 i) (if (d =? -1)%Z then wrap8 (swaps + 1) else swaps)
    else Some swaps
  end.

(** algebra::geometric::product, geometric_algebra.hpp:137-186 *)
Definition geometric (m : metric) (g1 g2 : N) : N * Z :=
  if g1 =? 0 then (g2, 1%Z)
  else if g2 =? 0 then (g1, 1%Z)
  else match geo_loop m (fuel_for g1) g1 g2 0 with
       | None => (0, 0%Z)
       | Some swaps => (N.lxor g1 g2, sign_of swaps)
       end.

(** the while loop of exterior::product, geometric_algebra.hpp:211-217 *)
Fixpoint ext_loop (fuel : nat) (g1 g2 swaps : N) : N :=
  match fuel with
  | O => swaps
  | S f =>
    if 0 <? g1 then
      let l := leading_set_index g1 in
      ext_loop f (clr g1 l) (setb g2 l) (wrap8 (swaps + pop_below g2 l))
    else swaps
  end.

(** algebra::exterior::product, geometric_algebra.hpp:188-223 *)
Definition exterior (g1 g2 : N) : N * Z :=
  if g1 =? 0 then (g2, 1%Z)
  else if g2 =? 0 then (g1, 1%Z)
  else if negb (N.land g1 g2 =? 0) then (0, 0%Z)
  else (N.lor g1 g2, sign_of (ext_loop (fuel_for g1) g1 g2 0)).

(** the while loop of contract::product, geometric_algebra.hpp:241-259.
    Returns the remaining g2 and the swap count; [None]: the early return {0, 0}. *)
Fixpoint con_loop (m : metric) (fuel : nat) (g1 g2 swaps : N) : option (N * N) :=
  match fuel with
  | O => None
  | S f =>
    if 0 <? g1 then
      let l := leading_set_index g1 in
      let '(index, d) := intercept m l g2 in
      if (index =? -1)%Z || (d =? 0)%Z then None
      else
        let i := Z.to_N index in
        let swaps := wrap8 (swaps + pop_below g2 i) in
        con_loop m f (clr g1 l) (clr g2 i) (if (d =? -1)%Z then wrap8 (swaps + 1) else swaps)
    else Some (g2, swaps)
  end.

(** algebra::contract::product, geometric_algebra.hpp:225-264 *)
Definition contract (m : metric) (g1 g2 : N) : N * Z :=
  if g1 =? 0 then (g2, 1%Z)
  else if pop_count g2 <? pop_count g1 then (0, 0%Z)
  else match con_loop m (fuel_for g1) g1 g2 0 with
       | None => (0, 0%Z)
       | Some (g, swaps) => (g, sign_of swaps)
       end.

(** algebra::symmetric_inner::product, geometric_algebra.hpp:266-297 *)
Definition symmetric_inner (m : metric) (g1 g2 : N) : N * Z :=
  if (g1 =? 0) || (g2 =? 0) then (0, 0%Z)
  else
    let '(g, mult) := geometric m g1 g2 in
    if (mult =? 0)%Z then (0, 0%Z)
    else
      let target := Z.abs (Z.of_N (pop_count g1) - Z.of_N (pop_count g2)) in
      if (Z.of_N (pop_count g) =? target)%Z then (g, mult) else (0, 0%Z).

(** The four product functors, passed as template argument P to detail::product
    (algebra.hpp:1273-1274). *)
Inductive prod_kind := Geometric | Exterior | Contract | SymInner.
(** P::product, algebra.hpp:1300 *)
Definition blade_product (m : metric) (k : prod_kind) (g1 g2 : N) : N * Z :=
  match k with
  | Geometric => geometric m g1 g2
  | Exterior => exterior g1 g2
  | Contract => contract m g1 g2
  | SymInner => symmetric_inner m g1 g2
  end.

(** The pseudoscalar blade (1 << dimension) - 1, geometric_algebra.hpp:83-87 *)
Definition pseudoscalar (m : metric) : N := 2 ^ dimension m - 1.
(** Coefficient of pseudoscalar_inv, geometric_algebra.hpp:88-96.
    [dimension * (dimension - 1)] in size_t: 0 for dimension 0. *)
Definition pseudoscalar_inv_coef (m : metric) : rat :=
  let n := dimension m in
  if (n * (n - 1) / 2 + mv_ m) mod 2 =? 0 then one else minus_one.

(** The blades enumerated by even_mv, geometric_algebra.hpp:99-114 *)
Fixpoint iterate_next_even (n : nat) (e : N) : list N :=
  match n with O => [] | S k => e :: iterate_next_even k (next_even e) end.
(** even_mv, geometric_algebra.hpp:99-114 *)
Definition even_mv_elems (m : metric) : list N :=
  iterate_next_even (N.to_nat (2 ^ (dimension m - 1))) 0.
(** The blades enumerated by bivector_mv, geometric_algebra.hpp:117-132 *)
Definition bivector_mv_elems (m : metric) : list N :=
  let n := dimension m in iterate_next_even (N.to_nat (n * (n - 1) / 2)) 3.

(** Whether detail::reverse negates a term on blade [e], algebra.hpp:1078-1086 *)
Definition reverse_negates (e : N) : bool :=
  if e =? 0 then false
  else let g := pop_count e in (g * (g - 1) / 2) mod 2 =? 1.

(** the while loop of detail::poincare_complement, algebra.hpp:1103-1114.
    [swaps] and [grade] are uint32_t in the code; they cannot wrap for 8-bit elements. *)
Fixpoint pc_loop (fuel : nat) (element swaps grade : N) : N :=
  match fuel with
  | O => swaps
  | S f =>
    if 0 <? element then
      if N.land element 1 =? 0 then pc_loop f (N.shiftr element 1) (swaps + grade) grade
      else pc_loop f (N.shiftr element 1) swaps (grade - 1)
    else swaps
  end.

(** detail::poincare_complement, algebra.hpp:1096-1117 *)
Definition poincare_complement (element dim : N) : N * Z :=
  (N.lxor (2 ^ dim - 1) element,
   sign_of (pc_loop (fuel_for element) element 0 (pop_count element))).
