(** What the numeric evaluation should compute. *)
From Coq Require Import ZArith NArith List Bool Arith Reals Sorting.Sorted.
From Verif Require Import Base Model_Numeric Model_Blade Model_MV Model_Product Model_Expr Model_Dfa Model_Engine
  Spec_Numeric Spec_Clifford Spec_MV Spec_Basis Spec_Expr Spec_Dfa.
Import ListNotations.
Local Open Scope nat_scope.

(** the values of the indeterminates: the mathematical constants, and the cells of the data array *)
Definition valuation (data : list R) (i : N) : R :=
  if (i =? ind_constant_start)%N then PI
  else if (i =? ind_constant_start + 1)%N then exp 1
  else nth (N.to_nat i) data 0%R.
(** the coefficient of blade [b] *)
Definition entity_val (e : entity) (b : N) : R := Rsum (map (fun p : N * R => if (fst p =? b)%N then snd p else 0%R) e).
(** the entity [e] is the multivector [v]: each blade of the algebra occurs at most once, in order *)
Definition entity_is (n : nat) (e : entity) (v : V) : Prop :=
  StronglySorted N.lt (map fst e) /\ Forall (fun p : N * R => (fst p < 2 ^ N.of_nat n)%N) e /\ forall b, entity_val e b = v b.

(** ** Inputs *)

(** the first indeterminate of input [k] *)
Definition offset (inputs : list (list R)) (k : nat) : nat := list_sum (map (@length R) (firstn k inputs)).
(** the inputs of the program are numbered in order *)
Definition bound (inputs : list (list R)) (l : list node) : Prop :=
  Forall (fun n => no n = op_id -> ncs n = N.of_nat (offset inputs (nex n))) l.
(** the indeterminate form [ie] of a type represents the components [d] as the multivector [v] *)
Definition represents (m : metric) (nb : bool) (ie : N -> mv) (d : list R) (v : V) : Prop :=
  forall o,
    (forall rho, (forall j, j < length d -> rho (o + N.of_nat j)%N = nth j d 0%R) -> input_means rho m nb (ie o) v) /\
    exists tx, packed (ie o) tx /\ proper (dim m) tx /\
      forall s i, In s (all_mons tx) -> In i (sinds s) -> (o <= id i < o + N.of_nat (length d))%N.
(** two multivectors that differ at most in the offsets of monomials without indeterminates *)
Definition mon_sim (k : nat) (a b : mon) : Prop :=
  mq a = mq b /\ mdeg a = mdeg b /\ mcount a = mcount b /\ (ioff a = ioff b \/ mcount b = 0 /\ ioff a <= k /\ ioff b <= k).
(** the same arrays otherwise *)
Record sim (x y : mv) : Prop := {
  si_i : isz x = isz y; si_m : msz x = msz y; si_t : tsz x = tsz y; si_is : inds x = inds y; si_ts : terms x = terms y;
  si_o : mop x = mop y; si_ms : Forall2 (mon_sim (isz y)) (mons x) (mons y); si_le : isz y <= length (inds y) }.
(** as [represents], up to the offsets of monomials without indeterminates *)
Definition stands (m : metric) (nb : bool) (ie : N -> mv) (d : list R) (v : V) : Prop :=
  exists ie', (forall o, sim (ie o) (ie' o)) /\ represents m nb ie' d v.
(** the values are the inputs *)
Definition inputs_are (m : metric) (nb : bool) (ies : list (N -> mv)) (inputs : list (list R)) (env : list V) : Prop :=
  length inputs = length ies /\
  forall k ie, nth_error ies k = Some ie -> exists d v, nth_error inputs k = Some d /\ nth_error env k = Some v /\ stands m nb ie d v.

(** ** Results *)

(** results of conformal algebras are given in the null basis *)
Definition output (m : metric) (nb : bool) (v : V) : V :=
  if nb then fun b => if (b <? 2 ^ dimension m)%N then linear (dim m) (outermorphism (dim m) (natural_to_null (dim m))) v b else 0%R
  else v.
(** no temporary is stored inside a subexpression *)
Definition stores_on_top (l : list node) : Prop := forall b k, In b (bodies l) -> In k b -> no k <> op_noop.
(** every node of the program is applicable when it is reached, and the indeterminates of all
    temporaries are cells of the data array *)
Definition applicable (m : metric) (nb : bool) (ies : list (N -> mv)) (cnt : nat) (l : list node) : Prop :=
  forall ins, rpn_inputs ies (rpn_ids l) = Ok ins ->
    fits Exact m nb l (mkrs ins [] [] (N.of_nat cnt)) /\
    forall st, rpn_eval Exact m nb l ins (N.of_nat cnt) = Ok st -> (r_cnt st <= ind_constant_start)%N.
(** the coefficients of [x] are the same in the null basis and in the natural one: every blade
    contains both of the last two generators or neither; no function is waiting *)
Definition neutral (m : metric) (x : mv) : Prop :=
  mop x = mop_id /\ forall e, In e (map elem (firstn (tsz x) (terms x))) -> N.testbit e (dimension m - 2) = N.testbit e (dimension m - 1).
(** in algebras with a null basis, all temporaries of the program are such *)
Definition neutral_temps (m : metric) (nb : bool) (ies : list (N -> mv)) (cnt : nat) (l : list node) : Prop :=
  nb = true -> forall ins st, rpn_inputs ies (rpn_ids l) = Ok ins -> rpn_eval Exact m nb l ins (N.of_nat cnt) = Ok st -> Forall (fun p => neutral m (fst p)) (r_temps st).
