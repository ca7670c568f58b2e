(** What a multivector over indeterminates means: the structured form behind the flat arrays, its
    value at given inputs, canonical form, and the algebra of values. *)
From Coq Require Import ZArith NArith List Bool Reals Sorting.Sorted.
From Verif Require Import Base Model_Numeric Model_MV Spec_Numeric Spec_Clifford.
Import ListNotations.
Local Open Scope nat_scope.

(** a monomial with its coefficient, degree and indeterminates; a term on a blade *)
Record smon := mks { sq : rat; sdeg : rat; sinds : list ind }.
Definition sterm := (N * list smon)%type.

(** ** Layout: all indeterminates, all monomials and all terms in order, without gaps *)

Definition all_mons (ts : list sterm) : list smon := flat_map snd ts.
Definition all_inds (ms : list smon) : list ind := flat_map sinds ms.
(** monomial records, the first one's indeterminates starting at [o] *)
Fixpoint lay_mons (o : nat) (ms : list smon) : list mon :=
  match ms with
  | [] => []
  | m :: ms' => mkmon (sq m) (sdeg m) (length (sinds m)) o :: lay_mons (o + length (sinds m)) ms'
  end.
(** term records, the first one's monomials starting at [o] *)
Fixpoint lay_terms (o : nat) (ts : list sterm) : list term :=
  match ts with
  | [] => []
  | t :: ts' => mkterm (length (snd t)) o (fst t) :: lay_terms (o + length (snd t)) ts'
  end.
(** [x] is the flat form of [ts]; the array cells beyond the sizes are arbitrary *)
Record packed (x : mv) (ts : list sterm) : Prop := {
  pk_inds : exists rest, inds x = all_inds (all_mons ts) ++ rest;
  pk_mons : exists rest, mons x = lay_mons 0 (all_mons ts) ++ rest;
  pk_terms : exists rest, terms x = lay_terms 0 ts ++ rest;
  pk_isz : isz x = length (all_inds (all_mons ts));
  pk_msz : msz x = length (all_mons ts);
  pk_tsz : tsz x = length ts }.

(** ** Well-formed data: non-zero denominators, integral degrees (the only ones the library
    creates) *)
Definition integral (r : rat) : Prop := den r = 1%Z.
Definition mon_ok (m : smon) : Prop :=
  den (sq m) <> 0%Z /\ integral (sdeg m) /\ Forall (fun i => integral (ideg i)) (sinds m).
Definition mv_ok (ts : list sterm) : Prop := Forall mon_ok (all_mons ts).

(** ** Value *)

Definition Rsum (l : list R) : R := fold_right Rplus 0%R l.
Definition Rprod (l : list R) : R := fold_right Rmult 1%R l.
(** x to a rational degree *)
Definition dpow (x : R) (d : rat) : R :=
  if (den d =? 1)%Z then powerRZ x (num d) else Rpower x (rv d).
(** value of the indeterminates and of a monomial when indeterminate i has value [rho i] *)
Definition inds_val (rho : N -> R) (l : list ind) : R := Rprod (map (fun i => dpow (rho (id i)) (ideg i)) l).
Definition mon_val (rho : N -> R) (m : smon) : R := (rv (sq m) * inds_val rho (sinds m))%R.
Definition mons_val (rho : N -> R) (l : list smon) : R := Rsum (map (mon_val rho) l).
(** the coefficient of blade [b] *)
Definition val (rho : N -> R) (ts : list sterm) (b : N) : R :=
  Rsum (map (fun t : sterm => if (fst t =? b)%N then mons_val rho (snd t) else 0%R) ts).
(** negative powers only of non-zero values *)
Definition defined (rho : N -> R) (ts : list sterm) : Prop :=
  forall m i, In m (all_mons ts) -> In i (sinds m) -> rho (id i) <> 0%R \/ (0 <= num (ideg i))%Z.

(** ** Canonical form *)

Definition ind_key (i : ind) : N * Z := (id i, num (ideg i)).
(** graded lexicographic order on monomials with integral degrees: by degree, then by the
    indeterminates, id first *)
Definition key_lt (a b : N * Z) : Prop := (fst a < fst b)%N \/ (fst a = fst b /\ (snd a < snd b)%Z).
Inductive lex_lt : list (N * Z) -> list (N * Z) -> Prop :=
| lex_nil b l : lex_lt [] (b :: l)
| lex_head a b l r : key_lt a b -> lex_lt (a :: l) (b :: r)
| lex_tail a l r : lex_lt l r -> lex_lt (a :: l) (a :: r).
Definition smon_lt (a b : smon) : Prop :=
  (num (sdeg a) < num (sdeg b))%Z \/
  (num (sdeg a) = num (sdeg b) /\ lex_lt (map ind_key (sinds a)) (map ind_key (sinds b))).
(** strictly increasing blades, no empty term, strictly increasing monomials, no zero coefficient *)
Definition canonical (ts : list sterm) : Prop :=
  StronglySorted N.lt (map fst ts) /\
  Forall (fun t : sterm => snd t <> [] /\ StronglySorted smon_lt (snd t) /\
                   Forall (fun m => num (sq m) <> 0%Z) (snd t)) ts.
(** within a monomial: strictly increasing ids, non-zero degrees, and the stored degree is the
    total degree *)
Definition total_degree (l : list ind) : Z := fold_right Z.add 0%Z (map (fun i => num (ideg i)) l).
Definition mon_sorted (m : smon) : Prop :=
  StronglySorted N.lt (map id (sinds m)) /\ Forall (fun i => num (ideg i) <> 0%Z) (sinds m) /\
  num (sdeg m) = total_degree (sinds m).

(** ** The algebra of values of an n-dimensional algebra *)

Definition blades (n : nat) : list N := map N.of_nat (seq 0 (2 ^ n)).
(** bilinear extension of a product of basis blades *)
Definition bilinear (P : N -> N -> N * Z) (n : nat) (f g : N -> R) (c : N) : R :=
  Rsum (map (fun a => Rsum (map (fun b =>
    if (fst (P a b) =? c)%N then (f a * g b * IZR (snd (P a b)))%R else 0%R) (blades n))) (blades n)).
(** all blades of [ts] lie in the n-dimensional algebra *)
Definition in_dim (n : nat) (ts : list sterm) : Prop :=
  Forall (fun t : sterm => (fst t < 2 ^ N.of_nat n)%N) ts.

(** ** Outcomes *)

(** no access outside an array and no ill-formed instantiation: the only failures are those of
    the arithmetic *)
Definition memory_safe {A} (x : res A) : Prop :=
  forall e, x = Err e -> e = Overflow \/ e = DivZero \/ e = Rounded.

(** ** Proper multivectors of an n-dimensional algebra: canonical, sorted within monomials, and
    coefficients in lowest terms with a positive denominator *)
Definition coef_ok (m : smon) : Prop := (0 < den (sq m))%Z /\ lowest (sq m).
Record proper (n : nat) (ts : list sterm) : Prop := {
  pr_canon : canonical ts;
  pr_ok : mv_ok ts;
  pr_sorted : Forall mon_sorted (all_mons ts);
  pr_coef : Forall coef_ok (all_mons ts);
  pr_dim : in_dim n ts }.
