(** Model of public/gal/tuple.hpp. A heterogeneous tuple is the list of its elements; an
    element [A] carries its static type, read by [ty]. A get<I> beyond the size does not compile
    ([IllFormed]). *)
From Coq Require Import List Bool Arith.
From Verif Require Import Base.
Import ListNotations.

Section Tuple.
Context {A T : Type}.
Variable ty : A -> T.
Variable ty_eqb : T -> T -> bool.
(** the value-initialised cells of a fresh tuple (tuple.hpp:97, 107) *)
Variable dflt : A.

(** get<I>, tuple.hpp:63-73 *)
Definition tget (t : list A) (i : nat) : res A :=
  match nth_error t i with Some a => Ok a | None => Err IllFormed end.
(** set<I>, tuple.hpp:85-89 *)
Definition tset (t : list A) (i : nat) (v : A) : res (list A) :=
  if i <? length t then Ok (upd t i v) else Err IllFormed.
(** back, tuple.hpp:75-83; sizeof...(T) - 1 wraps on the empty tuple *)
Definition tback (t : list A) : res A :=
  match length t with O => Err IllFormed | S n => tget t n end.
(** the fold (out.set<I + k>(get<I>()), ...) over the index sequence [is], tuple.hpp:178-188 *)
Fixpoint copy_from (t : list A) (k : nat) (is : list nat) (out : list A) : res (list A) :=
  match is with
  | [] => Ok out
  | i :: is' => x <- tget t i;; out' <- tset out (i + k) x;; copy_from t k is' out'
  end.
(** push, tuple.hpp:93-101, 178-182 *)
Definition tpush (t : list A) (v : A) : res (list A) :=
  out <- tset (repeat dflt (S (length t))) 0 v;;
  copy_from t 1 (seq 0 (length t)) out.
(** append, tuple.hpp:103-111, 184-188 *)
Definition tappend (t : list A) (v : A) : res (list A) :=
  out <- tset (repeat dflt (S (length t))) (length t) v;;
  copy_from t 0 (seq 0 (length t)) out.
(** pop, tuple.hpp:114-117, 190-202; make_index_sequence<sizeof...(T) - 1> of the empty tuple
    does not compile *)
Definition tpop (t : list A) : res (A * list A) :=
  match length t with
  | O => Err IllFormed
  | S n =>
    if n =? 0 then x <- tget t 0;; Ok (x, [])
    else second <- mapM (fun i => tget t (1 + i)) (seq 0 n);;
         x <- tget t 0;; Ok (x, second)
  end.
(** split_n, tuple.hpp:204-230; [n1], [n2] are the lengths of the two index sequences *)
Definition split_n (t : list A) (n1 n2 : nat) : res (list A * list A) :=
  if n1 =? 0 then
    if n1 =? 0 then Ok ([], [])
    else second <- mapM (tget t) (seq 0 n2);; Ok ([], second)
  else if n2 =? 0 then first <- mapM (tget t) (seq 0 n1);; Ok (first, [])
  else first <- mapM (tget t) (seq 0 n1);;
       second <- mapM (fun i => tget t (n1 + i)) (seq 0 n2);;
       Ok (first, second).
(** split<I>, tuple.hpp:121-125 *)
Definition tsplit (t : list A) (i : nat) : res (list A * list A) :=
  if length t <? i then Err IllFormed else split_n t i (length t - i).
(** split_drop<I>, tuple.hpp:128-133 *)
Definition tsplit_drop (t : list A) (i : nat) : res (list A * list A) :=
  if length t <=? i then Err IllFormed else split_n t i (length t - i - 1).
(** find_t_impl<E, I>, tuple.hpp:163-176; [n] = sizeof...(T) - I *)
Fixpoint find_t_impl (t : list A) (e : T) (i n : nat) : res nat :=
  match n with
  | O => Err IllFormed
  | S n' =>
    x <- tget t i;;
    if ty_eqb (ty x) e then Ok i
    else if i + 1 <? length t then find_t_impl t e (i + 1) n' else Err IllFormed
  end.
(** find_t<E>, tuple.hpp:57-61 *)
Definition find_t (t : list A) (e : T) : res nat := find_t_impl t e 0 (length t).
(** split_at_type<E>, tuple.hpp:137-142 *)
Definition split_at_type (t : list A) (e : T) : res (list A * list A) :=
  i <- find_t t e;; tsplit_drop t i.
(** apply, tuple.hpp:144-148, 232-236: [l] receives the argument list *)
Definition tapply {B} (t : list A) (l : list A -> B) : res B :=
  args <- mapM (tget t) (seq 0 (length t));; Ok (l args).
(** apply_reverse, tuple.hpp:150-154, 238-242 *)
Definition tapply_reverse {B} (t : list A) (l : list A -> B) : res B :=
  args <- mapM (fun i => tget t (length t - i - 1)) (seq 0 (length t));; Ok (l args).
(** mutate_impl, tuple.hpp:244-248: the fold (set<I>(F{args}(get<I>())), ...) *)
Fixpoint mutate_from (f : A -> A) (is : list nat) (t : list A) : res (list A) :=
  match is with
  | [] => Ok t
  | i :: is' => x <- tget t i;; t' <- tset t i (f x);; mutate_from f is' t'
  end.
(** mutate, tuple.hpp:156-160 *)
Definition tmutate (f : A -> A) (t : list A) : res (list A) :=
  mutate_from f (seq 0 (length t)) t.
End Tuple.
