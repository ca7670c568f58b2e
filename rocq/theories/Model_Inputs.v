(** Model of how compute uses the types of its inputs: public/gal/engine.hpp and expr.hpp. An input is
    a built-in floating-point number or an entity with a static size; the value types are numbered
    (0 is float). A template that cannot be instantiated is [IllFormed]. *)
From Coq Require Import NArith List Bool.
From Verif Require Import Base.
Import ListNotations.
Local Open Scope N_scope.

(** the type of an argument of compute: std::is_floating_point_v holds for [Number] only; D::value_t
    and D::size() exist for [Entity] only (entity.hpp:63-250) *)
Inductive itype := Number (t : N) | Entity (t n : N).

(** infer_field, engine.hpp:341-356 *)
Definition infer_field (l : list itype) : res N :=
  match l with
  | [] => Ok 0
  | Number _ :: _ => Err IllFormed
  | Entity t _ :: _ => Ok t
  end.
(** rpne_entities, expr.hpp:276-307: the next id and the next index; the branch expr.hpp:284-291 is an
    ordinary if, so that both of its arms are instantiated *)
Fixpoint rpne_entities (l : list itype) (id i : N) : res (N * N) :=
  match l with
  | [] => Err IllFormed
  | [Number _] => Ok (id + 1, i + 1)
  | [Entity _ n] => Ok (id + n, i + 1)
  | Number _ :: _ :: _ => Err IllFormed
  | Entity _ n :: (_ :: _) as l' => rpne_entities l' (id + n) (i + 1)
  end.
(** data_size, engine.hpp:358-367 *)
Definition data_size (d : itype) : N := match d with Number _ => 1 | Entity _ n => n end.
(** fill, engine.hpp:38-68: the number of cells written; a pointer to another value type cannot be
    stored *)
Fixpoint fill_types (v : N) (l : list itype) : res N :=
  match l with
  | [] => Err IllFormed
  | d :: l' =>
    let ok := match d with Number t => t =? v | Entity t n => (n =? 0) || (t =? v) end in
    if ok then match l' with [] => Ok (data_size d) | _ :: _ => k <- fill_types v l';; Ok (data_size d + k) end
    else Err IllFormed
  end.
(** the declarations of compute that depend on the types of the inputs, engine.hpp:455-465 and
    487-491: the value type, the first free id and the cells for the inputs *)
Definition compute_types (l : list itype) : res (N * N * N) :=
  _ <- match l with [] => Err IllFormed | _ :: _ => Ok tt end;;
  v <- infer_field l;;
  e <- rpne_entities l 0 0;;
  k <- fill_types v l;;
  Ok (v, fst e, k).
