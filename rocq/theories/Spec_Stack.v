(** A stack as a list, top first. *)
From Coq Require Import List NArith Arith Bool.
Import ListNotations.

Section Ops.
Context {A : Type}.
Inductive sop := OpPush (x : A) | OpPopN (n : nat) | OpPeek | OpPeekAt (i : nat) | OpClear | OpEmpty.
Inductive sout := OutNone | OutVal (x : A) | OutBool (b : bool).

(** Last-in-first-out semantics of one operation, with capacity [cap]; [None] when the operation
    is not allowed. pop(n) removes n >= 1 elements and returns the deepest of them; peek(i) reads
    the i-th from the top, counting from 1. *)
Definition sem_op (cap : nat) (l : list A) (o : sop) : option (sout * list A) :=
  match o with
  | OpPush x => if length l <? cap then Some (OutNone, x :: l) else None
  | OpPopN n =>
    match n with
    | O => None
    | S m => match nth_error l m with Some x => Some (OutVal x, skipn n l) | None => None end
    end
  | OpPeek => match l with x :: _ => Some (OutVal x, l) | [] => None end
  | OpPeekAt i =>
    match i with
    | O => None
    | S m => match nth_error l m with Some x => Some (OutVal x, l) | None => None end
    end
  | OpClear => Some (OutNone, [])
  | OpEmpty => Some (OutBool (match l with [] => true | _ => false end), l)
  end.

Fixpoint sem_ops (cap : nat) (l : list A) (os : list sop) : option (list sout) :=
  match os with
  | [] => Some []
  | o :: os' =>
    match sem_op cap l o with
    | Some (v, l') => match sem_ops cap l' os' with Some vs => Some (v :: vs) | None => None end
    | None => None
    end
  end.
End Ops.
Arguments sop A : clear implicits.
Arguments sout A : clear implicits.
