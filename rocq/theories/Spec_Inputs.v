(** Which inputs go together. *)
From Coq Require Import NArith List Bool.
From Verif Require Import Base Model_Inputs.
Import ListNotations.
Local Open Scope N_scope.

Definition value_type (d : itype) : N := match d with Number t | Entity t _ => t end.
Definition components (d : itype) : N := match d with Number _ => 1 | Entity _ n => n end.
Definition is_number (d : itype) : Prop := match d with Number _ => True | Entity _ _ => False end.
(** stored with the value type [t]: an input without components has nothing to store *)
Definition stored_as (t : N) (d : itype) : Prop := components d = 0 \/ value_type d = t.
Definition total (l : list itype) : N := fold_right (fun d k => components d + k) 0 l.
