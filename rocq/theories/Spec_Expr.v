(** What expressions in reverse Polish notation mean: values of the algebra, a stack machine on
    values, the grammar of the programs built by the operators, and the intended meaning of the
    user's expressions. *)
From Coq Require Import ZArith NArith List Bool Reals.
From Verif Require Import Base Model_Numeric Model_Blade Model_Expr Spec_Numeric Spec_Clifford Spec_MV Spec_Basis.
Import ListNotations.
Local Open Scope nat_scope.

(** ** Values: the coefficient of each blade *)
Definition V := N -> R.
Definition vzero : V := fun _ => 0%R.
Definition vadd (v w : V) : V := fun b => (v b + w b)%R.
Definition vscale (r : R) (v : V) : V := fun b => (r * v b)%R.
Definition vsum (l : list V) : V := fold_right vadd vzero l.
Definition vscalar (r : R) : V := fun b => if (b =? 0)%N then r else 0%R.
Definition is_scalar (v : V) : Prop := forall b, b <> 0%N -> v b = 0%R.
(** reversion, component as a scalar, grade part *)
Definition vrev (v : V) : V := fun b => (IZR (rev_sign (grade b)) * v b)%R.
Definition vcomp (e : N) (v : V) : V := vscalar (v e).
Definition vgrade (g : N) (v : V) : V := fun b => if (N.of_nat (grade b) =? g)%N then v b else 0%R.
(** Poincare dual in dimension [n]: the blade complementary to [a] with the sign that makes
    a ^ dual a the pseudoscalar *)
Definition co_blade (n : nat) (b : N) : N := N.lxor (2 ^ N.of_nat n - 1) b.
Definition vdual (n : nat) (v : V) : V := fun b =>
  if (b <? 2 ^ N.of_nat n)%N
  then (IZR (neg1_pow (inversions (gens (co_blade n b)) (gens b))) * v (co_blade n b))%R else 0%R.
(** products *)
Definition dim (m : metric) : nat := N.to_nat (dimension m).
Definition vprod (m : metric) (k : prod_kind) (v w : V) : V := bilinear (blade_product m k) (dim m) v w.
(** wedge of a non-empty list *)
Fixpoint vwedge (m : metric) (l : list V) : V :=
  match l with
  | [] => vzero
  | [v] => v
  | v :: l' => vprod m Exterior v (vwedge m l')
  end.
(** a node's scale; a zero numerator marks the factors of an exterior product *)
Definition se_scale (q : rat) (v : V) : V := if (num q =? 0)%Z then v else vscale (rv q) v.
(** which product an operation stands for *)
Definition binop (o : N) : option prod_kind :=
  if (o =? op_gp)%N then Some Geometric else if (o =? op_lc)%N then Some Contract
  else if (o =? op_sip)%N then Some SymInner else None.
(** real functions *)
Definition fn (o : N) : option (R -> R) :=
  if (o =? op_sqrt)%N then Some sqrt else if (o =? op_sin)%N then Some sin
  else if (o =? op_cos)%N then Some cos else if (o =? op_tan)%N then Some tan else None.

Section Sem.
Variable m : metric.
(** the values of the inputs *)
Variable env : list V.

(** ** The stack machine. A state holds the temporaries and the stack, top first. *)
Definition state := (list V * list V)%type.
Inductive step : node -> state -> state -> Prop :=
| st_id n t s v : no n = op_id -> nth_error env (nex n) = Some v -> step n (t, s) (t, v :: s)
| st_cse n t s v : no n = op_cse -> nth_error t (nex n) = Some v -> step n (t, s) (t, v :: s)
| st_noop n t s v : no n = op_noop -> step n (t, v :: s) (t ++ [v], s)
| st_rev n t s v : no n = op_rev -> step n (t, v :: s) (t, vrev v :: s)
| st_pd n t s v : no n = op_pd -> step n (t, v :: s) (t, vdual (dim m) v :: s)
| st_bin n t s v w k : binop (no n) = Some k -> step n (t, w :: v :: s) (t, vprod m k v w :: s)
| st_sum n t s l : no n = op_sum -> l <> [] -> length l = nex n -> step n (t, rev l ++ s) (t, vsum l :: s)
| st_ep n t s l : no n = op_ep -> l <> [] -> length l = nex n -> step n (t, rev l ++ s) (t, vwedge m l :: s)
| st_comp n t s v : no n = op_comp -> step n (t, v :: s) (t, vcomp (N.of_nat (nex n)) v :: s)
| st_grd n t s v : no n = op_grd -> step n (t, v :: s) (t, vgrade (N.of_nat (nex n)) v :: s)
| st_div n t s v w : no n = op_div -> is_scalar w -> w 0%N <> 0%R ->
    step n (t, w :: v :: s) (t, vscale (rv (nq n) / w 0%N) v :: s)
| st_fn n t s v f : fn (no n) = Some f -> is_scalar v -> step n (t, v :: s) (t, vscalar (f (rv (nq n) * v 0%N)%R) :: s)
| st_zero n t s : no n = c_zero -> step n (t, s) (t, vzero :: s)
| st_pi n t s : no n = c_pi -> step n (t, s) (t, vscalar PI :: s)
| st_e n t s : no n = c_e -> step n (t, s) (t, vscalar (exp 1) :: s)
| st_blade n t s : (c_scalar <= no n)%N -> step n (t, s) (t, delta (no n - c_scalar) :: s).
(** a subexpression is a window of nodes run on an empty stack; its value is scaled *)
Inductive run : list node -> state -> state -> Prop :=
| run_nil st : run [] st st
| run_step n l st st' st'' : no n <> op_se -> step n st st' -> run l st' st'' -> run (n :: l) st st''
| run_se n b l t t' s v st : no n = op_se -> nex n = length b -> run b (t, []) (t', [v]) ->
    run l (t', se_scale (nq n) v :: s) st -> run (n :: b ++ l) (t, s) st.

(** ** The programs built by the operators and their values *)
(** a summand or factor: checksum, scale, body, value of the body *)
Record item := mkitem { i_cs : N; i_q : rat; i_body : list node; i_val : V }.
Definition render (i : item) : list node := mknode op_se (i_cs i) (length (i_body i)) (i_q i) :: i_body i.
Definition item_val (i : item) : V := se_scale (i_q i) (i_val i).
(** summands have a non-zero scale, factors have none *)
Definition q_for (sum : bool) (q : rat) : Prop := if sum then num q <> 0%Z /\ den q <> 0%Z else q = zero.
Inductive nden : list node -> V -> Prop :=
| nd_id cs ex q v : nth_error env ex = Some v -> nden [mknode op_id cs ex q] v
| nd_pi cs ex q : nden [mknode c_pi cs ex q] (vscalar PI)
| nd_blade o cs ex q : (c_scalar <= o)%N -> nden [mknode o cs ex q] (delta (o - c_scalar))
| nd_rev l v cs ex q : nden l v -> nden (l ++ [mknode op_rev cs ex q]) (vrev v)
| nd_pd l v cs ex q : nden l v -> nden (l ++ [mknode op_pd cs ex q]) (vdual (dim m) v)
| nd_bin o k l r v w cs ex q : binop o = Some k -> nden l v -> nden r w -> nden (l ++ r ++ [mknode o cs ex q]) (vprod m k v w)
| nd_sum l cs q : ses true l -> l <> [] ->
    nden (flat_map render l ++ [mknode op_sum cs (length l) q]) (vsum (map item_val l))
| nd_ep l cs q : ses false l -> l <> [] ->
    nden (flat_map render l ++ [mknode op_ep cs (length l) q]) (vwedge m (map item_val l))
| nd_comp l v cs ex q : nden l v -> nden (l ++ [mknode op_comp cs ex q]) (vcomp (N.of_nat ex) v)
| nd_grd l v cs ex q : nden l v -> nden (l ++ [mknode op_grd cs ex q]) (vgrade (N.of_nat ex) v)
| nd_div l r v w cs ex q : nden l v -> nden r w -> is_scalar w -> w 0%N <> 0%R ->
    nden (l ++ r ++ [mknode op_div cs ex q]) (vscale (rv q / w 0%N) v)
| nd_fn o f l v cs ex q : fn o = Some f -> nden l v -> is_scalar v ->
    nden (l ++ [mknode o cs ex q]) (vscalar (f (rv q * v 0%N)%R))
with ses : bool -> list item -> Prop :=
| ses_nil k : ses k []
| ses_cons k i l : nden (i_body i) (i_val i) -> q_for k (i_q i) -> ses k l -> ses k (i :: l).
(** an expression: the empty one is zero; otherwise the scale times the program's value *)
Definition denotes (e : rpne) (v : V) : Prop :=
  (rnodes e = [] /\ v = vzero) \/
  (exists w, nden (rnodes e) w /\ den (rq e) <> 0%Z /\ v = vscale (rv (rq e)) w).

(** ** The user's expressions and what they should mean *)
Inductive uexpr :=
| UIn (i : nat) | UBlade (e : N) (n : Z) | UPi | UE
| UAdd (a b : uexpr) | USub (a b : uexpr) | UNeg (a : uexpr) | UScale (n : Z) (a : uexpr) | UDivZ (a : uexpr) (d : Z)
| UZDiv (n : Z) (a : uexpr) | UDiv (a b : uexpr) | UAddZ (n : Z) (a : uexpr) | UZSub (n : Z) (a : uexpr) | USubZ (a : uexpr) (n : Z)
| URev (a : uexpr) | UDual (a : uexpr) | UFn (o : N) (a : uexpr)
| UGp (a b : uexpr) | ULc (a b : uexpr) | USip (a b : uexpr) | UEp (a b : uexpr) | UVee (a b : uexpr) | USandwich (a b : uexpr)
| UScalarProduct (a b : uexpr) | UComp (a : uexpr) (e : N) | UGrade (a : uexpr) (g : N).
Definition vneg (v : V) : V := vscale (-1) v.
Inductive means : uexpr -> V -> Prop :=
| m_in i v : nth_error env i = Some v -> means (UIn i) v
| m_blade e n : means (UBlade e n) (vscale (IZR n) (delta e))
| m_pi : means UPi (vscalar PI)
| m_e : means UE (vscalar (exp 1))
| m_add a b v w : means a v -> means b w -> means (UAdd a b) (vadd v w)
| m_sub a b v w : means a v -> means b w -> means (USub a b) (vadd v (vneg w))
| m_neg a v : means a v -> means (UNeg a) (vneg v)
| m_scale n a v : means a v -> means (UScale n a) (vscale (IZR n) v)
| m_divz a d v : means a v -> d <> 0%Z -> means (UDivZ a d) (vscale (/ IZR d) v)
| m_zdiv n a v : means a v -> is_scalar v -> v 0%N <> 0%R -> means (UZDiv n a) (vscalar (IZR n / v 0%N))
| m_div a b v w : means a v -> means b w -> is_scalar w -> w 0%N <> 0%R -> means (UDiv a b) (vscale (/ w 0%N) v)
| m_addz n a v : means a v -> means (UAddZ n a) (vadd (vscalar (IZR n)) v)
| m_zsub n a v : means a v -> means (UZSub n a) (vadd (vscalar (IZR n)) (vneg v))
| m_subz a n v : means a v -> means (USubZ a n) (vadd v (vscalar (- IZR n)))
| m_rev a v : means a v -> means (URev a) (vrev v)
| m_dual a v : means a v -> means (UDual a) (vdual (dim m) v)
| m_fn o f a v : fn o = Some f -> means a v -> is_scalar v -> means (UFn o a) (vscalar (f (v 0%N)))
| m_gp a b v w : means a v -> means b w -> means (UGp a b) (vprod m Geometric v w)
| m_lc a b v w : means a v -> means b w -> means (ULc a b) (vprod m Contract v w)
| m_sip a b v w : means a v -> means b w -> means (USip a b) (vprod m SymInner v w)
| m_ep a b v w : means a v -> means b w -> means (UEp a b) (vprod m Exterior v w)
| m_vee a b v w : means a v -> means b w -> means (UVee a b) (vdual (dim m) (vprod m Exterior (vdual (dim m) v) (vdual (dim m) w)))
| m_sandwich a b v w : means a v -> means b w -> means (USandwich a b) (vprod m Geometric (vprod m Geometric w v) (vrev w))
| m_scalar_product a b v w : means a v -> means b w -> means (UScalarProduct a b) (vcomp 0 (vprod m Geometric v w))
| m_comp a e v : means a v -> means (UComp a e) (vcomp e v)
| m_grade a g v : means a v -> means (UGrade a g) (vgrade g v).
End Sem.

(** ** Where the operators are right *)
(** the bodies of all subexpression markers *)
Fixpoint bodies (l : list node) : list (list node) :=
  match l with
  | [] => []
  | s :: r => if (no s =? op_se)%N then firstn (nex s) r :: bodies r else bodies r
  end.
(** terms the code takes to be equal are equal (the comparison ignores the scales inside) *)
Definition agree (l r : list node) : Prop :=
  forall b c, In b (l :: bodies l) -> In c (r :: bodies r) -> nodes_eq b c = true -> b = c.
(** a scale that is a non-zero number *)
Definition q_ok (q : rat) : Prop := num q <> 0%Z /\ den q <> 0%Z.
(** checksums of the top level summands of a sum, the final node removed *)
Fixpoint tops (fuel : nat) (l : list node) : list N :=
  match fuel, l with
  | S f, s :: r => ncs s :: tops f (skipn (nex s) r)
  | _, _ => []
  end.
(** the expression ends in a sum *)
Definition is_sum (e : rpne) : Prop := exists n, back (rnodes e) = Ok n /\ no n = op_sum.
(** when two sums are merged: both have the same scale, or the last summand comes from the right *)
Definition merge_fair (l r : rpne) : Prop := is_sum l -> is_sum r ->
  rv (rq l) = rv (rq r) \/
  (forall c, In c (tops (length (rnodes l)) (removelast (rnodes l))) ->
     (c < last (tops (length (rnodes r)) (removelast (rnodes r))) 0)%N).
(** a sum whose summands have all cancelled: a sum of no terms *)
Definition cancelled (e : rpne) : Prop := exists n, rnodes e = [n] /\ no n = op_sum /\ nex n = 0.
(** the checksum of the left operand is the smaller one *)
Definition first_checksum_less (l r : rpne) : Prop :=
  exists a b, back (rnodes l) = Ok a /\ back (rnodes r) = Ok b /\ (ncs a < ncs b)%N.
(** the expression ends in an exterior product *)
Definition is_wedge (e : rpne) : Prop := exists n, back (rnodes e) = Ok n /\ no n = op_ep.
Definition nonempty (e : rpne) : Prop := rnodes e <> [].
(** no scale: the expression is empty or its scale is one *)
Definition unscaled (e : rpne) : Prop := nonempty e -> rv (rq e) = 1%R.
