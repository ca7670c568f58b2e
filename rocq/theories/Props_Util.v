(** C13 (sort), C35 (crc), C36 (tuple), C37 (stack). *)
From Coq Require Import List Bool Arith NArith Lia Sorting.Permutation Sorting.Sorted.
From Verif Require Import Base Model_Sort Spec_Sort Proof_Sort Model_Crc Spec_Crc Proof_Crc
  Model_Stack Spec_Stack Model_Tuple Proof_Util.
Import ListNotations.

(** ** C13 *)
(** [sort] on the range [first, last) of any array, for any strict weak order: terminates inside
    the fuel, never leaves the range, permutes and sorts it, and leaves the rest alone. *)
Theorem C13_sort_sorts : forall {A} (lt : A -> A -> bool), strict_weak lt -> forall pre s post,
  exists s', sort_range (fun a b => Ok (lt a b)) (pre ++ s ++ post) (length pre) (length pre + length s) = Ok (pre ++ s' ++ post) /\
    Permutation s s' /\ sorted lt s'.
Proof. exact @sort_total. Qed.
Print Assumptions C13_sort_sorts.

Example C13_nat_order : strict_weak Nat.ltb.
Proof.
  split; intros; rewrite ?Nat.ltb_lt, ?Nat.ltb_ge in *; try lia.
Qed.
Example C13_example :
  sort_range (fun a b => Ok (a <? b)) ([9; 9] ++ [5; 3; 8; 1; 3; 7; 2] ++ [0]) 2 9
  = Ok ([9; 9] ++ [1; 2; 3; 3; 5; 7; 8] ++ [0]).
Proof. reflexivity. Qed.

(** Comparisons that may fail (rational overflow): a run that ends still sorts. *)
Theorem C13_sort_partial_order_sorts : forall {A} (less : A -> A -> res bool) (lt : A -> A -> bool),
  answers less lt -> strict_weak lt -> forall pre s post r,
  sort_range less (pre ++ s ++ post) (length pre) (length pre + length s) = Ok r ->
  exists s', r = pre ++ s' ++ post /\ Permutation s s' /\ sorted lt s'.
Proof. exact @sort_partial. Qed.
Print Assumptions C13_sort_partial_order_sorts.

Example C13_partial_example :
  let less a b := if b =? 100 then Err Overflow else Ok (a <? b) in
  answers less Nat.ltb /\ sort_range less [4; 3; 2; 1] 0 4 = Ok [1; 2; 3; 4].
Proof.
  split; [|reflexivity]. intros a b x. destruct (b =? 100); [discriminate|]. intros E. injection E as <-. reflexivity.
Qed.

(** Memory safety needs no order at all: any comparator, even an inconsistent one, keeps [sort]
    inside the range and yields a permutation, or the run stops with the comparator's error. *)
Theorem C13_sort_safe_for_any_comparator : forall {A} (less : A -> A -> res bool) pre s post,
  (exists s', sort_range less (pre ++ s ++ post) (length pre) (length pre + length s) = Ok (pre ++ s' ++ post) /\ Permutation s s')
  \/ exists a b e, less a b = Err e /\ sort_range less (pre ++ s ++ post) (length pre) (length pre + length s) = Err e.
Proof. exact @sort_safe. Qed.
Print Assumptions C13_sort_safe_for_any_comparator.

Example C13_safe_example :
  sort_range (fun _ _ : nat => Ok true) [1; 2; 3; 4; 5] 0 5 = Ok [3; 2; 1; 4; 5].
Proof. reflexivity. Qed.

(** ** C35 *)
Theorem C35_crc32_is_standard : forall x, crc32 x = crc_bits (low_bits 32 x).
Proof. exact crc32_bits. Qed.
Print Assumptions C35_crc32_is_standard.
Example C35_deadbeef : crc32 0xDEADBEEF = 0x1A5A601F%N.
Proof. reflexivity. Qed.
(** the published check value: the CRC-32 of the ASCII text "123456789" *)
Example C35_check_value :
  crc_bits (flat_map (low_bits 8) [0x31; 0x32; 0x33; 0x34; 0x35; 0x36; 0x37; 0x38; 0x39]%N) = 0xCBF43926%N.
Proof. vm_compute. reflexivity. Qed.

Theorem C35_crc32_8_is_standard : forall x, (x < 256)%N -> crc32_8 x = crc_bits (low_bits 8 x).
Proof. exact crc32_8_bits. Qed.
Print Assumptions C35_crc32_8_is_standard.
Example C35_crc8_example : (0x61 < 256)%N /\ crc32_8 0x61 = 0xE8B7BE43%N.
Proof. split; reflexivity. Qed.

Theorem C35_crc32_injective : forall x y, (x < 2 ^ 32)%N -> (y < 2 ^ 32)%N -> crc32 x = crc32 y -> x = y.
Proof. exact crc32_inj. Qed.
Print Assumptions C35_crc32_injective.
Theorem C35_crc32_in_range : forall x, (x < 2 ^ 32)%N -> (crc32 x < 2 ^ 32)%N.
Proof. exact crc32_lt. Qed.
Print Assumptions C35_crc32_in_range.
Theorem C35_crc32_8_injective : forall x y, (x < 256)%N -> (y < 256)%N -> crc32_8 x = crc32_8 y -> x = y.
Proof. exact crc32_8_inj. Qed.
Print Assumptions C35_crc32_8_injective.
(** The checksum is affine over xor: sums (xors) of checksums, which the expression layer uses as
    keys for commutative nodes, can therefore be predicted and forged. *)
Theorem C35_crc32_affine : forall x y z, (x < 2 ^ 32)%N -> (y < 2 ^ 32)%N -> (z < 2 ^ 32)%N ->
  crc32 (N.lxor (N.lxor x y) z) = N.lxor (N.lxor (crc32 x) (crc32 y)) (crc32 z).
Proof. exact crc32_affine. Qed.
Print Assumptions C35_crc32_affine.
Example C35_affine_example : (1 < 2 ^ 32 /\ 2 < 2 ^ 32 /\ 4 < 2 ^ 32)%N /\
  crc32 7 = N.lxor (N.lxor (crc32 1) (crc32 2)) (crc32 4).
Proof. vm_compute. auto. Qed.

(** ** C36 *)
Theorem C36_push_conses : forall {A} (dflt : A) t v, tpush dflt t v = Ok (v :: t).
Proof. exact @tpush_spec. Qed.
Print Assumptions C36_push_conses.
Theorem C36_append_snocs : forall {A} (dflt : A) t v, tappend dflt t v = Ok (t ++ [v]).
Proof. exact @tappend_spec. Qed.
Print Assumptions C36_append_snocs.
Theorem C36_pop_unconses : forall {A} (x : A) t, tpop (x :: t) = Ok (x, t).
Proof. exact @tpop_spec. Qed.
Print Assumptions C36_pop_unconses.
Theorem C36_get_reads : forall {A} (t : list A) i d, i < length t -> tget t i = Ok (nth i t d).
Proof. exact @tget_spec. Qed.
Print Assumptions C36_get_reads.
Theorem C36_set_writes : forall {A} (t : list A) i v, i < length t ->
  exists t', tset t i v = Ok t' /\ length t' = length t /\
    forall j, nth_error t' j = if j =? i then Some v else nth_error t j.
Proof. exact @tset_spec. Qed.
Print Assumptions C36_set_writes.
Theorem C36_back_is_last : forall {A} (t : list A) x, tback (t ++ [x]) = Ok x.
Proof. exact @tback_spec. Qed.
Print Assumptions C36_back_is_last.
Theorem C36_apply : forall {A B} (t : list A) (l : list A -> B), tapply t l = Ok (l t).
Proof. exact @tapply_spec. Qed.
Print Assumptions C36_apply.
Theorem C36_apply_reverse : forall {A B} (t : list A) (l : list A -> B), tapply_reverse t l = Ok (l (rev t)).
Proof. exact @tapply_reverse_spec. Qed.
Print Assumptions C36_apply_reverse.
Theorem C36_mutate_maps : forall {A} f (t : list A), tmutate f t = Ok (map f t).
Proof. exact @tmutate_spec. Qed.
Print Assumptions C36_mutate_maps.
(** find_t returns the first index whose type matches, and compiles exactly when there is one. *)
Theorem C36_find_first : forall {A T} (ty : A -> T) ty_eqb t e i,
  (forall a b, ty_eqb a b = true <-> a = b) ->
  find_t ty ty_eqb t e = Ok i <->
  (exists x, nth_error t i = Some x /\ ty x = e) /\ forall j x, j < i -> nth_error t j = Some x -> ty x <> e.
Proof. exact @find_t_spec. Qed.
Print Assumptions C36_find_first.
Example C36_tuple_examples :
  tpush 0 [1; 2; 3] 9 = Ok [9; 1; 2; 3] /\ tappend 0 [1; 2; 3] 9 = Ok [1; 2; 3; 9] /\
  tpop [1; 2; 3] = Ok (1, [2; 3]) /\ find_t Nat.odd Bool.eqb [2; 4; 5; 7] true = Ok 2 /\
  tapply_reverse [1; 2; 3] (fun l => l) = Ok [3; 2; 1] /\ tset [1; 2; 3] 1 7 = Ok [1; 7; 3].
Proof. repeat split; reflexivity. Qed.

(** split<I>: correct for I > 0 only. *)
Theorem C36_split_partial : forall {A} (t : list A) i, 0 < i <= length t -> tsplit t i = Ok (firstn i t, skipn i t).
Proof. exact @tsplit_spec. Qed.
Print Assumptions C36_split_partial.
Example C36_split_example : tsplit [1; 2; 3; 4] 1 = Ok ([1], [2; 3; 4]).
Proof. reflexivity. Qed.
Theorem C36_split_zero_refuted : exists t : list nat, tsplit t 0 <> Ok (firstn 0 t, skipn 0 t).
Proof. exists [1]. discriminate. Qed.
Print Assumptions C36_split_zero_refuted.
(** every split<0> loses the whole tuple *)
Theorem C36_split_zero_loses_all : forall {A} (t : list A), tsplit t 0 = Ok ([], []).
Proof. exact @tsplit_zero. Qed.
Print Assumptions C36_split_zero_loses_all.

(** split_drop<I>: correct only when the indexed element is the last one (and I > 0); for every
    I > 0 it drops the last element instead of the indexed one. *)
Theorem C36_split_drop_partial : forall {A} (t : list A) i, 0 < i -> S i = length t ->
  tsplit_drop t i = Ok (firstn i t, skipn (S i) t).
Proof. exact @tsplit_drop_last. Qed.
Print Assumptions C36_split_drop_partial.
Example C36_split_drop_example : tsplit_drop [1; 2; 3] 2 = Ok ([1; 2], []).
Proof. reflexivity. Qed.
Theorem C36_split_drop_drops_last : forall {A} (t : list A) i, 0 < i < length t ->
  tsplit_drop t i = Ok (firstn i t, removelast (skipn i t)).
Proof. exact @tsplit_drop_spec. Qed.
Print Assumptions C36_split_drop_drops_last.
Theorem C36_split_drop_refuted : exists (t : list nat) i, 0 < i < length t /\
  tsplit_drop t i <> Ok (firstn i t, skipn (S i) t).
Proof. exists [1; 2; 3], 1. split; [simpl; lia|discriminate]. Qed.
Print Assumptions C36_split_drop_refuted.
(** split_at_type does not consume the matching element *)
Theorem C36_split_at_type_refuted : exists (t : list nat) e i,
  find_t (fun x => x) Nat.eqb t e = Ok i /\ 0 < i /\
  split_at_type (fun x => x) Nat.eqb t e <> Ok (firstn i t, skipn (S i) t).
Proof. exists [1; 2; 3], 2, 1. repeat split; [lia|discriminate]. Qed.
Print Assumptions C36_split_at_type_refuted.

(** ** C37 *)
(** Any history of push / pop(n) / peek / peek(i) / clear / empty allowed by the list semantics
    runs without error and observes exactly what the list semantics observes. *)
Theorem C37_stack_is_lifo : forall {A} (cells : list A) os outs, (N.of_nat (length cells) < 2 ^ 64)%N ->
  sem_ops (length cells) [] os = Some outs -> run_ops (mk_stack cells 0) os = Ok outs.
Proof. intros A cells os outs H E. exact (run_ops_sim os (mk_stack cells 0) [] outs (fresh_rep cells H) E). Qed.
Print Assumptions C37_stack_is_lifo.
Example C37_history :
  let os := [OpPush 1; OpPush 2; OpPush 3; OpPeek; OpPeekAt 3; OpPopN 2; OpPush 4; OpPopN 1; OpPopN 1; OpEmpty] in
  sem_ops 3 [] os = Some [OutNone; OutNone; OutNone; OutVal 3; OutVal 1; OutVal 2; OutNone; OutVal 4; OutVal 1; OutBool true] /\
  run_ops (mk_stack [0; 0; 0] 0) os = Ok [OutNone; OutNone; OutNone; OutVal 3; OutVal 1; OutVal 2; OutNone; OutVal 4; OutVal 1; OutBool true].
Proof. split; reflexivity. Qed.

(** A push beyond the capacity is detected. *)
Theorem C37_push_full : forall {A} (s : stack A) l x, rep s l -> length l = length (data s) -> s_push s x = Err OutOfBounds.
Proof. exact @push_full. Qed.
Print Assumptions C37_push_full.
Example C37_full_example : rep (mk_stack [1; 2] 2) [2; 1] /\ length [2; 1] = length (data (mk_stack [1; 2] 2)).
Proof. split; [|reflexivity]. split; [reflexivity|]. split; [reflexivity|]. exists []. reflexivity. Qed.

(** pop() is not the inverse of push: it returns the stale cell above the top ... *)
Theorem C37_pop_reads_above_top : forall {A} (s : stack A) l x s1, rep s l -> s_push s x = Ok s1 ->
  s_pop0 s1 = (y <- get (data s) (S (length l));; Ok (y, mk_stack (data s1) (count s))).
Proof. exact @pop0_stale. Qed.
Print Assumptions C37_pop_reads_above_top.
(** ... so the element just pushed is not what comes back, and on a full stack the read is out of
    bounds. *)
Theorem C37_pop_refuted : exists (s s1 s2 : stack nat) x y, s_push s x = Ok s1 /\ s_pop0 s1 = Ok (y, s2) /\ y <> x.
Proof. exists (mk_stack [0; 0] 0), (mk_stack [5; 0] 1), (mk_stack [5; 0] 0), 5, 0. repeat split. discriminate. Qed.
Print Assumptions C37_pop_refuted.
Theorem C37_pop_full_refuted : exists (s s1 : stack nat) x, s_push s x = Ok s1 /\ s_pop0 s1 = Err OutOfBounds.
Proof. exists (mk_stack [0] 0), (mk_stack [5] 1), 5. split; reflexivity. Qed.
Print Assumptions C37_pop_full_refuted.
