(** Model of sets of storage types: nemo-physical/src/util/bitset.rs and nemo-physical/src/datatypes/storage_type_name.rs.
    No proofs here. A word is a natural number below 2^w, with w = 64, 32 bits and so on; operations that leave this range
    are a panic (checked arithmetic, and shifts by w or more). *)
From Coq Require Import List NArith Bool.
Import ListNotations.
Local Open Scope N_scope.

Section Bits.
(** The number of bits *)
Variable w : N.
Definition word := N.

(** T::one() << index: a panic if the index is not below the number of bits, else bits beyond are lost *)
Definition one_shl (i : N) : option word := if i <? w then Some (N.shiftl 1 i mod 2 ^ w) else None.
(** ! *)
Definition not_word (a : word) : word := N.lxor a (N.ones w).
(** - *)
Definition sub_word (a b : word) : option word := if b <=? a then Some (a - b) else None.
Definition obind {A B} (o : option A) (k : A -> option B) : option B := match o with Some x => k x | None => None end.

(** bitset.rs:39-41 *)
Definition bs_empty : word := 0.
(** bitset.rs:44-49 *)
Definition bs_full (elements : N) : option word := obind (one_shl elements) (fun r => sub_word r 1).
(** bitset.rs:52-54 *)
Definition bs_single (i : N) : option word := one_shl i.
(** bitset.rs:75-82 *)
Definition bs_intersection (a b : word) : word := N.land a b.
Definition bs_union (a b : word) : word := N.lor a b.
(** bitset.rs:57-65 *)
Definition bs_set (a : word) (i : N) (value : bool) : option word :=
  if value then obind (bs_single i) (fun mask => Some (bs_union a mask))
  else obind (one_shl i) (fun b => Some (bs_intersection a (not_word b))).
(** bitset.rs:68-70 *)
Definition bs_get (a : word) (i : N) : option bool := obind (bs_single i) (fun m => Some (negb (bs_intersection a m =? bs_empty))).
(** bitset.rs:85-87: && is lazy *)
Definition bs_is_single (a : word) : option bool :=
  if negb (a =? 0) then obind (sub_word a 1) (fun b => Some (N.land a b =? 0)) else Some false.
(** bitset.rs:90-92 *)
Definition bs_subset (a b : word) : bool := bs_intersection a b =? b.

(** storage_type_name.rs:10-24 *)
Inductive storage_type := Id32 | Id64 | Int64 | Float | Double.
(** storage_type_name.rs:6, 28-34 *)
Definition num_types : nat := 5.
Definition all_types : list storage_type := [Id32; Id64; Int64; Float; Double].
(** storage_type_name.rs:39-47 *)
Definition order (t : storage_type) : N := match t with Id32 => 0 | Id64 => 1 | Int64 => 2 | Float => 3 | Double => 4 end.
(** storage_type_name.rs:51-60: else a panic *)
Definition from_order (i : N) : option storage_type :=
  match i with 0 => Some Id32 | 1 => Some Id64 | 2 => Some Int64 | 3 => Some Float | 4 => Some Double | _ => None end.
(** storage_type_name.rs:64-66 *)
Definition st_bitset (t : storage_type) : option word := bs_single (order t).
(** storage_type_name.rs:86-103 *)
Definition st_empty : word := bs_empty.
Definition st_full : option word := bs_full (N.of_nat num_types).
Definition st_intersection (a b : word) : word := bs_intersection a b.
Definition st_union (a b : word) : word := bs_union a b.
(** storage_type_name.rs:106-114 *)
Fixpoint st_loop (a : word) (l : list nat) : option (list storage_type) :=
  match l with
  | [] => Some []
  | i :: l => obind (bs_get a (N.of_nat i)) (fun b =>
      if b then obind (from_order (N.of_nat i)) (fun t => obind (st_loop a l) (fun r => Some (t :: r))) else st_loop a l)
  end.
Definition st_types (a : word) : option (list storage_type) := st_loop a (seq 0 num_types).
(** storage_type_name.rs:117-124 *)
Definition st_is_unique (a : word) : option bool := bs_is_single a.
Definition st_contains (a : word) (t : storage_type) : option bool := obind (st_bitset t) (fun b => Some (bs_subset a b)).
End Bits.
