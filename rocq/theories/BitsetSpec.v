(** Specification of sets of storage types. *)
From Coq Require Import List NArith Bool.
From Verif Require Import BitsetModel.
Import ListNotations.
Local Open Scope N_scope.

(** The set of numbers that a word stands for: its digits that are one. *)
Definition elements (a : word) (i : N) : Prop := N.testbit a i = true.
(** A word of w bits *)
Definition fits (w : N) (a : word) : Prop := a < 2 ^ w.
(** A set of storage types: only numbers below 5 *)
Definition type_set (a : word) : Prop := a < 2 ^ 5.
Definition has_type (a : word) (t : storage_type) : Prop := elements a (order t).
