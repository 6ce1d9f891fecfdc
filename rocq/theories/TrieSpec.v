(* Specification of tables: sorted lists of distinct rows. *)
From Coq Require Import List ZArith Bool Sorted.
From Verif Require Import ColumnModel TrieModel.
Import ListNotations.
Local Open Scope nat_scope.

(* values are ordered by their type first *)
Definition value_lt (v w : value) : Prop :=
  order (fst v) < order (fst w) \/ (fst v = fst w /\ (snd v < snd w)%Z).
(* rows of the same length are ordered lexicographically *)
Fixpoint row_lt (r s : row) : Prop :=
  match r, s with
  | v :: r', w :: s' => value_lt v w \/ (v = w /\ row_lt r' s')
  | _, _ => False
  end.
(* L lists the rows in the set P (of rows with n columns) in increasing order, without duplicates *)
Definition table_of (n : nat) (P : row -> Prop) (L : list row) : Prop :=
  StronglySorted row_lt L /\ forall r, In r L <-> length r = n /\ P r.

(* the type of the value in the last column *)
Definition last_type (r : row) : stype := fst (last r (Id32, 0%Z)).
(* The trie is a table with n columns and the rows in the set P: what its methods answer.  A row is
   numbered among the rows with the same type in the last column. *)
Definition presents (n : nat) (P : row -> Prop) (tr : trie) : Prop :=
  arity tr = n /\
  exists T, table_of n P T /\
    (exists enough, forall fuel, enough <= fuel -> row_iterator fuel tr = Ok T) /\
    num_rows tr = length T /\
    (forall r, exists b, contains_row tr r = Ok b /\ (b = true <-> In r T)) /\
    (forall T1 r T2, T = T1 ++ r :: T2 ->
       row_position tr r = Ok (Some (length (filter (fun x => stype_eqb (last_type x) (last_type r)) T1)))) /\
    (forall r, ~ In r T -> row_position tr r = Ok None).
