(* Specification of the stored tables: what a database should contain after a history of calls. *)
From Coq Require Import List ZArith Bool Arith Permutation.
From Verif Require Import ColumnModel ScanModel TrieModel TrieSpec TrieScanSpec OpModel OpSpec ProjModel ProjSpec StoreModel.
From Verif Require PermModel PermProps.
Import ListNotations.
Local Open Scope nat_scope.

(* a permutation of the columns of tables with n columns *)
Definition permutes (n : nat) (p : perm) : Prop := PermProps.built p /\ forall i, n <= i -> PermModel.get p i = i.

(* The trie is a table with n columns and the rows in P: operations that read it see these rows, its methods answer
   for them, and (unless there are no columns) this is so even if there are no rows. *)
Definition good_trie (n : nat) (P : row -> Prop) (tr : trie) : Prop :=
  arity tr = n /\ holds n P tr /\ (0 < n -> presents n P tr /\ reads n P generic true (Some (partial_iterator tr))).

(* the rows of a table when its columns are arranged by p *)
Definition rearranged (n : nat) (p : perm) (P : row -> Prop) (s : row) : Prop :=
  exists r, length r = n /\ P r /\ arranged p r s.
(* the rows of a table whose arrangement by p has the rows in Q *)
Definition arranged_as (n : nat) (p : perm) (Q : row -> Prop) (r : row) : Prop :=
  exists s, length s = n /\ Q s /\ arranged p r s.

(* the sources have n columns and give these rows *)
Definition gives (n : nat) (srcs : list source) (Q : row -> Prop) : Prop :=
  srcs <> [] /\ (forall s, In s srcs -> src_arity s = n /\ exists rows, src_rows s = Some rows /\ Forall (fun r => length r = n) rows) /\
  forall r, Q r <-> exists s rows, In s srcs /\ src_rows s = Some rows /\ In r rows.

(* What was registered, for the ids 0, 1, 2, ...: the number of columns, the rows (in the default order of the columns)
   and, for a reference, the permutation with which the columns of the stored table are arranged. *)
Definition catalog : Type := list (nat * (row -> Prop) * option perm).
(* a request for the columns in order o is answered for a reference with permutation p if it does not matter which of
   the two comes first: for example, if o is the default order *)
Definition answered (n : nat) (o : perm) (ref : option perm) : Prop :=
  permutes n o /\ forall p, ref = Some p -> forall i, PermModel.get p (PermModel.get o i) = PermModel.get o (PermModel.get p i).

Section Histories.
(* hash maps are iterated in any order *)
Variable shuffle : list perm -> list perm.

Inductive step : catalog -> database -> catalog -> database -> Prop :=
(* a trie with its columns in the order o is registered as a new table *)
| s_trie cat db n Q o tr db' id : good_trie n Q tr -> permutes n o -> register_add_trie db o tr = Ok (db', id) ->
    step cat db (cat ++ [(n, arranged_as n o Q, None)]) db'
(* so are sources *)
| s_sources cat db n Q o srcs db1 id db' : 0 < n -> gives n srcs Q -> permutes n o -> register_table db n = (db1, id) ->
    db_add_sources db1 id o srcs = Ok db' ->
    step cat db (cat ++ [(n, arranged_as n o Q, None)]) db'
(* a reference to an existing table is registered; q is the permutation for the stored table *)
| s_reference cat db existing n P ref p q db1 id db' : nth_error cat existing = Some (n, P, ref) -> permutes n p ->
    match ref with None => q = p | Some p0 => PermModel.chain p0 p = Some q end ->
    register_table db n = (db1, id) -> db_add_reference db1 existing id p = Ok db' ->
    step cat db (cat ++ [(n, rearranged n p P, Some q)]) db'
(* a table is read, with its columns in some order *)
| s_read cat db id o n P ref enough db' tr : nth_error cat id = Some (n, P, ref) -> answered n o ref ->
    (forall fuel, enough <= fuel -> table_trie shuffle fuel db id o = Ok (db', tr)) -> step cat db cat db'.

(* the states of a database from some state on; later tables may be deleted again *)
Inductive later (cat0 : catalog) (db0 : database) : catalog -> database -> Prop :=
| l_refl : later cat0 db0 cat0 db0
| l_step cat db cat' db' : later cat0 db0 cat db -> step cat db cat' db' -> later cat0 db0 cat' db'
| l_delete cat db cat' db' : later cat0 db0 cat db -> later cat db cat' db' -> later cat0 db0 cat (delete_from db' (current_id db)).
Definition history : catalog -> database -> Prop := later [] database_default.
End Histories.
