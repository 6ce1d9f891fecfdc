(* Specification of operation trees and projections. *)
From Coq Require Import List ZArith Bool.
From Verif Require Import ColumnModel ScanModel ScanSpec TrieModel TrieSpec TrieScanSpec OpModel OpSpec ProjModel.
From Verif Require PermModel.
Import ListNotations.
Local Open Scope nat_scope.

(* The trie holds the rows in the set P, of n columns: an operation that reads it sees these rows, and
   its methods answer for them.  (A table without rows may be stored with another number of columns.) *)
Definition holds (n : nat) (P : row -> Prop) (tr : trie) : Prop :=
  reads n P generic true (leaf tr) /\ (0 < n -> (exists r, length r = n /\ P r) -> presents n P tr) /\
  ((forall r, length r = n -> ~ P r) -> num_rows tr = 0).

Section Meaning.
(* the rows of the stored tables *)
Variable content : trie -> row -> Prop.

(* the rows of an operation, as relational algebra *)
Fixpoint meaning (o : operation) (r : row) : Prop :=
  match o with
  | Leaf _ tr => content tr r
  | Join ms subs =>
      (fix all (l : list operation) : Prop :=
         match l with [] => True | s :: l' => (exists q, part_of ms r (markers s) q /\ meaning s q) /\ all l' end) subs
  | Union _ subs =>
      (fix some (l : list operation) : Prop := match l with [] => False | s :: l' => meaning s r \/ some l' end) subs
  | Subtract main subs =>
      meaning main r /\
      (fix none (l : list operation) : Prop :=
         match l with [] => True | s :: l' => ~ (exists q, part_of (markers main) r (markers s) q /\ meaning s q) /\ none l' end) subs
  end.

(* the operation is well formed: the columns of the subnodes of a join are among the columns of the
   result, in the same order, and every column of the result is a column of a subnode *)
Fixpoint formed (o : operation) : Prop :=
  match o with
  | Leaf ms tr => holds (length ms) (content tr) tr
  | Join ms subs =>
      subs <> [] /\ NoDup ms /\ (forall x, In x ms -> exists s, In s subs /\ In x (markers s)) /\
      (fix all (l : list operation) : Prop := match l with [] => True | s :: l' => (formed s /\ subsequence (markers s) ms) /\ all l' end) subs
  | Union ms subs =>
      (fix all (l : list operation) : Prop := match l with [] => True | s :: l' => (formed s /\ length (markers s) = length ms) /\ all l' end) subs
  | Subtract main subs =>
      formed main /\ NoDup (markers main) /\
      (fix all (l : list operation) : Prop := match l with [] => True | s :: l' => (formed s /\ subsequence (markers s) (markers main)) /\ all l' end) subs
  end.
End Meaning.

(* how often operations are nested *)
Fixpoint depth (o : operation) : nat :=
  match o with
  | Leaf _ _ => 0
  | Join _ subs | Union _ subs => S (list_max (map depth subs))
  | Subtract main subs => S (max (depth main) (list_max (map depth subs)))
  end.

(* the rows of a table with columns input, restricted to the columns output (in the order of output) *)
Definition projection (input : list marker) (P : row -> Prop) (output : list marker) (q : row) : Prop :=
  exists r, length r = length input /\ P r /\ part_of input r output q.
(* s has the values of r; the value of column i is in column get p i *)
Definition arranged (p : PermModel.perm) (r s : row) : Prop :=
  length s = length r /\ forall i, i < length r -> nth_error s (PermModel.get p i) = nth_error r i.
