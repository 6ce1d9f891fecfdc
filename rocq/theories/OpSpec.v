(* Specification of the operations on tables: sets of rows whose columns are named by markers. *)
From Coq Require Import List ZArith Bool.
From Verif Require Import ColumnModel ScanModel ScanSpec TrieModel TrieScanSpec OpModel.
Import ListNotations.
Local Open Scope nat_scope.

(* the value of the row r in the column x, if the columns are named cols *)
Fixpoint lookup (cols : list marker) (r : row) (x : marker) : option value :=
  match cols, r with
  | y :: cols', v :: r' => if x =? y then Some v else lookup cols' r' x
  | _, _ => None
  end.
(* q has the values of r in the columns xs *)
Definition part_of (cols : list marker) (r : row) (xs : list marker) (q : row) : Prop :=
  map Some q = map (lookup cols r) xs.

(* The input o is a table with n columns and the rows in P: None only if there are none.  strict: its
   scans report the end of a column. *)
Definition reads (n : nat) (P : row -> Prop) (sc : triescan) (strict : bool) (o : option (tstate sc)) : Prop :=
  match o with
  | None => forall r, length r = n -> ~ P r
  | Some s => exists types tau, explores n types tau sc strict s /\ forall r, length r = n -> (P r <-> in_tree tau [] r)
  end.
(* a table: the names of its columns, its rows and the input *)
Record table (sc : triescan) : Type := mk_table { cols : list marker; rows : row -> Prop; input : option (tstate sc) }.
Arguments cols {sc}. Arguments rows {sc}. Arguments input {sc}.
Definition table_ok {sc : triescan} (strict : bool) (T : table sc) : Prop := reads (length (cols T)) (rows T) sc strict (input T).

(* the natural join *)
Definition joined {sc : triescan} (output : list marker) (Ts : list (table sc)) (r : row) : Prop :=
  forall T, In T Ts -> exists q, part_of output r (cols T) q /\ rows T q.

(* the columns xs are some of the columns ys, in the same order *)
Inductive subsequence : list marker -> list marker -> Prop :=
| sub_nil : forall ys, subsequence [] ys
| sub_skip : forall xs y ys, subsequence xs ys -> subsequence xs (y :: ys)
| sub_take : forall xs y ys, subsequence xs ys -> subsequence (y :: xs) (y :: ys).
