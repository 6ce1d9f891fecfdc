(** Specification for the table manager, independent of how tables are stored or merged. *)
From Coq Require Import List Arith ZArith Bool Sorted.
From Verif Require Import TableModel.
Import ListNotations.

(** The log of a predicate: which facts were stored at which step. Registering a predicate starts
    a new log; merging tables does not appear in it. *)
Definition log1 (l : tag -> list (nat * list row)) (o : op) (p : tag) : list (nat * list row) :=
  match o with
  | OpRegister q _ => if p =? q then [] else l p
  | OpEdb q sources => if (p =? q) && negb (length sources =? 0) then l p ++ [(0, concat sources)] else l p
  | OpStep s results =>
      l p ++ map (fun qr => (s, snd qr))
                 (filter (fun qr => (fst qr =? p) && negb (length (snd qr) =? 0)) results)
  | OpCombine _ _ _ | OpCombinePredicate _ => l p
  end.

Definition log (ops : list op) : tag -> list (nat * list row) :=
  fold_left log1 ops (fun _ => []).

(** Facts of [p] stored at a step in [lo, hi). *)
Definition stored (ops : list op) (p : tag) (lo hi : nat) (r : row) : Prop :=
  exists s rows, In (s, rows) (log ops p) /\ lo <= s < hi /\ In r rows.

(** A history in which every predicate receives at most one table per step, in increasing order of
    steps, at every point of the history (the engine's discipline, see EngineProps). *)
Definition ordered (ops : list op) : Prop :=
  forall before after p, ops = before ++ after -> StronglySorted lt (map fst (log before p)).

(** Rows in a list of tables. *)
Definition rows_of (m : manager) (ids : list table_id) (r : row) : Prop :=
  exists id, In id ids /\ In r (contents m id).
