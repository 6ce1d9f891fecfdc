(** Model of nemo/src/table_manager.rs (SubtableHandler, TableManager) and of the
    defragmentation in nemo/src/execution/execution_engine.rs. No proofs here. *)
From Coq Require Import List Arith ZArith Bool.
Import ListNotations.

(** A row of a table: the values are the storage values of the physical layer
    (dictionary ids, integers, ...), which the table manager never inspects. *)
Definition row := list Z.
Definition row_eq_dec : forall a b : row, {a = b} + {a <> b} := list_eq_dec Z.eq_dec.

(** nemo/src/table_manager.rs:28-35  [SubtableRange] *)
Record subtable_range := mkRange { rg_start : nat; rg_len : nat }.

(** table_manager.rs:44-46 [SubtableRange::end].  [start + len - 1]; only ever called with len > 0
    (cover_range returns early for len = 0, add_combined_table for len <= 1). *)
Definition rg_end (r : subtable_range) : nat := rg_start r + rg_len r - 1.

(** table_manager.rs:49-58 [Ord for SubtableRange]: lexicographic on (start, len). *)
Definition rg_leb (a b : subtable_range) : bool :=
  if rg_start a =? rg_start b then rg_len a <=? rg_len b else rg_start a <? rg_start b.

(** Table ids [PermanentTableId] are positions in the database of tables. *)
Definition table_id := nat.

(** table_manager.rs:66-70 [SubtableHandler] *)
Record handler := mkHandler {
  single : list (nat * table_id);               (* (step, id) *)
  combined : list (subtable_range * table_id) }.

(** table_manager.rs:66 [derive(Default)] *)
Definition handler_default : handler := mkHandler [] [].

(** table_manager.rs:81-105 [normalize_range]: the for loop over [enumerate], state
    (start_set, normalized_start, normalized_len). Range is (lo, hi), hi exclusive. *)
Fixpoint normalize_loop (steps : list nat) (index : nat) (lo hi : nat)
         (start_set : bool) (nstart nlen : nat) : subtable_range :=
  match steps with
  | [] => mkRange nstart nlen
  | step :: rest =>
      let set_now := negb start_set && (lo <=? step) in
      let nstart' := if set_now then index else nstart in
      let start_set' := start_set || set_now in
      if start_set' && (hi <=? step) then mkRange nstart' nlen
      else normalize_loop rest (S index) lo hi start_set' nstart'
                          (if start_set' then S nlen else nlen)
  end.

Definition normalize_range (h : handler) (lo hi : nat) : subtable_range :=
  normalize_loop (map fst (single h)) 0 lo hi false 0 0.

(** table_manager.rs:111-113 [last_step] *)
Definition last_step (h : handler) : option nat :=
  match rev (map fst (single h)) with [] => None | s :: _ => Some s end.

(** table_manager.rs:127-130 [add_single_table] (the debug_assert is not part of release builds) *)
Definition add_single_table (h : handler) (step : nat) (id : table_id) : handler :=
  mkHandler (single h ++ [(step, id)]) (combined h).

(** [Vec::sort_by_key(|x| x.0)]: a stable sort, here insertion sort from the left
    (an element is inserted after all elements that are <= it). *)
Fixpoint insert_stable (x : subtable_range * table_id) (l : list (subtable_range * table_id)) :=
  match l with
  | [] => [x]
  | y :: r => if rg_leb (fst y) (fst x) then y :: insert_stable x r else x :: y :: r
  end.
Definition sort_stable (l : list (subtable_range * table_id)) : list (subtable_range * table_id) :=
  fold_left (fun acc x => insert_stable x acc) l [].

(** table_manager.rs:132-142 [add_combined_table] *)
Definition add_combined_table (h : handler) (lo hi : nat) (id : table_id) : handler :=
  let cover := normalize_range h lo hi in
  if rg_len cover <=? 1 then h
  else mkHandler (single h) (sort_stable (combined h ++ [(cover, id)])).

(** table_manager.rs:165-183: the inner [for] loop over [combined.iter().skip(interval_index)].
    Returns the number of inspected intervals (the increments of interval_index) and [best]. *)
Fixpoint inner_loop (l : list (subtable_range * table_id)) (current_start tstart tend : nat)
         (best : option (subtable_range * table_id)) : nat * option (subtable_range * table_id) :=
  match l with
  | [] => (0, best)
  | (iv, id) :: rest =>
      if current_start <? rg_start iv then (1, best)
      else
        let best' :=
          if (rg_start iv <? tstart) || (tend <? rg_end iv) then best
          else match best with
               | Some (b, _) => if rg_end b <? rg_end iv then Some (iv, id) else best
               | None => Some (iv, id)
               end in
        let '(n, b) := inner_loop rest current_start tstart tend best' in (S n, b)
  end.

(** table_manager.rs:162-193: the [while] loop. [None] = index panic or out of fuel. *)
Fixpoint cover_loop (fuel : nat) (h : handler) (tstart tend current_start interval_index : nat)
  : option (list table_id) :=
  match fuel with
  | 0 => None
  | S f =>
      if current_start <=? tend then
        let '(n, best) := inner_loop (skipn interval_index (combined h)) current_start tstart tend None in
        match best with
        | Some (b, id) =>
            option_map (cons id) (cover_loop f h tstart tend (rg_end b + 1) (interval_index + n))
        | None =>
            match nth_error (single h) current_start with
            | None => None
            | Some (_, id) =>
                option_map (cons id) (cover_loop f h tstart tend (S current_start) (interval_index + n))
            end
        end
      else Some []
  end.

(** table_manager.rs:144-196 [cover_range]. The fuel bounds the number of loop iterations. *)
Definition cover_range (h : handler) (lo hi : nat) : option (list table_id) :=
  match single h with
  | [] => Some []
  | _ =>
      let nr := normalize_range h lo hi in
      if rg_len nr =? 0 then Some []
      else cover_loop (S (length (combined h) + length (single h))) h
                      (rg_start nr) (rg_end nr) (rg_start nr) 0
  end.

(** ** The table manager *)

(** Predicates ([Tag]) are numbered. *)
Definition tag := nat.

(** table_manager.rs:332-341 [TableManager]; the [DatabaseInstance] is abstracted to the list of
    the contents of all permanent tables, in registration order (ids are handed out consecutively,
    tables are never deleted by the code modelled here). [predicate_to_info] is merged in. *)
Record manager := mkManager {
  db : list (list row);
  subtables : tag -> option handler;
  arities : tag -> option nat }.

Definition upd {A} (f : tag -> A) (t : tag) (a : A) : tag -> A :=
  fun t' => if t' =? t then a else f t'.

(** table_manager.rs:351-357 [TableManager::new] *)
Definition manager_new : manager := mkManager [] (fun _ => None) (fun _ => None).

Definition contents (m : manager) (id : table_id) : list row := nth id (db m) [].

(** table_manager.rs:468-482 [register_predicate]; [None] = panic on a different arity *)
Definition register_predicate (m : manager) (p : tag) (arity : nat) : option manager :=
  match arities m p with
  | Some a => if a =? arity then
                Some (mkManager (db m) (upd (subtables m) p (Some handler_default))
                                (upd (arities m) p (Some arity)))
              else None
  | None => Some (mkManager (db m) (upd (subtables m) p (Some handler_default))
                            (upd (arities m) p (Some arity)))
  end.

(** table_manager.rs:490-497 [add_subtable]: [expect]s the predicate to be registered. *)
Definition add_subtable (m : manager) (p : tag) (step : nat) (id : table_id) : option manager :=
  match subtables m p with
  | None => None
  | Some h => Some (mkManager (db m) (upd (subtables m) p (Some (add_single_table h step id)))
                              (arities m))
  end.

(** Registering a new table with given contents in the database
    (nemo-physical/src/management/database.rs register_table / add_sources / register_add_trie):
    ids are consecutive. *)
Definition register_table (m : manager) (rows : list row) : manager * table_id :=
  (mkManager (db m ++ [rows]) (subtables m) (arities m), length (db m)).

(** table_manager.rs:501-517 [add_edb]: one table at step 0 holding all sources.
    [sources] is the list of the rows of the sources; [] means no source: nothing happens. *)
Definition add_edb (m : manager) (p : tag) (sources : list (list row)) : option manager :=
  match sources with
  | [] => Some m
  | _ => let '(m', id) := register_table m (nodup row_eq_dec (concat sources)) in
         add_subtable m' p 0 id
  end.

(** table_manager.rs:627-632 [tables_in_range] *)
Definition tables_in_range (m : manager) (p : tag) (lo hi : nat) : option (list table_id) :=
  match subtables m p with None => Some [] | Some h => cover_range h lo hi end.

(** table_manager.rs:573-594 [tables_in_range_steps] *)
Definition tables_in_range_steps (m : manager) (p : tag) (lo hi : nat) : list (nat * table_id) :=
  match subtables m p with
  | None => []
  | Some h => filter (fun si => (lo <=? fst si) && (fst si <? hi)) (single h)
  end.

(** The union plan of combine_tables: rows of all tables, without duplicates
    (the trie union operation removes duplicates; order is irrelevant here). *)
Definition union_tables (m : manager) (ids : list table_id) : list row :=
  nodup row_eq_dec (concat (map (contents m) ids)).

(** table_manager.rs:635-675 [combine_tables]. Result: new manager and the returned id.
    [DatabaseInstance::execute_plan] produces no result for an empty table
    (nemo-physical/src/management/database.rs, execute_plan). Outer [None] = panic. *)
Definition combine_tables (m : manager) (p : tag) (lo hi : nat) : option (manager * option table_id) :=
  match subtables m p with
  | None => Some (m, None)
  | Some h =>
      match cover_range h lo hi with
      | None => None
      | Some [id] => Some (m, Some id)
      | Some ids =>
          match union_tables m ids with
          | [] => Some (m, None)
          | rows =>
              let '(m', id) := register_table m rows in
              Some (mkManager (db m') (upd (subtables m') p (Some (add_combined_table h lo hi id)))
                              (arities m'), Some id)
          end
      end
  end.

(** table_manager.rs:423-432 [combine_predicate] *)
Definition combine_predicate (m : manager) (p : tag) : option (manager * option table_id) :=
  match subtables m p with
  | None => Some (m, None)
  | Some h => match last_step h with
              | None => Some (m, None)
              | Some ls => combine_tables m p 0 (ls + 1)
              end
  end.

(** table_manager.rs:683-701 [execute_plan]: every non-empty permanent result table (one per
    predicate, [results]) becomes the table of that predicate at the given step; the updated
    predicates are returned. Empty results are not in the database's result map. *)
Fixpoint add_results (m : manager) (step : nat) (results : list (tag * list row))
  : option (manager * list tag) :=
  match results with
  | [] => Some (m, [])
  | (p, []) :: rest => add_results m step rest
  | (p, rows) :: rest =>
      let '(m1, id) := register_table m rows in
      match add_subtable m1 p step id with
      | None => None
      | Some m2 => match add_results m2 step rest with
                   | None => None
                   | Some (m3, ps) => Some (m3, p :: ps)
                   end
      end
  end.

(** ** Defragmentation *)

(** execution_engine.rs:34 [MAX_FRAGMENTATION] *)
Definition max_fragmentation : nat := 8.

(** The engine's fields [predicate_fragmentation], [predicate_last_union] (execution_engine.rs:74-76) *)
Record frag := mkFrag { fr_count : tag -> nat; fr_last : tag -> option nat }.
Definition frag_new : frag := mkFrag (fun _ => 0) (fun _ => None).

(** execution_engine.rs:263-293 [defrag], one iteration of the loop *)
Definition defrag1 (mf : manager * frag) (current_step : nat) (p : tag) : option (manager * frag) :=
  let '(m, f) := mf in
  let c := S (fr_count f p) in
  if c =? max_fragmentation then
    let start := match fr_last f p with Some l => l + 1 | None => 0 end in
    match combine_tables m p start (current_step + 1) with
    | None => None
    | Some (m', _) => Some (m', mkFrag (upd (fr_count f) p 0) (upd (fr_last f) p (Some current_step)))
    end
  else Some (m, mkFrag (upd (fr_count f) p c) (fr_last f)).

Fixpoint defrag (mf : manager * frag) (current_step : nat) (ps : list tag) : option (manager * frag) :=
  match ps with
  | [] => Some mf
  | p :: r => match defrag1 mf current_step p with
              | None => None
              | Some mf' => defrag mf' current_step r
              end
  end.

(** ** Fact ids *)

(** The storage type of the last value of a row. The function [cls] gives the storage type of values. *)
Definition last_class (cls : Z -> nat) (r : row) : option nat := option_map cls (hd_error (rev r)).
Definition same_class (cls : Z -> nat) (r r' : row) : bool :=
  match last_class cls r, last_class cls r' with Some a, Some b => a =? b | _, _ => false end.

(** Position of a row in a table (nemo-physical database.rs:237-258 table_row_position, trie.rs:129-163
    Trie::row_position; the trie enumerates its rows in one fixed order, here the list order). The
    values of the last column are kept in one column per storage type, and the position reported is
    the one in that column: the number of rows before it whose last value has the same storage type.
    Rows without columns have no position. *)
Fixpoint typed_position (cls : Z -> nat) (rows : list row) (r : row) : option nat :=
  match rows with
  | [] => None
  | x :: rest => if row_eq_dec x r then Some 0
                 else option_map (fun n => if same_class cls x r then S n else n) (typed_position cls rest r)
  end.
Definition row_position (cls : Z -> nat) (rows : list row) (r : row) : option nat :=
  match r with [] => None | _ => typed_position cls rows r end.

(** table_manager.rs:747-757 [find_table_row]: step of the first single table containing the row *)
Fixpoint find_row_loop (m : manager) (l : list (nat * table_id)) (r : row) : option nat :=
  match l with
  | [] => None
  | (step, id) :: rest => if in_dec row_eq_dec r (contents m id) then Some step
                          else find_row_loop m rest r
  end.
Definition find_table_row (m : manager) (p : tag) (r : row) : option nat :=
  match subtables m p with None => None | Some h => find_row_loop m (single h) r end.

(** table_manager.rs:762-780 [table_row_id] (and 787-805 [table_row_id_inmemory]):
    (row id, step). [count_rows_in_memory] of a loaded table is its number of rows. *)
Fixpoint row_id_loop (cls : Z -> nat) (m : manager) (l : list (nat * table_id)) (skipped : nat) (r : row)
  : option (nat * nat) :=
  match l with
  | [] => None
  | (step, id) :: rest =>
      match row_position cls (contents m id) r with
      | Some i => Some (skipped + i, step)
      | None => row_id_loop cls m rest (skipped + length (contents m id)) r
      end
  end.
Definition table_row_id (cls : Z -> nat) (m : manager) (p : tag) (r : row) : option (nat * nat) :=
  match subtables m p with None => None | Some h => row_id_loop cls m (single h) 0 r end.

(** table_manager.rs:812-832 [row_by_id] *)
Fixpoint row_by_id_loop (m : manager) (l : list (nat * table_id)) (skipped i : nat) : option row :=
  match l with
  | [] => None
  | (_, id) :: rest =>
      let n := length (contents m id) in
      if i <? skipped + n then nth_error (contents m id) (i - skipped)
      else row_by_id_loop m rest (skipped + n) i
  end.
Definition row_by_id (m : manager) (p : tag) (i : nat) : option row :=
  match subtables m p with None => None | Some h => row_by_id_loop m (single h) 0 i end.

(** ** Histories of table-manager calls *)

(** The calls the engine makes (execution_engine.rs:165-171, 205-209, 225-228, 263-293, 316-331, 386). *)
Inductive op :=
| OpRegister (p : tag) (arity : nat)
| OpEdb (p : tag) (sources : list (list row))
| OpStep (step : nat) (results : list (tag * list row))
| OpCombine (p : tag) (lo hi : nat)
| OpCombinePredicate (p : tag).

Definition run1 (m : manager) (o : op) : option manager :=
  match o with
  | OpRegister p a => register_predicate m p a
  | OpEdb p s => add_edb m p s
  | OpStep st rs => option_map fst (add_results m st rs)
  | OpCombine p lo hi => option_map fst (combine_tables m p lo hi)
  | OpCombinePredicate p => option_map fst (combine_predicate m p)
  end.

Fixpoint run (m : manager) (ops : list op) : option manager :=
  match ops with
  | [] => Some m
  | o :: rest => match run1 m o with None => None | Some m' => run m' rest end
  end.
