(* Model of nemo-physical/src/tabular/buffer/{tuple_buffer,sorted_tuple_buffer}.rs, tabular/{trie,
   triescan,rowscan}.rs, columnar/intervalcolumn.rs and columnar/intervalcolumn/interval_lookup/*.rs.

   A storage value (datatypes/storage_value.rs) is a storage type and a number: for u32, u64 and i64
   the value itself, for Float and Double the rank of the value in the order on floats (as in
   ColumnModel.v).  Columns are lists of values and their scans are cursors: what column builders and
   column scans do is the subject of C17_column_contents and C18_scan_is_cursor.  What is kept once
   per storage type in the code is a function from storage types here. *)
From Coq Require Import List ZArith Bool.
From Verif Require Import ColumnModel ColumnSpec ScanModel.
Import ListNotations.
Local Open Scope nat_scope.

(* StorageTypeName (storage_type_name.rs:9-34): the order of the variants is the order of types *)
Inductive stype : Type := Id32 | Id64 | Int64 | Float | Double.
Definition all_types : list stype := [Id32; Id64; Int64; Float; Double].
Definition order (t : stype) : nat := match t with Id32 => 0 | Id64 => 1 | Int64 => 2 | Float => 3 | Double => 4 end.
Definition stype_eqb (s t : stype) : bool := order s =? order t.
(* StorageValueT *)
Definition value : Type := (stype * Z)%type.
Definition value_eqb (v w : value) : bool := stype_eqb (fst v) (fst w) && (snd v =? snd w)%Z.
Definition row : Type := list value.

(* one entry per storage type *)
Definition upd {A} (t : stype) (x : A) (f : stype -> A) : stype -> A := fun s => if stype_eqb s t then x else f s.
(* v[i] = x for a Vec *)
Definition put {A} (l : list A) (i : nat) (x : A) : res (list A) :=
  if i <? length l then Ok (set_nth i x l) else Panicked.
Fixpoint fold_res {A B} (f : A -> B -> res A) (a : A) (l : list B) : res A :=
  match l with [] => Ok a | x :: l' => bind (f a x) (fun a => fold_res f a l') end.
Fixpoint map_res {A B} (f : A -> res B) (l : list A) : res (list B) :=
  match l with [] => Ok [] | x :: l' => bind (f x) (fun y => bind (map_res f l') (fun ys => Ok (y :: ys))) end.

(* ------------------------------------------------------------------------------------------ *)
(* tuple_buffer.rs *)

(* TypedTableRecord (tuple_buffer.rs:219-230) *)
Record record : Type := mk_record { r_types : list stype; r_indices : list nat; r_length : nat }.
(* TypedTableStorage (24-36): the columns of each type *)
Definition storage : Type := stype -> list (list Z).
(* TypedTableLookup (133-145); NO_SUCCESSOR = usize::MAX is None *)
Definition lookup : Type := list (option nat).
Definition num_types : nat := 5.

(* push_tuple (40-50) *)
Fixpoint push_tuple (tuple : row) (indices : list nat) (st : storage) : res storage :=
  match tuple, indices with
  | (t, v) :: tuple', i :: indices' =>
      bind (index (st t) i) (fun c =>
      push_tuple tuple' indices' (upd t (set_nth i (c ++ [v]) (st t)) st))
  | _, _ => Ok st
  end.

(* initialize_new_subtable (61-86) *)
Fixpoint new_columns (types : list stype) (st : storage) : storage * list nat :=
  match types with
  | [] => (st, [])
  | t :: types' =>
      let '(st', is) := new_columns types' (upd t (st t ++ [[]]) st) in (st', length (st t) :: is)
  end.

(* the loop of add_new_lookup_trie_ (198-213) *)
Fixpoint fill_lookup (tr : lookup) (missing : list stype) (current next new_id : nat) : res lookup :=
  match missing with
  | [] => Ok tr
  | [t] => put tr (current + order t) (Some new_id)
  | t :: missing' =>
      bind (put tr (current + order t) (Some next)) (fun tr =>
      fill_lookup tr missing' next (next + num_types) new_id)
  end.
(* add_new_lookup_trie_ (182-215) *)
Definition add_lookup (tr : lookup) (missing : list stype) (block new_id : nat) : res lookup :=
  fill_lookup (tr ++ repeat None ((length missing - 1) * num_types)) missing block (length tr) new_id.
(* subtable_id (156-180) *)
Fixpoint subtable_id (tr : lookup) (types : list stype) (block num : nat) : res (lookup * option nat) :=
  match types with
  | [] => Ok (tr, Some block)
  | t :: types' =>
      bind (index tr (block + order t)) (fun next =>
      match next with
      | None => bind (add_lookup tr types block num) (fun tr => Ok (tr, None))
      | Some b => subtable_id tr types' b num
      end)
  end.

(* TupleBuffer (234-264), without patterns (see FilterModel): tb_current holds the values of the
   current tuple received so far *)
Record tuple_buffer : Type := mk_buffer {
  tb_tables : list record; tb_lookup : lookup; tb_storage : storage; tb_current : row; tb_columns : nat }.
(* new (266-292) *)
Definition buffer_new (columns : nat) : tuple_buffer :=
  mk_buffer [] (repeat None num_types) (fun _ => []) [] columns.

(* write_tuple (325-348) *)
Definition write_tuple (tuple : row) (b : tuple_buffer) : res tuple_buffer :=
  let types := map fst tuple in
  bind (subtable_id (tb_lookup b) types 0 (length (tb_tables b))) (fun r =>
  let '(tr, found) := r in
  match found with
  | Some id =>
      bind (index (tb_tables b) id) (fun rc =>
      bind (push_tuple tuple (r_indices rc) (tb_storage b)) (fun st =>
      Ok (mk_buffer (set_nth id (mk_record (r_types rc) (r_indices rc) (r_length rc + 1)) (tb_tables b))
            tr st [] (tb_columns b))))
  | None =>
      let '(st, is) := new_columns types (tb_storage b) in
      bind (push_tuple tuple is st) (fun st =>
      Ok (mk_buffer (tb_tables b ++ [mk_record types is 1]) tr st [] (tb_columns b)))
  end).

(* add_tuple_value (355-364) *)
Definition add_tuple_value (b : tuple_buffer) (v : value) : res tuple_buffer :=
  if length (tb_current b) <? tb_columns b then
    let tuple := tb_current b ++ [v] in
    if tb_columns b <=? length tuple then write_tuple tuple b
    else Ok (mk_buffer (tb_tables b) (tb_lookup b) (tb_storage b) tuple (tb_columns b))
  else Panicked.
(* drop_current_tuple (392-394) *)
Definition drop_current (b : tuple_buffer) : tuple_buffer :=
  mk_buffer (tb_tables b) (tb_lookup b) (tb_storage b) [] (tb_columns b).
(* size (415-420) *)
Definition buffer_size (b : tuple_buffer) : nat := list_sum (map r_length (tb_tables b)).
(* TypedTableStorage::stored_value, TupleBuffer::stored_value (89-108, 435-449) *)
Definition stored_value (b : tuple_buffer) (id i column : nat) : res value :=
  bind (index (tb_tables b) id) (fun rc =>
  bind (index (r_types rc) column) (fun t =>
  bind (index (r_indices rc) column) (fun c =>
  bind (index (tb_storage b t) c) (fun col =>
  bind (index col i) (fun v => Ok (t, v)))))).

(* ------------------------------------------------------------------------------------------ *)
(* sorted_tuple_buffer.rs *)

(* the loop in new (29-36) *)
Fixpoint starts (last : nat) (l : list nat) : list nat :=
  match l with [] => [] | n :: l' => (last + n) :: starts (last + n) l' end.
Definition subtable_ids (b : tuple_buffer) : list nat := 0 :: starts 0 (map r_length (tb_tables b)).

(* get_subtable_id (66-76) *)
Fixpoint get_subtable (ends : list nat) (start id i : nat) : res (nat * nat) :=
  match ends with
  | [] => Panicked
  | e :: ends' => if i <? e then Ok (id, i - start) else get_subtable ends' e (id + 1) i
  end.
Definition get_subtable_id (ids : list nat) (i : nat) : res (nat * nat) :=
  match ids with [] => Panicked | s :: ends => get_subtable ends s 0 i end.

(* the loop of compare_tuples (95-118) on the columns c, c+1, ...; compare_stored_values is the
   comparison of the stored values *)
Fixpoint compare_columns (b : tuple_buffer) (first second : nat * nat) (c n : nat) : res comparison :=
  match n with
  | O => Ok Eq
  | S n' =>
      bind (index (tb_tables b) (fst first)) (fun r1 =>
      bind (index (tb_tables b) (fst second)) (fun r2 =>
      bind (index (r_types r1) c) (fun t1 =>
      bind (index (r_types r2) c) (fun t2 =>
      match Nat.compare (order t1) (order t2) with
      | Eq =>
          bind (stored_value b (fst first) (snd first) c) (fun v1 =>
          bind (stored_value b (fst second) (snd second) c) (fun v2 =>
          match Z.compare (snd v1) (snd v2) with
          | Eq => compare_columns b first second (c + 1) n'
          | o => Ok o
          end))
      | o => Ok o
      end))))
  end.
(* compare_tuples (81-121) *)
Definition compare_tuples (b : tuple_buffer) (i j : nat) : res comparison :=
  bind (get_subtable_id (subtable_ids b) i) (fun first =>
  bind (get_subtable_id (subtable_ids b) j) (fun second =>
  compare_columns b first second 0 (tb_columns b))).

(* slice::sort_by of the standard library, a stable sort: here insertion sort *)
Fixpoint insert_by {A} (cmp : A -> A -> res comparison) (x : A) (l : list A) : res (list A) :=
  match l with
  | [] => Ok [x]
  | y :: l' =>
      bind (cmp x y) (fun c =>
      match c with
      | Gt => bind (insert_by cmp x l') (fun l' => Ok (y :: l'))
      | _ => Ok (x :: l)
      end)
  end.
Fixpoint sort_by {A} (cmp : A -> A -> res comparison) (l : list A) : res (list A) :=
  match l with [] => Ok [] | x :: l' => bind (sort_by cmp l') (insert_by cmp x) end.

(* SortedTupleBuffer (11-23), new, sort_buffer (27-60) *)
Record sorted_buffer : Type := mk_sorted { sb_buffer : tuple_buffer; sb_order : list nat }.
Definition buffer_finalize (b : tuple_buffer) : res sorted_buffer :=
  bind (sort_by (compare_tuples b) (seq 0 (buffer_size b))) (fun o => Ok (mk_sorted b o)).
(* column_number, get_column (124-140) *)
Definition column_number (s : sorted_buffer) : nat := tb_columns (sb_buffer s).
Definition get_column (s : sorted_buffer) (column : nat) : res (list value) :=
  map_res (fun i => bind (get_subtable_id (subtable_ids (sb_buffer s)) i) (fun p =>
                    stored_value (sb_buffer s) (fst p) (snd p) column)) (sb_order s).

(* ------------------------------------------------------------------------------------------ *)
(* lookup_column.rs, interval_lookup.rs *)

(* IntervalLookupColumn and its builder (lookup_column.rs:17-29, 53-60); EMPTY = usize::MAX is None *)
Record ilookup : Type := mk_ilookup { il_lookup : list (option nat); il_simple : bool }.
Definition ilookup_new : ilookup := mk_ilookup [] false.
(* add_interval, add_empty (66-81) *)
Definition add_interval (n : nat) (l : ilookup) : ilookup :=
  let count := length (il_lookup l) in
  let simple := if (count =? 0) && (n =? 0) then true else il_simple l in
  let simple := if simple && negb (count =? n) then false else simple in
  mk_ilookup (il_lookup l ++ [Some n]) simple.
Definition add_empty (l : ilookup) : ilookup := mk_ilookup (il_lookup l ++ [None]) false.
(* interval_index (33-47), with its debug assertion *)
Definition interval_index (l : ilookup) (i : nat) : res (option nat) :=
  if il_simple l then
    bind (index (il_lookup l) i) (fun o =>
    match o with Some j => if j =? i then Ok (Some i) else Panicked | None => Panicked end)
  else index (il_lookup l) i.

(* ------------------------------------------------------------------------------------------ *)
(* intervalcolumn.rs *)

(* IntervalColumn (29-44) for each storage type: IntervalColumnT (98-109) *)
Record icol : Type := mk_icol { ic_data : list Z; ic_intervals : list nat; ic_lookup : stype -> ilookup }.
Definition icolT : Type := stype -> icol.
(* interval_bounds (57-68, 153-182) *)
Definition interval_bounds (c : icol) (previous : stype) (i : nat) : res (option (nat * nat)) :=
  bind (interval_index (ic_lookup c previous) i) (fun o =>
  match o with
  | None => Ok None
  | Some j =>
      bind (index (ic_intervals c) j) (fun a =>
      bind (index (ic_intervals c) (j + 1)) (fun b => Ok (Some (a, b))))
  end).

(* IntervalColumnBuilder (212-237) *)
Record ibuilder : Type := mk_ibuilder {
  ib_data : list Z; ib_intervals : list nat; ib_lookup : stype -> ilookup; ib_last : nat }.
Definition ibuilder_new : ibuilder := mk_ibuilder [] [] (fun _ => ilookup_new) 0.
(* add_data, finish_interval, finalize (246-275) *)
Definition add_data (v : Z) (b : ibuilder) : ibuilder :=
  mk_ibuilder (ib_data b ++ [v]) (ib_intervals b) (ib_lookup b) (ib_last b).
Definition finish_interval (t : stype) (b : ibuilder) : ibuilder :=
  if ib_last b <? length (ib_data b) then
    mk_ibuilder (ib_data b) (ib_intervals b ++ [ib_last b])
      (upd t (add_interval (length (ib_intervals b)) (ib_lookup b t)) (ib_lookup b)) (length (ib_data b))
  else
    mk_ibuilder (ib_data b) (ib_intervals b) (upd t (add_empty (ib_lookup b t)) (ib_lookup b)) (length (ib_data b)).
Definition ifinalize (b : ibuilder) : icol :=
  mk_icol (ib_data b) (ib_intervals b ++ [length (ib_data b)]) (ib_lookup b).

Definition builderT : Type := stype -> ibuilder.
Definition add_valueT (v : value) (b : builderT) : builderT := upd (fst v) (add_data (snd v) (b (fst v))) b.
Definition finishT (t : stype) (b : builderT) : builderT := fun s => finish_interval t (b s).
Definition finalizeT (b : builderT) : icolT := fun s => ifinalize (b s).

(* IntervalColumnTBuilderMatrix (279-293) *)
Record matrix : Type := mk_matrix { mx_builder : builderT; mx_current : option value }.
Definition matrix_new : matrix := mk_matrix (fun _ => ibuilder_new) None.
(* commit_value, add_value, finish_interval, finalize (317-376) *)
Definition commit_value (m : matrix) : matrix :=
  match mx_current m with Some v => mk_matrix (add_valueT v (mx_builder m)) (Some v) | None => m end.
Definition matrix_add (v : value) (m : matrix) : matrix * bool :=
  match mx_current m with
  | None => (mk_matrix (mx_builder m) (Some v), true)
  | Some c => if negb (value_eqb c v) then (mk_matrix (mx_builder (commit_value m)) (Some v), true) else (m, false)
  end.
Definition matrix_finish (t : stype) (m : matrix) : matrix :=
  mk_matrix (finishT t (mx_builder (commit_value m))) None.
Definition matrix_finalize (m : matrix) : icolT := finalizeT (mx_builder m).

(* IntervalColumnTBuilderTriescan (381-393); new, add_value, finish_interval, finalize (400-461) *)
Record tbuilder : Type := mk_tbuilder { bt_builder : builderT; bt_previous : stype }.
Definition tbuilder_new (t : option stype) : tbuilder :=
  mk_tbuilder (fun _ => ibuilder_new) (match t with Some t => t | None => Id32 end).
Definition tbuilder_add (v : value) (b : tbuilder) : tbuilder := mk_tbuilder (add_valueT v (bt_builder b)) (bt_previous b).
Definition tbuilder_finish (t : stype) (b : tbuilder) : tbuilder :=
  mk_tbuilder (finishT (bt_previous b) (bt_builder b)) t.
Definition tbuilder_finalize (b : tbuilder) : icolT := finalizeT (bt_builder (tbuilder_finish Id32 b)).

(* ------------------------------------------------------------------------------------------ *)
(* trie.rs *)

(* Trie (37-43), arity, num_rows (47-66), empty, zero_arity (168-184) *)
Record trie : Type := mk_trie { tr_columns : list icolT; tr_empty_row : bool }.
Definition arity (t : trie) : nat := length (tr_columns t).
Definition num_data (c : icolT) : nat := list_sum (map (fun t => length (ic_data (c t))) all_types).
Definition num_rows (t : trie) : nat :=
  match rev (tr_columns t) with
  | c :: _ => num_data c
  | [] => if tr_empty_row t then 1 else 0
  end.
Definition trie_empty (n : nat) : trie := mk_trie (repeat (matrix_finalize matrix_new) n) false.
Definition zero_arity (e : bool) : trie := mk_trie [] e.

(* the inner loop of from_tuple_buffer (207-228): the values of one column, the tuple indices at
   which a new value starts in the previous column, and the types of the values before them *)
Fixpoint fill_column (last_column : bool) (starts_ : list nat) (types_ : list stype) (pred i : nat)
    (vals : list value) (m : matrix) (current : stype) (ints : list nat) (types : list stype)
  : res (matrix * stype * list nat * list stype) :=
  match vals with
  | [] => Ok (m, current, ints, types)
  | v :: vals' =>
      bind (match nth_error starts_ pred with
            | Some j => if j =? i then bind (index types_ pred) (fun t => Ok (matrix_finish t m, pred + 1))
                        else Ok (m, pred)
            | None => Ok (m, pred)
            end) (fun mp =>
      let '(m, new) := matrix_add v (fst mp) in
      let '(ints, types) := if new && (0 <? i) && negb last_column then (ints ++ [i], types ++ [current]) else (ints, types) in
      fill_column last_column starts_ types_ (snd mp) (i + 1) vals' m (fst v) ints types)
  end.
(* the outer loop (196-247), from column k on, n columns to go *)
Fixpoint fill_columns (s : sorted_buffer) (starts_ : list nat) (types_ : list stype) (k n : nat) : res (list icolT) :=
  match n with
  | O => Ok []
  | S n' =>
      let last_column := k =? column_number s - 1 in
      bind (get_column s k) (fun vals =>
      bind (fill_column last_column starts_ types_ 0 0 vals matrix_new Id32 [] []) (fun r =>
      let '(m, current, ints, types) := r in
      let types := if last_column then types else types ++ [current] in
      bind (if 0 <? k then
              match rev types_ with t :: _ => Ok (matrix_finish t m) | [] => Panicked end
            else Ok (commit_value m)) (fun m =>
      bind (fill_columns s ints types (k + 1) n') (fun cols =>
      Ok (matrix_finalize m :: cols)))))
  end.
(* from_tuple_buffer (187-256) *)
Definition from_tuple_buffer (s : sorted_buffer) : res trie :=
  bind (fill_columns s [] [] 0 (column_number s)) (fun cols => Ok (mk_trie cols false)).

(* the whole way of writing rows into a table: a buffer, all values of all rows, finalize,
   from_tuple_buffer (as in from_rows, trie.rs:383-409, TupleWriter and from_partial_trie_scan_dependents) *)
Definition write_rows (n : nat) (rows : list row) : res trie :=
  bind (fold_res add_tuple_value (buffer_new n) (concat rows)) (fun b =>
  bind (buffer_finalize b) from_tuple_buffer).

(* ------------------------------------------------------------------------------------------ *)
(* triescan.rs: the trait PartialTrieScan (23-58) as a record of functions on a state.  The column
   scan of a layer (ts_next, ts_seek, ts_current at a layer and for a storage type) is reached through
   scan(layer) in the code. *)
Record triescan : Type := mk_triescan {
  tstate : Type;
  ts_arity : tstate -> nat;
  ts_types : tstate -> nat -> list stype;
  ts_layer : tstate -> option nat;
  ts_down : stype -> tstate -> res tstate;
  ts_up : tstate -> res tstate;
  ts_next : nat -> nat -> stype -> tstate -> res (tstate * option Z);
  ts_seek : nat -> nat -> stype -> Z -> tstate -> res (tstate * option Z);
  ts_current : nat -> stype -> tstate -> res (option Z) }.

(* TrieScanGeneric (trie.rs:563-583) *)
Record gscan : Type := mk_gscan { g_trie : trie; g_path : list stype; g_scans : list (stype -> cursor) }.
(* partial_iterator (trie.rs:73-81) *)
Definition partial_iterator (t : trie) : gscan :=
  mk_gscan t [] (map (fun (c : icolT) s => mk_cursor 0 (length (ic_data (c s))) None) (tr_columns t)).

(* move the scan of a layer and type *)
Definition g_set (s : gscan) (k : nat) (t : stype) (c : cursor) : res gscan :=
  bind (index (g_scans s) k) (fun f => Ok (mk_gscan (g_trie s) (g_path s) (set_nth k (upd t c f) (g_scans s)))).
Definition g_get (s : gscan) (k : nat) (t : stype) : res (list Z * cursor) :=
  bind (index (tr_columns (g_trie s)) k) (fun c =>
  bind (index (g_scans s) k) (fun f => Ok (ic_data (c t), f t))).
Definition g_move (s : gscan) (k : nat) (t : stype) (x : action) : res (gscan * option Z) :=
  bind (g_get s k t) (fun dc =>
  let c := step (fst dc) x (snd dc) in
  bind (g_set s k t c) (fun s => Ok (s, ColumnSpec.value (fst dc) c))).

(* down (trie.rs:595-622) *)
Definition g_down (t : stype) (s : gscan) : res gscan :=
  bind (match rev (g_path s) with
        | [] => g_move s 0 t Reset
        | p :: _ =>
            let k := length (g_path s) in
            bind (g_get s (k - 1) p) (fun dc =>
            match position (snd dc) with
            | None => Panicked
            | Some i =>
                bind (index (tr_columns (g_trie s)) k) (fun c =>
                bind (interval_bounds (c t) p i) (fun o =>
                let '(a, b) := match o with Some ab => ab | None => (0, 0) end in
                if b <=? length (ic_data (c t)) then g_move s k t (Narrow a b) else Panicked))
            end)
        end) (fun r =>
  Ok (mk_gscan (g_trie s) (g_path s ++ [t]) (g_scans (fst r)))).
(* up (trie.rs:586-593), with its debug assertion *)
Definition g_up (s : gscan) : res gscan :=
  match g_path s with [] => Panicked | _ => Ok (mk_gscan (g_trie s) (removelast (g_path s)) (g_scans s)) end.
(* possible_types (trie.rs:632-642) *)
Definition g_types (s : gscan) (k : nat) : list stype :=
  match nth_error (tr_columns (g_trie s)) k with
  | Some c => filter (fun t => negb (length (ic_data (c t)) =? 0)) all_types
  | None => []
  end.
Definition layer_of {A} (l : list A) : option nat := match l with [] => None | _ => Some (length l - 1) end.
Definition generic : triescan :=
  mk_triescan gscan (fun s => arity (g_trie s)) g_types (fun s => layer_of (g_path s)) g_down g_up
    (fun _ k t s => g_move s k t Next) (fun _ k t v s => g_move s k t (Seek v))
    (fun k t s => bind (g_get s k t) (fun dc => Ok (ColumnSpec.value (fst dc) (snd dc)))).

(* the loop of contains_row and row_position (trie.rs:108-124, 140-158) *)
Fixpoint find_path (r : row) (k : nat) (s : gscan) : res (option gscan) :=
  match r with
  | [] => Ok (Some s)
  | (t, v) :: r' =>
      bind (g_down t s) (fun s =>
      bind (g_move s k t (Seek v)) (fun q =>
      if opt_eqb (snd q) (Some v) then find_path r' (k + 1) (fst q) else Ok None))
  end.
(* contains_row (trie.rs:100-127) *)
Definition contains_row (t : trie) (r : row) : res bool :=
  if negb (arity t =? length r) then Ok false
  else bind (find_path r 0 (partial_iterator t)) (fun o => Ok (match o with Some _ => true | None => false end)).
(* row_position (trie.rs:129-162) *)
Definition row_position (t : trie) (r : row) : res (option nat) :=
  if negb (arity t =? length r) then Ok None
  else if arity t =? 0 then Ok None
  else
    bind (find_path r 0 (partial_iterator t)) (fun o =>
    match o with
    | None => Ok None
    | Some s =>
        match rev r with
        | [] => Panicked
        | (ty, _) :: _ => bind (g_get s (arity t - 1) ty) (fun dc => Ok (position (snd dc)))
        end
    end).

(* ------------------------------------------------------------------------------------------ *)
(* rowscan.rs *)

Section RowScan.
Variable sc : triescan.

(* RowScan (107-131); the vectors of PossibleTypes (14-82) are kept as one list of types and one index
   into it for every layer *)
Record rowscan : Type := mk_rowscan {
  rs_scan : tstate sc; rs_empty : bool; rs_types : list (list stype); rs_used : list nat;
  rs_single : phase; rs_existential : nat; rs_row : row; rs_change : nat }.

(* new (138-162) *)
Definition rowscan_new (s : tstate sc) (existential ignore_last : nat) : rowscan :=
  let n := ts_arity sc s in
  let types := map (ts_types sc s) (seq 0 n) in
  mk_rowscan s ((n =? 0) || existsb (fun l => match l with [] => true | _ => false end) types)
    types (repeat 0 n) Start existential (repeat (Id32, 0%Z) (n - ignore_last)) 0.

Definition with_scan (r : rowscan) (s : tstate sc) : rowscan :=
  mk_rowscan s (rs_empty r) (rs_types r) (rs_used r) (rs_single r) (rs_existential r) (rs_row r) (rs_change r).
Definition with_used (r : rowscan) (u : list nat) : rowscan :=
  mk_rowscan (rs_scan r) (rs_empty r) (rs_types r) u (rs_single r) (rs_existential r) (rs_row r) (rs_change r).

(* PossibleTypes::next_type, first_type, current_type (60-82) *)
Definition type_at (r : rowscan) (k i : nat) : res stype := bind (index (rs_types r) k) (fun l => index l i).
Definition current_type (r : rowscan) (k : nat) : res stype := bind (index (rs_used r) k) (type_at r k).
Definition first_type (r : rowscan) (k : nat) : res (rowscan * stype) :=
  bind (type_at r k 0) (fun t => bind (put (rs_used r) k 0) (fun u => Ok (with_used r u, t))).
Definition next_type (r : rowscan) (k : nat) : res (rowscan * option stype) :=
  bind (index (rs_used r) k) (fun i =>
  bind (index (rs_types r) k) (fun l =>
  if i + 1 =? length l then bind (put (rs_used r) k 0) (fun u => Ok (with_used r u, None))
  else bind (index l (i + 1)) (fun t => bind (put (rs_used r) k (i + 1)) (fun u => Ok (with_used r u, Some t))))).

Fixpoint up_times (n : nat) (s : tstate sc) : res (tstate sc) :=
  match n with O => Ok s | S n' => bind (ts_up sc s) (up_times n') end.

(* the loop of advance (210-252) *)
Fixpoint advance_loop (fuel : nat) (r : rowscan) : res rowscan :=
  match ts_layer sc (rs_scan r) with
  | None => Ok r
  | Some k =>
      match fuel with
      | O => Fuel
      | S fuel' =>
          bind (current_type r k) (fun t =>
          let change := if k <? rs_change r then k else rs_change r in
          let r := mk_rowscan (rs_scan r) (rs_empty r) (rs_types r) (rs_used r) (rs_single r) (rs_existential r) (rs_row r) change in
          bind (ts_next sc fuel' k t (rs_scan r)) (fun q =>
          let r := with_scan r (fst q) in
          match snd q with
          | Some _ =>
              if k =? ts_arity sc (rs_scan r) - 1 then
                bind (map_res (fun l => bind (current_type r l) (fun t =>
                                        bind (ts_current sc l t (rs_scan r)) (fun o =>
                                        match o with Some v => Ok (t, v) | None => Panicked end)))
                        (seq 0 (length (rs_row r)))) (fun values =>
                bind (up_times (rs_existential r) (rs_scan r)) (fun s =>
                Ok (mk_rowscan s (rs_empty r) (rs_types r) (rs_used r) Value (rs_existential r) values (rs_change r))))
              else
                bind (first_type r (k + 1)) (fun rt =>
                bind (ts_down sc (snd rt) (rs_scan (fst rt))) (fun s =>
                advance_loop fuel' (with_scan (fst rt) s)))
          | None =>
              bind (ts_up sc (rs_scan r)) (fun s =>
              bind (next_type (with_scan r s) k) (fun rt =>
              match snd rt with
              | Some t => bind (ts_down sc t (rs_scan (fst rt))) (fun s => advance_loop fuel' (with_scan (fst rt) s))
              | None => advance_loop fuel' (fst rt)
              end))
          end))
      end
  end.

(* advance (191-253); the subtraction in line 208 underflows if no column is reported *)
Definition advance (fuel : nat) (r : rowscan) : res rowscan :=
  if rs_empty r then Ok r
  else if (rs_existential r =? ts_arity sc (rs_scan r)) && match rs_single r with Value => true | _ => false end then
    Ok (mk_rowscan (rs_scan r) (rs_empty r) (rs_types r) (rs_used r) End (rs_existential r) (rs_row r) (rs_change r))
  else
    bind (match ts_layer sc (rs_scan r) with
          | None => bind (first_type r 0) (fun rt =>
                    bind (ts_down sc (snd rt) (rs_scan (fst rt))) (fun s => Ok (with_scan (fst rt) s)))
          | Some _ => Ok r
          end) (fun r =>
    match rs_row r with
    | [] => Panicked
    | _ =>
        advance_loop fuel
          (mk_rowscan (rs_scan r) (rs_empty r) (rs_types r) (rs_used r) (rs_single r) (rs_existential r) (rs_row r) (length (rs_row r) - 1))
    end).
(* get (255-263) *)
Definition row_get (r : rowscan) : option (row * nat) :=
  if match ts_layer sc (rs_scan r) with Some _ => true | None => false end ||
     ((rs_existential r =? ts_arity sc (rs_scan r)) && match rs_single r with Value => true | _ => false end)
  then Some (rs_row r, rs_change r) else None.
(* StreamingIterator::next, and Iterator::next (266-281) *)
Definition row_next (fuel : nat) (r : rowscan) : res (rowscan * option (row * nat)) :=
  bind (advance fuel r) (fun r => Ok (r, row_get r)).
(* all rows, each with the index of its first changed column *)
Fixpoint row_collect (fuel : nat) (r : rowscan) : res (list (row * nat)) :=
  match fuel with
  | O => Fuel
  | S fuel' =>
      bind (row_next fuel' r) (fun q =>
      match snd q with
      | None => Ok []
      | Some x => bind (row_collect fuel' (fst q)) (fun l => Ok (x :: l))
      end)
  end.

(* ------------------------------------------------------------------------------------------ *)
(* trie.rs: from_partial_trie_scan (265-336) *)

(* the builders after the first row (284-298) *)
Fixpoint first_builders (last_type : option stype) (r : row) : list tbuilder :=
  match r with
  | [] => []
  | v :: r' => tbuilder_add v (tbuilder_new last_type) :: first_builders (Some (fst v)) r'
  end.
(* the loop for a further row (305-325), from the column k on *)
Fixpoint next_builders (changed k : nat) (last_type : stype) (bs : list tbuilder) (r : row) : list tbuilder :=
  match bs, r with
  | b :: bs', v :: r' =>
      if k <? changed then b :: next_builders changed (k + 1) last_type bs' r'
      else
        let b := if k =? changed then b else tbuilder_finish last_type b in
        tbuilder_add v b :: next_builders changed (k + 1) (fst v) bs' r'
  | _, _ => bs
  end.
Definition build_rows (n : nat) (rows : list (row * nat)) : trie :=
  match rows with
  | [] => trie_empty n
  | (first, _) :: rest =>
      mk_trie (map tbuilder_finalize
        (fold_left (fun bs rc => next_builders (snd rc) 0 Id32 bs (fst rc)) rest (first_builders None first))) false
  end.
Definition from_partial_trie_scan (fuel : nat) (s : tstate sc) (cut_layers : nat) : res trie :=
  if ts_arity sc s <? cut_layers then Panicked
  else
    let n := ts_arity sc s - cut_layers in
    if n =? 0 then Ok (zero_arity true)
    else bind (row_collect fuel (rowscan_new s cut_layers cut_layers)) (fun rows => Ok (build_rows n rows)).
End RowScan.

(* Trie::row_iterator (trie.rs:90-93), collected *)
Definition row_iterator (fuel : nat) (t : trie) : res (list row) :=
  bind (row_collect generic fuel (rowscan_new generic (partial_iterator t) 0 0)) (fun l => Ok (map fst l)).

Definition demo_rows : list row :=
  [ [(Int64, 6%Z); (Id32, 102%Z)]; [(Id32, 0%Z); (Int64, (-2)%Z)]; [(Id32, 0%Z); (Id32, 20%Z)];
    [(Int64, 6%Z); (Id32, 100%Z)]; [(Id32, 0%Z); (Int64, (-2)%Z)]; [(Int64, 5%Z); (Float, 1%Z)] ].
