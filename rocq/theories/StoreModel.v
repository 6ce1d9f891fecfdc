(* Model of the tables stored in a database and of the column orders they are available in:
   nemo-physical/src/management/database/order.rs (OrderedReferenceManager), database/storage.rs (TableStorage),
   util.rs (closest_order) and the methods of DatabaseInstance that register, look up and delete tables
   (database.rs:60-360); TableManager::add_reference (nemo/src/table_manager.rs:532-557).
   Simplifications: tables have no names; a source is the list of rows (of storage values) that it writes into the
   tuple writer, or fails (the dictionary is not modelled here, nor the patterns of import filters: the input arity
   of a source is its output arity); hash maps are association lists, iterated in any order (the argument shuffle of
   closest_order); sizes in bytes are not modelled. *)
From Coq Require Import List ZArith Bool Arith.
From Verif Require Import ColumnModel ScanModel TrieModel OpModel ProjModel.
From Verif Require PermModel.
Import ListNotations.
Local Open Scope nat_scope.
Notation perm := PermModel.perm.

(* ---------- util.rs ---------- *)

(* distance (util.rs:20-51), with positions as integers *)
Definition distance_step (from inverted : perm) (st : nat * Z) (position_to : nat) : nat * Z :=
  let position_from := Z.of_nat (PermModel.get from (PermModel.get inverted position_to)) in
  let difference := (position_from - snd st)%Z in
  let penalty := if (difference <=? 0)%Z then Z.abs_nat difference else Z.to_nat (difference - 1) in
  (fst st + penalty, position_from).
(* from.last_mapped().max(to.last_mapped()).unwrap_or(0): None is less than every Some *)
Definition max_len (from to : perm) : nat :=
  match PermModel.last_mapped from, PermModel.last_mapped to with
  | Some a, Some b => max a b
  | Some a, None => a
  | None, Some b => b
  | None, None => 0
  end.
Definition distance (from to : perm) : nat :=
  fst (fold_left (distance_step from (PermModel.invert to)) (seq 0 (S (max_len from to))) (0, (-1)%Z)).
(* closest_order (util.rs:11-56): min_by keeps the first of equally good orders *)
Definition closest_order (orders : list perm) (order : perm) : option perm :=
  fold_left (fun best o =>
    match best with
    | None => Some o
    | Some b => if distance o order <? distance b order then Some o else Some b
    end) orders None.

(* ---------- storage.rs ---------- *)

Record source : Type := mk_source { src_arity : nat; src_rows : option (list row) }.
Inductive storage : Type :=
| SEmpty
| InMemory (tr : trie)
| FromSources (srcs : list source).

(* provide_table_data for one source after the other; the first failure ends the loading *)
Fixpoint provide_all (srcs : list source) : option (list row) :=
  match srcs with
  | [] => Some []
  | s :: srcs' => match src_rows s with
                  | None => None
                  | Some rows => match provide_all srcs' with Some more => Some (rows ++ more) | None => None end
                  end
  end.
(* load_sources (storage.rs:34-57), with its debug assertions; None is an error *)
Definition load_sources (srcs : list source) : res (option trie) :=
  match srcs with
  | [] => Panicked
  | s :: _ =>
      if negb (forallb (fun s' => src_arity s' =? src_arity s) srcs) then Panicked
      else match provide_all srcs with
           | None => Ok None
           | Some rows => bind (write_rows (src_arity s) rows) (fun tr => Ok (Some tr))
           end
  end.
(* TableStorage::trie (storage.rs:59-87): mem::take leaves no sources behind if the loading fails *)
Definition storage_trie (st : storage) : res (storage * option trie) :=
  match st with
  | InMemory tr => Ok (st, Some tr)
  | FromSources srcs =>
      bind (load_sources srcs) (fun o =>
      match o with
      | Some tr => Ok (InMemory tr, Some tr)
      | None => Ok (FromSources [], None)
      end)
  | SEmpty => Panicked
  end.
(* trie_in_memory (89-97) *)
Definition trie_in_memory (st : storage) : option trie := match st with InMemory tr => Some tr | _ => None end.
(* arity (99-109) *)
Definition storage_arity (st : storage) : res nat :=
  match st with
  | InMemory tr => Ok (arity tr)
  | FromSources (s :: _) => Ok (src_arity s)
  | FromSources [] => Panicked
  | SEmpty => Ok 0
  end.
(* count_rows_in_memory (111-118) *)
Definition storage_rows (st : storage) : nat := match st with InMemory tr => num_rows tr | _ => 0 end.

(* ---------- hash maps ---------- *)

Fixpoint find_key {K V} (eqb : K -> K -> bool) (k : K) (m : list (K * V)) : option V :=
  match m with
  | [] => None
  | (k', v) :: m' => if eqb k k' then Some v else find_key eqb k m'
  end.
Fixpoint put_key {K V} (eqb : K -> K -> bool) (k : K) (v : V) (m : list (K * V)) : list (K * V) :=
  match m with
  | [] => [(k, v)]
  | (k', v') :: m' => if eqb k k' then (k', v) :: m' else (k', v') :: put_key eqb k v m'
  end.

(* ---------- order.rs ---------- *)

Definition order_map : Type := list (perm * nat).
(* OrderedReferenceManager (order.rs:39-53) *)
Record manager : Type := mk_manager {
  stored_tables : list storage;
  storage_map : list (nat * order_map);
  reference_map : list (nat * (nat * perm)) }.
Definition manager_default : manager := mk_manager [] [] [].

Definition find_order (o : perm) (om : order_map) : option nat := find_key PermModel.perm_eqb o om.

(* delete_tables_from (60-72) *)
Definition delete_tables_from (m : manager) (storage_id table_id : nat) : manager :=
  mk_manager
    (firstn storage_id (stored_tables m))
    (map (fun e => (fst e, filter (fun os => snd os <? storage_id) (snd e)))
       (filter (fun e => fst e <? table_id) (storage_map m)))
    (filter (fun e => fst e <? table_id) (reference_map m)).

(* resolve_reference (79-93) *)
Definition resolve_reference (m : manager) (id : nat) (order : perm) : res (nat * perm) :=
  match find_key Nat.eqb id (reference_map m) with
  | Some (id', p) => bind (must (PermModel.chain order p)) (fun order => Ok (id', order))
  | None => Ok (id, order)
  end.

(* count_rows_in_memory (118-131); shuffle: the hash map is iterated in any order *)
Definition count_rows_in_memory (shuffle : list perm -> list perm) (m : manager) (id : nat) : res nat :=
  bind (resolve_reference m id PermModel.perm_default) (fun io =>
  match find_key Nat.eqb (fst io) (storage_map m) with
  | None => Panicked
  | Some om =>
      match shuffle (map fst om) with
      | [] => Panicked
      | o :: _ => bind (must (find_order o om)) (fun sid => bind (index (stored_tables m) sid) (fun st => Ok (storage_rows st)))
      end
  end).

(* add_storage (157-190) *)
Definition add_storage (m : manager) (id : nat) (order : perm) : res (manager * nat) :=
  bind (resolve_reference m id order) (fun io =>
  let next := length (stored_tables m) in
  match find_key Nat.eqb (fst io) (storage_map m) with
  | Some om =>
      match find_order (snd io) om with
      | Some sid => Ok (m, sid)
      | None => Ok (mk_manager (stored_tables m ++ [SEmpty])
                      (put_key Nat.eqb (fst io) (put_key PermModel.perm_eqb (snd io) next om) (storage_map m)) (reference_map m), next)
      end
  | None => Ok (mk_manager (stored_tables m ++ [SEmpty])
                  (put_key Nat.eqb (fst io) [(snd io, next)] (storage_map m)) (reference_map m), next)
  end).
(* self.stored_tables[storage_id] = st *)
Definition set_storage (m : manager) (sid : nat) (st : storage) : res manager :=
  bind (must (PermModel.set_nth (stored_tables m) sid st)) (fun ts => Ok (mk_manager ts (storage_map m) (reference_map m))).
(* add_trie (192-205) *)
Definition add_trie (m : manager) (id : nat) (order : perm) (tr : trie) : res (manager * nat) :=
  bind (add_storage m id order) (fun ms => bind (set_storage (fst ms) (snd ms) (InMemory tr)) (fun m' => Ok (m', snd ms))).
(* add_sources (207-220) *)
Definition add_sources (m : manager) (id : nat) (order : perm) (srcs : list source) : res (manager * nat) :=
  bind (add_storage m id order) (fun ms => bind (set_storage (fst ms) (snd ms) (FromSources srcs)) (fun m' => Ok (m', snd ms))).
(* add_source (222-240) *)
Definition add_source (m : manager) (id : nat) (order : perm) (s : source) : res (manager * nat) :=
  bind (add_storage m id order) (fun ms =>
  bind (index (stored_tables (fst ms)) (snd ms)) (fun st =>
  let st' := match st with FromSources srcs => FromSources (srcs ++ [s]) | _ => FromSources [s] end in
  bind (set_storage (fst ms) (snd ms) st') (fun m' => Ok (m', snd ms)))).
(* add_reference (242-267) *)
Definition add_reference (m : manager) (existing_id reference_id : nat) (p : perm) : res manager :=
  match find_key Nat.eqb existing_id (reference_map m) with
  | Some (id, q) => bind (must (PermModel.chain q p)) (fun qp =>
      Ok (mk_manager (stored_tables m) (storage_map m) (put_key Nat.eqb reference_id (id, qp) (reference_map m))))
  | None => Ok (mk_manager (stored_tables m) (storage_map m) (put_key Nat.eqb reference_id (existing_id, p) (reference_map m)))
  end.

(* the storage at an index is loaded; None is an error of a source *)
Definition load (m : manager) (sid : nat) : res (manager * option trie) :=
  bind (index (stored_tables m) sid) (fun st =>
  bind (storage_trie st) (fun r =>
  bind (set_storage m sid (fst r)) (fun m' => Ok (m', snd r)))).
(* trie_id (269-333); the result is None if a source fails *)
Definition trie_id (shuffle : list perm -> list perm) (fuel : nat) (m : manager) (id : nat) (order : perm) : res (manager * option nat) :=
  bind (resolve_reference m id order) (fun io =>
  let id := fst io in let order := snd io in
  match find_key Nat.eqb id (storage_map m) with
  | None => Panicked
  | Some om =>
      match find_order order om with
      | Some sid => bind (load m sid) (fun r => Ok (fst r, option_map (fun _ => sid) (snd r)))
      | None =>
          bind (must (closest_order (shuffle (map fst om)) order)) (fun closest =>
          bind (must (find_order closest om)) (fun sid =>
          bind (index (stored_tables m) sid) (fun st =>
          bind (storage_arity st) (fun n =>
          bind (from_reordering closest order n) (fun p =>
          bind (load m sid) (fun r =>
          match snd r with
          | None => Ok (fst r, None)
          | Some tr =>
              if PermModel.choice_is_identity (pj_choice p) then Ok (fst r, Some sid)
              else bind (apply_operation generic fuel p (partial_iterator tr)) (fun tr' =>
                   bind (add_trie (fst r) id order tr') (fun ms => Ok (fst ms, Some (snd ms))))
          end))))))
      end
  end).
(* trie_id_inmemory (335-352) and trie (354-363) *)
Definition trie_id_inmemory (m : manager) (id : nat) (order : perm) : res (option nat) :=
  bind (resolve_reference m id order) (fun io =>
  Ok (match find_key Nat.eqb (fst io) (storage_map m) with Some om => find_order (snd io) om | None => None end)).
Definition stored_trie (m : manager) (sid : nat) : res trie :=
  bind (index (stored_tables m) sid) (fun st => must (trie_in_memory st)).

(* ---------- database.rs ---------- *)

(* DatabaseInstance (database.rs:63-78), without the dictionary; table_infos has the arities *)
Record database : Type := mk_database { db_manager : manager; db_arities : list (nat * nat); db_current : nat }.
Definition database_default : database := mk_database manager_default [] 0.
(* current_id (83-85) and delete_from (88-97) *)
Definition current_id (db : database) : nat * nat := (db_current db, length (stored_tables (db_manager db))).
Definition delete_from (db : database) (at_id : nat * nat) : database :=
  mk_database (delete_tables_from (db_manager db) (snd at_id) (fst at_id))
    (filter (fun e => fst e <? fst at_id) (db_arities db)) (fst at_id).
(* table_arity (119-125) *)
Definition table_arity (db : database) (id : nat) : res nat := must (find_key Nat.eqb id (db_arities db)).
(* register_table (293-298) *)
Definition register_table (db : database) (n : nat) : database * nat :=
  (mk_database (db_manager db) (put_key Nat.eqb (db_current db) n (db_arities db)) (S (db_current db)), db_current db).
Definition with_manager (db : database) (m : manager) : database := mk_database m (db_arities db) (db_current db).
(* register_add_trie (305-316) *)
Definition register_add_trie (db : database) (order : perm) (tr : trie) : res (database * nat) :=
  let (db, id) := register_table db (arity tr) in
  bind (add_trie (db_manager db) id order tr) (fun ms => Ok (with_manager db (fst ms), id)).
(* add_sources (318-326), add_source_external and add_source_table (328-347), add_reference (349-359) *)
Definition db_add_sources (db : database) (id : nat) (order : perm) (srcs : list source) : res database :=
  bind (add_sources (db_manager db) id order srcs) (fun ms => Ok (with_manager db (fst ms))).
Definition db_add_source (db : database) (id : nat) (order : perm) (s : source) : res database :=
  bind (add_source (db_manager db) id order s) (fun ms => Ok (with_manager db (fst ms))).
Definition db_add_reference (db : database) (id reference_id : nat) (p : perm) : res database :=
  bind (add_reference (db_manager db) id reference_id p) (fun m => Ok (with_manager db m)).
(* TableManager::add_reference (table_manager.rs:532-557): a new table that refers to the table with id referenced *)
Definition table_manager_reference (db : database) (referenced n : nat) (p : perm) : res (database * nat) :=
  let (db, id) := register_table db n in
  bind (db_add_reference db id referenced p) (fun db => Ok (db, id)).

(* the table in some order: trie_id and then trie, as in the execution of plans (database.rs:600-635) and below *)
Definition table_trie (shuffle : list perm -> list perm) (fuel : nat) (db : database) (id : nat) (order : perm)
  : res (database * option trie) :=
  bind (trie_id shuffle fuel (db_manager db) id order) (fun r =>
  match snd r with
  | None => Ok (with_manager db (fst r), None)
  | Some sid => bind (stored_trie (fst r) sid) (fun tr => Ok (with_manager db (fst r), Some tr))
  end).
(* table_row_iterator (154-171), contains_row (207-238) and row_position (240-266), for rows of storage values *)
Definition default_trie (shuffle : list perm -> list perm) (fuel : nat) (db : database) (id : nat) : res (database * trie) :=
  bind (table_trie shuffle fuel db id PermModel.perm_default) (fun r => bind (must (snd r)) (fun tr => Ok (fst r, tr))).
Definition table_row_iterator (shuffle : list perm -> list perm) (fuel : nat) (db : database) (id : nat) : res (database * list row) :=
  bind (default_trie shuffle fuel db id) (fun r => bind (row_iterator fuel (snd r)) (fun rows => Ok (fst r, rows))).
Definition table_contains_row (shuffle : list perm -> list perm) (fuel : nat) (db : database) (id : nat) (r : row) : res (database * bool) :=
  bind (default_trie shuffle fuel db id) (fun q => bind (contains_row (snd q) r) (fun b => Ok (fst q, b))).
Definition table_row_position (shuffle : list perm -> list perm) (fuel : nat) (db : database) (id : nat) (r : row) : res (database * option nat) :=
  bind (default_trie shuffle fuel db id) (fun q => bind (row_position (snd q) r) (fun b => Ok (fst q, b))).
