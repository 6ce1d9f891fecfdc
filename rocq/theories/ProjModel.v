(* Model of nemo-physical/src/tabular/operations/projectreorder.rs, of
   Trie::from_partial_trie_scan_dependents (tabular/trie.rs:427-545) and of the evaluation of operation
   trees, DatabaseInstance::evaluate_tree_leaf, evaluate_operation and execute_tree
   (management/database.rs:411-535), for the operations join, union, subtract and project/reorder. *)
From Coq Require Import List ZArith Bool Arith.
From Verif Require Import ColumnModel ScanModel TrieModel OpModel.
From Verif Require PermModel.
Import ListNotations.
Local Open Scope nat_scope.

(* an operation of SortedChoice that panics *)
Definition must {A} (o : option A) : res A := match o with Some a => Ok a | None => Panicked end.

(* SortedChoice::is_valid (ordered_choice.rs:96-117), a debug assertion of from_map *)
Fixpoint distinct (l : list nat) : bool :=
  match l with [] => true | x :: l' => negb (existsb (Nat.eqb x) l') && distinct l' end.
Definition choice_valid (c : PermModel.choice) : bool :=
  distinct (map snd (PermModel.ch_map c)) &&
  forallb (fun iv => (snd iv <? length (PermModel.ch_map c)) && (fst iv <? PermModel.ch_domain c)) (PermModel.ch_map c).
Definition checked (c : PermModel.choice) : res PermModel.choice := if choice_valid c then Ok c else Panicked.

(* GeneratorProjectReorder (projectreorder.rs:30-38) *)
Record projector : Type := mk_projector { pj_choice : PermModel.choice; pj_last : nat; pj_arity : nat }.
(* new (40-68), with the debug assertion of SortedChoice::from_transformation (ordered_choice.rs:38) *)
Definition project_new (output input : list marker) : res projector :=
  if length input <? length output then Panicked
  else
    bind (must (PermModel.choice_from_transformation Nat.eqb input output)) (fun c =>
    bind (checked c) (fun c =>
    Ok (mk_projector c
          (fold_left (fun last x => match position_of x input with Some p => if last <? p then p else last | None => last end) output 0)
          (length output)))).
(* from_reordering (70-91) *)
Definition from_reordering (source target : PermModel.perm) (n : nat) : res projector :=
  bind (checked (PermModel.mkChoice
    (fold_left (fun m i => PermModel.insert_map m (PermModel.get source i) (PermModel.get target i)) (seq 0 n) []) n)) (fun c =>
  Ok (mk_projector c (n - 1) n)).

(* the columns of a row in a new order: tuple_buffer.add_tuple_value(row[index]) *)
Definition pick (v : list nat) (r : row) : res row := map_res (index r) v.

(* apply_operation (93-128), with its debug assertions; the statement in lines 97-99 has no effect *)
Definition apply_operation (sc : triescan) (fuel : nat) (p : projector) (s : tstate sc) : res trie :=
  if ts_arity sc s <=? pj_last p then Panicked
  else
    let cut := ts_arity sc s - pj_last p - 1 in
    bind (must (PermModel.as_vector (pj_choice p))) (fun v =>
    match v with
    | [] => bind (row_next sc fuel (rowscan_new sc s cut cut)) (fun q =>
              Ok (zero_arity (match snd q with Some _ => true | None => false end)))
    | _ =>
        bind (row_collect sc fuel (rowscan_new sc s cut cut)) (fun rows =>
        if existsb (fun rc => pj_last p + 1 <? length (fst rc)) rows then Panicked
        else bind (map_res (fun rc => pick v (fst rc)) rows) (write_rows (pj_arity p)))
    end).
(* apply_operation_first (130-142) *)
Definition apply_operation_first (sc : triescan) (fuel : nat) (p : projector) (s : tstate sc) : res (option row) :=
  if ts_arity sc s <=? pj_last p then Panicked
  else
    let cut := ts_arity sc s - pj_last p - 1 in
    bind (row_next sc fuel (rowscan_new sc s cut cut)) (fun q =>
    match snd q with
    | None => Ok None
    | Some (r, _) => bind (must (PermModel.transform (pj_choice p) r)) (fun r => Ok (Some r))
    end).

(* Trie::from_partial_trie_scan_dependents (trie.rs:427-545).  The rows are collected first; the builders
   of the original and the buffers of the reordered tables are filled from the collected rows. *)
Definition dependent_table (rows : list (row * nat)) (v : list nat) : res trie :=
  match v with
  | [] => Ok (zero_arity true)
  | _ => bind (map_res (fun rc => pick v (fst rc)) rows) (write_rows (length v))
  end.
Definition with_dependents (sc : triescan) (fuel : nat) (s : tstate sc) (reorderings : list PermModel.choice) (keep : bool)
  : res (trie * list trie) :=
  bind (map_res (fun c => must (PermModel.as_vector c)) reorderings) (fun vs =>
  let n := ts_arity sc s in
  let last := list_max (concat vs) in
  if negb keep && (n <? last + 1) then Panicked
  else
    let cut := if keep then 0 else n - (last + 1) in
    if n =? 0 then Ok (zero_arity true, map (fun _ => zero_arity true) vs)
    else
      bind (row_collect sc fuel (rowscan_new sc s cut cut)) (fun rows =>
      match rows with
      | [] => Ok (trie_empty n, map (fun _ => trie_empty n) vs)
      | _ =>
          bind (map_res (dependent_table rows) vs) (fun ds =>
          Ok (if keep then build_rows n rows else trie_empty 0, ds))
      end)).

(* ---------- operation trees ---------- *)

(* evaluate_tree_leaf (database.rs:414-435) *)
Definition leaf (tr : trie) : option gscan := if num_rows tr =? 0 then None else Some (partial_iterator tr).

(* ExecutionTreeOperation (execution_series.rs:39-51): a stored table, or an operation with its subnodes.
   The generators are those that execution_plan.rs builds from the markers of the node and its (aligned)
   subnodes: GeneratorJoin::new, GeneratorUnion::new, GeneratorSubtract::new.  The markers of a leaf
   label its columns. *)
Inductive operation : Type :=
| Leaf (ms : list marker) (tr : trie)
| Join (ms : list marker) (subs : list operation)
| Union (ms : list marker) (subs : list operation)
| Subtract (main : operation) (subs : list operation).
Fixpoint markers (o : operation) : list marker :=
  match o with Leaf ms _ => ms | Join ms _ => ms | Union ms _ => ms | Subtract main _ => markers main end.

(* TrieScanEnum (triescan.rs:60-138) for operations nested at most d times *)
Fixpoint scans (d : nat) : triescan :=
  match d with
  | O => generic
  | S d => either_trie (scans d) (either_trie (either_trie (scans d) (join_trie (scans d)))
             (either_trie (either_trie (scans d) (union_trie (scans d))) (either_trie (scans d) (subtract_trie (scans d)))))
  end.
(* evaluate_operation (database.rs:437-461) *)
Fixpoint evaluate (d : nat) (o : operation) : res (option (tstate (scans d))) :=
  match d return res (option (tstate (scans d))) with
  | O => match o with Leaf _ tr => Ok (leaf tr) | _ => Fuel end
  | S d =>
      match o with
      | Leaf ms tr => bind (evaluate d o) (fun s => Ok (option_map (fun s => inl s) s))
      | Join ms subs =>
          bind (join_bindings ms (map markers subs)) (fun bs =>
          bind (map_res (evaluate d) subs) (fun inputs =>
          bind (join_generate (scans d) bs inputs) (fun s => Ok (option_map (fun s => inr (inl s)) s))))
      | Union ms subs =>
          bind (map_res (evaluate d) subs) (fun inputs =>
          bind (union_generate (scans d) inputs) (fun s => Ok (option_map (fun s => inr (inr (inl s))) s)))
      | Subtract main subs =>
          bind (map_res (layer_map (markers main)) (map markers subs)) (fun maps =>
          bind (map_res (evaluate d) (main :: subs)) (fun inputs =>
          bind (subtract_generate (scans d) maps inputs) (fun s => Ok (option_map (fun s => inr (inr (inr s))) s))))
      end
  end.
(* execute_tree (database.rs:463-504) for the roots Operation (with dependent reorderings) ... *)
Definition execute_operation (d fuel : nat) (o : operation) (reorderings : list PermModel.choice) (keep : bool) : res (trie * list trie) :=
  bind (evaluate d o) (fun s =>
  match s with
  | Some s => with_dependents (scans d) fuel s reorderings keep
  | None => Ok (trie_empty 0, map (fun _ => trie_empty 0) reorderings)
  end).
(* ... and ProjectReorder *)
Definition execute_project (d fuel : nat) (p : projector) (o : operation) (cut_layers : nat) : res trie :=
  bind (evaluate d o) (fun s =>
  match s with
  | Some s => if PermModel.choice_is_identity (pj_choice p) then from_partial_trie_scan (scans d) fuel s cut_layers
              else apply_operation (scans d) fuel p s
  | None => Ok (trie_empty (pj_arity p))
  end).
