(* Model of nemo-physical/src/management/execution_plan.rs, database/execution_series.rs and the execution of plans
   in database.rs (362-750), for plans of fetched tables, joins, unions, differences, projections and renamings.
   Simplifications: names of tables and operations (logging, timing) are left out; filters, functions, nulls,
   aggregates, single, imports and Zero are not modelled; nodes are numbered by their execution ids and found in
   the list of all nodes (in the code they are reference counted cells). *)
From Coq Require Import List ZArith Bool Arith.
From Verif Require Import ColumnModel ScanModel TrieModel OpModel ProjModel StoreModel.
From Verif Require PermModel.
Import ListNotations.
Local Open Scope nat_scope.

(* ---------- operations.rs ---------- *)

(* OperationTable::align (operations.rs:143-163): the indices are sorted by the positions of their markers in
   target (sort_by_key is stable), a marker that is missing in target panics *)
Definition align (ms target : list marker) : res (list marker * perm) :=
  bind (map_res (fun x => must (position_of x target)) ms) (fun positions =>
  bind (must (PermModel.from_unsorted Nat.leb 0 positions)) (fun p =>
  bind (must (PermModel.permute p ms)) (fun ms' => Ok (ms', p)))).

(* ---------- plans ---------- *)

(* ExecutionOperation (execution_plan.rs:195-229) *)
Inductive plan_operation : Type :=
| PFetch (id : nat) (order : perm)
| PJoin (subs : list nat)
| PUnion (subs : list nat)
| PSubtract (main : nat) (subs : list nat)
| PProject (sub : nat)
| PRename (sub : nat).
(* ExecutionNode (183-193) *)
Record node : Type := mk_node { nd_op : plan_operation; nd_markers : list marker }.
(* ExecutionResult (231-246), ExecutionOutNode (248-260), ExecutionPlan (262-272) *)
Inductive outcome : Type := Temporary | Permanent (order : perm).
Definition is_permanent (o : outcome) : bool := match o with Permanent _ => true | Temporary => false end.
Record out_node : Type := mk_out { on_node : nat; on_result : outcome; on_required : bool }.
Record plan : Type := mk_plan { pl_nodes : list node; pl_outs : list out_node }.
Definition plan_default : plan := mk_plan [] [].

(* push_and_return_reference (275-292) *)
Definition push_node (pl : plan) (op : plan_operation) (ms : list marker) : plan * nat :=
  (mk_plan (pl_nodes pl ++ [mk_node op ms]) (pl_outs pl), length (pl_nodes pl)).
Definition node_markers (pl : plan) (nd : nat) : res (list marker) := bind (index (pl_nodes pl) nd) (fun n => Ok (nd_markers n)).
(* fetch_table, fetch_table_reordered, join, join_empty, union_empty, rename (294-340, 466-474) *)
Definition fetch_table_reordered (pl : plan) (ms : list marker) (id : nat) (order : perm) : plan * nat := push_node pl (PFetch id order) ms.
Definition fetch_table (pl : plan) (ms : list marker) (id : nat) : plan * nat := fetch_table_reordered pl ms id PermModel.perm_default.
Definition join (pl : plan) (ms : list marker) (subs : list nat) : plan * nat := push_node pl (PJoin subs) ms.
Definition rename (pl : plan) (sub : nat) (ms : list marker) : plan * nat := push_node pl (PRename sub) ms.
(* the debug assertion of union (341-352) and of add_subnode *)
Definition fits (n : nat) (ms : list marker) : bool := (length ms =? 0) || (length ms =? n).
Definition union (pl : plan) (ms : list marker) (subs : list nat) : res (plan * nat) :=
  bind (map_res (node_markers pl) subs) (fun mss =>
  if forallb (fits (length ms)) mss then Ok (push_node pl (PUnion subs) ms) else Panicked).
(* subtract (354-363) *)
Definition subtract (pl : plan) (main : nat) (subs : list nat) : res (plan * nat) :=
  bind (node_markers pl main) (fun ms => Ok (push_node pl (PSubtract main subs) ms)).
(* push_out_node (483-518): an existing entry keeps its flag; a temporary result does not replace a permanent one *)
Fixpoint upgrade_out (outs : list out_node) (nd : nat) (result : outcome) : list out_node :=
  match outs with
  | [] => []
  | on :: outs' =>
      if on_node on =? nd
      then (match result with Temporary => on | Permanent _ => mk_out (on_node on) result (on_required on) end) :: outs'
      else on :: upgrade_out outs' nd result
  end.
Definition find_out (outs : list out_node) (nd : nat) : option out_node := find (fun on => on_node on =? nd) outs.
Definition push_out_node (pl : plan) (nd : nat) (result : outcome) (required : bool) : plan :=
  mk_plan (pl_nodes pl)
    (match find_out (pl_outs pl) nd with
     | Some _ => upgrade_out (pl_outs pl) nd result
     | None => pl_outs pl ++ [mk_out nd result required]
     end).
(* write_temporary, write_temporary_non_empty, write_permanent, write_permanent_reordered (520-571) *)
Definition write_temporary (pl : plan) (nd : nat) : plan := push_out_node pl nd Temporary false.
Definition write_temporary_non_empty (pl : plan) (nd : nat) : plan := push_out_node pl nd Temporary true.
Definition write_permanent_reordered (pl : plan) (nd : nat) (order : perm) : plan := push_out_node pl nd (Permanent order) false.
Definition write_permanent (pl : plan) (nd : nat) : plan := write_permanent_reordered pl nd PermModel.perm_default.
(* projectreorder (365-383), with its debug assertion *)
Definition projectreorder (pl : plan) (ms : list marker) (sub : nat) : res (plan * nat) :=
  bind (node_markers pl sub) (fun sms =>
  if forallb (fun x => existsb (Nat.eqb x) sms) ms
  then let (pl, nd) := push_node pl (PProject sub) ms in Ok (write_temporary pl nd, nd)
  else Panicked).
(* add_subnode (124-144) and set_markers (113-120); the debug assertion for unions compares with the other subnodes *)
Definition set_node (pl : plan) (nd : nat) (n : node) : res plan :=
  bind (must (PermModel.set_nth (pl_nodes pl) nd n)) (fun ns => Ok (mk_plan ns (pl_outs pl))).
Definition add_subnode (pl : plan) (nd sub : nat) : res plan :=
  bind (index (pl_nodes pl) nd) (fun n =>
  match nd_op n with
  | PJoin subs => set_node pl nd (mk_node (PJoin (subs ++ [sub])) (nd_markers n))
  | PUnion subs =>
      bind (map_res (node_markers pl) subs) (fun mss =>
      bind (node_markers pl sub) (fun ms =>
      if forallb (fits (length ms)) mss then set_node pl nd (mk_node (PUnion (subs ++ [sub])) (nd_markers n)) else Panicked))
  | _ => Panicked
  end).
Definition set_markers (pl : plan) (nd : nat) (ms : list marker) : res plan :=
  bind (index (pl_nodes pl) nd) (fun n => set_node pl nd (mk_node (nd_op n) ms)).

(* ---------- execution_series.rs ---------- *)

(* ExecutionTreeLeaf and ExecutionTreeOperation (execution_series.rs:22-40) with the generators for joins, unions
   and differences; the first subnode of a difference is the main one *)
Inductive op_tree : Type :=
| TLoad (i : nat)
| TComputed (c : nat)
| TJoin (bindings : list (list (nat * nat))) (subs : list op_tree)
| TUnion (subs : list op_tree)
| TSubtract (maps : list (list nat)) (subs : list op_tree).
(* ExecutionTreeNode (42-57) *)
Inductive tree_root : Type :=
| ROp (o : op_tree)
| RProject (p : projector) (o : op_tree).
(* operation().expect(..) (59-71) *)
Definition as_operation (r : tree_root) : res op_tree := match r with ROp o => Ok o | RProject _ _ => Panicked end.
(* ExecutionTree (73-99) *)
Record tree : Type := mk_tree {
  t_root : tree_root; t_result : outcome; t_id : nat;
  t_dependents : list (nat * PermModel.choice); t_used : nat; t_cut : nat; t_required : bool }.
Record series : Type := mk_series { loaded_tries : list (nat * perm); series_trees : list tree }.

(* ---------- from plans to series ---------- *)

(* computed_trees, computed_trees_map and loaded_tables; the index of a loaded table is its place in the list *)
Record pstate : Type := mk_pstate {
  ps_trees : list (tree * list marker * list nat);
  ps_map : list (nat * list (perm * nat));
  ps_loaded : list (nat * perm) }.

(* compute_cut_layer (575-593) *)
Fixpoint cut_loop (reversed roots : list marker) : nat :=
  match reversed with
  | [] => 0
  | x :: l => if existsb (Nat.eqb x) roots then 0 else S (cut_loop l roots)
  end.
Definition compute_cut_layer (tree_markers roots : list marker) : nat := cut_loop (rev tree_markers) roots.

(* closest_order (util.rs:11-56) with the index of the order *)
Definition closest_entry (tables : list (perm * nat)) (order : perm) : option (perm * nat) :=
  fold_left (fun best e =>
    match best with
    | None => Some e
    | Some b => if distance (fst e) order <? distance (fst b) order then Some e else Some b
    end) tables None.

(* computed_trees[c].0 = f(..), computed_trees[c].2 = g(..) *)
Definition update_tree (trees : list (tree * list marker * list nat)) (c : nat) (f : tree -> res tree) (g : list nat -> list nat)
  : res (list (tree * list marker * list nat)) :=
  bind (index trees c) (fun e =>
  bind (f (fst (fst e))) (fun t => must (PermModel.set_nth trees c (t, snd (fst e), g (snd e))))).
Definition use_tree (t : tree) : res tree :=
  Ok (mk_tree (t_root t) (t_result t) (t_id t) (t_dependents t) (S (t_used t)) (t_cut t) (t_required t)).
(* used -= 1 panics for 0 (debug build) *)
Definition depend_tree (d : nat) (c : PermModel.choice) (t : tree) : res tree :=
  match t_used t with
  | 0 => Panicked
  | S u => Ok (mk_tree (t_root t) (t_result t) (t_id t) (t_dependents t ++ [(d, c)]) u (t_cut t) (t_required t))
  end.

(* a function that changes the state, for one element after the other *)
Fixpoint map_state {S A B} (f : A -> S -> res (S * B)) (l : list A) (s : S) : res (S * list B) :=
  match l with
  | [] => Ok (s, [])
  | x :: l' => bind (f x s) (fun r => bind (map_state f l' (fst r)) (fun q => Ok (fst q, snd r :: snd q)))
  end.

Definition entry_eqb (a b : nat * perm) : bool := (fst a =? fst b) && PermModel.perm_eqb (snd a) (snd b).
Fixpoint position_entry (e : nat * perm) (l : list (nat * perm)) : option nat :=
  match l with
  | [] => None
  | e' :: l' => if entry_eqb e e' then Some 0 else option_map S (position_entry e l')
  end.

(* execution_tree (595-702) and execution_node (704-1040) *)
Fixpoint execution_tree (fuel : nat) (pl : plan) (root : nat) (out : out_node) (order : perm) (st : pstate) : res (pstate * nat) :=
  match fuel with
  | O => Fuel
  | S fuel =>
      let result := if PermModel.is_identity order then on_result out else Temporary in
      let nd := on_node out in
      bind (node_markers pl nd) (fun ms =>
      let finish (st : pstate) (root_tree : tree_root) : res (pstate * nat) :=
        let new_tree := mk_tree root_tree result nd [] 1 0 (on_required out) in
        Ok (mk_pstate (ps_trees st ++ [(new_tree, ms, [root])])
              (put_key Nat.eqb nd [(order, length (ps_trees st))] (ps_map st)) (ps_loaded st), length (ps_trees st)) in
      match find_key Nat.eqb nd (ps_map st) with
      | Some tables =>
          bind (must (closest_entry tables order)) (fun closest =>
          bind (from_reordering (fst closest) order (length ms)) (fun p =>
          bind (update_tree (ps_trees st) (snd closest) use_tree (fun roots => roots ++ [root])) (fun trees =>
          let st := mk_pstate trees (ps_map st) (ps_loaded st) in
          if PermModel.choice_is_identity (pj_choice p) then Ok (st, snd closest)
          else finish st (RProject p (TComputed (snd closest))))))
      | None =>
          bind (execution_node fuel pl nd nd order st) (fun r =>
          let st := fst r in
          match snd r with
          | RProject p (TComputed c) =>
              bind (index (ps_trees st) c) (fun e =>
              if is_permanent (t_result (fst (fst e))) then finish st (snd r)
              else
                bind (update_tree (ps_trees st) c (depend_tree (length (ps_trees st)) (pj_choice p)) (fun roots => roots)) (fun trees =>
                finish (mk_pstate trees (ps_map st) (ps_loaded st)) (snd r)))
          | _ => finish st (snd r)
          end)
      end)
  end
with execution_node (fuel : nat) (pl : plan) (root nd : nat) (order : perm) (st : pstate) : res (pstate * tree_root) :=
  match fuel with
  | O => Fuel
  | S fuel =>
      match (if nd =? root then None else find_out (pl_outs pl) nd) with
      | Some out =>
          bind (execution_tree fuel pl root out order st) (fun r => Ok (fst r, ROp (TComputed (snd r))))
      | None =>
          bind (index (pl_nodes pl) nd) (fun n =>
          bind (match nd_markers n with [] => Ok [] | _ => must (PermModel.permute order (nd_markers n)) end) (fun ms =>
          let sub (x : nat * perm) (st : pstate) : res (pstate * op_tree) :=
            bind (execution_node fuel pl root (fst x) (snd x) st) (fun r => bind (as_operation (snd r)) (fun o => Ok (fst r, o))) in
          match nd_op n with
          | PFetch id fetch_order =>
              bind (must (PermModel.chain fetch_order order)) (fun loaded =>
              match position_entry (id, loaded) (ps_loaded st) with
              | Some i => Ok (st, ROp (TLoad i))
              | None => Ok (mk_pstate (ps_trees st) (ps_map st) (ps_loaded st ++ [(id, loaded)]), ROp (TLoad (length (ps_loaded st))))
              end)
          | PJoin subs =>
              bind (map_res (node_markers pl) subs) (fun mss =>
              bind (map_res (fun sms => align sms ms) mss) (fun aligned =>
              bind (map_state sub (combine subs (map snd aligned)) st) (fun r =>
              bind (join_bindings ms (map fst aligned)) (fun bs => Ok (fst r, ROp (TJoin bs (snd r)))))))
          | PUnion subs =>
              bind (map_state sub (map (fun s => (s, order)) subs) st) (fun r => Ok (fst r, ROp (TUnion (snd r))))
          | PSubtract main subs =>
              bind (map_res (node_markers pl) subs) (fun mss =>
              bind (map_res (fun sms => align sms ms) mss) (fun aligned =>
              bind (map_state sub ((main, order) :: combine subs (map snd aligned)) st) (fun r =>
              bind (map_res (layer_map ms) (map fst aligned)) (fun maps => Ok (fst r, ROp (TSubtract maps (snd r)))))))
          | PProject s =>
              bind (sub (s, order) st) (fun r =>
              bind (node_markers pl s) (fun sms =>
              bind (project_new ms sms) (fun p => Ok (fst r, RProject p (snd r)))))
          | PRename s => execution_node fuel pl root s order st
          end))
      end
  end.

(* finalize (1042-1098) *)
Definition finalize_trees (fuel : nat) (pl : plan) : res pstate :=
  bind (map_state (fun out st => execution_tree fuel pl (on_node out) out PermModel.perm_default st)
          (filter (fun out => is_permanent (on_result out)) (pl_outs pl)) (mk_pstate [] [] [])) (fun r => Ok (fst r)).
Definition root_markers (pl : plan) (roots : list nat) : res (list marker) :=
  bind (map_res (fun nd => bind (must (find_out (pl_outs pl) nd)) (fun on => node_markers pl (on_node on))) roots) (fun mss => Ok (concat mss)).
Definition cut_tree (pl : plan) (e : tree * list marker * list nat) : res tree :=
  bind (root_markers pl (snd e)) (fun rms =>
  let t := fst (fst e) in
  Ok (mk_tree (t_root t) (t_result t) (t_id t) (t_dependents t) (t_used t) (compute_cut_layer (snd (fst e)) rms) (t_required t))).
Definition finalize (fuel : nat) (pl : plan) : res series :=
  bind (finalize_trees fuel pl) (fun st =>
  bind (map_res (cut_tree pl) (ps_trees st)) (fun trees => Ok (mk_series (ps_loaded st) trees))).

(* ---------- execution (database.rs) ---------- *)

(* TemporaryStorage (362-370); the loaded tables are found in the manager *)
Record tstorage : Type := mk_tstorage { loaded_tables : list nat; computed_tables : list (option trie) }.
(* evaluate_tree_leaf (412-435) *)
Definition load_leaf (m : manager) (ts : tstorage) (i : nat) : res trie := bind (index (loaded_tables ts) i) (stored_trie m).
Definition computed_leaf (ts : tstorage) (c : nat) : res trie := bind (index (computed_tables ts) c) must.
Fixpoint op_depth (o : op_tree) : nat :=
  match o with
  | TLoad _ | TComputed _ => 0
  | TJoin _ subs | TUnion subs | TSubtract _ subs => S (list_max (map op_depth subs))
  end.
(* evaluate_operation (437-461), for operations nested at most d times *)
Fixpoint evaluate_tree (m : manager) (ts : tstorage) (d : nat) (o : op_tree) : res (option (tstate (scans d))) :=
  match d return res (option (tstate (scans d))) with
  | O => match o with
         | TLoad i => bind (load_leaf m ts i) (fun tr => Ok (leaf tr))
         | TComputed c => bind (computed_leaf ts c) (fun tr => Ok (leaf tr))
         | _ => Fuel
         end
  | S d =>
      match o with
      | TLoad _ | TComputed _ => bind (evaluate_tree m ts d o) (fun s => Ok (option_map (fun s => inl s) s))
      | TJoin bs subs =>
          bind (map_res (evaluate_tree m ts d) subs) (fun inputs =>
          bind (join_generate (scans d) bs inputs) (fun s => Ok (option_map (fun s => inr (inl s)) s)))
      | TUnion subs =>
          bind (map_res (evaluate_tree m ts d) subs) (fun inputs =>
          bind (union_generate (scans d) inputs) (fun s => Ok (option_map (fun s => inr (inr (inl s))) s)))
      | TSubtract maps subs =>
          bind (map_res (evaluate_tree m ts d) subs) (fun inputs =>
          bind (subtract_generate (scans d) maps inputs) (fun s => Ok (option_map (fun s => inr (inr (inr s))) s)))
      end
  end.
(* execute_tree (463-537), with the debug assertion for projections *)
Definition execute_tree (m : manager) (fuel : nat) (ts : tstorage) (t : tree) (dependent : list PermModel.choice) : res (trie * list trie) :=
  match t_root t with
  | ROp o =>
      bind (evaluate_tree m ts (op_depth o) o) (fun s =>
      match s with
      | Some s => with_dependents (scans (op_depth o)) fuel s dependent (0 <? t_used t)
      | None => Ok (trie_empty 0, map (fun _ => trie_empty 0) dependent)
      end)
  | RProject p o =>
      match dependent with
      | _ :: _ => Panicked
      | [] =>
          bind (evaluate_tree m ts (op_depth o) o) (fun s =>
          bind (match s with
                | Some s => if PermModel.choice_is_identity (pj_choice p) then from_partial_trie_scan (scans (op_depth o)) fuel s (t_cut t)
                            else apply_operation (scans (op_depth o)) fuel p s
                | None => Ok (trie_empty (pj_arity p))
                end) (fun tr => Ok (tr, [])))
      end
  end.
(* the loop over the trees (601-651): None if a required table is empty *)
Fixpoint store_all (cs : list (option trie)) (ids : list (nat * trie)) : res (list (option trie)) :=
  match ids with
  | [] => Ok cs
  | (c, tr) :: ids' => bind (must (PermModel.set_nth cs c (Some tr))) (fun cs => store_all cs ids')
  end.
Definition trie_is_empty (tr : trie) : bool := num_rows tr =? 0.
Fixpoint execute_trees (m : manager) (fuel : nat) (loaded : list nat) (k : nat) (trees : list tree) (cs : list (option trie))
  : res (option (list (option trie))) :=
  match trees with
  | [] => Ok (Some cs)
  | t :: trees' =>
      bind (index cs k) (fun done =>
      match done with
      | Some _ => execute_trees m fuel loaded (S k) trees' cs
      | None =>
          bind (execute_tree m fuel (mk_tstorage loaded cs) t (map snd (t_dependents t))) (fun r =>
          bind (store_all cs ((k, fst r) :: combine (map fst (t_dependents t)) (snd r))) (fun cs =>
          let dependents := firstn (length (t_dependents t)) (snd r) in
          if forallb trie_is_empty (fst r :: dependents) && t_required t then Ok None
          else execute_trees m fuel loaded (S k) trees' cs))
      end)
  end.
(* collect_requiured_tries (389-410); None if a source fails *)
Fixpoint collect_tries (shuffle : list perm -> list perm) (fuel : nat) (m : manager) (tables : list (nat * perm)) : res (manager * option (list nat)) :=
  match tables with
  | [] => Ok (m, Some [])
  | (id, order) :: tables' =>
      bind (trie_id shuffle fuel m id order) (fun r =>
      match snd r with
      | None => Ok (fst r, None)
      | Some sid => bind (collect_tries shuffle fuel (fst r) tables') (fun q => Ok (fst q, option_map (cons sid) (snd q)))
      end)
  end.
(* the last loop (653-672) *)
Fixpoint register_results (db : database) (results : list (outcome * nat * option trie)) (found : list (nat * nat))
  : res (database * list (nat * nat)) :=
  match results with
  | [] => Ok (db, found)
  | (Temporary, _, _) :: results' => register_results db results' found
  | (Permanent order, nd, tr) :: results' =>
      bind (must tr) (fun tr =>
      if trie_is_empty tr then register_results db results' found
      else bind (register_add_trie db order tr) (fun r =>
           register_results (fst r) results' (put_key Nat.eqb nd (snd r) found)))
  end.
(* execute_plan (565-674); the result is None if a source fails *)
Definition execute_plan (shuffle : list perm -> list perm) (fuel : nat) (db : database) (pl : plan)
  : res (database * option (list (nat * nat))) :=
  bind (finalize fuel pl) (fun se =>
  bind (collect_tries shuffle fuel (db_manager db) (loaded_tries se)) (fun c =>
  let db := with_manager db (fst c) in
  match snd c with
  | None => Ok (db, None)
  | Some loaded =>
      bind (execute_trees (db_manager db) fuel loaded 0 (series_trees se) (map (fun _ => None) (series_trees se))) (fun o =>
      match o with
      | None => Ok (db, Some [])
      | Some cs =>
          bind (register_results db (combine (map (fun t => (t_result t, t_id t)) (series_trees se)) cs) []) (fun r =>
          Ok (fst r, Some (snd r)))
      end)
  end)).

(* execute_first_match (676-748): the trees are executed without dependents; the first row of the first permanent tree.
   The inner option is the answer, the outer one is None if a source fails (also answered with None). *)
Fixpoint first_match (m : manager) (fuel : nat) (loaded : list nat) (k : nat) (trees : list tree) (cs : list (option trie)) : res (option row) :=
  match trees with
  | [] => Ok None
  | t :: trees' =>
      match t_result t with
      | Temporary =>
          bind (execute_tree m fuel (mk_tstorage loaded cs) t []) (fun r =>
          bind (must (PermModel.set_nth cs k (Some (fst r)))) (fun cs => first_match m fuel loaded (S k) trees' cs))
      | Permanent _ =>
          match t_root t with
          | ROp o =>
              bind (evaluate_tree m (mk_tstorage loaded cs) (op_depth o) o) (fun s =>
              match s with
              | None => Ok None
              | Some s => bind (row_next (scans (op_depth o)) fuel (rowscan_new (scans (op_depth o)) s (t_cut t) (t_cut t))) (fun q => Ok (option_map fst (snd q)))
              end)
          | RProject p o =>
              bind (evaluate_tree m (mk_tstorage loaded cs) (op_depth o) o) (fun s =>
              match s with
              | None => Ok None
              | Some s => apply_operation_first (scans (op_depth o)) fuel p s
              end)
          end
      end
  end.
Definition execute_first_match (shuffle : list perm -> list perm) (fuel : nat) (db : database) (pl : plan) : res (database * option row) :=
  bind (finalize fuel pl) (fun se =>
  bind (collect_tries shuffle fuel (db_manager db) (loaded_tries se)) (fun c =>
  let db := with_manager db (fst c) in
  match snd c with
  | None => Ok (db, None)
  | Some loaded =>
      bind (first_match (db_manager db) fuel loaded 0 (series_trees se) (map (fun _ => None) (series_trees se))) (fun o => Ok (db, o))
  end)).
