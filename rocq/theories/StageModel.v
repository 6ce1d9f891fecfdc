(** Model of nemo/src/execution/planning/strategy/forward/body.rs for rules with import atoms: join_cartesian.rs, join_imports.rs,
    join_imports_simple.rs and join_imports_general.rs in planning/operations.  Uses the model of planning without imports (EngineModel). *)
From Coq Require Import List Arith ZArith Bool.
From Verif Require Import TableModel EngineModel.
Import ListNotations.

(** normalization/rule.rs:28-71, the body of a rule with its import atoms *)
Record irule := mkIRule { i_pos : list atom; i_neg : list atom; i_pimp : list atom; i_nimp : list atom; i_ops : list oper; i_order : list var }.

(** function_filter_negation.rs:36-60, GeneratorFunctionFilterNegation::new: variables, functions, filters, negated atoms, and the remaining
    operations and negated atoms *)
Definition ffn := (list var * list (var * expr) * list oper * list (atom * list oper * list var))%type.
Definition gen_ffn (vs : list var) (ops : list oper) (negs : list atom) : option (ffn * list oper * list atom) :=
  match gen_function vs ops with
  | None => None
  | Some (vs', fns, ops1) =>
      let '(fs, ops2) := gen_filter vs' ops1 in
      let '(l, kept, ops3) := gen_negation vs' negs ops2 in Some ((vs', fns, fs, l), ops3, kept)
  end.
(** function_filter_negation.rs:63-84, create_plan *)
Definition ffn_node (rd : reader) (g : ffn) (n : node) (cur last : nat) : option node :=
  let '(vs', fns, fs, l) := g in
  match filter_node (fun_node (nvars n) fns (nrows n)) fs with None => None | Some nf => negation_node rd nf l cur last end.

(** join_cartesian.rs:21-28, Factor *)
Inductive factor := FAtoms (l : list atom) | FOps (l : list oper).

(** join_cartesian.rs:192-205, Partitions::add: partitions that share a variable with the new atom are joined to it, at the end *)
Definition partition_t := (list var * list atom)%type.
Definition add_atom (ps : list partition_t) (a : atom) : list partition_t :=
  let '(compatible, rest) := partition (fun p : partition_t => existsb (fun v => memv v (snd a)) (fst p)) ps in
  rest ++ [(snd a ++ flat_map fst compatible, a :: flat_map snd compatible)].

(** join_cartesian.rs:246-266: operations that assign constants.  One pass, and passes until nothing is added. *)
Fixpoint constant_pass (body cvs : list var) (ops : list oper) : list oper * list var * list oper :=
  match ops with
  | [] => ([], cvs, [])
  | OEq v e :: rest =>
      if negb (memv v body) && inclb (e_vars e) cvs
      then let '(c, cvs', k) := constant_pass body (v :: cvs) rest in (OEq v e :: c, cvs', k)
      else let '(c, cvs', k) := constant_pass body cvs rest in (c, cvs', OEq v e :: k)
  | o :: rest => let '(c, cvs', k) := constant_pass body cvs rest in (c, cvs', o :: k)
  end.
Fixpoint constant_loop (fuel : nat) (body cvs : list var) (ops : list oper) : list oper * list oper :=
  match fuel with
  | 0 => ([], ops)
  | S f =>
      let '(c, cvs', k) := constant_pass body cvs ops in
      match c with [] => ([], k) | _ => let '(c', k') := constant_loop f body cvs' k in (c ++ c', k') end
  end.

(** join_cartesian.rs:127-275, partition_atoms: factors and the remaining operations *)
Definition partition_atoms (atoms : list atom) (ops : list oper) : list factor * list oper :=
  let '(c, k) := constant_loop (S (length ops)) (atom_vars atoms) [] ops in
  (map (fun p : partition_t => FAtoms (snd p)) (fold_left add_atom atoms []) ++ match c with [] => [] | _ => [FOps c] end, k).

(** join_cartesian.rs:69-94 and 278-297: the nodes of the factors, with their variables, and the remaining operations and negated atoms *)
Fixpoint factor_nodes (rd : reader) (order : list var) (fs : list factor) (ops : list oper) (negs : list atom) (cur last : nat)
  : option (list (node * list var) * list oper * list atom) :=
  match fs with
  | [] => Some ([], ops, negs)
  | f :: rest =>
      let atoms := match f with FAtoms l => l | FOps _ => [] end in
      match seminaive_node rd true atoms order cur last,
            gen_ffn (restrict order (atom_vars atoms)) (match f with FAtoms _ => ops | FOps l => l end) negs with
      | Some j, Some (g, ops1, negs1) =>
          match ffn_node rd g j cur last, factor_nodes rd order rest (match f with FAtoms _ => ops1 | FOps _ => ops end) negs1 cur last with
          | Some n, Some (ns, ops2, negs2) => Some ((n, fst (fst (fst g))) :: ns, ops2, negs2)
          | _, _ => None
          end
      | _, _ => None
      end
  end.

(** join_cartesian.rs:300-302, is_single_join *)
Definition is_single_join (fs : list factor) : bool := length (filter (fun f => match f with FAtoms (_ :: _) => true | _ => false end) fs) =? 1.

(** join_imports_simple.rs:76-87, join_imports_general.rs:78-89: filters of negated imports, and the remaining operations *)
Fixpoint negated_imports (atoms : list atom) (ops : list oper) : list (atom * list oper) * list oper :=
  match atoms with
  | [] => ([], ops)
  | a :: rest => let '(fs, ops1) := gen_filter (snd a) ops in let '(l, ops2) := negated_imports rest ops1 in ((a, fs) :: l, ops2)
  end.

(** the union of the imported rows of all steps (union.rs:84-117); rows of another length do not exist *)
Definition import_node (imported : tag -> list row) (a : atom) : node :=
  mkNode (snd a) (filter (fun r => length r =? length (snd a)) (imported (fst a))).

(** join_imports_simple.rs:109-169, join_imports_general.rs:111-171, create_plan: the join with the imports, without the last filters *)
Definition import_join (imported : tag -> list row) (order : list var) (n : node) (pimp : list atom) (nimp : list (atom * list oper)) : option node :=
  match join_nodes order (n :: map (import_node imported) pimp) with
  | None => None
  | Some j =>
      match nimp with
      | [] => Some j
      | _ => option_map (subtract j)
               (mapM (fun x : atom * list oper => match filter_node (import_node imported (fst x)) (snd x) with
                                  | None => None
                                  | Some nf => project (filter (fun v => memv v (snd (fst x))) order) nf
                                  end) nimp)
      end
  end.

(** body.rs:47-92 and 129-160: the node of the body, its variables (output_variables), and the remaining operations.  [imported]: the rows
    that have been imported after the bindings of the factors were requested (see RequestModel and PageModel). *)
Definition import_body (rd : reader) (imported : list node -> tag -> list row) (r : irule) (cur last : nat) : option (node * list var * list oper) :=
  let '(fs, ops1) := partition_atoms (i_pos r) (i_ops r) in
  match factor_nodes rd (i_order r) fs ops1 (i_neg r) cur last with
  | None => None
  | Some (ns, ops2, negs2) =>
      let '(ops3, negs3) := if length fs =? 1 then (ops2, negs2) else (ops1, i_neg r) in
      let imp := imported (map fst ns) in
      let '(nimp, ops4) := negated_imports (i_nimp r) ops3 in
      if is_single_join fs
      then
        match ns with
        | [] => None
        | (n, vs) :: _ =>
            let order := restrict (i_order r) (vs ++ atom_vars (i_pimp r)) in
            match gen_ffn order ops4 negs3, import_join imp order n (i_pimp r) nimp with
            | Some (g, ops5, _), Some j => option_map (fun n' => (n', fst (fst (fst g)), ops5)) (ffn_node rd g j cur last)
            | _, _ => None
            end
        end
      else
        let order := restrict (i_order r) (atom_vars (i_pos r) ++ atom_vars (i_pimp r)) in
        match seminaive_node rd true (i_pos r) order cur last, gen_ffn order ops4 negs3 with
        | Some n, Some ((vs, fns, fs', l), ops5, _) =>
            match import_join imp order n (i_pimp r) nimp with
            | Some j =>
                option_map (fun n' => (n', match fns, fs', l with [], [], [] => restrict order (atom_vars (i_pos r)) | _, _, _ => vs end, ops5))
                  (ffn_node rd (vs, fns, fs', l) j cur last)
            | None => None
            end
        | _, _ => None
        end
  end.

(** The tables of the factors, whose rows are requested bindings (body.rs:104-127). *)
Definition factor_tables (rd : reader) (r : irule) (cur last : nat) : option (list node) :=
  let '(fs, ops1) := partition_atoms (i_pos r) (i_ops r) in
  option_map (fun x => map fst (fst (fst x))) (factor_nodes rd (i_order r) fs ops1 (i_neg r) cur last).
