(** Model of the planning and execution of rules: nemo/src/execution/planning (operations/*.rs,
    strategy/forward/*.rs) and nemo/src/execution/execution_engine.rs. No proofs here.
    Plan nodes are modelled by the tables they evaluate to (labelled lists of rows); how the
    physical operators compute them with tries is modelled separately (Trie*, Col* files).
    [None] always means that the program panics. *)
From Coq Require Import List Arith ZArith Bool Lia.
From Verif Require Import TableModel.
Import ListNotations.

Definition var := nat.
Definition memv (v : var) (l : list var) : bool := existsb (Nat.eqb v) l.
Definition inclb (a b : list var) : bool := forallb (fun v => memv v b) a.

(** ** Rules *)

(** nemo/src/execution/planning/normalization/operation.rs:24-36 [Operation]: an expression over
    variables. Only its variables and its (partial) value as a function of them are kept; the
    evaluation of expressions is the subject of the Stack* files. *)
Record expr := mkExpr { e_vars : list var; e_fun : list Z -> option Z }.

(** An operation in a rule: the form [variable = expression] recognised by
    [Operation::variable_assignment] (operation.rs:96-115; the left side is preferred), or any other
    (boolean) expression. *)
Inductive oper := OEq (v : var) (e : expr) | OFilter (e : expr).

(** operation.rs:70-79 [variables] *)
Definition op_vars (o : oper) : list var :=
  match o with OEq v e => v :: e_vars e | OFilter e => e_vars e end.

(** Value of an expression under a valuation. *)
Definition eval_expr (nu : var -> Z) (e : expr) : option Z := e_fun e (map nu (e_vars e)).

(** The storage value of the boolean [true]. *)
Definition true_val : Z := 1%Z.

(** Does the operation, used as a filter, accept the valuation? A filter keeps a row iff the
    expression evaluates to [true]; [v = e] is the function tree equals(v, e)
    (operation.rs:243-275), i.e. [e] is defined and its value is that of [v]. *)
Definition test_op (nu : var -> Z) (o : oper) : bool :=
  match o with
  | OEq v e => match eval_expr nu e with Some z => Z.eqb z (nu v) | None => false end
  | OFilter e => match eval_expr nu e with Some z => Z.eqb z true_val | None => false end
  end.

(** normalization/atom/body.rs: body atoms contain only distinct variables. *)
Definition atom := (tag * list var)%type.

(** normalization/atom/head.rs:16-22: head terms are primitive terms. *)
Inductive hterm := HVar (v : var) | HEx (v : var) | HConst (c : Z).
Definition hatom := (tag * list hterm)%type.

(** normalization/aggregate.rs. [ag_val] is the result of the aggregate operation (count, sum, ...) on
    the aggregated values of a group, one per distinct row (the Agg* files model its computation). *)
Record aggregate := mkAgg {
  ag_in : var; ag_out : var; ag_distinct : list var; ag_group : list var;
  ag_val : list Z -> option Z }.

(** normalization/rule.rs:28-71 [NormalizedRule] without import atoms. *)
Record rule := mkRule {
  r_head : list hatom;
  r_pos : list atom;
  r_neg : list atom;
  r_ops : list oper;
  r_agg : option (aggregate * nat);   (* with the index of the head atom *)
  r_order : list var;
  r_exorder : list var }.

Definition atom_vars (l : list atom) : list var := flat_map snd l.
Definition hterm_vars (t : hterm) : list var := match t with HVar v | HEx v => [v] | HConst _ => [] end.
Definition hterm_ex (t : hterm) : list var := match t with HEx v => [v] | _ => [] end.
Definition hatom_vars (a : hatom) : list var := flat_map hterm_vars (snd a).
(** head.rs:78-90 [variables_existential] *)
Definition hatom_ex (a : hatom) : list var := flat_map hterm_ex (snd a).
Definition head_vars (r : rule) : list var := flat_map hatom_vars (r_head r).
(** rule.rs:216-221 [is_existential] *)
Definition is_existential (r : rule) : bool :=
  existsb (fun a => negb (length (hatom_ex a) =? 0)) (r_head r).

(** ** Plan nodes *)

(** A node: the column markers and the rows of its table
    (nemo-physical/src/management/execution_plan.rs:196-240 [ExecutionNode]). *)
Record node := mkNode { nvars : list var; nrows : list row }.

(** The value of column [v] in row [r] with columns [xs] (first column of that name). *)
Fixpoint val_of (xs : list var) (r : row) (v : var) : Z :=
  match xs, r with
  | x :: xs', z :: r' => if v =? x then z else val_of xs' r' v
  | _, _ => 0%Z
  end.

(** execution_plan.rs [projectreorder]: panics if a requested column does not exist
    (nemo-physical/src/tabular/operations/projectreorder.rs, from_transformation). *)
Definition project (ys : list var) (n : node) : option node :=
  if inclb ys (nvars n)
  then Some (mkNode ys (nodup row_eq_dec (map (fun r => map (val_of (nvars n) r) ys) (nrows n))))
  else None.

(** execution_plan.rs [filter]: with filters but no column, tabular/operations/filter.rs:148 indexes
    [input[0]] and panics; a reference to a missing column panics when the filter is compiled. *)
Definition filter_node (n : node) (fs : list oper) : option node :=
  match fs with
  | [] => Some n
  | _ => match nvars n with
         | [] => None
         | _ => if forallb (fun o => inclb (op_vars o) (nvars n)) fs
                then Some (mkNode (nvars n)
                       (filter (fun r => forallb (test_op (val_of (nvars n) r)) fs) (nrows n)))
                else None
         end
  end.

(** execution_plan.rs [function] with one new column appended; a row for which the function is
    undefined is dropped (tabular/operations/function.rs). *)
Definition fun1 (vs : list var) (ve : var * expr) (rs : list row) : list row :=
  flat_map (fun r => match eval_expr (val_of vs r) (snd ve) with Some z => [r ++ [z]] | None => [] end) rs.
Fixpoint fun_node (vs : list var) (fs : list (var * expr)) (rs : list row) : node :=
  match fs with
  | [] => mkNode vs rs
  | ve :: fs' => fun_node (vs ++ [fst ve]) fs' (fun1 vs ve rs)
  end.

(** execution_plan.rs [subtract]: the subtracted tables have a subset of the columns. *)
Definition in_node (nu : var -> Z) (n : node) : bool :=
  if in_dec row_eq_dec (map nu (nvars n)) (nrows n) then true else false.
Definition subtract (n : node) (subs : list node) : node :=
  mkNode (nvars n)
    (filter (fun r => forallb (fun s => negb (in_node (val_of (nvars n) r) s)) subs) (nrows n)).

(** Natural join of two nodes, and execution_plan.rs [join]: all columns of the inputs must be among
    the result columns. *)
Definition join2 (a b : node) : node :=
  let new := filter (fun v => negb (memv v (nvars a))) (nvars b) in
  let shared := filter (fun v => memv v (nvars a)) (nvars b) in
  mkNode (nvars a ++ new)
    (flat_map (fun ra => flat_map (fun rb =>
        if forallb (fun v => Z.eqb (val_of (nvars a) ra v) (val_of (nvars b) rb v)) shared
        then [ra ++ map (val_of (nvars b) rb) new] else []) (nrows b)) (nrows a)).
Definition zero_node : node := mkNode [] [[]].
Definition join_nodes (order : list var) (ns : list node) : option node :=
  let j := fold_left join2 ns zero_node in
  if inclb (nvars j) order then project order j else None.

(** ** Reading tables *)

(** [read p lo hi]: the rows in the tables returned by [tables_in_range]. *)
Definition reader := tag -> nat -> nat -> option (list row).
Definition manager_reader (m : manager) : reader := fun p lo hi =>
  option_map (fun ids => flat_map (contents m) ids) (tables_in_range m p lo hi).

(** operations/union.rs:17-53 [UnionRange::as_range] *)
Inductive urange := RAll | RNew | ROld | RNewExclusive | ROldInclusive.
Definition as_range (u : urange) (cur last : nat) : nat * nat :=
  match u with
  | RAll => (0, cur)
  | RNew => (last, cur)
  | ROld => (0, last)
  | RNewExclusive => (last + 1, cur)
  | ROldInclusive => (0, last + 1)
  end.

(** operations/union.rs:84-117 [GeneratorUnion::create_plan]. Tables of a predicate have a fixed
    arity; rows of another length do not exist in the program and are ignored here. *)
Definition atom_node (rd : reader) (a : atom) (u : urange) (cur last : nat) : option node :=
  let '(lo, hi) := as_range u cur last in
  option_map (fun rows => mkNode (snd a) (filter (fun r => length r =? length (snd a)) rows))
             (rd (fst a) lo hi).

Fixpoint mapM {A B} (f : A -> option B) (l : list A) : option (list B) :=
  match l with
  | [] => Some []
  | x :: r => match f x, mapM f r with Some y, Some ys => Some (y :: ys) | _, _ => None end
  end.

(** analysis/variable_order.rs [restrict_to] *)
Definition restrict (order vs : list var) : list var := filter (fun v => memv v vs) order.

(** operations/join_seminaive.rs:46-100: the ranges of variant [mid]. *)
Definition variant_range (last_is_new : bool) (mid i : nat) : urange :=
  if mid <? i then (if last_is_new then ROld else ROldInclusive)
  else if i =? mid then (if last_is_new then RNew else RNewExclusive)
  else RAll.
Definition variant_ranges (last_is_new : bool) (n mid : nat) : list urange :=
  map (variant_range last_is_new mid) (seq 0 n).

(** operations/join.rs:75-82 [is_empty] *)
Definition range_empty (cur last : nat) (u : urange) : bool :=
  let '(lo, hi) := as_range u cur last in hi <=? lo.

(** operations/join.rs:50-66 [GeneratorJoin::create_plan] *)
Definition variant_node (rd : reader) (atoms : list atom) (us : list urange) (order : list var)
           (cur last : nat) : option node :=
  match mapM (fun au => atom_node rd (fst au) (snd au) cur last) (combine atoms us) with
  | None => None
  | Some ns => join_nodes (restrict order (atom_vars atoms)) ns
  end.

(** operations/join_seminaive.rs:102-128 [create_plan] *)
Definition seminaive_node (rd : reader) (last_is_new : bool) (atoms : list atom) (order : list var)
           (cur last : nat) : option node :=
  match atoms with
  | [] => Some zero_node
  | _ =>
      let variants := map (variant_ranges last_is_new (length atoms)) (seq 0 (length atoms)) in
      let live := filter (fun us => negb (existsb (range_empty cur last) us)) variants in
      option_map (fun ns => mkNode (restrict order (atom_vars atoms)) (flat_map nrows ns))
                 (mapM (fun us => variant_node rd atoms us order cur last) live)
  end.

(** ** Functions, filters, negation *)

(** operations/function.rs:35-57: one pass of the [for] loop. The flag says whether the operation is
    still kept. Returns the flagged operations, the bound variables and the assignments found. *)
Fixpoint fn_pass (ops : list (bool * oper)) (vs : list var)
  : list (bool * oper) * list var * list (var * expr) :=
  match ops with
  | [] => ([], vs, [])
  | (k, o) :: rest =>
      match k, o with
      | true, OEq v e =>
          if memv v vs then
            let '(ops', vs', fs) := fn_pass rest vs in ((k, o) :: ops', vs', fs)
          else if inclb (e_vars e) vs then
            let '(ops', vs', fs) := fn_pass rest (vs ++ [v]) in ((false, o) :: ops', vs', (v, e) :: fs)
          else
            let '(ops', vs', fs) := fn_pass rest vs in ((k, o) :: ops', vs', fs)
      | _, _ => let '(ops', vs', fs) := fn_pass rest vs in ((k, o) :: ops', vs', fs)
      end
  end.

(** function.rs:33-64: the outer [loop], ended when no variable was added. [None]: out of fuel. *)
Fixpoint fn_loop (fuel : nat) (ops : list (bool * oper)) (vs : list var)
  : option (list (bool * oper) * list var * list (var * expr)) :=
  match fuel with
  | 0 => None
  | S f =>
      let '(ops', vs', fs) := fn_pass ops vs in
      if length vs' =? length vs then Some (ops', vs', fs)
      else match fn_loop f ops' vs' with
           | None => None
           | Some (ops'', vs'', fs') => Some (ops'', vs'', fs ++ fs')
           end
  end.

(** function.rs:25-73 [GeneratorFunction::new]: output variables, assignments, remaining operations. *)
Definition gen_function (vs : list var) (ops : list oper)
  : option (list var * list (var * expr) * list oper) :=
  match fn_loop (S (length ops)) (map (fun o => (true, o)) ops) vs with
  | None => None
  | Some (ops', vs', fs) => Some (vs', fs, map snd (filter fst ops'))
  end.

(** operations/filter.rs:25-46 [GeneratorFilter::new]: filters, remaining operations *)
Definition gen_filter (vs : list var) (ops : list oper) : list oper * list oper :=
  partition (fun o => inclb (op_vars o) vs) ops.

(** operations/negation.rs:34-74 [GeneratorNegation::new]: the used atoms with filters and
    projection variables, and the remaining atoms and operations. An atom without positive variable
    is left in the list. *)
Fixpoint gen_negation (pvs : list var) (atoms : list atom) (ops : list oper)
  : list (atom * list oper * list var) * list atom * list oper :=
  match atoms with
  | [] => ([], [], ops)
  | a :: rest =>
      if forallb (fun v => negb (memv v pvs)) (snd a) then
        let '(l, kept, ops') := gen_negation pvs rest ops in (l, a :: kept, ops')
      else
        let '(fs, ops1) := gen_filter (pvs ++ snd a) ops in
        let '(l, kept, ops') := gen_negation pvs rest ops1 in
        ((a, fs, filter (fun v => memv v (snd a)) pvs) :: l, kept, ops')
  end.

(** negation.rs:76-104 [create_plan] *)
Definition negation_node (rd : reader) (n : node) (negs : list (atom * list oper * list var))
           (cur last : nat) : option node :=
  option_map (subtract n)
    (mapM (fun x => let '(a, fs, pv) := x in
             match atom_node rd a RAll cur last with
             | None => None
             | Some na => match filter_node na fs with
                          | None => None
                          | Some nf => project pv nf
                          end
             end) negs).

(** strategy/forward/body.rs:67-77, 127-134 (the case without import atoms) and
    operations/function_filter_negation.rs: the body node and the operations left over. *)
Definition body_node (rd : reader) (r : rule) (cur last : nat) : option (node * list oper) :=
  match seminaive_node rd true (r_pos r) (r_order r) cur last with
  | None => None
  | Some j =>
      match gen_function (restrict (r_order r) (atom_vars (r_pos r))) (r_ops r) with
      | None => None
      | Some (vs, fns, ops1) =>
          let '(fs, ops2) := gen_filter vs ops1 in
          let '(negs, _, ops3) := gen_negation vs (r_neg r) ops2 in
          match filter_node (fun_node (nvars j) fns (nrows j)) fs with
          | None => None
          | Some nf => option_map (fun n => (n, ops3)) (negation_node rd nf negs cur last)
          end
      end
  end.

(** ** Aggregation *)

Definition dedup (l : list var) : list var :=
  fold_left (fun acc v => if memv v acc then acc else acc ++ [v]) l [].

(** operations/aggregation.rs:57-95 [order_input_output] *)
Definition agg_input_vars (vs : list var) (a : aggregate) : list var :=
  dedup (filter (fun v => memv v (ag_group a)) vs ++ [ag_in a] ++ filter (fun v => memv v (ag_distinct a)) vs).
Definition agg_output_vars (vs : list var) (a : aggregate) : list var :=
  dedup (filter (fun v => memv v (ag_group a)) vs ++ [ag_out a]).

(** The aggregation operator (nemo-physical/src/tabular/operations/aggregate.rs): the first [k] columns
    are the group, column [k] is aggregated; one output row per group. *)
Definition agg_rows (k : nat) (val : list Z -> option Z) (rows : list row) : list row :=
  flat_map (fun g =>
      match val (map (fun r => nth k r 0%Z) (filter (fun r => if row_eq_dec (firstn k r) g then true else false) rows)) with
      | Some z => [g ++ [z]]
      | None => []
      end)
    (nodup row_eq_dec (map (firstn k) rows)).

(** aggregation.rs:97-147 [create_plan]; [ops] are the operations left over by the body. *)
Definition agg_node (n : node) (a : aggregate) (ops : list oper) : option node :=
  match project (agg_input_vars (nvars n) a) n with
  | None => None
  | Some i =>
      match gen_function (agg_output_vars (nvars n) a) ops with
      | None => None
      | Some (_, fns, _) => Some (fun_node (agg_output_vars (nvars n) a) fns
          (agg_rows (length (filter (fun v => memv v (ag_group a)) (nvars n))) (ag_val a) (nrows i)))
      end
  end.

(** ** Head *)

Definition hterm_val (nu : var -> Z) (t : hterm) : Z :=
  match t with HVar v | HEx v => nu v | HConst c => c end.

(** operations/projection_head.rs:87-146: project to the variables of the atom, then append the
    repeated variables and constants at their positions. *)
Definition head_rows (a : hatom) (n : node) : option (list row) :=
  if inclb (hatom_vars a) (nvars n)
  then Some (nodup row_eq_dec (map (fun r => map (hterm_val (val_of (nvars n) r)) (snd a)) (nrows n)))
  else None.

(** operations/duplicates.rs:24-47: subtract everything the predicate had before this step. *)
Definition eliminate_duplicates (rd : reader) (p : tag) (rows : list row) (cur : nat) : option (list row) :=
  option_map (fun old => filter (fun r => if in_dec row_eq_dec r old then false else true) rows) (rd p 0 cur).

(** ** Restricted chase *)

(** restricted_head.rs:104-108: [_SATISFIED_i]; the odd tags are these predicates. *)
Definition sat_tag (i : nat) : tag := S (2 * i).

(** rule.rs:380-405 [frontier] as a test *)
Definition in_frontier (r : rule) (v : var) : bool :=
  memv v (head_vars r) && memv v (atom_vars (r_pos r)).

(** rule.rs:426-478 [normalize_existential_head]: repeated variables and constants of an atom are
    replaced by new variables [k, k+1, ...] with equality operations. The generated names are
    assumed not to be used elsewhere in the rule. *)
Fixpoint norm_hterms (ts : list hterm) (used : list var) (k : nat) : list var * list oper * nat :=
  match ts with
  | [] => ([], [], k)
  | t :: rest =>
      match t with
      | HVar v | HEx v =>
          if memv v used then
            let '(vs, os, k') := norm_hterms rest used (S k) in
            (k :: vs, OEq k (mkExpr [v] (fun l => nth_error l 0)) :: os, k')
          else
            let '(vs, os, k') := norm_hterms rest (v :: used) k in (v :: vs, os, k')
      | HConst c =>
          let '(vs, os, k') := norm_hterms rest used (S k) in
          (k :: vs, OEq k (mkExpr [] (fun _ => Some c)) :: os, k')
      end
  end.
Fixpoint norm_head (hs : list hatom) (k : nat) : list atom * list oper * nat :=
  match hs with
  | [] => ([], [], k)
  | (p, ts) :: rest =>
      let '(vs, os, k1) := norm_hterms ts [] k in
      let '(l, os', k2) := norm_head rest k1 in
      ((p, vs) :: l, os ++ os', k2)
  end.
Definition fresh_base (r : rule) : nat := S (list_max (head_vars r ++ r_exorder r)).

(** restricted_head.rs:47-63 [apply_optimization] *)
Definition exclusive (r : rule) (has_facts : bool) : bool :=
  negb has_facts &&
  (length (nodup Nat.eq_dec (map fst (r_head r))) =? length (r_head r)).

(** The frontier variables in the order of the table of satisfied matches (restricted_head.rs:71-96,
    restricted.rs:60-62). *)
Definition frontier_list (r : rule) : list var :=
  filter (in_frontier r) (restrict (r_exorder r) (head_vars r)).

(** restricted_head.rs:66-131: newly satisfied frontier matches *)
Definition new_satisfied (rd : reader) (i : nat) (r : rule) (has_facts : bool) (cur last : nat)
  : option node :=
  let '(atoms, ops, k') := norm_head (r_head r) (fresh_base r) in
  let order := restrict (r_exorder r) (head_vars r) ++ seq (fresh_base r) (k' - fresh_base r) in
  match seminaive_node rd (negb (exclusive r has_facts)) atoms order cur last with
  | None => None
  | Some j =>
      let '(fs, _) := gen_filter (restrict order (atom_vars atoms)) ops in
      match filter_node j fs with
      | None => None
      | Some nf =>
          match project (frontier_list r) nf with
          | None => None
          | Some np => option_map (mkNode (frontier_list r))
                         (eliminate_duplicates rd (sat_tag i) (nrows np) cur)
          end
      end
  end.

(** restricted_null.rs and nemo-physical/src/tabular/operations/null.rs: append fresh nulls, the same
    null for repeated occurrences of a variable. Nulls are the negative values [-1 - n]; [ctr] is the
    number of nulls created so far. *)
Definition null_val (n : nat) : Z := (- 1 - Z.of_nat n)%Z.
Fixpoint null_rows (rows : list row) (m ctr : nat) : list row :=
  match rows with
  | [] => []
  | r :: rest => (r ++ map null_val (seq ctr m)) :: null_rows rest m (ctr + m)
  end.
Definition ex_vars (r : rule) : list var := dedup (flat_map hatom_ex (r_head r)).

(** strategy/forward/restricted.rs:84-141: the node with nulls, the new entries of the table of
    satisfied matches, and the new null counter. *)
Definition restricted_nodes (rd : reader) (i : nat) (r : rule) (has_facts : bool) (nb : node)
           (cur last ctr : nat) : option (node * list row * nat) :=
  match project (frontier_list r) nb, new_satisfied rd i r has_facts cur last,
        atom_node rd (sat_tag i, frontier_list r) RAll cur last with
  | Some mf, Some ns, Some old =>
      let unsat := subtract mf [mkNode (frontier_list r) (nrows ns ++ nrows old)] in
      let m := length (ex_vars r) in
      Some (mkNode (frontier_list r ++ ex_vars r) (null_rows (nrows unsat) m ctr),
            nodup row_eq_dec (nrows unsat ++ nrows ns),
            ctr + m * length (nrows unsat))
  | _, _, _ => None
  end.

(** ** Executing a rule *)

(** strategy/forward/head.rs:73-92, 118-147: rows of the head atom with index [k], after duplicate
    elimination unless it contains existential variables. *)
Definition head_atom_rows (rd : reader) (r : rule) (k : nat) (a : hatom) (nb : node) (na nn : option node)
           (cur : nat) : option (list row) :=
  let is_agg := match r_agg r with Some (_, j) => k =? j | None => false end in
  if is_agg then
    match na with None => None | Some n =>
      match head_rows a n with None => None | Some rows => eliminate_duplicates rd (fst a) rows cur end end
  else if negb (length (hatom_ex a) =? 0) then
    match nn with None => None | Some n => head_rows a n end
  else
    match head_rows a nb with None => None | Some rows => eliminate_duplicates rd (fst a) rows cur end.

Fixpoint head_results (rd : reader) (r : rule) (k : nat) (hs : list hatom) (nb : node) (na nn : option node)
         (cur : nat) : option (list (tag * list row)) :=
  match hs with
  | [] => Some []
  | a :: rest =>
      match head_atom_rows rd r k a nb na nn cur, head_results rd r (S k) rest nb na nn cur with
      | Some rows, Some l => Some ((fst a, rows) :: l)
      | _, _ => None
      end
  end.

(** head.rs:144-165: one result table per predicate, the union of its atoms. *)
Definition group_results (l : list (tag * list row)) : list (tag * list row) :=
  map (fun p => (p, nodup row_eq_dec (flat_map snd (filter (fun pr => fst pr =? p) l))))
      (nodup Nat.eq_dec (map fst l)).

(** strategy/forward.rs:107-150 [StrategyForward::execute] with
    nemo-physical/src/management/database.rs:577-673: if the body table, which is required to be
    non-empty, is empty then the whole plan yields no result (panics while building the rest of the
    plan are not considered in that case). Result: tables per predicate, new null counter. *)
Definition execute_rule (rd : reader) (i : nat) (r : rule) (has_facts : bool) (cur last ctr : nat)
  : option (list (tag * list row) * nat) :=
  match body_node rd r cur last with
  | None => None
  | Some (nb, ops) =>
      match nrows nb with
      | [] => Some ([], ctr)
      | _ =>
          match (match r_agg r with
                 | None => Some None
                 | Some (a, _) => option_map Some (agg_node nb a ops)
                 end) with
          | None => None
          | Some na =>
              match (if is_existential r
                     then option_map Some (restricted_nodes rd i r has_facts nb cur last ctr)
                     else Some None) with
              | None => None
              | Some rn =>
                  let nn := option_map (fun x => fst (fst x)) rn in
                  let sat := match rn with Some x => [(sat_tag i, snd (fst x))] | None => [] end in
                  let ctr' := match rn with Some x => snd x | None => ctr end in
                  option_map (fun l => (sat ++ group_results l, ctr'))
                             (head_results rd r 0 (r_head r) nb na nn cur)
              end
          end
      end
  end.

(** ** The engine *)

(** normalization/program.rs [NormalizedProgram]. [p_preds]: [predicates()]. *)
Record program := mkProgram {
  p_rules : list rule;
  p_facts : list (tag * row);
  p_imports : list (tag * list row);
  p_preds : list (tag * nat);
  p_outputs : list tag }.

(** execution_engine.rs:40-50, 54-87 [RuleInfo], [ExecutionEngine]. [e_nulls] is the number of nulls
    handed out by the dictionary. *)
Record engine := mkEngine {
  e_manager : manager;
  e_frag : frag;
  e_last : nat -> nat;          (* rule_infos[i].step_last_applied *)
  e_step : nat;                 (* current_step *)
  e_history : list nat;         (* rule_history without the placeholder *)
  e_nulls : nat }.

(** execution_engine.rs:178-222 [add_imports]: the sources of a predicate, imports first *)
Definition edb_sources (pr : program) (p : tag) : list (list row) :=
  map snd (filter (fun x => fst x =? p) (p_imports pr)) ++
  match filter (fun x => fst x =? p) (p_facts pr) with [] => [] | l => [map snd l] end.
Definition edb_preds (pr : program) : list tag :=
  nodup Nat.eq_dec (map fst (p_imports pr) ++ map fst (p_facts pr)).

(** The table-manager calls of [initialize] (execution_engine.rs:132-137) and of the beginning of
    [execute] (317-331): registration, imports, the special predicates, merging of outputs. *)
Definition init_ops (pr : program) : list op :=
  map (fun pa => OpRegister (fst pa) (snd pa)) (p_preds pr) ++
  map (fun p => OpEdb p (edb_sources pr p)) (edb_preds pr) ++
  flat_map (fun ir => if is_existential (snd ir)
                      then [OpRegister (sat_tag (fst ir)) (length (frontier_list (snd ir)))] else [])
           (combine (seq 0 (length (p_rules pr))) (p_rules pr)) ++
  map OpCombinePredicate (p_outputs pr).

Definition engine_init (pr : program) : option engine :=
  option_map (fun m => mkEngine m frag_new (fun _ => 0) 1 [] 0) (run manager_new (init_ops pr)).

(** forward.rs:86-88, execution_engine.rs:300-305: does a head predicate have facts? *)
Definition has_facts (pr : program) (r : rule) : bool :=
  existsb (fun a => existsb (fun f => fst f =? fst a) (p_facts pr)) (r_head r).

(** execution_engine.rs:224-261 [step] followed by 263-293 [defrag] (with the incremented step
    counter): new state and whether some predicate was updated. An invalid rule index panics. *)
Definition engine_apply (pr : program) (e : engine) (i : nat) : option (engine * bool) :=
  match nth_error (p_rules pr) i with
  | None => None
  | Some r =>
      let cur := e_step e in
      match execute_rule (manager_reader (e_manager e)) i r (has_facts pr r) cur (e_last e i) (e_nulls e) with
      | None => None
      | Some (results, nulls) =>
          match add_results (e_manager e) cur results with
          | None => None
          | Some (m, updated) =>
              match defrag (m, e_frag e) (S cur) updated with
              | None => None
              | Some (m', f') =>
                  Some (mkEngine m' f' (fun j => if j =? i then cur else e_last e j) (S cur)
                                 (e_history e ++ [i]) nulls,
                        negb (length updated =? 0))
              end
          end
      end
  end.

(** A rule selection strategy (selection_strategy/strategy.rs:18-27) is given by its state and
    [next_rule], which may panic. *)
Inductive outcome (S : Type) :=
| Panicked
| Running (e : engine) (s : S) (resp : option bool)
| Finished (e : engine).
Arguments Panicked {S}. Arguments Running {S}. Arguments Finished {S}.

(** execution_engine.rs:333-340: one iteration of the [while] loop *)
Definition loop1 {S} (pr : program) (next : S -> option bool -> option (option nat * S)) (o : outcome S) : outcome S :=
  match o with
  | Running e s resp =>
      match next s resp with
      | None => Panicked
      | Some (None, _) => Finished e
      | Some (Some i, s') => match engine_apply pr e i with
                        | None => Panicked
                        | Some (e', b) => Running e' s' (Some b)
                        end
      end
  | o => o
  end.

(** The state of [execute] after [n] iterations *)
Fixpoint execute {S} (pr : program) (next : S -> option bool -> option (option nat * S)) (s0 : S) (n : nat) : outcome S :=
  match n with
  | 0 => match engine_init pr with None => Panicked | Some e => Running e s0 None end
  | Datatypes.S n' => loop1 pr next (execute pr next s0 n')
  end.

(** execution_engine.rs:380-392 [predicate_rows]: all rows of a predicate *)
Definition predicate_rows (e : engine) (p : tag) : option (list row) :=
  match combine_predicate (e_manager e) p with
  | None => None
  | Some (_, None) => Some []
  | Some (m', Some id) => Some (contents m' id)
  end.

(** execution_engine.rs:419-423 [count_facts_in_memory_for_predicate], table_manager.rs:120-125, 383-388.
    A table that is only referenced by its source and not loaded counts 0 there; here all tables are
    loaded. *)
Definition count_facts (e : engine) (p : tag) : option nat :=
  option_map (fun h => list_sum (map (fun si => length (contents (e_manager e) (snd si))) (single h)))
             (subtables (e_manager e) p).
