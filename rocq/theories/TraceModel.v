(** Model of the tracing of facts: nemo/src/execution/execution_engine/tracing/simple.rs and simple/storage.rs,
    nemo/src/execution/planning/strategy/tracing.rs, nemo/src/execution/tracing/trace.rs. No proofs here.
    [None] always means that the program panics (or that the fuel ran out). *)
From Coq Require Import List Arith ZArith Bool.
From Verif Require Import TableModel EngineModel.
Import ListNotations.

Definition fact := (tag * row)%type.
Definition fact_eq_dec (f g : fact) : {f = g} + {f <> g}.
Proof. decide equality; [apply row_eq_dec|apply Nat.eq_dec]. Defined.

(** ** storage.rs *)

(** storage.rs:16-25, 59-66: [TraceRuleApplication] (rule, assignment, head index) and [TraceDerivation]. A
    handle is an index into the list of traced facts. *)
Definition assignment := list (var * Z).
Inductive derivation := DInput | DRule (rule : nat) (asg : assignment) (head : nat) (subs : list nat).
(** storage.rs:68-77 *)
Inductive status := Unknown | Success (d : derivation) | Fail.
(** storage.rs:92-98, 125-133: the indexed set of [TracedFact]s, which are compared by their facts. *)
Definition trace := list (fact * status).

(** storage.rs:173-182 [find_fact] *)
Fixpoint find_fact (tr : trace) (f : fact) : option nat :=
  match tr with
  | [] => None
  | (g, _) :: rest => if fact_eq_dec g f then Some 0 else option_map S (find_fact rest f)
  end.
(** storage.rs:184-199 [register_fact] *)
Definition register_fact (tr : trace) (f : fact) : trace * nat :=
  match find_fact tr f with
  | Some h => (tr, h)
  | None => (tr ++ [(f, Unknown)], length tr)
  end.
(** storage.rs:201-208 [status]: an invalid handle panics *)
Definition status_of (tr : trace) (h : nat) : option status := option_map snd (nth_error tr h).
(** storage.rs:210-217 [update_status] *)
Fixpoint update_status (tr : trace) (h : nat) (st : status) : trace :=
  match tr, h with
  | [], _ => []
  | (f, _) :: rest, 0 => (f, st) :: rest
  | x :: rest, S h' => x :: update_status rest h' st
  end.

(** ** simple.rs *)

Fixpoint lookup (g : assignment) (v : var) : option Z :=
  match g with [] => None | (w, z) :: rest => if v =? w then Some z else lookup rest v end.

(** simple.rs:79-117: unification of a head atom with the fact. Existential variables are skipped; [zip]
    stops at the shorter list. *)
Fixpoint unify (ts : list hterm) (x : row) (g : assignment) : option assignment :=
  match ts, x with
  | t :: ts', z :: x' =>
      match t with
      | HConst c => if Z.eqb c z then unify ts' x' g else None
      | HEx _ => unify ts' x' g
      | HVar v => match lookup g v with
                  | Some y => if Z.eqb y z then unify ts' x' g else None
                  | None => unify ts' x' (g ++ [(v, z)])
                  end
      end
  | _, _ => Some g
  end.

(** strategy/tracing.rs:51-55: the operation [variable = value] *)
Definition ground_op (vz : var * Z) : oper := OEq (fst vz) (mkExpr [] (fun _ => Some (snd vz))).

(** strategy/tracing.rs:43-104 [new], [crate_plan]: all positive atoms before the step are joined; then the
    functions, filters and negations of the rule and of the unified variables are applied as in the body of
    a rule. The second component is [output_variables]: the columns of the result in the order of the rule's
    variables. The join of no tables is the empty table (nemo-physical/src/tabular/operations/join.rs:108-111),
    and all operations above return nothing for it. *)
Definition trace_query (rd : reader) (r : rule) (g : assignment) (step : nat) : option (node * list var) :=
  match gen_function (restrict (r_order r) (atom_vars (r_pos r))) (r_ops r ++ map ground_op g) with
  | None => None
  | Some (vs, fns, ops1) =>
      let '(fs, ops2) := gen_filter vs ops1 in
      let '(negs, _, _) := gen_negation vs (r_neg r) ops2 in
      match r_pos r with
      | [] => Some (mkNode vs [], restrict (r_order r) vs)
      | _ =>
          match variant_node rd (r_pos r) (map (fun _ => ROld) (r_pos r)) (r_order r) step step with
          | None => None
          | Some j =>
              match filter_node (fun_node (nvars j) fns (nrows j)) fs with
              | None => None
              | Some nf => option_map (fun n => (n, restrict (r_order r) vs)) (negation_node rd nf negs step step)
              end
          end
      end
  end.

(** normalization/program.rs:146-155 [derived_predicates] *)
Definition is_derived (pr : program) (p : tag) : bool :=
  existsb (fun r => existsb (fun a => fst a =? p) (r_head r)) (p_rules pr).

Section Tracing.
(** [pick] is the first row that [execute_first_match] (nemo-physical/src/management/database.rs:676-745)
    finds, if any; [shuffle] the order in which the hash map of unified variables is iterated. *)
Context (pick : list row -> option row) (shuffle : assignment -> assignment).
Context (pr : program) (e : engine).

(** simple.rs:137-166: the facts of the positive body atoms are traced in turn; stop at the first one that fails *)
Fixpoint trace_premises (rec : trace -> fact -> option (trace * nat)) (asg : assignment) (atoms : list atom)
         (tr : trace) (subs : list nat) : option (trace * option (list nat)) :=
  match atoms with
  | [] => Some (tr, Some subs)
  | (p, xs) :: rest =>
      match mapM (lookup asg) xs with
      | None => None
      | Some x =>
          match rec tr (p, x) with
          | None => None
          | Some (tr', h) =>
              match status_of tr' h with
              | None => None
              | Some (Success _) => trace_premises rec asg rest tr' (subs ++ [h])
              | Some _ => Some (tr', None)
              end
          end
      end
  end.

(** simple.rs:73-187: the loop over the head atoms of the rule with index [i] that was applied at [step] *)
Fixpoint trace_heads (rec : trace -> fact -> option (trace * nat)) (i : nat) (r : rule) (step : nat) (f : fact) (h : nat)
         (k : nat) (hs : list hatom) (tr : trace) : option (trace * nat) :=
  match hs with
  | [] => Some (update_status tr h Fail, h)
  | a :: rest =>
      if negb (fst a =? fst f) then trace_heads rec i r step f h (S k) rest tr else
      match unify (snd a) (snd f) [] with
      | None => trace_heads rec i r step f h (S k) rest tr
      | Some g =>
          match trace_query (manager_reader (e_manager e)) r (shuffle g) step with
          | None => None
          | Some (n, vars) =>
              match pick (nrows n) with
              | None => trace_heads rec i r step f h (S k) rest tr
              | Some x =>
                  let asg := combine vars x in
                  match trace_premises rec asg (r_pos r) tr [] with
                  | None => None
                  | Some (tr', Some subs) => Some (update_status tr' h (Success (DRule i asg k subs)), h)
                  | Some (tr', None) => trace_heads rec i r step f h (S k) rest tr'
                  end
              end
          end
      end
  end.

(** simple.rs:36-188 [trace_recursive]. [rule_history] has a placeholder for step 0, which [e_history] omits. *)
Fixpoint trace_recursive (fuel : nat) (tr0 : trace) (f : fact) : option (trace * nat) :=
  match fuel with
  | 0 => None
  | S n =>
      let '(tr, h) := register_fact tr0 f in
      match status_of tr h with
      | None => None
      | Some Unknown =>
          match find_table_row (e_manager e) (fst f) (snd f) with
          | None => Some (update_status tr h Fail, h)
          | Some step =>
              if negb (is_derived pr (fst f)) || (step =? 0)
              then Some (update_status tr h (Success DInput), h)
              else match nth_error (e_history e) (step - 1) with
                   | None => None
                   | Some i =>
                       match nth_error (p_rules pr) i with
                       | None => None
                       | Some r => trace_heads (trace_recursive n) i r step f h 0 (r_head r) tr
                       end
                   end
          end
      | Some _ => Some (tr, h)
      end
  end.

(** simple.rs:248-276 [trace_ground_facts], without the progress messages *)
Fixpoint trace_ground_facts (fuel : nat) (tr : trace) (fs : list fact) : option (trace * list nat) :=
  match fs with
  | [] => Some (tr, [])
  | f :: rest =>
      match trace_recursive fuel tr f with
      | None => None
      | Some (tr', h) => option_map (fun th => (fst th, h :: snd th)) (trace_ground_facts fuel tr' rest)
      end
  end.
End Tracing.

(** ** tracing/trace.rs *)

(** trace.rs:88-96 [ExecutionTraceTree] *)
Inductive tree := TFact (f : fact) | TRule (rule : nat) (head : nat) (asg : assignment) (subs : list tree).

(** trace.rs:195-230 [tree]. The outer [None] is a panic (or no fuel), the inner one the result [None]. *)
Fixpoint tree_of (fuel : nat) (tr : trace) (h : nat) : option (option tree) :=
  match fuel with
  | 0 => None
  | S n =>
      match nth_error tr h with
      | None => None
      | Some (f, Success DInput) => Some (Some (TFact f))
      | Some (_, Success (DRule i asg k subs)) =>
          (fix go (l : list nat) (acc : list tree) : option (option tree) :=
             match l with
             | [] => Some (Some (TRule i k asg acc))
             | h' :: rest => match tree_of n tr h' with
                             | None => None
                             | Some None => Some None
                             | Some (Some t) => go rest (acc ++ [t])
                             end
             end) subs []
      | Some _ => Some None
      end
  end.
