(** Model of the program transformations before execution, except the rewriting of imports:
    nemo/src/rule_model/pipeline/transformations/{normalize,global,exports,set_default_outputs,active}.rs and the
    predicate sets and the validation of parameters in nemo/src/rule_model/programs.rs. No proofs here. *)
From Coq Require Import List Arith ZArith Bool.
From Verif Require Import TableModel EngineModel NormModel.
Import ListNotations.

(** ** Programs *)

(** components/import_export.rs:556: an export of a predicate; [None] is the default csv export of
    [ExportDirective::new_csv] (import_export.rs:570-580), other specifications are numbered. *)
Record export := mkExport { e_pred : tag; e_spec : option nat }.
(** components/parameter.rs:25-38: a global variable with its definition, if it has one. *)
Record param := mkParam { pa_var : var; pa_expr : option term }.
(** The statements of a program (components/statement.rs:20-36), by kind: the order of statements of different
    kinds is not read by the transformations. An import is given by its table. Global variables are variables. *)
Record pprogram := mkP {
  p_rules : list srule; p_facts : list (tag * list term); p_imports : list (tag * list row);
  p_exports : list export; p_outputs : list tag; p_params : list param }.

(** Sets of predicates, as lists without duplicates. *)
Definition memp (p : tag) (l : list tag) : bool := existsb (Nat.eqb p) l.
Definition addp (p : tag) (l : list tag) : list tag := if memp p l then l else l ++ [p].
Definition addall (ps l : list tag) : list tag := fold_left (fun acc p => addp p acc) ps l.
Definition setp (l : list tag) : list tag := addall l [].
Definition diffp (l l' : list tag) : list tag := filter (fun p => negb (memp p l')) l.

(** literal.rs [predicate] on the body, in order; the atoms of the head *)
Definition body_preds (r : srule) : list tag :=
  flat_map (fun l => match l with LPos p _ | LNeg p _ => [p] | LOp _ _ => [] end) (s_body r).
Definition head_preds (r : srule) : list tag := map fst (s_head r).

(** programs.rs:112-127 *)
Definition all_predicates (P : pprogram) : list tag :=
  setp (flat_map (fun r => head_preds r ++ body_preds r) (p_rules P) ++ map fst (p_facts P)).
(** programs.rs:130-134 *)
Definition import_predicates (P : pprogram) : list tag := setp (map fst (p_imports P)).
(** programs.rs:137-145 *)
Definition derived_predicates (P : pprogram) : list tag :=
  setp (flat_map head_preds (p_rules P) ++ map fst (p_facts P)).

(** ** Active rules: transformations/active.rs *)

(** active.rs:38-56: one pass over the rules. Rules are identified by their position. *)
Fixpoint active_pass (n : nat) (rs : list srule) (ps : list tag) (ids : list nat) : list tag * list nat :=
  match rs with
  | [] => (ps, ids)
  | r :: rest =>
      if memp n ids then active_pass (S n) rest ps ids
      else if existsb (fun p => memp p ps) (head_preds r)
           then active_pass (S n) rest (addall (body_preds r) ps) (ids ++ [n])
           else active_pass (S n) rest ps ids
  end.
(** active.rs:34-57: until the number of predicates does not change. [None]: out of fuel. *)
Fixpoint active_loop (fuel : nat) (rs : list srule) (count : nat) (ps : list tag) (ids : list nat)
  : option (list tag * list nat) :=
  match fuel with
  | 0 => None
  | S f => if count =? length ps then Some (ps, ids)
           else let (ps', ids') := active_pass 0 rs ps ids in active_loop f rs (length ps) ps' ids'
  end.
(** active.rs:22-60 [required] *)
Definition required (P : pprogram) : option (list tag * list nat) :=
  active_loop (3 + length (flat_map body_preds (p_rules P))) (p_rules P) 0
    (addall (map e_pred (p_exports P)) (setp (p_outputs P))) [].

Fixpoint keep_ids {A} (n : nat) (ids : list nat) (l : list A) : list A :=
  match l with
  | [] => []
  | x :: r => if memp n ids then x :: keep_ids (S n) ids r else keep_ids (S n) ids r
  end.
(** active.rs:63-91 *)
Definition active (P : pprogram) : option pprogram :=
  match required P with
  | Some (ps, ids) =>
      Some (mkP (keep_ids 0 ids (p_rules P))
                (filter (fun f => memp (fst f) ps) (p_facts P))
                (filter (fun i => memp (fst i) ps) (p_imports P))
                (p_exports P) (p_outputs P) (p_params P))
  | None => None
  end.

(** ** Default outputs: transformations/set_default_outputs.rs:15-30 *)
Definition set_default_outputs (P : pprogram) : pprogram :=
  match p_outputs P, p_exports P with
  | [], [] => mkP (p_rules P) (p_facts P) (p_imports P) (p_exports P) (derived_predicates P) (p_params P)
  | _, _ => P
  end.

(** ** Exports: transformations/exports.rs *)

(** execution/execution_parameters.rs:14-27 *)
Inductive export_parameters := EKeep | ENone | EIdb | EEdb | EAll.
(** exports.rs:35-54: existing exports *)
Definition keep_export (k : export_parameters) (derived : list tag) (e : export) : bool :=
  match k with
  | EKeep => true
  | ENone => false
  | EIdb => memp (e_pred e) derived
  | EEdb => negb (memp (e_pred e) derived)
  | EAll => false
  end.
(** exports.rs:56-76: predicates with new exports *)
Definition new_exports (k : export_parameters) (P : pprogram) : list tag :=
  let exported := setp (map e_pred (p_exports P)) in
  match k with
  | EAll => diffp (all_predicates P) exported
  | EIdb => diffp (derived_predicates P) exported
  | EEdb => diffp (import_predicates P) exported
  | EKeep | ENone => []
  end.
(** exports.rs:32-81 *)
Definition set_exports (k : export_parameters) (P : pprogram) : pprogram :=
  mkP (p_rules P) (p_facts P) (p_imports P)
      (filter (keep_export k (derived_predicates P)) (p_exports P) ++ map (fun p => mkExport p None) (new_exports k P))
      (p_outputs P) (p_params P).

(** ** Constants in body atoms: transformations/normalize.rs *)

(** normalize.rs:36-40: the variable [?_n]. The names that the planner generates later are other ones. *)
Definition fresh_var (n : nat) : var := 8 * n + 3.
(** normalize.rs:53-98: the terms of an atom. Variables of every kind stay. *)
Fixpoint split_terms (n : nat) (ts : list term) : list term * list (var * term) * nat :=
  match ts with
  | [] => ([], [], n)
  | t :: rest =>
      match t with
      | TVar _ | TAnon | TEx _ => let '(us, eqs, m) := split_terms n rest in (t :: us, eqs, m)
      | _ => let '(us, eqs, m) := split_terms (S n) rest in
             (TVar (fresh_var n) :: us, (fresh_var n, t) :: eqs, m)
      end
  end.
(** normalize.rs:47-127: the literals, and whether one is modified *)
Fixpoint split_body (n : nat) (body : list literal) : list literal * bool * nat :=
  match body with
  | [] => ([], false, n)
  | LPos p ts :: rest =>
      let '(us, eqs, m) := split_terms n ts in
      let '(new, modified, k) := split_body m rest in
      match eqs with
      | [] => (LPos p ts :: new, modified, k)
      | _ => (map (fun e => LOp KEqual [TVar (fst e); snd e]) eqs ++ LPos p us :: new, true, k)
      end
  | l :: rest => let '(new, modified, k) := split_body n rest in (l :: new, modified, k)
  end.
(** normalize.rs:42-138 [normalize_rule] *)
Definition split_rule (n : nat) (r : srule) : option srule * nat :=
  let '(new, modified, k) := split_body n (s_body r) in
  (if modified then Some (mkSrule (s_head r) new) else None, k).
(** normalize.rs:141-161 *)
Fixpoint split_rules (n : nat) (rs : list srule) : list srule :=
  match rs with
  | [] => []
  | r :: rest => let (o, k) := split_rule n r in (match o with Some r' => r' | None => r end) :: split_rules k rest
  end.
Definition split_constants (P : pprogram) : pprogram :=
  mkP (split_rules 0 (p_rules P)) (p_facts P) (p_imports P) (p_exports P) (p_outputs P) (p_params P).

(** ** Global variables: transformations/global.rs and programs.rs *)

(** substitution.rs: a map from variables to terms *)
Definition subst := list (var * term).
Definition lookup (s : subst) (v : var) : option term := option_map snd (find (fun e => fst e =? v) s).
(** substitution.rs:51-61 [apply]: the variables of an aggregate that are only distinct variables are not
    replaced (term/aggregate.rs:409-411). *)
Fixpoint apply (s : subst) (t : term) : term :=
  match t with
  | TVar v => match lookup s v with Some u => u | None => t end
  | TOp k ts => TOp k (map (apply s) ts)
  | TAgg f u ds => TAgg f (apply s u) ds
  | TComplex ts => TComplex (map (apply s) ts)
  | _ => t
  end.
(** term.rs:163-172 [is_ground] *)
Fixpoint is_ground (t : term) : bool :=
  match t with
  | TConst _ => true
  | TOp _ ts | TComplex ts => forallb is_ground ts
  | TAgg _ u _ => is_ground u
  | TVar _ | TAnon | TEx _ => false
  end.

(** global.rs:56-70: one pass over the declarations *)
Fixpoint global_pass (ps : list param) (s : subst) : subst :=
  match ps with
  | [] => s
  | mkParam g e :: rest =>
      match lookup s g, e with
      | None, Some e => if is_ground (apply s e) then global_pass rest ((g, apply s e) :: s) else global_pass rest s
      | _, _ => global_pass rest s
      end
  end.
(** global.rs:54-78: until no variable is added. [None]: out of fuel. *)
Fixpoint global_loop (fuel : nat) (ps : list param) (s : subst) : option subst :=
  match fuel with
  | 0 => None
  | S f => let s' := global_pass ps s in
           if length s =? length s' then Some s' else global_loop f ps s'
  end.
(** global.rs:39-79 [subsitution]: the external definitions come first *)
Definition substitution (external : list (var * Z)) (ps : list param) : option subst :=
  global_loop (S (length ps)) ps (map (fun e => (fst e, TConst (snd e))) external).

Definition apply_literal (s : subst) (l : literal) : literal :=
  match l with
  | LPos p ts => LPos p (map (apply s) ts)
  | LNeg p ts => LNeg p (map (apply s) ts)
  | LOp k ts => LOp k (map (apply s) ts)
  end.
Definition apply_atom (s : subst) (a : tag * list term) : tag * list term := (fst a, map (apply s) (snd a)).
Definition apply_rule (s : subst) (r : srule) : srule :=
  mkSrule (map (apply_atom s) (s_head r)) (map (apply_literal s) (s_body r)).
(** global.rs:82-104. (A statement without global variables is not changed by the substitution.) *)
Definition global (external : list (var * Z)) (P : pprogram) : option pprogram :=
  match substitution external (p_params P) with
  | Some s => Some (mkP (map (apply_rule s) (p_rules P)) (map (apply_atom s) (p_facts P)) (p_imports P)
                        (p_exports P) (p_outputs P) (p_params P))
  | None => None
  end.

(** programs.rs:325-339: no variable is declared twice, every variable has a definition *)
Fixpoint declared_once (seen : list var) (external : list var) (ps : list param) : bool :=
  match ps with
  | [] => true
  | mkParam g e :: rest =>
      negb (memp g seen) && match e with None => memp g external | Some _ => true end &&
      declared_once (g :: seen) external rest
  end.
(** programs.rs:344-360: one pass; [is_global] tells which variables are global *)
Fixpoint defined_pass (is_global : var -> bool) (ps : list param) (defined : list var) : list var :=
  match ps with
  | [] => defined
  | mkParam g e :: rest =>
      if memp g defined then defined_pass is_global rest defined
      else match e with
           | Some e => if forallb (fun v => negb (is_global v) || memp v defined) (uvars e)
                       then defined_pass is_global rest (defined ++ [g]) else defined_pass is_global rest defined
           | None => defined_pass is_global rest defined
           end
  end.
(** programs.rs:341-367 *)
Fixpoint defined_loop (is_global : var -> bool) (fuel : nat) (ps : list param) (defined : list var) : option (list var) :=
  match fuel with
  | 0 => None
  | S f => let defined' := defined_pass is_global ps defined in
           if length defined =? length defined' then Some defined' else defined_loop is_global f ps defined'
  end.
(** programs.rs:317-379 [validate_parameters]: no error is reported *)
Definition validate_parameters (is_global : var -> bool) (external : list var) (ps : list param) : bool :=
  declared_once [] external ps &&
  match defined_loop is_global (S (length ps)) ps external with
  | Some defined => forallb (fun d => match pa_expr d with Some _ => memp (pa_var d) defined | None => true end) ps
  | None => false
  end.

(** ** The pipeline: transformations/default.rs:41-66, up to [TransformationActive]; the validation of the whole
    program (validate.rs) is that of its rules. [None]: an error is reported. *)
Definition prepare (is_global : var -> bool) (k : export_parameters) (external : list (var * Z)) (P : pprogram) : option pprogram :=
  if validate_parameters is_global (map fst external) (p_params P)
  then match global external (split_constants P) with
       | Some Q => let R := set_default_outputs (set_exports k Q) in
                   if forallb validate (p_rules R) then active R else None
       | None => None
       end
  else None.
