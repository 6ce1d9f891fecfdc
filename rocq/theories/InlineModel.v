(** Model of nemo/src/rule_model/pipeline/transformations/incremental.rs: imports from SPARQL endpoints are moved into the rules
    that use them.  Values are natural numbers; the results of a query are looked up in a table that the specification is given,
    so an import carries only a number that stands for its query.  Existential variables and aggregates are left out. *)
From Coq Require Import String List Arith Bool Decimal DecimalNat DecimalString.
Import ListNotations.
Local Open Scope list_scope.

(** rule_model/components/term.rs: variables, values and operations on terms. *)
Inductive term := TVar (v : string) | TConst (c : nat) | TOp (f : string) (args : list term).

(** rule_model/components/atom.rs *)
Record atom := mk_atom { a_pred : string; a_args : list term }.

(** rule_model/components/term/operation.rs, as literals of a body: an equality, or another condition. *)
Inductive operation := OEq (l r : term) | OCond (t : term).

(** rule_model/components/literal.rs *)
Inductive literal := LPos (a : atom) | LNeg (a : atom) | LOp (o : operation).

(** rule_model/components/import_export.rs, ImportDirective: [i_endpoint] is [None] for imports in other formats than SPARQL. *)
Record import := mk_import { i_pred : string; i_endpoint : option string; i_source : nat }.

(** rule_model/components/import_export/clause.rs, ImportLiteral and ImportClause. *)
Record import_literal := mk_il { il_negated : bool; il_import : import; il_vars : list string }.

(** rule_model/components/rule.rs *)
Record rule := mk_rule { r_head : list atom; r_body : list literal; r_imports : list import_literal }.

(** rule_model/components/statement.rs *)
Inductive statement := SFact (p : string) (args : list nat) | SRule (r : rule) | SImport (i : import)
  | SExport (p : string) | SOutput (p : string) | SParameter.
Definition program := list statement.

(** rule_model/components/term.rs, variables *)
Fixpoint term_vars (t : term) : list string :=
  match t with TVar v => [v] | TConst _ => [] | TOp _ ts => flat_map term_vars ts end.

Definition is_variable (t : term) : bool := match t with TVar _ => true | _ => false end.

Definition atom_vars (a : atom) : list string := flat_map term_vars (a_args a).

(** rule_model/components/rule.rs, body_positive, body_operations, body_atoms *)
Definition body_positive (r : rule) : list atom := flat_map (fun l => match l with LPos a => [a] | _ => [] end) (r_body r).
Definition body_operations (r : rule) : list operation := flat_map (fun l => match l with LOp o => [o] | _ => [] end) (r_body r).
Definition body_atoms (r : rule) : list atom := flat_map (fun l => match l with LPos a | LNeg a => [a] | LOp _ => [] end) (r_body r).

(** rule_model/components/term/operation.rs:77-92, variable_assignment *)
Definition variable_assignment (o : operation) : option (string * term) :=
  match o with
  | OEq (TVar v) r => Some (v, r)
  | OEq l (TVar v) => Some (v, l)
  | _ => None
  end.

Definition mem (x : string) (l : list string) : bool := existsb (String.eqb x) l.

Section predicates.
  (** [inl p] is the import statement of the predicate [p] if [p] is in the map incremental_predicates. *)
  Variable inl : string -> option import.

  Definition inlinable (p : string) : bool := match inl p with Some _ => true | None => false end.

  (** incremental.rs:62-77: one pass over the operations *)
  Definition assignment_pass (ops : list operation) (avail : list string) : list string :=
    fold_left (fun av o => match variable_assignment o with
                           | Some (v, t) => if forallb (fun x => mem x av) (term_vars t) then v :: av else av
                           | None => av end) ops avail.

  (** incremental.rs:53-77: a pass that adds nothing is the last one; here there are as many passes as operations, and then
      nothing is added any more. *)
  Definition available_variables (r : rule) : list string :=
    let ops := body_operations r in
    Nat.iter (List.length ops) (assignment_pass ops)
      (flat_map atom_vars (filter (fun a => negb (inlinable (a_pred a))) (body_positive r))).

  (** incremental.rs:89-123: one pass over the atoms that are not restricted yet; [after] is available_after_merge *)
  Definition after_of (after : list (string * list string)) (p : string) : list string :=
    flat_map (fun e => if String.eqb (fst e) p then snd e else []) after.

  Fixpoint restricted_pass (avail : list string) (todo : list atom) (after : list (string * list string))
    : list atom * list (string * list string) :=
    match todo with
    | [] => ([], after)
    | a :: rest =>
        if negb (inlinable (a_pred a)) || existsb (fun t => negb (is_variable t)) (a_args a) then restricted_pass avail rest after
        else if existsb (fun v => mem v avail || mem v (after_of after (a_pred a))) (atom_vars a)
             then restricted_pass avail rest ((a_pred a, atom_vars a) :: after)
             else let (u, after') := restricted_pass avail rest after in (a :: u, after')
    end.

  (** incremental.rs:86-125: repeated until a pass restricts nothing; as many passes as atoms are enough *)
  Definition unrestricted_atoms (r : rule) : list atom :=
    fst (Nat.iter (S (List.length (body_positive r))) (fun s => restricted_pass (available_variables r) (fst s) (snd s))
           (body_positive r, [])).

  (** incremental.rs:48-126, has_unrestricted_atom *)
  Definition has_unrestricted_atom (r : rule) : bool := match unrestricted_atoms r with [] => false | _ => true end.

  (** incremental.rs:129-138, possible_rule *)
  Definition possible_rule (r : rule) : bool :=
    if forallb (fun a => negb (inlinable (a_pred a))) (body_positive r) then false else negb (has_unrestricted_atom r).
End predicates.

Definition sparql_imports (P : program) (p : string) : list import :=
  flat_map (fun s => match s with SImport i => if String.eqb (i_pred i) p then
                                                 match i_endpoint i with Some _ => [i] | None => [] end else [] | _ => [] end) P.
Definition other_imports (P : program) (p : string) : list import :=
  flat_map (fun s => match s with SImport i => if String.eqb (i_pred i) p then
                                                 match i_endpoint i with Some _ => [] | None => [i] end else [] | _ => [] end) P.

(** incremental.rs:151-174: the map before the statements are looked at *)
Definition candidates (P : program) (p : string) : option import :=
  match other_imports P p, sparql_imports P p with [], [i] => Some i | _, _ => None end.

(** incremental.rs:176-203: normal_predicates *)
Definition normal (P : program) (p : string) : bool :=
  existsb (fun s => match s with
    | SFact q _ => String.eqb q p
    | SRule r => existsb (fun a => String.eqb (a_pred a) p) (r_head r)
                 || (negb (possible_rule (candidates P) r) && existsb (fun a => String.eqb (a_pred a) p) (body_positive r))
    | SExport q | SOutput q => String.eqb q p
    | SParameter | SImport _ => false
    end) P.

(** incremental.rs:144-207, incremental_predicates *)
Definition incremental_predicates (P : program) (p : string) : option import :=
  if normal P p then None else candidates P p.

(** rule_model/programs.rs:137-145, derived_predicates *)
Definition derived (P : program) (p : string) : bool :=
  existsb (fun s => match s with SFact q _ => String.eqb q p
                            | SRule r => existsb (fun a => String.eqb (a_pred a) p) (r_head r) | _ => false end) P.

Definition decimal (n : nat) : string := NilEmpty.string_of_uint (Nat.to_uint n).

(** incremental.rs:210-213, new_variable *)
Definition new_variable (p : string) (index : nat) : string := ("_VAR_IMPORT_" ++ p ++ "_" ++ decimal index)%string.

(** incremental.rs:216-224, unique_import_directive *)
Definition unique_import (i : import) (id : nat) : import :=
  mk_import ("_" ++ i_pred i ++ "_" ++ decimal id)%string (i_endpoint i) (i_source i).

(** incremental.rs:247-256: the variables of the import literal, and the terms that have to be computed *)
Fixpoint import_variables (p : string) (index : nat) (args : list term) : list string :=
  match args with
  | [] => []
  | TVar v :: rest => v :: import_variables p (S index) rest
  | _ :: rest => new_variable p index :: import_variables p (S index) rest
  end.
Fixpoint computed_terms (p : string) (index : nat) (args : list term) : list (string * term) :=
  match args with
  | [] => []
  | TVar _ :: rest => computed_terms p (S index) rest
  | t :: rest => (new_variable p index, t) :: computed_terms p (S index) rest
  end.

Record rewritten := mk_rw { w_body : list literal; w_imports : list import_literal; w_computed : list (string * term); w_id : nat }.

(** incremental.rs:240-275: body_mut().retain *)
Fixpoint rewrite_body (inl : string -> option import) (der : string -> bool) (body : list literal) (id : nat) : rewritten :=
  match body with
  | [] => mk_rw [] [] [] id
  | l :: rest =>
      match l with
      | LPos a | LNeg a =>
          match inl (a_pred a) with
          | Some i =>
              let i' := if der (i_pred i) then i else unique_import i id in
              let id' := if der (i_pred i) then id else S id in
              let w := rewrite_body inl der rest id' in
              let positive := match l with LPos _ => true | _ => false end in
              mk_rw (w_body w)
                (mk_il (negb positive) i' (import_variables (a_pred a) 0 (a_args a)) :: w_imports w)
                (computed_terms (a_pred a) 0 (a_args a) ++ w_computed w) (w_id w)
          | None => let w := rewrite_body inl der rest id in mk_rw (l :: w_body w) (w_imports w) (w_computed w) (w_id w)
          end
      | LOp _ => let w := rewrite_body inl der rest id in mk_rw (l :: w_body w) (w_imports w) (w_computed w) (w_id w)
      end
  end.

(** incremental.rs:228-288, incremental_rule: the new rule and the next free number *)
Definition incremental_rule (inl : string -> option import) (der : string -> bool) (r : rule) (id : nat) : rule * nat :=
  let w := rewrite_body inl der (r_body r) id in
  (mk_rule (r_head r)
     (w_body w ++ map (fun c => LOp (OEq (TVar (fst c)) (snd c))) (w_computed w))
     (r_imports r ++ w_imports w), w_id w).

(** incremental.rs:304-313: the endpoints of the inlined predicates of a body *)
Definition rule_endpoints (inl : string -> option import) (r : rule) : list string :=
  nodup string_dec (flat_map (fun a => match inl (a_pred a) with
                                       | Some i => match i_endpoint i with Some e => [e] | None => [] end
                                       | None => [] end) (body_atoms r)).

Definition is_rewritten (inl : string -> option import) (r : rule) : bool := List.length (rule_endpoints inl r) =? 1.

(** incremental.rs:301-340: the loop over the statements *)
Fixpoint inline_statements (inl : string -> option import) (der : string -> bool) (P : program) (id : nat) : program :=
  match P with
  | [] => []
  | s :: rest =>
      match s with
      | SRule r => if is_rewritten inl r
                   then let (r', id') := incremental_rule inl der r id in SRule r' :: inline_statements inl der rest id'
                   else s :: inline_statements inl der rest id
      | SImport i => match inl (i_pred i) with
                     | Some _ => inline_statements inl der rest id
                     | None => s :: inline_statements inl der rest id
                     end
      | _ => s :: inline_statements inl der rest id
      end
  end.

(** incremental.rs:291-344, apply *)
Definition inline (P : program) : program := inline_statements (incremental_predicates P) (derived P) P 0.
