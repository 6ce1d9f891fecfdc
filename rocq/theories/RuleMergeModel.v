(** Model of nemo/src/rule_model/pipeline/transformations/merge_sparql.rs: imports of one rule are merged into one query.  Uses the
    model of the queries (QueryModel).  Arguments of atoms are variables; values are natural numbers. *)
From Coq Require Import String List Arith Bool.
From Verif Require Import QueryModel.
Import ListNotations.
Local Open Scope list_scope.

(** rule_model/components/import_export/clause.rs:20-32, ImportClause: the import has a predicate, an endpoint and a query; the other
    parameters of imports are left out. *)
Record clause := mk_clause { c_pred : string; c_endpoint : nat; c_query : pattern; c_vars : list string }.

(** rule_model/components/literal.rs; [LEqual x c] is x = c or c = x, [LOther k xs] another operation with the variables [xs]. *)
Inductive literal := LPos (p : string) (vs : list string) | LNeg (p : string) (vs : list string) | LEqual (x : string) (c : nat)
  | LOther (k : nat) (xs : list string).

(** rule_model/components/rule.rs; an import is negated ([true]) or not *)
Record rule := mk_rule { r_head : list (string * list string); r_body : list literal; r_imports : list (bool * clause) }.

(** The result of a function that can return None or panic. *)
Inductive outcome A := Done (a : A) | Nothing | Panics.
Arguments Done {A} a.
Arguments Nothing {A}.
Arguments Panics {A}.

(** merge_sparql.rs:122-137 and 93-96: the equalities as a hash map, so the last one of a variable counts *)
Definition equalities (body : list literal) : list (string * nat) :=
  fold_left (fun m l => match l with LEqual x c => (x, c) :: m | _ => m end) body [].
Definition value_of (eqs : list (string * nat)) (x : string) : option nat :=
  match find (fun e => String.eqb (fst e) x) eqs with Some (_, c) => Some c | None => None end.
Definition has_value (eqs : list (string * nat)) (x : string) : bool := match value_of eqs x with Some _ => true | None => false end.

Section merge.
  (** The order in which hash sets are listed, and which values are SPARQL terms. *)
  Variable order : list string -> list string.
  Variable sparql : nat -> bool.

  (** import_export.rs:259-277: the columns of variables with constants; None if some constant is not a SPARQL term *)
  Fixpoint constants_at (k : nat) (vars : list string) (eqs : list (string * nat)) : option (list (nat * nat)) :=
    match vars with
    | [] => Some []
    | x :: rest =>
        match value_of eqs x with
        | None => constants_at (S k) rest eqs
        | Some c => if sparql c then match constants_at (S k) rest eqs with Some cs => Some ((k, c) :: cs) | None => None end else None
        end
    end.

  (** import_export.rs:259-277: left_positions and right_positions, looked up; the last column of a variable counts *)
  Fixpoint position (k : nat) (v : string) (vars : list string) (eqs : list (string * nat)) : option nat :=
    match vars with
    | [] => None
    | x :: rest => match position (S k) v rest eqs with
                   | Some i => Some i
                   | None => if String.eqb x v && negb (has_value eqs x) then Some k else None
                   end
    end.

  Fixpoint positions (vs lvars rvars : list string) (eqs : list (string * nat)) : option (list (nat * nat)) :=
    match vs with
    | [] => Some []
    | v :: rest => match position 0 v lvars eqs, position 0 v rvars eqs, positions rest lvars rvars eqs with
                   | Some i, Some j, Some js => Some ((i, j) :: js)
                   | _, _, _ => None
                   end
    end.

  (** import_export.rs:227-318 and clause.rs:64-83, try_merge: the merged import is the left one with another query *)
  Definition try_merge (left right : clause) (eqs : list (string * nat)) : outcome clause :=
    if c_endpoint left =? c_endpoint right then
      let common := order (nodup string_dec (filter (fun v => mem v (c_vars right)) (c_vars left))) in
      match constants_at 0 (c_vars left) eqs, constants_at 0 (c_vars right) eqs with
      | Some lc, Some rc =>
          match positions common (c_vars left) (c_vars right) eqs with
          | None => Panics
          | Some joins =>
              match merge_patterns order (c_query left) (c_query right) joins lc rc with
              | Some q => Done (mk_clause (c_pred left) (c_endpoint left) q
                  (filter (fun v => negb (has_value eqs v)) (c_vars left ++ filter (fun v => negb (mem v common)) (c_vars right))))
              | None => Nothing
              end
          end
      | _, _ => Nothing
      end
    else Nothing.

  (** clause.rs:86-94 and import_export.rs:178-205, push_constants *)
  Definition push_clause (c : clause) (eqs : list (string * nat)) : clause :=
    mk_clause (c_pred c) (c_endpoint c)
      (match constants_at 0 (c_vars c) eqs with Some cs => push_constants order (c_query c) cs | None => c_query c end)
      (filter (fun v => negb (has_value eqs v)) (c_vars c)).

  (** clause.rs:97-104, try_negate *)
  Definition negate_clause (c : clause) : clause := mk_clause (c_pred c) (c_endpoint c) (negate (c_query c)) (c_vars c).

  Fixpoint merge_all (left : clause) (rest : list clause) (eqs : list (string * nat)) : outcome clause :=
    match rest with
    | [] => Done left
    | c :: rest' => match try_merge left c eqs with Done m => merge_all m rest' eqs | Nothing => Nothing | Panics => Panics end
    end.

  (** merge_sparql.rs:139-155, merge_and_push_constants; without imports and if a merge fails the result is None *)
  Definition merge_and_push (imports : list clause) (eqs : list (string * nat)) : outcome clause :=
    match imports with
    | [] => Nothing
    | [c] => Done (push_clause c eqs)
    | c :: rest => merge_all c rest eqs
    end.

  (** merge_sparql.rs:206-216 and 257-267: equalities of the map are removed from the body *)
  Definition drop_equalities (body : list literal) (eqs : list (string * nat)) : list literal :=
    filter (fun l => match l with
                     | LEqual x c => negb (match value_of eqs x with Some d => d =? c | None => false end)
                     | _ => true end) body.

  (** merge_sparql.rs:157-285, update_import: the new rule, and the imports that are added to the program *)
  Definition update_import (positive negative : outcome clause) (r : rule) (eqs : list (string * nat)) : outcome (rule * list clause) :=
    match positive, negative with
    | Panics, _ | _, Panics => Panics
    | Done p, _ =>
        let binding := flat_map (fun l => match l with LPos _ vs => vs | _ => [] end) (r_body r) in
        let incremental := match eqs with [] => true | _ => existsb (fun v => mem v (c_vars p)) binding end in
        let merged := match negative with Done n => try_merge p (negate_clause n) eqs | _ => Nothing end in
        match merged with
        | Panics => Panics
        | Done m =>
            if incremental then Done (mk_rule (r_head r) (r_body r) [(false, m)], [])
            else Done (mk_rule (r_head r) (drop_equalities (r_body r) eqs ++ [LPos (c_pred m) (c_vars m)]) [], [m])
        | Nothing =>
            match negative with
            | Done n =>
                if incremental then Done (mk_rule (r_head r) (r_body r) [(false, p); (true, n)], [])
                else Done (mk_rule (r_head r) (drop_equalities (r_body r) eqs ++ [LPos (c_pred p) (c_vars p); LNeg (c_pred n) (c_vars n)]) [], [n; p])
            | _ =>
                if incremental then Done (mk_rule (r_head r) (r_body r) [(false, p)], [])
                else Done (mk_rule (r_head r) (drop_equalities (r_body r) eqs ++ [LPos (c_pred p) (c_vars p)]) [], [p])
            end
        end
    | Nothing, _ => Done (mk_rule (r_head r) (r_body r) [], [])
    end.

  (** merge_sparql.rs:59-109: a rule is left as it is if a predicate of its head is ineligible or if it has no imports *)
  Definition merge_rule (ineligible : string -> bool) (r : rule) : outcome (rule * list clause) :=
    if existsb (fun a => ineligible (fst a)) (r_head r) || match r_imports r with [] => true | _ => false end
    then Done (r, [])
    else
      let eqs := equalities (r_body r) in
      let part (b : bool) := flat_map (fun i : bool * clause => if Bool.eqb (fst i) b then [snd i] else []) (r_imports r) in
      update_import (merge_and_push (part false) eqs) (merge_and_push (part true) eqs) r eqs.
End merge.
