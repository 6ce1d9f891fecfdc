(** Model of nemo/src/io/formats/sparql/queries.rs: how queries are changed before they are sent to an endpoint.  Values are natural
    numbers.  A basic graph pattern (and a path or a graph pattern) is a table over its variables, constants in it belong to the
    table.  Left out: services, grouping, orders, slices, and expressions other than the ones below. *)
From Coq Require Import String Ascii List Arith Bool Decimal DecimalString.
Import ListNotations.
Local Open Scope list_scope.

Inductive qterm := QVar (v : string) | QConst (c : nat).

(** spargebra: GraphPattern and Expression *)
Inductive pattern :=
| PBgp (table : nat) (vs : list string)
| PJoin (l r : pattern)
| PLeftJoin (l r : pattern)
| PUnion (l r : pattern)
| PMinus (l r : pattern)
| PFilter (c : cond) (p : pattern)
| PExtend (p : pattern) (v : string) (t : qterm)
| PValues (vs : list string) (rows : list (list (option nat)))
| PProject (p : pattern) (vs : list string)
| PDistinct (p : pattern)
with cond :=
| CEq (a b : qterm)
| CBound (v : string)
| CNot (c : cond)
| CAnd (a b : cond)
| CExists (p : pattern).

Definition mem (x : string) (l : list string) : bool := existsb (String.eqb x) l.

(** A map is a list of pairs; the first one counts. *)
Definition lookup (m : list (string * string)) (v : string) : option string :=
  match find (fun e => String.eqb (fst e) v) m with Some (_, w) => Some w | None => None end.

(** queries.rs:315 (and 324, 348, 360): mapping.get(variable).unwrap_or(variable) *)
Definition rename_variable (m : list (string * string)) (v : string) : string :=
  match lookup m v with Some w => w | None => v end.

Definition rename_term (m : list (string * string)) (t : qterm) : qterm :=
  match t with QVar v => QVar (rename_variable m v) | QConst c => QConst c end.

(** queries.rs:366-463, rename_in_expression, and 466-592, rename_in_graph_pattern *)
Fixpoint rename (m : list (string * string)) (p : pattern) : pattern :=
  match p with
  | PBgp t vs => PBgp t (map (rename_variable m) vs)
  | PJoin l r => PJoin (rename m l) (rename m r)
  | PLeftJoin l r => PLeftJoin (rename m l) (rename m r)
  | PUnion l r => PUnion (rename m l) (rename m r)
  | PMinus l r => PMinus (rename m l) (rename m r)
  | PFilter c q => PFilter (rename_cond m c) (rename m q)
  | PExtend q v t => PExtend (rename m q) (rename_variable m v) (rename_term m t)
  | PValues vs rows => PValues (map (rename_variable m) vs) rows
  | PProject q vs => PProject (rename m q) (map (rename_variable m) vs)
  | PDistinct q => PDistinct (rename m q)
  end
with rename_cond (m : list (string * string)) (c : cond) : cond :=
  match c with
  | CEq a b => CEq (rename_term m a) (rename_term m b)
  | CBound v => CBound (rename_variable m v)
  | CNot a => CNot (rename_cond m a)
  | CAnd a b => CAnd (rename_cond m a) (rename_cond m b)
  | CExists p => CExists (rename m p)
  end.

(** queries.rs:177-307, PatternVariables and variables_in_pattern: the variables in scope and the hidden ones *)
Fixpoint variables_in (p : pattern) : list string * list string :=
  match p with
  | PBgp _ vs => (vs, [])
  | PJoin l r | PLeftJoin l r | PUnion l r =>
      (fst (variables_in l) ++ fst (variables_in r), snd (variables_in l) ++ snd (variables_in r))
  | PMinus l r =>
      (fst (variables_in l), snd (variables_in r) ++ fst (variables_in r) ++ snd (variables_in l))
  | PFilter _ q => variables_in q
  | PExtend q v _ => (v :: fst (variables_in q), snd (variables_in q))
  | PValues vs _ => (vs, [])
  | PProject q vs => (vs, snd (variables_in q) ++ fst (variables_in q))
  | PDistinct q => variables_in q
  end.

Definition decimal (n : nat) : string := NilEmpty.string_of_uint (Nat.to_uint n).

(** strip_suffix("Label") *)
Definition strip_label (v : string) : string :=
  let n := String.length v - 5 in
  if String.eqb (substring n 5 v) "Label" then substring 0 n v else v.

(** queries.rs:655-674, the closure push *)
Definition push_name (m : list (string * string)) (prefix : string) (count : nat) (v : string) : list (string * string) :=
  let v := strip_label v in
  match lookup m v with
  | Some _ => m
  | None => (v, (prefix ++ decimal count)%string) :: ((v ++ "Label")%string, (prefix ++ decimal count ++ "Label")%string) :: m
  end.

Fixpoint push_all (m : list (string * string)) (prefix : string) (count : nat) (vs : list string) : list (string * string) :=
  match vs with [] => m | v :: rest => push_all (push_name m prefix count v) prefix (S count) rest end.

Section merge.
  (** The order in which the elements of a hash set are listed. *)
  Variable order : list string -> list string.

  (** queries.rs:649-695, standardize_variables *)
  Definition standardize (prefix : string) (vars : list string * list string) (join_vars : list string) : list (string * string) :=
    push_all (push_all [] "j" 0 join_vars) prefix 0 (order (fst vars) ++ order (snd vars)).

  (** queries.rs:594-618, bind_constants; the constants of a hash map are listed in some order *)
  Definition bind_constants (p : pattern) (vs : list string) (constants : list (nat * nat)) : pattern :=
    match constants with
    | [] => p
    | _ => PJoin p (PValues (map (fun e => nth (fst e) vs EmptyString) constants) [map (fun e => Some (snd e)) constants])
    end.

  Fixpoint without (k : nat) (gone : list nat) {A} (l : list A) : list A :=
    match l with
    | [] => []
    | x :: rest => if existsb (Nat.eqb k) gone then without (S k) gone rest else x :: without (S k) gone rest
    end.

  (** queries.rs:620-647, rename_variables_in_project_pattern *)
  Definition rename_project (p : pattern) (m : list (string * string)) (constants : list (nat * nat)) : option (pattern * list string) :=
    match p with
    | PProject inner vs =>
        let renamed := map (rename_variable m) vs in
        Some (bind_constants (rename m inner) renamed constants, without 0 (map fst constants) renamed)
    | _ => None
    end.

  (** queries.rs:697-752, merge_project_patterns *)
  Definition merge_patterns (left right : pattern) (joins : list (nat * nat)) (lc rc : list (nat * nat)) : option pattern :=
    match left, right with
    | PProject _ lvs, PProject _ rvs =>
        let ljoin := map (fun j => nth (fst j) lvs EmptyString) joins in
        let rjoin := map (fun j => nth (snd j) rvs EmptyString) joins in
        let lm := standardize "l" (variables_in left) ljoin in
        let rm := standardize "r" (variables_in right) rjoin in
        match rename_project left lm lc, rename_project right rm rc with
        | Some (lp, lv), Some (rp, rv) =>
            let jv := map (rename_variable lm) ljoin in
            Some (PProject (PJoin lp rp) (lv ++ filter (fun v => negb (mem v jv)) rv))
        | _, _ => None
        end
    | _, _ => None
    end.

  (** queries.rs:810-827, push_constants_in_project_pattern, with the unwrap_or_else of push_constants (829-853) *)
  Definition push_constants (p : pattern) (constants : list (nat * nat)) : pattern :=
    match rename_project p (standardize "v" (variables_in p) []) constants with
    | Some (inner, vs) => PProject inner vs
    | None => p
    end.
End merge.

(** queries.rs:130-175, modify_outermost_projection *)
Fixpoint modify_projection (f : pattern -> list string -> pattern) (p : pattern) : pattern :=
  match p with
  | PProject inner vs => PProject (f inner vs) vs
  | PDistinct q => PDistinct (modify_projection f q)
  | _ => p
  end.

(** One set of bindings: the columns, and the rows of values; a value that SPARQL does not have is [None]. *)
Definition bindings := (list nat * list (list (option nat)))%type.

(** queries.rs:58-90, pattern_with_bindings *)
Definition with_bindings (p : pattern) (bs : list bindings) : pattern :=
  match bs with
  | [] => p
  | _ => modify_projection (fun inner vs => fold_left (fun prev b =>
           PJoin prev (PValues (map (fun k => nth k vs EmptyString) (fst b)) (snd b))) bs inner) p
  end.

(** queries.rs:92-128, pattern_with_filters: the conditions that could be translated *)
Definition with_filters (p : pattern) (cs : list cond) : pattern :=
  modify_projection (fun inner _ => match cs with [] => inner | c :: rest => PFilter (fold_left CAnd rest c) inner end) p.

(** The pattern without triples. *)
Definition unit_pattern : pattern := PValues [] [[]].

(** queries.rs:855-865, negate_project_pattern *)
Definition negate (p : pattern) : pattern :=
  modify_projection (fun inner _ => PFilter (CNot (CExists inner)) unit_pattern) p.
