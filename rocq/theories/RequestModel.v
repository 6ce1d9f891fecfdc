(** Model of nemo/src/execution/planning/operations/import.rs: which bindings are requested when rules with imports are applied.  Values are
    natural numbers; the tables of bindings are kept per pattern (in the code: per name of the pattern); in a rule every predicate has one import. *)
From Coq Require Import String Ascii List Arith Bool DecimalString.
Import ListNotations.
Local Open Scope list_scope.

Definition mem (v : string) (l : list string) : bool := existsb (String.eqb v) l.

(** normalization/atom/import.rs, ImportAtom *)
Record import_atom := mk_import { i_pred : string; i_vars : list string }.

(** import.rs:77-90, BindingPattern; the elements of the pattern are bound ([true]) or free *)
Record pattern := mk_pattern { p_pred : string; p_bound : list bool; p_subset : option (list nat) }.

Definition pattern_dec (a b : pattern) : {a = b} + {a <> b}.
Proof. decide equality; [destruct (p_subset0), (p_subset1)| |]; try (decide equality; decide equality; decide equality); try apply string_dec; try apply (list_eq_dec bool_dec). Defined.

(** import.rs:171-196, BindingPattern::name; the predicate is rendered as its name *)
Definition decimal (n : nat) : string := NilEmpty.string_of_uint (Nat.to_uint n).
Fixpoint letters (flags : list bool) : string :=
  match flags with [] => EmptyString | b :: rest => String (if b then "b"%char else "f"%char) (letters rest) end.
Definition name (p : pattern) : string :=
  ("__IMPORT_" ++ p_pred p ++ "_" ++ letters (p_bound p) ++
   match p_subset p with None => "" | Some subset => "_" ++ String.concat "," (map decimal subset) end)%string.

(** import.rs:199-208, BindingPattern::arity *)
Definition arity (p : pattern) : nat :=
  match p_subset p with Some subset => List.length subset | None => List.length (filter (fun b : bool => b) (p_bound p)) end.

(** position of the first equal element *)
Fixpoint index (v : string) (l : list string) : option nat :=
  match l with [] => None | w :: rest => if String.eqb w v then Some 0 else option_map S (index v rest) end.

(** Vec::sort *)
Fixpoint insert (n : nat) (l : list nat) : list nat := match l with [] => [n] | m :: rest => if n <=? m then n :: l else m :: insert n rest end.
Definition sort (l : list nat) : list nat := fold_right insert [] l.

(** import.rs:96-118: the variables at bound positions *)
Definition bound_flags (input : list (list string)) (a : import_atom) : list bool := map (fun v => mem v (List.concat input)) (i_vars a).
Definition bound_variables (input : list (list string)) (a : import_atom) : list string := filter (fun v => mem v (List.concat input)) (i_vars a).

(** import.rs:120-134: the bound variables that occur in an input *)
Definition subset_of (bound : list string) (vars : list string) : list nat :=
  sort (flat_map (fun v => match index v bound with Some i => [i] | None => [] end) vars).

(** import.rs:148-151: the first input with a variable *)
Fixpoint origin (v : string) (input : list (list string)) : nat :=
  match input with [] => 0 | vars :: rest => if mem v vars then 0 else S (origin v rest) end.

(** import.rs:93-168, BindingPattern::new: patterns, the variables they are made of, and the inputs these come from *)
Definition entry := (pattern * list string * nat)%type.
Definition entries (input : list (list string)) (a : import_atom) : list entry :=
  let bound := bound_variables input a in
  let result := flat_map (fun vars =>
    match subset_of bound vars with
    | [] => []
    | i :: rest => [(mk_pattern (i_pred a) (bound_flags input a) (Some (i :: rest)), map (fun j => nth j bound EmptyString) (i :: rest), origin (nth i bound EmptyString) input)]
    end) input in
  match result with
  | [(p, b, o)] => [(mk_pattern (p_pred p) (p_bound p) None, b, o)]
  | _ => result
  end.

(** import.rs:262-291, bound_positions *)
Definition flagged (flags : list bool) : list nat :=
  flat_map (fun e : nat * bool => if snd e then [fst e] else []) (combine (seq 0 (List.length flags)) flags).
Definition positions (p : pattern) : list nat :=
  match p_subset p with
  | None => flagged (p_bound p)
  | Some subset => map (fun i => nth i (flagged (p_bound p)) 0) subset
  end.

(** A rule: the variables of its inputs, and its import atoms. *)
Record rule := mk_rule { r_input : list (list string); r_atoms : list import_atom }.

(** import.rs:321-369, GeneratorImport::new: all entries, and a product of patterns for each atom *)
Definition all_entries (r : rule) : list entry := flat_map (entries (r_input r)) (r_atoms r).
Definition products (r : rule) : list (list pattern) := map (fun a => map (fun e => fst (fst e)) (entries (r_input r) a)) (r_atoms r).

Definition row := list nat.

(** The tables of bindings and the rows that have been imported. *)
Record state := mk_state { s_tables : pattern -> list row; s_imported : string -> row -> Prop }.

(** import.rs:383-403, create_binding_inputs: projections of the inputs *)
Definition project (vars binding : list string) (t : row) : row :=
  map (fun v => match index v vars with Some i => nth i t 0 | None => 0 end) binding.

Section apply.
  (** What an import delivers for old and new bindings of some positions. *)
  Variable fetch : string -> list (list nat * list row * list row) -> row -> Prop.

  (** import.rs:412-457, create_import_bindings: the current bindings of a pattern, and those that are new *)
  Definition current (r : rule) (inputs : list (list row)) (p : pattern) : list row :=
    flat_map (fun e : entry => if pattern_dec (fst (fst e)) p
                               then map (project (nth (snd e) (r_input r) []) (snd (fst e))) (nth (snd e) inputs []) else []) (all_entries r).
  Definition fresh (s : state) (r : rule) (inputs : list (list row)) (p : pattern) : list row :=
    filter (fun t => negb (if in_dec (list_eq_dec Nat.eq_dec) t (s_tables s p) then true else false)) (current r inputs p).

  (** import.rs:466-497 and 502-541, create_imports and consolidate_imports: one import for each product *)
  Definition apply (s : state) (r : rule) (inputs : list (list row)) : state :=
    mk_state (fun p => s_tables s p ++ fresh s r inputs p)
      (fun q t => s_imported s q t \/ exists a, In a (r_atoms r) /\ i_pred a = q /\
         fetch q (map (fun e : entry => (positions (fst (fst e)), s_tables s (fst (fst e)), fresh s r inputs (fst (fst e)))) (entries (r_input r) a)) t).

  (** Applications of rules, one after the other. *)
  Definition history := list (rule * list (list row)).
  Definition start : state := mk_state (fun _ => []) (fun _ _ => False).
  Definition run (h : history) : state := fold_left (fun s x => apply s (fst x) (snd x)) h start.
End apply.
