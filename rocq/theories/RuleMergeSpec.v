(** What rules with imports derive. *)
From Coq Require Import String List Arith Bool.
From Verif Require Import QueryModel QuerySpec RuleMergeModel.
Import ListNotations.
Local Open Scope list_scope.

Definition assignment := string -> nat.

Section meaning.
  (** The contents of the endpoints, of the predicates, and which values other operations accept. *)
  Variable ends : nat -> endpoint.
  Variable other : nat -> list nat -> Prop.

  (** The rows that the values of the variables make are rows of the query. *)
  Definition clause_holds (c : clause) (s : assignment) : Prop := rows (ends (c_endpoint c)) (c_query c) (map (fun v => Some (s v)) (c_vars c)).

  Definition literal_holds (I : string -> list nat -> Prop) (l : literal) (s : assignment) : Prop :=
    match l with
    | LPos p vs => I p (map s vs)
    | LNeg p vs => ~ I p (map s vs)
    | LEqual x c => s x = c
    | LOther k xs => other k (map s xs)
    end.

  (** The body of a rule and its imports hold. *)
  Definition matches (I : string -> list nat -> Prop) (r : rule) (s : assignment) : Prop :=
    (forall l, In l (r_body r) -> literal_holds I l s) /\
    (forall neg c, In (neg, c) (r_imports r) -> if neg : bool then ~ clause_holds c s else clause_holds c s).

  Definition derives (I : string -> list nat -> Prop) (r : rule) (p : string) (row : list nat) : Prop :=
    exists s vs, matches I r s /\ In (p, vs) (r_head r) /\ row = map s vs.

  (** Predicates that are imported contain the rows of the query in addition. *)
  Definition with_imports (I : string -> list nat -> Prop) (new : list clause) (p : string) (row : list nat) : Prop :=
    I p row \/ exists c, In c new /\ c_pred c = p /\ rows (ends (c_endpoint c)) (c_query c) (map Some row).

  (** Imports for which merging is correct: one different variable for each column, columns always have values, the outermost
      operation of the query is a projection, and the names are plain. *)
  Definition good_clause (c : clause) : Prop :=
    plain_names (c_query c) /\ NoDup (columns (c_query c)) /\ NoDup (c_vars c) /\
    List.length (c_vars c) = List.length (columns (c_query c)) /\ (exists inner vs, c_query c = PProject inner vs) /\
    forall k, k < List.length (columns (c_query c)) -> always_bound (ends (c_endpoint c)) (c_query c) k.
End meaning.

(** Orders of hash sets: all elements, each one once. *)
Definition set_listing (order : list string -> list string) : Prop := listing order /\ forall l, NoDup l -> NoDup (order l).

Definition literal_vars (l : literal) : list string :=
  match l with LPos _ vs | LNeg _ vs | LOther _ vs => vs | LEqual x _ => [x] end.

(** The variables x in equalities x = c of a body. *)
Definition constant_vars (body : list literal) : list string := flat_map (fun l => match l with LEqual x _ => [x] | _ => [] end) body.

(** No variable has two constants. *)
Definition one_constant (body : list literal) : Prop := forall x c d, In (LEqual x c) body -> In (LEqual x d) body -> c = d.

(** Rules for which merging is correct: all imports are positive and good, they use the same endpoint, no variable has two constants,
    constants are SPARQL terms, and variables that occur in two imports have no constants. *)
Definition mergeable_rule (ends : nat -> endpoint) (sparql : nat -> bool) (r : rule) : Prop :=
  r_imports r <> [] /\
  (forall neg c, In (neg, c) (r_imports r) -> neg = false /\ good_clause ends c) /\
  (forall n m c d, In (n, c) (r_imports r) -> In (m, d) (r_imports r) -> c_endpoint c = c_endpoint d) /\
  one_constant (r_body r) /\
  (forall x c, In (LEqual x c) (r_body r) -> sparql c = true) /\
  (forall i j n m c d v, nth_error (r_imports r) i = Some (n, c) -> nth_error (r_imports r) j = Some (m, d) -> i <> j ->
     In v (c_vars c) -> In v (c_vars d) -> ~ In v (constant_vars (r_body r))).

(** The predicates of the imports have no other facts and do not occur in the body of the rule. *)
Definition only_imported (I : string -> list nat -> Prop) (r : rule) : Prop :=
  forall n x, In (n, x) (r_imports r) -> (forall t, ~ I (c_pred x) t) /\
    forall l, In l (r_body r) -> match l with LPos q _ | LNeg q _ => q <> c_pred x | _ => True end.

(** Variables with constants occur in imports and in their equalities only. *)
Definition constants_apart (r : rule) : Prop :=
  forall x, In x (constant_vars (r_body r)) -> (forall q vs, In (q, vs) (r_head r) -> ~ In x vs) /\
    forall l, In l (r_body r) -> In x (literal_vars l) -> exists d, l = LEqual x d.

(** Variables of the head occur in the body or in an import. *)
Definition head_bound (r : rule) : Prop :=
  forall q vs x, In (q, vs) (r_head r) -> In x vs ->
    (exists l, In l (r_body r) /\ In x (literal_vars l)) \/ exists n c, In (n, c) (r_imports r) /\ In x (c_vars c).
