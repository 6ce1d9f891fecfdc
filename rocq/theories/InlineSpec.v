(** What a program with imports means, and when the inlining of imports is allowed. *)
From Coq Require Import String List Arith Bool.
From Verif Require Import InlineModel.
Import ListNotations.
Local Open Scope list_scope.

Definition valuation := string -> nat.

(** The world: how operations are computed ([None] if the result is undefined), and the results of the queries. *)
Record world := mk_world { compute : string -> list nat -> option nat; results : nat -> list nat -> Prop }.

Fixpoint all_some {A} (l : list (option A)) : option (list A) :=
  match l with
  | [] => Some []
  | x :: rest => match x, all_some rest with Some y, Some ys => Some (y :: ys) | _, _ => None end
  end.

(** The value of a term. *)
Fixpoint value (W : world) (e : valuation) (t : term) : option nat :=
  match t with
  | TVar v => Some (e v)
  | TConst c => Some c
  | TOp f ts => match all_some (map (value W e) ts) with Some vs => compute W f vs | None => None end
  end.
Definition values (W : world) (e : valuation) (ts : list term) : option (list nat) := all_some (map (value W e) ts).

(** A condition holds if its value is 1. *)
Definition operation_holds (W : world) (e : valuation) (o : operation) : Prop :=
  match o with
  | OEq l r => exists c, value W e l = Some c /\ value W e r = Some c
  | OCond t => value W e t = Some 1
  end.

Definition operation_vars (o : operation) : list string :=
  match o with OEq l r => term_vars l ++ term_vars r | OCond t => term_vars t end.

(** The variables that get a value by the rest of the body; the others can occur in negated literals only, and a negated literal
    says that no values of these variables make it true. *)
Definition bound (r : rule) (v : string) : Prop :=
  (exists a, In (LPos a) (r_body r) /\ In v (atom_vars a)) \/
  (exists o, In (LOp o) (r_body r) /\ In v (operation_vars o)) \/
  (exists i, In i (r_imports r) /\ il_negated i = false /\ In v (il_vars i)).

Definition same_on (B : string -> Prop) (e e' : valuation) : Prop := forall v, B v -> e v = e' v.

Section meaning.
  Variable W : world.

  (** The facts of a program, where [N] says which facts are true in negated atoms. *)
  Inductive derives (P : program) (N : string -> list nat -> Prop) : string -> list nat -> Prop :=
  | d_fact p t : In (SFact p t) P -> derives P N p t
  | d_import i t : In (SImport i) P -> results W (i_source i) t -> derives P N (i_pred i) t
  | d_rule r e h t :
      In (SRule r) P -> In h (r_head r) -> values W e (a_args h) = Some t ->
      (forall a, In (LPos a) (r_body r) -> values W e (a_args a) <> None) ->
      (forall a u, In (LPos a) (r_body r) -> values W e (a_args a) = Some u -> derives P N (a_pred a) u) ->
      (forall a x, In (LNeg a) (r_body r) -> In x (a_args a) -> value W e x <> None) ->
      (forall a e' u, In (LNeg a) (r_body r) -> same_on (bound r) e e' -> values W e' (a_args a) = Some u -> ~ N (a_pred a) u) ->
      (forall o, In (LOp o) (r_body r) -> operation_holds W e o) ->
      (forall i, In i (r_imports r) -> il_negated i = false -> results W (i_source (il_import i)) (map e (il_vars i))) ->
      (forall i e', In i (r_imports r) -> il_negated i = true -> same_on (bound r) e e' ->
                    ~ results W (i_source (il_import i)) (map e' (il_vars i))) ->
      derives P N (a_pred h) t.

  (** [M] is a stable model: the facts that are derived if negated atoms are looked up in [M] are the facts of [M].  A stratified
      program has exactly one, and it is what is computed. *)
  Definition stable (P : program) (M : string -> list nat -> Prop) : Prop := forall p t, M p t <-> derives P M p t.
End meaning.

(** ** When inlining is allowed *)

(** The predicates that are inlined. *)
Definition is_inlined (P : program) (p : string) : Prop := incremental_predicates P p <> None.

Definition rule_atom (r : rule) (k : nat) (a : atom) : Prop :=
  nth_error (r_body r) k = Some (LPos a) \/ nth_error (r_body r) k = Some (LNeg a).

Definition rule_vars (r : rule) (v : string) : Prop :=
  (exists a, (In a (r_head r) \/ In (LPos a) (r_body r) \/ In (LNeg a) (r_body r)) /\ In v (atom_vars a)) \/
  (exists o, In (LOp o) (r_body r) /\ In v (operation_vars o)) \/
  (exists i, In i (r_imports r) /\ In v (il_vars i)).

(** A rule uses the inlined predicates of a single endpoint. *)
Definition one_endpoint (P : program) (r : rule) : Prop :=
  forall j k a b i i', rule_atom r j a -> rule_atom r k b ->
    incremental_predicates P (a_pred a) = Some i -> incremental_predicates P (a_pred b) = Some i' -> i_endpoint i = i_endpoint i'.

(** No two atoms of an inlined predicate have a term that is not a variable in the same place. *)
Definition computed_apart (P : program) (r : rule) : Prop :=
  forall j k a b n x y, rule_atom r j a -> rule_atom r k b -> a_pred a = a_pred b -> is_inlined P (a_pred a) ->
    nth_error (a_args a) n = Some x -> nth_error (a_args b) n = Some y -> is_variable x = false -> is_variable y = false -> j = k.

(** No variable of the rule is called like the ones that are added. *)
Definition names_free (r : rule) : Prop := forall v, rule_vars r v -> String.prefix "_VAR_IMPORT_" v = false.

(** In negated atoms, the terms that are not variables use only variables that get a value elsewhere. *)
Definition negation_safe (r : rule) : Prop :=
  forall a x v, In (LNeg a) (r_body r) -> In x (a_args a) -> is_variable x = false -> In v (term_vars x) -> bound r v.

Definition admissible (P : program) : Prop := forall r, In (SRule r) P ->
  one_endpoint P r /\ computed_apart P r /\ names_free r /\ negation_safe r.

(** ** Which atoms are worth inlining *)

(** The variables that have a value before the imports are asked, if the predicates in [I] are inlined. *)
Inductive available (I : string -> Prop) (r : rule) : string -> Prop :=
| av_atom a v : In (LPos a) (r_body r) -> ~ I (a_pred a) -> In v (atom_vars a) -> available I r v
| av_left v t : In (LOp (OEq (TVar v) t)) (r_body r) -> (forall x, In x (term_vars t) -> available I r x) -> available I r v
| av_right v t : In (LOp (OEq t (TVar v))) (r_body r) -> (forall x, In x (term_vars t) -> available I r x) -> available I r v.

(** The atoms with such a variable, directly or over other atoms with the same predicate. *)
Inductive joined (I : string -> Prop) (r : rule) : atom -> Prop :=
| j_available a v : In (LPos a) (r_body r) -> In v (atom_vars a) -> available I r v -> joined I r a
| j_same a b v : In (LPos a) (r_body r) -> joined I r b -> a_pred a = a_pred b -> In v (atom_vars a) -> In v (atom_vars b) -> joined I r a.
