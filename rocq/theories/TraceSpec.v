(** What a trace should be: a derivation tree. *)
From Coq Require Import List Arith ZArith Bool.
From Verif Require Import TableModel EngineModel EngineSpec NormModel NormSpec TraceModel.
Import ListNotations.

(** The row is an instance of the head atom under the match [nu]; variables that have no value in the
    match (existential ones and results of aggregates) may have any value. *)
Definition instance_of (r : rule) (nu : var -> Z) (a : hatom) (x : row) : Prop :=
  exists mu, (forall v, bound r v -> mu v = nu v) /\ x = map (hterm_val mu) (snd a).

(** [derives_fact pr e f s t]: the tree [t] derives the fact [f], stored at step [s], from input facts. A
    leaf is a fact of the program or of an import. An inner node names the rule that was applied at the
    fact's step and one of its head atoms; there is a match of the rule's body over the facts stored
    before that step, the fact is an instance of the head atom under the match, the assignment shown has the
    values of the match for all variables of positive atoms, and the subtrees derive the positive body
    atoms, which are facts of strictly earlier steps. *)
Inductive derives_fact (pr : program) (e : engine) : fact -> nat -> tree -> Prop :=
| df_input p x :
    at_step e p 0 x ->
    (In (p, x) (p_facts pr) \/ exists rows, In (p, rows) (p_imports pr) /\ In x rows) ->
    derives_fact pr e (p, x) 0 (TFact (p, x))
| df_rule p x j i r k a nu asg subs :
    at_step e p (S j) x ->
    nth_error (e_history e) j = Some i -> nth_error (p_rules pr) i = Some r ->
    nth_error (r_head r) k = Some a -> fst a = p ->
    matches r (before e (S j)) (before e (S j)) nu ->
    instance_of r nu a x ->
    NoDup (map fst asg) -> (forall v, In v (atom_vars (r_pos r)) -> In (v, nu v) asg) ->
    Forall2 (fun b t => exists s, s < S j /\ derives_fact pr e (fst b, map nu (snd b)) s t) (r_pos r) subs ->
    derives_fact pr e (p, x) (S j) (TRule i k asg subs).

(** What is assumed of rules, beyond [wf_rule]. *)
Record traceable (r : rule) : Prop := {
  (** the body has a positive atom (ensured by validation) *)
  tb_pos : r_pos r <> [];
  (** the variables of the positive body come first in the order (C32_orders) *)
  tb_order : exists rest, r_order r = restrict (r_order r) (atom_vars (r_pos r)) ++ rest;
  (** head atoms of a predicate have the same number of arguments *)
  tb_arity : forall a b, In a (r_head r) -> In b (r_head r) -> fst a = fst b -> length (snd a) = length (snd b);
  (** an atom with existential variables or an aggregate is the only head atom of its predicate
      (see C15_existential_refuted, C15_aggregate_head_refuted) *)
  tb_alone : forall k a k' b, nth_error (r_head r) k = Some a -> nth_error (r_head r) k' = Some b -> k <> k' ->
     hatom_ex a <> [] \/ agg_index r = Some k -> fst a <> fst b;
  (** variables that get their value from the aggregate do not occur in negated atoms *)
  tb_out : forall ag k p xs, r_agg r = Some (ag, k) -> In (p, xs) (r_neg r) -> ~ In (ag_out ag) xs;
  tb_agg : forall ag k a v p xs, r_agg r = Some (ag, k) -> nth_error (r_head r) k = Some a ->
     In (HVar v) (snd a) -> ~ bound r v -> In (p, xs) (r_neg r) -> ~ In v xs }.

(** The same for source rules, of which validation and normalization ensure the other conditions. *)
Record traceable_source (r : srule) : Prop := {
  ts_arity : forall p ts us, In (p, ts) (s_head r) -> In (p, us) (s_head r) -> length ts = length us;
  ts_alone : forall k p ts k' q us, nth_error (s_head r) k = Some (p, ts) -> nth_error (s_head r) k' = Some (q, us) -> k <> k' ->
     (exists v, In (TEx v) ts) \/ aggregating_atom ts -> p <> q }.
