(** Specification of rule selection. *)
From Coq Require Import List Arith Bool Permutation Relations.
From Verif Require Import TableModel EngineModel StrategyModel.
Import ListNotations.

(** What petgraph's [condensation] followed by [toposort] returns for the graph with nodes [0..n-1] and
    the given edges: every node is in exactly one component, two nodes are in the same component iff
    each is reachable from the other, and no edge goes from a component to an earlier one. *)
Definition reach (edges : list (nat * nat)) : nat -> nat -> Prop := clos_refl_trans nat (fun u v => In (u, v) edges).

Record condensation (n : nat) (edges : list (nat * nat)) (comps : list (list nat)) : Prop := {
  co_part : Permutation (concat comps) (seq 0 n);
  co_nonempty : forall c, In c comps -> c <> [];
  co_scc : forall c u v, In c comps -> In u c -> (In v c <-> reach edges u v /\ reach edges v u);
  co_topo : forall i j ci cj u v, nth_error comps i = Some ci -> nth_error comps j = Some cj ->
              In u ci -> In v cj -> In (u, v) edges -> i <= j }.

(** The histories of a strategy: the rules it returned with the reported outcome of each. *)
Inductive history {T} (next : T -> option bool -> option (option nat * T)) (s0 : T)
  : list (nat * bool) -> T -> option bool -> Prop :=
| h_start : history next s0 [] s0 None
| h_step H s resp i s' b : history next s0 H s resp -> next s resp = Some (Some i, s') ->
    history next s0 (H ++ [(i, b)]) s' (Some b).

(** The strategy stops after history [H]. *)
Definition stops {T} (next : T -> option bool -> option (option nat * T)) (s0 : T) (H : list (nat * bool)) : Prop :=
  exists s resp s', history next s0 H s resp /\ next s resp = Some (None, s').

(** Rule [j] can derive facts for a positive (negative, aggregated) atom of rule [i]. *)
Definition feeds (rules : list rule) (j i : nat) : Prop :=
  exists rj ri a b, nth_error rules j = Some rj /\ nth_error rules i = Some ri /\
    In a (r_head rj) /\ In b (r_pos ri) /\ fst a = fst b.
Definition feeds_neg (rules : list rule) (j i : nat) : Prop :=
  exists rj ri a b, nth_error rules j = Some rj /\ nth_error rules i = Some ri /\ In a (r_head rj) /\
    (In b (r_neg ri) \/ (r_agg ri <> None /\ In b (r_pos ri))) /\ fst a = fst b.

(** A cycle of dependencies through a negated or aggregated atom. *)
Definition depends (rules : list rule) : nat -> nat -> Prop := clos_refl_trans nat (fun j i => feeds rules j i \/ feeds_neg rules j i).
Definition negative_cycle (rules : list rule) : Prop := exists i j, feeds_neg rules j i /\ depends rules i j.

(** [st] is a freshly built default strategy for the rules, for some results of the graph library. *)
Definition default_strategy (rules : list rule) (st : sn_state) : Prop :=
  exists ncomps pcomps,
    condensation (length rules) (map fst (negation_edges rules)) ncomps /\
    (forall strata k g rs, stratify (length rules) (negation_edges rules) ncomps = Some (Some strata) ->
       nth_error strata k = Some g -> select rules g = Some rs -> condensation (length rs) (positive_edges rs) (pcomps k)) /\
    sn_new ncomps pcomps rules = Some (Some st).
