(** Model of rule selection: nemo/src/execution/selection_strategy/*.rs and
    nemo/src/util/labeled_graph.rs. No proofs here. [None] means panic.
    The graph algorithms of the petgraph crate (condensation, toposort) are not part of the
    repository: their results are parameters, constrained by [condensation] in StrategySpec. *)
From Coq Require Import List Arith Bool.
From Verif Require Import TableModel EngineModel.
Import ListNotations.

(** ** strategy_round_robin.rs *)

(** normalization/rule.rs:229-243 [is_recursive] *)
Definition is_recursive (r : rule) : bool :=
  existsb (fun h => existsb (fun a => fst a =? fst h) (r_pos r)) (r_head r).

(** strategy_round_robin.rs:14-20 *)
Record rr := mkRR { rr_count : nat; rr_rec : list bool; rr_without : nat; rr_cur : nat }.

(** strategy_round_robin.rs:24-33 [new] *)
Definition rr_new (rules : list rule) : rr := mkRR (length rules) (map is_recursive rules) 0 0.

(** strategy_round_robin.rs:35-68 [next_rule] *)
Definition rr_next (s : rr) (resp : option bool) : option (option nat * rr) :=
  if rr_count s =? 0 then Some (None, s) else
  match nth_error (rr_rec s) (rr_cur s) with
  | None => None
  | Some rec =>
      match resp with
      | None => Some (Some 0, s)
      | Some b =>
          let wd := if b then 0 else S (rr_without s) in
          let update := if b then negb rec else true in
          if rr_count s <=? wd then Some (None, mkRR (rr_count s) (rr_rec s) wd (rr_cur s)) else
          let cur := if update then (rr_cur s + 1) mod rr_count s else rr_cur s in
          Some (Some cur, mkRR (rr_count s) (rr_rec s) wd cur)
      end
  end.

(** ** strategy_graph.rs:66-81 and strategy_stratified_negation.rs:142-156 [next_rule]: both go through
    a list of groups of rules, each with its own strategy. The state is the list of groups from
    [current_scc_index] (resp. [current_stratum]) on. *)
Fixpoint seq_next {T} (next : T -> option bool -> option (option nat * T)) (l : list (list nat * T))
         (resp : option bool) : option (option nat * list (list nat * T)) :=
  match l with
  | [] => Some (None, [])
  | (ids, s) :: rest =>
      match next s resp with
      | None => None
      | Some (Some r, s') =>
          match nth_error ids r with
          | None => None
          | Some i => Some (Some i, (ids, s') :: rest)
          end
      | Some (None, _) => seq_next next rest None
      end
  end.

(** [scc_rule_indices.iter().map(|&i| rules[i])] *)
Fixpoint select {A} (l : list A) (ids : list nat) : option (list A) :=
  match ids with
  | [] => Some []
  | i :: rest => match nth_error l i, select l rest with
                 | Some x, Some xs => Some (x :: xs)
                 | _, _ => None
                 end
  end.

(** Building the groups with their strategies (strategy_graph.rs:43-56, strategy_stratified_negation.rs:105-119);
    [new k] builds the strategy of the [k]-th group. *)
Fixpoint groups_new {T} (new : nat -> list rule -> option T) (rules : list rule) (k : nat) (groups : list (list nat))
  : option (list (list nat * T)) :=
  match groups with
  | [] => Some []
  | g :: rest =>
      match select rules g with
      | None => None
      | Some rs => match new k rs, groups_new new rules (S k) rest with
                   | Some t, Some l => Some ((g, t) :: l)
                   | _, _ => None
                   end
      end
  end.

(** ** Dependency graphs *)

Definition indexed {A} (l : list A) : list (nat * A) := combine (seq 0 (length l)) l.

(** dependency_graph/graph_positive.rs:22-67: an edge from a rule with a predicate in the head to every
    rule with that predicate in a positive body atom. (Grouping by predicate is replaced by pairwise
    comparison; the order of edges is irrelevant.) *)
Definition positive_edges (rules : list rule) : list (nat * nat) :=
  flat_map (fun ih => flat_map (fun h => flat_map (fun jb => flat_map (fun a =>
     if fst a =? fst h then [(fst ih, fst jb)] else []) (r_pos (snd jb))) (indexed rules)) (r_head (snd ih))) (indexed rules).

(** strategy_stratified_negation.rs:38-94 [build_graph]: labelled edges, [true] is Negative. In rules with
    aggregates all body atoms count as negative. *)
Definition has_agg (r : rule) : bool := match r_agg r with Some _ => true | None => false end.
Definition body_literals (r : rule) : list (tag * bool) :=
  map (fun a => (fst a, has_agg r)) (r_pos r) ++ map (fun a => (fst a, true)) (r_neg r).
Definition negation_edges (rules : list rule) : list (nat * nat * bool) :=
  flat_map (fun ih => flat_map (fun h => flat_map (fun jb => flat_map (fun a : tag * bool =>
     if fst a =? fst h then [(fst ih, fst jb, snd a)] else []) (body_literals (snd jb))) (indexed rules)) (r_head (snd ih))) (indexed rules).

(** ** labeled_graph.rs:118-173 [stratify] *)

Definition memn (v : nat) (l : list nat) : bool := existsb (Nat.eqb v) l.

(** labeled_graph.rs:80-100 [remove_self_cycles], the abort condition: some component has an edge with a
    negative label to itself. *)
Definition neg_self_cycle (edges : list (nat * nat * bool)) (comps : list (list nat)) : bool :=
  existsb (fun c => existsb (fun e => let '(u, v, neg) := e in memn u c && memn v c && neg) edges) comps.

(** [scc_to_stratum.get(&neighbor)] for the component of node [u] *)
Definition level_of (done : list (list nat * nat)) (u : nat) : option nat :=
  option_map snd (find (fun cs => memn u (fst cs)) done).

(** labeled_graph.rs:131-156: the stratum of component [c] from its incoming edges *)
Fixpoint comp_level (done : list (list nat * nat)) (c : list nat) (edges : list (nat * nat * bool)) : option nat :=
  match edges with
  | [] => Some 0
  | (u, v, neg) :: rest =>
      match comp_level done c rest with
      | None => None
      | Some m =>
          if memn v c && negb (memn u c)
          then match level_of done u with
               | None => None
               | Some l => Some (Nat.max m (if neg then S l else l))
               end
          else Some m
      end
  end.

Fixpoint comp_levels (done : list (list nat * nat)) (edges : list (nat * nat * bool)) (comps : list (list nat))
  : option (list (list nat * nat)) :=
  match comps with
  | [] => Some done
  | c :: rest => match comp_level done c edges with
                 | None => None
                 | Some l => comp_levels (done ++ [(c, l)]) edges rest
                 end
  end.

(** labeled_graph.rs:158-172: the strata [k, k+1, ...] up to the first missing one, at most [fuel]
    many. The nodes of a stratum are given in increasing order: strategy_stratified_negation.rs:106
    sorts them. *)
Fixpoint take_strata (n : nat) (levels : list (list nat * nat)) (k fuel : nat) : list (list nat) :=
  match fuel with
  | 0 => []
  | S f =>
      if existsb (fun cl => snd cl =? k) levels
      then filter (fun v => existsb (fun cl => (snd cl =? k) && memn v (fst cl)) levels) (seq 0 n)
           :: take_strata n levels (S k) f
      else []
  end.

(** [stratify] on the graph with nodes [0..n-1]; [comps]: the strongly connected components in
    topological order. [Some None]: not stratifiable. *)
Definition stratify (n : nat) (edges : list (nat * nat * bool)) (comps : list (list nat)) : option (option (list (list nat))) :=
  if neg_self_cycle edges comps then Some None
  else option_map (fun lv => Some (take_strata n lv 0 (length comps))) (comp_levels [] edges comps).

(** ** nemo/src/execution.rs:18-21: the default strategy *)

Definition dg_state := list (list nat * rr).
Definition sn_state := list (list nat * dg_state).

(** strategy_graph.rs:34-64 [new]; [comps]: condensation of the positive graph in topological order *)
Definition dg_new (comps : list (list nat)) (rules : list rule) : option dg_state :=
  groups_new (fun _ rs => Some (rr_new rs)) rules 0 comps.

(** strategy_stratified_negation.rs:98-140 [new]. [ncomps]: condensation of the negation graph; [pcomps k]:
    condensation of the positive graph of the rules of stratum [k]. *)
Definition sn_new (ncomps : list (list nat)) (pcomps : nat -> list (list nat)) (rules : list rule) : option (option sn_state) :=
  match stratify (length rules) (negation_edges rules) ncomps with
  | None => None
  | Some None => Some None
  | Some (Some strata) => option_map Some (groups_new (fun k rs => dg_new (pcomps k) rs) rules 0 strata)
  end.

Definition dg_next : dg_state -> option bool -> option (option nat * dg_state) := seq_next rr_next.
Definition sn_next : sn_state -> option bool -> option (option nat * sn_state) := seq_next dg_next.
