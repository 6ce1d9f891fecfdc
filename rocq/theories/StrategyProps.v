(** Property theorems about rule selection: C04, C05, C06. *)
From Coq Require Import List Arith ZArith Bool Lia Permutation Relations.
From Verif Require Import TableModel EngineModel StrategyModel StrategySpec StrategyProofs StrategyProofs2 StrategyProofs3.
Import ListNotations.

(** C04. Round robin never panics and returns valid rule indices, *)
Theorem C04_round_robin_valid : forall rules H s r, history rr_next (rr_new rules) H s r ->
  exists o s', rr_next s r = Some (o, s') /\ forall i, o = Some i -> i < length rules.
Proof. exact rr_safe. Qed.
Print Assumptions C04_round_robin_valid.

(** stops exactly when the last applications, as many as there are rules, all derived nothing, *)
Theorem C04_round_robin_stop_iff : forall rules H s resp, history rr_next (rr_new rules) H s resp ->
  (exists s', rr_next s resp = Some (None, s')) <->
  exists H1 H2, H = H1 ++ H2 /\ length H2 = length rules /\ forall e, In e H2 -> snd e = false.
Proof. exact rr_stop_iff. Qed.
Print Assumptions C04_round_robin_stop_iff.

(** and when it stops every rule was applied without result after the last new derivation. *)
Theorem C04_round_robin_complete : forall rules H, stops rr_next (rr_new rules) H ->
  forall i, i < length rules -> exists l, nth_error H l = Some (i, false) /\
    forall k e, l <= k -> nth_error H k = Some e -> snd e = false.
Proof. exact rr_stops. Qed.
Print Assumptions C04_round_robin_complete.

(** C05. For every condensation delivered by the graph library: building the dependency-graph strategy
    never panics, *)
Theorem C05_graph_builds : forall rules comps, condensation (length rules) (positive_edges rules) comps ->
  dg_new comps rules <> None.
Proof. exact dg_total. Qed.
Print Assumptions C05_graph_builds.

(** it returns valid rules without panic, *)
Theorem C05_graph_valid : forall rules comps, condensation (length rules) (positive_edges rules) comps ->
  forall st, dg_new comps rules = Some st ->
  forall H s r, history dg_next st H s r -> exists o s', dg_next s r = Some (o, s') /\ forall i, o = Some i -> i < length rules.
Proof. exact dg_safe. Qed.
Print Assumptions C05_graph_valid.

(** a rule run later can derive facts for a rule run before only if both are mutually recursive (in
    the same component), *)
Theorem C05_graph_order : forall rules comps st, condensation (length rules) (positive_edges rules) comps -> dg_new comps rules = Some st ->
  forall H s r, history dg_next st H s r -> forall k k' i j b b', k <= k' -> nth_error H k = Some (i, b) -> nth_error H k' = Some (j, b') ->
    feeds rules j i -> clos_refl_trans nat (feeds rules) i j.
Proof. exact dg_later_feeds. Qed.
Print Assumptions C05_graph_order.

(** and when it stops, every rule was applied, and nothing was derived for its positive atoms from
    then on. *)
Theorem C05_graph_complete : forall rules comps, condensation (length rules) (positive_edges rules) comps ->
  forall st, dg_new comps rules = Some st -> forall H, stops dg_next st H ->
  forall i, i < length rules -> exists l b, nth_error H l = Some (i, b) /\
    forall k j, l <= k -> nth_error H k = Some (j, true) -> ~ feeds rules j i.
Proof. exact dg_quiet. Qed.
Print Assumptions C05_graph_complete.

(** C06. Stratification never panics and rejects exactly the programs with a cycle through negation or
    aggregation, *)
Theorem C06_rejects : forall rules ncomps pcomps,
  condensation (length rules) (map fst (negation_edges rules)) ncomps ->
  (forall strata k g rs, stratify (length rules) (negation_edges rules) ncomps = Some (Some strata) ->
     nth_error strata k = Some g -> select rules g = Some rs -> condensation (length rs) (positive_edges rs) (pcomps k)) ->
  exists o, sn_new ncomps pcomps rules = Some o /\ (o = None <-> negative_cycle rules).
Proof. exact sn_total. Qed.
Print Assumptions C06_rejects.

(** otherwise the strata partition the rules, respect positive dependencies and separate negative ones. *)
Theorem C06_strata : forall rules ncomps, condensation (length rules) (map fst (negation_edges rules)) ncomps ->
  forall strata, stratify (length rules) (negation_edges rules) ncomps = Some (Some strata) ->
  exists rk, (forall k g v, nth_error strata k = Some g -> (In v g <-> v < length rules /\ rk v = k)) /\
    (forall k g, nth_error strata k = Some g -> NoDup g) /\
    (forall v, v < length rules -> exists g, nth_error strata (rk v) = Some g) /\
    (forall j i, feeds rules j i -> rk j <= rk i) /\ (forall j i, feeds_neg rules j i -> rk j < rk i).
Proof. exact stratify_ranks. Qed.
Print Assumptions C06_strata.

(** The default strategy runs the rules in the order of their strata. *)
Theorem C06_order : forall rules ncomps pcomps,
  condensation (length rules) (map fst (negation_edges rules)) ncomps ->
  (forall strata k g rs, stratify (length rules) (negation_edges rules) ncomps = Some (Some strata) ->
     nth_error strata k = Some g -> select rules g = Some rs -> condensation (length rs) (positive_edges rs) (pcomps k)) ->
  forall st, sn_new ncomps pcomps rules = Some (Some st) ->
  exists rk, (forall j i, feeds rules j i -> rk j <= rk i) /\ (forall j i, feeds_neg rules j i -> rk j < rk i) /\
    forall H s r, history sn_next st H s r -> forall k k' i j b b', k <= k' ->
      nth_error H k = Some (i, b) -> nth_error H k' = Some (j, b') -> rk i <= rk j.
Proof. exact sn_rank_order. Qed.
Print Assumptions C06_order.

(** *** Non-vacuity: transitive closure and its complement.
    0: path(x,y) :- edge(x,y).  1: path(x,z) :- path(x,y), edge(y,z).
    2: far(x,y) :- node(x), node(y), ~path(x,y).   edge 0, path 2, node 4, far 6 *)
Definition demo_rules : list rule :=
  [mkRule [(2, [HVar 0; HVar 1])] [(0, [0; 1])] [] [] None [0; 1] [0; 1];
   mkRule [(2, [HVar 0; HVar 2])] [(2, [0; 1]); (0, [1; 2])] [] [] None [0; 1; 2] [0; 2];
   mkRule [(6, [HVar 0; HVar 1])] [(4, [0]); (4, [1])] [(2, [0; 1])] [] None [0; 1] [0; 1]].

Example demo_condensation : condensation (length demo_rules) (map fst (negation_edges demo_rules)) [[0]; [1]; [2]] /\
  condensation (length demo_rules) (positive_edges demo_rules) [[0]; [1]; [2]].
Proof. split; apply (singletons_ok 3); vm_compute; reflexivity. Qed.

Example demo_strata : stratify (length demo_rules) (negation_edges demo_rules) [[0]; [1]; [2]] = Some (Some [[0; 1]; [2]]).
Proof. vm_compute. reflexivity. Qed.

Definition demo_pcomps (k : nat) : list (list nat) := match k with 0 => [[0]; [1]] | _ => [[0]] end.

Example demo_default : exists st, default_strategy demo_rules st /\ sn_new [[0]; [1]; [2]] demo_pcomps demo_rules = Some (Some st).
Proof.
  assert (E : exists st, sn_new [[0]; [1]; [2]] demo_pcomps demo_rules = Some (Some st)) by (vm_compute; eauto).
  destruct E as (st & Est). exists st. split; auto. exists [[0]; [1]; [2]], demo_pcomps. split; [apply demo_condensation|]. split; auto.
  intros strata k g rs Hs Hk Hr. rewrite demo_strata in Hs. injection Hs as <-.
  destruct k as [|[|k]]; simpl in Hk; [injection Hk as <-|injection Hk as <-|destruct k; discriminate]; vm_compute in Hr; injection Hr as <-.
  - apply (singletons_ok 2). vm_compute. reflexivity.
  - apply (singletons_ok 1). vm_compute. reflexivity.
Qed.

(** A program with a negative cycle is rejected: p(x) :- q(x), ~p(x). *)
Definition demo_cyclic : list rule := [mkRule [(2, [HVar 0])] [(0, [0])] [(2, [0])] [] None [0] [0]].
Example demo_rejected : sn_new [[0]] (fun _ => [[0]]) demo_cyclic = Some None /\ negative_cycle demo_cyclic.
Proof.
  split; [vm_compute; reflexivity|]. exists 0, 0. split; [|apply rt_refl].
  eexists _, _, _, _. split; [reflexivity|]. split; [reflexivity|]. split; [left; reflexivity|]. split; [left; left; reflexivity|reflexivity].
Qed.
