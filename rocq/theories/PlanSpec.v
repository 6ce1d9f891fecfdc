(* Specification of plans: the tables that their nodes stand for. *)
From Coq Require Import List ZArith Bool Arith.
From Verif Require Import ColumnModel ScanModel TrieModel TrieSpec OpModel OpSpec ProjModel ProjSpec StoreModel StoreSpec PlanModel.
From Verif Require PermModel PermProps.
Import ListNotations.
Local Open Scope nat_scope.

(* ---------- the plans that can be built ---------- *)
Inductive built_plan : plan -> Prop :=
| bp_default : built_plan plan_default
| bp_fetch pl ms id o : built_plan pl -> built_plan (fst (fetch_table_reordered pl ms id o))
| bp_join pl ms subs : built_plan pl -> (forall s, In s subs -> s < length (pl_nodes pl)) -> built_plan (fst (join pl ms subs))
| bp_union pl ms subs pl' nd : built_plan pl -> union pl ms subs = Ok (pl', nd) -> built_plan pl'
| bp_subtract pl main subs pl' nd : built_plan pl -> (forall s, In s subs -> s < length (pl_nodes pl)) ->
    subtract pl main subs = Ok (pl', nd) -> built_plan pl'
| bp_project pl ms sub pl' nd : built_plan pl -> projectreorder pl ms sub = Ok (pl', nd) -> built_plan pl'
| bp_rename pl sub ms : built_plan pl -> sub < length (pl_nodes pl) -> built_plan (fst (rename pl sub ms))
| bp_subnode pl nd sub pl' : built_plan pl -> sub < length (pl_nodes pl) -> add_subnode pl nd sub = Ok pl' -> built_plan pl'
| bp_markers pl nd ms pl' : built_plan pl -> set_markers pl nd ms = Ok pl' -> built_plan pl'
| bp_temporary pl nd : built_plan pl -> nd < length (pl_nodes pl) -> built_plan (write_temporary pl nd)
| bp_required pl nd : built_plan pl -> nd < length (pl_nodes pl) -> built_plan (write_temporary_non_empty pl nd)
| bp_permanent pl nd o : built_plan pl -> nd < length (pl_nodes pl) -> built_plan (write_permanent_reordered pl nd o).

Definition subnodes (op : plan_operation) : list nat :=
  match op with
  | PFetch _ _ => []
  | PJoin subs | PUnion subs => subs
  | PSubtract main subs => main :: subs
  | PProject s | PRename s => [s]
  end.

Section Plans.
(* the tables in the database *)
Variable cat : catalog.
Variable pl : plan.

Definition node_is (nd : nat) (op : plan_operation) (ms : list marker) : Prop := nth_error (pl_nodes pl) nd = Some (mk_node op ms).
Definition columns (nd : nat) : list marker := match nth_error (pl_nodes pl) nd with Some n => nd_markers n | None => [] end.
Definition output (nd : nat) : Prop := exists on, In on (pl_outs pl) /\ on_node on = nd.
Definition permanent (nd : nat) (order : perm) : Prop := exists required, In (mk_out nd (Permanent order) required) (pl_outs pl).
Definition projecting (nd : nat) : Prop := exists s ms, node_is nd (PProject s) ms.
Definition sub_of (nd s : nat) : Prop := exists op ms, node_is nd op ms /\ In s (subnodes op).

(* A assigns to each node its number of columns and M its rows, as relational algebra has it. *)
Definition means (A : nat -> nat) (M : nat -> row -> Prop) : Prop :=
  forall nd op ms, node_is nd op ms -> forall r, length r = A nd -> (M nd r <->
    match op with
    | PFetch id o => exists n P ref, nth_error cat id = Some (n, P, ref) /\ rearranged n o P r
    | PJoin subs => forall s, In s subs -> exists q, part_of ms r (columns s) q /\ M s q
    | PUnion subs => exists s, In s subs /\ M s r
    | PSubtract main subs => M main r /\ forall s, In s subs -> ~ exists q, part_of ms r (columns s) q /\ M s q
    | PProject s => projection (columns s) (M s) ms r
    | PRename s => M s r
    end).

(* the columns of the node are named, by different names *)
Definition named (A : nat -> nat) (nd : nat) : Prop := length (columns nd) = A nd /\ NoDup (columns nd).
(* The numbers of columns fit, and columns are named where names matter.  Fetched tables are not references. *)
Definition typed (A : nat -> nat) : Prop :=
  forall nd op ms, node_is nd op ms -> (ms = [] \/ length ms = A nd) /\
    match op with
    | PFetch id o => (exists P, nth_error cat id = Some (A nd, P, None)) /\ permutes (A nd) o
    | PJoin subs => length ms = A nd /\ NoDup ms /\ subs <> [] /\ (forall x, In x ms -> exists s, In s subs /\ In x (columns s)) /\
        (forall s, In s subs -> named A s /\ incl (columns s) ms)
    | PUnion subs => forall s, In s subs -> A s = A nd
    | PSubtract main subs => A main = A nd /\ length ms = A nd /\ NoDup ms /\ (forall s, In s subs -> named A s /\ incl (columns s) ms)
    | PProject s => length ms = A nd /\ NoDup ms /\ named A s /\ incl ms (columns s)
    | PRename s => A s = A nd
    end.

(* no node is below itself *)
Definition acyclic : Prop := exists rank : nat -> nat, forall nd s, sub_of nd s -> rank s < rank nd.

(* The column orders in which nodes are wanted: permanent outputs in the default order, the subnodes of a join or
   of a difference in the order of its columns (and the main subnode of a difference in the same order) *)
Definition identical (o : perm) : Prop := forall i, PermModel.get o i = i.
Inductive wanted : nat -> perm -> Prop :=
| w_output nd o : permanent nd o -> wanted nd PermModel.perm_default
| w_join nd o subs ms ms' s o' l : wanted nd o -> node_is nd (PJoin subs) ms -> PermModel.permute o ms = Some ms' -> In s subs ->
    permutes (length (columns s)) o' -> PermModel.permute o' (columns s) = Some l -> subsequence l ms' -> wanted s o'
| w_union nd o subs ms s : wanted nd o -> node_is nd (PUnion subs) ms -> In s subs -> wanted s o
| w_main nd o main subs ms : wanted nd o -> node_is nd (PSubtract main subs) ms -> wanted main o
| w_subtract nd o main subs ms ms' s o' l : wanted nd o -> node_is nd (PSubtract main subs) ms -> PermModel.permute o ms = Some ms' -> In s subs ->
    permutes (length (columns s)) o' -> PermModel.permute o' (columns s) = Some l -> subsequence l ms' -> wanted s o'
| w_project nd o s ms : wanted nd o -> node_is nd (PProject s) ms -> wanted s o
| w_rename nd o s ms : wanted nd o -> node_is nd (PRename s) ms -> wanted s o.
(* the nodes that are needed for some permanent output *)
Inductive needed : nat -> Prop :=
| n_output nd o : permanent nd o -> needed nd
| n_sub nd s : needed nd -> sub_of nd s -> needed s.

(* the node x is used for the output root directly: there is no other output in between *)
Inductive within (root : nat) : nat -> Prop :=
| wi_root : within root root
| wi_sub nd s : within root nd -> (nd = root \/ ~ output nd) -> sub_of nd s -> within root s.
(* the output x is the table of the node nd, up to its names *)
Inductive over : nat -> nat -> Prop :=
| ov_output x : output x -> over x x
| ov_rename nd s ms x : ~ output nd -> node_is nd (PRename s) ms -> over s x -> over nd x.

Record sound_plan (A : nat -> nat) : Prop := {
  sp_typed : typed A;
  sp_acyclic : acyclic;
  sp_permanent : forall nd o, permanent nd o -> permutes (A nd) o;
  (* projections are wanted in their own order of columns (C40_order_refuted) *)
  sp_orders : forall nd o, projecting nd -> wanted nd o -> identical o;
  (* so are outputs without names *)
  sp_unnamed : forall nd o, output nd -> wanted nd o -> columns nd = [] -> identical o;
  (* The outputs that projections are computed from are wanted in their own order only; those that are not kept have
     columns and are not themselves projections (C40_chain_refuted) *)
  sp_below : forall nd s ms x, node_is nd (PProject s) ms -> over s x ->
    (forall o, wanted x o -> identical o) /\ ((exists o, permanent x o) \/ (0 < A x /\ ~ projecting x));
  (* If a projection keeps all columns as they are, its last column is a column of the outputs that are directly
     computed from it (C40_cut_refuted) *)
  sp_kept : forall nd s ms l y root, node_is nd (PProject s) ms -> columns s = ms -> ms = l ++ [y] -> (forall o, ~ permanent nd o) ->
    output root -> within root nd -> In y (columns root) }.
End Plans.

(* the table of the node has no rows *)
Definition without_rows (A : nat -> nat) (M : nat -> row -> Prop) (nd : nat) : Prop := forall r, length r = A nd -> ~ M nd r.
