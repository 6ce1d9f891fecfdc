(** What a variable order should be, independent of how it is computed. *)
From Coq Require Import List Arith Bool.
From Verif Require Import TableModel EngineModel PermModel.
Import ListNotations.

(** The same variables, each once. *)
Definition lists_exactly (order vs : list var) : Prop := NoDup order /\ forall v, In v order <-> In v vs.

(** [v] and [w] occur in a common atom. *)
Definition linked (atoms : list atom) (v w : var) : Prop := exists a, In a atoms /\ In v (snd a) /\ In w (snd a).

(** No avoidable Cartesian product: a variable that shares no atom with an earlier variable is only chosen
    if none of the later variables does either. *)
Definition connected (atoms : list atom) (order : list var) : Prop :=
  forall before v after, order = before ++ v :: after ->
    forall u w, In u before -> In w after -> linked atoms u w -> exists u', In u' before /\ linked atoms u' v.

(** The column order [p] arranges the columns [xs] of an atom in the order of the variables. *)
Definition arranges (p : perm) (xs order : list var) : Prop :=
  (forall i, i < length xs -> get p i < length xs) /\
  (forall i j, get p i = get p j -> i = j) /\
  forall i j x y before mid after, nth_error xs i = Some x -> nth_error xs j = Some y ->
    order = before ++ x :: mid ++ y :: after -> get p i < get p j.

(** The variable [v] occurs in the rule. *)
Definition in_head (r : rule) (v : var) : Prop := exists a, In a (r_head r) /\ (In (HVar v) (snd a) \/ In (HEx v) (snd a)).
Definition in_rule (r : rule) (v : var) : Prop :=
  in_head r v \/
  (exists p xs, In (p, xs) (r_pos r ++ r_neg r) /\ In v xs) \/
  (exists o, In o (r_ops r) /\ In v (op_vars o)) \/
  (exists a k, r_agg r = Some (a, k) /\ (v = ag_in a \/ v = ag_out a \/ In v (ag_distinct a) \/ In v (ag_group a))).
Definition in_positive (r : rule) (v : var) : Prop := exists p xs, In (p, xs) (r_pos r) /\ In v xs.

(** Each of the variables exactly once. *)
Definition once_each (order : list var) (P : var -> Prop) : Prop := NoDup order /\ forall v, In v order <-> P v.

(** The same rule, with orders. *)
Definition same_rule (r r' : rule) : Prop :=
  r_head r' = r_head r /\ r_pos r' = r_pos r /\ r_neg r' = r_neg r /\ r_ops r' = r_ops r /\ r_agg r' = r_agg r.
