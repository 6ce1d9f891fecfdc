(** Rules with imports compared to rules in which imports are ordinary predicates. *)
From Coq Require Import List Arith ZArith Bool.
From Verif Require Import TableModel EngineModel EngineSpec StageModel.
Import ListNotations.

(** The rule with import atoms as ordinary atoms, and the part of the rule without imports. *)
Definition plain (r : irule) : rule := mkRule [] (i_pos r ++ i_pimp r) (i_neg r ++ i_nimp r) (i_ops r) None (i_order r) [].
Definition inner (r : irule) : rule := mkRule [] (i_pos r) (i_neg r) (i_ops r) None (i_order r) [].

(** Matches of the rule when ordinary atoms are looked up in [I] and imports in [S]. *)
Record import_matches (r : irule) (I S : interp) (nu : var -> Z) : Prop := {
  im_pos : forall p xs, In (p, xs) (i_pos r) -> I p (map nu xs);
  im_pimp : forall p xs, In (p, xs) (i_pimp r) -> S p (map nu xs);
  im_ops : forall o, body_op (plain r) o -> holds nu o;
  im_neg : forall p xs, In (p, xs) (i_neg r) -> ~ neg_match (plain r) I nu p xs;
  im_nimp : forall p xs, In (p, xs) (i_nimp r) -> ~ neg_match (plain r) S nu p xs }.

(** Imported rows are rows of the source, and those that agree with a row of each factor have been imported (C54, C55). *)
Definition fits (nu : var -> Z) (n : node) : Prop := In (map nu (nvars n)) (nrows n).
Definition serves (r : irule) (S : interp) (imported : list node -> tag -> list row) : Prop :=
  forall ns, (forall p t, In t (imported ns p) -> S p t) /\
    forall nu p xs, In (p, xs) (i_pimp r ++ i_nimp r) -> (forall n, In n ns -> fits nu n) -> S p (map nu xs) -> In (map nu xs) (imported ns p).

(** Some ordinary atom has a row that is new. *)
Definition new_match (r : irule) (D : tag -> nat -> row -> Prop) (last cur : nat) (nu : var -> Z) : Prop :=
  exists p xs s, In (p, xs) (i_pos r) /\ last <= s < cur /\ D p s (map nu xs).

(** Atoms that are connected by shared variables. *)
Inductive linked (l : list atom) : atom -> atom -> Prop :=
| linked_refl a : In a l -> linked l a a
| linked_step a b c v : In a l -> In v (snd a) -> In v (snd b) -> linked l b c -> linked l a c.

Definition before (D : tag -> nat -> row -> Prop) (cur : nat) : interp := fun p r => exists s, s < cur /\ D p s r.

(** What is assumed of all rules: atoms have different variables, the order has the variables of positive atoms, negated atoms have a variable
    that is bound and share only bound variables, variables of negated imports occur in positive atoms, and constants are only assigned to
    variables of ordinary positive atoms. *)
Record good_body (r : irule) : Prop := {
  g_atoms : forall p xs, In (p, xs) (i_pos r ++ i_neg r ++ i_pimp r ++ i_nimp r) -> NoDup xs;
  g_order : NoDup (i_order r) /\ incl (atom_vars (i_pos r ++ i_pimp r)) (i_order r);
  g_const : forall v e, In (OEq v e) (i_ops r) -> e_vars e = [] -> In v (atom_vars (i_pos r));
  g_neg : forall p xs, In (p, xs) (i_neg r) -> exists v, In v xs /\ bound (plain r) v;
  g_local : forall i j p xs q ys v, nth_error (i_neg r) i = Some (p, xs) -> nth_error (i_neg r) j = Some (q, ys) -> i <> j ->
    In v xs -> In v ys -> bound (plain r) v;
  g_nimp : forall p xs, In (p, xs) (i_nimp r) -> incl xs (atom_vars (i_pos r ++ i_pimp r)) }.

(** One factor: the ordinary positive atoms are connected.  [bound (inner r)]: variables bound without imports.  Such variables occur in positive
    atoms; negated atoms with such variables have no variables that are bound by imports, and no operations that combine these with local
    variables; operations over variables of a negated import have only such variables. *)
Record one_factor (r : irule) : Prop := {
  o_pos : i_pos r <> [];
  o_nonempty : forall p xs, In (p, xs) (i_pos r) -> xs <> [];
  o_linked : forall a b, In a (i_pos r) -> In b (i_pos r) -> linked (i_pos r) a b;
  o_computed : forall v, bound (inner r) v -> In v (atom_vars (i_pos r ++ i_pimp r));
  o_neg : forall p xs, In (p, xs) (i_neg r) -> (exists v, In v xs /\ bound (inner r) v) -> forall v, In v xs -> bound (plain r) v -> bound (inner r) v;
  o_neg_ops : forall p xs o, In (p, xs) (i_neg r) -> (exists v, In v xs /\ bound (inner r) v) -> neg_op (plain r) xs o ->
    forall w, In w (op_vars o) -> bound (inner r) w \/ In w xs;
  o_nimp : forall p xs o, In (p, xs) (i_nimp r) -> In o (i_ops r) -> incl (op_vars o) xs -> forall w, In w (op_vars o) -> bound (inner r) w }.

(** A reader of tables with the facts of each step. *)
Definition reads (rd : reader) (D : tag -> nat -> row -> Prop) : Prop :=
  forall p lo hi, exists rows, rd p lo hi = Some rows /\ forall t, In t rows <-> exists s, lo <= s < hi /\ D p s t.

(** Reader for the facts of a program, at step 0. *)
Definition step0 (facts : list (tag * row)) (p : tag) (s : nat) (t : row) : Prop := s = 0 /\ In (p, t) facts.
Definition facts_of (facts : list (tag * row)) (p : tag) : list row := map snd (filter (fun f : tag * row => fst f =? p) facts).
Definition facts_reader (facts : list (tag * row)) : reader := fun p lo hi => Some (if (lo =? 0) && (0 <? hi) then facts_of facts p else []).

(** Several factors.  [factor r l]: [l] are the ordinary atoms that are connected to one of them. *)
Definition factor_of (r : irule) (l : list atom) : Prop := exists a, In a (i_pos r) /\ forall b, In b l <-> linked (i_pos r) a b.
Definition part (r : irule) (l : list atom) : rule := mkRule [] l [] (i_ops r) None (i_order r) [].

(** What has been imported when a rule is applied at [steps]: rows of the sources, and all of these that agree, for each factor, with a row that the
    factor had in one of the applications (C55). *)
Definition requested (rd : reader) (r : irule) (apps : list (nat * nat)) (S : interp) (imp : tag -> list row) : Prop :=
  (forall p t, In t (imp p) -> S p t) /\
  forall nu p xs, In (p, xs) (i_pimp r ++ i_nimp r) ->
    (forall k last cur ns n, In (last, cur) apps -> factor_tables rd r cur last = Some ns -> nth_error ns k = Some n ->
       exists last' cur' ns' n', In (last', cur') apps /\ factor_tables rd r cur' last' = Some ns' /\ nth_error ns' k = Some n' /\ fits nu n') ->
    S p (map nu xs) -> In (map nu xs) (imp p).

(** Negated atoms with variables bound by a factor have no other bound variables and no operations with others; no operation is over variables
    of a negated import. *)
Record many_factors (r : irule) : Prop := {
  m_pos : i_pos r <> [];
  m_nonempty : forall p xs, In (p, xs) (i_pos r) -> xs <> [];
  m_several : exists a b, In a (i_pos r) /\ In b (i_pos r) /\ ~ linked (i_pos r) a b;
  m_neg : forall l p xs, factor_of r l -> In (p, xs) (i_neg r) -> (exists v, In v xs /\ bound (part r l) v) ->
    forall v, In v xs -> bound (plain r) v -> In v (atom_vars l);
  m_neg_ops : forall l p xs o, factor_of r l -> In (p, xs) (i_neg r) -> (exists v, In v xs /\ bound (part r l) v) -> neg_op (plain r) xs o ->
    forall w, In w (op_vars o) -> In w (atom_vars l) \/ In w xs;
  m_nimp : forall p xs o, In (p, xs) (i_nimp r) -> In o (i_ops r) -> ~ incl (op_vars o) xs }.

(** Facts of several steps. *)
Definition timed_reader (facts : list (nat * (tag * row))) : reader := fun p lo hi =>
  Some (map (fun f => snd (snd f)) (filter (fun f : nat * (tag * row) => (lo <=? fst f) && (fst f <? hi) && (fst (snd f) =? p)) facts)).
