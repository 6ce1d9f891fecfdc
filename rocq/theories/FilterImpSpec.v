(** C43: when pushing rules into imports may be expected to preserve the facts. Independent of how the
    transformation works; the meaning of programs is [src_deriv] of NormSpec. *)
From Coq Require Import List Arith ZArith Bool.
From Verif Require Import TableModel EngineModel EngineSpec NormModel NormSpec FilterImpModel.
Import ListNotations.

(** The columns that are not skipped. *)
Fixpoint kept {A} (ks : list bool) (l : list A) : list A :=
  match ks, l with
  | true :: ks', x :: l' => x :: kept ks' l'
  | false :: ks', _ :: l' => kept ks' l'
  | _, _ => []
  end.

(** [r] is a rule over the imported predicate only, and has one head atom. *)
Definition one_atom_rule (r : srule) (p q : tag) : Prop :=
  (exists bts, body_positive r = [(p, bts)]) /\ body_negative r = [] /\
  exists hts, s_head r = [(q, hts)] /\ ~ aggregating_atom hts.

(** Variables that are needed for the head of a rule in normal form. *)
Inductive needed (nr : rule) : var -> Prop :=
| nd_head v : In v (head_vars nr) -> needed nr v
| nd_fun v w e : In (OEq w e) (r_ops nr) -> ~ In w (atom_vars (r_pos nr)) -> needed nr w -> In v (e_vars e) -> needed nr v.

(** Each operation of the rule is a condition on columns of the atom, or the only definition of a variable that is
    needed for the head. *)
Record plain_operations (nr : rule) : Prop := {
  po_ops : forall o, In o (r_ops nr) -> incl (op_vars o) (atom_vars (r_pos nr)) \/
     exists v e, o = OEq v e /\ ~ In v (atom_vars (r_pos nr)) /\ needed nr v;
  po_once : forall i j v e e', nth_error (r_ops nr) i = Some (OEq v e) -> nth_error (r_ops nr) j = Some (OEq v e') ->
     ~ In v (atom_vars (r_pos nr)) -> i = j }.

(** The columns used by the rule in the eyes of the transformation. *)
Definition used_columns (r : srule) : list bool := map (used_term r) (body0 r).

(** Skipping columns is harmless: fields in skipped columns can always be parsed, skipped columns are not used
    anywhere in the rule, and if the rule is dropped it is a projection to the other columns. *)
Record harmless_skips (i : import) (r : srule) (nr : rule) : Prop := {
  hs_parse : forall n, nth_error (used_columns r) n = Some false ->
     exists f, nth_error (i_formats i) n = Some (FParse f) /\ forall z, f z <> None;
  hs_unused : forall n v, nth_error (used_columns r) n = Some false -> nth_error (atom_vars (r_pos nr)) n = Some v ->
     ~ In v (head_vars nr) /\ forall o, In o (r_ops nr) -> ~ In v (op_vars o);
  hs_dropped : obsolete (used_columns r) r = Some false \/
     (obsolete (used_columns r) r = Some true /\ r_ops nr = [] /\
      map snd (r_head nr) = [map HVar (kept (used_columns r) (atom_vars (r_pos nr)))]) }.

(** The rules pushed into import [i] are harmless. *)
Record harmless (P : fprogram) (i : import) : Prop := {
  ha_rules : i_rules i = [];
  ha_formats : forall f, In f (i_formats i) -> is_skip f = false;
  ha_single : forall r, In r (import_rules P (i_pred i)) -> import_rules P (i_pred i) = [r];
  ha_head : forall r, In r (import_rules P (i_pred i)) -> exists q, one_atom_rule r (i_pred i) q;
  ha_arity : forall r, In r (import_rules P (i_pred i)) -> length (body0 r) = length (i_formats i);
  (** the imported predicate is not derived by rules *)
  ha_base : import_rules P (i_pred i) <> [] -> forall r q ts, In r (f_rules P) -> In (q, ts) (s_head r) -> q <> i_pred i;
  ha_ops : forall r nr, In r (import_rules P (i_pred i)) -> normalize r = Some nr -> plain_operations nr;
  ha_skips : forall r nr, In r (import_rules P (i_pred i)) -> normalize r = Some nr -> i_project i = true ->
     In false (used_columns r) -> harmless_skips i r nr }.

(** Predicates whose facts a user can observe, or that are not imported. *)
Definition observable (P : fprogram) (p : tag) : Prop :=
  In p (f_outputs P) \/ ~ In p (map i_pred (f_imports P)).

(** ** Failures: a valid program after the transformation lacks or has additional facts, or it panics. *)
Definition transformed_to (P : fprogram) (sp sp' : sprogram) : Prop :=
  source P = Some sp /\ ok_program sp /\ exists P', filter_imports P = Some P' /\ source P' = Some sp'.
Definition loses (P : fprogram) (p : tag) (x : row) : Prop :=
  exists sp sp', transformed_to P sp sp' /\ observable P p /\ forall M, src_deriv sp M p x /\ ~ src_deriv sp' M p x.
Definition invents (P : fprogram) (p : tag) (x : row) : Prop :=
  exists sp sp', transformed_to P sp sp' /\ observable P p /\ forall M, ~ src_deriv sp M p x /\ src_deriv sp' M p x.
Definition panics_on (P : fprogram) : Prop :=
  exists sp, source P = Some sp /\ ok_program sp /\
    (filter_imports P = None \/ exists P', filter_imports P = Some P' /\ source P' = None).

(** ** What the transformation computes, in terms of the rule *)

(** [v] occurs in the first head atom or in an equation. *)
Definition relevant (r : srule) (v : var) : Prop :=
  (exists q ts rest t, s_head r = (q, ts) :: rest /\ In t ts /\ In v (uvars t)) \/
  exists l w t, In l (s_body r) /\ equates l w t /\ (v = w \/ In v (uvars t)).
