(** Specification of the transformations before execution: which statements matter, what parameters mean. *)
From Coq Require Import List Arith ZArith Bool.
From Verif Require Import TableModel EngineModel EngineSpec NormModel NormSpec PipeModel.
Import ListNotations.

(** The program as a source program: its facts are given by [src_deriv] of NormSpec. *)
Definition source (P : pprogram) : sprogram :=
  mkSprogram (p_rules P) (p_facts P) (p_imports P) [] (p_outputs P ++ map e_pred (p_exports P)).

(** ** Needed predicates *)
Definition asked (P : pprogram) (p : tag) : Prop :=
  In p (p_outputs P) \/ exists s, In (mkExport p s) (p_exports P).
Definition in_head (r : srule) (p : tag) : Prop := exists ts, In (p, ts) (s_head r).
Definition in_body (r : srule) (p : tag) : Prop := exists ts, In (LPos p ts) (s_body r) \/ In (LNeg p ts) (s_body r).
Inductive needed (P : pprogram) : tag -> Prop :=
| need_asked p : asked P p -> needed P p
| need_rule r p q : In r (p_rules P) -> in_head r p -> needed P p -> in_body r q -> needed P q.

(** The statements that are kept: in the same order, those that satisfy a condition. *)
Inductive selects {A} (Q : A -> Prop) : list A -> list A -> Prop :=
| sel_nil : selects Q [] []
| sel_keep x l l' : Q x -> selects Q l l' -> selects Q (x :: l) (x :: l')
| sel_drop x l l' : ~ Q x -> selects Q l l' -> selects Q (x :: l) l'.

(** Predicates by their role *)
Definition is_derived (P : pprogram) (p : tag) : Prop :=
  (exists r, In r (p_rules P) /\ in_head r p) \/ exists ts, In (p, ts) (p_facts P).
Definition is_imported (P : pprogram) (p : tag) : Prop := exists rows, In (p, rows) (p_imports P).
Definition is_mentioned (P : pprogram) (p : tag) : Prop :=
  is_derived P p \/ exists r, In r (p_rules P) /\ in_body r p.
Definition is_exported (P : pprogram) (p : tag) : Prop := exists s, In (mkExport p s) (p_exports P).

(** What the documentation of the parameters says (execution_parameters.rs:14-27). *)
Definition documented (k : export_parameters) (P : pprogram) (p : tag) : Prop :=
  match k with
  | EKeep => is_exported P p
  | ENone => False
  | EIdb => exists r, In r (p_rules P) /\ in_head r p
  | EEdb => is_imported P p \/ exists ts, In (p, ts) (p_facts P)
  | EAll => is_mentioned P p \/ is_imported P p
  end.

(** ** Fresh variables *)
Definition occurs (v : var) (t : term) : Prop := In v (uvars t) \/ occurs_ex v t.
(** The names of users do not start with an underscore (parser/ast/token.rs:386, where a name starts with a letter). *)
Definition user_names (r : srule) : Prop := forall t v n, rule_term r t -> occurs v t -> v <> fresh_var n.
(** Positive atoms of the body have only variables. *)
Definition variable_term (t : term) : Prop := t = TAnon \/ (exists v, t = TVar v) \/ exists v, t = TEx v.
Definition only_variables (r : srule) : Prop := forall p ts t, In (LPos p ts) (s_body r) -> In t ts -> variable_term t.

(** ** Parameters *)
(** The value of a global variable: the external one, otherwise that of its definition. *)
Inductive param_value (external : list (var * Z)) (ps : list param) : var -> Z -> Prop :=
| pv_external g z : In (g, z) external -> param_value external ps g z
| pv_defined g e nu z : ~ In g (map fst external) -> In (mkParam g (Some e)) ps ->
    (forall v, In v (uvars e) -> param_value external ps v (nu v)) -> eval nu None e = Some z ->
    param_value external ps g z.
(** Definitions are expressions over global variables. *)
Fixpoint expression (is_global : var -> bool) (t : term) : bool :=
  match t with
  | TConst _ => true
  | TVar v => is_global v
  | TOp _ ts => forallb (expression is_global) ts
  | _ => false
  end.

(** The program with the values of the variables in place of them. *)
Fixpoint put (val : var -> option Z) (t : term) : term :=
  match t with
  | TVar v => match val v with Some z => TConst z | None => t end
  | TOp k ts => TOp k (map (put val) ts)
  | TAgg f u ds => TAgg f (put val u) ds
  | TComplex ts => TComplex (map (put val) ts)
  | _ => t
  end.
Definition put_literal (val : var -> option Z) (l : literal) : literal :=
  match l with
  | LPos p ts => LPos p (map (put val) ts)
  | LNeg p ts => LNeg p (map (put val) ts)
  | LOp k ts => LOp k (map (put val) ts)
  end.
Definition put_atom (val : var -> option Z) (a : tag * list term) : tag * list term := (fst a, map (put val) (snd a)).
Definition put_rule (val : var -> option Z) (r : srule) : srule :=
  mkSrule (map (put_atom val) (s_head r)) (map (put_literal val) (s_body r)).
Definition put_program (val : var -> option Z) (P : pprogram) : pprogram :=
  mkP (map (put_rule val) (p_rules P)) (map (put_atom val) (p_facts P)) (p_imports P) (p_exports P) (p_outputs P) (p_params P).
(** [val] is the valuation of the parameters. *)
Definition valuation (external : list (var * Z)) (ps : list param) (val : var -> option Z) : Prop :=
  forall g z, val g = Some z <-> param_value external ps g z.

(** A program is well-founded in its parameters: every definition is based on external and defined variables. *)
Inductive founded (is_global : var -> bool) (external : list var) (ps : list param) : var -> Prop :=
| fo_external g : In g external -> founded is_global external ps g
| fo_defined g e : In (mkParam g (Some e)) ps -> (forall v, In v (uvars e) -> is_global v = true -> founded is_global external ps v) ->
    founded is_global external ps g.
