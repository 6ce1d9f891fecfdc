(** Declarative semantics of rules, independent of plans, steps and tables. *)
From Coq Require Import List Arith ZArith Bool Permutation.
From Verif Require Import TableModel EngineModel.
Import ListNotations.

(** A set of facts. *)
Definition interp := tag -> row -> Prop.

(** A valuation satisfies an operation. *)
Definition holds (nu : var -> Z) (o : oper) : Prop :=
  match o with
  | OEq v e => eval_expr nu e = Some (nu v)
  | OFilter e => eval_expr nu e = Some true_val
  end.

(** The variables that have a value in a match: those of positive atoms and those computed from them
    by [variable = expression]. *)
Inductive bound (r : rule) : var -> Prop :=
| bound_pos v : In v (atom_vars (r_pos r)) -> bound r v
| bound_eq v e : In (OEq v e) (r_ops r) -> (forall w, In w (e_vars e) -> bound r w) -> bound r v.

(** The operations of the body: those over bound variables. *)
Definition body_op (r : rule) (o : oper) : Prop := In o (r_ops r) /\ forall w, In w (op_vars o) -> bound r w.

(** The operations under the negation of an atom with variables [xs]: the other ones over its variables
    and bound variables. *)
Definition neg_op (r : rule) (xs : list var) (o : oper) : Prop :=
  In o (r_ops r) /\ ~ body_op r o /\ forall w, In w (op_vars o) -> bound r w \/ In w xs.

(** A negated atom has an instance in [M] that satisfies its operations. Variables of the atom that are
    not bound are existentially quantified under the negation. *)
Definition neg_match (r : rule) (M : interp) (nu : var -> Z) (p : tag) (xs : list var) : Prop :=
  exists nu', (forall v, bound r v -> nu' v = nu v) /\ M p (map nu' xs) /\ forall o, neg_op r xs o -> holds nu' o.

(** Positive atoms are looked up in [I], negated ones in [M]. *)
Record matches (r : rule) (I M : interp) (nu : var -> Z) : Prop := {
  m_pos : forall p xs, In (p, xs) (r_pos r) -> I p (map nu xs);
  m_ops : forall o, body_op r o -> holds nu o;
  m_neg : forall p xs, In (p, xs) (r_neg r) -> ~ neg_match r M nu p xs }.

(** [z] is the aggregate value for the group of [nu]: over the distinct tuples of the aggregated
    variable and the distinct variables. *)
Definition agg_value (r : rule) (a : aggregate) (M : interp) (nu : var -> Z) (z : Z) : Prop :=
  exists L, NoDup L /\
    (forall t, In t L <-> exists nu', matches r M M nu' /\ (forall v, In v (ag_group a) -> nu' v = nu v) /\
                           t = map nu' (ag_in a :: ag_distinct a)) /\
    ag_val a (map (hd 0%Z) L) = Some z.

(** The values of the variables for head instances: existential variables may have any value. *)
Definition is_ex (r : rule) (v : var) : Prop := exists a, In a (r_head r) /\ In v (hatom_ex a).
Definition agg_index (r : rule) : option nat := option_map snd (r_agg r).

(** The operations applied to the result of the aggregate. *)
Definition agg_op (r : rule) (o : oper) : Prop :=
  In o (r_ops r) /\ ~ body_op r o /\ forall p xs, In (p, xs) (r_neg r) -> ~ neg_op r xs o.

(** A valuation for the head atom computed by the aggregate. *)
Definition agg_head_val (r : rule) (a : aggregate) (M : interp) (mu : var -> Z) : Prop :=
  exists nu z, matches r M M nu /\ agg_value r a M nu z /\
    (forall v, In v (ag_group a) -> mu v = nu v) /\ mu (ag_out a) = z /\
    (forall o, agg_op r o -> holds mu o).

(** Facts that have a (finite) derivation, where negated atoms and the inputs of aggregates are
    looked up in [M]. *)
Inductive deriv (pr : program) (M : interp) : interp :=
| d_fact p r : In (p, r) (p_facts pr) -> deriv pr M p r
| d_import p rows r : In (p, rows) (p_imports pr) -> In r rows -> deriv pr M p r
| d_rule rl nu mu k a :
    In rl (p_rules pr) ->
    (forall p xs, In (p, xs) (r_pos rl) -> deriv pr M p (map nu xs)) ->
    (forall o, body_op rl o -> holds nu o) ->
    (forall p xs, In (p, xs) (r_neg rl) -> ~ neg_match rl M nu p xs) ->
    nth_error (r_head rl) k = Some a -> agg_index rl <> Some k ->
    (forall v, ~ is_ex rl v -> mu v = nu v) ->
    deriv pr M (fst a) (map (hterm_val mu) (snd a))
| d_agg rl ag mu k a :
    In rl (p_rules pr) -> r_agg rl = Some (ag, k) -> nth_error (r_head rl) k = Some a ->
    agg_head_val rl ag M mu ->
    deriv pr M (fst a) (map (hterm_val mu) (snd a)).

(** [M] is a model of the rules: every match has its head atoms, for some values of the existential
    variables; aggregates have their heads. *)
Definition closed (pr : program) (M : interp) : Prop :=
  (forall p r, In (p, r) (p_facts pr) -> M p r) /\
  (forall p rows r, In (p, rows) (p_imports pr) -> In r rows -> M p r) /\
  forall rl, In rl (p_rules pr) ->
    (forall nu, matches rl M M nu ->
       exists mu, (forall v, ~ is_ex rl v -> mu v = nu v) /\
         forall k a, nth_error (r_head rl) k = Some a -> agg_index rl <> Some k ->
                     M (fst a) (map (hterm_val mu) (snd a))) /\
    (forall ag k a mu, r_agg rl = Some (ag, k) -> nth_error (r_head rl) k = Some a ->
       agg_head_val rl ag M mu -> M (fst a) (map (hterm_val mu) (snd a))).

(** The perfect model of a stratified program: it consists of exactly the facts with a derivation in
    which negation and aggregates refer to the model itself. (Unique, see EngineProps.) *)
Definition perfect (pr : program) (M : interp) : Prop := forall p r, M p r <-> deriv pr M p r.

(** What a user sees after execution. *)
Definition result (e : engine) : interp := fun p r =>
  exists rows, predicate_rows e p = Some rows /\ In r rows.

(** ** Well-formed programs: what parsing, validation and normalization guarantee. *)

Definition assigns (v : var) (o : oper) : bool := match o with OEq w _ => w =? v | OFilter _ => false end.

Record wf_rule (r : rule) : Prop := {
  wf_atoms : forall p xs, In (p, xs) (r_pos r ++ r_neg r) -> NoDup xs;
  wf_order : NoDup (r_order r) /\ incl (atom_vars (r_pos r)) (r_order r);
  wf_exorder : is_existential r = true -> NoDup (r_exorder r) /\ incl (head_vars r) (r_exorder r);
  (** every operation is over bound variables, except the ones applied to the aggregate's result and the
      ones over the variables of a negated atom *)
  wf_ops : forall o, In o (r_ops r) ->
     (forall v, In v (op_vars o) -> bound r v) \/
     (exists a k v e, r_agg r = Some (a, k) /\ o = OEq v e /\ ~ bound r v /\ v <> ag_out a /\
        incl (e_vars e) (ag_out a :: ag_group a) /\ (forall p xs, In (p, xs) (r_neg r) -> ~ In v xs)) \/
     (exists p xs, In (p, xs) (r_neg r) /\ forall w, In w (op_vars o) -> bound r w \/ In w xs);
  (** no variable is assigned twice from the aggregate's result *)
  wf_ops_once : forall v, ~ bound r v -> (forall p xs, In (p, xs) (r_neg r) -> ~ In v xs) ->
     length (filter (assigns v) (r_ops r)) <= 1;
  (** negated atoms share a bound variable with the rest of the body (see C14_negation_ignored) *)
  wf_neg : forall p xs, In (p, xs) (r_neg r) -> exists v, In v xs /\ bound r v;
  (** and share no other variable with other negated atoms *)
  wf_neg_local : forall i j p xs q ys v, nth_error (r_neg r) i = Some (p, xs) -> nth_error (r_neg r) j = Some (q, ys) ->
     i <> j -> In v xs -> In v ys -> bound r v;
  (** head variables: universal ones are bound (or part of the aggregate), existential ones are new *)
  wf_head : forall k a v, nth_error (r_head r) k = Some a -> In (HVar v) (snd a) ->
     agg_index r <> Some k -> bound r v;
  wf_ex : forall v, is_ex r v -> ~ bound r v /\ (forall a, In a (r_head r) -> ~ In (HVar v) (snd a)) /\
     (forall p xs, In (p, xs) (r_neg r) -> ~ In v xs);
  wf_agg : forall a k, r_agg r = Some (a, k) ->
     (forall v, In v (ag_in a :: ag_distinct a ++ ag_group a) -> bound r v) /\
     ~ In (ag_in a) (ag_group a) /\ ~ bound r (ag_out a) /\ NoDup (ag_group a) /\
     (forall l l', Permutation l l' -> ag_val a l = ag_val a l') /\
     (forall v, ~ is_ex r v);
  (** the aggregate's head atom contains grouped variables, the result, and variables computed from it *)
  wf_agg_head : forall a k h v, r_agg r = Some (a, k) -> nth_error (r_head r) k = Some h -> In v (hatom_vars h) ->
     In v (ag_out a :: ag_group a) \/ ~ bound r v }.

Definition user_tag (p : tag) : Prop := forall i, p <> sat_tag i.

Record wf_program (pr : program) : Prop := {
  wf_rules : forall r, In r (p_rules pr) -> wf_rule r;
  wf_tags_rules : forall r, In r (p_rules pr) ->
     (forall p xs, In (p, xs) (r_pos r ++ r_neg r) -> user_tag p) /\
     (forall a, In a (r_head r) -> user_tag (fst a));
  wf_tags_edb : forall p, In p (edb_preds pr) -> user_tag p }.

(** ** Stratification: ranks of rules such that a rule deriving a predicate has a rank at most that of
    the rules using it, and a smaller one if the use is negated or aggregated. *)
Definition ranked (pr : program) (rank : nat -> nat) : Prop :=
  forall i j ri rj a, nth_error (p_rules pr) i = Some ri -> nth_error (p_rules pr) j = Some rj -> In a (r_head rj) ->
    (forall xs, In (fst a, xs) (r_pos ri) -> rank j <= rank i /\ (r_agg ri <> None -> rank j < rank i)) /\
    (forall xs, In (fst a, xs) (r_neg ri) -> rank j < rank i).

Definition existential_free (pr : program) : Prop :=
  forall r, In r (p_rules pr) -> is_existential r = false.

(** ** Invented values *)

(** Values [< 0] are nulls. Inputs contain no nulls, and built-in functions and aggregates return a null
    only if it is one of their arguments. *)
Record invents_no_nulls (pr : program) : Prop := {
  nn_facts : forall p r z, In (p, r) (p_facts pr) -> In z r -> (0 <= z)%Z;
  nn_imports : forall p rows r z, In (p, rows) (p_imports pr) -> In r rows -> In z r -> (0 <= z)%Z;
  nn_consts : forall rl a c, In rl (p_rules pr) -> In a (r_head rl) -> In (HConst c) (snd a) -> (0 <= c)%Z;
  nn_funs : forall rl v e args z, In rl (p_rules pr) -> In (OEq v e) (r_ops rl) -> e_fun e args = Some z -> (0 <= z)%Z \/ In z args;
  nn_aggs : forall rl a k args z, In rl (p_rules pr) -> r_agg rl = Some (a, k) -> ag_val a args = Some z -> (0 <= z)%Z \/ In z args }.

(** The engine state [e] can occur while executing [pr] with the given strategy, or at the end. *)
Definition reachable {T} (pr : program) (next : T -> option bool -> option (option nat * T)) (s0 : T) (e : engine) : Prop :=
  exists n, (exists s resp, execute pr next s0 n = Running e s resp) \/ execute pr next s0 n = Finished e.

(** Is [z] part of a stored fact? *)
Definition occurs (e : engine) (z : Z) : Prop := exists p x, user_tag p /\ result e p x /\ In z x.

(** The frontier: variables of the rule head that occur in the positive body. *)
Definition frontier (r : rule) (v : var) : Prop := In v (atom_vars (r_pos r)) /\ In v (head_vars r).

(** ** Steps *)

(** The fact is in the table of step [s]. *)
Definition at_step (e : engine) (p : tag) (s : nat) (x : row) : Prop :=
  exists id, In (s, id) (tables_in_range_steps (e_manager e) p s (S s)) /\ In x (contents (e_manager e) id).

(** The facts stored before step [s]. *)
Definition before (e : engine) (s : nat) : interp := fun p x => exists t, t < s /\ at_step e p t x.

(** Application [k] of a rule happens at step [k + 1]. The step of the last application of rule [i] among
    the first [n] applications, 0 if there is none. *)
Fixpoint last_use (hist : list nat) (i n : nat) : nat :=
  match n with
  | 0 => 0
  | S k => match nth_error hist k with
           | Some j => if j =? i then S k else last_use hist i k
           | None => last_use hist i k
           end
  end.

(** At its application [k], the body of the rule had a match with a fact that is new since the rule's
    previous application. *)
Definition fired (pr : program) (e : engine) (k : nat) : Prop :=
  exists i r nu, nth_error (e_history e) k = Some i /\ nth_error (p_rules pr) i = Some r /\
    matches r (before e (S k)) (before e (S k)) nu /\
    (r_pos r = [] \/ exists p xs s, In (p, xs) (r_pos r) /\ last_use (e_history e) i k <= s <= k /\ at_step e p s (map nu xs)).

(** The rule's head atoms hold in [I] for the match [nu], for some values of the existential variables. *)
Definition satisfied (r : rule) (I : interp) (nu : var -> Z) : Prop :=
  exists mu, (forall v, ~ is_ex r v -> mu v = nu v) /\
    forall a, In a (r_head r) -> I (fst a) (map (hterm_val mu) (snd a)).

(** No rule has an existential head atom for [p]. *)
Definition plain (pr : program) (p : tag) : Prop :=
  forall r a, In r (p_rules pr) -> In a (r_head r) -> fst a = p -> hatom_ex a = [].

(** The first step whose facts count as new. *)
Definition start_of (last_is_new : bool) (last : nat) : nat := if last_is_new then last else S last.

(** Consecutive applications: (previous step, step). *)
Fixpoint applications (prev : nat) (steps : list nat) : list (nat * nat) :=
  match steps with [] => [] | c :: rest => (prev, c) :: applications c rest end.

(** The same rules, facts and imports in any order. *)
Definition same_program (pr pr' : program) : Prop :=
  (forall r, In r (p_rules pr) <-> In r (p_rules pr')) /\ (forall f, In f (p_facts pr) <-> In f (p_facts pr')) /\
  (forall i, In i (p_imports pr) <-> In i (p_imports pr')).

