(** Meaning of source rules, independent of normalization. *)
From Coq Require Import List Arith ZArith Bool Permutation.
From Verif Require Import TableModel EngineModel EngineSpec NormModel.
Import ListNotations.

(** Value of a term; [ag] is the value of the aggregates in it. A term with an undefined subterm is undefined. *)
Fixpoint eval (nu : var -> Z) (ag : option Z) (t : term) : option Z :=
  match t with
  | TVar v | TEx v => Some (nu v)
  | TConst c => Some c
  | TOp k ts => match mapo (eval nu ag) ts with Some zs => apply_op k zs | None => None end
  | TAgg _ _ _ => ag
  | TAnon | TComplex _ => None
  end.

(** [v] is a variable that occurs as a term of the list. *)
Definition among (v : var) (ts : list term) : Prop := In (TVar v) ts.

(** A body literal of the form [v = t] or [t = v]; the left side is preferred. *)
Definition equates (l : literal) (v : var) (t : term) : Prop :=
  l = LOp KEqual [TVar v; t] \/
  (l = LOp KEqual [t; TVar v] /\ (forall w, t <> TVar w) /\ (forall w, t <> TEx w) /\ t <> TAnon).

(** Variables with a value: those in positive literals, and those equated with a term over such variables. *)
Inductive safe (r : srule) : var -> Prop :=
| safe_pos p ts v : In (LPos p ts) (s_body r) -> among v ts -> safe r v
| safe_eq l v t : In l (s_body r) -> equates l v t -> has_anon t = false -> has_ex t = false ->
    (forall w, In w (uvars t) -> safe r w) -> safe r v.

(** A fact matches the terms of an atom. *)
Definition tmatch (nu : var -> Z) (t : term) (z : Z) : Prop := t = TAnon \/ eval nu None t = Some z.
Definition has (M : interp) (nu : var -> Z) (p : tag) (ts : list term) : Prop :=
  exists row, M p row /\ Forall2 (tmatch nu) ts row.

(** The operation is a condition on the whole body, or under the negation of an atom. *)
Definition safe_op (r : srule) (k : opkind) (us : list term) : Prop :=
  In (LOp k us) (s_body r) /\ forall v, In v (flat_map uvars us) -> safe r v.
Definition under_negation (r : srule) (ts : list term) (k : opkind) (us : list term) : Prop :=
  In (LOp k us) (s_body r) /\ ~ safe_op r k us /\ forall v, In v (flat_map uvars us) -> safe r v \/ among v ts.
Definition negated (r : srule) (M : interp) (nu : var -> Z) (p : tag) (ts : list term) : Prop :=
  exists nu', (forall v, safe r v -> nu' v = nu v) /\ has M nu' p ts /\
    forall k us, under_negation r ts k us -> eval nu' None (TOp k us) = Some true_val.

(** The aggregate [f] of [s], with distinct variables [ds], occurs in a term. *)
Inductive aggregates (f : list Z -> option Z) (s : term) (ds : list var) : term -> Prop :=
| agg_here : aggregates f s ds (TAgg f s ds)
| agg_sub k ts t : In t ts -> aggregates f s ds t -> aggregates f s ds (TOp k ts).
Definition aggregating (t : term) : Prop := exists f s ds, aggregates f s ds t.
Definition aggregating_atom (ts : list term) : Prop := exists t, In t ts /\ aggregating t.

(** Operations inside of atoms, and the inputs of aggregates, must be defined for a match. *)
Inductive computed (r : srule) : term -> Prop :=
| comp_neg p ts k us : In (LNeg p ts) (s_body r) -> In (TOp k us) ts -> computed r (TOp k us)
| comp_head p ts k us : In (p, ts) (s_head r) -> In (TOp k us) ts -> ~ aggregating (TOp k us) -> computed r (TOp k us)
| comp_agg p ts t f s ds : In (p, ts) (s_head r) -> In t ts -> aggregates f s ds t -> computed r s.

(** Positive literals are looked up in [I], negative ones in [M]. *)
Record src_matches (r : srule) (I M : interp) (nu : var -> Z) : Prop := {
  sm_pos : forall p ts, In (LPos p ts) (s_body r) -> has I nu p ts;
  sm_ops : forall k us, safe_op r k us -> eval nu None (TOp k us) = Some true_val;
  sm_neg : forall p ts, In (LNeg p ts) (s_body r) -> ~ negated r M nu p ts;
  sm_def : forall t, computed r t -> exists z, eval nu None t = Some z }.

(** The variables of a term outside of aggregates. *)
Fixpoint outer_vars (t : term) : list var :=
  match t with
  | TVar v => [v]
  | TOp _ ts => flat_map outer_vars ts
  | _ => []
  end.

(** Grouping: term number [j] has the aggregate. *)
Definition same_group (ts : list term) (j : nat) (nu nu' : var -> Z) : Prop :=
  forall i t, nth_error ts i = Some t ->
    if i =? j then forall v, In v (outer_vars t) -> nu' v = nu v
    else eval nu' None t = eval nu None t.

(** [z] is the value of the aggregate for the group of [nu]: over the distinct tuples of the aggregated value and
    the distinct variables. *)
Definition src_agg_value (r : srule) (M : interp) (ts : list term) (j : nat) (f : list Z -> option Z) (s : term) (ds : list var)
           (nu : var -> Z) (z : Z) : Prop :=
  exists L, NoDup L /\
    (forall x, In x L <-> exists nu' z', src_matches r M M nu' /\ same_group ts j nu nu' /\
                 eval nu' None s = Some z' /\ x = z' :: map nu' ds) /\
    f (map (hd 0%Z) L) = Some z.

Definition ex_var (r : srule) (v : var) : Prop := exists p ts, In (p, ts) (s_head r) /\ In (TEx v) ts.

(** A fact is an instance of head atoms for a match [nu] and values [mu] of the existential variables. *)
Definition instance (ag : option Z) (mu : var -> Z) (ts : list term) (x : row) : Prop :=
  Forall2 (fun t z => eval mu ag t = Some z) ts x.

(** An instance of the head atom [ts] with an aggregate. *)
Definition agg_instance (r : srule) (M : interp) (ts : list term) (x : row) : Prop :=
  exists j t f s ds nu z, nth_error ts j = Some t /\ aggregates f s ds t /\
    src_matches r M M nu /\ src_agg_value r M ts j f s ds nu z /\ instance (Some z) nu ts x.

(** The facts of the program: those whose terms are defined. *)
Definition src_fact (sp : sprogram) (p : tag) (x : row) : Prop :=
  exists ts, In (p, ts) (sp_facts sp) /\ instance None (fun _ => 0%Z) ts x.

(** Facts with a derivation, where negation and aggregates refer to [M]. *)
Inductive src_deriv (sp : sprogram) (M : interp) : interp :=
| sd_fact p x : src_fact sp p x -> src_deriv sp M p x
| sd_import p rows x : In (p, rows) (sp_imports sp) -> In x rows -> src_deriv sp M p x
| sd_rule r (I : interp) nu mu p ts x :
    In r (sp_rules sp) -> (forall q y, I q y -> src_deriv sp M q y) -> src_matches r I M nu ->
    In (p, ts) (s_head r) -> ~ aggregating_atom ts ->
    (forall v, ~ ex_var r v -> mu v = nu v) -> instance None mu ts x -> src_deriv sp M p x
| sd_agg r p ts x :
    In r (sp_rules sp) -> In (p, ts) (s_head r) -> agg_instance r M ts x -> src_deriv sp M p x.

(** [M] is a model of the program. *)
Definition src_model (sp : sprogram) (M : interp) : Prop :=
  (forall p x, src_fact sp p x -> M p x) /\
  (forall p rows x, In (p, rows) (sp_imports sp) -> In x rows -> M p x) /\
  forall r, In r (sp_rules sp) ->
    (forall nu, src_matches r M M nu ->
       exists mu, (forall v, ~ ex_var r v -> mu v = nu v) /\
         forall p ts, In (p, ts) (s_head r) -> ~ aggregating_atom ts -> exists x, instance None mu ts x /\ M p x) /\
    (forall p ts x, In (p, ts) (s_head r) -> agg_instance r M ts x -> M p x).
Definition src_perfect (sp : sprogram) (M : interp) : Prop := forall p x, M p x <-> src_deriv sp M p x.

(** ** Hypotheses on source programs *)

(** User variables are none of the generated ones, and universal and existential variables differ. *)
Definition generated (v : var) : Prop :=
  (exists k, v = body_var k) \/ (exists k, v = head_var k) \/ v = agg_out \/ v = agg_in \/ v = anonymous.
Inductive occurs_ex (v : var) : term -> Prop :=
| oe_here : occurs_ex v (TEx v)
| oe_op k ts t : In t ts -> occurs_ex v t -> occurs_ex v (TOp k ts)
| oe_agg f t ds : occurs_ex v t -> occurs_ex v (TAgg f t ds)
| oe_complex ts t : In t ts -> occurs_ex v t -> occurs_ex v (TComplex ts).
Definition rule_term (r : srule) (t : term) : Prop :=
  (exists p ts, In (p, ts) (s_head r) /\ In t ts) \/ (exists l, In l (s_body r) /\ In t (literal_terms l)).
Record well_named (r : srule) : Prop := {
  wn_user : forall t v, rule_term r t -> In v (uvars t) \/ occurs_ex v t -> ~ generated v;
  wn_ex : forall t t' v, rule_term r t -> rule_term r t' -> occurs_ex v t -> ~ In v (uvars t') }.

(** What validation does not ensure, but evaluation needs; each condition is necessary (see NormProps). *)
Record supported (r : srule) : Prop := {
  (** operations are over safe variables, or over these and the ones of one negated atom *)
  su_ops : forall k us, In (LOp k us) (s_body r) ->
     (forall v, In v (flat_map uvars us) -> safe r v) \/
     exists p ts, In (LNeg p ts) (s_body r) /\ forall v, In v (flat_map uvars us) -> safe r v \/ among v ts;
  (** a negated atom has a safe variable, a constant or an operation *)
  su_neg : forall p ts, In (LNeg p ts) (s_body r) ->
     exists t, In t ts /\ match t with TVar v => safe r v | TConst _ | TOp _ _ => True | _ => False end;
  (** existential variables do not occur in operations *)
  su_ex : forall p ts k us, In (p, ts) (s_head r) -> In (TOp k us) ts -> has_ex (TOp k us) = false;
  (** at most one head atom has an aggregate *)
  su_agg : forall i j p ts q us, nth_error (s_head r) i = Some (p, ts) -> nth_error (s_head r) j = Some (q, us) ->
     aggregating_atom ts -> aggregating_atom us -> i = j;
  (** an aggregated variable does not occur in the same term outside of the aggregate *)
  su_group : forall p ts t f v ds, In (p, ts) (s_head r) -> In t ts -> aggregates f (TVar v) ds t -> ~ In v (outer_vars t) }.

(** Aggregate functions do not depend on the order of the values. *)
Definition symmetric_aggregates (r : srule) : Prop :=
  forall p ts t f s ds, In (p, ts) (s_head r) -> In t ts -> aggregates f s ds t ->
    forall l l', Permutation l l' -> f l = f l'.

Record ok_program (sp : sprogram) : Prop := {
  ok_valid : forall r, In r (sp_rules sp) -> validate r = true;
  ok_names : forall r, In r (sp_rules sp) -> well_named r;
  ok_supported : forall r, In r (sp_rules sp) -> supported r;
  ok_symmetric : forall r, In r (sp_rules sp) -> symmetric_aggregates r;
  ok_facts : forall p ts t, In (p, ts) (sp_facts sp) -> In t ts -> ground t = true;
  ok_tags_rules : forall r, In r (sp_rules sp) ->
     (forall p ts, In (LPos p ts) (s_body r) \/ In (LNeg p ts) (s_body r) -> user_tag p) /\
     (forall p ts, In (p, ts) (s_head r) -> user_tag p);
  ok_tags_edb : forall p, (exists ts, In (p, ts) (sp_facts sp)) \/ (exists rows, In (p, rows) (sp_imports sp)) -> user_tag p }.

(** The same program with rules, body literals, head atoms, facts and imports in another order. *)
Definition same_srule (r r' : srule) : Prop :=
  (forall l, In l (s_body r) <-> In l (s_body r')) /\ (forall a, In a (s_head r) <-> In a (s_head r')).
Definition same_source (sp sp' : sprogram) : Prop :=
  (forall r, In r (sp_rules sp) -> exists r', In r' (sp_rules sp') /\ same_srule r r') /\
  (forall f, In f (sp_facts sp) <-> In f (sp_facts sp')) /\ (forall i, In i (sp_imports sp) <-> In i (sp_imports sp')).
