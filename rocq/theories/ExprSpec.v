(* Specification of expressions, filters and computed columns, independent of stack programs. *)

From Coq Require Import List Arith Bool.
From Verif Require Import ExprModel.
Import ListNotations.

Section Spec.
Context (L : language).
Notation value := (val L).

(* [denotes bound t v]: expression t has value v when each reference r stands for the values w with
   [bound r w].  An expression has no value when one of its subexpressions has none or when a
   function is undefined on the values of its arguments. *)
Inductive denotes (bound : nat -> value -> Prop) : tree L -> value -> Prop :=
| den_const : forall v, denotes bound (Const v) v
| den_ref : forall r v, bound r v -> denotes bound (Ref r) v
| den_un : forall f t v w, denotes bound t v -> ev1 L f v = Some w -> denotes bound (Un f t) w
| den_bin : forall f l r v1 v2 w,
    denotes bound l v1 -> denotes bound r v2 -> ev2 L f v1 v2 = Some w ->
    denotes bound (Bin f l r) w
| den_ter : forall f a b c v1 v2 v3 w,
    denotes bound a v1 -> denotes bound b v2 -> denotes bound c v3 ->
    ev3 L f v1 v2 v3 = Some w -> denotes bound (Ter f a b c) w
| den_nar : forall f ts vs w,
    denotes_list bound ts vs -> evn L f vs = Some w -> denotes bound (Nar f ts) w
with denotes_list (bound : nat -> value -> Prop) : list (tree L) -> list value -> Prop :=
| den_nil : denotes_list bound [] []
| den_cons : forall t ts v vs,
    denotes bound t v -> denotes_list bound ts vs -> denotes_list bound (t :: ts) (v :: vs).

(* what a reference stands for in a compiled program: the distinguished value ("this"), or the
   supplied value at the position at which the reference map lists the reference *)
Definition binding (this : option nat) (thisv : option value) (refmap : list nat)
    (refs : list value) (r : nat) (v : value) : Prop :=
  (this = Some r /\ thisv = Some v) \/
  (this <> Some r /\ exists i, nth_error refmap i = Some r /\ nth_error refs i = Some v).

(* no n-ary function is applied to zero arguments *)
Fixpoint no_empty_application (t : tree L) : Prop :=
  match t with
  | Const _ | Ref _ => True
  | Un _ t => no_empty_application t
  | Bin _ l r => no_empty_application l /\ no_empty_application r
  | Ter _ a b c => no_empty_application a /\ no_empty_application b /\ no_empty_application c
  | Nar _ ts => ts <> [] /\ fold_right (fun t P => no_empty_application t /\ P) True ts
  end.

(* the value of column m in a row of a table with the given columns *)
Definition column_value (table : list nat) (row : list value) (m : nat) (v : value) : Prop :=
  exists i, nth_error table i = Some m /\ nth_error row i = Some v.

(* the row passes the filter: the filter has a value, and it is true *)
Definition passes (table : list nat) (row : list value) (f : tree L) : Prop :=
  exists v, denotes (column_value table row) f v /\ truth L v = Some true.

(* what the operators assume about the two functions they know about *)
Record lawful : Prop := {
  conj_law : forall vs,
    (exists w, evn L (conjunction L) vs = Some w /\ truth L w = Some true) <->
    (forall v, In v vs -> truth L v = Some true);
  equals_law : forall f v w, is_equals L f = true ->
    exists u, ev2 L f v w = Some u /\ (truth L u = Some true <-> veqb L v w = true);
  veqb_sym : forall v w, veqb L v w = veqb L w v;
  true_law : truth L (of_bool L true) = Some true }.

(* [row'] is the result of computing the function columns: it has the values of the input row, in
   order, in the columns that are not computed, and in each computed column a value of its
   expression *)
Definition input_columns (output : list nat) (functions : list (nat * tree L)) : list nat :=
  filter (fun m => negb (existsb (fun f => fst f =? m) functions)) output.

Definition computes (output : list nat) (functions : list (nat * tree L)) (row row' : list value)
  : Prop :=
  length row' = length output /\
  (forall m v, In m (input_columns output functions) ->
     (column_value (input_columns output functions) row m v <-> column_value output row' m v)) /\
  (forall m t, In (m, t) functions ->
     exists v, column_value output row' m v /\ denotes (column_value output row') t v).

(* the type of every value is announced *)
Definition conforms (ts : list types) (row : list value) : Prop :=
  Forall2 (fun t v => types_contains t (stored_as L v) = true) ts row.

(* every function of the language announces the storage type of its results *)
Record typed : Prop := {
  typed1 : forall f v w t, ev1 L f v = Some w -> conforms [t] [v] ->
    types_contains (propagate (ty1 L f) [t]) (stored_as L w) = true;
  typed2 : forall f v1 v2 w ts, ev2 L f v1 v2 = Some w -> conforms ts [v2; v1] ->
    types_contains (propagate (ty2 L f) ts) (stored_as L w) = true;
  typed3 : forall f v1 v2 v3 w ts, ev3 L f v1 v2 v3 = Some w -> conforms ts [v3; v2; v1] ->
    types_contains (propagate (ty3 L f) ts) (stored_as L w) = true;
  typedn : forall f vs w ts, evn L f vs = Some w -> conforms ts (rev vs) ->
    types_contains (propagate (tyn L f) ts) (stored_as L w) = true }.

(* every constant of the expression is stored under an announced type *)
Fixpoint constants_typed (t : tree L) : Prop :=
  match t with
  | Const v => types_contains (domain_types L v) (stored_as L v) = true
  | Ref _ => True
  | Un _ t => constants_typed t
  | Bin _ l r => constants_typed l /\ constants_typed r
  | Ter _ a b c => constants_typed a /\ constants_typed b /\ constants_typed c
  | Nar _ ts => fold_right (fun t P => constants_typed t /\ P) True ts
  end.

End Spec.

Arguments denotes {L}. Arguments denotes_list {L}. Arguments binding {L}.
Arguments no_empty_application {L}. Arguments column_value {L}. Arguments passes {L}.
Arguments input_columns {L}. Arguments computes {L}. Arguments conforms {L}.
Arguments constants_typed {L}.
