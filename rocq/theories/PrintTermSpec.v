(** Specification of printing terms: which terms are read back, and how the operands of sums and products are grouped. *)
From Coq Require Import String List Arith ZArith Bool Ascii.
From Verif Require Import ParseModel ParseSpec NumLitSpec PrintTermModel.
Import ListNotations.
Local Open Scope list_scope.

(** The four arithmetic operations; sums and differences are in one group, products and quotients in the other. *)
Inductive group := Additive | Multiplicative.
Definition arithmetic_kinds : list (text * group) :=
  [(T "sum", Additive); (T "subtraction", Additive); (T "product", Multiplicative); (T "division", Multiplicative)].
Definition comparison_kinds : list text :=
  map T ["equality"; "unequality"; "numgreater"; "numgreatereq"; "numless"; "numlesseq"]%string.

(** Constants whose text is a constant: other names than those with a minus sign or with true or false at their beginning,
    and IRIs without the characters that end an IRI. *)
Definition plain_constant (t : text) : Prop :=
  (exists c r, t = c :: r /\ is_alpha c = true /\ all_chars (fun x => is_alpha x || is_digit x || (x =? "_")%char) r) /\
  ~ begins true_text t /\ ~ begins false_text t.
Definition quoted_constant (t : text) : Prop :=
  t <> [] /\ all_chars is_iri t /\ ~ exists c r, t = c :: r /\ is_alpha c = true /\ all_chars (fun x => is_alpha x || is_digit x || (x =? "_") || (x =? "-"))%char r.

(** Terms with such constants, with tuples of at least two elements, with functions that have an argument and whose names are
    names (and not those of operations), and without comparisons of two arguments. *)
Inductive readable : pterm -> Prop :=
| r_var k n : name_text n -> readable (PVar k n)
| r_anon : readable PAnon
| r_int z : fits_i64 z -> readable (PInt z)
| r_iri t : plain_constant t \/ quoted_constant t -> readable (PIri t)
| r_fun t a args : name_text t -> ~ In (map lower t) known_functions -> (forall x, In x (a :: args) -> readable x) -> readable (PFun t (a :: args))
| r_tuple a b args : (forall x, In x (a :: b :: args) -> readable x) -> readable (PTuple (a :: b :: args))
| r_op k args : In k known_functions -> ~ (In k comparison_kinds /\ List.length args = 2) ->
    (forall x, In x args -> readable x) -> readable (POp k args).

(** The same operations, grouped to the left: the right operand of an operation is not one of the same group. *)
Definition in_group (g : group) (p : pterm) : Prop :=
  exists k a b, p = POp k [a; b] /\ In (k, g) arithmetic_kinds.
Inductive groups_left : pterm -> Prop :=
| g_var k n : groups_left (PVar k n)
| g_anon : groups_left PAnon
| g_int z : groups_left (PInt z)
| g_iri t : groups_left (PIri t)
| g_fun t args : (forall x, In x args -> groups_left x) -> groups_left (PFun t args)
| g_tuple args : (forall x, In x args -> groups_left x) -> groups_left (PTuple args)
| g_op k args : (forall x, In x args -> groups_left x) ->
    (forall a b g, args = [a; b] -> In (k, g) arithmetic_kinds -> ~ in_group g b) -> groups_left (POp k args).

(** ** What is read in general: the same sequence of operands, grouped to the left *)

(** The operands of nested operations of a group, from left to right: the first one, and the others with their operations *)
Inductive operands (g : group) : pterm -> pterm -> list (text * pterm) -> Prop :=
| o_one p : ~ in_group g p -> operands g p p []
| o_more k a b f l f' l' : In (k, g) arithmetic_kinds -> operands g a f l -> operands g b f' l' ->
    operands g (POp k [a; b]) f (l ++ (k, f') :: l').
Definition left_grouped (f : pterm) (l : list (text * pterm)) : pterm := fold_left (fun q x => POp (fst x) [q; snd x]) l f.
Inductive regrouped : pterm -> pterm -> Prop :=
| rg_var k n : regrouped (PVar k n) (PVar k n)
| rg_anon : regrouped PAnon PAnon
| rg_int z : regrouped (PInt z) (PInt z)
| rg_iri t : regrouped (PIri t) (PIri t)
| rg_fun t args args' : Forall2 regrouped args args' -> regrouped (PFun t args) (PFun t args')
| rg_tuple args args' : Forall2 regrouped args args' -> regrouped (PTuple args) (PTuple args')
| rg_op k args args' : ~ in_group Additive (POp k args) -> ~ in_group Multiplicative (POp k args) ->
    Forall2 regrouped args args' -> regrouped (POp k args) (POp k args')
| rg_group g p f l f' l' : in_group g p -> operands g p f l -> regrouped f f' ->
    Forall2 (fun x y => fst x = fst y /\ regrouped (snd x) (snd y)) l l' -> regrouped p (left_grouped f' l').
