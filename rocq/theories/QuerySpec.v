(** The meaning of queries (the SPARQL algebra, with sets of solutions), and of merged queries. *)
From Coq Require Import String Ascii List Arith Bool.
From Verif Require Import QueryModel.
Import ListNotations.
Local Open Scope list_scope.

(** A solution gives values to some variables. *)
Definition solution := string -> option nat.

Definition compatible (m n : solution) : Prop := forall v x y, m v = Some x -> n v = Some y -> x = y.
Definition both (m n : solution) : solution := fun v => match m v with Some x => Some x | None => n v end.
Definition same (m n : solution) : Prop := forall v, m v = n v.
Definition no_solution : solution := fun _ => None.

Definition term_value (m : solution) (t : qterm) : option nat := match t with QVar v => m v | QConst c => Some c end.

Fixpoint row_solution (vs : list string) (row : list (option nat)) : solution :=
  match vs, row with v :: vs', x :: row' => fun w => if String.eqb v w then x else row_solution vs' row' w | _, _ => no_solution end.

(** What the tables of the endpoint contain. *)
Definition endpoint := nat -> list nat -> Prop.

(** The solutions of a pattern, and when a condition is true ([true]), false ([false]) or an error (neither). *)
Fixpoint sol (E : endpoint) (p : pattern) (m : solution) : Prop :=
  match p with
  | PBgp t vs => exists e : string -> nat, E t (map e vs) /\ forall v, m v = if mem v vs then Some (e v) else None
  | PJoin l r => exists a b, sol E l a /\ sol E r b /\ compatible a b /\ same m (both a b)
  | PLeftJoin l r => (exists a b, sol E l a /\ sol E r b /\ compatible a b /\ same m (both a b)) \/
                     (sol E l m /\ forall b, sol E r b -> ~ compatible m b)
  | PUnion l r => sol E l m \/ sol E r m
  | PMinus l r => sol E l m /\ forall b, sol E r b -> compatible m b -> forall v, m v = None \/ b v = None
  | PFilter c q => sol E q m /\ cond_value E c m true
  | PExtend q v t => exists a, sol E q a /\ forall w, m w = if String.eqb v w then term_value a t else a w
  | PValues vs rows => exists row, In row rows /\ same m (row_solution vs row)
  | PProject q vs => exists a, sol E q a /\ forall v, m v = if mem v vs then a v else None
  | PDistinct q => sol E q m
  end
with cond_value (E : endpoint) (c : cond) (m : solution) (t : bool) : Prop :=
  match c with
  | CEq a b => exists x y, term_value m a = Some x /\ term_value m b = Some y /\ t = (x =? y)
  | CBound v => t = match m v with Some _ => true | None => false end
  | CNot a => cond_value E a m (negb t)
  | CAnd a b => match t with
                | true => cond_value E a m true /\ cond_value E b m true
                | false => cond_value E a m false \/ cond_value E b m false
                end
  | CExists p => match t with
                 | true => exists b, sol E p b /\ compatible m b
                 | false => ~ exists b, sol E p b /\ compatible m b
                 end
  end.

(** The rows of a query: the columns are the variables of its outermost projection. *)
Fixpoint columns (p : pattern) : list string :=
  match p with PProject _ vs => vs | PDistinct q => columns q | _ => [] end.
Definition rows (E : endpoint) (p : pattern) (row : list (option nat)) : Prop := exists m, sol E p m /\ row = map m (columns p).

(** ** Which queries are meant *)

(** All variables, also those in the conditions. *)
Fixpoint all_vars (p : pattern) : list string :=
  match p with
  | PBgp _ vs | PValues vs _ => vs
  | PJoin l r | PLeftJoin l r | PUnion l r | PMinus l r => all_vars l ++ all_vars r
  | PFilter c q => cond_vars c ++ all_vars q
  | PExtend q v t => v :: match t with QVar w => [w] | QConst _ => [] end ++ all_vars q
  | PProject q vs => vs ++ all_vars q
  | PDistinct q => all_vars q
  end
with cond_vars (c : cond) : list string :=
  match c with
  | CEq a b => match a with QVar w => [w] | QConst _ => [] end ++ match b with QVar w => [w] | QConst _ => [] end
  | CBound v => [v]
  | CNot a => cond_vars a
  | CAnd a b => cond_vars a ++ cond_vars b
  | CExists p => all_vars p
  end.

Definition is_label (v : string) : Prop := exists w, v = (w ++ "Label")%string.
Definition is_new_name (v : string) : Prop := exists c n, In c ["j"; "l"; "r"; "v"]%string /\ v = (c ++ decimal n)%string.

(** The variables that can have values somewhere, so not those in conditions and terms only. *)
Fixpoint value_vars (p : pattern) : list string :=
  match p with
  | PBgp _ vs | PValues vs _ => vs
  | PJoin l r | PLeftJoin l r | PUnion l r | PMinus l r => value_vars l ++ value_vars r
  | PFilter _ q | PDistinct q => value_vars q
  | PExtend q v _ => v :: value_vars q
  | PProject q vs => vs ++ value_vars q
  end.

(** No variable ends with Label, and variables that occur in conditions only are not named like the new variables. *)
Definition plain_names (p : pattern) : Prop :=
  (forall v, In v (all_vars p) -> ~ is_label v) /\ (forall v, In v (all_vars p) -> ~ In v (value_vars p) -> ~ is_new_name v).

(** A column that has a value in every row. *)
Definition always_bound (E : endpoint) (p : pattern) (k : nat) : Prop := forall row, rows E p row -> exists c, nth_error row k = Some (Some c).

(** Some order of the elements of a hash set. *)
Definition listing (order : list string -> list string) : Prop := forall l v, In v (order l) <-> In v l.

(** A row without some of its columns. *)
Definition drop_columns (gone : list nat) {A} (row : list A) : list A :=
  flat_map (fun k => if existsb (Nat.eqb k) gone then [] else match nth_error row k with Some x => [x] | None => [] end)
    (seq 0 (List.length row)).

(** Columns with constants: different ones, and there are such columns. *)
Definition good_constants (n : nat) (constants : list (nat * nat)) : Prop :=
  NoDup (map fst constants) /\ forall k c, In (k, c) constants -> k < n.

(** Pairs of columns that are joined: a column is used once. *)
Definition good_joins (n m : nat) (joins : list (nat * nat)) : Prop :=
  NoDup (map fst joins) /\ NoDup (map snd joins) /\ forall i j, In (i, j) joins -> i < n /\ j < m.

(** The row has the constants. *)
Definition has_constants (constants : list (nat * nat)) (row : list (option nat)) : Prop :=
  forall k c, In (k, c) constants -> nth_error row k = Some (Some c).

(** Two queries whose results can be joined: their outermost operation is a projection to different variables, the names are plain,
    and the columns that are joined or set to constants always have values. *)
Definition mergeable (E : endpoint) (p q : pattern) (joins lc rc : list (nat * nat)) : Prop :=
  plain_names p /\ plain_names q /\ NoDup (columns p) /\ NoDup (columns q) /\
  good_joins (List.length (columns p)) (List.length (columns q)) joins /\
  good_constants (List.length (columns p)) lc /\ good_constants (List.length (columns q)) rc /\
  (forall k, In k (map fst joins) \/ In k (map fst lc) -> always_bound E p k) /\
  (forall k, In k (map snd joins) \/ In k (map fst rc) -> always_bound E q k).

(** The outermost operation is a projection, possibly below DISTINCT. *)
Fixpoint has_projection (p : pattern) : Prop := match p with PProject _ _ => True | PDistinct q => has_projection q | _ => False end.

(** Bindings for different columns of the query, which have values in all rows. *)
Definition good_bindings (E : endpoint) (p : pattern) (b : bindings) : Prop :=
  NoDup (fst b) /\ (forall k, In k (fst b) -> k < List.length (columns p) /\ always_bound E p k) /\
  forall r, In r (snd b) -> List.length r = List.length (fst b).

(** The row agrees with one of the rows of bindings; a binding without a value agrees with everything. *)
Definition agrees (b : bindings) (row : list (option nat)) : Prop :=
  exists r, In r (snd b) /\ forall i k c, nth_error (fst b) i = Some k -> nth_error r i = Some (Some c) -> nth_error row k = Some (Some c).

(** Conditions about the columns only. *)
Fixpoint simple (c : cond) : Prop := match c with CExists _ => False | CNot a => simple a | CAnd a b => simple a /\ simple b | _ => True end.
