(** Which rows rules with imports need. *)
From Coq Require Import String List Arith Bool.
From Verif Require Import RequestModel.
Import ListNotations.
Local Open Scope list_scope.

Definition assignment := string -> nat.

(** The row has these values at these positions. *)
Definition at_positions (ks : list nat) (t : row) : row := map (fun k => nth k t 0) ks.

(** The row agrees with old or new bindings of all factors, and with new ones of at least one factor. *)
Definition wanted (factors : list (list nat * list row * list row)) (t : row) : Prop :=
  (forall ks old new, In (ks, old, new) factors -> In (at_positions ks t) old \/ In (at_positions ks t) new) /\
  exists ks old new, In (ks, old, new) factors /\ In (at_positions ks t) new.

(** Imports deliver at least the wanted rows of a source, and only rows of the source. *)
Definition delivers (source : string -> row -> Prop) (fetch : string -> list (list nat * list row * list row) -> row -> Prop) : Prop :=
  forall q factors t, (fetch q factors t -> source q t) /\ (source q t -> wanted factors t -> fetch q factors t).

(** The variables of an import atom are different, inputs share no variables, and each import atom has a variable of an input. *)
Definition good_rule (r : rule) : Prop :=
  NoDup (concat (r_input r)) /\
  forall a, In a (r_atoms r) -> NoDup (i_vars a) /\ exists v, In v (i_vars a) /\ In v (concat (r_input r)).

(** Every input has had the row with the values of the assignment in an application of the rule. *)
Definition seen (h : history) (r : rule) (s : assignment) : Prop :=
  forall i vars, nth_error (r_input r) i = Some vars -> exists inputs, In (r, inputs) h /\ In (map s vars) (nth i inputs []).

(** The row of an import atom has the values of the assignment at the positions of bound variables. *)
Definition agrees (r : rule) (a : import_atom) (s : assignment) (t : row) : Prop :=
  forall k v, nth_error (i_vars a) k = Some v -> In v (concat (r_input r)) -> nth k t 0 = s v.

(** Atoms of two rules that use a common pattern use the same patterns. *)
Definition same_patterns (program : list rule) : Prop :=
  forall r r' p ps ps', In r program -> In r' program -> In ps (products r) -> In ps' (products r') -> In p ps -> In p ps' ->
    exists ps'', In ps'' (products r') /\ incl ps ps'' /\ incl ps'' ps.
