(** Which rows an import with bindings has to deliver. *)
From Coq Require Import List Arith Bool.
From Verif Require Import QueryModel QuerySpec PageModel.
Import ListNotations.

(** The row agrees with old or new bindings of each factor, and with new bindings of at least one. *)
Definition wanted (pb : product) (row : list (option nat)) : Prop :=
  (forall f, In f pb -> agrees (fst f) row \/ agrees (snd f) row) /\ exists f, In f pb /\ agrees (snd f) row.

(** All factors bind columns that always have values; old and new bindings of a factor bind the same columns. *)
Definition good_product (E : endpoint) (q : pattern) (pb : product) : Prop :=
  forall f, In f pb -> fst (fst f) = fst (snd f) /\ good_bindings E q (fst f) /\ good_bindings E q (snd f).

(** The query with bindings for some columns. *)
Definition asked (E : endpoint) (q q' : pattern) : Prop := exists p, (forall b, In b p -> good_bindings E q b) /\ q' = with_bindings q p.

(** The rows of an answer are the rows of the query. *)
Definition truthful (E : endpoint) (q : pattern) (server : pattern -> answer) : Prop :=
  forall q' rs, asked E q q' -> server q' = Rows rs -> forall row, In row rs <-> rows E q' row.

(** The only error is the status 413; there are no errors. *)
Definition never_fails (E : endpoint) (q : pattern) (server : pattern -> answer) : Prop := forall q', asked E q q' -> server q' <> Failed.
Definition always_answers (E : endpoint) (q : pattern) (server : pattern -> answer) : Prop := forall q', asked E q q' -> exists rs, server q' = Rows rs.
