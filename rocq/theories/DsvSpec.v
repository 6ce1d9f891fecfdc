(** Specification for C31: which values survive an export followed by an import. Nothing here mentions the reader. *)
From Coq Require Import List ZArith Bool String.
From Verif Require Import LexModel LexSpec DsvModel.
Import ListNotations.
Open Scope Z_scope.
Open Scope list_scope.

(** A separator that the handler accepts and that is not used for something else: not a quote or a line break. *)
Definition good_delimiter (d : Z) : Prop := d <> 34 /\ d <> 13 /\ d <> 10.

(** Without backslashes, double quotes and line breaks. *)
Definition clean (s : str) : Prop := ~ In 92 s /\ ~ In 34 s /\ ~ In 13 s /\ ~ In 10 s.

(** White space at neither end. *)
Definition no_outer_space (s : str) : Prop := trim s = s.

(** The IRIs that are recognised without pointy brackets: non-empty, no space at the ends, none of the characters '>',
    space and newline, not the start of a quoted string, and not a number. *)
Definition plain_iri (s : str) : Prop :=
  s <> [] /\ no_outer_space s /\ ~ In 62 s /\ ~ In 32 s /\ ~ In 10 s /\ hd_error s <> Some 34 /\
  (forall m k, ~ dec_literal s m k).

(** A value of a datatype that nemo does not know, or a number that it keeps as text. *)
Definition literal_value {F} (lex dt : str) : Prop := new_from_typed_literal lex dt = POk (VOther lex dt : dval F).

(** Values that a column of the given format can carry. *)
Definition exportable {F} (f : vformat) (v : dval F) : Prop :=
  match f with
  | FAny =>
    match v with
    | VString s => clean s
    | VLang s tag => clean s /\ ~ In 34 tag /\ map ascii_lower tag = tag /\ is_white (last tag 0) = false
    | VIri s => plain_iri s
    | VLong z => - 2 ^ 63 <= z < 2 ^ 63
    | VDouble _ => True
    | VBool _ => True
    | VOther lex dt => literal_value (F := F) lex dt /\ (dt = xsd "integer" \/ clean lex /\ ~ In 34 dt)
    | VULong _ | VFloat _ => False
    end
  | FString => exists s, v = VString s
  | FInteger =>
    (exists z, v = VLong z /\ - 2 ^ 63 <= z < 2 ^ 63) \/
    exists lex, v = VOther lex (xsd "integer") /\ literal_value (F := F) lex (xsd "integer")
  | FDouble => exists x, v = VDouble x
  | FSkip => False
  end.
Definition exportable_row {F} (fs : list vformat) (row : list (dval F)) : Prop := Forall2 exportable fs row.

(** The text does not start with a byte order mark. *)
Definition no_bom (s : str) : Prop := hd_error s <> Some 65279.
