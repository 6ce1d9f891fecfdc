(** Specification for C57: the constants whose printed text is read as the same constant. *)
From Coq Require Import List ZArith Bool String.
From Verif Require Import LexModel.
Import ListNotations.
Open Scope Z_scope.
Open Scope list_scope.

Definition letter (c : Z) : Prop := 97 <= c <= 122 \/ 65 <= c <= 90.
Definition digit_char (c : Z) : Prop := 48 <= c <= 57.

(** No quotation mark, backslash, carriage return or new line. *)
Definition plain_char (c : Z) : Prop := c <> 34 /\ c <> 92 /\ c <> 13 /\ c <> 10.
Definition plain (s : str) : Prop := Forall plain_char s.
(** A letter, then letters, digits and underscores (and percent signs). *)
Definition simple_name (t : str) : Prop :=
  exists c r, t = c :: r /\ letter c /\ Forall (fun x => letter x \/ digit_char x \/ x = 95) r.
Definition tag_name (t : str) : Prop :=
  exists c r, t = c :: r /\ letter c /\ Forall (fun x => letter x \/ digit_char x \/ x = 95 \/ x = 37) r.
(** Names that may have minus signs are printed without brackets. *)
Definition printed_name (t : str) : Prop :=
  t = [] \/ exists c r, t = c :: r /\ letter c /\ Forall (fun x => letter x \/ digit_char x \/ x = 95 \/ x = 45) r.
Definition begins (p t : str) : Prop := exists r, t = p ++ r.
(** What can be between the brackets of an IRI: no closing bracket, space or new line. *)
Definition iri_text (t : str) : Prop := t <> [] /\ Forall (fun c => c <> 62 /\ c <> 32 /\ c <> 10) t.

(** [base]: what is put before names *)
Inductive readable {F} (base : str) : dval F -> Prop :=
| r_string s : plain s -> readable base (VString s)
| r_lang s tag : plain s -> tag_name tag -> Forall (fun c => ~ 65 <= c <= 90) tag -> readable base (VLang s tag)
| r_bool b : readable base (VBool b)
| r_name t : base = [] -> simple_name t -> ~ begins (lit "true") t -> ~ begins (lit "false") t -> readable base (VIri t)
| r_iri t : ~ printed_name t -> iri_text t -> readable base (VIri t)
| r_other lex dt : plain lex -> lex <> [] -> iri_text dt ->
    (* the value is the one that this literal stands for *)
    new_from_typed_literal lex dt = POk (VOther lex dt : dval F) -> readable base (VOther lex dt).

(** Constants that are not printed as numbers. *)
Definition not_number {F} (v : dval F) : Prop :=
  match v with
  | VString _ | VLang _ _ | VIri _ | VBool _ => True
  | VOther _ dt => dt <> xsd "integer"
  | _ => False
  end.

(** What follows a constant: the end, or a comma, a closing parenthesis, a point, or white space. *)
Definition delimited (r : str) : Prop :=
  match r with [] => True | c :: _ => In c [44; 41; 46; 32; 9; 10; 13] end.

(** A string with the four characters escaped *)
Inductive escaped : str -> str -> Prop :=
| e_nil : escaped [] []
| e_plain c s t : plain_char c -> escaped s t -> escaped (c :: s) (c :: t)
| e_backslash s t : escaped s t -> escaped (92 :: s) (92 :: 92 :: t)
| e_quote s t : escaped s t -> escaped (34 :: s) (92 :: 34 :: t)
| e_return s t : escaped s t -> escaped (13 :: s) (92 :: 114 :: t)
| e_newline s t : escaped s t -> escaped (10 :: s) (92 :: 110 :: t).
