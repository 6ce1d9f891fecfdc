(** Specification of format strings: which texts write one, and what it stands for. Independent of the parser. *)
From Coq Require Import List Bool Ascii ZArith.
From Verif Require Import LexModel TextModel ParseModel ParseSpec FstringModel.
Import ListNotations.
Local Open Scope char_scope.

(** The content of a format string: characters and terms. *)
Inductive item := IChar (c : ascii) | ITerm (e : term).

Section Writes.
Variable ops : list ParseModel.text.
Variable strict : bool.
(** The end of the format string: one or three quotation marks. *)
Variable close : ParseModel.text.
(** Characters stand for themselves, except for braces, which are doubled; a term stands between braces. A character of
    the text is not the start of the end of the format string. *)
Inductive writes_items : list item -> ParseModel.text -> Prop :=
| wi_nil : writes_items [] []
| wi_char c l t : c <> "{" -> c <> "}" -> ~ begins close (c :: t ++ close) -> writes_items l t -> writes_items (IChar c :: l) (c :: t)
| wi_open l t : writes_items l t -> writes_items (IChar "{" :: l) ("{" :: "{" :: t)
| wi_close l t : writes_items l t -> writes_items (IChar "}" :: l) ("}" :: "}" :: t)
| wi_term e s l t : writes ops strict Expression e s -> writes_items l t -> writes_items (ITerm e :: l) ("{" :: s ++ "}" :: t).
End Writes.

(** The text of a format string, in one of the two forms. *)
Inductive writes_fstring (ops : list ParseModel.text) (strict : bool) : list item -> ParseModel.text -> Prop :=
| wf_single l t : writes_items ops strict [""""] l t -> writes_fstring ops strict l ("f" :: """" :: t ++ [""""])
| wf_multi l t : writes_items ops strict [""""; """"; """"] l t ->
    writes_fstring ops strict l ("f" :: """" :: """" :: """" :: t ++ [""""; """"; """"]).

(** What the elements that are read contain. *)
Definition content (l : list element) : list item :=
  concat (map (fun x => match x with EText s => map IChar s | EExpr e => [ITerm (term_of e)]
                                  | EStart => [IChar "{"] | EEnd => [IChar "}"] end) l).

(** The text of a value: the content of a string, with or without language, and the text in front of the data type else. *)
Definition text_of {F} (v : dval F) : str := match v with VLang s _ => s | _ => lexical_value v end.
(** The content with values for its terms: [None] if a term has no value. *)
Fixpoint denotes {F} (value_of : term -> option (dval F)) (l : list item) : option str :=
  match l with
  | [] => Some []
  | IChar c :: l => option_map (cons (Z.of_nat (nat_of_ascii c))) (denotes value_of l)
  | ITerm e :: l => match value_of e, denotes value_of l with Some v, Some s => Some (text_of v ++ s) | _, _ => None end
  end.

(** A text with its braces doubled. *)
Definition doubled (s : list ascii) : list ascii := flat_map (fun c => if (c =? "{") || (c =? "}") then [c; c] else [c]) s.
