(** Model of format strings: nemo/src/parser/ast/expression/complex/fstring.rs, the tokens in token.rs:419-511 and
    syntax.rs:135-155, their translation rule_model/translation/complex/fstring.rs, and the value of the translated
    operation. The expressions between braces are those of [ParseModel]; texts are ASCII, as there. No proofs here. *)
From Coq Require Import List Arith Bool Ascii ZArith.
From Verif Require Import LexModel TextModel CastModel ParseModel.
Import ListNotations.
Local Open Scope list_scope.
Local Open Scope char_scope.

(** syntax.rs:137, 139, 142, 144 *)
Definition single_open : ParseModel.text := ["f"; """"].
Definition single_close : ParseModel.text := [""""].
Definition multi_open : ParseModel.text := ["f"; """"; """"; """"].
Definition multi_close : ParseModel.text := [""""; """"; """"].

(** fstring.rs:15-24. The positions of tokens are not modelled: a token is its text. *)
Inductive element := EText (s : ParseModel.text) | EExpr (e : expr) | EStart | EEnd.

(** token.rs:419-432 with the exclusions of token.rs:490-499: nom [is_not] takes at least one character *)
Definition fstring_token : parser ParseModel.text :=
  take_while1 (fun c => negb ((c =? """") || (c =? "{") || (c =? "}"))).
(** whether a text begins with one of the ends of token.rs:504-510 *)
Definition at_end (i : ParseModel.text) : bool :=
  match i with
  | c :: r => (c =? "{") || (c =? "}") || match tag multi_close i with Ok _ _ => true | _ => false end
  | [] => false
  end.
(** token.rs:449-477: up to the first occurrence of an end; an error if there is none, or it is at the start *)
Fixpoint split_end (i : ParseModel.text) : option (ParseModel.text * ParseModel.text) :=
  if at_end i then Some ([], i)
  else match i with
       | c :: r => option_map (fun p => (c :: fst p, snd p)) (split_end r)
       | [] => None
       end.
Definition multiline_token : parser ParseModel.text := fun i =>
  match split_end i with
  | None => Err
  | Some ([], _) => Err
  | Some (a, b) => Ok a b
  end.

Section Parser.
Variable ops : list ParseModel.text.
(** fstring.rs:45-51: no white space *)
Definition braces : parser expr := fun i =>
  bind (chr "{" i) (fun _ r => bind (parse_expression ops r) (fun e r => bind (chr "}" r) (fun _ r => Ok e r))).
(** fstring.rs:54-65 and 68-81; syntax.rs:152-154 *)
Definition parse_element (token : parser ParseModel.text) : parser element :=
  alt (pmap EText token)
  (alt (pmap (fun _ => EStart) (tag ["{"; "{"]))
  (alt (pmap (fun _ => EEnd) (tag ["}"; "}"]))
       (pmap EExpr braces))).
(** nom [delimited] and [many0]: fstring.rs:117-126 *)
Definition delimited (opening closing : ParseModel.text) (token : parser ParseModel.text) : parser (list element) := fun i =>
  bind (tag opening i) (fun _ r => bind (many0 (parse_element token) r) (fun l r => bind (tag closing r) (fun _ r => Ok l r))).
(** fstring.rs:109-138 *)
Definition parse_fstring : parser (list element) :=
  alt (delimited multi_open multi_close multiline_token) (delimited single_open single_close fstring_token).
End Parser.

(** ** Translation: rule_model/translation/complex/fstring.rs:25-52. An operation: a concatenation of constants and of
    expressions to which the function STR is applied. *)
Inductive subterm := SConst (s : ParseModel.text) | SStr (e : expr).
Definition translate (l : list element) : list subterm :=
  map (fun x => match x with EText s => SConst s | EExpr e => SStr e | EStart => SConst ["{"] | EEnd => SConst ["}"] end) l.

Section Value.
Context (F : float_ops).
Notation value := (dval F).
(** A character of ASCII as a code point *)
Definition code (c : ascii) : Z := Z.of_nat (nat_of_ascii c).
(** The value of an expression is given. [Term::from] of a text is a plain string; STR is the function of C40. *)
Variable eval : expr -> fres value.
Definition subterm_value (s : subterm) : fres value :=
  match s with SConst s => Value (VString (map code s)) | SStr e => fbind (eval e) str_function end.
(** nemo-physical function/tree.rs: the values of all arguments, then the function *)
Fixpoint arguments (l : list subterm) : fres (list value) :=
  match l with
  | [] => Value []
  | s :: l => fbind (subterm_value s) (fun v => fbind (arguments l) (fun vs => Value (v :: vs)))
  end.
Definition fstring_value (l : list element) : fres value := fbind (arguments (translate l)) string_concatenation.
End Value.
