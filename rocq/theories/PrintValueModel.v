(** Model of printing data values and of reading them as constants of a program: nemo-physical/src/datavalues/{datavalue,
    string_datavalue,lang_string_datavalue,iri_datavalue,boolean_datavalue,other_datavalue,null_datavalue}.rs (Display),
    nemo/src/parser/ast/expression.rs:88-99, expression/basic/{blank,boolean,constant,rdf_literal,string,iri}.rs,
    tag/structure.rs, token.rs, and nemo/src/rule_model/translation/{translation.rs:119-153,
    basic/{blank,boolean,constant,rdf,string}.rs}. No proofs here.
    Texts are lists of Unicode scalar values, as in LexModel. Not modelled: floating point numbers, tuples and maps, reading
    numbers, encoded numbers and variables (their texts begin with a digit, a sign or one of ?, !, $ and _; reading and
    printing numbers is in C49 and C50), and positions. *)
From Coq Require Import List ZArith Bool String.
From Verif Require Import LexModel.
Import ListNotations.
Open Scope Z_scope.
Open Scope list_scope.

(** ** Printing *)

(** `str::replace` of one character *)
Definition replace (c : Z) (by_ : str) (s : str) : str := flat_map (fun x => if x =? c then by_ else [x]) s.
(** datavalue.rs:15-22: the replacements one after the other *)
Definition escape (s : str) : str :=
  replace 10 [92; 110] (replace 13 [92; 114] (replace 34 [92; 34] (replace 92 [92; 92] s))).
Definition quote_string (s : str) : str := 34 :: escape s ++ [34].
(** datavalue.rs:26-28 *)
Definition quote_iri (s : str) : str := 60 :: s ++ [62].

Definition is_alpha (c : Z) : bool := ((97 <=? c) && (c <=? 122)) || ((65 <=? c) && (c <=? 90)).
Definition is_digit_char (c : Z) : bool := (48 <=? c) && (c <=? 57).
(** iri_datavalue.rs:34-52 *)
Fixpoint is_name_ (first : bool) (t : str) : bool :=
  match t with
  | [] => true
  | c :: r =>
    if is_digit_char c || (c =? 95) || (c =? 45) then if first then false else is_name_ false r
    else if is_alpha c then is_name_ false r else false
  end.
Definition is_name (t : str) : bool := is_name_ true t.

(** syntax.rs:65 *)
Definition datatype_indicator : str := [94; 94].
(** the implementations of Display; [None]: floating point numbers *)
Definition print_value {F} (v : dval F) : option str :=
  match v with
  | VString s => Some (quote_string s)                                              (* string_datavalue.rs:57-61 *)
  | VLang s tag => Some (quote_string s ++ 64 :: tag)                               (* lang_string_datavalue.rs:53-55, 67-71 *)
  | VIri t => Some (if is_name t then t else quote_iri t)                           (* iri_datavalue.rs:85-93 *)
  | VBool b => Some (34 :: (if b then lit "true" else lit "false") ++ [34] ++ datatype_indicator ++ quote_iri (type_iri DBoolean))
                                                                                    (* boolean_datavalue.rs:56-69 *)
  | VOther lex dt => Some (if str_eqb dt (xsd "integer") then lex
                           else quote_string lex ++ datatype_indicator ++ quote_iri dt) (* other_datavalue.rs:32-36, 47-57 *)
  | VULong z | VLong z => Some (int_to_string z)                                    (* integer_datavalues.rs: Display *)
  | VFloat _ | VDouble _ => None
  end.
(** null_datavalue.rs:44-46, 64-68 *)
Definition print_null (id : Z) : str := 95 :: 58 :: int_to_string id.

(** ** Parsing *)

(** A parser returns what it read and the rest. *)
Definition parser (A : Type) := str -> option (A * str).
Definition bind {A B} (r : option (A * str)) (k : A -> str -> option B) : option B :=
  match r with Some (x, rest) => k x rest | None => None end.
Definition alt {A} (p q : parser A) : parser A := fun i => match p i with None => q i | r => r end.
Definition pmap {A B} (f : A -> B) (p : parser A) : parser B := fun i => bind (p i) (fun x r => Some (f x, r)).
Definition opt {A} (p : parser A) : parser (option A) := fun i =>
  match p i with Some (x, r) => Some (Some x, r) | None => Some (None, i) end.
Definition tag (s : str) : parser unit := fun i => option_map (pair tt) (strip_prefix s i).
Definition chr (c : Z) : parser unit := tag [c].
(** the longest prefix of such characters *)
Fixpoint span (f : Z -> bool) (i : str) : str * str :=
  match i with
  | c :: r => if f c then let (a, b) := span f r in (c :: a, b) else ([], i)
  | [] => ([], [])
  end.
(** nom [take_while1], and [is_not] with the negated test *)
Definition take_while1 (f : Z -> bool) : parser str := fun i =>
  match span f i with ([], _) => None | (a, b) => Some (a, b) end.
(** nom [take_until] for three quotation marks *)
Fixpoint until_triple (i : str) : option (str * str) :=
  match strip_prefix [34; 34; 34] i, i with
  | Some _, _ => Some ([], i)
  | None, c :: r => match until_triple r with Some (a, b) => Some (c :: a, b) | None => None end
  | None, [] => None
  end.

(** token.rs:387-406 *)
Definition is_name_rest (c : Z) : bool := is_alpha c || is_digit_char c || (c =? 95) || (c =? 37).
Definition name : parser str := fun i =>
  match i with
  | c :: r => if is_alpha c then let (a, b) := span is_name_rest r in Some (c :: a, b) else None
  | [] => None
  end.
(** token.rs:514 *)
Definition digits : parser str := take_while1 is_digit_char.

Inductive leaf_tag := TPlain (n : str) | TPrefixed (prefix n : str) | TIri (iri : str).
Inductive basic :=
| BBlank (n : str)
| BBool (b : bool)
| BConst (t : leaf_tag)
| BRdf (content : str) (t : leaf_tag)
| BString (content : str) (lang : option str).

(** basic/blank.rs:30-32, 51-55 *)
Definition parse_blank : parser basic := fun i =>
  bind (tag [95; 58] i) (fun _ r => pmap BBlank (alt name digits) r).
(** basic/boolean.rs:43-52 *)
Definition parse_boolean : parser basic :=
  alt (pmap (fun _ => BBool true) (tag (lit "true"))) (pmap (fun _ => BBool false) (tag (lit "false"))).
(** token.rs:409-419 and basic/iri.rs:49-53 *)
Definition is_iri_char (c : Z) : bool := negb ((c =? 62) || (c =? 32) || (c =? 10)).
Definition parse_iri : parser leaf_tag := fun i =>
  bind (chr 60 i) (fun _ r => bind (take_while1 is_iri_char r) (fun s r => bind (chr 62 r) (fun _ r => Some (TIri s, r)))).
(** tag/structure.rs:81-97 *)
Definition structure_tag : parser leaf_tag :=
  alt (fun i => bind (alt name (fun j => Some ([], j)) i) (fun p r => bind (chr 58 r) (fun _ r => bind (name r) (fun n r => Some (TPrefixed p n, r)))))
  (alt (pmap TPlain name) parse_iri).
(** token.rs:475-478: the characters up to the next quotation mark, at least one *)
Definition string_chars : parser str := take_while1 (fun c => negb (c =? 34)).
(** basic/rdf_literal.rs:40-43, 63-70 *)
Definition parse_rdf : parser basic := fun i =>
  bind (chr 34 i) (fun _ r => bind (string_chars r) (fun s r => bind (chr 34 r) (fun _ r =>
  bind (tag datatype_indicator r) (fun _ r => bind (structure_tag r) (fun t r => Some (BRdf s t, r)))))).
Definition empty : parser str := fun i => Some ([], i).
(** basic/string.rs:42-55 *)
Definition parse_string_content : parser str :=
  alt (fun i => bind (tag [34; 34; 34] i) (fun _ r => bind (alt until_triple empty r) (fun s r => bind (tag [34; 34; 34] r) (fun _ r => Some (s, r)))))
      (fun i => bind (chr 34 i) (fun _ r => bind (alt string_chars empty r) (fun s r => bind (chr 34 r) (fun _ r => Some (s, r))))).
(** basic/string.rs:58-60 *)
Definition language_tag : parser str := fun i => bind (chr 64 i) (fun _ r => name r).
(** basic/string.rs:76-94 *)
Definition parse_string : parser basic := fun i =>
  bind (parse_string_content i) (fun s r => bind (opt language_tag r) (fun l r => Some (BString s l, r))).
(** expression.rs:88-99, the order of the alternatives *)
Definition parse_basic : parser basic :=
  alt parse_blank (alt parse_boolean (alt (pmap BConst structure_tag) (alt parse_rdf parse_string))).

(** ** Translation *)

(** The base and the prefixes that are declared in the program *)
Record declared := mkDecl { base : option str; prefixes : list (str * str) }.
Fixpoint lookup (p : str) (l : list (str * str)) : option str :=
  match l with
  | [] => None
  | (q, x) :: l' => if str_eqb q p then Some x else lookup p l'
  end.
(** translation.rs:117-150 *)
Definition resolve_tag (d : declared) (t : leaf_tag) : option str :=
  match t with
  | TPlain n => Some (match base d with Some b => b ++ n | None => n end)
  | TPrefixed p n => option_map (fun x => x ++ n) (lookup p (prefixes d))
  | TIri s => Some s
  end.
Definition ok {F} (r : parsed F) : option (dval F) := match r with POk v => Some v | _ => None end.
(** translation/basic/{blank,boolean,constant,rdf,string}.rs *)
Definition translate {F} (d : declared) (b : basic) : option (dval F) :=
  match b with
  | BBlank n => Some (VIri n)
  | BBool b => Some (VBool b)
  | BConst t => option_map VIri (resolve_tag d t)
  | BRdf s t => match resolve_tag d t with Some dt => ok (new_from_typed_literal s dt) | None => None end
  | BString s (Some l) => Some (new_lang_string s l)
  | BString s None => Some (VString s)
  end.
(** A constant at the beginning of a text, and what follows it *)
Definition read_value {F} (d : declared) (t : str) : option (dval F * str) :=
  bind (parse_basic t) (fun b r => option_map (fun v => (v, r)) (translate d b)).
