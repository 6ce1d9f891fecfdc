(** Model of the parser of expressions: nemo/src/parser/ast/{expression.rs, expression/complex/{arithmetic,parenthesized,
    operation,atom,tuple,infix}.rs, expression/basic/{number,variable,boolean,constant}.rs, sequence.rs, sequence/simple.rs,
    comment/*.rs, token.rs, tag/*.rs}, on the parser combinators of the crate nom, version 7. No proofs here.
    Not modelled: aggregates, maps, negation, format strings, strings, RDF literals, blank nodes and encoded numbers
    (all of them start with, or have as second character, a character that is excluded in the theorems), and positions. *)
From Coq Require Import String List Arith Bool Ascii.
Import ListNotations.
Local Open Scope list_scope.

(** ** Combinators *)

Definition text := list ascii.
(** [Err]: nom's recoverable error; [Fatal]: nom's failure (from [cut]); [Fuel]: the model ran out of fuel. *)
Inductive res (A : Type) := Ok (x : A) (rest : text) | Err | Fatal | Fuel.
Arguments Ok {A} x rest. Arguments Err {A}. Arguments Fatal {A}. Arguments Fuel {A}.
Definition parser (A : Type) := text -> res A.
Definition bind {A B} (r : res A) (k : A -> text -> res B) : res B :=
  match r with Ok x rest => k x rest | Err => Err | Fatal => Fatal | Fuel => Fuel end.
(** nom [alt] *)
Definition alt {A} (p q : parser A) : parser A := fun i => match p i with Err => q i | r => r end.
Definition pmap {A B} (f : A -> B) (p : parser A) : parser B := fun i => bind (p i) (fun x r => Ok (f x) r).
(** nom [opt] *)
Definition opt {A} (p : parser A) : parser (option A) := fun i =>
  match p i with Ok x r => Ok (Some x) r | Err => Ok None i | Fatal => Fatal | Fuel => Fuel end.
(** nom [cut] *)
Definition cut {A} (p : parser A) : parser A := fun i => match p i with Err => Fatal | r => r end.
(** nom [many0]; the fuel is larger than the text *)
Fixpoint many0_ {A} (fuel : nat) (p : parser A) (i : text) : res (list A) :=
  match fuel with
  | 0 => Fuel
  | S f => match p i with
           | Ok x r => if length r =? length i then Err
                       else bind (many0_ f p r) (fun xs r' => Ok (x :: xs) r')
           | Err => Ok [] i
           | Fatal => Fatal
           | Fuel => Fuel
           end
  end.
Definition many0 {A} (p : parser A) : parser (list A) := fun i => many0_ (S (length i)) p i.
(** nom [separated_list1], after the first element *)
Fixpoint sep_rest {A B} (fuel : nat) (sep : parser B) (p : parser A) (i : text) : res (list A) :=
  match fuel with
  | 0 => Fuel
  | S f => match sep i with
           | Ok _ r => if length r =? length i then Err
                       else match p r with
                            | Ok x r' => bind (sep_rest f sep p r') (fun xs r'' => Ok (x :: xs) r'')
                            | Err => Ok [] i
                            | Fatal => Fatal
                            | Fuel => Fuel
                            end
           | Err => Ok [] i
           | Fatal => Fatal
           | Fuel => Fuel
           end
  end.
Definition sep_list1 {A B} (sep : parser B) (p : parser A) : parser (list A) := fun i =>
  bind (p i) (fun x r => bind (sep_rest (S (length r)) sep p r) (fun xs r' => Ok (x :: xs) r')).
(** nom [tag] *)
Fixpoint tag (s : text) (i : text) : res unit :=
  match s, i with
  | [], _ => Ok tt i
  | c :: s', d :: i' => if (c =? d)%char then tag s' i' else Err
  | _ :: _, [] => Err
  end.
Definition chr (c : ascii) : parser unit := tag [c].
(** nom [take_while1] *)
Fixpoint span (f : ascii -> bool) (i : text) : text * text :=
  match i with
  | c :: r => if f c then let (a, b) := span f r in (c :: a, b) else ([], i)
  | [] => ([], [])
  end.
Definition take_while1 (f : ascii -> bool) : parser text := fun i =>
  match span f i with ([], _) => Err | (a, b) => Ok a b end.

(** ** Characters *)
Definition between (a b c : ascii) : bool := (nat_of_ascii a <=? nat_of_ascii c) && (nat_of_ascii c <=? nat_of_ascii b).
Definition is_alpha (c : ascii) : bool := between "a" "z" c || between "A" "Z" c.
Definition is_digit (c : ascii) : bool := between "0" "9" c.
Definition is_space (c : ascii) : bool :=
  (c =? " ")%char || (c =? "009")%char || (c =? "010")%char || (c =? "013")%char.
Definition lower (c : ascii) : ascii := if between "A" "Z" c then ascii_of_nat (nat_of_ascii c + 32) else c.

(** ** White space and comments: comment/wsoc.rs, line.rs, closed.rs *)

(** token.rs:602 *)
Definition whitespace : parser unit := pmap (fun _ => tt) (take_while1 is_space).
(** token.rs:753-777: four or more percent signs, or one, but not exactly three *)
Definition comment_token : parser unit := fun i =>
  match i with
  | "%" :: "%" :: "%" :: "%" :: r => let (_, b) := span (fun c => c =? "%")%char r in Ok tt b
  | "%" :: "%" :: "%" :: _ => Err
  | "%" :: r => Ok tt r
  | _ => Err
  end%char.
(** nom [not_line_ending] and [line_ending] *)
Definition not_line_ending : parser unit := fun i =>
  let (_, b) := span (fun c => negb ((c =? "010") || (c =? "013")))%char i in
  match b with
  | "013"%char :: r => match r with "010"%char :: _ => Ok tt b | _ => Err end
  | _ => Ok tt b
  end.
Definition line_ending_or_eof : parser unit := fun i =>
  match i with
  | [] => Ok tt []
  | "010"%char :: r => Ok tt r
  | "013"%char :: "010"%char :: r => Ok tt r
  | _ => Err
  end.
(** comment/line.rs:48-56 *)
Definition line_comment : parser unit := fun i =>
  bind (comment_token i) (fun _ r => bind (not_line_ending r) (fun _ r => line_ending_or_eof r)).
(** nom [take_until] for the end of a comment, and the end *)
Fixpoint comment_end (i : text) : res unit :=
  match i with
  | "*"%char :: ("/"%char :: r) => Ok tt r
  | _ :: r => comment_end r
  | [] => Err
  end.
(** comment/closed.rs:47-62 *)
Definition closed_comment : parser unit := fun i => bind (tag ["/"; "*"]%char i) (fun _ r => comment_end r).
(** comment/wsoc.rs:51-65 *)
Definition wsoc : parser unit := pmap (fun _ => tt) (many0 (alt whitespace (alt line_comment closed_comment))).

(** ** Basic expressions *)

(** basic/number.rs:57-70. The sign is that of the text, if there is one. *)
Record number := mkNum { nu_sign : option bool; nu_int : text; nu_frac : option text;
                         nu_exp : option (option bool * text); nu_mark : option bool }.
Inductive varkind := Universal | Existential | Global.
Inductive leaf :=
| LVar (k : varkind) (name : text)
| LAnon
| LBool (b : bool)
| LName (name : text)
| LPrefixed (prefix name : text)
| LIri (iri : text)
| LNum (n : number).
Inductive arith_op := Add | Sub | Mul | Div.
(** expression.rs:28-63. [EOp]: a known function; [EAtom]: a function term. *)
Inductive expr :=
| ELeaf (l : leaf)
| EOp (name : text) (args : list expr)
| EAtom (tag : leaf) (args : list expr)
| ETuple (args : list expr)
| EParen (e : expr)
| EArith (op : arith_op) (left right : expr).

(** token.rs:382-398 *)
Definition is_name_rest (c : ascii) : bool := is_alpha c || is_digit c || (c =? "_")%char || (c =? "%")%char.
Definition name : parser text := fun i =>
  match i with
  | c :: r => if is_alpha c then let (a, b) := span is_name_rest r in Ok (c :: a) b else Err
  | [] => Err
  end.
(** true for minus: number.rs:146-155 *)
Definition sign : parser bool := alt (pmap (fun _ => false) (chr "+")) (pmap (fun _ => true) (chr "-")).
Definition digits : parser text := take_while1 is_digit.
(** number.rs:163-191 *)
Definition fractional : parser text := fun i => bind (chr "." i) (fun _ r => digits r).
Definition exponent : parser (option bool * text) := fun i =>
  bind (alt (chr "e") (chr "E") i) (fun _ r => bind (opt sign r) (fun s r => bind (digits r) (fun d r => Ok (s, d) r))).
Definition type_marker : parser bool := alt (pmap (fun _ => false) (chr "f")) (pmap (fun _ => true) (chr "d")).
(** number.rs:206-241 *)
Definition parse_number : parser number := fun i =>
  bind (opt sign i) (fun s r => bind (digits r) (fun d r => bind (opt fractional r) (fun f r =>
  bind (opt exponent r) (fun e r => bind (opt type_marker r) (fun m r => Ok (mkNum s d f e m) r))))).
(** basic/variable.rs:66-85, 99-127 *)
Definition parse_variable : parser leaf := fun i =>
  match i with
  | c :: r =>
      if (c =? "?")%char then bind (cut name r) (fun n r => Ok (LVar Universal n) r)
      else if (c =? "!")%char then bind (cut name r) (fun n r => Ok (LVar Existential n) r)
      else if (c =? "$")%char then bind (cut name r) (fun n r => Ok (LVar Global n) r)
      else if (c =? "_")%char then Ok LAnon r
      else Err
  | [] => Err
  end.
(** basic/boolean.rs:48-56 *)
Definition parse_boolean : parser leaf :=
  alt (pmap (fun _ => LBool true) (tag ["t"; "r"; "u"; "e"]%char)) (pmap (fun _ => LBool false) (tag ["f"; "a"; "l"; "s"; "e"]%char)).
(** basic/iri.rs, token.rs:401: [is_not] the end, a space or a new line *)
Definition is_iri (c : ascii) : bool := negb ((c =? ">")%char || (c =? " ")%char || (c =? "010")%char).
Definition parse_iri : parser leaf := fun i =>
  bind (chr "<" i) (fun _ r => bind (take_while1 is_iri r) (fun s r => bind (chr ">" r) (fun _ r => Ok (LIri s) r))).
(** tag/structure.rs:78-97 *)
Definition structure_tag : parser leaf :=
  alt (fun i => bind (alt name (fun j => Ok [] j) i) (fun p r => bind (chr ":" r) (fun _ r => bind (name r) (fun n r => Ok (LPrefixed p n) r))))
  (alt (pmap LName name) parse_iri).
(** expression.rs:88-99 *)
Definition parse_basic : parser expr :=
  pmap ELeaf (alt parse_boolean (alt structure_tag (alt (pmap LNum parse_number) parse_variable))).

(** ** Complex expressions *)

Section Operations.
(** The names of the known functions, in the order of the declaration (operation_kind.rs), in lower case. *)
Variable ops : list text.

(** nom [tag_no_case] *)
Fixpoint tag_no_case (s : text) (i : text) : res unit :=
  match s, i with
  | [], _ => Ok tt i
  | c :: s', d :: i' => if (c =? lower d)%char then tag_no_case s' i' else Err
  | _ :: _, [] => Err
  end.
(** tag/operation.rs:47-64 *)
Fixpoint operation_tag (l : list text) (i : text) : res text :=
  match l with
  | [] => Err
  | s :: l' => match tag_no_case s i with Ok _ r => Ok s r | _ => operation_tag l' i end
  end.

(** sequence.rs:101-104: a comma between white space *)
Definition comma : parser unit := fun i => bind (wsoc i) (fun _ r => bind (chr "," r) (fun _ r => wsoc r)).
(** sequence.rs:92-118 *)
Definition sequence (p : parser expr) : parser (list expr) := fun i =>
  bind (opt (fun j => bind (sep_list1 comma p j) (fun xs r => bind (opt comma r) (fun _ r => Ok xs r))) i)
    (fun o r => Ok (match o with Some xs => xs | None => [] end) r).
(** sequence.rs:40-72 *)
Definition first_trailing (p : parser expr) : parser (list expr) := fun i =>
  bind (p i) (fun x r => bind (wsoc r) (fun _ r => bind (chr "," r) (fun _ r => bind (wsoc r) (fun _ r =>
  bind (sequence p r) (fun xs r => Ok (x :: xs) r))))).
(** nom [delimited] by parentheses with white space inside *)
Definition enclosed {A} (p : parser A) : parser A := fun i =>
  bind (chr "(" i) (fun _ r => bind (wsoc r) (fun _ r => bind (p r) (fun x r =>
  bind (wsoc r) (fun _ r => bind (chr ")" r) (fun _ r => Ok x r))))).
(** The parsers that are called recursively, for [Expression::parse], [Arithmetic::parse_non_arithmetic] and
    [Arithmetic::parse]: always after an opening parenthesis. *)
Record parsers := mkPs { p_expr : parser expr; p_basic : parser expr; p_arith : parser expr }.

(** complex/operation.rs:62-78 *)
Definition parse_operation (p : parsers) : parser expr := fun i =>
  bind (operation_tag ops i) (fun k r => bind (enclosed (sequence (p_expr p)) r) (fun xs r => Ok (EOp k xs) r)).
(** complex/atom.rs:63-74, sequence/simple.rs:31-36 *)
Definition parse_atom (p : parsers) : parser expr := fun i =>
  bind (structure_tag i) (fun k r => bind (enclosed (sep_list1 comma (p_expr p)) r) (fun xs r => Ok (EAtom k xs) r)).
(** complex/tuple.rs:50-61 *)
Definition parse_tuple (p : parsers) : parser expr := pmap ETuple (enclosed (first_trailing (p_expr p))).
(** expression.rs:102-112 *)
Definition parse_complex (p : parsers) : parser expr := alt (parse_operation p) (alt (parse_atom p) (parse_tuple p)).

(** ** Arithmetic: complex/arithmetic.rs *)

(** arithmetic.rs:150-152 *)
Definition non_arithmetic (p : parsers) : parser expr := alt (parse_complex p) parse_basic.
(** arithmetic.rs:155-175 *)
Definition parenthesized_non_arithmetic (p : parsers) : parser expr := pmap EParen (enclosed (p_basic p)).
(** arithmetic.rs:178-191 *)
Definition parenthesized_expression (p : parsers) : parser expr := enclosed (p_arith p).
(** arithmetic.rs:194-200 *)
Definition factor (p : parsers) : parser expr :=
  alt (parenthesized_non_arithmetic p) (alt (non_arithmetic p) (parenthesized_expression p)).
(** arithmetic.rs:48-70 *)
Definition additive : parser arith_op := alt (pmap (fun _ => Add) (chr "+")) (pmap (fun _ => Sub) (chr "-")).
Definition multiplicative : parser arith_op := alt (pmap (fun _ => Mul) (chr "*")) (pmap (fun _ => Div) (chr "/")).
(** arithmetic.rs:119-146 [fold]: to the left *)
Definition fold_chain (initial : expr) (sequence : list (arith_op * expr)) : expr :=
  fold_left (fun acc x => EArith (fst x) acc (snd x)) sequence initial.
(** an operator and an operand, arithmetic.rs:206-213 *)
Definition operand (op : parser arith_op) (p : parser expr) : parser (arith_op * expr) := fun i =>
  bind (wsoc i) (fun _ r => bind (op r) (fun o r => bind (wsoc r) (fun _ r => bind (p r) (fun e r => Ok (o, e) r)))).
(** arithmetic.rs:203-216 *)
Definition product (p : parsers) : parser expr := fun i =>
  bind (factor p i) (fun e r => bind (many0 (operand multiplicative (factor p)) r) (fun l r => Ok (fold_chain e l) r)).
(** arithmetic.rs:219-246 *)
Definition sum (p : parsers) : parser expr := fun i =>
  bind (product p i) (fun e r => bind (many0 (operand additive (product p)) r) (fun l r => Ok (fold_chain e l) r)).
(** arithmetic.rs:264-280: every error is recoverable *)
Definition arithmetic (p : parsers) : parser expr := fun i =>
  match sum p i with
  | Ok (EArith o a b) r => Ok (EArith o a b) r
  | Fuel => Fuel
  | _ => Err
  end.
(** complex/parenthesized.rs:50-70 *)
Definition parenthesized (p : parsers) : parser expr := pmap EParen (enclosed (p_expr p)).
(** expression.rs:165-178 *)
Definition expression (p : parsers) : parser expr :=
  alt (arithmetic p) (alt (parenthesized p) (alt (parse_complex p) parse_basic)).

Fixpoint at_depth (n : nat) : parsers :=
  match n with
  | 0 => mkPs (fun _ => Fuel) (fun _ => Fuel) (fun _ => Fuel)
  | S m => let p := at_depth m in mkPs (expression p) (non_arithmetic p) (arithmetic p)
  end.
(** [Expression::parse] *)
Definition parse_expression : parser expr := fun i => expression (at_depth (length i)) i.

(** complex/infix.rs:60-86, 108-118 *)
Inductive infix := IEq | IUneq | IGe | IGt | ILe | ILt.
Definition infix_kind : parser infix :=
  alt (pmap (fun _ => IEq) (tag ["="%char])) (alt (pmap (fun _ => IUneq) (tag ["!"; "="]%char))
  (alt (pmap (fun _ => IGe) (tag [">"; "="]%char)) (alt (pmap (fun _ => IGt) (tag [">"%char]))
  (alt (pmap (fun _ => ILe) (tag ["<"; "="]%char)) (pmap (fun _ => ILt) (tag ["<"%char])))))).
Definition parse_infix : parser (infix * expr * expr) := fun i =>
  bind (parse_expression i) (fun a r => bind (wsoc r) (fun _ r => bind (infix_kind r) (fun k r => bind (wsoc r) (fun _ r =>
  bind (parse_expression r) (fun b r => Ok (k, a, b) r))))).
End Operations.

(** The functions, in the order of the declaration: rule_model/components/term/operation/operation_kind.rs:70-404, with the
    names of syntax.rs:204-360, in lower case (nom compares both sides in lower case) *)
Definition known_functions : list text := map list_ascii_of_string
  ["equality"; "unequality"; "sum"; "subtraction"; "product"; "division"; "log"; "pow"; "rem"; "numgreatereq"; "numgreater"; "numlesseq"; "numless"; "compare"; "contains"; "regex"; "substr"; "strbefore"; "strafter"; "strstarts"; "strends"; "levenshtein"; "not"; "double"; "float"; "int"; "iri"; "fullstr"; "isinteger"; "isfloat"; "isdouble"; "isiri"; "isnumeric"; "isnull"; "isstring"; "datatype"; "strlang"; "lang"; "abs"; "cos"; "ceil"; "floor"; "invertsign"; "round"; "sin"; "sqrt"; "tan"; "strlen"; "strrev"; "lcase"; "ucase"; "uriencode"; "uridecode"; "bitand"; "bitor"; "bitxor"; "bitshl"; "bitshru"; "bitshr"; "and"; "or"; "min"; "max"; "luka"; "concat"; "str"]%string.
