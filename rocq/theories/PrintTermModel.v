(** Model of printing terms and of the translation of syntax trees to terms: nemo/src/rule_model/components/term.rs:385-396,
    term/operation.rs:152-242, term/operation/operation_kind.rs:406-426, term/function.rs:183-197, term/tuple.rs:157-171,
    term/primitive/variable/{universal,existential,global}.rs, nemo-physical/src/datavalues/{iri,integer}_datavalue(s).rs,
    and nemo/src/rule_model/translation/{term.rs, complex/{arithmetic,function,infix,operation,tuple}.rs,
    basic/{constant,number,variable}.rs}, translation.rs:119-153. No proofs here.
    Not modelled: maps, aggregates, and constants that are not integers or IRIs. The translation is without a base and without
    prefixes. *)
From Coq Require Import String List Arith ZArith Bool Ascii.
From Verif Require Import ParseModel NumLitModel.
Import ListNotations.
Local Open Scope list_scope.

(** ** Terms (rule_model/components/term.rs:60-77): [POp] has the kind of the operation, as its name in lower case *)
Inductive pterm :=
| PVar (k : varkind) (name : text)
| PAnon
| PInt (z : Z)
| PIri (iri : text)
| PFun (tag : text) (args : list pterm)
| PTuple (args : list pterm)
| POp (kind : text) (args : list pterm).

Definition T (s : string) : text := list_ascii_of_string s.
Definition text_eqb (a b : text) : bool := if list_eq_dec ascii_dec a b then true else false.

(** ** Printing *)

(** The names of the kinds (syntax.rs:206-338), in the order of [known_functions] *)
Definition kind_names : list text := map T
  ["EQUALITY"; "UNEQUALITY"; "SUM"; "SUBTRACTION"; "PRODUCT"; "DIVISION"; "LOG"; "POW"; "REM"; "NUMGREATEREQ"; "NUMGREATER"; "NUMLESSEQ"; "NUMLESS"; "COMPARE"; "CONTAINS"; "REGEX"; "SUBSTR"; "STRBEFORE"; "STRAFTER"; "STRSTARTS"; "STRENDS"; "LEVENSHTEIN"; "NOT"; "DOUBLE"; "FLOAT"; "INT"; "IRI"; "fullStr"; "isInteger"; "isFloat"; "isDouble"; "isIri"; "isNumeric"; "isNull"; "isString"; "DATATYPE"; "STRLANG"; "LANG"; "ABS"; "COS"; "CEIL"; "FLOOR"; "INVERTSIGN"; "ROUND"; "SIN"; "SQRT"; "TAN"; "STRLEN"; "STRREV"; "LCASE"; "UCASE"; "URIENCODE"; "URIDECODE"; "BITAND"; "BITOR"; "BITXOR"; "BITSHL"; "BITSHRU"; "BITSHR"; "AND"; "OR"; "MIN"; "MAX"; "LUKA"; "CONCAT"; "STR"]%string.
(** operation_kind.rs:422-426 *)
Definition kind_name (k : text) : text :=
  match find (fun n => text_eqb (map lower n) k) kind_names with Some n => n | None => k end.

(** operation_kind.rs:408-419 *)
Definition precedence (k : text) : nat :=
  if text_eqb k (T "sum") then 2 else if text_eqb k (T "subtraction") then 2
  else if text_eqb k (T "product") then 3 else if text_eqb k (T "division") then 3
  else if text_eqb k (T "equality") then 0 else if text_eqb k (T "unequality") then 0 else 1.

(** operation.rs:203-217 *)
Definition infix_representation (k : text) : option text :=
  option_map snd (find (fun x => text_eqb (fst x) k)
    [(T "sum", T "+"); (T "subtraction", T "-"); (T "product", T "*"); (T "division", T "/"); (T "equality", T "=");
     (T "unequality", T "!="); (T "numgreater", T ">"); (T "numgreatereq", T ">="); (T "numless", T "<"); (T "numlesseq", T "<=")]).

(** The decimal digits of a number that is not negative (the standard library of Rust). *)
Definition digit_char (d : Z) : ascii := ascii_of_nat (48 + Z.to_nat d).
Fixpoint decimal_ (fuel : nat) (z : Z) : text :=
  match fuel with
  | O => []
  | S f => if (z <? 10)%Z then [digit_char z] else decimal_ f (z / 10)%Z ++ [digit_char (z mod 10)%Z]
  end.
Definition decimal_text (z : Z) : text := decimal_ (S (Z.to_nat (Z.log2 z))) z.
Definition integer_text (z : Z) : text := if (z <? 0)%Z then "-"%char :: decimal_text (- z) else decimal_text z.

(** iri_datavalue.rs:34-52 *)
Fixpoint is_name_ (first : bool) (t : text) : bool :=
  match t with
  | [] => true
  | c :: r =>
    if (is_digit c || (c =? "_") || (c =? "-"))%char then if first then false else is_name_ false r
    else if is_alpha c then is_name_ false r else false
  end.
Definition is_name (t : text) : bool := is_name_ true t.
(** iri_datavalue.rs:85-93, datavalue.rs:26-28 *)
Definition iri_text (t : text) : text := if is_name t then t else "<"%char :: t ++ [">"%char].

Definition indicator_text (k : varkind) : ascii := match k with Universal => "?" | Existential => "!" | Global => "$" end%char.

(** operation.rs:154-175: braces around an operand *)
Definition braces (k : text) (operand : pterm) (printed : text) : text :=
  match operand with
  | POp k' _ => if precedence k' <? precedence k then "("%char :: printed ++ [")"%char] else printed
  | _ => printed
  end.
(** operation.rs:178-192, function.rs:187-193: elements with delimiters *)
Fixpoint delimited (l : list text) : text :=
  match l with
  | [] => []
  | [t] => t
  | t :: r => t ++ ","%char :: " "%char :: delimited r
  end.
(** term.rs:385-396, operation.rs:220-242 *)
Fixpoint print (p : pterm) : text :=
  match p with
  | PVar k n => indicator_text k :: n
  | PAnon => ["_"%char]
  | PInt z => integer_text z
  | PIri t => iri_text t
  | PFun tag args => tag ++ "("%char :: delimited (map print args) ++ [")"%char]
  | PTuple args => "("%char :: delimited (map print args) ++ [")"%char]
  | POp k args =>
    let printed := map (fun a => braces k a (print a)) args in
    match infix_representation k, printed with
    | Some i, [l; r] => l ++ " "%char :: i ++ " "%char :: r
    | _, _ => kind_name k ++ "("%char :: delimited printed ++ [")"%char]
    end
  end.

(** ** Translation *)

(** complex/arithmetic.rs:27-40 *)
Definition arith_kind (o : arith_op) : text :=
  T match o with Add => "sum" | Sub => "subtraction" | Mul => "product" | Div => "division" end.
(** complex/infix.rs:25-45 *)
Definition infix_kind (k : infix) : text :=
  T match k with IEq => "equality" | IUneq => "unequality" | IGe => "numgreatereq" | IGt => "numgreater" | ILe => "numlesseq" | ILt => "numless" end.
(** translation.rs:119-153 *)
Definition resolve_tag (l : leaf) : option text :=
  match l with LName n => Some n | LIri s => Some s | _ => None end.
Definition translate_leaf (l : leaf) : option pterm :=
  match l with
  | LVar k n => Some (PVar k n)
  | LAnon => Some PAnon
  | LNum n => match literal n with Some (DInteger z) => Some (PInt z) | _ => None end
  | LBool _ => None
  | l => option_map PIri (resolve_tag l)
  end.
Definition all {A} (l : list (option A)) : option (list A) :=
  fold_right (fun x r => match x, r with Some a, Some s => Some (a :: s) | _, _ => None end) (Some []) l.
(** translation/term.rs:29-95 *)
Fixpoint translate (e : expr) : option pterm :=
  match e with
  | ELeaf l => translate_leaf l
  | EOp k es => option_map (POp k) (all (map translate es))
  | EAtom l es => match resolve_tag l, all (map translate es) with Some t, Some a => Some (PFun t a) | _, _ => None end
  | ETuple es => option_map PTuple (all (map translate es))
  | EParen e => translate e
  | EArith o a b => match translate a, translate b with Some x, Some y => Some (POp (arith_kind o) [x; y]) | _, _ => None end
  end.
(** Reading a whole text as a term, or as a comparison *)
Definition read_term (t : text) : option pterm :=
  match parse_expression known_functions t with Ok e [] => translate e | _ => None end.
Definition read_comparison (t : text) : option pterm :=
  match parse_infix known_functions t with
  | Ok (k, a, b) [] => match translate a, translate b with Some x, Some y => Some (POp (infix_kind k) [x; y]) | _, _ => None end
  | _ => None
  end.
