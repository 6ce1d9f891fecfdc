(** Specification of expressions: which texts write a term. Small on purpose; the parser is not used here, only the
    types of leaves, numbers and operators, and the classes of characters. *)
From Coq Require Import List Arith Bool Ascii.
From Verif Require Import ParseModel.
Import ListNotations.
Local Open Scope char_scope.

(** Terms, without parentheses. *)
Inductive term :=
| TLeaf (l : leaf)
| TCall (known : bool) (name : leaf) (args : list term)
| TTuple (args : list term)
| TBin (op : arith_op) (left right : term).

(** ** White space *)

Definition starts (P : ascii -> Prop) (t : text) : Prop := match t with c :: _ => P c | [] => False end.
(** The content of a comment that starts with a percent sign; three signs alone start a documentation comment. *)
Definition line_content (c : text) : Prop :=
  ~ In "010" c /\ ~ In "013" c /\ ~ exists d, c = "%" :: "%" :: d /\ ~ starts (fun x => x = "%") d.
Definition closed_content (c : text) : Prop := ~ exists a b, c = a ++ "*" :: "/" :: b.
Inductive blank : text -> Prop :=
| b_nil : blank []
| b_space c w : is_space c = true -> blank w -> blank (c :: w)
| b_line c w nl : line_content c -> (nl = ["010"] \/ nl = ["013"; "010"]) -> blank w -> blank ("%" :: c ++ nl ++ w)
| b_closed c w : closed_content c -> blank w -> blank ("/" :: "*" :: c ++ "*" :: "/" :: w).
(** Space after an expression: in the strict reading it does not start with a percent sign, which can be part of names. *)
Definition gap (strict : bool) (w : text) : Prop := blank w /\ (strict = true -> ~ starts (fun c => c = "%") w).

(** ** Leaves *)

Definition all_chars (f : ascii -> bool) (t : text) : Prop := forall c, In c t -> f c = true.
Definition name_text (n : text) : Prop := exists c r, n = c :: r /\ is_alpha c = true /\ all_chars is_name_rest r.
Definition digits_text (d : text) : Prop := d <> [] /\ all_chars is_digit d.
Definition sign_text (s : option bool) : text := match s with Some true => ["-"] | Some false => ["+"] | None => [] end.
Inductive number_text : number -> text -> Prop :=
| nt s d f ft e et m mt :
    digits_text d ->
    match f with Some x => digits_text x /\ ft = "." :: x | None => ft = [] end ->
    match e with Some (s', x) => digits_text x /\ exists c, (c = "e" \/ c = "E") /\ et = c :: sign_text s' ++ x | None => et = [] end ->
    match m with Some true => mt = ["d"] | Some false => mt = ["f"] | None => mt = [] end ->
    number_text (mkNum s d f e m) (sign_text s ++ d ++ ft ++ et ++ mt).
Definition indicator (k : varkind) : ascii := match k with Universal => "?" | Existential => "!" | Global => "$" end.
Definition true_text : text := ["t"; "r"; "u"; "e"].
Definition false_text : text := ["f"; "a"; "l"; "s"; "e"].
Definition begins (p t : text) : Prop := exists r, t = p ++ r.
(** Names of predicates and constants *)
Inductive tag_text : leaf -> text -> Prop :=
| tt_name n : name_text n -> tag_text (LName n) n
| tt_prefixed p n : (p = [] \/ name_text p) -> name_text n -> tag_text (LPrefixed p n) (p ++ ":" :: n)
| tt_iri s : s <> [] -> all_chars is_iri s -> tag_text (LIri s) ("<" :: s ++ [">"]).
(** A constant does not start with "true" or "false" in the strict reading. *)
Inductive leaf_text (strict : bool) : leaf -> text -> Prop :=
| lt_var k n : name_text n -> leaf_text strict (LVar k n) (indicator k :: n)
| lt_anon : leaf_text strict LAnon ["_"]
| lt_true : leaf_text strict (LBool true) true_text
| lt_false : leaf_text strict (LBool false) false_text
| lt_tag l t : tag_text l t -> (strict = true -> ~ begins true_text t /\ ~ begins false_text t) -> leaf_text strict l t
| lt_num n t : number_text n t -> leaf_text strict (LNum n) t.

(** ** Expressions *)

Inductive level := Atomic | Factor | Product | Sum | Expression.
Definition op_text (o : arith_op) : ascii := match o with Add => "+" | Sub => "-" | Mul => "*" | Div => "/" end.
Definition additive_op (o : arith_op) : bool := match o with Add | Sub => true | Mul | Div => false end.
Definition is_bin (e : term) : Prop := match e with TBin _ _ _ => True | _ => False end.

Section Writes.
(** The known functions, in lower case. *)
Variable ops : list text.
(** In the strict reading, an operand in parentheses is an arithmetic expression or directly one without operators. *)
Variable strict : bool.

(** Products bind stronger than sums, operators of the same strength group to the left; space is allowed everywhere
    between the parts of an expression. *)
Inductive writes : level -> term -> text -> Prop :=
| w_leaf l t : leaf_text strict l t -> writes Atomic (TLeaf l) t
| w_known k t ts u w : In k ops -> map lower t = k -> blank w ->
    writes_known ts u -> writes Atomic (TCall true (LName k) ts) (t ++ "(" :: w ++ u ++ [")"])
| w_call l t ts u w w' : tag_text l t -> ~ In (map lower t) ops -> blank w -> gap strict w' ->
    writes_list ts u -> writes Atomic (TCall false l ts) (t ++ "(" :: w ++ u ++ w' ++ [")"])
| w_tuple e t w w1 w2 ts u : blank w -> writes Expression e t -> gap strict w1 -> blank w2 -> writes_known ts u ->
    writes Atomic (TTuple (e :: ts)) ("(" :: w ++ t ++ w1 ++ "," :: w2 ++ u ++ [")"])
| w_factor e t : writes Atomic e t -> writes Factor e t
| w_parens e t w w' : writes Atomic e t -> blank w -> gap strict w' -> writes Factor e ("(" :: w ++ t ++ w' ++ [")"])
| w_parens_bin e t w w' : is_bin e -> writes Sum e t -> blank w -> gap strict w' -> writes Factor e ("(" :: w ++ t ++ w' ++ [")"])
| w_parens_any e t w w' : strict = false -> writes Expression e t -> blank w -> gap strict w' -> writes Factor e ("(" :: w ++ t ++ w' ++ [")"])
| w_product e t : writes Factor e t -> writes Product e t
| w_mul o a s b t w w' : additive_op o = false -> writes Product a s -> gap strict w -> blank w' -> writes Factor b t ->
    writes Product (TBin o a b) (s ++ w ++ op_text o :: w' ++ t)
| w_sum e t : writes Product e t -> writes Sum e t
| w_add o a s b t w w' : additive_op o = true -> writes Sum a s -> gap strict w -> blank w' -> writes Product b t ->
    writes Sum (TBin o a b) (s ++ w ++ op_text o :: w' ++ t)
| w_expression e t : writes Sum e t -> is_bin e -> writes Expression e t
| w_expression_atomic e t : writes Atomic e t -> writes Expression e t
| w_expression_parens e t w w' : writes Expression e t -> blank w -> gap strict w' -> writes Expression e ("(" :: w ++ t ++ w' ++ [")"])
(** expressions separated by commas *)
with writes_list : list term -> text -> Prop :=
| wl_one e t : writes Expression e t -> writes_list [e] t
| wl_cons e t es u w w' : writes Expression e t -> gap strict w -> blank w' -> writes_list es u ->
    writes_list (e :: es) (t ++ w ++ "," :: w' ++ u)
(** the same up to the closing parenthesis; it can be empty and can end with a comma *)
with writes_known : list term -> text -> Prop :=
| wk_nil : writes_known [] []
| wk_list es t w : writes_list es t -> gap strict w -> writes_known es (t ++ w)
| wk_trailing es t w w' : writes_list es t -> gap strict w -> blank w' -> writes_known es (t ++ w ++ "," :: w').
End Writes.

(** What can follow an expression in a text: the end, or space and a character that does not continue the expression. *)
Definition separated (t : text) : Prop :=
  match t with
  | [] => True
  | c :: r => is_name_rest c = false /\ ~ In c ["("; ":"; "{"; """"] /\ (c = "." -> ~ starts (fun d => is_digit d = true) r)
  end.
Definition ends (t : text) : Prop :=
  match t with [] => True | c :: r => is_space c = false /\ ~ In c ["%"; "+"; "-"; "*"; "/"] end.
Definition follows (t : text) : Prop := separated t /\ exists w r, t = w ++ r /\ blank w /\ ends r.

(** The term of a syntax tree: translation/term.rs:29-95, complex/arithmetic.rs:27-50 *)
Fixpoint term_of (e : expr) : term :=
  match e with
  | ELeaf l => TLeaf l
  | EOp k es => TCall true (LName k) (map term_of es)
  | EAtom l es => TCall false l (map term_of es)
  | ETuple es => TTuple (map term_of es)
  | EParen e => term_of e
  | EArith o a b => TBin o (term_of a) (term_of b)
  end.

(** The names of functions (checked by the test operation_kind.rs:433-460, and by reading the names): names in lower
    case, none is the beginning of a later one. *)
Definition function_names (ops : list text) : Prop :=
  (forall k, In k ops -> k <> [] /\ all_chars (fun c => (is_alpha c || is_digit c || (c =? "_")) && (lower c =? c)) k) /\
  forall l k l' k' l'', ops = l ++ k :: l' ++ k' :: l'' -> ~ begins k k'.

(** ** Comparisons *)
Definition infix_text (k : infix) : text :=
  match k with IEq => ["="] | IUneq => ["!"; "="] | IGe => [">"; "="] | IGt => [">"] | ILe => ["<"; "="] | ILt => ["<"] end.
Definition writes_infix (ops : list text) (strict : bool) (k : infix) (a b : term) (t : text) : Prop :=
  exists s w w' u, writes ops strict Expression a s /\ gap strict w /\ blank w' /\ writes ops strict Expression b u /\
    t = s ++ w ++ infix_text k ++ w' ++ u.
