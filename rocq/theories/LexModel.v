(** Model of the data values of nemo-physical that are created from literals: parsing of lexical forms, canonical
    lexical forms, equality, hashing and order.
    Files: nemo-physical/src/datavalues/{any_datavalue,integer_datavalues,float_datavalues,boolean_datavalue,
    string_datavalue,iri_datavalue,lang_string_datavalue,other_datavalue,datavalue,syntax}.rs.

    A string is the list of its Unicode scalar values. Where the code works on UTF-8 bytes it only compares them with
    ASCII characters, and a byte of a non-ASCII character never equals one: this gives the same results.
    Not modelled: nulls, tuples and maps (they are not created from literals). *)
From Coq Require Import List ZArith Bool Ascii String.
Import ListNotations.
Open Scope Z_scope.
Open Scope list_scope.

Definition str := list Z.

(** String literals of the source code. *)
Fixpoint lit (s : string) : str :=
  match s with
  | EmptyString => []
  | String c s' => Z.of_nat (nat_of_ascii c) :: lit s'
  end.

Fixpoint str_eqb (a b : str) : bool :=
  match a, b with
  | [], [] => true
  | x :: a', y :: b' => (x =? y) && str_eqb a' b'
  | _, _ => false
  end.

(** str::strip_prefix of the standard library. *)
Fixpoint strip_prefix (p s : str) : option str :=
  match p, s with
  | [], _ => Some s
  | x :: p', y :: s' => if x =? y then strip_prefix p' s' else None
  | _ :: _, [] => None
  end.

(** ** Integers of the standard library *)

(** `i64::from_str` and `u64::from_str` (core::num, radix 10): one optional sign ('-' only for the signed type), then
    digits, with checked multiplication and addition (subtraction for negative numbers). At each character an invalid
    digit is reported before an overflow. (The standard library has a fast path for short inputs with the same
    results.) *)
Inductive int_error := IEmpty | IInvalidDigit | IPosOverflow | INegOverflow.
Definition digit (c : Z) : option Z := if (48 <=? c) && (c <=? 57) then Some (c - 48) else None.
Definition in_bounds (lo hi z : Z) : bool := (lo <=? z) && (z <=? hi).
Fixpoint pos_digits (lo hi acc : Z) (s : str) : Z + int_error :=
  match s with
  | [] => inl acc
  | c :: s' =>
    match digit c with
    | None => inr IInvalidDigit
    | Some d =>
      if negb (in_bounds lo hi (acc * 10)) then inr IPosOverflow
      else if negb (in_bounds lo hi (acc * 10 + d)) then inr IPosOverflow
      else pos_digits lo hi (acc * 10 + d) s'
    end
  end.
Fixpoint neg_digits (lo hi acc : Z) (s : str) : Z + int_error :=
  match s with
  | [] => inl acc
  | c :: s' =>
    match digit c with
    | None => inr IInvalidDigit
    | Some d =>
      if negb (in_bounds lo hi (acc * 10)) then inr INegOverflow
      else if negb (in_bounds lo hi (acc * 10 - d)) then inr INegOverflow
      else neg_digits lo hi (acc * 10 - d) s'
    end
  end.
Definition parse_int (signed : bool) (lo hi : Z) (s : str) : Z + int_error :=
  match s with
  | [] => inr IEmpty
  | [c] => if (c =? 43) || (c =? 45) then inr IInvalidDigit else pos_digits lo hi 0 s
  | c :: s' =>
    if c =? 43 then pos_digits lo hi 0 s'
    else if (c =? 45) && signed then neg_digits lo hi 0 s'
    else pos_digits lo hi 0 s
  end.
Definition i64_lo : Z := - 2 ^ 63.
Definition i64_hi : Z := 2 ^ 63 - 1.
Definition u64_hi : Z := 2 ^ 64 - 1.
Definition parse_i64 (s : str) := parse_int true i64_lo i64_hi s.
Definition parse_u64 (s : str) := parse_int false 0 u64_hi s.

(** `to_string` of i64 and u64. *)
Fixpoint dec_digits (fuel : nat) (z : Z) (acc : str) : str :=
  match fuel with
  | O => acc
  | S n => if z <? 10 then (48 + z) :: acc else dec_digits n (z / 10) ((48 + z mod 10) :: acc)
  end.
Definition int_to_string (z : Z) : str :=
  if z <? 0 then 45 :: dec_digits (S (Z.to_nat (Z.log2 (- z)))) (- z) []
  else dec_digits (S (Z.to_nat (Z.log2 z))) z [].

(** ** Data values (any_datavalue.rs:46-75) *)

(** The operations on f64 and f32 are taken from the environment: parsing and printing (from_str followed by the check
    that the number is finite, to_string), equality and order of numbers, and the bits. *)
Record float_ops := {
  f64 : Type; f64_parse : str -> option f64; f64_print : f64 -> str;
  f64_eqb : f64 -> f64 -> bool; f64_cmp : f64 -> f64 -> comparison; f64_bits : f64 -> Z;
  f32 : Type; f32_print : f32 -> str;
  f32_eqb : f32 -> f32 -> bool; f32_cmp : f32 -> f32 -> comparison; f32_bits : f32 -> Z }.

Section WithFloats.
Context (F : float_ops).

Inductive dval :=
| VString (s : str)
| VLang (s tag : str)
| VIri (s : str)
| VFloat (f : f32 F)
| VDouble (f : f64 F)
| VULong (z : Z)
| VLong (z : Z)
| VBool (b : bool)
| VOther (lex dt : str).

(** syntax.rs:68 *)
Definition xsd_prefix : str := lit "http://www.w3.org/2001/XMLSchema#".
Definition xsd (n : string) : str := xsd_prefix ++ lit n.

(** any_datavalue.rs:120-124 with lang_string_datavalue.rs:18-20: the tag is put in (ASCII) lower case. *)
Definition ascii_lower (c : Z) : Z := if (65 <=? c) && (c <=? 90) then c + 32 else c.
Definition new_lang_string (s tag : str) : dval := VLang s (map ascii_lower tag).

(** *** Value domains (datavalue.rs:43-90, integer_datavalues.rs:48-59 and 132-146) *)
Inductive domain :=
| DPlainString | DLang | DIri | DFloat | DDouble | DUnsignedLong | DNonNegativeLong | DUnsignedInt | DNonNegativeInt
| DLong | DInt | DBoolean | DOther.
Definition i32_max : Z := 2 ^ 31 - 1.
Definition i32_min : Z := - 2 ^ 31.
Definition u32_max : Z := 2 ^ 32 - 1.
Definition ulong_domain (z : Z) : domain :=
  if z <=? i32_max then DNonNegativeInt
  else if z <=? u32_max then DUnsignedInt
  else if z <=? i64_hi then DNonNegativeLong
  else DUnsignedLong.
Definition long_domain (z : Z) : domain :=
  if 0 <=? z then
    if z <=? i32_max then DNonNegativeInt
    else if z <=? u32_max then DUnsignedInt
    else DNonNegativeLong
  else if i32_min <=? z then DInt
  else DLong.
Definition value_domain (v : dval) : domain :=
  match v with
  | VString _ => DPlainString
  | VLang _ _ => DLang
  | VIri _ => DIri
  | VFloat _ => DFloat
  | VDouble _ => DDouble
  | VULong z => ulong_domain z
  | VLong z => long_domain z
  | VBool _ => DBoolean
  | VOther _ _ => DOther
  end.

(** datavalue.rs:98-129 ([DOther] panics there, and is never asked for its type). *)
Definition type_iri (d : domain) : str :=
  match d with
  | DPlainString => lit "http://www.w3.org/2001/XMLSchema#string"
  | DLang => lit "http://www.w3.org/1999/02/22-rdf-syntax-ns#langString"
  | DIri => lit "http://www.w3.org/2001/XMLSchema#anyURI"
  | DFloat => lit "http://www.w3.org/2001/XMLSchema#float"
  | DDouble => lit "http://www.w3.org/2001/XMLSchema#double"
  | DUnsignedLong => lit "http://www.w3.org/2001/XMLSchema#unsignedLong"
  | DLong | DNonNegativeLong | DUnsignedInt => lit "http://www.w3.org/2001/XMLSchema#long"
  | DInt | DNonNegativeInt => lit "http://www.w3.org/2001/XMLSchema#int"
  | DBoolean => lit "http://www.w3.org/2001/XMLSchema#boolean"
  | DOther => []
  end.

(** datatype_iri of each kind of value; other_datavalue.rs:20-22 for [VOther]. *)
Definition datatype_iri (v : dval) : str :=
  match v with
  | VOther _ dt => dt
  | _ => type_iri (value_domain v)
  end.

(** lang_string_datavalue.rs:28-32: every '@' of the tag is doubled. *)
Fixpoint double_at (s : str) : str :=
  match s with
  | [] => []
  | c :: s' => if c =? 64 then 64 :: 64 :: double_at s' else c :: double_at s'
  end.

(** lexical_value of each kind of value. *)
Definition lexical_value (v : dval) : str :=
  match v with
  | VString s => s
  | VLang s tag => s ++ 64 :: double_at tag
  | VIri s => s
  | VFloat f => f32_print F f
  | VDouble f => f64_print F f
  | VULong z | VLong z => int_to_string z
  | VBool b => if b then lit "true" else lit "false"
  | VOther lex _ => lex
  end.

(** ** Parsing (any_datavalue.rs:182-461) *)

Inductive parsed := POk (v : dval) | PErr | PPanic.

(** any_datavalue.rs:23-44 *)
Inductive decimal_type :=
| TDecimal | TInteger | TNonNegativeInteger | TPositiveInteger | TNonPositiveInteger | TNegativeInteger.

(** any_datavalue.rs:314-335 *)
Definition from_decimal_typed_long (z : Z) (t : decimal_type) : parsed :=
  match t with
  | TPositiveInteger => if z <=? 0 then PErr else POk (VLong z)
  | TNonNegativeInteger => if z <? 0 then PErr else POk (VLong z)
  | TNegativeInteger => if 0 <=? z then PErr else POk (VLong z)
  | TNonPositiveInteger => if 0 <? z then PErr else POk (VLong z)
  | TDecimal | TInteger => POk (VLong z)
  end.

(** any_datavalue.rs:342-356: the local variables of the loop. *)
Record scan := mkscan {
  trimmed : str; before_sign : bool; in_leading_zeros : bool; in_fraction : bool; len_at_trailing_zeros : nat;
  sign_plus : bool; is_zero : bool; has_nonzero_fraction : bool; saw_digit : bool }.
Definition scan0 : scan := mkscan [] true true false 0 true true false false.
Definition nonempty (s : str) : bool := match s with [] => false | _ => true end.

(** any_datavalue.rs:358-402: one character; [None] is the parse error. *)
Definition scan_char (st : scan) (c : Z) : option scan :=
  if (c =? 45) && negb (nonempty (trimmed st)) && before_sign st then
    Some (mkscan (trimmed st ++ [45]) false (in_leading_zeros st) (in_fraction st) (len_at_trailing_zeros st)
                 false (is_zero st) (has_nonzero_fraction st) (saw_digit st))
  else if (c =? 43) && negb (nonempty (trimmed st)) && before_sign st then
    Some (mkscan (trimmed st) false (in_leading_zeros st) (in_fraction st) (len_at_trailing_zeros st)
                 (sign_plus st) (is_zero st) (has_nonzero_fraction st) (saw_digit st))
  else if (49 <=? c) && (c <=? 57) then
    let t := trimmed st ++ [c] in
    Some (mkscan t (before_sign st) false (in_fraction st)
                 (if in_fraction st then List.length t else len_at_trailing_zeros st)
                 (sign_plus st) false (if in_fraction st then true else has_nonzero_fraction st) true)
  else if c =? 48 then
    Some (mkscan (if in_leading_zeros st then trimmed st else trimmed st ++ [48]) false (in_leading_zeros st)
                 (in_fraction st) (len_at_trailing_zeros st) (sign_plus st) (is_zero st) (has_nonzero_fraction st) true)
  else if c =? 46 then
    if in_fraction st then None
    else
      let t := if in_leading_zeros st then trimmed st ++ [48] else trimmed st in
      Some (mkscan (t ++ [46]) (before_sign st) false true (List.length t)
                   (sign_plus st) (is_zero st) (has_nonzero_fraction st) (saw_digit st))
  else None.

Fixpoint scan_all (st : scan) (s : str) : option scan :=
  match s with
  | [] => Some st
  | c :: s' => match scan_char st c with Some st' => scan_all st' s' | None => None end
  end.

(** any_datavalue.rs:338-447 *)
Definition parse_large_decimal_literal (s : str) (t : decimal_type) : parsed :=
  match scan_all scan0 s with
  | None => PErr
  | Some st =>
    if negb (saw_digit st) then PErr
    else
      let tv := if in_fraction st then firstn (len_at_trailing_zeros st) (trimmed st) else trimmed st in
      if negb (in_fraction st) then
        if is_zero st then PPanic
        else
          match t, sign_plus st with
          | TPositiveInteger, false | TNonNegativeInteger, false => PErr
          | TNegativeInteger, true | TNonPositiveInteger, true => PErr
          | _, _ => POk (VOther tv (xsd "integer"))
          end
      else
        match t with
        | TDecimal =>
          if has_nonzero_fraction st then POk (VOther tv (xsd "decimal"))
          else
            match parse_i64 tv with
            | inl z => POk (VLong z)
            | inr _ =>
              match parse_u64 tv with
              | inl z => POk (VULong z)
              | inr _ => POk (VOther tv (xsd "integer"))
              end
            end
        | _ => PErr
        end
  end.

(** any_datavalue.rs:286-310 *)
Definition new_from_decimal_type_literal (s : str) (t : decimal_type) : parsed :=
  match parse_i64 s with
  | inl z => from_decimal_typed_long z t
  | inr IEmpty => PErr
  | inr IInvalidDigit =>
    match t with TDecimal => parse_large_decimal_literal s t | _ => PErr end
  | inr (IPosOverflow | INegOverflow) => parse_large_decimal_literal s t
  end.

(** any_datavalue.rs:188-202: the macro parse_integer, with the bounds of the datatype. *)
Definition parse_integer (s : str) (lo hi : Z) : parsed :=
  match parse_i64 s with
  | inl z => if negb (in_bounds lo hi z) then PErr else POk (VLong z)
  | inr _ => PErr
  end.
Definition parse_integer_unbounded (s : str) : parsed :=
  match parse_i64 s with inl z => POk (VLong z) | inr _ => PErr end.

(** any_datavalue.rs:182-253 *)
Definition new_from_typed_literal (s dt : str) : parsed :=
  match strip_prefix xsd_prefix dt with
  | None => POk (VOther s dt)
  | Some n =>
    if str_eqb n (lit "string") then POk (VString s)
    else if str_eqb n (lit "long") then parse_integer_unbounded s
    else if str_eqb n (lit "int") then parse_integer s (- 2147483648) 2147483647
    else if str_eqb n (lit "short") then parse_integer s (- 32768) 32767
    else if str_eqb n (lit "byte") then parse_integer s (- 128) 127
    else if str_eqb n (lit "unsignedInt") then parse_integer s 0 4294967295
    else if str_eqb n (lit "unsignedShort") then parse_integer s 0 65535
    else if str_eqb n (lit "unsignedByte") then parse_integer s 0 255
    else if str_eqb n (lit "unsignedLong") then
      match parse_u64 s with
      | inl z => if in_bounds i64_lo i64_hi z then POk (VLong z) else POk (VULong z)
      | inr _ => PErr
      end
    else if str_eqb n (lit "decimal") then new_from_decimal_type_literal s TDecimal
    else if str_eqb n (lit "integer") then new_from_decimal_type_literal s TInteger
    else if str_eqb n (lit "positiveInteger") then new_from_decimal_type_literal s TPositiveInteger
    else if str_eqb n (lit "nonNegativeInteger") then new_from_decimal_type_literal s TNonNegativeInteger
    else if str_eqb n (lit "negativeInteger") then new_from_decimal_type_literal s TNegativeInteger
    else if str_eqb n (lit "nonPositiveInteger") then new_from_decimal_type_literal s TNonPositiveInteger
    else if str_eqb n (lit "double") then
      match f64_parse F s with Some f => POk (VDouble f) | None => PErr end
    else if str_eqb n (lit "boolean") then
      if str_eqb s (lit "true") || str_eqb s (lit "1") then POk (VBool true)
      else if str_eqb s (lit "false") || str_eqb s (lit "0") then POk (VBool false)
      else PErr
    else POk (VOther s dt)
  end.

(** ** Equality (any_datavalue.rs:688-715), hashing and order *)

(** integer_datavalues.rs:61-75 and 148-162; datavalue.rs:354-376: no other value fits. *)
Definition fits_i64 (v : dval) : bool :=
  match v with VLong _ => true | VULong z => z <=? i64_hi | _ => false end.
Definition fits_u64 (v : dval) : bool :=
  match v with VULong _ => true | VLong z => 0 <=? z | _ => false end.
Definition raw_int (v : dval) : Z := match v with VLong z | VULong z => z | _ => 0 end.

Definition dval_eqb (v w : dval) : bool :=
  match v, w with
  | VString a, VString b => str_eqb a b
  | VIri a, VIri b => str_eqb a b
  | VLang a t, VLang b u => str_eqb a b && str_eqb t u
  | VFloat a, VFloat b => f32_eqb F a b
  | VDouble a, VDouble b => f64_eqb F a b
  | VLong a, _ => fits_i64 w && (raw_int w =? a)
  | VULong a, _ => fits_u64 w && (raw_int w =? a)
  | VBool a, VBool b => Bool.eqb a b
  | VOther a t, VOther b u => str_eqb a b && str_eqb t u
  | _, _ => false
  end.

(** The bytes that are fed to the hasher: the value domain, then the contents. The hash of an i64 is that of the u64
    with the same bits (core::hash), here the number modulo 2^64. *)
Inductive hash_item := HDomain (d : domain) | HString (s : str) | HBits (z : Z) | HBool (b : bool).
Definition hash_input (v : dval) : list hash_item :=
  HDomain (value_domain v) ::
  match v with
  | VString s | VIri s => [HString s]
  | VLang s t => [HString s; HString t]
  | VFloat f => [HBits (f32_bits F f)]
  | VDouble f => [HBits (f64_bits F f)]
  | VULong z | VLong z => [HBits (z mod 2 ^ 64)]
  | VBool b => [HBool b]
  | VOther s t => [HString s; HString t]
  end.

(** datavalue.rs:155-192, 217-220 *)
Definition domain_position (d : domain) : Z :=
  match d with
  | DIri => 13
  | DPlainString => 20
  | DLang => 22
  | DOther => 24
  | DBoolean => 30
  | DFloat => 50
  | DDouble => 52
  | DLong => 100
  | DInt => 102
  | DNonNegativeInt => 104
  | DUnsignedInt => 106
  | DNonNegativeLong => 108
  | DUnsignedLong => 110
  end.

(** `cmp` of Rust strings is that of their UTF-8 bytes, which is the lexicographic order of their scalar values. *)
Fixpoint str_cmp (a b : str) : comparison :=
  match a, b with
  | [], [] => Eq
  | [], _ :: _ => Lt
  | _ :: _, [] => Gt
  | x :: a', y :: b' => match Z.compare x y with Eq => str_cmp a' b' | c => c end
  end.
Definition then_cmp (c d : comparison) : comparison := match c with Eq => d | _ => c end.
Definition bool_cmp (a b : bool) : comparison :=
  match a, b with false, true => Lt | true, false => Gt | _, _ => Eq end.

(** any_datavalue.rs:719-763; [None] is the `unreachable!` (and the panic of an unchecked conversion). *)
Definition dval_cmp (v w : dval) : option comparison :=
  match Z.compare (domain_position (value_domain v)) (domain_position (value_domain w)) with
  | Eq =>
    match v, w with
    | VString a, VString b => Some (str_cmp a b)
    | VIri a, VIri b => Some (str_cmp a b)
    | VLang a t, VLang b u => Some (then_cmp (str_cmp a b) (str_cmp t u))
    | VFloat a, VFloat b => Some (f32_cmp F a b)
    | VDouble a, VDouble b => Some (f64_cmp F a b)
    | VLong a, _ => if fits_i64 w then Some (Z.compare a (raw_int w)) else None
    | VULong a, _ => if fits_u64 w then Some (Z.compare a (raw_int w)) else None
    | VBool a, VBool b => Some (bool_cmp a b)
    | VOther a t, VOther b u => Some (then_cmp (str_cmp a b) (str_cmp t u))
    | _, _ => None
    end
  | c => Some c
  end.

End WithFloats.
Arguments VString {F}. Arguments VLang {F}. Arguments VIri {F}. Arguments VFloat {F}. Arguments VDouble {F}.
Arguments VULong {F}. Arguments VLong {F}. Arguments VBool {F}. Arguments VOther {F}.
Arguments POk {F}. Arguments PErr {F}. Arguments PPanic {F}.
Arguments value_domain {F}. Arguments datatype_iri {F}. Arguments lexical_value {F}.
Arguments dval_eqb {F}. Arguments dval_cmp {F}. Arguments hash_input {F}. Arguments raw_int {F}.
Arguments fits_i64 {F}. Arguments fits_u64 {F}.
Arguments parse_large_decimal_literal {F}. Arguments new_from_decimal_type_literal {F}. Arguments from_decimal_typed_long {F}.
Arguments new_from_typed_literal {F}. Arguments parse_integer {F}. Arguments parse_integer_unbounded {F}.
Arguments new_lang_string {F}.
