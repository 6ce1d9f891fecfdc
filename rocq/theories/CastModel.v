(* Model of nemo-physical/src/function/definitions/casting.rs, checktype.rs, boolean.rs and of LexicalValue, Equals and
   Unequals in generic.rs.  Values are those of LexModel.v (without nulls, tuples and maps).  Operations on
   floating-point numbers are taken from the environment. *)
From Coq Require Import List ZArith Bool String.
From Verif Require Import LexModel TextModel.
Import ListNotations.
Open Scope Z_scope.
Open Scope list_scope.

(* char::to_digit *)
Definition to_digit (radix c : Z) : option Z :=
  let d := if (48 <=? c) && (c <=? 57) then c - 48
           else if (97 <=? c) && (c <=? 122) then c - 87
           else if (65 <=? c) && (c <=? 90) then c - 55
           else 36 in
  if d <? radix then Some d else None.
(* i64::from_str_radix: the digits after the sign, with checked arithmetic (up is false for negative numbers) *)
Fixpoint radix_digits (radix : Z) (up : bool) (acc : Z) (s : str) : option Z :=
  match s with
  | [] => Some acc
  | c :: s' =>
      match to_digit radix c with
      | None => None
      | Some d =>
          let m := acc * radix in
          let n := if up then m + d else m - d in
          if in_bounds i64_lo i64_hi m && in_bounds i64_lo i64_hi n then radix_digits radix up n s' else None
      end
  end.
Definition parse_radix (radix : Z) (s : str) : option Z :=
  match s with
  | [] => None
  | c :: s' =>
      if (c =? 43) || (c =? 45) then
        match s' with [] => None | _ => radix_digits radix (c =? 43) 0 s' end
      else radix_digits radix true 0 s
  end.

(* a slice [0..n] and the rest [n..]; n has to be a boundary between characters, otherwise there is a panic *)
Fixpoint split_bytes (n : nat) (s : str) : option (str * str) :=
  match n, s with
  | O, _ => Some ([], s)
  | S _, [] => None
  | S _, c :: s' =>
      if (List.length (utf8_char c) <=? n)%nat then option_map (fun x => (c :: fst x, snd x)) (split_bytes (n - List.length (utf8_char c)) s') else None
  end.

(* Conversions of finite floating-point numbers.  _integer: the number, if it has no fractional part.  The others
   return None if the result is not finite. *)
Record float_casts (F : float_ops) : Type := {
  f64_integer : f64 F -> option Z; f32_integer : f32 F -> option Z;
  f64_to_f32 : f64 F -> option (f32 F); f32_to_f64 : f32 F -> option (f64 F);
  f64_of_int : Z -> option (f64 F); f32_of_int : Z -> option (f32 F); f32_parse : str -> option (f32 F) }.

Section Casts.
Context {F : float_ops} (C : float_casts F).
Notation value := (dval F).

(* "as i64" on a number without fractional part *)
Definition as_i64 (z : Z) : Z := Z.max i64_lo (Z.min z i64_hi).
(* CastingIntoInteger64 (26-93) *)
Definition int_of_string (s : str) : fres value :=
  let decimal := fmap VLong (match parse_i64 s with inl z => Value z | inr _ => Undefined end) in
  if (3 <=? List.length s)%nat then
    match split_bytes 2 s with
    | None => Panic
    | Some (prefix, rest) =>
        if str_eqb prefix (lit "0b") then fmap VLong (of_option (parse_radix 2 rest))
        else if str_eqb prefix (lit "0o") then fmap VLong (of_option (parse_radix 8 rest))
        else if str_eqb prefix (lit "0x") then fmap VLong (of_option (parse_radix 16 rest))
        else decimal
    end
  else decimal.
Definition int_of_number (n : option Z) : fres value := match n with Some z => Value (VLong (as_i64 z)) | None => Undefined end.
Definition cast_integer (v : value) : fres value :=
  match v with
  | VLang _ _ | VIri _ => Undefined
  | VString _ | VOther _ _ => int_of_string (lexical_value v)
  | VFloat f => int_of_number (f32_integer F C f)
  | VDouble f => int_of_number (f64_integer F C f)
  | VBool b => Value (VLong (if b then 1 else 0))
  | VLong _ | VULong _ => match value_domain v with DUnsignedLong => Undefined | _ => Value v end
  end.
(* expect("resulting float must be finite") *)
Definition expect {A} (o : option A) : fres A := match o with Some a => Value a | None => Panic end.
(* CastingIntoFloat (110-158) *)
Definition cast_float (v : value) : fres value :=
  match v with
  | VLang _ _ | VIri _ | VBool _ => Undefined
  | VString _ | VOther _ _ => fmap VFloat (of_option (f32_parse F C (lexical_value v)))
  | VFloat _ => Value v
  | VDouble f => fmap VFloat (expect (f64_to_f32 F C f))
  | VLong z | VULong z => fmap VFloat (expect (f32_of_int F C z))
  end.
(* CastingIntoDouble (175-223) *)
Definition cast_double (v : value) : fres value :=
  match v with
  | VLang _ _ | VIri _ | VBool _ => Undefined
  | VString _ | VOther _ _ => fmap VDouble (of_option (f64_parse F (lexical_value v)))
  | VDouble _ => Value v
  | VFloat f => fmap VDouble (expect (f32_to_f64 F C f))
  | VLong z | VULong z => fmap VDouble (expect (f64_of_int F C z))
  end.
(* CastingIntoIri (231-248) *)
Definition cast_iri (v : value) : fres value := match v with VString s | VIri s => Value (VIri s) | _ => Undefined end.

(* checktype.rs: to_i64, to_f32, to_f64, to_iri, to_plain_string is_some *)
Definition check_integer (v : value) : bool := fits_i64 v.
Definition check_float (v : value) : bool := match v with VFloat _ => true | _ => false end.
Definition check_double (v : value) : bool := match v with VDouble _ => true | _ => false end.
Definition check_numeric (v : value) : bool := check_integer v || check_float v || check_double v.
Definition check_iri (v : value) : bool := match v with VIri _ => true | _ => false end.
Definition check_string (v : value) : bool := match v with VString _ => true | _ => false end.

(* boolean.rs *)
Definition to_boolean (v : value) : option bool := match v with VBool b => Some b | _ => None end.
Fixpoint bool_list (vs : list value) : option (list bool) :=
  match vs with
  | [] => Some []
  | v :: vs' => match to_boolean v, bool_list vs' with Some b, Some l => Some (b :: l) | _, _ => None end
  end.
Definition conjunction (vs : list value) : fres value := match bool_list vs with Some l => Value (VBool (forallb (fun b => b) l)) | None => Undefined end.
Definition disjunction (vs : list value) : fres value := match bool_list vs with Some l => Value (VBool (existsb (fun b => b) l)) | None => Undefined end.
Definition negation (v : value) : fres value := match to_boolean v with Some b => Value (VBool (negb b)) | None => Undefined end.

(* generic.rs: LexicalValue (100-119), Equals and Unequals *)
Definition str_function (v : value) : fres value := Value (VString match v with VLang s _ => s | _ => lexical_value v end).
Definition equals (v w : value) : fres value := Value (VBool (if dval_eqb v w then true else false)).
Definition unequals (v w : value) : fres value := Value (VBool (if dval_eqb v w then false else true)).
End Casts.
