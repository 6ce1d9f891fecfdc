(** Model of number literals: nemo/src/parser/ast/expression/basic/{number,enc_number}.rs and
    nemo/src/rule_model/translation/basic/{number,enc_number}.rs. No proofs here.
    Simplified: a floating point value is given by its sign and the exact decimal it is the nearest value of; only whether
    this overflows is decided here. The rounding itself is that of Rust's library. *)
From Coq Require Import List Arith ZArith QArith Bool Ascii.
From Verif Require Import ParseModel.
Import ListNotations.
Local Open Scope Z_scope.
Local Open Scope list_scope.

(** number.rs:96-116: the sign is always written *)
Definition sign_print (s : option bool) : text := match s with Some true => ["-"%char] | _ => ["+"%char] end.
Definition number_string (n : number) : text :=
  (sign_print (nu_sign n) ++ nu_int n) ++
  match nu_frac n with Some f => "."%char :: f | None => [] end ++
  match nu_exp n with Some (s, e) => "e"%char :: sign_print s ++ e | None => [] end.

(** ** Rust's library *)
Definition i64_min : Z := - 2 ^ 63.
Definition i64_max : Z := 2 ^ 63 - 1.
Definition in_i64 (z : Z) : bool := (i64_min <=? z) && (z <=? i64_max).
Definition checked (z : Z) : option Z := if in_i64 z then Some z else None.
(** char::to_digit *)
Definition to_digit (radix : Z) (c : ascii) : option Z :=
  let v := if between "0" "9" c then Some (Z.of_nat (nat_of_ascii c) - 48)
           else if between "a" "z" c then Some (Z.of_nat (nat_of_ascii c) - 87)
           else if between "A" "Z" c then Some (Z.of_nat (nat_of_ascii c) - 55)
           else None in
  match v with Some d => if d <? radix then Some d else None | None => None end.
(** core::num from_str_radix: multiply and add (or subtract, for negative numbers), checked *)
Fixpoint accumulate (radix : Z) (negative : bool) (acc : Z) (t : text) : option Z :=
  match t with
  | [] => Some acc
  | c :: r =>
      match to_digit radix c, checked (acc * radix) with
      | Some d, Some m => match checked (if negative then m - d else m + d) with
                          | Some x => accumulate radix negative x r
                          | None => None
                          end
      | _, _ => None
      end
  end.
Definition i64_from_str_radix (radix : Z) (t : text) : option Z :=
  match t with
  | [] => None
  | "+"%char :: [] | "-"%char :: [] => None
  | "+"%char :: r => accumulate radix false 0 r
  | "-"%char :: r => accumulate radix true 0 r
  | r => accumulate radix false 0 r
  end.
(** BigInt::from_str_radix on digits *)
Fixpoint big (radix : Z) (acc : Z) (t : text) : option Z :=
  match t with
  | [] => Some acc
  | c :: r => match to_digit radix c with Some d => big radix (acc * radix + d) r | None => None end
  end.
(** floating point values *)
Inductive float_value := Nearest (negative : bool) (q : Q) | Infinite (negative : bool).
Definition is_finite (f : float_value) : bool := match f with Nearest _ _ => true | Infinite _ => false end.
(** the smallest numbers that are rounded to infinity *)
Definition overflow64 : Q := inject_Z (2 ^ 1024 - 2 ^ 970).
Definition overflow32 : Q := inject_Z (2 ^ 128 - 2 ^ 103).
Definition digits_value (t : text) : Z := fold_left (fun acc c => acc * 10 + (Z.of_nat (nat_of_ascii c) - 48)) t 0.
(** the decimal of a text of digits, a point and an exponent, without its sign *)
Definition decimal (n : number) : Q :=
  let f := match nu_frac n with Some f => f | None => [] end in
  let e := match nu_exp n with Some (Some true, e) => - digits_value e | Some (_, e) => digits_value e | None => 0 end in
  inject_Z (digits_value (nu_int n ++ f)) * (inject_Z 10 ^ (e - Z.of_nat (List.length f))).
(** str::parse for f32 and f64, on the texts of numbers: accepts every decimal *)
Definition parse_float (limit : Q) (t : text) : option float_value :=
  match parse_number t with
  | Ok n [] => let neg := match nu_sign n with Some true => true | _ => false end in
               Some (if Qle_bool limit (decimal n) then Infinite neg else Nearest neg (decimal n))
  | _ => None
  end.

(** ** Values *)
(** number.rs:73-83 *)
Inductive number_value := NInteger (z : Z) | NFloat (f : float_value) | NDouble (f : float_value) | NLarge (t : text).
(** number.rs:118-143 *)
Definition value (n : number) : number_value :=
  let s := number_string n in
  match i64_from_str_radix 10 s with
  | Some z => NInteger z
  | None =>
      match (match nu_mark n with Some false => parse_float overflow32 s | _ => None end) with
      | Some f => NFloat f
      | None => match parse_float overflow64 s with
                | Some f => NDouble f
                | None => match parse_float overflow32 s with Some f => NFloat f | None => NLarge s end
                end
      end
  end.
(** translation/basic/number.rs:21-60. [None]: panic *)
Inductive data := DInteger (z : Z) | DFloat (f : float_value) | DDouble (f : float_value) | DOther (lexical : text) | DBig (z : Z).
Definition literal (n : number) : option data :=
  match value n with
  | NInteger z => Some (DInteger z)
  | NFloat f => if is_finite f then Some (DFloat f) else None
  | NDouble f => if is_finite f then Some (DDouble f) else None
  | NLarge t => Some (DOther t)
  end.

(** ** Encoded numbers *)
Inductive encoding := Binary | Octal | Hexadecimal.
(** enc_number.rs:40-49 *)
Definition radix (e : encoding) : Z := match e with Binary => 2 | Octal => 8 | Hexadecimal => 16 end.
(** enc_number.rs:92-110, translation/basic/enc_number.rs. [DBig]: a value of datatype "xsd:integer", written in decimal *)
Definition encoded_literal (e : encoding) (suffix : text) : data :=
  match i64_from_str_radix (radix e) suffix with
  | Some z => DInteger z
  | None => match big (radix e) 0 suffix with Some z => DBig z | None => DOther suffix end
  end.
(** enc_number.rs:72-90, token.rs:530-574: the text of an encoded number *)
Definition parse_encoded : parser (encoding * text) :=
  alt (fun i => bind (tag ["0"; "b"]%char i) (fun _ r => bind (take_while1 (fun c => (c =? "0") || (c =? "1"))%char r) (fun d r => Ok (Binary, d) r)))
  (alt (fun i => bind (tag ["0"; "o"]%char i) (fun _ r => bind (take_while1 (between "0" "7") r) (fun d r => Ok (Octal, d) r)))
  (fun i => bind (tag ["0"; "x"]%char i) (fun _ r => bind (take_while1 (fun c => between "0" "9" c || between "a" "f" c || between "A" "F" c) r) (fun d r => Ok (Hexadecimal, d) r)))).
