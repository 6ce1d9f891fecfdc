(** Specification of number literals: the value of a numeral. *)
From Coq Require Import String List Arith ZArith QArith Bool Ascii.
From Verif Require Import ParseModel ParseSpec NumLitModel.
Import ListNotations.
Local Open Scope Z_scope.
Local Open Scope list_scope.

(** The value of a digit is its place in this list. *)
Definition digit_of (c : ascii) (d : Z) : Prop :=
  0 <= d /\ (nth_error (list_ascii_of_string "0123456789abcdef") (Z.to_nat d) = Some c \/
             nth_error (list_ascii_of_string "0123456789ABCDEF") (Z.to_nat d) = Some c).
(** A numeral: one more digit multiplies by the base. *)
Inductive numeral (base : Z) : text -> Z -> Prop :=
| n_nil : numeral base [] 0
| n_digit t z c d : numeral base t z -> digit_of c d -> d < base -> numeral base (t ++ [c]) (z * base + d).
Definition negative (n : number) : bool := match nu_sign n with Some true => true | _ => false end.
Definition signed (neg : bool) (z : Z) : Z := if neg then - z else z.
(** The value of a literal without its sign: (integer + fraction / 10^digits) * 10^exponent *)
Definition absolute_value (n : number) (q : Q) : Prop :=
  exists i f e, numeral 10 (nu_int n) i /\
    match nu_frac n with Some t => numeral 10 t f | None => f = 0 end /\
    match nu_exp n with Some (s, t) => exists x, numeral 10 t x /\ e = signed (match s with Some b => b | None => false end) x | None => e = 0 end /\
    (q == (inject_Z i + inject_Z f / inject_Z (10 ^ Z.of_nat (match nu_frac n with Some t => List.length t | None => 0%nat end))) * inject_Z 10 ^ e)%Q.
(** A literal is an integer if it has no fraction and no exponent. *)
Definition plain (n : number) : Prop := nu_frac n = None /\ nu_exp n = None.
Definition fits_i64 (z : Z) : Prop := - 2 ^ 63 <= z < 2 ^ 63.
