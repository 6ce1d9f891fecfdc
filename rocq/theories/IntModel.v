(* Model of nemo-physical/src/function/definitions/numeric/integer64.rs: the operations of the
   expression language on 64-bit integers.

   i64 values are [Z] in the range [i64_min, i64_max].  The [debug] flag says whether the crate was
   compiled with overflow checks (debug profile) or without (release profile): unchecked Rust
   operators (`abs`, `<<`, `>>`) panic in the former and wrap / mask in the latter. *)

From Coq Require Import ZArith List Bool.
Import ListNotations.
Open Scope Z_scope.

Definition i64_min : Z := - 2 ^ 63.
Definition i64_max : Z := 2 ^ 63 - 1.

(* The test done by every `checked_*` function of the Rust standard library. *)
Definition fits (z : Z) : bool := (i64_min <=? z) && (z <=? i64_max).

(* Two's complement wrap-around: the i64 whose 64 bits are the low 64 bits of z. *)
Definition wrap64 (z : Z) : Z :=
  let r := z mod 2 ^ 64 in
  if r <=? i64_max then r else r - 2 ^ 64.

(* What a function call can do: return a number or a boolean (Some), return None, panic, or - an
   artefact of this model - run out of fuel in a loop. *)
Inductive outcome : Type :=
| Num (z : Z)
| Truth (b : bool)
| Undef
| Panic
| OutOfFuel.

Definition checked (z : Z) : option Z := if fits z then Some z else None.

Definition some_num (o : option Z) : outcome :=
  match o with Some z => Num z | None => Undef end.

(* integer64.rs:12-19 *)
Definition addition (a b : Z) : outcome := some_num (checked (a + b)).

(* integer64.rs:24-31 *)
Definition subtraction (a b : Z) : outcome := some_num (checked (a - b)).

(* integer64.rs:36-43 *)
Definition multiplication (a b : Z) : outcome := some_num (checked (a * b)).

(* integer64.rs:48-55; i64::checked_div is None for a zero divisor and for MIN / -1, and truncates
   towards zero (Z.quot). *)
Definition division (a b : Z) : outcome :=
  if b =? 0 then Undef else some_num (checked (Z.quot a b)).

(* integer64.rs:60-62: `i64::abs` overflows for MIN: panics with overflow checks, returns MIN
   without. *)
Definition absolute (debug : bool) (a : Z) : outcome :=
  if a =? i64_min then (if debug then Panic else Num i64_min)
  else Num (Z.abs a).

(* integer64.rs:65-67 *)
Definition negation (a : Z) : outcome := some_num (checked (- a)).

(* integer64.rs:72-78; num::integer::Roots::sqrt is modelled by Z.sqrt. *)
Definition squareroot (a : Z) : outcome :=
  if a <? 0 then Undef else Num (Z.sqrt a).

(* The loop of core's `checked_ilog`: `while r <= self / base { n += 1; r *= base; }`. *)
Fixpoint ilog_loop (fuel : nat) (value base n r : Z) : outcome :=
  match fuel with
  | O => OutOfFuel
  | S fuel' =>
      if r <=? value / base then ilog_loop fuel' value base (n + 1) (r * base)
      else Num n
  end.

(* core's `checked_ilog` on a positive value. *)
Definition ilog (value base : Z) : outcome :=
  if value <? base then Num 0 else ilog_loop 64 value base 1 base.

(* integer64.rs:84-90 *)
Definition logarithm (value base : Z) : outcome :=
  if (value <=? 0) || (base <? 2) then Undef else ilog value base.

(* num_traits::checked_pow, first loop: `while exp & 1 == 0 { base = base.checked_mul(&base)?;
   exp >>= 1; }` *)
Inductive pow_state : Type :=
| PowNone
| PowFuel
| PowGo (base exp : Z).

Fixpoint pow_loop1 (fuel : nat) (base exp : Z) : pow_state :=
  match fuel with
  | O => PowFuel
  | S fuel' =>
      if Z.even exp then
        match checked (base * base) with
        | None => PowNone
        | Some base' => pow_loop1 fuel' base' (exp / 2)
        end
      else PowGo base exp
  end.

(* num_traits::checked_pow, second loop: `while exp > 1 { exp >>= 1; base = base.checked_mul(&base)?;
   if exp & 1 == 1 { acc = acc.checked_mul(&base)?; } }` *)
Fixpoint pow_loop2 (fuel : nat) (base exp acc : Z) : outcome :=
  match fuel with
  | O => OutOfFuel
  | S fuel' =>
      if exp >? 1 then
        let exp' := exp / 2 in
        match checked (base * base) with
        | None => Undef
        | Some base' =>
            if Z.odd exp' then
              match checked (acc * base') with
              | None => Undef
              | Some acc' => pow_loop2 fuel' base' exp' acc'
              end
            else pow_loop2 fuel' base' exp' acc
        end
      else Num acc
  end.

Definition checked_pow (base exp : Z) : outcome :=
  if exp =? 0 then Num 1
  else
    match pow_loop1 64 base exp with
    | PowNone => Undef
    | PowFuel => OutOfFuel
    | PowGo base' exp' =>
        if exp' =? 1 then Num base' else pow_loop2 64 base' exp' base'
    end.

(* integer64.rs:96-105; the exponent is converted to usize (64 bit), which cannot fail for a
   non-negative i64. *)
Definition power (base exponent : Z) : outcome :=
  if exponent <? 0 then Undef else checked_pow base exponent.

(* integer64.rs:113-124: the `%` operator; Rust always panics for MIN % -1, with or without
   overflow checks. *)
Definition remainder (a b : Z) : outcome :=
  if b =? 0 then Undef
  else if (a =? i64_min) && (b =? -1) then Panic
  else Num (Z.rem a b).

(* integer64.rs:127-136 *)
Definition lessthan (a b : Z) : outcome := Truth (a <? b).
(* integer64.rs:139-148 *)
Definition lessthaneq (a b : Z) : outcome := Truth (a <=? b).
(* integer64.rs:151-160 *)
Definition greaterthan (a b : Z) : outcome := Truth (a >? b).
(* integer64.rs:163-172 *)
Definition greaterthaneq (a b : Z) : outcome := Truth (a >=? b).

(* integer64.rs:177-185 *)
Definition bitwise_and (l : list Z) : outcome := Num (fold_left Z.land l i64_max).
(* integer64.rs:190-198 *)
Definition bitwise_or (l : list Z) : outcome := Num (fold_left Z.lor l 0).
(* integer64.rs:203-211 *)
Definition bitwise_xor (l : list Z) : outcome := Num (fold_left Z.lxor l 0).

(* The shift amount used by `<<` and `>>`: None stands for the overflow panic. *)
Definition shift_amount (debug : bool) (base : Z) : option Z :=
  if base <? 64 then Some base
  else if debug then None
  else Some (base mod 64).

(* integer64.rs:216-222 *)
Definition bitwise_shl (debug : bool) (value base : Z) : outcome :=
  if base <? 0 then Undef
  else match shift_amount debug base with
       | None => Panic
       | Some s => Num (wrap64 (value * 2 ^ s))
       end.

(* integer64.rs:229-235 *)
Definition bitwise_shr (debug : bool) (value base : Z) : outcome :=
  if base <? 0 then Undef
  else match shift_amount debug base with
       | None => Panic
       | Some s => Num (value / 2 ^ s)
       end.

(* integer64.rs:242-259: arithmetic shift for positive values, shift of the unsigned
   reinterpretation otherwise *)
Definition bitwise_shru (debug : bool) (value base : Z) : outcome :=
  if base <? 0 then Undef
  else match shift_amount debug base with
       | None => Panic
       | Some s =>
           if value >? 0 then Num (value / 2 ^ s)
           else Num (wrap64 ((value mod 2 ^ 64) / 2 ^ s))
       end.

(* integer64.rs:265-273 *)
Fixpoint sum_loop (l : list Z) (acc : Z) : option Z :=
  match l with
  | [] => Some acc
  | x :: l' => match checked (acc + x) with None => None | Some acc' => sum_loop l' acc' end
  end.
Definition sum (l : list Z) : outcome := some_num (sum_loop l 0).

(* integer64.rs:279-287 *)
Fixpoint product_loop (l : list Z) (acc : Z) : option Z :=
  match l with
  | [] => Some acc
  | x :: l' =>
      match checked (acc * x) with None => None | Some acc' => product_loop l' acc' end
  end.
Definition product (l : list Z) : outcome := some_num (product_loop l 1).

(* Iterator::min / Iterator::max over i64. *)
(* integer64.rs:292-297 *)
Definition minimum (l : list Z) : outcome :=
  match l with [] => Undef | x :: l' => Num (fold_left Z.min l' x) end.
(* integer64.rs:302-307 *)
Definition maximum (l : list Z) : outcome :=
  match l with [] => Undef | x :: l' => Num (fold_left Z.max l' x) end.

(* The operations by arity, as the NumericPair::Integer / NumericValue::Integer /
   NumericList::Integer branches of numeric.rs dispatch to them (numeric.rs:319-1170). *)
Inductive op1 : Type := Abs | Neg | Sqrt.
Inductive op2 : Type :=
| Add | Sub | Mul | Div | Rem | Pow | Log
| Lt | Le | Gt | Ge | Shl | Shr | Shru.
Inductive opn : Type := And | Or | Xor | Sum | Product | Minimum | Maximum.

Definition run1 (debug : bool) (f : op1) (a : Z) : outcome :=
  match f with
  | Abs => absolute debug a
  | Neg => negation a
  | Sqrt => squareroot a
  end.

Definition run2 (debug : bool) (f : op2) (a b : Z) : outcome :=
  match f with
  | Add => addition a b
  | Sub => subtraction a b
  | Mul => multiplication a b
  | Div => division a b
  | Rem => remainder a b
  | Pow => power a b
  | Log => logarithm a b
  | Lt => lessthan a b
  | Le => lessthaneq a b
  | Gt => greaterthan a b
  | Ge => greaterthaneq a b
  | Shl => bitwise_shl debug a b
  | Shr => bitwise_shr debug a b
  | Shru => bitwise_shru debug a b
  end.

(* NumericList::from_any_list[_cast] returns None for an empty parameter list (numeric.rs:263-266,
   281-284), so that the functions above are only called with at least one parameter;
   for an empty list the result is None. *)
Definition runn (debug : bool) (f : opn) (l : list Z) : outcome :=
  match l with
  | [] => Undef
  | _ =>
      match f with
      | And => bitwise_and l
      | Or => bitwise_or l
      | Xor => bitwise_xor l
      | Sum => sum l
      | Product => product l
      | Minimum => minimum l
      | Maximum => maximum l
      end
  end.
