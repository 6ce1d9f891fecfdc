(* Specification of casts. *)
From Coq Require Import List ZArith Bool String.
From Verif Require Import LexModel LexSpec TextModel CastModel.
Import ListNotations.
Open Scope Z_scope.
Open Scope list_scope.

(* the value of a digit: 0-9, then the letters *)
Inductive digit_of : Z -> Z -> Prop :=
| numeral : forall c, 48 <= c <= 57 -> digit_of c (c - 48)
| small_letter : forall c, 97 <= c <= 122 -> digit_of c (c - 87)
| capital_letter : forall c, 65 <= c <= 90 -> digit_of c (c - 55).
(* the value of digits in a positional system *)
Definition positional (radix : Z) (ds : list Z) : Z := fold_left (fun a d => a * radix + d) ds 0.
(* a sign and at least one digit *)
Definition radix_literal (radix : Z) (s : str) (z : Z) : Prop :=
  exists sg sgn cs ds, s = sg ++ cs /\ sign sg sgn /\ cs <> [] /\ Forall2 (fun c d => digit_of c d /\ d < radix) cs ds /\ z = sgn * positional radix ds.
(* The integers that can be written: decimal, or after a prefix in another system. *)
Inductive integer_text (s : str) (z : Z) : Prop :=
| decimal_text : int_literal s z -> integer_text s z
| binary_text : forall r, s = lit "0b" ++ r -> radix_literal 2 r z -> integer_text s z
| octal_text : forall r, s = lit "0o" ++ r -> radix_literal 8 r z -> integer_text s z
| hexadecimal_text : forall r, s = lit "0x" ++ r -> radix_literal 16 r z -> integer_text s z.
(* Strings of at least three characters, whose second and third byte belong to the same character. *)
Definition cut_inside (s : str) : Prop :=
  exists a b c r, s = a :: b :: c :: r /\ (2048 <= a \/ a < 128 /\ 128 <= b).
Definition string_like {F} (v : dval F) (s : str) : Prop := v = VString s \/ exists dt, v = VOther s dt.

(* What is assumed of floating-point numbers. *)
Record good_casts {F} (C : float_casts F) : Prop := {
  gc_widen : forall x, exists y, f32_to_f64 F C x = Some y;
  gc_double : forall z, - 2 ^ 63 <= z < 2 ^ 64 -> exists y, f64_of_int F C z = Some y;
  gc_float : forall z, - 2 ^ 63 <= z < 2 ^ 64 -> exists y, f32_of_int F C z = Some y;
  gc_exact64 : forall z, - 2 ^ 53 <= z <= 2 ^ 53 -> exists y, f64_of_int F C z = Some y /\ f64_integer F C y = Some z;
  gc_exact32 : forall z, - 2 ^ 24 <= z <= 2 ^ 24 -> exists y, f32_of_int F C z = Some y /\ f32_integer F C y = Some z }.
