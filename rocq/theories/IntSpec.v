(* What the integer operations of the expression language are supposed to compute, written in
   terms of mathematical integers only (no model definition is used except the names of the
   operations). *)

From Coq Require Import ZArith List Bool.
From Verif Require Import IntModel.
Import ListNotations.
Open Scope Z_scope.

(* the integers a 64-bit signed integer can hold *)
Definition in_range (z : Z) : Prop := - 2 ^ 63 <= z < 2 ^ 63.

Inductive answer : Type :=
| Number (z : Z)
| Boolean (b : bool).

Definition representable (v : answer) : Prop :=
  match v with Number z => in_range z | Boolean _ => True end.

(* z is the 64-bit number with the same low 64 bits as x *)
Definition same_low_bits (x z : Z) : Prop := in_range z /\ exists k, x = z + k * 2 ^ 64.

(* [means1 f a v]: v is the correct value of the unary operation f on a *)
Definition means1 (f : op1) (a : Z) (v : answer) : Prop :=
  match f, v with
  | Abs, Number z => (0 <= a -> z = a) /\ (a < 0 -> z = - a)
  | Neg, Number z => a + z = 0
  | Sqrt, Number z => 0 <= z /\ z * z <= a < (z + 1) * (z + 1)
  | _, _ => False
  end.

Definition means2 (f : op2) (a b : Z) (v : answer) : Prop :=
  match f, v with
  | Add, Number z => z = a + b
  | Sub, Number z => z + b = a
  | Mul, Number z => z = a * b
  (* quotient rounded towards zero *)
  | Div, Number z => exists r, a = b * z + r /\ Z.abs r < Z.abs b /\ 0 <= r * a
  (* remainder of the division rounded towards zero *)
  | Rem, Number z => exists q, a = b * q + z /\ Z.abs z < Z.abs b /\ 0 <= z * a
  | Pow, Number z => 0 <= b /\ z = a ^ b
  (* logarithm of a to base b, rounded down *)
  | Log, Number z => 2 <= b /\ 0 <= z /\ b ^ z <= a < b ^ (z + 1)
  | Shl, Number z => 0 <= b /\ same_low_bits (a * 2 ^ b) z
  | Shr, Number z => 0 <= b /\ z * 2 ^ b <= a < (z + 1) * 2 ^ b
  (* a read as an unsigned number u, shifted, and read as signed again *)
  | Shru, Number z =>
      0 <= b /\
      exists u w, 0 <= u < 2 ^ 64 /\ (exists k, a = u + k * 2 ^ 64) /\
                  w * 2 ^ b <= u < (w + 1) * 2 ^ b /\ same_low_bits w z
  | Lt, Boolean t => t = true <-> a < b
  | Le, Boolean t => t = true <-> a <= b
  | Gt, Boolean t => t = true <-> b < a
  | Ge, Boolean t => t = true <-> b <= a
  | _, _ => False
  end.

(* bit i of the xor: the number of list elements having that bit is odd *)
Definition odd_ones (l : list Z) (i : Z) : bool :=
  Nat.odd (length (filter (fun x => Z.testbit x i) l)).

Definition total (l : list Z) : Z := fold_right Z.add 0 l.
Definition total_product (l : list Z) : Z := fold_right Z.mul 1 l.

Definition meansn (f : opn) (l : list Z) (v : answer) : Prop :=
  match f, v with
  | And, Number z => forall i, 0 <= i ->
      (Z.testbit z i = true <-> forall x, In x l -> Z.testbit x i = true)
  | Or, Number z => forall i, 0 <= i ->
      (Z.testbit z i = true <-> exists x, In x l /\ Z.testbit x i = true)
  | Xor, Number z => forall i, 0 <= i -> Z.testbit z i = odd_ones l i
  | Sum, Number z => z = total l
  | Product, Number z => z = total_product l
  | Minimum, Number z => In z l /\ forall x, In x l -> z <= x
  | Maximum, Number z => In z l /\ forall x, In x l -> x <= z
  | _, _ => False
  end.

(* n-ary operations are undefined without arguments; sums and products are also undefined when
   an intermediate result is too large *)
Definition may_be_undefined (f : opn) (l : list Z) : Prop :=
  l = [] \/
  match f with
  | Sum => exists p s, l = p ++ s /\ ~ in_range (total p)
  | Product => exists p s, l = p ++ s /\ ~ in_range (total_product p)
  | _ => False
  end.

(* the inputs for which the code does not do what it should *)
Definition exceptional1 (f : op1) (a : Z) : Prop :=
  f = Abs /\ a = - 2 ^ 63.

Definition exceptional2 (f : op2) (a b : Z) : Prop :=
  match f with
  | Rem => a = - 2 ^ 63 /\ b = -1
  | Shl | Shr | Shru => 64 <= b
  | _ => False
  end.

Definition exceptionaln (f : opn) (l : list Z) : Prop :=
  f = And /\ forall x, In x l -> x < 0.
