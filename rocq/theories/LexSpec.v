(** Specification for C30 and C38: the XML Schema grammar and value of numeric literals, and what it means for a data
    value to stand for a number. Nothing here mentions the parser. *)
From Coq Require Import List ZArith Bool String.
From Verif Require Import LexModel.
Import ListNotations.
Open Scope Z_scope.
Open Scope list_scope.

(** [digits_value] of "0042" is 42. *)
Definition is_digit (c : Z) : Prop := 48 <= c <= 57.
Definition digits_value (ds : str) : Z := fold_left (fun a c => a * 10 + (c - 48)) ds 0.
Inductive sign : str -> Z -> Prop :=
| no_sign : sign [] 1
| plus_sign : sign [43] 1
| minus_sign : sign [45] (-1).

(** [+-]?[0-9]+ *)
Definition int_literal (s : str) (z : Z) : Prop :=
  exists sg sgn ds, s = sg ++ ds /\ sign sg sgn /\ ds <> [] /\ Forall is_digit ds /\ z = sgn * digits_value ds.

(** Optional sign, then digits with an optional point and further digits, or a point and digits: m / 10^k. *)
Definition dec_literal (s : str) (m k : Z) : Prop :=
  exists sg sgn ip fp, sign sg sgn /\ Forall is_digit ip /\ Forall is_digit fp /\ ip ++ fp <> [] /\
    (s = sg ++ ip /\ fp = [] \/ s = sg ++ ip ++ [46] ++ fp) /\
    m = sgn * digits_value (ip ++ fp) /\ k = Z.of_nat (List.length fp).

(** m1 / 10^k1 = m2 / 10^k2 *)
Definition same_number (m1 k1 m2 k2 : Z) : Prop := m1 * 10 ^ k2 = m2 * 10 ^ k1.

(** The data value stands for the number m / 10^k. *)
Definition denotes {F} (v : dval F) (m k : Z) : Prop :=
  match v with
  | VLong z | VULong z => same_number z 0 m k
  | VOther lex dt => (dt = xsd "integer" \/ dt = xsd "decimal") /\
                     exists m' k', dec_literal lex m' k' /\ same_number m' k' m k
  | _ => False
  end.

(** The value space of the integer datatypes of XML Schema. *)
Inductive integer_type : str -> (Z -> Prop) -> Prop :=
| it_integer : integer_type (xsd "integer") (fun _ => True)
| it_positive : integer_type (xsd "positiveInteger") (fun z => 0 < z)
| it_nonNegative : integer_type (xsd "nonNegativeInteger") (fun z => 0 <= z)
| it_negative : integer_type (xsd "negativeInteger") (fun z => z < 0)
| it_nonPositive : integer_type (xsd "nonPositiveInteger") (fun z => z <= 0)
| it_long : integer_type (xsd "long") (fun z => - 2 ^ 63 <= z < 2 ^ 63)
| it_int : integer_type (xsd "int") (fun z => - 2 ^ 31 <= z < 2 ^ 31)
| it_short : integer_type (xsd "short") (fun z => - 2 ^ 15 <= z < 2 ^ 15)
| it_byte : integer_type (xsd "byte") (fun z => - 2 ^ 7 <= z < 2 ^ 7)
| it_unsignedLong : integer_type (xsd "unsignedLong") (fun z => 0 <= z < 2 ^ 64)
| it_unsignedInt : integer_type (xsd "unsignedInt") (fun z => 0 <= z < 2 ^ 32)
| it_unsignedShort : integer_type (xsd "unsignedShort") (fun z => 0 <= z < 2 ^ 16)
| it_unsignedByte : integer_type (xsd "unsignedByte") (fun z => 0 <= z < 2 ^ 8).

(** The literal [s] of datatype [dt] is a number, m / 10^k. *)
Inductive numeric_literal (s dt : str) : Z -> Z -> Prop :=
| nl_integer : forall range z, integer_type dt range -> range z -> int_literal s z -> numeric_literal s dt z 0
| nl_decimal : forall m k, dt = xsd "decimal" -> dec_literal s m k -> numeric_literal s dt m k.

(** What Rust guarantees of f64: printing is exact, and comparison of finite numbers is a total order. *)
Record good_floats (F : float_ops) : Prop := {
  gf_print : forall x, f64_parse F (f64_print F x) = Some x;
  gf_refl64 : forall x, f64_eqb F x x = true;
  gf_sym64 : forall x y, f64_eqb F x y = f64_eqb F y x;
  gf_trans64 : forall x y z, f64_eqb F x y = true -> f64_eqb F y z = true -> f64_eqb F x z = true;
  gf_cmp64 : forall x y, f64_cmp F x y = Eq <-> f64_eqb F x y = true;
  gf_cmp_sym64 : forall x y, f64_cmp F y x = CompOpp (f64_cmp F x y);
  gf_cmp_trans64 : forall x y z, f64_cmp F x y = Lt -> f64_cmp F y z = Lt -> f64_cmp F x z = Lt;
  gf_cmp_eq64 : forall x y z, f64_eqb F x y = true -> f64_cmp F x z = f64_cmp F y z;
  gf_refl32 : forall x, f32_eqb F x x = true;
  gf_sym32 : forall x y, f32_eqb F x y = f32_eqb F y x;
  gf_trans32 : forall x y z, f32_eqb F x y = true -> f32_eqb F y z = true -> f32_eqb F x z = true;
  gf_cmp32 : forall x y, f32_cmp F x y = Eq <-> f32_eqb F x y = true;
  gf_cmp_sym32 : forall x y, f32_cmp F y x = CompOpp (f32_cmp F x y);
  gf_cmp_trans32 : forall x y z, f32_cmp F x y = Lt -> f32_cmp F y z = Lt -> f32_cmp F x z = Lt;
  gf_cmp_eq32 : forall x y z, f32_eqb F x y = true -> f32_cmp F x z = f32_cmp F y z }.

(** The integers that a Rust i64 or u64 can be. *)
Definition valid {F} (v : dval F) : Prop :=
  match v with
  | VLong z => - 2 ^ 63 <= z < 2 ^ 63
  | VULong z => 0 <= z < 2 ^ 64
  | _ => True
  end.
Definition is_float {F} (v : dval F) : Prop := match v with VFloat _ | VDouble _ => True | _ => False end.
Definition is_lang {F} (v : dval F) : Prop := match v with VLang _ _ => True | _ => False end.
