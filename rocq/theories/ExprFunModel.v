(* Model of the functions of the expression language that work on numbers, booleans and types:
   nemo-physical/src/function/definitions/{numeric,boolean,checktype,generic,casting}.rs, as an
   instance of the [language] of ExprModel.v.

   Integer operations are those of IntModel.v.  Floating point operations are arbitrary functions
   (record [float_ops]).  A panic of an integer operation (see IntProps.v) counts as "no value". *)

From Coq Require Import List ZArith Bool.
From Verif Require Import IntModel ExprModel.
Import ListNotations.

(* functions of one argument on numbers *)
Inductive num1 : Type := NAbs | NNeg | NSqrt | NSin | NCos | NTan | NRound | NCeil | NFloor.

(* numeric/float.rs and numeric/double.rs: None when the result is not finite *)
Record float_ops : Type := {
  F : Type;                              (* f32, finite or infinite but not NaN: datatypes/float.rs *)
  D : Type;                              (* f64: datatypes/double.rs *)
  feqb : F -> F -> bool; deqb : D -> D -> bool;
  f1 : num1 -> F -> option F; d1 : num1 -> D -> option D;
  f2 : op2 -> F -> F -> option F; d2 : op2 -> D -> D -> option D;
  fcmp : op2 -> F -> F -> bool; dcmp : op2 -> D -> D -> bool;
  fn_ : option opn -> list F -> option F;  (* None: the Lukasiewicz t-norm *)
  dn_ : option opn -> list D -> option D;
  d_of_z : Z -> D;                       (* `as f64` *)
  d_of_f : F -> D }.

Section Functions.
Context (O : float_ops).

(* AnyDataValue (datavalues/any_datavalue.rs:24-52), as far as these functions tell values apart.
   VInt: the integer domains other than UnsignedLong; VBig: UnsignedLong. *)
Inductive dvalue : Type :=
| VInt (z : Z) | VBig (z : Z) | VFloat (f : F O) | VDouble (d : D O)
| VBool (b : bool) | VStr (s : list nat) | VIri (s : list nat) | VLang (s t : list nat)
| VNull (n : nat) | VOther (l t : list nat).

Definition listnat_eqb (a b : list nat) : bool := if list_eq_dec Nat.eq_dec a b then true else false.

(* equality of data values *)
Definition dv_eqb (v w : dvalue) : bool :=
  match v, w with
  | VInt a, VInt b | VBig a, VBig b => Z.eqb a b
  | VFloat a, VFloat b => feqb O a b
  | VDouble a, VDouble b => deqb O a b
  | VBool a, VBool b => Bool.eqb a b
  | VStr a, VStr b | VIri a, VIri b => listnat_eqb a b
  | VLang a t, VLang b u | VOther a t, VOther b u => listnat_eqb a b && listnat_eqb t u
  | VNull a, VNull b => Nat.eqb a b
  | _, _ => false
  end.

Inductive numeric : Type := NI (z : Z) | NF (f : F O) | ND (d : D O).

(* NumericValue::from_any_datavalue (numeric.rs:59-82) *)
Definition from_any (v : dvalue) : option numeric :=
  match v with
  | VInt z => Some (NI z)
  | VFloat f => Some (NF f)
  | VDouble d => Some (ND d)
  | _ => None
  end.

(* convert_to_double (numeric.rs:85-95), same_type (numeric.rs:98-104) *)
Definition to_double (n : numeric) : D O :=
  match n with NI z => d_of_z O z | NF f => d_of_f O f | ND d => d end.
Definition same_type (a b : numeric) : bool :=
  match a, b with NI _, NI _ | NF _, NF _ | ND _, ND _ => true | _, _ => false end.

Inductive num_pair : Type := PI (a b : Z) | PF (a b : F O) | PD (a b : D O).

(* from_any_pair_cast (numeric.rs:201-225) *)
Definition pair_cast (v w : dvalue) : option num_pair :=
  match from_any v, from_any w with
  | Some a, Some b =>
      Some (match a, b with
            | NI x, NI y => PI x y
            | NF x, NF y => PF x y
            | ND x, ND y => PD x y
            | _, _ => PD (to_double a) (to_double b)
            end)
  | _, _ => None
  end.

Inductive num_list : Type := LI (l : list Z) | LF (l : list (F O)) | LD (l : list (D O)).

Fixpoint all_some {A} (l : list (option A)) : option (list A) :=
  match l with
  | [] => Some []
  | Some a :: l' => match all_some l' with Some r => Some (a :: r) | None => None end
  | None :: _ => None
  end.

Definition as_int (n : numeric) : option Z := match n with NI z => Some z | _ => None end.
Definition as_float (n : numeric) : option (F O) := match n with NF f => Some f | _ => None end.
Definition as_double (n : numeric) : option (D O) := match n with ND d => Some d | _ => None end.

(* collect_list_same_type (numeric.rs:239-260); never called with an empty list *)
Definition collect_same (l : list numeric) : option num_list :=
  match l with
  | [] => None
  | NI _ :: _ => option_map LI (all_some (map as_int l))
  | NF _ :: _ => option_map LF (all_some (map as_float l))
  | ND _ :: _ => option_map LD (all_some (map as_double l))
  end.

(* from_any_list (numeric.rs:263-274) *)
Definition list_same (vs : list dvalue) : option num_list :=
  match vs with
  | [] => None
  | _ => match all_some (map from_any vs) with Some l => collect_same l | None => None end
  end.

(* from_any_list_cast (numeric.rs:279-302) *)
Definition list_cast (vs : list dvalue) : option num_list :=
  match vs with
  | [] => None
  | _ =>
      match all_some (map from_any vs) with
      | Some (first :: rest) =>
          if forallb (fun n => same_type n first) (first :: rest)
          then collect_same (first :: rest)
          else collect_same (map (fun n => ND (to_double n)) (first :: rest))
      | _ => None
      end
  end.

Definition of_outcome (o : outcome) : option dvalue :=
  match o with Num z => Some (VInt z) | Truth b => Some (VBool b) | _ => None end.

Inductive fun1 : Type :=
| FNum (n : num1) | FNot | FIsInteger | FIsFloat | FIsDouble | FIsNumeric | FIsNull | FIsIri | FIsString
| FToIri.
Inductive fun2 : Type := FEquals | FUnequals | FNum2 (o : op2).
Inductive fun3 : Type := .
Inductive funn : Type := FConj | FDisj | FNumN (o : opn) | FLukasiewicz.

(* numeric.rs:670-896 *)
Definition num1_eval (n : num1) (v : dvalue) : option dvalue :=
  match from_any v with
  | Some (NI z) =>
      match n with
      | NAbs => of_outcome (run1 false Abs z)
      | NNeg => of_outcome (run1 false Neg z)
      | NSqrt => of_outcome (run1 false Sqrt z)
      | NSin | NCos | NTan => None
      | NRound | NCeil | NFloor => Some (VInt z)
      end
  | Some (NF f) => option_map VFloat (f1 O n f)
  | Some (ND d) => option_map VDouble (d1 O n d)
  | None => None
  end.

(* boolean.rs:82-101, checktype.rs, casting.rs:219-238 *)
Definition eval1 (f : fun1) (v : dvalue) : option dvalue :=
  match f with
  | FNum n => num1_eval n v
  | FNot => match v with VBool b => Some (VBool (negb b)) | _ => None end
  | FIsInteger => Some (VBool (match v with VInt _ => true | _ => false end))
  | FIsFloat => Some (VBool (match v with VFloat _ => true | _ => false end))
  | FIsDouble => Some (VBool (match v with VDouble _ => true | _ => false end))
  | FIsNumeric => Some (VBool (match v with VInt _ | VFloat _ | VDouble _ => true | _ => false end))
  | FIsNull => Some (VBool (match v with VNull _ => true | _ => false end))
  | FIsIri => Some (VBool (match v with VIri _ => true | _ => false end))
  | FIsString => Some (VBool (match v with VStr _ => true | _ => false end))
  | FToIri => match v with VStr s | VIri s => Some (VIri s) | _ => None end
  end.

Definition is_comparison (o : op2) : bool :=
  match o with Lt | Le | Gt | Ge => true | _ => false end.
Definition is_shift (o : op2) : bool := match o with Shl | Shr | Shru => true | _ => false end.

(* generic.rs:16-66, numeric.rs:312-665, 900-1036 *)
Definition eval2 (f : fun2) (v w : dvalue) : option dvalue :=
  match f with
  | FEquals => Some (VBool (dv_eqb v w))
  | FUnequals => Some (VBool (negb (dv_eqb v w)))
  | FNum2 o =>
      match pair_cast v w with
      | Some (PI a b) => of_outcome (run2 false o a b)
      | Some (PF a b) =>
          if is_shift o then None
          else if is_comparison o then Some (VBool (fcmp O o a b)) else option_map VFloat (f2 O o a b)
      | Some (PD a b) =>
          if is_shift o then None
          else if is_comparison o then Some (VBool (dcmp O o a b)) else option_map VDouble (d2 O o a b)
      | None => None
      end
  end.

Definition eval3 (f : fun3) (u v w : dvalue) : option dvalue := None.

Definition is_bitwise (o : opn) : bool := match o with And | Or | Xor => true | _ => false end.

(* boolean.rs:26-78, numeric.rs:434-500, 1047-1170 *)
Definition evaln (f : funn) (vs : list dvalue) : option dvalue :=
  let bools := all_some (map (fun v => match v with VBool b => Some b | _ => None end) vs) in
  match f with
  | FConj => option_map (fun l => VBool (forallb (fun b => b) l)) bools
  | FDisj => option_map (fun l => VBool (existsb (fun b => b) l)) bools
  | FNumN o =>
      if is_bitwise o then
        match list_same vs with Some (LI l) => of_outcome (runn false o l) | _ => None end
      else
        match list_cast vs with
        | Some (LI l) => of_outcome (runn false o l)
        | Some (LF l) => option_map VFloat (fn_ O (Some o) l)
        | Some (LD l) => option_map VDouble (dn_ O (Some o) l)
        | None => None
        end
  | FLukasiewicz =>
      match list_cast vs with
      | Some (LI _) | None => None
      | Some (LF l) => option_map VFloat (fn_ O None l)
      | Some (LD l) => option_map VDouble (dn_ O None l)
      end
  end.

Definition ids : types := types_union (types_single Id32) (types_single Id64).

Definition prop1 (f : fun1) : propagation :=
  match f with FNum _ => Preserve | _ => KnownOutput ids end.
Definition prop2 (f : fun2) : propagation :=
  match f with
  | FEquals | FUnequals => KnownOutput ids
  | FNum2 o =>
      if is_comparison o then KnownOutput ids
      else if is_shift o then KnownOutput (types_single Int64) else NumericUpcast
  end.
Definition prop3 (f : fun3) : propagation := Unknown.
Definition propn (f : funn) : propagation :=
  match f with
  | FConj | FDisj => KnownOutput ids
  | FNumN o => if is_bitwise o then KnownOutput (types_single Int64) else NumericUpcast
  | FLukasiewicz => NumericUpcast
  end.

(* AnyDataValue::to_storage_value_t_dict (any_datavalue.rs:510-546).  [small v]: the dictionary
   gave v an id below 2^32. *)
Definition storage_type (small : dvalue -> bool) (v : dvalue) : stype :=
  match v with
  | VInt _ => Int64
  | VFloat _ => SFloat
  | VDouble _ => SDouble
  | _ => if small v then Id32 else Id64
  end.

(* ValueDomain::storage_type (datavalue.rs:133-154) *)
Definition domain_storage (v : dvalue) : types :=
  match v with
  | VInt _ | VBig _ => types_single Int64
  | VFloat _ => types_single SFloat
  | VDouble _ => types_single SDouble
  | _ => ids
  end.

Definition nemo (small : dvalue -> bool) : language := {|
  val := dvalue; fn1 := fun1; fn2 := fun2; fn3 := fun3; fnn := funn;
  ev1 := eval1; ev2 := eval2; ev3 := eval3; evn := evaln;
  ty1 := prop1; ty2 := prop2; ty3 := prop3; tyn := propn;
  truth := fun v => match v with VBool b => Some b | _ => None end;
  of_bool := VBool; veqb := dv_eqb; conjunction := FConj;
  is_equals := fun f => match f with FEquals => true | _ => false end;
  stored_as := storage_type small; domain_types := domain_storage |}.

End Functions.

Arguments VInt {O}. Arguments VBig {O}. Arguments VFloat {O}. Arguments VDouble {O}.
Arguments VBool {O}. Arguments VStr {O}. Arguments VIri {O}. Arguments VLang {O}.
Arguments VNull {O}. Arguments VOther {O}. Arguments dv_eqb {O}. Arguments from_any {O}.
Arguments to_double {O}. Arguments same_type {O}. Arguments NI {O}. Arguments NF {O}. Arguments ND {O}.
Arguments PI {O}. Arguments PF {O}. Arguments PD {O}. Arguments LI {O}. Arguments LF {O}. Arguments LD {O}.
Arguments pair_cast {O}. Arguments list_cast {O}. Arguments list_same {O}. Arguments collect_same {O}.
Arguments eval1 {O}. Arguments eval2 {O}. Arguments eval3 {O}. Arguments evaln {O}.
Arguments num1_eval {O}. Arguments of_outcome {O}. Arguments as_int {O}. Arguments as_float {O}.
Arguments as_double {O}. Arguments storage_type {O}. Arguments domain_storage {O}. Arguments nemo {O}.
