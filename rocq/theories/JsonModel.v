(** Model of the import of JSON: nemo/src/io/formats/json/reader.rs:58-171. No proofs here.
    The text is parsed by the crate serde_json, which is not modelled: the model starts with its [Value]. The writer of
    tuples (datasources/tuple_writer.rs) is modelled by the list of the triples that are written, in this order; no
    filter patterns. Object ids are not bounded by the size of u64. *)
From Coq Require Import List String ZArith.
Import ListNotations.
Local Open Scope list_scope.
Local Open Scope Z_scope.

Section Json.
(** The finite floating point numbers *)
Variable float : Type.
(** serde_json::Number: an integer that fits into i64 or u64, or a floating point number *)
Inductive number := NInt (z : Z) | NFloat (f : float).
(** serde_json::Value; the members of an object in the order of the iteration over serde_json::Map *)
Inductive json :=
| JNull
| JBool (b : bool)
| JNum (n : number)
| JString (s : string)
| JArray (l : list json)
| JObject (l : list (string * json)).
(** The data values that occur: integers (new_integer_from_i64 and new_integer_from_u64 give the same value for the same
    number), doubles, plain strings, truth values and IRIs *)
Inductive dv := DInt (z : Z) | DDouble (f : float) | DString (s : string) | DBool (b : bool) | DIri (s : string).
Definition triple := (dv * dv * dv)%type.

(** reader.rs:71-72 *)
Definition type_iri : dv := DIri "type".
Definition value_iri : dv := DIri "value".
(** reader.rs:107-117 *)
Definition number_value (n : number) : dv := match n with NInt z => DInt z | NFloat f => DDouble f end.
(** The loops of reader.rs:137-144 and 152-160, over the elements with the second value of the triple: the triples that
    are written, the next [max_object_id], and what is pushed, in the order of the loop *)
Fixpoint children (id : Z) (max : Z) (l : list (dv * json)) : list triple * Z * list (Z * json) :=
  match l with
  | [] => ([], max, [])
  | (k, e) :: l =>
      let max := max + 1 in
      let '(t, m, p) := children id max l in
      ((DInt id, k, DInt max) :: t, m, (max, e) :: p)
  end.
(** [enumerate], reader.rs:137 *)
Fixpoint enumerate (i : Z) (l : list json) : list (dv * json) :=
  match l with [] => [] | e :: l => (DInt i, e) :: enumerate (i + 1) l end.
Definition members (l : list (string * json)) : list (dv * json) := map (fun p => (DString (fst p), snd p)) l.
(** The body of the loop, reader.rs:77-163 *)
Definition visit (id : Z) (max : Z) (v : json) : list triple * Z * list (Z * json) :=
  match v with
  | JNull => ([(DInt id, type_iri, DString "null")], max, [])
  | JBool b => ([(DInt id, type_iri, DString "bool"); (DInt id, value_iri, DBool b)], max, [])
  | JNum n => ([(DInt id, type_iri, DString "number"); (DInt id, value_iri, number_value n)], max, [])
  | JString s => ([(DInt id, type_iri, DString "string"); (DInt id, value_iri, DString s)], max, [])
  | JArray l => let '(t, m, p) := children id max (enumerate 0 l) in ((DInt id, type_iri, DString "array") :: t, m, p)
  | JObject l => let '(t, m, p) := children id max (members l) in ((DInt id, type_iri, DString "object") :: t, m, p)
  end.
(** The loop, reader.rs:74-164. The head of the list is the top of the stack. [None]: not enough fuel. *)
Fixpoint run (fuel : nat) (stack : list (Z * json)) (max : Z) : option (list triple) :=
  match stack with
  | [] => Some []
  | (id, v) :: stack =>
      match fuel with
      | O => None
      | S fuel => let '(t, m, p) := visit id max v in option_map (app t) (run fuel (rev p ++ stack) m)
      end
  end.
(** The number of values in a document, for the fuel *)
Fixpoint size (v : json) : nat :=
  S (match v with
     | JArray l => fold_right (fun e n => size e + n)%nat O l
     | JObject l => fold_right (fun p n => size (snd p) + n)%nat O l
     | _ => O
     end).
(** reader.rs:58-167 *)
Definition read_json (v : json) : option (list triple) := run (size v) [(0, v)] 0.
End Json.
Arguments JNull {float}. Arguments JBool {float}. Arguments JNum {float}. Arguments JString {float}. Arguments JArray {float}. Arguments JObject {float}.
Arguments NInt {float}. Arguments NFloat {float}. Arguments DInt {float}. Arguments DDouble {float}. Arguments DString {float}. Arguments DBool {float}. Arguments DIri {float}.
Arguments type_iri {float}. Arguments value_iri {float}. Arguments number_value {float}. Arguments children {float}. Arguments enumerate {float}. Arguments members {float}.
Arguments visit {float}. Arguments run {float}. Arguments size {float}. Arguments read_json {float}.
