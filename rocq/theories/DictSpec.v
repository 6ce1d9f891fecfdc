(* Specification for dictionaries of data values (C28). *)
From Coq Require Import List ZArith Bool.
From Verif Require Import ColumnModel BufferModel BytesDictModel DictModel.
Import ListNotations.
Local Open Scope Z_scope.

Definition U64 (n : Z) : Prop := 0 <= n < 2 ^ 64.
(* values that exist as a data value: the ranges of the numeric types, language tags in lower case,
   unsigned longs that are no longs *)
Inductive wf : datavalue -> Prop :=
| wf_string : forall s, wf (PlainString s)
| wf_lang : forall s tag, lowercase tag = tag -> wf (LangString s tag)
| wf_iri : forall s, wf (Iri s)
| wf_float : forall bits, 0 <= bits < 2 ^ 32 -> wf (FloatValue bits)
| wf_double : forall bits, U64 bits -> wf (DoubleValue bits)
| wf_long : forall n, - 2 ^ 63 <= n < 2 ^ 63 -> wf (LongValue n)
| wf_unsigned : forall n, 2 ^ 63 <= n < 2 ^ 64 -> wf (UnsignedLong n)
| wf_boolean : forall b, wf (BooleanValue b)
| wf_tuple : forall label elements, Forall wf elements -> wf (TupleValue label elements)
| wf_map : forall label entries, wf (MapValue label entries)
| wf_null : forall id, U64 id -> wf (NullValue id)
| wf_other : forall lexical datatype, wf (OtherValue lexical datatype).

(* values that are stored faithfully, and the other elements of tuples *)
Inductive supported : datavalue -> Prop :=
| sup_string : forall s, supported (PlainString s)
| sup_lang : forall s tag, lowercase tag = tag -> tag <> [] -> (Z.of_nat (length tag) <= 127 \/ (~ In 92 tag /\ ~ In 62 tag)) -> supported (LangString s tag)
| sup_iri : forall s, supported (Iri s)
| sup_boolean : forall b, supported (BooleanValue b)
| sup_other : forall lexical datatype, datatype <> XSD_BOOLEAN -> supported (OtherValue lexical datatype)
| sup_null : forall id, U64 id -> supported (NullValue id)
| sup_tuple : forall label elements, (label = None \/ elements <> []) -> Forall (fun e => supported e \/ number e) elements -> supported (TupleValue label elements)
with number : datavalue -> Prop :=
| num_float : forall bits, 0 <= bits < 2 ^ 32 -> finite32 bits = true -> number (FloatValue bits)
| num_double : forall bits, U64 bits -> finite64 bits = true -> number (DoubleValue bits)
| num_long : forall n, - 2 ^ 63 <= n < 2 ^ 63 -> number (LongValue n)
| num_unsigned : forall n, 2 ^ 63 <= n < 2 ^ 64 -> number (UnsignedLong n).

(* the nesting of tuples *)
Fixpoint depth (v : datavalue) : nat :=
  match v with TupleValue _ es => S (fold_right (fun e n => Nat.max (depth e) n) O es) | _ => O end.
(* the labels in a value *)
Fixpoint labels (v : datavalue) : list bytes :=
  match v with
  | TupleValue label es => (match label with Some l => [l] | None => [] end) ++ flat_map labels es
  | _ => []
  end.

(* The states a dictionary can be in, with the ids it has returned so far: any values were added and
   any nulls were made. *)
Inductive reached : meta -> list (datavalue * Z) -> Prop :=
| reached_new : reached meta_new []
| reached_add : forall D ids v D' r, reached D ids -> wf v -> add_datavalue D v = Ok (D', r) ->
    reached D' (match r with Rejected => ids | Fresh id | Known id => (v, id) :: ids end)
| reached_null : forall D ids D' v id, reached D ids -> fresh_null D = Ok (D', v, id) -> reached D' ((v, id) :: ids).

(* at most 2^63 ids are in use or reserved *)
Definition fits (D : meta) : Prop := Z.of_nat (length (dictblocks D)) <= 2 ^ 39.
(* the ids of the labels are 32bit numbers *)
Definition small_labels (D : meta) (v : datavalue) : Prop :=
  forall l id, In l (labels v) -> datavalue_to_id D (Iri l) = Ok (Some id) -> id < 2 ^ 32.

(* ---- when nothing fails ---- *)
(* no string with an empty language tag *)
Inductive tags_ok : datavalue -> Prop :=
| tags_lang : forall s tag, tag <> [] -> tags_ok (LangString s tag)
| tags_tuple : forall label es, Forall tags_ok es -> tags_ok (TupleValue label es)
| tags_other : forall v, (forall s tag, v <> LangString s tag) -> (forall label es, v <> TupleValue label es) -> tags_ok v.
(* the number of values in a value, including labels *)
Fixpoint nodes (v : datavalue) : Z :=
  match v with TupleValue _ es => 2 + fold_right (fun e n => nodes e + n) 0 es | _ => 1 end.
Definition entries (k : BytesDictSpec.known) : Z := Z.of_nat (length (BytesDictSpec.arrays k)).
(* there is room for n more values: at most 2^30 different prefixes of IRIs, datatypes and types of
   tuples, and 2^60 values of a kind *)
Definition room (D : meta) (n : Z) : Prop :=
  Forall (fun d => entries (frequent_dict d) + n <= 2 ^ 30 /\ entries (pairs d) + n <= 2 ^ 60) [iri_dict D; other_dict D; tuple_dict D] /\
  entries (string_dict D) + n <= 2 ^ 60 /\ entries (langstring_dict D) + n <= 2 ^ 60 /\ nulls D + n <= 2 ^ 60.
