(** Specification of the import of JSON: what triples say about a document. Only the types of the model are used. *)
From Coq Require Import List String ZArith.
From Verif Require Import JsonModel.
Import ListNotations.
Local Open Scope list_scope.
Local Open Scope Z_scope.

Section Spec.
Context {float : Type}.
Notation json := (json float).
Notation dv := (dv float).
Notation triple := (triple float).

(** The triples of a node have this type, and otherwise only the given attributes. *)
Definition typed (D : list triple) (id : Z) (ty : string) (attribute : dv -> Prop) : Prop :=
  In (DInt id, DIri "type", DString ty) D /\
  forall a x, In (DInt id, a, x) D -> a = DIri "type" \/ attribute a.
Definition scalar (D : list triple) (id : Z) (ty : string) (x : dv) : Prop :=
  typed D id ty (fun a => a = DIri "value") /\ In (DInt id, DIri "value", x) D.
(** The triples describe a value at a node: its type, its content, and nodes for its elements, which are the values of
    their positions (from zero) or keys; and nothing else. *)
Inductive describes (D : list triple) : Z -> json -> Prop :=
| d_null id : typed D id "null" (fun _ => False) -> describes D id JNull
| d_bool id b : scalar D id "bool" (DBool b) -> describes D id (JBool b)
| d_int id z : scalar D id "number" (DInt z) -> describes D id (JNum (NInt z))
| d_float id f : scalar D id "number" (DDouble f) -> describes D id (JNum (NFloat f))
| d_string id s : scalar D id "string" (DString s) -> describes D id (JString s)
| d_array id l :
    typed D id "array" (fun a => exists i e, nth_error l i = Some e /\ a = DInt (Z.of_nat i)) ->
    (forall i e, nth_error l i = Some e -> exists c, In (DInt id, DInt (Z.of_nat i), DInt c) D /\ describes D c e) ->
    describes D id (JArray l)
| d_object id l :
    typed D id "object" (fun a => exists k e, In (k, e) l /\ a = DString k) ->
    (forall k e, In (k, e) l -> exists c, In (DInt id, DString k, DInt c) D /\ describes D c e) ->
    describes D id (JObject l).

(** Every attribute of a node has one value. *)
Definition functional (D : list triple) : Prop := forall n a x y, In (n, a, x) D -> In (n, a, y) D -> x = y.
(** An element (a position or a key) of a node *)
Definition edge (D : list triple) (n a c : dv) : Prop := In (n, a, c) D /\ a <> DIri "type" /\ a <> DIri "value".

(** Documents whose objects have different keys (serde_json::Map) *)
Inductive proper : json -> Prop :=
| p_null : proper JNull
| p_bool b : proper (JBool b)
| p_num n : proper (JNum n)
| p_string s : proper (JString s)
| p_array l : (forall e, In e l -> proper e) -> proper (JArray l)
| p_object l : NoDup (map fst l) -> (forall k e, In (k, e) l -> proper e) -> proper (JObject l).

(** The same document, up to the order of the members of objects *)
Inductive same : json -> json -> Prop :=
| s_null : same JNull JNull
| s_bool b : same (JBool b) (JBool b)
| s_num n : same (JNum n) (JNum n)
| s_string s : same (JString s) (JString s)
| s_array l l' : List.length l = List.length l' ->
    (forall i e e', nth_error l i = Some e -> nth_error l' i = Some e' -> same e e') -> same (JArray l) (JArray l')
| s_object l l' : (forall k, In k (map fst l) <-> In k (map fst l')) ->
    (forall k e e', In (k, e) l -> In (k, e') l' -> same e e') -> same (JObject l) (JObject l').
End Spec.
