(* Specification of dictionaries of byte arrays: a list of different arrays, whose ids are their
   positions, and a list of marked arrays, which have no id. *)
From Coq Require Import List ZArith Bool.
From Verif Require Import ColumnModel BufferModel BytesDictModel.
From Verif Require BufferSpec.
Import ListNotations.
Local Open Scope Z_scope.

Record known : Type := mk_known { arrays : list bytes; marks : list bytes }.
Definition nothing : known := mk_known [] [].

Fixpoint position (x : bytes) (l : list bytes) : option nat :=
  match l with [] => None | y :: l => if list_eq_dec Z.eq_dec y x then Some O else option_map S (position x l) end.
(* the id of an array: the special mark for marked arrays *)
Definition lookup (k : known) (x : bytes) : option Z :=
  if in_dec (list_eq_dec Z.eq_dec) x (marks k) then Some KNOWN_ID_MARK else option_map Z.of_nat (position x (arrays k)).
Definition array_at (k : known) (id : Z) : option bytes := nth_error (arrays k) (Z.to_nat id).
Definition spec_add (k : known) (x : bytes) : known * add_result :=
  match lookup k x with
  | Some id => (k, Known id)
  | None => (mk_known (arrays k ++ [x]) (marks k), Fresh (Z.of_nat (length (arrays k))))
  end.
Definition spec_mark (k : known) (x : bytes) : known * add_result :=
  match lookup k x with
  | Some id => (k, Known id)
  | None => (mk_known (arrays k) (x :: marks k), Fresh KNOWN_ID_MARK)
  end.

(* calls of a dictionary and their results *)
Inductive event : Type := Added (x : bytes) (r : add_result) | Marked (x : bytes) (r : add_result).
Definition event_array (e : event) : bytes := match e with Added x _ => x | Marked x _ => x end.
Inductive follows : list event -> known -> Prop :=
| follows_none : follows [] nothing
| follows_add : forall ev k x k' r, follows ev k -> spec_add k x = (k', r) -> follows (ev ++ [Added x r]) k'
| follows_mark : forall ev k x k' r, follows ev k -> spec_mark k x = (k', r) -> follows (ev ++ [Marked x r]) k'.

(* A dictionary in a buffer it shares with others: anything may happen to the buffer with handles
   other than the one of the dictionary. *)
Inductive shared : buffer -> list nat -> bytes_dict -> list event -> Prop :=
| shared_new : forall b live stored b' d, BufferSpec.history b live stored -> dict_new b = (b', d) -> shared b' (buffer_id d :: live) d []
| shared_init : forall b live d ev b' i, shared b live d ev -> init_buffer b = (b', i) -> shared b' (i :: live) d ev
| shared_push : forall b live d ev buf data b' r, shared b live d ev -> In buf live -> buf <> buffer_id d -> push_bytes b buf data = Ok (b', r) -> shared b' live d ev
| shared_drop : forall b live d ev buf, shared b live d ev -> In buf live -> buf <> buffer_id d ->
    shared (drop_buffer b buf) (filter (fun i => negb (Nat.eqb i buf)) live) d ev
| shared_add : forall b live d ev x b' d' r, shared b live d ev -> add_bytes b d x = Ok (b', d', r) -> shared b' live d' (ev ++ [Added x r])
| shared_mark : forall b live d ev x b' d' r, shared b live d ev -> mark_bytes b d x = Ok (b', d', r) -> shared b' live d' (ev ++ [Marked x r]).
