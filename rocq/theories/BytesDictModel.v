(* Model of nemo-physical/src/dictionary/bytes_dictionary.rs (and of the constants of
   datavalue_dictionary.rs): a bijection between byte arrays and integers, whose arrays are stored in a
   shared buffer.

   Hash maps are association lists.  A look-up compares the key with the bytes in the buffer of every
   entry up to the first match; the real map only reads those with an equal hash.  Ids (usize, u32, u64)
   are [Z]. *)
From Coq Require Import List ZArith Bool Lia.
From Verif Require Import ColumnModel BufferModel.
Import ListNotations.
Local Open Scope Z_scope.

(* NONEXISTING_ID_MARK, KNOWN_ID_MARK, SMALL_KNOWN_ID_MARK (datavalue_dictionary.rs:11-28), on a 64bit
   platform; U32_MAX *)
Definition NONEXISTING_ID_MARK : Z := 2 ^ 64 - 1.
Definition KNOWN_ID_MARK : Z := 2 ^ 64 - 2.
Definition U32_MAX : Z := 2 ^ 32 - 1.
Definition SMALL_KNOWN_ID_MARK : Z := U32_MAX.
(* AddResult (datavalue_dictionary.rs:33-43), value (47-53) *)
Inductive add_result : Type := Fresh (id : Z) | Known (id : Z) | Rejected.
Definition result_value (r : add_result) : Z := match r with Fresh v => v | Known v => v | Rejected => NONEXISTING_ID_MARK end.

(* IdUtils (16-42) *)
Definition id_to_innerid (id : Z) : Z := if id <? SMALL_KNOWN_ID_MARK then id else id + 1.
Definition id32_to_id (id : Z) : Z := if id <? SMALL_KNOWN_ID_MARK then id else id - 1.
Definition id64_to_id (id : Z) : res Z := if id >? U32_MAX then Ok (id - 1) else Panicked.

(* BytesDictionary (48-54) *)
Record bytes_dict : Type := mk_bytes_dict {
  store : list Z;
  map_short : list (Z * Z);
  map_long : list (Z * Z);
  buffer_id : nat;
  has_known_mark : bool }.

(* Default (176-186) *)
Definition dict_new (b : buffer) : buffer * bytes_dict :=
  let (b, id) := init_buffer b in (b, mk_bytes_dict [] [] [] id false).

(* equality of byte slices *)
Fixpoint bytes_eqb (x y : bytes) : bool :=
  match x, y with [], [] => true | a :: x, c :: y => (a =? c) && bytes_eqb x y | _, _ => false end.

(* HashMap::get with a key that is compared to the bytes of the references (bytes_buffer.rs:381-389) *)
Fixpoint map_get (b : buffer) (m : list (Z * Z)) (key : bytes) : res (option Z) :=
  match m with
  | [] => Ok None
  | (r, id) :: m => bind (get_bytes b r) (fun x => if bytes_eqb x key then Ok (Some id) else map_get b m key)
  end.

(* bytes_to_id (70-84) *)
Definition bytes_to_id (b : buffer) (d : bytes_dict) (data : bytes) : res (option Z) :=
  bind (map_get b (map_short d) data) (fun found =>
  match found with
  | Some id => if id =? SMALL_KNOWN_ID_MARK then Ok (Some KNOWN_ID_MARK) else Ok (Some (id32_to_id id))
  | None =>
      match map_long d with
      | [] => Ok None
      | _ => bind (map_get b (map_long d) data) (fun found =>
             match found with Some id => bind (id64_to_id id) (fun id => Ok (Some id)) | None => Ok None end)
      end
  end).

(* id_to_bytes (88-90), knows_id (93-95), len (99-101) *)
Definition id_to_bytes (b : buffer) (d : bytes_dict) (id : Z) : res (option bytes) :=
  match nth_error (store d) (Z.to_nat id) with
  | Some r => bind (get_bytes b r) (fun x => Ok (Some x))
  | None => Ok None
  end.
Definition knows_id (d : bytes_dict) (id : Z) : bool := id <? lenz (store d).
Definition dict_len (d : bytes_dict) : Z := lenz (store d).

(* insert_bytes_inner (152-173) *)
Definition insert_bytes_inner (b : buffer) (d : bytes_dict) (data : bytes) (insert : bool) : res (buffer * bytes_dict * add_result) :=
  bind (push_bytes b (buffer_id d) data) (fun q =>
  let (b, sref) := q in
  if insert then
    let id := lenz (store d) in
    let inner_id := id_to_innerid id in
    let st := store d ++ [sref] in
    if inner_id <=? U32_MAX then Ok (b, mk_bytes_dict st ((sref, inner_id) :: map_short d) (map_long d) (buffer_id d) (has_known_mark d), Fresh id)
    else Ok (b, mk_bytes_dict st (map_short d) ((sref, inner_id) :: map_long d) (buffer_id d) (has_known_mark d), Fresh id)
  else Ok (b, mk_bytes_dict (store d) ((sref, SMALL_KNOWN_ID_MARK) :: map_short d) (map_long d) (buffer_id d) (has_known_mark d), Fresh KNOWN_ID_MARK)).
(* add_bytes_inner (132-145) *)
Definition add_bytes_inner (b : buffer) (d : bytes_dict) (data : bytes) (insert : bool) : res (buffer * bytes_dict * add_result) :=
  bind (map_get b (map_short d) data) (fun found =>
  match found with
  | Some id => if id =? SMALL_KNOWN_ID_MARK then Ok (b, d, Known KNOWN_ID_MARK) else Ok (b, d, Known (id32_to_id id))
  | None =>
      bind (map_get b (map_long d) data) (fun found =>
      match found with
      | Some id => bind (id64_to_id id) (fun id => Ok (b, d, Known id))
      | None => insert_bytes_inner b d data insert
      end)
  end).
(* add_bytes (63-65), mark_bytes (115-118) *)
Definition add_bytes (b : buffer) (d : bytes_dict) (data : bytes) := add_bytes_inner b d data true.
Definition mark_bytes (b : buffer) (d : bytes_dict) (data : bytes) :=
  add_bytes_inner b (mk_bytes_dict (store d) (map_short d) (map_long d) (buffer_id d) true) data false.
