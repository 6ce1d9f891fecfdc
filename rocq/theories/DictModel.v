(* Model of the dictionary of data values: nemo-physical/src/dictionary/ranked_pair_dictionary.rs,
   string_dv_dict.rs, string_langstring_dv_dict.rs, ranked_pair_dv_dict.rs, ranked_pair_iri_dv_dict.rs,
   ranked_pair_other_dv_dict.rs, null_dv_dict.rs, tuple_dv_dict.rs and meta_dv_dict.rs.

   A BytesDictionary is represented by the list of its arrays and answers as specified in BytesDictSpec
   (the refinement is C28_bytes; the limits on the length of an array and on the number of pages are
   left out here).  Nothing is ever marked in the dictionaries used by MetaDvDictionary, so marking is
   left out of pairs and values.  Strings are their UTF-8 bytes: the characters that are searched for
   are all ASCII.  Positions of a table that hold usize::MAX ("not allocated") are [None].  Recursion
   of id_to_datavalue through tuples runs on fuel. *)
From Coq Require Import List ZArith Bool Lia Ascii String.
From Verif Require Import ColumnModel BufferModel BytesDictModel BytesDictSpec.
Import ListNotations.
Local Notation length := List.length.
Local Open Scope Z_scope.
Local Open Scope list_scope.

(* ---------- pairs of byte arrays: ranked_pair_dictionary.rs ---------- *)

(* byte i of a number, counted from the right: to_be_bytes()[USIZE_BYTES - 1 - i] *)
Definition byte_at (n : Z) (i : Z) : Z := Z.land (Z.shiftr n (8 * i)) 255.
(* the last k bytes of to_be_bytes; from_be_bytes *)
Fixpoint be_bytes (k : nat) (n : Z) : bytes := match k with O => [] | S k => byte_at n (Z.of_nat k) :: be_bytes k n end.
Definition from_be (bs : bytes) : Z := fold_left (fun acc x => acc * 256 + x) bs 0.

(* MAX_ID_1B .. MAX_ID_4B, masks (19-38) *)
Definition MAX_ID_1B : Z := Z.shiftl 1 6.
Definition MAX_ID_2B : Z := Z.shiftl 1 (6 + 8).
Definition MAX_ID_3B : Z := Z.shiftl 1 (6 + 8 + 8).
Definition MAX_ID_4B : Z := Z.shiftl 1 (6 + 8 + 8 + 8).
Definition FTYPE_BIT_MASK : Z := 192.
Definition FID_BIT_MASK : Z := 63.

Definition or_first (m : Z) (bs : bytes) : bytes := match bs with [] => [] | x :: bs => Z.lor x m :: bs end.
(* pair_bytes (145-181) *)
Definition pair_bytes (fid : Z) (rare : bytes) : res bytes :=
  if fid <? MAX_ID_1B then Ok (be_bytes 1 fid ++ rare)
  else if fid <? MAX_ID_2B then Ok (or_first 64 (be_bytes 2 fid) ++ rare)
  else if fid <? MAX_ID_3B then Ok (or_first 128 (be_bytes 3 fid) ++ rare)
  else if fid <? MAX_ID_4B then Ok (or_first 192 (be_bytes 4 fid) ++ rare)
  else Panicked.

(* the frequent id and the rare part (225-265): slices beyond the end of the array panic *)
Definition take (n : nat) (bs : bytes) : res (bytes * bytes) := if (n <=? length bs)%nat then Ok (firstn n bs, skipn n bs) else Panicked.
Definition split_pair (bs : bytes) : res (Z * bytes) :=
  bind (index bs 0) (fun first =>
  let n := if Z.land first FTYPE_BIT_MASK =? 0 then 1%nat else if Z.land first FTYPE_BIT_MASK =? 64 then 2%nat else if Z.land first FTYPE_BIT_MASK =? 128 then 3%nat else 4%nat in
  bind (take n bs) (fun q =>
  match fst q with
  | x :: rest => Ok (from_be ((if (n =? 1)%nat then x else Z.land x FID_BIT_MASK) :: rest), snd q)
  | [] => Panicked
  end)).

(* LruArray (45-49): the id usize::MAX is NONEXISTING_ID_MARK *)
Record lru : Type := mk_lru { cache : list (bytes * Z); top : nat; lru_len : nat }.
(* new (51-57) *)
Definition lru_new (capacity : nat) : lru := mk_lru (repeat ([0], NONEXISTING_ID_MARK) capacity) 0 capacity.
(* put (63-68) *)
Definition lru_put (l : lru) (data : bytes) (id : Z) : lru :=
  let t := ((top l + 1) mod lru_len l)%nat in mk_lru (set_nth (cache l) t (data, id)) t (lru_len l).
(* get (74-101): the loops run over the indexes i with start <= i < end *)
Definition range (s e : nat) : list nat := seq s (e - s).
Definition swap {A} (l : list A) (i j : nat) : list A :=
  match nth_error l i, nth_error l j with Some a, Some c => set_nth (set_nth l i c) j a | _, _ => l end.
Definition lru_get (l : lru) (data : bytes) : lru * Z :=
  let hit := find (fun i => match nth_error (cache l) (i mod lru_len l)%nat with Some e => bytes_eqb data (fst e) | None => false end) (range (top l + lru_len l) (top l)) in
  match hit with
  | None => (l, NONEXISTING_ID_MARK)
  | Some i =>
      let idx := (i mod lru_len l)%nat in
      let l' :=
        if (idx =? (top l + 1) mod lru_len l)%nat then mk_lru (cache l) ((top l + 1) mod lru_len l)%nat (lru_len l)
        else if (idx =? top l)%nat then l
        else mk_lru (fold_left (fun c k => swap c (k mod lru_len l)%nat ((k + 1) mod lru_len l)%nat) (range idx (top l + lru_len l)) (cache l)) (top l) (lru_len l) in
      (l', match nth_error (cache l') (top l') with Some e => snd e | None => NONEXISTING_ID_MARK end)
  end.

(* GenericRankedPairDictionary (127-131), Default (324-332) *)
Record pair_dict : Type := mk_pair_dict { frequent_dict : known; pairs : known; recent_array : lru }.
Definition pair_dict_new : pair_dict := mk_pair_dict nothing nothing (lru_new 3).
(* add_pair (194-210) *)
Definition add_pair (d : pair_dict) (frequent rare : bytes) : res (pair_dict * add_result) :=
  let '(recent, fid) := lru_get (recent_array d) frequent in
  let '(fdict, recent, fid) :=
    if fid =? NONEXISTING_ID_MARK then
      let '(fdict, r) := spec_add (frequent_dict d) frequent in
      (fdict, lru_put recent frequent (result_value r), result_value r)
    else (frequent_dict d, recent, fid) in
  bind (pair_bytes fid rare) (fun pb =>
  let '(pdict, r) := spec_add (pairs d) pb in
  Ok (mk_pair_dict fdict pdict recent, r)).
(* pair_to_id (215-218) *)
Definition pair_to_id (d : pair_dict) (frequent rare : bytes) : res (option Z) :=
  match lookup (frequent_dict d) frequent with
  | Some fid => bind (pair_bytes fid rare) (fun pb => Ok (lookup (pairs d) pb))
  | None => Ok None
  end.
(* id_to_pair (223-268) *)
Definition id_to_pair (d : pair_dict) (id : Z) : res (option (bytes * bytes)) :=
  match array_at (pairs d) id with
  | None => Ok None
  | Some pb =>
      bind (split_pair pb) (fun q =>
      match array_at (frequent_dict d) (fst q) with Some frequent => Ok (Some (frequent, snd q)) | None => Panicked end)
  end.

(* ---------- data values ---------- *)

Fixpoint of_string (s : string) : bytes := match s with EmptyString => [] | String c s => Z.of_nat (nat_of_ascii c) :: of_string s end.
Definition XSD_BOOLEAN : bytes := of_string "http://www.w3.org/2001/XMLSchema#boolean".
Definition XSD_UNSIGNED_LONG : bytes := of_string "http://www.w3.org/2001/XMLSchema#unsignedLong".

(* AnyDataValue (any_datavalue.rs:50-82): floats are given by their bits *)
Inductive datavalue : Type :=
| PlainString (s : bytes)
| LangString (s tag : bytes)
| Iri (s : bytes)
| FloatValue (bits : Z)
| DoubleValue (bits : Z)
| LongValue (n : Z)
| UnsignedLong (n : Z)
| BooleanValue (b : bool)
| TupleValue (label : option bytes) (elements : list datavalue)
| MapValue (label : option bytes) (entries : list (datavalue * datavalue))
| NullValue (id : Z)
| OtherValue (lexical datatype : bytes).

Definition I64_MAX : Z := 2 ^ 63 - 1.
(* the decimal digits of a number (u64::to_string) *)
Fixpoint digits (fuel : nat) (n : Z) (acc : bytes) : bytes :=
  match fuel with O => acc | S fuel => let acc := (48 + n mod 10) :: acc in if n <? 10 then acc else digits fuel (n / 10) acc end.
Definition decimal (n : Z) : bytes := digits 20 n [].

(* ---------- sub-dictionaries ---------- *)

(* to_ascii_lowercase, in LangStringDataValue::new (lang_string_datavalue.rs:17-19) *)
Definition lowercase (s : bytes) : bytes := map (fun c => if (65 <=? c) && (c <=? 90) then c + 32 else c) s.
Definition BACKSLASH : Z := 92. Definition GREATER : Z := 62.
(* two_strings_to_one (string_dv_dict.rs:29-53) *)
Definition escape (s : bytes) : bytes :=
  flat_map (fun c => if c =? GREATER then [BACKSLASH; 97] else [c]) (flat_map (fun c => if c =? BACKSLASH then [BACKSLASH; BACKSLASH] else [c]) s).
Definition two_strings_to_one (string1 string2 : bytes) : res bytes :=
  match string2 with
  | [] => Panicked
  | _ => if lenz string2 <=? 127 then Ok (lenz string2 :: string2 ++ string1) else Ok (0 :: escape string2 ++ [GREATER] ++ string1)
  end.
(* one_string_to_two (57-84) *)
Fixpoint split_at_greater (s : bytes) : option (bytes * bytes) :=
  match s with [] => None | c :: s => if c =? GREATER then Some ([], s) else option_map (fun q => (c :: fst q, snd q)) (split_at_greater s) end.
Definition one_string_to_two (s : bytes) : option (bytes * bytes) :=
  match s with
  | [] => None
  | marker :: rest =>
      if marker >? 0 then if lenz rest <? marker then None else Some (skipn (Z.to_nat marker) rest, firstn (Z.to_nat marker) rest)
      else option_map (fun q => (snd q, fst q)) (split_at_greater rest)
  end.

(* IriDvPairConverter::rfind_hashslash_plus (ranked_pair_iri_dv_dict.rs:17-27): the position after the last
   slash or hash, 0 if there is none; dict_pair (32-47) *)
Fixpoint rfind_hashslash_plus (s : bytes) : nat :=
  match s with
  | [] => O
  | c :: s => match rfind_hashslash_plus s with O => if (c =? 47) || (c =? 35) then 1%nat else O | S n => S (S n) end
  end.
Definition iri_pair (s : bytes) : bytes * bytes := (firstn (rfind_hashslash_plus s) s, skipn (rfind_hashslash_plus s) s).
(* OtherDvPairConverter (ranked_pair_other_dv_dict.rs:18-39) *)
Definition other_pair (v : datavalue) : option (bytes * bytes) :=
  match v with
  | OtherValue lex dt => Some (dt, lex)
  | BooleanValue b => Some (XSD_BOOLEAN, of_string (if b then "true" else "false"))
  | UnsignedLong n => if n >? I64_MAX then Some (XSD_UNSIGNED_LONG, decimal n) else None
  | _ => None
  end.
Definition pair_to_other (frequent rare : bytes) : datavalue :=
  if bytes_eqb frequent XSD_BOOLEAN then BooleanValue (bytes_eqb rare (of_string "true")) else OtherValue rare frequent.

(* ---------- MetaDvDictionary ---------- *)

(* The dictionaries made by Default (meta_dv_dict.rs:185-190), in this order, are numbered from 0. *)
Definition IRI_DICT : nat := 0. Definition STRING_DICT : nat := 1. Definition LANGSTRING_DICT : nat := 2.
Definition OTHER_DICT : nat := 3. Definition NULL_DICT : nat := 4. Definition TUPLE_DICT : nat := 5.
(* MetaDvDictionary (132-166): dictblocks gives the dictionary and local block of a global block,
   gblocks the global blocks of the local blocks of each dictionary.  nulls is the start of the unused
   null ids (null_dv_dict.rs:17-19). *)
Record meta : Type := mk_meta {
  iri_dict : pair_dict; string_dict : known; langstring_dict : known; other_dict : pair_dict; nulls : Z; tuple_dict : pair_dict;
  gblocks : list (list (option nat)); dictblocks : list (option (nat * nat)) }.
Definition meta_new : meta := mk_meta pair_dict_new nothing nothing pair_dict_new 0 pair_dict_new (repeat [] 6) [].

Definition with_iri (D : meta) x := mk_meta x (string_dict D) (langstring_dict D) (other_dict D) (nulls D) (tuple_dict D) (gblocks D) (dictblocks D).
Definition with_string (D : meta) x := mk_meta (iri_dict D) x (langstring_dict D) (other_dict D) (nulls D) (tuple_dict D) (gblocks D) (dictblocks D).
Definition with_langstring (D : meta) x := mk_meta (iri_dict D) (string_dict D) x (other_dict D) (nulls D) (tuple_dict D) (gblocks D) (dictblocks D).
Definition with_other (D : meta) x := mk_meta (iri_dict D) (string_dict D) (langstring_dict D) x (nulls D) (tuple_dict D) (gblocks D) (dictblocks D).
Definition with_nulls (D : meta) x := mk_meta (iri_dict D) (string_dict D) (langstring_dict D) (other_dict D) x (tuple_dict D) (gblocks D) (dictblocks D).
Definition with_tuple (D : meta) x := mk_meta (iri_dict D) (string_dict D) (langstring_dict D) (other_dict D) (nulls D) x (gblocks D) (dictblocks D).
Definition with_blocks (D : meta) g b := mk_meta (iri_dict D) (string_dict D) (langstring_dict D) (other_dict D) (nulls D) (tuple_dict D) g b.

Definition BLOCKSIZE : Z := 24.
(* Vec::resize to a larger size *)
Definition resize {A} (l : list A) (n : nat) (a : A) : list A := l ++ repeat a (n - length l).
(* local_to_global_unchecked (210-216) *)
Definition local_to_global_unchecked (D : meta) (dict : nat) (local_id : Z) : res Z :=
  bind (index (gblocks D) dict) (fun gb =>
  bind (index gb (Z.to_nat (Z.shiftr local_id BLOCKSIZE))) (fun g =>
  match g with Some g => Ok (Z.shiftl (Z.of_nat g) BLOCKSIZE + local_id mod Z.shiftl 1 BLOCKSIZE) | None => Panicked end)).
(* allocate_block (245-281): the first allocated block to the left (plus one), the first empty block *)
Fixpoint btl_loop (gb : list (option nat)) (btl_index : nat) : nat :=
  match btl_index with
  | O => O
  | S n => match nth_error gb n with Some (Some _) => S n | _ => btl_loop gb n end
  end.
Fixpoint free_loop (fuel : nat) (blocks : list (option (nat * nat))) (new_block : nat) : res nat :=
  match fuel with
  | O => Fuel
  | S fuel => match nth_error blocks new_block with Some (Some _) => free_loop fuel blocks (S new_block) | _ => Ok new_block end
  end.
Definition allocate_block (D : meta) (dict : nat) (local_block : nat) : res (meta * nat) :=
  bind (index (gblocks D) dict) (fun gb =>
  let gb := if (length gb <=? local_block)%nat then resize gb (local_block + 1) None else gb in
  bind (index gb local_block) (fun g =>
  match g with
  | Some g => Ok (with_blocks D (set_nth (gblocks D) dict gb) (dictblocks D), g)
  | None =>
      let btl_index := btl_loop gb (local_block + 1) in
      let start := match btl_index with O => O | S i => match nth_error gb i with Some (Some g) => (g + btl_index - 1)%nat | _ => O end end in
      bind (free_loop (S (length (dictblocks D))) (dictblocks D) start) (fun new_block =>
      let blocks := if (length (dictblocks D) <=? new_block)%nat then resize (dictblocks D) (new_block + 1) None else dictblocks D in
      Ok (with_blocks D (set_nth (gblocks D) dict (set_nth gb local_block (Some new_block))) (set_nth blocks new_block (Some (dict, local_block))), new_block))
  end)).
(* local_to_global (222-228) *)
Definition local_to_global (D : meta) (dict : nat) (local_id : Z) : res (meta * Z) :=
  bind (allocate_block D dict (Z.to_nat (Z.shiftr local_id BLOCKSIZE))) (fun q =>
  Ok (fst q, Z.shiftl (Z.of_nat (snd q)) BLOCKSIZE + local_id mod Z.shiftl 1 BLOCKSIZE)).
(* global_to_local (232-240) *)
Definition global_to_local (D : meta) (global_id : Z) : option (nat * Z) :=
  let gblock := Z.shiftr global_id BLOCKSIZE in
  if lenz (dictblocks D) <=? gblock then None else
  match nth_error (dictblocks D) (Z.to_nat gblock) with
  | Some (Some (dict, lblock)) => Some (dict, Z.shiftl (Z.of_nat lblock) BLOCKSIZE + global_id mod Z.shiftl 1 BLOCKSIZE)
  | _ => None
  end.

(* DictIterator::next (82-122): the only dictionary for a value (there are no generic dictionaries) *)
Definition dict_for (v : datavalue) : option nat :=
  match v with
  | PlainString _ => Some STRING_DICT
  | LangString _ _ => Some LANGSTRING_DICT
  | Iri _ => Some IRI_DICT
  | OtherValue _ _ => Some OTHER_DICT
  | NullValue _ => Some NULL_DICT
  | TupleValue _ _ => Some TUPLE_DICT
  | BooleanValue _ => Some OTHER_DICT
  | UnsignedLong n => if n >? I64_MAX then Some OTHER_DICT else None
  | FloatValue _ | DoubleValue _ | LongValue _ | MapValue _ _ => None
  end.

(* type bytes (tuple_dv_dict.rs:14-36) *)
Definition TYPE_NOTYPE : Z := 0. Definition TYPE_DICTID64 : Z := 1. Definition TYPE_DICTID32 : Z := 2.
Definition TYPE_NULLID64 : Z := 3. Definition TYPE_NULLID32 : Z := 4. Definition TYPE_I64 : Z := 5. Definition TYPE_U64 : Z := 6.
Definition TYPE_F32 : Z := 7. Definition TYPE_F64 : Z := 8. Definition TYPE_BOOL : Z := 9. Definition TYPE_LABELID32 : Z := 10. Definition TYPE_LABELID64 : Z := 11.
(* push_usize_id_to_bytes (173-195) *)
Definition id_bytes (id type32 type64 : Z) : Z * bytes := if id <=? U32_MAX then (type32, be_bytes 4 id) else (type64, be_bytes 8 id).
Definition label_bytes (id : Z) : bytes := let q := id_bytes id TYPE_LABELID32 TYPE_LABELID64 in fst q :: snd q.
(* the match of tuple_bytes (227-281, 323-377) for elements that are not in the dictionary; for the
   others (None) the id is needed *)
Definition inline_element (v : datavalue) : option (Z * bytes) :=
  match v with
  | FloatValue bits => Some (TYPE_F32, be_bytes 4 bits)
  | DoubleValue bits => Some (TYPE_F64, be_bytes 8 bits)
  | LongValue n => Some (TYPE_I64, be_bytes 8 n)
  | UnsignedLong n => if n >? I64_MAX then Some (TYPE_U64, be_bytes 8 n) else Some (TYPE_I64, be_bytes 8 n)
  | BooleanValue b => Some (TYPE_BOOL, [if b then 1 else 0])
  | NullValue id => Some (id_bytes id TYPE_NULLID32 TYPE_NULLID64)
  | _ => None
  end.
(* the loop over the elements: type and content bytes, the previous type and the position of the last
   type change (222-225, 282-288) *)
Record tuple_state : Type := mk_tuple_state { ts_type : bytes; ts_content : bytes; ts_prev : Z; ts_change : nat }.
Definition push_element (s : tuple_state) (e : Z * bytes) : tuple_state :=
  let types := ts_type s ++ [fst e] in
  if fst e =? ts_prev s then mk_tuple_state types (ts_content s ++ snd e) (ts_prev s) (ts_change s)
  else mk_tuple_state types (ts_content s ++ snd e) (fst e) (length types).
Definition tuple_start (label : bytes) : tuple_state := mk_tuple_state label [] TYPE_NOTYPE 0.
Definition tuple_end (s : tuple_state) : bytes * bytes := (firstn (ts_change s) (ts_type s), ts_content s).

(* datavalue_to_id of the sub-dictionaries (string_dv_dict.rs:150-156, ranked_pair_dv_dict.rs:65-69,
   null_dv_dict.rs:57-68), without tuples *)
Definition local_lookup (D : meta) (v : datavalue) : res (option Z) :=
  match v with
  | PlainString s => Ok (lookup (string_dict D) s)
  | LangString s tag => bind (two_strings_to_one s tag) (fun x => Ok (lookup (langstring_dict D) x))
  | Iri s => pair_to_id (iri_dict D) (fst (iri_pair s)) (snd (iri_pair s))
  | NullValue id => Ok (if id <? nulls D then Some id else None)
  | _ => match other_pair v with Some (f, r) => pair_to_id (other_dict D) f r | None => Ok None end
  end.
(* datavalue_to_id (504-518) *)
Definition to_global (D : meta) (dict : nat) (local : option Z) : res (option Z) :=
  match local with Some id => bind (local_to_global_unchecked D dict id) (fun g => Ok (Some g)) | None => Ok None end.
(* tuple_bytes (301-388) and tuple_datavalue_to_id_with_parent (418-433) *)
Fixpoint datavalue_to_id (D : meta) (v : datavalue) : res (option Z) :=
  match dict_for v with
  | None => Ok None
  | Some dict =>
      match v with
      | TupleValue label elements =>
          bind (match label with
                | None => Ok (Some (tuple_start []))
                | Some l =>
                    bind (bind (local_lookup D (Iri l)) (to_global D IRI_DICT)) (fun id =>
                    Ok (option_map (fun id => tuple_start (label_bytes id)) id))
                end) (fun start =>
          match start with
          | None => Ok None
          | Some start =>
              bind ((fix go (es : list datavalue) (s : tuple_state) : res (option tuple_state) :=
                       match es with
                       | [] => Ok (Some s)
                       | e :: es =>
                           match inline_element e with
                           | Some q => go es (push_element s q)
                           | None =>
                               bind (datavalue_to_id D e) (fun id =>
                               match id with Some id => go es (push_element s (id_bytes id TYPE_DICTID32 TYPE_DICTID64)) | None => Ok None end)
                           end
                       end) elements start) (fun s =>
              match s with
              | None => Ok None
              | Some s => bind (pair_to_id (tuple_dict D) (fst (tuple_end s)) (snd (tuple_end s))) (to_global D dict)
              end)
          end)
      | _ => bind (local_lookup D v) (to_global D dict)
      end
  end.

(* add_datavalue of the sub-dictionaries (string_dv_dict.rs:134-140, ranked_pair_dv_dict.rs:46-53,
   null_dv_dict.rs:35-46), without tuples *)
Definition local_add (D : meta) (v : datavalue) : res (meta * add_result) :=
  match v with
  | PlainString s => let '(d, r) := spec_add (string_dict D) s in Ok (with_string D d, r)
  | LangString s tag => bind (two_strings_to_one s tag) (fun x => let '(d, r) := spec_add (langstring_dict D) x in Ok (with_langstring D d, r))
  | Iri s => bind (add_pair (iri_dict D) (fst (iri_pair s)) (snd (iri_pair s))) (fun q => Ok (with_iri D (fst q), snd q))
  | NullValue id => Ok (D, if id <? nulls D then Known id else Rejected)
  | _ => match other_pair v with
         | Some (f, r) => bind (add_pair (other_dict D) f r) (fun q => Ok (with_other D (fst q), snd q))
         | None => Ok (D, Rejected)
         end
  end.
(* the end of add_datavalue_inline (466-480) *)
Definition finish_add (dict : nat) (q : meta * add_result) : res (meta * add_result) :=
  let local_id := result_value (snd q) in
  if local_id =? NONEXISTING_ID_MARK then Ok (fst q, Rejected)
  else bind (local_to_global (fst q) dict local_id) (fun q => Ok (fst q, Fresh (snd q))).
(* add_datavalue (384-483), with tuple_bytes_mut (205-291) and add_tuple_datavalue_with_parent (395-410).
   A value that is known is not added again. *)
Definition known_or (D : meta) (v : datavalue) (add : res (meta * add_result)) : res (meta * add_result) :=
  bind (datavalue_to_id D v) (fun id => match id with Some id => Ok (D, Known id) | None => add end).
Definition add_iri (D : meta) (l : bytes) : res (meta * add_result) :=
  known_or D (Iri l) (bind (local_add D (Iri l)) (finish_add IRI_DICT)).
Fixpoint add_datavalue (D : meta) (v : datavalue) : res (meta * add_result) :=
  match dict_for v with
  | None => Ok (D, Rejected)
  | Some dict =>
      known_or D v
      (match v with
       | TupleValue label elements =>
           bind (match label with
                 | None => Ok (D, tuple_start [])
                 | Some l => bind (add_iri D l) (fun q => Ok (fst q, tuple_start (label_bytes (result_value (snd q)))))
                 end) (fun q =>
           bind ((fix go (es : list datavalue) (D : meta) (s : tuple_state) : res (meta * tuple_state) :=
                    match es with
                    | [] => Ok (D, s)
                    | e :: es =>
                        match inline_element e with
                        | Some q => go es D (push_element s q)
                        | None => bind (add_datavalue D e) (fun q => go es (fst q) (push_element s (id_bytes (result_value (snd q)) TYPE_DICTID32 TYPE_DICTID64)))
                        end
                    end) elements (fst q) (snd q)) (fun q =>
           let D := fst q in let (tuple_type, tuple_content) := tuple_end (snd q) in
           bind (add_pair (tuple_dict D) tuple_type tuple_content) (fun q =>
           finish_add dict (with_tuple D (fst q), snd q))))
       | _ => bind (local_add D v) (finish_add dict)
       end)
  end.
(* fresh_null (489-492) *)
Definition fresh_null (D : meta) : res (meta * datavalue * Z) :=
  let id := nulls D in
  bind (local_to_global (with_nulls D (id + 1)) NULL_DICT id) (fun q => Ok (fst q, NullValue id, snd q)).

(* floats that are stored must be finite (float_datavalues.rs: from_f32, from_f64) *)
Definition finite32 (bits : Z) : bool := negb ((bits / 2 ^ 23) mod 2 ^ 8 =? 2 ^ 8 - 1).
Definition finite64 (bits : Z) : bool := negb ((bits / 2 ^ 52) mod 2 ^ 11 =? 2 ^ 11 - 1).
Definition to_i64 (n : Z) : Z := if n <=? I64_MAX then n else n - 2 ^ 64.
(* id_to_tuple_datavalue_with_parent (446-607): the loop over the content (509-604); [get] is
   id_to_datavalue of the parent *)
Definition read_element (get : Z -> res (option datavalue)) (ty : Z) (content : bytes) : res (datavalue * bytes) :=
  if ty =? TYPE_DICTID64 then bind (take 8 content) (fun q => bind (get (from_be (fst q))) (fun v => match v with Some v => Ok (v, snd q) | None => Panicked end))
  else if ty =? TYPE_DICTID32 then bind (take 4 content) (fun q => bind (get (from_be (fst q))) (fun v => match v with Some v => Ok (v, snd q) | None => Panicked end))
  else if ty =? TYPE_NULLID64 then bind (take 8 content) (fun q => Ok (NullValue (from_be (fst q)), snd q))
  else if ty =? TYPE_NULLID32 then bind (take 4 content) (fun q => Ok (NullValue (from_be (fst q)), snd q))
  else if ty =? TYPE_I64 then bind (take 8 content) (fun q => Ok (LongValue (to_i64 (from_be (fst q))), snd q))
  else if ty =? TYPE_U64 then bind (take 8 content) (fun q => Ok (UnsignedLong (from_be (fst q)), snd q))
  else if ty =? TYPE_F32 then bind (take 4 content) (fun q => if finite32 (from_be (fst q)) then Ok (FloatValue (from_be (fst q)), snd q) else Panicked)
  else if ty =? TYPE_F64 then bind (take 8 content) (fun q => if finite64 (from_be (fst q)) then Ok (DoubleValue (from_be (fst q)), snd q) else Panicked)
  else if ty =? TYPE_BOOL then bind (take 1 content) (fun q => Ok (BooleanValue (negb (from_be (fst q) =? 0)), snd q))
  else Panicked.
Fixpoint read_elements (get : Z -> res (option datavalue)) (fuel : nat) (cur_type : Z) (types content : bytes) : res (list datavalue) :=
  match content with
  | [] => Ok []
  | _ =>
      match fuel with
      | O => Fuel
      | S fuel =>
          let '(cur_type, types) := match types with t :: types => (t, types) | [] => (cur_type, []) end in
          bind (read_element get cur_type content) (fun q =>
          bind (read_elements get fuel cur_type types (snd q)) (fun vs => Ok (fst q :: vs)))
      end
  end.
(* the label (472-502): 64bit ids are skipped twice *)
Definition read_label (get : Z -> res (option datavalue)) (types : bytes) : res (option bytes * bytes) :=
  let iri q := bind (get (from_be (fst q))) (fun v => match v with Some (Iri l) => Ok l | _ => Panicked end) in
  match types with
  | t :: rest =>
      if t =? TYPE_LABELID32 then bind (take 4 rest) (fun q => bind (iri q) (fun l => Ok (Some l, snd q)))
      else if t =? TYPE_LABELID64 then bind (take 8 rest) (fun q => bind (iri q) (fun l => Ok (Some l, skipn 9 (snd q))))
      else Ok (None, types)
  | [] => Ok (None, types)
  end.
Definition read_tuple (get : Z -> res (option datavalue)) (types content : bytes) : res datavalue :=
  bind (read_label get types) (fun q =>
  bind (read_elements get (length content) TYPE_NOTYPE (snd q) content) (fun vs => Ok (TupleValue (fst q) vs))).
(* id_to_datavalue (520-528) and of the sub-dictionaries (string_dv_dict.rs:158-164,
   string_langstring_dv_dict.rs:28-31, ranked_pair_iri_dv_dict.rs:51-53, ranked_pair_dv_dict.rs:71-74,
   null_dv_dict.rs:70-76) *)
Fixpoint id_to_datavalue (fuel : nat) (D : meta) (id : Z) : res (option datavalue) :=
  match fuel with
  | O => Fuel
  | S fuel =>
      match global_to_local D id with
      | None => Ok None
      | Some (dict, local) =>
          if (dict =? STRING_DICT)%nat then Ok (option_map PlainString (array_at (string_dict D) local))
          else if (dict =? LANGSTRING_DICT)%nat then
            Ok (match array_at (langstring_dict D) local with Some x => option_map (fun q => LangString (fst q) (lowercase (snd q))) (one_string_to_two x) | None => None end)
          else if (dict =? IRI_DICT)%nat then bind (id_to_pair (iri_dict D) local) (fun q => Ok (option_map (fun q => Iri (fst q ++ snd q)) q))
          else if (dict =? OTHER_DICT)%nat then bind (id_to_pair (other_dict D) local) (fun q => Ok (option_map (fun q => pair_to_other (fst q) (snd q)) q))
          else if (dict =? NULL_DICT)%nat then Ok (if local <? nulls D then Some (NullValue local) else None)
          else
            bind (id_to_pair (tuple_dict D) local) (fun q =>
            match q with Some q => bind (read_tuple (id_to_datavalue fuel D) (fst q) (snd q)) (fun v => Ok (Some v)) | None => Ok None end)
      end
  end.
