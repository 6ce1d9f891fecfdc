(** Model of the import and export of delimiter-separated values.
    Files: nemo/src/io/formats/dsv/{reader,writer,value_format}.rs, nemo/src/io/formats/dsv.rs,
    nemo-physical/src/datavalues/{datavalue,any_datavalue,...}.rs (canonical_string), nemo/src/parser/ast/token.rs.

    The crate `csv` (csv-core) that reads and writes records is not part of the repository: its documented behaviour
    for the options that nemo sets is modelled ([csv_write], [csv_read]). Text is a list of Unicode scalar values; input
    that is not valid UTF-8 (whose records `records().flatten()` drops) is not modelled, nor are the import patterns
    (filters), nulls, tuples and maps. *)
From Coq Require Import List ZArith Bool Ascii String.
From Verif Require Import LexModel.
Import ListNotations.
Open Scope Z_scope.
Open Scope list_scope.

(** ** The crate csv *)

Definition quote : Z := 34.
Definition cr : Z := 13.
Definition lf : Z := 10.

(** Writer, QuoteStyle::Necessary (the default) with the given delimiter and double_quote(true) (writer.rs:40-45): a
    field is quoted when it has a delimiter, a quote, or a line break; a record without any byte is written as an empty
    quoted field. *)
Definition must_quote (d c : Z) : bool := (c =? d) || (c =? quote) || (c =? cr) || (c =? lf).
Definition write_field (d : Z) (f : str) : str :=
  if existsb (must_quote d) f then quote :: flat_map (fun c => if c =? quote then [quote; quote] else [c]) f ++ [quote]
  else f.
Fixpoint write_fields (d : Z) (fs : list str) : str :=
  match fs with
  | [] => []
  | [f] => write_field d f
  | f :: fs' => write_field d f ++ d :: write_fields d fs'
  end.
Definition write_record (d : Z) (fs : list str) : str :=
  (match write_fields d fs with [] => [quote; quote] | b => b end) ++ [lf].
Definition csv_write (d : Z) (rs : list (list str)) : str := flat_map (write_record d) rs.

(** Reader with the options of reader.rs:83-92 (flexible, double_quote, no escape character): the automaton of csv-core.
    [fld] is the current field and [row] are the finished fields of the record, both reversed. *)
Inductive cmode := StartRecord | StartField | InField | InQuoted | QuoteInQuoted | AfterCR.
Definition is_term (c : Z) : bool := (c =? cr) || (c =? lf).
Definition after_term (c : Z) : cmode := if c =? cr then AfterCR else StartRecord.
Definition finish (fld : str) (row : list str) : list str := rev (rev fld :: row).

Fixpoint csv_run (quoting : bool) (d : Z) (m : cmode) (fld : str) (row : list str) (s : str) : list (list str) :=
  match s with
  | [] => match m with StartRecord | AfterCR => [] | _ => [finish fld row] end
  | c :: s' =>
    let start_field (fld : str) (row : list str) :=
      if quoting && (c =? quote) then csv_run quoting d InQuoted [] row s'
      else if c =? d then csv_run quoting d StartField [] ([] :: row) s'
      else if is_term c then finish [] row :: csv_run quoting d (after_term c) [] [] s'
      else csv_run quoting d InField [c] row s' in
    let start_record :=
      if is_term c then csv_run quoting d StartRecord [] [] s' else start_field [] [] in
    match m with
    | StartRecord => start_record
    | AfterCR => if c =? lf then csv_run quoting d StartRecord [] [] s' else start_record
    | StartField => start_field fld row
    | InField =>
      if c =? d then csv_run quoting d StartField [] (rev fld :: row) s'
      else if is_term c then finish fld row :: csv_run quoting d (after_term c) [] [] s'
      else csv_run quoting d InField (c :: fld) row s'
    | InQuoted =>
      if c =? quote then csv_run quoting d QuoteInQuoted fld row s' else csv_run quoting d InQuoted (c :: fld) row s'
    | QuoteInQuoted =>
      if c =? quote then csv_run quoting d InQuoted (c :: fld) row s'
      else if c =? d then csv_run quoting d StartField [] (rev fld :: row) s'
      else if is_term c then finish fld row :: csv_run quoting d (after_term c) [] [] s'
      else csv_run quoting d InField (c :: fld) row s'
    end
  end.

(** A byte order mark at the start of the text is skipped. *)
Definition bom : Z := 65279.
Definition strip_bom (s : str) : str := match s with c :: s' => if c =? bom then s' else s | [] => [] end.
(** [has_headers]: the first record is skipped (reader.rs:87, and `records` of the crate). *)
Definition csv_read (quoting has_headers : bool) (d : Z) (s : str) : list (list str) :=
  let rs := csv_run quoting d StartRecord [] [] (strip_bom s) in
  if has_headers then tl rs else rs.

(** ** Values *)

(** datavalue.rs:15-23: four replacements, one after the other. *)
Definition replace (c : Z) (r : str) (s : str) : str := flat_map (fun x => if x =? c then r else [x]) s.
Definition quote_string (s : str) : str :=
  [quote] ++ replace lf [92; 110] (replace cr [92; 114] (replace quote [92; quote] (replace 92 [92; 92] s))) ++ [quote].

Section WithFloats.
Context (F : float_ops).

(** datavalue.rs:27-29 *)
Definition quote_iri (s : str) : str := [60] ++ s ++ [62].
(** canonical_string of each kind of value (string_datavalue.rs, iri_datavalue.rs:73-75, lang_string_datavalue.rs:54-56,
    float_datavalues.rs:60-62 and 143-145, integer_datavalues.rs:47-49 and 131-133, boolean_datavalue.rs:48-60,
    other_datavalue.rs:32-36). *)
Definition typed (lex dt : str) : str := [quote] ++ lex ++ [quote] ++ lit "^^<" ++ dt ++ lit ">".
Definition canonical_string (v : dval F) : str :=
  match v with
  | VString s => quote_string s
  | VIri s => quote_iri s
  | VLang s tag => quote_string s ++ [64] ++ tag
  | VOther s dt => quote_string s ++ lit "^^" ++ quote_iri dt
  | _ => typed (lexical_value v) (datatype_iri v)
  end.

(** value_format.rs:24-53 *)
Inductive vformat := FAny | FString | FInteger | FDouble | FSkip.

(** value_format.rs:272-300 *)
Definition serialize_integer (v : dval F) : option str :=
  match v with
  | VLong _ | VULong _ => Some (lexical_value v)
  | VOther lex dt => if str_eqb dt (xsd "integer") then Some lex else None
  | _ => None
  end.
(** value_format.rs:235-269 *)
Definition serialize_any (v : dval F) : option str :=
  match serialize_integer v with
  | Some s => Some s
  | None => match v with VIri s => Some s | _ => Some (canonical_string v) end
  end.
(** value_format.rs:307-327 *)
Definition serialize_double (v : dval F) : option str :=
  match v with VDouble _ => Some (lexical_value v) | _ => None end.
(** value_format.rs:151-160; to_plain_string (datavalue.rs:269-274) *)
Definition serialize (f : vformat) (v : dval F) : option str :=
  match f with
  | FAny | FSkip => serialize_any v
  | FString => match v with VString s => Some s | _ => None end
  | FInteger => serialize_integer v
  | FDouble => serialize_double v
  end.

(** str::trim: the characters with the property White_Space. *)
Definition is_white (c : Z) : bool :=
  (9 <=? c) && (c <=? 13) || (c =? 32) || (c =? 133) || (c =? 160) || (c =? 5760) || (8192 <=? c) && (c <=? 8202)
  || (c =? 8232) || (c =? 8233) || (c =? 8239) || (c =? 8287) || (c =? 12288).
Fixpoint trim_start (s : str) : str :=
  match s with c :: s' => if is_white c then trim_start s' else s | [] => [] end.
Definition trim (s : str) : str := rev (trim_start (rev (trim_start s))).

(** Length in UTF-8, and the slice of the first [n] bytes ([None]: not a character boundary, which panics). *)
Definition utf8_len (c : Z) : Z := if c <? 128 then 1 else if c <? 2048 then 2 else if c <? 65536 then 3 else 4.
Fixpoint byte_len (s : str) : Z := match s with c :: s' => utf8_len c + byte_len s' | [] => 0 end.
Fixpoint take_bytes (n : Z) (s : str) : option str :=
  if n <=? 0 then Some []
  else match s with
  | [] => None
  | c :: s' => if n <? utf8_len c then None
               else match take_bytes (n - utf8_len c) s' with Some p => Some (c :: p) | None => None end
  end.

(** rfind of a quote in the input: the text before and after the last quote. *)
Fixpoint rsplit_quote (s : str) : option (str * str) :=
  match s with
  | [] => None
  | c :: s' =>
    match rsplit_quote s' with
    | Some (b, a) => Some (c :: b, a)
    | None => if c =? quote then Some ([], s') else None
    end
  end.

(** token.rs:386-403 (alpha1, alphanumeric1 of nom: ASCII only) and 406-416, applied to all of the input. *)
Definition is_alpha (c : Z) : bool := (65 <=? c) && (c <=? 90) || (97 <=? c) && (c <=? 122).
Definition is_alnum (c : Z) : bool := is_alpha c || (48 <=? c) && (c <=? 57).
Definition name_token (s : str) : bool :=
  match s with
  | c :: s' => is_alpha c && forallb (fun c => is_alnum c || (c =? 95) || (c =? 37)) s'
  | [] => false
  end.
Definition iri_token (s : str) : bool :=
  nonempty s && forallb (fun c => negb ((c =? 62) || (c =? 32) || (c =? 10))) s.
(** value_format.rs:213-230 *)
Definition parse_plain (s : str) : parsed F :=
  if name_token s then POk (VIri s) else if iri_token s then POk (VIri s) else POk (VString s).

(** `input[1..pos]` for the text [before] up to the position: panics when the position is 0. *)
Definition tail_slice (before : str) (k : str -> parsed F) : parsed F :=
  match before with [] => PPanic | _ :: m => k m end.
Definition or_else (p : parsed F) (q : parsed F) : parsed F := match p with PErr => q | _ => p end.

(** value_format.rs:181-211: a cell that starts with a quote. *)
Definition parse_quoted (s : str) : parsed F :=
  match rsplit_quote s with
  | None => parse_plain s
  | Some (before, after) =>
    match after with
    | [] => tail_slice before (fun m => POk (VString m))
    | a :: tag =>
      if a =? 64 then tail_slice before (fun m => POk (new_lang_string m tag))
      else if (last s 0 =? 62) && (4 <? 1 + byte_len after) then
        match take_bytes 4 (quote :: after) with
        | None => PPanic
        | Some p =>
          if str_eqb p (quote :: lit "^^<") then
            tail_slice before (fun m =>
              or_else (new_from_typed_literal m (removelast (skipn 3 after))) (parse_plain s))
          else parse_plain s
        end
      else parse_plain s
    end
  end.

(** value_format.rs:175-231 *)
Definition parse_any (input : str) : parsed F :=
  let s := trim input in
  match s with
  | [] => POk (VString [])
  | c :: s' =>
    if (c =? 60) && (last s 0 =? 62) then POk (VIri (removelast s'))
    else if (48 <=? c) && (c <=? 57) || (c =? 43) || (c =? 45) then
      or_else (new_from_decimal_type_literal s TDecimal) (parse_plain s)
    else if c =? quote then parse_quoted s
    else parse_plain s
  end.

(** value_format.rs:140-149; any_datavalue.rs:259-274 *)
Definition parse_cell (f : vformat) (s : str) : parsed F :=
  match f with
  | FAny => parse_any s
  | FString | FSkip => POk (VString s)
  | FInteger => new_from_decimal_type_literal s TInteger
  | FDouble => match f64_parse F s with Some x => POk (VDouble x) | None => PErr end
  end.

(** ** Writer (writer.rs:50-105) *)

Definition is_skip (f : vformat) : bool := match f with FSkip => true | _ => false end.

Inductive row_result (A : Type) := ROk (r : list A) | RDrop | RPanic.
Arguments ROk {A}. Arguments RDrop {A}. Arguments RPanic {A}.

(** writer.rs:73-86: the record of strings of a row; a value that the format of its column cannot represent drops the
    row, more values than columns panic. *)
Fixpoint write_row (fs : list vformat) (row : list (dval F)) : row_result str :=
  match row with
  | [] => ROk []
  | v :: row' =>
    match fs with
    | [] => RPanic
    | f :: fs' =>
      if is_skip f then write_row fs' row'
      else match serialize f v with
      | None => RDrop
      | Some s => match write_row fs' row' with ROk r => ROk (s :: r) | e => e end
      end
    end
  end.

(** writer.rs:67-103: `limit.unwrap_or(0)` records at most, where the count is compared after a record is written. *)
Definition stop_limit (limit : option Z) : Z := match limit with Some n => n | None => 0 end.
Fixpoint write_rows (fs : list vformat) (stop count : Z) (rows : list (list (dval F))) : option (list (list str)) :=
  match rows with
  | [] => Some []
  | row :: rows' =>
    match write_row fs row with
    | RPanic => None
    | RDrop => write_rows fs stop count rows'
    | ROk r =>
      if count + 1 =? stop then Some [r]
      else match write_rows fs stop (count + 1) rows' with Some rs => Some (r :: rs) | None => None end
    end
  end.
Definition export_table (d : Z) (fs : list vformat) (limit : option Z) (rows : list (list (dval F))) : option str :=
  match write_rows fs (stop_limit limit) 0 rows with Some rs => Some (csv_write d rs) | None => None end.

(** ** Reader (reader.rs:96-150) *)

(** reader.rs:122-134: the values of a record; a value that cannot be parsed drops the row. A row without any value is
    never added to the table (tuple_writer.rs: a tuple is added with its last value). *)
Fixpoint read_cells (fs : list vformat) (r : list str) : row_result (dval F) :=
  match fs, r with
  | f :: fs', s :: r' =>
    if is_skip f then read_cells fs' r'
    else match parse_cell f s with
    | POk v => match read_cells fs' r' with ROk vs => ROk (v :: vs) | e => e end
    | PErr => RDrop
    | PPanic => RPanic
    end
  | _, _ => ROk []
  end.
(** reader.rs:115-146: records of another length than the formats do not count for the limit. *)
Fixpoint read_rows (fs : list vformat) (stop count : Z) (rs : list (list str)) : option (list (list (dval F))) :=
  match rs with
  | [] => Some []
  | r :: rs' =>
    if negb (Nat.eqb (List.length r) (List.length fs)) then read_rows fs stop count rs'
    else
      let more := if count + 1 =? stop then Some [] else read_rows fs stop (count + 1) rs' in
      match read_cells fs r with
      | RPanic => None
      | RDrop | ROk [] => more
      | ROk vs => match more with Some vss => Some (vs :: vss) | None => None end
      end
  end.
Definition import_table (quoting ignore_headers : bool) (d : Z) (fs : list vformat) (limit : option Z) (s : str)
  : option (list (list (dval F))) :=
  read_rows fs (stop_limit limit) 0 (csv_read quoting ignore_headers d s).

End WithFloats.
Arguments ROk {A}. Arguments RDrop {A}. Arguments RPanic {A}.
Arguments canonical_string {F}. Arguments serialize_integer {F}. Arguments serialize_any {F}. Arguments serialize_double {F}.
Arguments serialize {F}. Arguments parse_plain {F}. Arguments tail_slice {F}. Arguments or_else {F}. Arguments parse_quoted {F}. Arguments parse_any {F}. Arguments parse_cell {F}.
Arguments write_row {F}. Arguments write_rows {F}. Arguments export_table {F}. Arguments read_cells {F}. Arguments read_rows {F}.
Arguments import_table {F}.
