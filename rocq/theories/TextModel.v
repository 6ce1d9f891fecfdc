(* Model of the functions on strings: nemo-physical/src/function/definitions/string.rs and language.rs.
   Strings are lists of Unicode scalar values and values those of LexModel.v.  Taken from the environment: the
   segmentation into characters (crate unicode-segmentation, graphemes(true)), upper and lower case, the distance of
   Levenshtein, and the compilation and matching of regular expressions.  The crates urlencoding and lru are not in
   the repository either: they are modelled from their documentation. *)
From Coq Require Import List ZArith Bool Arith.
From Verif Require Import LexModel.
Import ListNotations.
Open Scope Z_scope.
Open Scope list_scope.

(* a result, no result (None), or a panic *)
Inductive fres (A : Type) : Type := Value (a : A) | Undefined | Panic.
Arguments Value {A}. Arguments Undefined {A}. Arguments Panic {A}.
Definition of_option {A} (o : option A) : fres A := match o with Some a => Value a | None => Undefined end.
Definition fbind {A B} (r : fres A) (f : A -> fres B) : fres B := match r with Value a => f a | Undefined => Undefined | Panic => Panic end.
Definition fmap {A B} (f : A -> B) (r : fres A) : fres B := fbind r (fun a => Value (f a)).

Section Text.
Context (F : float_ops).
Variable graphemes : str -> list str.
Notation value := (dval F).

(* LangTaggedString (33-53) and try_from (55-70) *)
Record tagged : Type := mk_tagged { text : str; tag : option str }.
Definition as_tagged (v : value) : fres tagged :=
  match v with
  | VString s => Value (mk_tagged s None)
  | VLang s t => Value (mk_tagged s (Some t))
  | _ => Undefined
  end.
(* into_data_value (43-48): new_language_tagged_string puts the tag in lower case (again) *)
Definition of_tagged (t : tagged) : value :=
  match tag t with Some l => new_lang_string (text t) l | None => VString (text t) end.

(* lang_string_pair_from_any (78-94) *)
Definition as_pair (v w : value) : fres (tagged * tagged) :=
  fbind (as_tagged v) (fun a => fbind (as_tagged w) (fun b =>
  match tag a, tag b with
  | None, None | Some _, None => Value (a, b)
  | Some t, Some u => if str_eqb t u then Value (a, b) else Undefined
  | None, Some _ => Undefined
  end)).
(* string_vec_from_any (101-109) *)
Fixpoint as_all (vs : list value) : fres (list tagged) :=
  match vs with
  | [] => Value []
  | v :: vs' => fbind (as_tagged v) (fun a => fbind (as_all vs') (fun l => Value (a :: l)))
  end.

(* slices of characters are equal if the characters are *)
Fixpoint strs_eqb (a b : list str) : bool :=
  match a, b with
  | [], [] => true
  | x :: a', y :: b' => str_eqb x y && strs_eqb a' b'
  | _, _ => false
  end.

(* unicode_find (18-31): the first i in 0..(len - len' + 1) at which the slices are equal *)
Fixpoint find_at (k i : nat) (haystack needle : list str) : option nat :=
  match k with
  | O => None
  | S k => if strs_eqb needle (firstn (length needle) (skipn i haystack)) then Some i else find_at k (S i) haystack needle
  end.
Definition unicode_find (haystack needle : str) : option nat :=
  let h := graphemes haystack in
  let n := graphemes needle in
  if (length h <? length n)%nat then None else find_at (length h - length n + 1) 0 h n.

(* StringCompare (120-146) *)
Definition string_compare (v w : value) : fres value :=
  fmap (fun p => VLong (match str_cmp (text (fst p)) (text (snd p)) with Lt => -1 | Eq => 0 | Gt => 1 end)) (as_pair v w).
(* StringConcatenation (159-184) *)
Definition opt_eqb (a b : option str) : bool := match a, b with Some x, Some y => str_eqb x y | None, None => true | _, _ => false end.
Definition string_concatenation (vs : list value) : fres value :=
  fmap (fun l =>
    let result_tag :=
      match map tag l with
      | Some first :: rest => if forallb (fun t => opt_eqb t (Some first)) rest then Some first else None
      | _ => None
      end in
    of_tagged (mk_tagged (concat (map text l)) result_tag)) (as_all vs).
(* StringContains (193-219) *)
Definition string_contains (v w : value) : fres value :=
  fmap (fun p => VBool (match unicode_find (text (fst p)) (text (snd p)) with Some _ => true | None => false end)) (as_pair v w).
(* StringStarts (228-265) *)
Definition string_starts (v w : value) : fres value :=
  fmap (fun p =>
    let a := graphemes (text (fst p)) in let b := graphemes (text (snd p)) in
    VBool (if (length a <? length b)%nat then false else strs_eqb (firstn (length b) a) b)) (as_pair v w).
(* StringEnds (274-312) *)
Definition string_ends (v w : value) : fres value :=
  fmap (fun p =>
    let a := graphemes (text (fst p)) in let b := graphemes (text (snd p)) in
    VBool (if (length a <? length b)%nat then false else strs_eqb (skipn (length a - length b) a) b)) (as_pair v w).
(* StringBefore (326-358) *)
Definition string_before (v w : value) : fres value :=
  fmap (fun p => of_tagged
    match unicode_find (text (fst p)) (text (snd p)) with
    | Some i => mk_tagged (concat (firstn i (graphemes (text (fst p))))) (tag (fst p))
    | None => mk_tagged [] None
    end) (as_pair v w).
(* StringAfter (372-409) *)
Definition string_after (v w : value) : fres value :=
  fmap (fun p => of_tagged
    match unicode_find (text (fst p)) (text (snd p)) with
    | Some i => mk_tagged (concat (skipn (i + length (graphemes (text (snd p)))) (graphemes (text (fst p))))) (tag (fst p))
    | None => mk_tagged [] None
    end) (as_pair v w).

(* to_i64 (datavalue.rs:381-387) *)
Definition to_i64 (v : value) : fres Z := if fits_i64 v then Value (raw_int v) else Undefined.

(* graphemes.get(a..) and graphemes.get(a..b) *)
Definition get_from (a : Z) (l : list str) : option (list str) := if a <=? Z.of_nat (length l) then Some (skipn (Z.to_nat a) l) else None.
Definition get_range (a b : Z) (l : list str) : option (list str) :=
  if (a <=? b) && (b <=? Z.of_nat (length l)) then Some (firstn (Z.to_nat (b - a)) (skipn (Z.to_nat a) l)) else None.

(* StringSubstring (420-441) *)
Definition string_substring (v w : value) : fres value :=
  fbind (as_tagged v) (fun t =>
  fbind (to_i64 w) (fun k =>
  let start := Z.max k 1 in
  let result := match get_from (start - 1) (graphemes (text t)) with Some l => concat l | None => [] end in
  Value (of_tagged (mk_tagged result (tag t))))).

(* StringSubstringLength (696-732).  checked: with overflow checks (debug builds); otherwise sums and differences wrap
   around *)
Definition add_i64 (checked : bool) (a b : Z) : fres Z :=
  let s := a + b in
  if in_bounds i64_lo i64_hi s then Value s
  else if checked then Panic else Value (if s <? i64_lo then s + 2 ^ 64 else s - 2 ^ 64).
Definition dec_usize (checked : bool) (a : Z) : fres Z := if 0 <? a then Value (a - 1) else if checked then Panic else Value u64_hi.
Definition to_usize (a : Z) : fres Z := if a <? 0 then Undefined else Value a.
Definition string_substring_length (checked : bool) (v w x : value) : fres value :=
  fbind (as_tagged v) (fun t =>
  let g := graphemes (text t) in
  fbind (to_i64 w) (fun start =>
  fbind (to_i64 x) (fun len =>
  fbind (if len <? 1 then Value []
         else
           fbind (fbind (add_i64 checked start len) to_usize) (fun e =>
           fbind (to_usize (Z.max start 1)) (fun start =>
           if Z.of_nat (length g) <? start then Value []
           else
             fbind (dec_usize checked start) (fun a =>
             fbind (dec_usize checked e) (fun b =>
             match get_range a b g with
             | Some l => Value (concat l)
             | None => match get_from a g with Some l => Value (concat l) | None => Panic end
             end))))) (fun result =>
  Value (of_tagged (mk_tagged result (tag t))))))).

(* StringLength (528-541), StringReverse (552-571) *)
Definition string_length (v : value) : fres value :=
  fmap (fun t => let n := Z.of_nat (length (graphemes (text t))) in if n <=? i64_hi then VLong n else VULong n) (as_tagged v).
Definition string_reverse (v : value) : fres value :=
  fmap (fun t => of_tagged (mk_tagged (concat (rev (graphemes (text t)))) (tag t))) (as_tagged v).
(* StringUppercase, StringLowercase (580-634), with the mapping of strings *)
Definition string_map_case (convert : str -> str) (v : value) : fres value :=
  fmap (fun t => of_tagged (mk_tagged (convert (text t)) (tag t))) (as_tagged v).
(* StringLevenshtein (496-516), with the distance of the crate levenshtein *)
Definition string_levenshtein (distance : str -> str -> Z) (v w : value) : fres value :=
  fmap (fun p => let n := distance (text (fst p)) (text (snd p)) in if n <=? i64_hi then VLong n else VULong n) (as_pair v w).

(* LanguageTag and LanguageString (language.rs:15-58) *)
Definition language_tag (v : value) : fres value :=
  fmap (fun t => VString (match tag t with Some l => l | None => [] end)) (as_tagged v).
Definition as_plain (v : value) : fres str := match v with VString s => Value s | _ => Undefined end.
Definition language_string (v w : value) : fres value :=
  fbind (as_plain v) (fun s => fbind (as_plain w) (fun t => Value (new_lang_string s t))).

(* ---------- percent-encoding ---------- *)
End Text.

(* UTF-8: the bytes of a string *)
Definition utf8_char (c : Z) : list Z :=
  if c <? 128 then [c]
  else if c <? 2048 then [192 + c / 64; 128 + c mod 64]
  else if c <? 65536 then [224 + c / 4096; 128 + c / 64 mod 64; 128 + c mod 64]
  else [240 + c / 262144; 128 + c / 4096 mod 64; 128 + c / 64 mod 64; 128 + c mod 64].
Definition utf8 (s : str) : list Z := concat (map utf8_char s).
(* String::from_utf8: continuation bytes, no overlong forms, no surrogates, at most 0x10FFFF *)
Definition continuation (b : Z) : bool := (128 <=? b) && (b <? 192).
Fixpoint from_utf8 (fuel : nat) (bs : list Z) : option str :=
  match fuel with
  | O => None
  | S fuel =>
      match bs with
      | [] => Some []
      | b :: r =>
          if b <? 128 then option_map (cons b) (from_utf8 fuel r)
          else if (192 <=? b) && (b <? 224) then
            match r with
            | b1 :: r =>
                let c := (b - 192) * 64 + (b1 - 128) in
                if continuation b1 && (128 <=? c) then option_map (cons c) (from_utf8 fuel r) else None
            | _ => None
            end
          else if (224 <=? b) && (b <? 240) then
            match r with
            | b1 :: b2 :: r =>
                let c := (b - 224) * 4096 + (b1 - 128) * 64 + (b2 - 128) in
                if continuation b1 && continuation b2 && (2048 <=? c) && negb ((55296 <=? c) && (c <? 57344)) then option_map (cons c) (from_utf8 fuel r) else None
            | _ => None
            end
          else if (240 <=? b) && (b <? 248) then
            match r with
            | b1 :: b2 :: b3 :: r =>
                let c := (b - 240) * 262144 + (b1 - 128) * 4096 + (b2 - 128) * 64 + (b3 - 128) in
                if continuation b1 && continuation b2 && continuation b3 && (65536 <=? c) && (c <? 1114112) then option_map (cons c) (from_utf8 fuel r) else None
            | _ => None
            end
          else None
      end
  end.

(* urlencoding 2.1: encode and decode on bytes *)
Definition unreserved (b : Z) : bool :=
  ((48 <=? b) && (b <=? 57)) || ((65 <=? b) && (b <=? 90)) || ((97 <=? b) && (b <=? 122)) || (b =? 45) || (b =? 46) || (b =? 95) || (b =? 126).
Definition hex_digit (n : Z) : Z := if n <? 10 then 48 + n else 55 + n.
Definition from_hex_digit (c : Z) : option Z :=
  if (48 <=? c) && (c <=? 57) then Some (c - 48)
  else if (65 <=? c) && (c <=? 70) then Some (c - 55)
  else if (97 <=? c) && (c <=? 102) then Some (c - 87)
  else None.
Definition encode_byte (b : Z) : list Z := if unreserved b then [b] else [37; hex_digit (b / 16); hex_digit (b mod 16)].
Definition url_encode (s : str) : str := concat (map encode_byte (utf8 s)).
Fixpoint decode_bytes (bs : list Z) : list Z :=
  match bs with
  | [] => []
  | x :: rest =>
      if x =? 37 then
        match rest with
        | a :: b :: r =>
            match from_hex_digit a, from_hex_digit b with
            | Some x, Some y => (16 * x + y) :: decode_bytes r
            | _, _ => 37 :: decode_bytes rest
            end
        | _ => x :: decode_bytes rest
        end
      else x :: decode_bytes rest
  end.
Definition url_decode (s : str) : option str := let bs := decode_bytes (utf8 s) in from_utf8 (S (length bs)) bs.
(* StringUriEncode, StringUriDecode (643-690) *)
Definition uri_encode {F} (v : dval F) : fres (dval F) := fmap (fun t => VString (url_encode (text t))) (as_tagged F v).
Definition uri_decode {F} (v : dval F) : fres (dval F) := fbind (as_tagged F v) (fun t => fmap VString (of_option (url_decode (text t)))).

(* ---------- the cache of regular expressions ---------- *)
Section Cache.
Context {R : Type}.
Variable compile : str -> option R.
Variable is_match : R -> str -> bool.
Variable F : float_ops.
(* the cache of the crate lru, most recently used first *)
Definition cache : Type := list (str * R).
Definition cache_size : nat := 32.
Fixpoint take_out (p : str) (c : cache) : option (R * cache) :=
  match c with
  | [] => None
  | (q, r) :: c' => if str_eqb p q then Some (r, c') else option_map (fun x => (fst x, (q, r) :: snd x)) (take_out p c')
  end.
(* try_get_or_insert: an entry that is found becomes the most recent one; failures are not stored *)
Definition try_get_or_insert (c : cache) (p : str) : cache * option R :=
  match take_out p c with
  | Some (r, c') => ((p, r) :: c', Some r)
  | None =>
      match compile p with
      | Some r => ((p, r) :: firstn (cache_size - 1) c, Some r)
      | None => (c, None)
      end
  end.
(* StringRegex (459-487) *)
Definition string_regex (c : cache) (v w : dval F) : cache * fres (dval F) :=
  match as_pair F v w with
  | Value p =>
      let (c, r) := try_get_or_insert c (text (snd p)) in
      (c, Value (VBool (match r with Some r => is_match r (text (fst p)) | None => false end)))
  | Undefined => (c, Undefined)
  | Panic => (c, Panic)
  end.
End Cache.
Arguments as_tagged {F}. Arguments of_tagged {F}. Arguments as_pair {F}. Arguments as_all {F}. Arguments to_i64 {F}. Arguments as_plain {F}.
Arguments string_compare {F}. Arguments string_concatenation {F}. Arguments string_contains {F}. Arguments string_starts {F}. Arguments string_ends {F}.
Arguments string_before {F}. Arguments string_after {F}. Arguments string_substring {F}. Arguments string_substring_length {F}. Arguments string_length {F}.
Arguments string_reverse {F}. Arguments string_map_case {F}. Arguments string_levenshtein {F}. Arguments language_tag {F}. Arguments language_string {F}.
Arguments string_regex {R} compile is_match {F}.
