(* Model of nemo-physical/src/dictionary/bytes_buffer.rs: the paged buffers in which dictionaries store
   byte arrays.

   One value of type [buffer] is one global BytesBuffer with all its (sub)buffers.  Every operation runs
   between acquire_page_lock and release_page_lock and is one atomic step here; the lock itself, raw
   pointers and the moment between get_page and the copying of the bytes are not modelled.  Page and
   buffer numbers are [nat], addresses, lengths and references (usize, u64) are [Z].  Capacities of
   vectors are left out.  Bytes are [Z]. *)
From Coq Require Import List ZArith Bool Lia.
From Verif Require Import ColumnModel.
Import ListNotations.
Local Open Scope Z_scope.

Notation byte := Z (only parsing).
Definition bytes := list byte.

(* PAGE_ADDR_BITS, PAGE_SIZE (12-14) *)
Definition PAGE_ADDR_BITS : Z := 25.
Definition PAGE_SIZE : Z := Z.shiftl 1 PAGE_ADDR_BITS.
(* BYTESREF_BYTES_LENGTH_BITS, LENGTH_BITS_MASK, MAX_BYTESREF_BYTES_LENGTH,
   MAX_BYTESREF_STARTING_ADDRESS (272-284) *)
Definition LENGTH_BITS : Z := 24.
Definition ADDRESS_BITS : Z := 64 - LENGTH_BITS.
Definition MAX_LENGTH : Z := Z.shiftl 1 LENGTH_BITS - 1.
Definition MAX_ADDRESS : Z := Z.shiftl 1 ADDRESS_BITS - 1.

(* BytesBuffer (44-58): the buffer a page belongs to and its bytes; the active page of each buffer;
   buffers and pages that can be used again *)
Record buffer : Type := mk_buffer {
  pages : list (option nat * bytes);
  cur_pages : list (option nat);
  reclaimed_buffers : list nat;
  reclaimed_pages : list nat }.

(* new (62-71) *)
Definition buffer_new : buffer := mk_buffer [] [] [] [].

(* replacing an element of a Vec *)
Fixpoint set_nth {A} (l : list A) (i : nat) (a : A) : list A :=
  match l, i with
  | [], _ => []
  | _ :: l, O => a :: l
  | x :: l, S i => x :: set_nth l i a
  end.
Definition update {A} (l : list A) (i : nat) (a : A) : res (list A) :=
  match nth_error l i with Some _ => Ok (set_nth l i a) | None => Panicked end.

Definition lenz {A} (l : list A) : Z := Z.of_nat (length l).

(* init_buffer (74-89) *)
Definition init_buffer (b : buffer) : buffer * nat :=
  let id := match reclaimed_buffers b with i :: _ => i | [] => length (cur_pages b) end in
  let reclaimed := match reclaimed_buffers b with _ :: l => l | [] => [] end in
  let curs := if (id <? length (cur_pages b))%nat then set_nth (cur_pages b) id None else cur_pages b ++ [None] in
  (mk_buffer (pages b) curs reclaimed (reclaimed_pages b), id).

(* drop_buffer (93-106): the loop over the pages *)
Fixpoint drop_pages (buf : nat) (idx : nat) (ps : list (option nat * bytes)) : list (option nat * bytes) * list nat :=
  match ps with
  | [] => ([], [])
  | (owner, content) :: ps =>
      let (ps', freed) := drop_pages buf (S idx) ps in
      if match owner with Some o => Nat.eqb o buf | None => false end then ((None, []) :: ps', idx :: freed)
      else ((owner, content) :: ps', freed)
  end.
Definition drop_buffer (b : buffer) (buf : nat) : buffer :=
  let (ps, freed) := drop_pages buf 0 (pages b) in
  mk_buffer ps (cur_pages b) (reclaimed_buffers b ++ [buf]) (reclaimed_pages b ++ freed).

(* a new or reused page for a buffer (121-133, 142-155), which becomes its active page *)
Definition new_page (b : buffer) (buf : nat) : res (buffer * nat) :=
  bind (match reclaimed_pages b with
        | [] => Ok (mk_buffer (pages b ++ [(Some buf, [])]) (cur_pages b) (reclaimed_buffers b) [], length (pages b))
        | p :: rest =>
            bind (update (pages b) p (Some buf, [])) (fun ps =>
            Ok (mk_buffer ps (cur_pages b) (reclaimed_buffers b) rest, p))
        end) (fun q =>
  let (b, page) := q in
  bind (update (cur_pages b) buf (Some page)) (fun curs =>
  Ok (mk_buffer (pages b) curs (reclaimed_buffers b) (reclaimed_pages b), page))).

(* push_bytes (110-168): the address and length of the stored bytes *)
Definition push_raw (b : buffer) (buf : nat) (data : bytes) : res (buffer * (Z * Z)) :=
  let len := lenz data in
  if negb (len <? PAGE_SIZE) then Panicked
  else
    bind (index (cur_pages b) buf) (fun cur =>
    bind (match cur with Some page => Ok (b, page) | None => new_page b buf end) (fun q =>
    let (b, page_num) := q in
    bind (index (pages b) page_num) (fun page =>
    bind (if lenz (snd page) + len >? PAGE_SIZE then new_page b buf else Ok (b, page_num)) (fun q =>
    let (b, page_num) := q in
    bind (index (pages b) page_num) (fun page =>
    bind (update (pages b) page_num (fst page, snd page ++ data)) (fun ps =>
    Ok (mk_buffer ps (cur_pages b) (reclaimed_buffers b) (reclaimed_pages b),
        (Z.of_nat page_num * PAGE_SIZE + lenz (snd page), len)))))))).

(* BytesRef::new (309-318), address (322-326), len (330-332) *)
Definition ref_new (address len : Z) : res Z :=
  if negb (len <=? MAX_LENGTH) then Panicked
  else if negb (address <=? MAX_ADDRESS) then Panicked
  else Ok (Z.shiftl address LENGTH_BITS + len).
Definition ref_address (r : Z) : Z := Z.shiftr r LENGTH_BITS.
Definition ref_len (r : Z) : Z := Z.land r MAX_LENGTH.

(* GlobalBytesBuffer::push_bytes (240-245) *)
Definition push_bytes (b : buffer) (buf : nat) (data : bytes) : res (buffer * Z) :=
  bind (push_raw b buf data) (fun q =>
  let '(b, (address, len)) := q in
  bind (ref_new address len) (fun r => Ok (b, r))).

(* get_bytes (172-180): an index of a missing page panics; reading beyond the end of a page
   (get_unchecked) is undefined behaviour, which is also an error here *)
Definition get_raw (b : buffer) (address len : Z) : res bytes :=
  let page_num := Z.shiftr address PAGE_ADDR_BITS in
  let inner := address mod PAGE_SIZE in
  bind (index (pages b) (Z.to_nat page_num)) (fun page =>
  if inner + len <=? lenz (snd page) then Ok (firstn (Z.to_nat len) (skipn (Z.to_nat inner) (snd page))) else Panicked).
(* BytesRef::as_vec (342-350) *)
Definition get_bytes (b : buffer) (r : Z) : res bytes := get_raw b (ref_address r) (ref_len r).
