(** Model of nemo/src/io/formats/sparql/reader.rs (imports with bindings) and of nemo-physical/src/datasources/bindings.rs.  Uses the
    model of queries (QueryModel), in particular the bindings that are put into a query. *)
From Coq Require Import List Arith Bool.
From Verif Require Import QueryModel.
Import ListNotations.

(** The result of a function that can panic or that does not end ([Endless]: the given number of nested calls is not enough). *)
Inductive run A := Ends (a : A) | Panics | Endless.
Arguments Ends {A} a.
Arguments Panics {A}.
Arguments Endless {A}.
Definition after {A B} (x : run A) (f : A -> run B) : run B := match x with Ends a => f a | Panics => Panics | Endless => Endless end.

(** bindings.rs:66-76, count and is_empty *)
Definition count (b : bindings) : nat := List.length (snd b).
Definition is_empty (b : bindings) : bool := count b =? 0.

(** bindings.rs:38-50, union *)
Definition union (a b : bindings) : bindings := (fst a, snd a ++ snd b).

(** itertools chunks and slice::chunks: parts of size [n]; the first argument is at least the length of the list *)
Fixpoint chop {A} (fuel n : nat) (l : list A) : list (list A) :=
  match fuel, l with
  | _, [] => []
  | 0, _ => []
  | S f, _ => firstn n l :: chop f n (skipn n l)
  end.
Definition chunk_list {A} (n : nat) (l : list A) : list (list A) := chop (List.length l) n l.

(** bindings.rs:53-63, chunks *)
Definition chunks (n : nat) (b : bindings) : list bindings := map (fun rs => (fst b, rs)) (chunk_list n (snd b)).

(** bindings.rs:87-91, ProductBindings: for each factor the old and the new bindings *)
Definition product := list (bindings * bindings).

(** bindings.rs:119-125: the other factors, old and new together; factors without bindings are left out *)
Definition others (l : product) : list bindings :=
  flat_map (fun f => if is_empty (fst f) && is_empty (snd f) then [] else [union (fst f) (snd f)]) l.

(** bindings.rs:107-131, combinations; [before] are the factors before *)
Fixpoint combinations_from (before l : product) : list (list bindings) :=
  match l with
  | [] => []
  | f :: rest => (if is_empty (snd f) then [] else [snd f :: others before ++ others rest]) ++ combinations_from (before ++ [f]) rest
  end.
Definition combinations (l : product) : list (list bindings) := combinations_from [] l.

(** bindings.rs:135-146, count *)
Definition total (l : product) : nat := list_sum (map (fun c => fold_right Nat.mul 1 (map count c)) (combinations l)).

(** reader.rs:205-209: stable sorting by the number of bindings *)
Fixpoint insert (b : bindings) (l : list bindings) : list bindings :=
  match l with [] => [b] | c :: rest => if count b <=? count c then b :: l else c :: insert b rest end.
Definition sorted (l : list bindings) : list bindings := fold_right insert [] l.

(** reader.rs:211-218: the first index for which one plus the sum of the counts is greater than the size of a page *)
Fixpoint split_index (acc page : nat) (l : list bindings) : option nat :=
  match l with
  | [] => None
  | b :: rest => if page <? acc + count b then Some 0 else option_map S (split_index (acc + count b) page rest)
  end.

(** usize::div_ceil for a divisor that is not zero *)
Definition div_ceil (a b : nat) : nat := (a + (b - 1)) / b.

(** reader.rs:204-257, bindings_chunks.  With more than one factor after the split the element after the last one of a list is read
    (line 240), unless there are no combinations of the factors before the last one. *)
Definition bindings_chunks (bs : list bindings) (page : nat) : run (list (list bindings)) :=
  let l := sorted bs in
  match split_index 1 page l with
  | None => Ends [bs]
  | Some k =>
      let prefix := firstn k l in
      let prefix_count := fold_right Nat.mul 1 (map count prefix) in
      if prefix_count =? 0 then Panics
      else
        let remaining := Nat.max (div_ceil page prefix_count) 1 in
        match skipn k l with
        | [] => Panics
        | [b] => Ends (map (fun c => prefix ++ [c]) (chunks remaining b))
        | rest => if existsb is_empty (removelast rest) then Ends [] else Panics
        end
  end.

Section reader.
  (** The number of characters of a query, and the limit (sparql.rs:45). *)
  Variable size : pattern -> nat.
  Variable limit : nat.

  (** reader.rs:173-202, query_with_bindings; SELECT and ASK queries only *)
  Definition query_with_bindings (q : pattern) (page : list bindings) : option pattern :=
    let q' := with_bindings q page in if size q' <? limit then Some q' else None.

  (** reader.rs:259-283, queries_with_bindings; [again] is the call with a smaller page *)
  Fixpoint of_pages (q : pattern) (pages : list (list bindings)) (again : run (list (list bindings * pattern))) : run (list (list bindings * pattern)) :=
    match pages with
    | [] => Ends []
    | p :: rest =>
        match query_with_bindings q p with
        | Some q' => after (of_pages q rest again) (fun qs => Ends ((p, q') :: qs))
        | None => after again (fun qs => after (of_pages q rest again) (fun qs' => Ends (qs ++ qs')))
        end
    end.
  Fixpoint of_combinations (q : pattern) (page : nat) (cs : list (list bindings)) (again : run (list (list bindings * pattern))) : run (list (list bindings * pattern)) :=
    match cs with
    | [] => Ends []
    | c :: rest => after (bindings_chunks c (Nat.max page 1)) (fun pages => after (of_pages q pages again)
                     (fun qs => after (of_combinations q page rest again) (fun qs' => Ends (qs ++ qs'))))
    end.
  Fixpoint queries (fuel : nat) (q : pattern) (pb : product) (page : nat) : run (list (list bindings * pattern)) :=
    match fuel with
    | 0 => Endless
    | S f => of_combinations q page (combinations pb) (queries f q pb (div_ceil page 2))
    end.

  (** What the endpoint answers: the rows, the status 413 or something else that is an error *)
  Inductive answer := Rows (rs : list (list (option nat))) | Too_large | Failed.
  Variable server : pattern -> answer.
  Variable max_page : nat.

  (** The rows that are written, and whether the call returns an error *)
  Definition result := (list (list (option nat)) * bool)%type.

  (** reader.rs:118-129: parts of a page, until the first error *)
  Fixpoint load_parts (again : product -> run result) (parts : list (list bindings)) : run result :=
    match parts with
    | [] => Ends ([], false)
    | p :: rest => after (again (map (fun b : bindings => ((fst b, []), b)) p)) (fun r =>
                     if snd r : bool then Ends r else after (load_parts again rest) (fun r' => Ends (fst r ++ fst r', snd r')))
    end.

  (** reader.rs:98-134: errors with another status than 413 are not returned *)
  Fixpoint load_pages (again : product -> run result) (pb : product) (qs : list (list bindings * pattern)) : run result :=
    match qs with
    | [] => Ends ([], false)
    | (page, q) :: rest =>
        let next r := after (load_pages again pb rest) (fun r' => Ends (fst r ++ fst r' : list (list (option nat)), snd r')) in
        match server q with
        | Rows rs => next (rs, false)
        | Failed => next ([], false)
        | Too_large =>
            if total pb =? 1 then Ends ([], true)
            else after (load_parts again (chunk_list (Nat.max (div_ceil (List.length page) 2) 1) page)) (fun r =>
                   if snd r : bool then Ends r else next r)
        end
    end.

  (** reader.rs:92-135, load_from_bindings *)
  Fixpoint load (fuel : nat) (q : pattern) (pb : product) : run result :=
    match fuel with
    | 0 => Endless
    | S f => after (queries (S f) q pb max_page) (load_pages (load f q) pb)
    end.
End reader.
