(* Specification of full trie scans and of aggregation. *)
From Coq Require Import List ZArith Bool Sorted.
From Verif Require Import ColumnModel ScanModel TrieModel TrieSpec AggModel.
From Verif Require IntModel.
Import ListNotations.
Local Open Scope nat_scope.

(* ---------- full trie scans: cursors over the rows of a table ---------- *)

(* the first column in which two rows differ *)
Fixpoint differs (r s : row) : nat :=
  match r, s with
  | v :: r', w :: s' => if value_eqb v w then S (differs r' s') else 0
  | _, _ => 0
  end.
(* without the rows at the start that are like x in the first m columns *)
Fixpoint skip_like (m : nat) (x : row) (l : list row) : list row :=
  match l with
  | [] => []
  | y :: l' => if m <=? differs x y then skip_like m x l' else l
  end.
Definition next_rows (m : nat) (cur : option row) (l : list row) : list row :=
  match cur with None => l | Some x => skip_like m x l end.
(* the first changed column *)
Definition changed (cur : option row) (l : list row) : option nat :=
  match l, cur with
  | [], _ => None
  | _, None => Some 0
  | y :: _, Some x => Some (differs x y)
  end.
(* Q relates a state of the scan to the current row and the rows to come *)
Record enumerates (n : nat) (sc : fullscan) (Q : fstate sc -> option row -> list row -> Prop) : Prop := {
  q_columns : forall s cur l, Q s cur l -> fu_columns sc s = n;
  q_advance : forall s cur l k, Q s cur l -> k < n -> exists enough s', let l' := next_rows (S k) cur l in
    (forall fuel, enough <= fuel -> fu_advance sc fuel k s = Ok (s', changed cur l')) /\ Q s' (hd_error l') (tl l');
  q_value : forall s x l k v, Q s (Some x) l -> nth_error x k = Some v -> exists enough, forall fuel, enough <= fuel -> fu_value sc fuel k s = Ok (s, v) }.

(* ---------- aggregates of lists of values ---------- *)

Definition ints (vs : list value) : list Z := map snd (filter (fun v => stype_eqb (fst v) Int64) vs).
Definition f32s (vs : list value) : list Z := map snd (filter (fun v => stype_eqb (fst v) Float) vs).
Definition f64s (vs : list value) : list Z := map snd (filter (fun v => stype_eqb (fst v) Double) vs).
(* the sum of a nonempty list, from left to right, if all partial sums exist *)
Fixpoint total (add : Z -> Z -> option Z) (s : Z) (l : list Z) : option Z :=
  match l with [] => Some s | x :: l' => match add s x with Some s => total add s l' | None => None end end.
Definition sums (add : Z -> Z -> option Z) (l : list Z) (s : Z) : Prop :=
  match l with [] => False | x :: l' => total add x l' = Some s end.
(* integers are added if the sum is in the range of i64 *)
Definition add_int (a b : Z) : option Z := if IntModel.fits (a + b) then Some (a + b)%Z else None.

(* v is the aggregate of the values vs.  Values that are no numbers do not count for sums. *)
Definition aggregated (F : floats) (a : aggregate) (vs : list value) (v : value) : Prop :=
  match a with
  | Count => v = (Int64, Z.of_nat (length vs)) /\ (Z.of_nat (length vs) <= IntModel.i64_max)%Z
  | Min => In v vs /\ forall w, In w vs -> ~ value_lt w v
  | Max => In v vs /\ forall w, In w vs -> ~ value_lt v w
  | Sum =>
      match f64s vs with
      | [] =>
          (f32s vs = [] /\ exists s, sums add_int (ints vs) s /\ v = (Int64, s)) \/
          (ints vs = [] /\ exists s, sums (add32 F) (f32s vs) s /\ v = (Float, s))
      | d :: ds =>
          exists s si s', sums (add64 F) (f64s vs) s /\
            (match ints vs with [] => si = s | _ => exists i, sums add_int (ints vs) i /\ add64 F s (int_to_64 F i) = Some si end) /\
            (match f32s vs with [] => s' = si | _ => exists f, sums (add32 F) (f32s vs) f /\ add64 F si (f32_to_64 F f) = Some s' end) /\
            v = (Double, s')
      end
  end.

(* C lists, without duplicates, the different combinations of the first m columns of the rows in P that
   belong to the group grp *)
Definition combinations (m : nat) (P : row -> Prop) (grp : row) (C : list row) : Prop :=
  table_of m (fun c => firstn (length grp) c = grp /\ exists r, P r /\ firstn m r = c) C.
(* the result of the aggregation of the column c over the different combinations of the first m columns,
   grouped by the first g columns: one row for every group *)
Definition aggregation (F : floats) (a : aggregate) (g c m : nat) (P : row -> Prop) (out : row) : Prop :=
  exists grp v C, out = grp ++ [v] /\ length grp = g /\ C <> [] /\ combinations m P grp C /\
    aggregated F a (map (fun r => nth c r (Id32, 0%Z)) C) v.
(* every group has an aggregate *)
Definition computable (F : floats) (a : aggregate) (g c m : nat) (P : row -> Prop) : Prop :=
  forall grp C, length grp = g -> C <> [] -> combinations m P grp C -> exists v, aggregated F a (map (fun r => nth c r (Id32, 0%Z)) C) v.
