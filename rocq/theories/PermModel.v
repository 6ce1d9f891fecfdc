(** Model of nemo-physical/src/util/mapping/{permutation,ordered_choice}.rs. No proofs here.
    [None] means panic (index out of bounds, failed [expect]). *)
From Coq Require Import List Arith Bool.
Import ListNotations.

Fixpoint set_nth {A} (l : list A) (i : nat) (x : A) : option (list A) :=
  match l, i with
  | [], _ => None
  | _ :: l', 0 => Some (x :: l')
  | y :: l', S i' => option_map (cons y) (set_nth l' i' x)
  end.

(** permutation.rs:12-16. Both directions are stored. *)
Record perm := mkPerm { idx_to_val : list nat; val_to_idx : list nat }.
(** [Default] *)
Definition perm_default : perm := mkPerm [] [].

(** permutation.rs:18-26 [invert] *)
Fixpoint invert_loop (input : list nat) (k : nat) (result : list nat) : option (list nat) :=
  match input with
  | [] => Some result
  | v :: rest => match set_nth result v k with None => None | Some r => invert_loop rest (S k) r end
  end.
Definition invert_vec (input : list nat) : option (list nat) := invert_loop input 0 (repeat 0 (length input)).

(** permutation.rs:31-37, 46-52: the [while let Some(last) = vec.last()] loop, on the reversed vector *)
Fixpoint strip_rev (rv : list nat) : list nat :=
  match rv with
  | [] => []
  | last :: rest => if last =? length rv - 1 then strip_rev rest else rv
  end.
Definition strip (v : list nat) : list nat := rev (strip_rev (rev v)).

(** permutation.rs:30-43 [from_vector]: [vec[i]] is mapped to [i] *)
Definition from_vector (v : list nat) : option perm :=
  let w := strip v in option_map (fun inv => mkPerm inv w) (invert_vec w).
(** permutation.rs:45-58 [from_idx_to_val] *)
Definition from_idx_to_val (v : list nat) : option perm :=
  let w := strip v in option_map (fun inv => mkPerm w inv) (invert_vec w).

(** permutation.rs:61-73 [from_map]; the list gives the entries in the (unspecified) iteration order *)
Fixpoint map_loop (m : list (nat * nat)) (v : list nat) : option (list nat) :=
  match m with
  | [] => Some v
  | (k, x) :: rest =>
      let v' := v ++ seq (length v) (S k - length v) in
      match set_nth v' k x with None => None | Some v'' => map_loop rest v'' end
  end.
Definition from_map (m : list (nat * nat)) : option perm :=
  match map_loop m [] with None => None | Some v => from_idx_to_val v end.

(** permutation.rs:76-81 [from_unsorted]. [slice::sort_by] is a stable sort: modelled by insertion sort
    of the indices (a later index is put behind those with equal values). *)
Fixpoint insert_idx {A} (le : A -> A -> bool) (d : A) (vals : list A) (i : nat) (l : list nat) : list nat :=
  match l with
  | [] => [i]
  | j :: rest => if le (nth j vals d) (nth i vals d) then j :: insert_idx le d vals i rest else i :: l
  end.
Definition sort_idx {A} (le : A -> A -> bool) (d : A) (vals : list A) : list nat :=
  fold_left (fun acc i => insert_idx le d vals i acc) (seq 0 (length vals)) [].
Definition from_unsorted {A} (le : A -> A -> bool) (d : A) (vals : list A) : option perm :=
  from_vector (sort_idx le d vals).

(** permutation.rs:170-172 [get] *)
Definition get (p : perm) (i : nat) : nat := match nth_error (idx_to_val p) i with Some v => v | None => i end.

(** permutation.rs:84-92 [last_mapped] *)
Fixpoint last_mapped_loop (l : list nat) (n : nat) (* reversed list, its length *) : option nat :=
  match l with
  | [] => None
  | v :: rest => if n - 1 =? v then last_mapped_loop rest (n - 1) else Some (n - 1)
  end.
Definition last_mapped (p : perm) : option nat := last_mapped_loop (rev (idx_to_val p)) (length (idx_to_val p)).

(** permutation.rs:97-123 [find_cycles]. [tmp[i].take()] sets the entry to [None]. The inner loop gets
    fuel; running out of it is reported as [None] like a panic. *)
Fixpoint cycle_loop (fuel : nat) (tmp : list (option nat)) (i curr : nat) (cycle : list nat)
  : option (list (option nat) * list nat) :=
  match fuel with
  | 0 => None
  | S f =>
      if curr =? i then Some (tmp, cycle)
      else match nth_error tmp curr with
           | Some (Some next) =>
               match set_nth tmp curr None with
               | None => None
               | Some tmp' => cycle_loop f tmp' i next (cycle ++ [curr])
               end
           | _ => None
           end
  end.
Fixpoint cycles_loop (todo : list nat) (tmp : list (option nat)) (cycles : list (list nat)) : option (list (list nat)) :=
  match todo with
  | [] => Some cycles
  | i :: rest =>
      match nth_error tmp i with
      | None => None
      | Some None => cycles_loop rest tmp cycles
      | Some (Some c) =>
          if c =? i then cycles_loop rest tmp cycles
          else match cycle_loop (S (length tmp)) tmp i c [i] with
               | None => None
               | Some (tmp', cy) => cycles_loop rest tmp' (cycles ++ [cy])
               end
      end
  end.
Definition find_cycles (p : perm) : option (list (list nat)) :=
  cycles_loop (seq 0 (length (idx_to_val p))) (map Some (idx_to_val p)) [].

(** [iter().position(..)] *)
Fixpoint position {A} (eqb : A -> A -> bool) (x : A) (l : list A) : option nat :=
  match l with
  | [] => None
  | y :: r => if eqb x y then Some 0 else option_map S (position eqb x r)
  end.

(** permutation.rs:134-148 [from_transformation] (the length assertion is a debug assertion) *)
Fixpoint trans_map {A} (eqb : A -> A -> bool) (source target : list A) (k : nat) : option (list (nat * nat)) :=
  match source with
  | [] => Some []
  | s :: rest => match position eqb s target, trans_map eqb rest target (S k) with
                 | Some j, Some m => Some ((k, j) :: m)
                 | _, _ => None
                 end
  end.
Definition from_transformation {A} (eqb : A -> A -> bool) (source target : list A) : option perm :=
  match trans_map eqb source target 0 with None => None | Some m => from_map m end.

(** permutation.rs:151-156 [invert] *)
Definition invert (p : perm) : perm := mkPerm (val_to_idx p) (idx_to_val p).

(** permutation.rs:159-167 [permute] *)
Fixpoint permute_loop {A} (l : list nat) (k : nat) (v result : list A) : option (list A) :=
  match l with
  | [] => Some result
  | value :: rest =>
      match nth_error v k with
      | None => None
      | Some x => match set_nth result value x with None => None | Some r => permute_loop rest (S k) v r end
      end
  end.
Definition permute {A} (p : perm) (v : list A) : option (list A) := permute_loop (idx_to_val p) 0 v v.

(** permutation.rs:180-186 [chain_permutation] *)
Definition chain (p q : perm) : option perm :=
  from_idx_to_val (map (fun i => get q (get p i)) (seq 0 (max (length (idx_to_val p)) (length (idx_to_val q))))).

(** permutation.rs:188-190 [is_identity] *)
Definition is_identity (p : perm) : bool :=
  forallb (fun iv => fst iv =? snd iv) (combine (seq 0 (length (idx_to_val p))) (idx_to_val p)).

(** permutation.rs:126-128, 232-236 [eq] *)
Definition perm_eqb (p q : perm) : bool := if list_eq_dec Nat.eq_dec (val_to_idx p) (val_to_idx q) then true else false.

(** ** ordered_choice.rs [SortedChoice]: the map is a list of entries with distinct keys *)
Record choice := mkChoice { ch_map : list (nat * nat); ch_domain : nat }.

(** HashMap insert *)
Fixpoint insert_map (m : list (nat * nat)) (k v : nat) : list (nat * nat) :=
  match m with
  | [] => [(k, v)]
  | (k', v') :: r => if k' =? k then (k, v) :: r else (k', v') :: insert_map r k v
  end.
(** ordered_choice.rs:37-51 [from_transformation] *)
Fixpoint choice_loop {A} (eqb : A -> A -> bool) (source target : list A) (k : nat) (m : list (nat * nat)) : option (list (nat * nat)) :=
  match target with
  | [] => Some m
  | t :: rest => match position eqb t source with
                 | None => None
                 | Some i => choice_loop eqb source rest (S k) (insert_map m i k)
                 end
  end.
Definition choice_from_transformation {A} (eqb : A -> A -> bool) (source target : list A) : option choice :=
  option_map (fun m => mkChoice m (length source)) (choice_loop eqb source target 0 []).

(** ordered_choice.rs:56-64 [as_vector] *)
Fixpoint fill_inv (m : list (nat * nat)) (v : list nat) : option (list nat) :=
  match m with
  | [] => Some v
  | (i, x) :: r => match set_nth v x i with None => None | Some v' => fill_inv r v' end
  end.
Definition as_vector (c : choice) : option (list nat) := fill_inv (ch_map c) (repeat 0 (length (ch_map c))).

(** ordered_choice.rs:87-94 [transform] *)
Fixpoint transform_loop {A} (m : list (nat * nat)) (v result : list A) : option (list A) :=
  match m with
  | [] => Some result
  | (i, x) :: r => match nth_error v i with
                   | None => None
                   | Some y => match set_nth result x y with None => None | Some res => transform_loop r v res end
                   end
  end.
Definition transform {A} (c : choice) (v : list A) : option (list A) :=
  transform_loop (ch_map c) v (firstn (length (ch_map c)) v).

(** ordered_choice.rs:73-75 [is_permutation], 133-139 [is_identity] *)
Definition choice_is_permutation (c : choice) : bool := length (ch_map c) =? ch_domain c.
Definition choice_is_identity (c : choice) : bool :=
  choice_is_permutation c && forallb (fun kv => fst kv =? snd kv) (ch_map c).
(** ordered_choice.rs:120-122 [get_partial] *)
Definition choice_get (c : choice) (i : nat) : option nat :=
  option_map snd (find (fun kv => fst kv =? i) (ch_map c)).
(** ordered_choice.rs:124-131 [chain_permutation] *)
Definition choice_chain (c : choice) (p : perm) : choice :=
  mkChoice (map (fun kv => (fst kv, get p (snd kv))) (ch_map c)) (ch_domain c).
