(* Model of nemo-physical/src/columnar/operations/{join,union,subtract,filter,filter_constant,constant,
   pass}.rs.

   The trait ColumnScan (columnscan.rs:25-49) becomes a record of functions on a state.  The sub
   scans of an operator are owned by it (in the code they are shared cells; between the calls of
   reset, which the trie scans issue for all scans of a layer together, only the operator uses them).
   Functions with a loop take fuel; running out of fuel is the error Fuel. *)
From Coq Require Import List ZArith Bool.
From Verif Require Import ColumnModel.
Import ListNotations.
Local Open Scope nat_scope.

Record scanner : Type := mk_scanner {
  state : Type;
  s_next : nat -> state -> res (state * option Z);
  s_seek : nat -> Z -> state -> res (state * option Z);
  s_current : state -> res (option Z) }.

(* v[i] = x for a Vec *)
Fixpoint set_nth {A} (i : nat) (x : A) (l : list A) : list A :=
  match l, i with
  | [], _ => []
  | _ :: l', O => x :: l'
  | y :: l', S i' => y :: set_nth i' x l'
  end.

Definition opt_eqb (a b : option Z) : bool :=
  match a, b with Some x, Some y => (x =? y)%Z | None, None => true | _, _ => false end.

(* ColumnScanVector and ColumnScanRle as scans (columnscan.rs:52-77) *)
Definition column_scanner (k : kind) : scanner :=
  mk_scanner cscan (fun _ => cnext k) (fun _ => cseek k) ccurrent.

(* ColumnScanEnum: one of two kinds of scans *)
Definition either_scanner (A B : scanner) : scanner :=
  mk_scanner (state A + state B)
    (fun n s => match s with
                | inl a => bind (s_next A n a) (fun r => Ok (inl (fst r), snd r))
                | inr b => bind (s_next B n b) (fun r => Ok (inr (fst r), snd r))
                end)
    (fun n v s => match s with
                | inl a => bind (s_seek A n v a) (fun r => Ok (inl (fst r), snd r))
                | inr b => bind (s_seek B n v b) (fun r => Ok (inr (fst r), snd r))
                end)
    (fun s => match s with inl a => s_current A a | inr b => s_current B b end).

Section Operators.
Variable sc : scanner.
Notation S_ := (state sc).

(* ---------- pass.rs:25-58 ---------- *)
Definition pass_scanner : scanner := mk_scanner S_ (s_next sc) (s_seek sc) (s_current sc).

(* ---------- join.rs ---------- *)

(* ColumnScanJoin (join.rs:11-24) *)
Record join : Type := mk_join { j_scans : list S_; j_active : nat; j_value : option Z }.

(* ColumnScanJoin::new, reset (join.rs:29-38, 110-113) *)
Definition join_new (scans : list S_) : join := mk_join scans 0 None.

(* ColumnScanJoin::next_loop (join.rs:46-70) *)
Fixpoint next_loop (fuel : nat) (scans : list S_) (active : nat) (max : Z) (matched : nat)
  : res (list S_ * nat * option Z) :=
  if matched =? length scans then Ok (scans, active, Some max)
  else
    match fuel with
    | O => Fuel
    | S fuel' =>
        let active := (active + 1) mod length scans in
        bind (index scans active) (fun s =>
        bind (s_seek sc fuel' max s) (fun r =>
        let scans := set_nth active (fst r) scans in
        match snd r with
        | None => Ok (scans, active, None)
        | Some v =>
            if (v =? max)%Z then next_loop fuel' scans active max (matched + 1)
            else next_loop fuel' scans active v 1
        end))
    end.

Definition join_finish (fuel : nat) (j : join) (first : res (S_ * option Z)) : res (join * option Z) :=
  bind first (fun r =>
  let scans := set_nth (j_active j) (fst r) (j_scans j) in
  bind (match snd r with
        | Some v => next_loop fuel scans (j_active j) v 1
        | None => Ok (scans, j_active j, None)
        end) (fun q =>
  Ok (mk_join (fst (fst q)) (snd (fst q)) (snd q), snd q))).

(* ColumnScanJoin::next, seek, current (join.rs:79-108) *)
Definition join_next (fuel : nat) (j : join) : res (join * option Z) :=
  bind (index (j_scans j) (j_active j)) (fun s => join_finish fuel j (s_next sc fuel s)).
Definition join_seek (fuel : nat) (v : Z) (j : join) : res (join * option Z) :=
  bind (index (j_scans j) (j_active j)) (fun s => join_finish fuel j (s_seek sc fuel v s)).
Definition join_scanner : scanner := mk_scanner join join_next join_seek (fun j => Ok (j_value j)).

(* ---------- union.rs ---------- *)

(* ColumnScanUnion (union.rs:12-31) *)
Record union : Type := mk_union {
  u_scans : list S_; u_active : list nat; u_smallest : list nat; u_value : option Z }.

(* union.rs:37-52; the initial content of smallest_scans is irrelevant *)
Definition union_new (scans : list S_) (active : list nat) : union := mk_union scans active [] None.

(* the loop of ColumnScanUnion::next and ::seek (union.rs:65-86, 103-119); visit yields the value
   of a sub scan *)
Fixpoint union_loop (visit : S_ -> res (S_ * option Z)) (active : list nat) (scans : list S_)
    (smallest : list nat) (next : option Z) : res (list S_ * list nat * option Z) :=
  match active with
  | [] => Ok (scans, smallest, next)
  | i :: active' =>
      bind (index scans i) (fun s =>
      bind (visit s) (fun r =>
      let scans := set_nth i (fst r) scans in
      let value := snd r in
      let '(next, smallest) :=
        match next with
        | None => (value, smallest)
        | Some x =>
            match value with
            | Some y => if (y <? x)%Z then (Some y, []) else (next, smallest)
            | None => (next, smallest)
            end
        end in
      let smallest :=
        if match next with Some _ => opt_eqb next value | None => false end
        then smallest ++ [i] else smallest in
      union_loop visit active' scans smallest next))
  end.

Definition union_with (visit : S_ -> res (S_ * option Z)) (u : union) : res (union * option Z) :=
  bind (union_loop visit (u_active u) (u_scans u) [] None) (fun r =>
  Ok (mk_union (fst (fst r)) (u_active u) (snd (fst r)) (snd r), snd r)).

(* ColumnScanUnion::next, seek, current (union.rs:58-90, 98-128) *)
Definition union_next (fuel : nat) (u : union) : res (union * option Z) :=
  union_with (fun s => bind (s_current sc s) (fun c =>
                if opt_eqb c (u_value u) then s_next sc fuel s else Ok (s, c))) u.
Definition union_seek (fuel : nat) (v : Z) (u : union) : res (union * option Z) :=
  union_with (s_seek sc fuel v) u.
Definition union_scanner : scanner := mk_scanner union union_next union_seek (fun u => Ok (u_value u)).

(* ---------- subtract.rs ---------- *)

(* ColumnScanSubtract (subtract.rs:15-43) *)
Record subtract : Type := mk_subtract {
  t_main : S_; t_followers : list (option S_); t_subtract : list nat; t_follow : list nat;
  t_equal : list bool; t_active : list bool; t_value : option Z }.

Definition subtract_new (main : S_) (followers : list (option S_)) (sub follow : list nat) (active : list bool) : subtract :=
  mk_subtract main followers sub follow [] active None.

(* the inner loop of move_follow_scans (subtract.rs:84-102); the last component is None if the
   function returns because the main scan ends, and else the value and subtracted_values *)
Fixpoint subtract_pass (fuel : nat) (idx : list nat) (active : list bool) (main : S_)
    (fol : list (option S_)) (eq : list bool) (value : Z) (flag : bool)
  : res (S_ * list (option S_) * list bool * option (Z * bool)) :=
  match idx with
  | [] => Ok (main, fol, eq, Some (value, flag))
  | i :: idx' =>
      bind (index eq i) (fun _ =>
      let eq := set_nth i false eq in
      bind (index active i) (fun a =>
      if negb a then subtract_pass fuel idx' active main fol eq value flag
      else
        bind (index fol i) (fun o =>
        match o with
        | None => Panicked
        | Some s =>
            bind (s_seek sc fuel value s) (fun r =>
            let fol := set_nth i (Some (fst r)) fol in
            if opt_eqb (snd r) (Some value) then
              bind (s_next sc fuel main) (fun q =>
              match snd q with
              | None => Ok (fst q, fol, eq, None)
              | Some v => subtract_pass fuel idx' active (fst q) fol eq v true
              end)
            else subtract_pass fuel idx' active main fol eq value flag)
        end)))
  end.

(* subtract.rs:81-103 *)
Fixpoint subtract_while (fuel : nat) (idx : list nat) (active : list bool) (main : S_)
    (fol : list (option S_)) (eq : list bool) (value : Z)
  : res (S_ * list (option S_) * list bool * option Z) :=
  match fuel with
  | O => Fuel
  | S fuel' =>
      bind (subtract_pass fuel' idx active main fol eq value false) (fun r =>
      let '(main, fol, eq, o) := r in
      match o with
      | None => Ok (main, fol, eq, None)
      | Some (v, true) => subtract_while fuel' idx active main fol eq v
      | Some (v, false) => Ok (main, fol, eq, Some v)
      end)
  end.

(* subtract.rs:105-120 *)
Fixpoint follow_loop (fuel : nat) (idx : list nat) (active : list bool) (fol : list (option S_))
    (eq : list bool) (value : Z) : res (list (option S_) * list bool) :=
  match idx with
  | [] => Ok (fol, eq)
  | i :: idx' =>
      bind (index active i) (fun a =>
      if negb a then follow_loop fuel idx' active fol eq value
      else
        bind (index fol i) (fun o =>
        match o with
        | None => Panicked
        | Some s =>
            bind (s_seek sc fuel value s) (fun r =>
            let fol := set_nth i (Some (fst r)) fol in
            if opt_eqb (snd r) (Some value) then follow_loop fuel idx' active fol eq value
            else bind (index eq i) (fun _ => follow_loop fuel idx' active fol (set_nth i false eq) value))
        end))
  end.

(* ColumnScanSubtract::next and ::seek: the main scan, then move_follow_scans (subtract.rs:74-123,
   132-140, 147-155) *)
Definition subtract_finish (fuel : nat) (t : subtract) (first : res (S_ * option Z)) : res (subtract * option Z) :=
  bind first (fun r =>
  let put main fol eq v := mk_subtract main fol (t_subtract t) (t_follow t) eq (t_active t) v in
  match snd r with
  | None => Ok (put (fst r) (t_followers t) (t_equal t) None, None)
  | Some v =>
      bind (subtract_while fuel (t_subtract t) (t_active t) (fst r) (t_followers t) (t_active t) v) (fun q =>
      let '(main, fol, eq, o) := q in
      match o with
      | None => Ok (put main fol eq None, None)
      | Some v =>
          bind (follow_loop fuel (t_follow t) (t_active t) fol eq v) (fun f =>
          Ok (put main (fst f) (snd f) (Some v), Some v))
      end)
  end).
Definition subtract_next (fuel : nat) (t : subtract) : res (subtract * option Z) :=
  subtract_finish fuel t (s_next sc fuel (t_main t)).
Definition subtract_seek (fuel : nat) (v : Z) (t : subtract) : res (subtract * option Z) :=
  subtract_finish fuel t (s_seek sc fuel v (t_main t)).
Definition subtract_scanner : scanner :=
  mk_scanner subtract subtract_next subtract_seek (fun t => Ok (t_value t)).

(* ---------- filter.rs ---------- *)

(* ColumnScanFilter (filter.rs:15-32); the program is a test on values (see ExprModel.v: a value is
   kept if evaluate_bool gives Some(true)) *)
Record filter_scan : Type := mk_filter { f_scan : S_; f_value : option Z }.
Definition filter_new (s : S_) : filter_scan := mk_filter s None.

(* find_next (filter.rs:73-81) *)
Fixpoint find_next (keep : Z -> bool) (fuel : nat) (s : S_) : res (S_ * option Z) :=
  match fuel with
  | O => Fuel
  | S fuel' =>
      bind (s_next sc fuel' s) (fun r =>
      match snd r with
      | None => Ok (fst r, None)
      | Some v => if keep v then Ok (fst r, Some v) else find_next keep fuel' (fst r)
      end)
  end.

(* next, seek (filter.rs:90-93, 100-110): if the sub scan ends, seek returns before the current
   value is updated *)
Definition filter_next (keep : Z -> bool) (fuel : nat) (f : filter_scan) : res (filter_scan * option Z) :=
  bind (find_next keep fuel (f_scan f)) (fun r => Ok (mk_filter (fst r) (snd r), snd r)).
Definition filter_seek (keep : Z -> bool) (fuel : nat) (v : Z) (f : filter_scan) : res (filter_scan * option Z) :=
  bind (s_seek sc fuel v (f_scan f)) (fun r =>
  match snd r with
  | None => Ok (mk_filter (fst r) (f_value f), None)
  | Some x =>
      if keep x then Ok (mk_filter (fst r) (Some x), Some x)
      else bind (find_next keep fuel (fst r)) (fun r => Ok (mk_filter (fst r) (snd r), snd r))
  end).
Definition filter_scanner (keep : Z -> bool) : scanner :=
  mk_scanner filter_scan (filter_next keep) (filter_seek keep) (fun f => Ok (f_value f)).

(* ---------- filter_constant.rs ---------- *)

Inductive phase : Type := Start | Value | End.
(* ColumnScanFilterConstant (filter_constant.rs:22-36) *)
Record filter_constant : Type := mk_fc { c_scan : S_; c_phase : phase }.
Definition filter_constant_new (s : S_) : filter_constant := mk_fc s Start.

(* next, seek, current (filter_constant.rs:56-78, 84-103) *)
Definition fc_next (constant : Z) (fuel : nat) (f : filter_constant) : res (filter_constant * option Z) :=
  match c_phase f with
  | Start =>
      bind (s_seek sc fuel constant (c_scan f)) (fun r =>
      if opt_eqb (snd r) (Some constant) then Ok (mk_fc (fst r) Value, Some constant)
      else Ok (mk_fc (fst r) End, None))
  | Value => Ok (mk_fc (c_scan f) End, None)
  | End => Ok (f, None)
  end.
Definition fc_seek (constant : Z) (fuel : nat) (v : Z) (f : filter_constant) : res (filter_constant * option Z) :=
  let f := if (constant <? v)%Z then mk_fc (c_scan f) End else f in
  match c_phase f with
  | End => Ok (f, None)
  | _ => fc_next constant fuel (mk_fc (c_scan f) Start)
  end.
Definition fc_current (f : filter_constant) : res (option Z) :=
  match c_phase f with Value => s_current sc (c_scan f) | _ => Ok None end.
Definition filter_constant_scanner (constant : Z) : scanner :=
  mk_scanner filter_constant (fc_next constant) (fc_seek constant) fc_current.
End Operators.

(* ---------- constant.rs ---------- *)

(* ColumnScanConstant (constant.rs:21-30; new, next, seek, current: 36-41, 55-67, 74-93) *)
Record constant_scan : Type := mk_constant { k_value : option Z; k_phase : phase }.
Definition constant_new (v : option Z) : constant_scan := mk_constant v Start.
Definition constant_next (fuel : nat) (s : constant_scan) : res (constant_scan * option Z) :=
  match k_phase s with
  | Start => Ok (mk_constant (k_value s) Value, k_value s)
  | Value => Ok (mk_constant (k_value s) End, None)
  | End => Ok (s, None)
  end.
Definition constant_seek (fuel : nat) (v : Z) (s : constant_scan) : res (constant_scan * option Z) :=
  match k_value s with
  | None => Ok (s, None)
  | Some c =>
      let s := if (c <? v)%Z then mk_constant (k_value s) End else s in
      match k_phase s with
      | End => Ok (s, None)
      | _ => Ok (mk_constant (k_value s) Value, k_value s)
      end
  end.
Definition constant_current (s : constant_scan) : res (option Z) :=
  match k_phase s with Value => Ok (k_value s) | _ => Ok None end.
Definition constant_scanner : scanner := mk_scanner constant_scan constant_next constant_seek constant_current.
