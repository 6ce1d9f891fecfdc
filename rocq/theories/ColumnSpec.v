(* Specification of columns and scans: a scan is a cursor on a list of values. *)
From Coq Require Import List ZArith Bool Sorted.
Import ListNotations.
Local Open Scope nat_scope.

(* the values at positions a, ..., b-1 *)
Definition slice (data : list Z) (a b : nat) : list Z := firstn (b - a) (skipn a data).

(* A cursor on the positions ca, ..., cb-1: before the first of them (None), on one of them, or
   behind the last one (Some cb). *)
Record cursor : Type := mk_cursor { ca : nat; cb : nat; cat : option nat }.

Inductive action : Type := Next | Seek (v : Z) | Narrow (a b : nat) | Reset.

(* the number of values at the beginning that are smaller than v *)
Fixpoint smaller_prefix (v : Z) (l : list Z) : nat :=
  match l with
  | [] => 0
  | x :: l' => if (x <? v)%Z then S (smaller_prefix v l') else 0
  end.

Definition step (data : list Z) (x : action) (c : cursor) : cursor :=
  match x with
  | Next =>
      mk_cursor (ca c) (cb c)
        (Some (match cat c with None => ca c | Some p => Nat.min (p + 1) (cb c) end))
  | Seek v =>
      let p := match cat c with None => ca c | Some p => p end in
      mk_cursor (ca c) (cb c) (Some (p + smaller_prefix v (slice data p (cb c))))
  | Narrow a b => mk_cursor a b None
  | Reset => mk_cursor (ca c) (cb c) None
  end.

(* what can be observed *)
Definition position (c : cursor) : option nat :=
  match cat c with Some p => if p <? cb c then Some p else None | None => None end.
Definition value (data : list Z) (c : cursor) : option Z :=
  match position c with Some p => nth_error data p | None => None end.

(* what callers must respect: intervals lie within the column, and seek is only used while the
   values of the interval are sorted *)
Definition permitted (data : list Z) (x : action) (c : cursor) : Prop :=
  match x with
  | Next | Reset => True
  | Seek v => Sorted Z.le (slice data (ca c) (cb c))
  | Narrow a b => a <= b <= length data
  end.
