(* Specification of scans: what it means that a scan lists a sorted sequence of values. *)
From Coq Require Import List ZArith Bool Sorted.
From Verif Require Import ColumnModel ScanModel.
Import ListNotations.
Local Open Scope nat_scope.

(* strictly increasing *)
Definition increasing (l : list Z) : Prop := StronglySorted Z.lt l.

Inductive request : Type := RNext | RSeek (v : Z).

(* the current value followed by the values still to come *)
Definition ahead (c : option Z) (l : list Z) : list Z := match c with Some x => x :: l | None => l end.
(* without the values below v at the beginning *)
Fixpoint from (v : Z) (l : list Z) : list Z :=
  match l with
  | [] => []
  | x :: l' => if (x <? v)%Z then from v l' else l
  end.
(* what remains after a request: its first value becomes the current one and is returned *)
Definition after (q : request) (c : option Z) (l : list Z) : list Z :=
  match q with RNext => l | RSeek v => from v (ahead c l) end.

Definition ask (sc : scanner) (q : request) (fuel : nat) (s : state sc) : res (state sc * option Z) :=
  match q with RNext => s_next sc fuel s | RSeek v => s_seek sc fuel v s end.

(* In the state s, with the current value c and the values l to come, the requests h are answered
   as they should be, for every sufficient amount of fuel; P holds after every request (for the
   state reached and the value returned); the scan reports its current value: always (strict), or
   whenever there is one (not strict). *)
Fixpoint answers (sc : scanner) (strict : bool) (P : state sc -> option Z -> Prop) (s : state sc)
    (c : option Z) (l : list Z) (h : list request) : Prop :=
  (strict = true \/ c <> None -> s_current sc s = Ok c) /\
  match h with
  | [] => True
  | q :: h' =>
      exists enough s', let l' := after q c l in
        (forall fuel, enough <= fuel -> ask sc q fuel s = Ok (s', hd_error l')) /\
        P s' (hd_error l') /\
        answers sc strict P s' (hd_error l') (tl l') h'
  end.

(* The scan s, in its initial state, lists l: it answers every sequence of requests whose values are
   in the domain D (the values of the column type). *)
Definition lists_with (D : Z -> Prop) (sc : scanner) (strict : bool) (P : state sc -> option Z -> Prop)
    (s : state sc) (l : list Z) : Prop :=
  increasing l /\ (forall x, In x l -> D x) /\
  forall h, (forall v, In (RSeek v) h -> D v) -> answers sc strict P s None l h.
Definition lists (D : Z -> Prop) (sc : scanner) (strict : bool) (s : state sc) (l : list Z) : Prop :=
  lists_with D sc strict (fun _ _ => True) s l.

(* What the union reports besides values (get_smallest_scans): the active sub scans whose lists
   contain the value returned, each once. *)
Definition union_report {sc : scanner} (Fs : list (list Z)) (u : union sc) (c : option Z) : Prop :=
  match c with
  | Some v => NoDup (u_smallest _ u) /\ forall i, In i (u_smallest _ u) <-> In i (u_active _ u) /\ exists F, nth_error Fs i = Some F /\ In v F
  | None => u_smallest _ u = []
  end.

(* What the difference reports besides values (equal_values): nothing for the followers that are
   subtracted; for those followed whether they are active and contain the value returned; no change
   for the others. *)
Definition subtract_report {sc : scanner} (F : nat -> list Z) (t : subtract sc) (c : option Z) : Prop :=
  match c with
  | None => True
  | Some v =>
      (forall i, In i (t_subtract _ t) -> nth_error (t_equal _ t) i = Some false) /\
      (forall i, In i (t_follow _ t) -> ~ In i (t_subtract _ t) ->
         (nth_error (t_equal _ t) i = Some true <-> nth_error (t_active _ t) i = Some true /\ In v (F i))) /\
      length (t_equal _ t) = length (t_active _ t) /\
      (forall i, ~ In i (t_subtract _ t) -> ~ In i (t_follow _ t) -> nth_error (t_equal _ t) i = nth_error (t_active _ t) i)
  end.
