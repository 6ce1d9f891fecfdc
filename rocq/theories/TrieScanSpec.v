(* Specification of partial trie scans: what it means that a scan explores a tree of values. *)
From Coq Require Import List ZArith Bool Sorted.
From Verif Require Import ColumnModel ScanModel ScanSpec TrieModel.
Import ListNotations.
Local Open Scope nat_scope.

(* A tree: for every path (the values chosen so far) and every storage type the values that can
   follow, in increasing order.  There may be dead ends. *)
Definition tree : Type := row -> stype -> list Z.

(* where a scan is in one layer: the type chosen, the current value and the values to come *)
Definition frame : Type := (stype * option Z * list Z)%type.
Definition f_type (f : frame) : stype := fst (fst f).
Definition f_current (f : frame) : option Z := snd (fst f).
Definition f_value (f : frame) : value := (f_type f, match f_current f with Some v => v | None => 0%Z end).
(* the path of the current values of some layers *)
Definition path (fs : list frame) : row := map f_value fs.
Definition on_values (fs : list frame) : Prop := forall f, In f fs -> f_current f <> None.

(* the request and the answer in the topmost layer *)
Definition ts_ask (sc : triescan) (q : request) (fuel k : nat) (t : stype) (s : tstate sc) : res (tstate sc * option Z) :=
  match q with RNext => ts_next sc fuel k t s | RSeek v => ts_seek sc fuel k t v s end.

(* R relates the states of the scan to the frames of its layers, from the first layer on. *)
Record simulates (n : nat) (types : nat -> list stype) (tau : tree) (sc : triescan) (strict : bool)
    (R : tstate sc -> list frame -> Prop) : Prop := {
  e_arity : forall s fs, R s fs -> ts_arity sc s = n;
  e_types : forall s fs k, R s fs -> k < n -> ts_types sc s k = types k;
  e_layer : forall s fs, R s fs -> length fs <= n /\ ts_layer sc s = layer_of fs;
  e_up : forall s fs f, R s (fs ++ [f]) -> exists s', ts_up sc s = Ok s' /\ R s' fs;
  e_down : forall s fs t, R s fs -> on_values fs -> length fs < n ->
    exists s', ts_down sc t s = Ok s' /\ R s' (fs ++ [(t, None, tau (path fs) t)]);
  e_ask : forall q s (fs : list frame) t c l, R s (fs ++ [(t, c, l)]) ->
    exists enough s', let l' := after q c l in
      (forall fuel, enough <= fuel -> ts_ask sc q fuel (length fs) t s = Ok (s', hd_error l')) /\
      R s' (fs ++ [(t, hd_error l', tl l')]);
  e_current : forall s (fs : list frame) t c l (gs : list frame), R s (fs ++ (t, c, l) :: gs) -> strict = true \/ c <> None ->
    ts_current sc (length fs) t s = Ok c }.

(* the conditions on the tree: values in increasing order, only of the possible types *)
Record proper (n : nat) (types : nat -> list stype) (tau : tree) : Prop := {
  p_increasing : forall p t, length p < n -> increasing (tau p t);
  p_types : forall p t, length p < n -> tau p t <> [] -> In t (types (length p));
  p_sorted : forall k, k < n -> StronglySorted (fun s t => order s < order t) (types k) }.

(* the scan s, before any call, explores the tree *)
Definition explores (n : nat) (types : nat -> list stype) (tau : tree) (sc : triescan) (strict : bool) (s : tstate sc) : Prop :=
  proper n types tau /\ exists R, simulates n types tau sc strict R /\ R s [].

(* the rows of a tree: all values on the way are there *)
Fixpoint in_tree (tau : tree) (p r : row) : Prop :=
  match r with
  | [] => True
  | v :: r' => In (snd v) (tau p (fst v)) /\ in_tree tau (p ++ [v]) r'
  end.
