(* Model of nemo-physical/src/tabular/operations/{join,union,subtract}.rs.

   An operation reads its input trie scans through their interface (TrieModel.triescan).  In the code
   the column scan of an operation borrows the column scans of the inputs (behind cells); here it is
   assembled from the states of the inputs for the time of a request, and the states are written back.
   The inputs are of one kind of trie scan: mixed inputs are covered by either_trie. *)
From Coq Require Import List ZArith Bool Arith.
From Verif Require Import ColumnModel ColumnSpec ScanModel TrieModel.
Import ListNotations.
Local Open Scope nat_scope.

(* TrieScanEnum (triescan.rs:60-138): one of two kinds of trie scans *)
Definition either_trie (A B : triescan) : triescan :=
  mk_triescan (tstate A + tstate B)
    (fun s => match s with inl a => ts_arity A a | inr b => ts_arity B b end)
    (fun s k => match s with inl a => ts_types A a k | inr b => ts_types B b k end)
    (fun s => match s with inl a => ts_layer A a | inr b => ts_layer B b end)
    (fun t s => match s with
                | inl a => bind (ts_down A t a) (fun a => Ok (inl a))
                | inr b => bind (ts_down B t b) (fun b => Ok (inr b)) end)
    (fun s => match s with
              | inl a => bind (ts_up A a) (fun a => Ok (inl a))
              | inr b => bind (ts_up B b) (fun b => Ok (inr b)) end)
    (fun n k t s => match s with
              | inl a => bind (ts_next A n k t a) (fun r => Ok (inl (fst r), snd r))
              | inr b => bind (ts_next B n k t b) (fun r => Ok (inr (fst r), snd r)) end)
    (fun n k t v s => match s with
              | inl a => bind (ts_seek A n k t v a) (fun r => Ok (inl (fst r), snd r))
              | inr b => bind (ts_seek B n k t v b) (fun r => Ok (inr (fst r), snd r)) end)
    (fun k t s => match s with inl a => ts_current A k t a | inr b => ts_current B k t b end).

(* column markers (operations.rs:48-58); position (operations.rs:76-81) *)
Definition marker : Type := nat.
Fixpoint position_of (x : marker) (l : list marker) : option nat :=
  match l with
  | [] => None
  | y :: l' => if x =? y then Some 0 else option_map S (position_of x l')
  end.

Section Operations.
Variable sub : triescan.
Notation T := (tstate sub).

(* the scan of a column of an input: trie_scans[relation].scan(column), for one storage type; the
   state carries the numbers of the relation and of the column *)
Definition sub_column (t : stype) : scanner :=
  mk_scanner (nat * nat * T)
    (fun n s => bind (ts_next sub n (snd (fst s)) t (snd s)) (fun r => Ok (fst s, fst r, snd r)))
    (fun n v s => bind (ts_seek sub n (snd (fst s)) t v (snd s)) (fun r => Ok (fst s, fst r, snd r)))
    (fun s => ts_current sub (snd (fst s)) t (snd s)).
Definition borrow (subs : list T) (ic : nat * nat) : res (nat * nat * T) :=
  bind (index subs (fst ic)) (fun s => Ok (ic, s)).
Definition give_back (scans : list (nat * nat * T)) (subs : list T) : list T :=
  fold_left (fun subs s => set_nth (fst (fst s)) (snd s) subs) scans subs.

(* trie_scans[i].down(t), trie_scans[i].up() for the listed i *)
Definition change (f : T -> res T) (subs : list T) (i : nat) : res (list T) :=
  bind (index subs i) (fun s => bind (f s) (fun s => Ok (set_nth i s subs))).

(* ---------- join.rs ---------- *)

(* the bindings of GeneratorJoin::new (join.rs:51-92).  The map from markers to columns is replaced by
   a search: for every output marker the columns (relation, column) with that marker, by relation. *)
Definition marked (x : marker) (i : nat) (ms : list marker) : list (nat * nat) :=
  flat_map (fun c => match nth_error ms c with Some y => if x =? y then [(i, c)] else [] | None => [] end) (seq 0 (length ms)).
Definition binding_of (inputs : list (list marker)) (x : marker) : list (nat * nat) :=
  flat_map (fun i => match nth_error inputs i with Some ms => marked x i ms | None => [] end) (seq 0 (length inputs)).
(* the checks (join.rs:68-81): the markers of an input have increasing positions in the output *)
Fixpoint ordered_in (output : list marker) (ms : list marker) : bool :=
  match ms with
  | x :: ((y :: _) as ms') =>
      match position_of x output, position_of y output with
      | Some p, Some q => (p <? q) && ordered_in output ms'
      | _, _ => false
      end
  | _ => true
  end.
(* the loop over the output (join.rs:83-90); an entry of the map can be removed only once *)
Fixpoint bindings_of (inputs : list (list marker)) (seen output : list marker) : res (list (list (nat * nat))) :=
  match output with
  | [] => Ok []
  | x :: output' =>
      match (if existsb (Nat.eqb x) seen then [] else binding_of inputs x) with
      | [] => Panicked
      | b => bind (bindings_of inputs (x :: seen) output') (fun bs => Ok (b :: bs))
      end
  end.
Definition join_bindings (output : list marker) (inputs : list (list marker)) : res (list (list (nat * nat))) :=
  if negb (forallb (ordered_in output) inputs) then Panicked else bindings_of inputs [] output.

(* TrieScanJoin (join.rs:186-219); j_marks holds active_scan and current_value of the column scans *)
Record tjoin : Type := mk_tjoin {
  tj_subs : list T; tj_bindings : list (list (nat * nat)); tj_types : list (list stype);
  tj_layer : option nat; tj_marks : list (stype -> nat * option Z) }.

(* possible types (join.rs:128-141) *)
Definition meet_types (subs : list T) (b : list (nat * nat)) : res (list stype) :=
  fold_res (fun l ic => bind (index subs (fst ic)) (fun s =>
      Ok (filter (fun t => existsb (stype_eqb t) (ts_types sub s (snd ic))) l))) all_types b.
(* generate for at least two inputs (join.rs:117-182) *)
Definition tjoin_new (bindings : list (list (nat * nat))) (subs : list T) : res tjoin :=
  bind (map_res (meet_types subs) bindings) (fun types =>
  Ok (mk_tjoin subs bindings types None (map (fun _ _ => (0, None)) bindings))).

(* next_layer in down *)
Definition below (o : option nat) : nat := match o with None => 0 | Some k => k + 1 end.
Definition above (k : nat) : option nat := match k with O => None | S k' => Some k' end.

(* down (join.rs:236-250), with its debug assertion *)
Definition tjoin_down (t : stype) (j : tjoin) : res tjoin :=
  let k := below (tj_layer j) in
  bind (index (tj_bindings j) k) (fun b =>
  bind (fold_res (change (ts_down sub t)) (tj_subs j) (map fst b)) (fun subs =>
  bind (index (tj_marks j) k) (fun m =>
  Ok (mk_tjoin subs (tj_bindings j) (tj_types j) (Some k) (set_nth k (upd t (0, None) m) (tj_marks j)))))).
(* up (join.rs:222-234) *)
Definition tjoin_up (j : tjoin) : res tjoin :=
  match tj_layer j with
  | None => Panicked
  | Some k =>
      bind (index (tj_bindings j) k) (fun b =>
      bind (fold_res (change (ts_up sub)) (tj_subs j) (map fst b)) (fun subs =>
      Ok (mk_tjoin subs (tj_bindings j) (tj_types j) (above k) (tj_marks j))))
  end.
(* a request to the column scan of a layer *)
Definition tjoin_ask (ask : forall sc : scanner, state sc -> res (state sc * option Z)) (k : nat) (t : stype) (j : tjoin)
  : res (tjoin * option Z) :=
  bind (index (tj_bindings j) k) (fun b =>
  bind (map_res (borrow (tj_subs j)) b) (fun scans =>
  bind (index (tj_marks j) k) (fun m =>
  bind (ask (join_scanner (sub_column t)) (mk_join (sub_column t) scans (fst (m t)) (snd (m t)))) (fun r =>
  Ok (mk_tjoin (give_back (j_scans _ (fst r)) (tj_subs j)) (tj_bindings j) (tj_types j) (tj_layer j)
        (set_nth k (upd t (j_active _ (fst r), j_value _ (fst r)) m) (tj_marks j)), snd r))))).
Definition join_trie : triescan :=
  mk_triescan tjoin (fun j => length (tj_bindings j))
    (fun j k => match nth_error (tj_types j) k with Some l => l | None => [] end)
    tj_layer tjoin_down tjoin_up
    (fun fuel => tjoin_ask (fun sc => s_next sc fuel))
    (fun fuel k t v => tjoin_ask (fun sc => s_seek sc fuel v) k t)
    (fun k t j => bind (index (tj_marks j) k) (fun m => Ok (snd (m t)))).

(* generate (join.rs:96-182): an input is None if its table is empty *)
Fixpoint all_some {A} (l : list (option A)) : option (list A) :=
  match l with
  | [] => Some []
  | o :: l' => match o, all_some l' with Some a, Some k => Some (a :: k) | _, _ => None end
  end.
Definition join_generate (bindings : list (list (nat * nat))) (inputs : list (option T)) : res (option (T + tjoin)) :=
  match all_some inputs with
  | None => Ok None
  | Some [] => Ok None
  | Some [s] => Ok (Some (inl s))
  | Some subs => bind (tjoin_new bindings subs) (fun j => Ok (Some (inr j)))
  end.

(* ---------- union.rs ---------- *)

(* TrieScanUnion (union.rs:114-130); tu_values holds current_value of the column scans *)
Record tunion : Type := mk_tunion {
  tu_subs : list T; tu_active : list (list nat); tu_layer : option nat; tu_values : list (stype -> option Z) }.
(* generate for at least two inputs (union.rs:55-110), with its debug assertion *)
Definition tunion_new (subs : list T) : res tunion :=
  match subs with
  | [] => Panicked
  | s0 :: _ =>
      let n := ts_arity sub s0 in
      if negb (forallb (fun s => ts_arity sub s =? n) subs) then Panicked
      else Ok (mk_tunion subs (seq 0 (length subs) :: repeat [] n) None (repeat (fun _ => None) n))
  end.
(* generate (union.rs:33-53): empty tables are ignored *)
Definition union_generate (inputs : list (option T)) : res (option (T + tunion)) :=
  match flat_map (fun o => match o with Some s => [s] | None => [] end) inputs with
  | [] => Ok None
  | [s] => Ok (Some (inl s))
  | subs => bind (tunion_new subs) (fun u => Ok (Some (inr u)))
  end.
(* down (union.rs:149-160) *)
Definition tunion_down (t : stype) (u : tunion) : res tunion :=
  let k := below (tu_layer u) in
  bind (index (tu_active u) k) (fun a =>
  bind (fold_res (change (ts_down sub t)) (tu_subs u) a) (fun subs =>
  bind (index (tu_values u) k) (fun v =>
  Ok (mk_tunion subs (tu_active u) (Some k) (set_nth k (upd t None v) (tu_values u)))))).
(* up (union.rs:133-147) *)
Definition up_at (o : option nat) (s : T) : res T :=
  match ts_layer sub s, o with
  | Some a, Some b => if a =? b then ts_up sub s else Ok s
  | None, None => ts_up sub s
  | _, _ => Ok s
  end.
Definition tunion_up (u : tunion) : res tunion :=
  bind (map_res (up_at (tu_layer u)) (tu_subs u)) (fun subs =>
  match tu_layer u with
  | None => Panicked
  | Some k => Ok (mk_tunion subs (tu_active u) (above k) (tu_values u))
  end).
(* a request to the column scan of a layer; the smallest scans are stored for the next layer *)
Definition tunion_ask (ask : forall sc : scanner, state sc -> res (state sc * option Z)) (k : nat) (t : stype) (u : tunion)
  : res (tunion * option Z) :=
  bind (map_res (borrow (tu_subs u)) (map (fun i => (i, k)) (seq 0 (length (tu_subs u))))) (fun scans =>
  bind (index (tu_active u) k) (fun a =>
  bind (index (tu_active u) (k + 1)) (fun small =>
  bind (index (tu_values u) k) (fun v =>
  bind (ask (union_scanner (sub_column t)) (mk_union (sub_column t) scans a small (v t))) (fun r =>
  Ok (mk_tunion (give_back (u_scans _ (fst r)) (tu_subs u)) (set_nth (k + 1) (u_smallest _ (fst r)) (tu_active u)) (tu_layer u)
        (set_nth k (upd t (u_value _ (fst r)) v) (tu_values u)), snd r)))))).
(* possible_types (union.rs:170-176) *)
Definition tunion_types (u : tunion) (k : nat) : list stype :=
  filter (fun t => existsb (fun s => existsb (stype_eqb t) (ts_types sub s k)) (tu_subs u)) all_types.
Definition union_trie : triescan :=
  mk_triescan tunion (fun u => match tu_subs u with s :: _ => ts_arity sub s | [] => 0 end) tunion_types
    tu_layer tunion_down tunion_up
    (fun fuel => tunion_ask (fun sc => s_next sc fuel))
    (fun fuel k t v => tunion_ask (fun sc => s_seek sc fuel v) k t)
    (fun k t u => bind (index (tu_values u) k) (fun v => Ok (v t))).

(* ---------- subtract.rs ---------- *)

(* layer_maps of GeneratorSubtract::new (subtract.rs:35-46), with its debug assertion *)
Fixpoint sorted_le (l : list nat) : bool :=
  match l with x :: ((y :: _) as l') => (x <=? y) && sorted_le l' | _ => true end.
Definition layer_map (output : list marker) (input : list marker) : res (list nat) :=
  bind (map_res (fun x => match position_of x output with Some p => Ok p | None => Panicked end) input) (fun m =>
  if sorted_le m then Ok m else Panicked).

(* TrieScanSubtract (subtract.rs:162-184): the main scan is the first of ts_subs *)
Record tsubtract : Type := mk_tsubtract {
  tm_subs : list T; tm_maps : list (list nat); tm_active : list (list bool); tm_values : list (stype -> option Z) }.
(* generate for at least one subtracted table, of arity not 0 (subtract.rs:84-158) *)
Definition tsubtract_new (maps : list (list nat)) (main : T) (others : list T) : tsubtract :=
  let n := ts_arity sub main in
  mk_tsubtract (main :: others) maps (repeat true (length others) :: repeat [] n) (repeat (fun _ => None) n).
(* generate (subtract.rs:50-83): the main table is the first input *)
Definition subtract_generate (maps : list (list nat)) (inputs : list (option T)) : res (option (T + tsubtract)) :=
  match inputs with
  | [] => Panicked
  | o :: rest =>
      let used := flat_map (fun om => match fst om with Some s => [(s, snd om)] | None => [] end) (combine rest maps) in
      match o with
      | None => Ok None
      | Some main =>
          match used with
          | [] => Ok (Some (inl main))
          | _ =>
              if (ts_arity sub main =? 0) || existsb (fun sm => ts_arity sub (fst sm) =? 0) used then Ok None
              else Ok (Some (inr (tsubtract_new (map snd used) main (map fst used))))
          end
      end
  end.
Definition main_of (m : tsubtract) : res T := index (tm_subs m) 0.
(* the layer of the follower for a layer of the result (subtract.rs:110-115) *)
Definition used_layer (map : list nat) (k : nat) : option nat := position_of k map.

(* the loop of down (subtract.rs:214-229) over the followers from number i on *)
Fixpoint subtract_down (t : stype) (k : nat) (active : list bool) (maps : list (list nat)) (i : nat) (subs : list T) : res (list T) :=
  match maps with
  | [] => Ok subs
  | map :: maps' =>
      bind (index active i) (fun a =>
      if negb a then subtract_down t k active maps' (i + 1) subs
      else
        bind (index subs (i + 1)) (fun s =>
        bind (index map (below (ts_layer sub s))) (fun l =>
        if l =? k then
          bind (ts_down sub t s) (fun s => subtract_down t k active maps' (i + 1) (set_nth (i + 1) s subs))
        else subtract_down t k active maps' (i + 1) subs)))
  end.
(* down (subtract.rs:209-233), with its debug assertion *)
Definition tsubtract_down (t : stype) (m : tsubtract) : res tsubtract :=
  bind (main_of m) (fun main =>
  let k := below (ts_layer sub main) in
  if ts_arity sub main <=? k then Panicked
  else
    bind (index (tm_active m) k) (fun active =>
    bind (subtract_down t k active (tm_maps m) 0 (tm_subs m)) (fun subs =>
    bind (change (ts_down sub t) subs 0) (fun subs =>
    bind (index (tm_values m) k) (fun v =>
    Ok (mk_tsubtract subs (tm_maps m) (tm_active m) (set_nth k (upd t None v) (tm_values m)))))))).
(* up (subtract.rs:190-207) *)
Fixpoint subtract_up (k : nat) (maps : list (list nat)) (i : nat) (subs : list T) : res (list T) :=
  match maps with
  | [] => Ok subs
  | map :: maps' =>
      bind (index subs (i + 1)) (fun s =>
      match ts_layer sub s with
      | None => subtract_up k maps' (i + 1) subs
      | Some l =>
          bind (index map l) (fun used =>
          if k =? used then bind (ts_up sub s) (fun s => subtract_up k maps' (i + 1) (set_nth (i + 1) s subs))
          else subtract_up k maps' (i + 1) subs)
      end)
  end.
Definition tsubtract_up (m : tsubtract) : res tsubtract :=
  bind (main_of m) (fun main =>
  match ts_layer sub main with
  | None => Panicked
  | Some k =>
      bind (subtract_up k (tm_maps m) 0 (tm_subs m)) (fun subs =>
      bind (change (ts_up sub) subs 0) (fun subs =>
      Ok (mk_tsubtract subs (tm_maps m) (tm_active m) (tm_values m))))
  end).
(* the followers of a layer, those subtracted and those followed (subtract.rs:101-131) *)
Fixpoint followers (subs : list T) (maps : list (list nat)) (k i : nat) : res (list (option (nat * nat * T)) * list nat * list nat) :=
  match maps with
  | [] => Ok ([], [], [])
  | map :: maps' =>
      bind (followers subs maps' k (i + 1)) (fun r =>
      let '(fs, sub, fol) := r in
      match used_layer map k with
      | None => Ok (None :: fs, sub, fol)
      | Some u =>
          bind (borrow subs (i + 1, u)) (fun s =>
          if u =? length map - 1 then Ok (Some s :: fs, i :: sub, fol) else Ok (Some s :: fs, sub, i :: fol))
      end)
  end.
Definition give_back_some (scans : list (option (nat * nat * T))) (subs : list T) : list T :=
  fold_left (fun subs o => match o with Some s => set_nth (fst (fst s)) (snd s) subs | None => subs end) scans subs.
Definition tsubtract_ask (ask : forall sc : scanner, state sc -> res (state sc * option Z)) (k : nat) (t : stype) (m : tsubtract)
  : res (tsubtract * option Z) :=
  bind (borrow (tm_subs m) (0, k)) (fun main =>
  bind (followers (tm_subs m) (tm_maps m) k 0) (fun fsf =>
  bind (index (tm_active m) k) (fun active =>
  bind (index (tm_active m) (k + 1)) (fun equal =>
  bind (index (tm_values m) k) (fun v =>
  bind (ask (subtract_scanner (sub_column t))
          (mk_subtract (sub_column t) main (fst (fst fsf)) (snd (fst fsf)) (snd fsf) equal active (v t))) (fun r =>
  Ok (mk_tsubtract (give_back [t_main _ (fst r)] (give_back_some (t_followers _ (fst r)) (tm_subs m))) (tm_maps m)
        (set_nth (k + 1) (t_equal _ (fst r)) (tm_active m))
        (set_nth k (upd t (t_value _ (fst r)) v) (tm_values m)), snd r))))))).
Definition subtract_trie : triescan :=
  mk_triescan tsubtract
    (fun m => match tm_subs m with s :: _ => ts_arity sub s | [] => 0 end)
    (fun m k => match tm_subs m with s :: _ => ts_types sub s k | [] => [] end)
    (fun m => match tm_subs m with s :: _ => ts_layer sub s | [] => None end)
    tsubtract_down tsubtract_up
    (fun fuel => tsubtract_ask (fun sc => s_next sc fuel))
    (fun fuel k t v => tsubtract_ask (fun sc => s_seek sc fuel v) k t)
    (fun k t m => bind (index (tm_values m) k) (fun v => Ok (v t))).
End Operations.
