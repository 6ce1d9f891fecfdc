(* Model of the aggregation of tables: nemo-physical/src/tabular/operations/{prune,aggregate}.rs,
   Trie::from_full_trie_scan (tabular/trie.rs:340-395), nemo-physical/src/aggregates/** and the order of
   columns chosen by nemo/src/execution/planning/operations/aggregation.rs.

   TrieScanPrune is modelled as the full trie scan that aggregation reads (the trait TrieScan); its use
   as a partial trie scan (ColumnScanPrune) is not.  In that use highest_peeked_layer is None between the
   calls (clear_column_peeks), so the field and the branch in lines 499-513 are left out. *)
From Coq Require Import List ZArith Bool Arith.
From Verif Require Import ColumnModel ScanModel TrieModel OpModel ProjModel.
From Verif Require IntModel.
Import ListNotations.
Local Open Scope nat_scope.

(* trait TrieScan (triescan.rs:114-132) *)
Record fullscan : Type := mk_fullscan {
  fstate : Type;
  fu_columns : fstate -> nat;
  fu_advance : nat -> nat -> fstate -> res (fstate * option nat);
  fu_value : nat -> nat -> fstate -> res (fstate * value) }.

(* ---------- prune.rs ---------- *)

Section Prune.
Variable sc : triescan.

(* TrieScanPruneState (prune.rs:114-140) *)
Record prune : Type := mk_prune {
  pr_scan : tstate sc; pr_types : list (list stype); pr_init : bool;
  pr_layer : nat; pr_used : list nat; pr_external : nat }.
(* new (31-101) *)
Definition prune_new (s : tstate sc) : prune :=
  mk_prune s (map (ts_types sc s) (seq 0 (ts_arity sc s))) false 0 [] 0.

(* external_down (178-199) *)
Definition external_down (t : stype) (p : prune) : res prune :=
  if negb (pr_init p) then
    bind (ts_down sc t (pr_scan p)) (fun s => Ok (mk_prune s (pr_types p) true (pr_layer p) (pr_used p ++ [0]) (pr_external p)))
  else if pr_external p <? ts_arity sc (pr_scan p) - 1 then
    Ok (mk_prune (pr_scan p) (pr_types p) (pr_init p) (pr_layer p) (pr_used p) (pr_external p + 1))
  else Panicked.
(* input_up (211-217) *)
Definition input_up (p : prune) : res prune :=
  match pr_layer p with
  | O => Panicked
  | S k => bind (ts_up sc (pr_scan p)) (fun s => Ok (mk_prune s (pr_types p) (pr_init p) k (removelast (pr_used p)) (pr_external p)))
  end.
(* input_down (219-230) *)
Definition input_down (p : prune) : res prune :=
  if negb (pr_layer p <? ts_arity sc (pr_scan p) - 1) then Panicked
  else
    bind (index (pr_types p) (pr_layer p + 1)) (fun l =>
    bind (index l 0) (fun t =>
    bind (ts_down sc t (pr_scan p)) (fun s =>
    Ok (mk_prune s (pr_types p) (pr_init p) (pr_layer p + 1) (pr_used p ++ [0]) (pr_external p))))).
(* go_to_next_type, input_jump_type (232-253) *)
Definition input_jump_type (p : prune) : res (prune * bool) :=
  bind (index (pr_used p) (pr_layer p)) (fun i =>
  bind (index (pr_types p) (pr_layer p)) (fun l =>
  let used := set_nth (pr_layer p) (i + 1) (pr_used p) in
  match nth_error l (i + 1) with
  | Some t =>
      bind (ts_up sc (pr_scan p)) (fun s =>
      bind (ts_down sc t s) (fun s => Ok (mk_prune s (pr_types p) (pr_init p) (pr_layer p) used (pr_external p), true)))
  | None => Ok (mk_prune (pr_scan p) (pr_types p) (pr_init p) (pr_layer p) used (pr_external p), false)
  end)).
(* current_input_trie_value (311-318) *)
Definition current_input (k : nat) (p : prune) : res (option value) :=
  bind (index (pr_types p) k) (fun l =>
  bind (index (pr_used p) k) (fun i =>
  match nth_error l i with
  | None => Ok None
  | Some t => bind (ts_current sc k t (pr_scan p)) (fun o => Ok (option_map (fun v => (t, v)) o))
  end)).
(* next_input_trie_value, advance_has_next_value (323-331, 351-356) *)
Definition has_next (fuel : nat) (p : prune) : res (prune * bool) :=
  bind (index (pr_types p) (pr_layer p)) (fun l =>
  bind (index (pr_used p) (pr_layer p)) (fun i =>
  match nth_error l i with
  | None => Ok (p, false)
  | Some t =>
      bind (ts_next sc fuel (pr_layer p) t (pr_scan p)) (fun q =>
      Ok (mk_prune (fst q) (pr_types p) (pr_init p) (pr_layer p) (pr_used p) (pr_external p), match snd q with Some _ => true | None => false end))
  end)).
(* try_to_go_to_layer (270-290); n and m count the steps up and down *)
Fixpoint go_up (n : nat) (p : prune) : res prune :=
  match n with O => Ok p | S n' => bind (input_up p) (go_up n') end.
Fixpoint go_down (m : nat) (p : prune) : res prune :=
  match m with
  | O => Ok p
  | S m' =>
      bind (current_input (pr_layer p) p) (fun o =>
      match o with None => Ok p | Some _ => bind (input_down p) (go_down m') end)
  end.
Definition try_to_go (target : nat) (p : prune) : res prune :=
  if target <? ts_arity sc (pr_scan p) then bind (go_up (pr_layer p - target) p) (fun p => go_down (target - pr_layer p) p)
  else Panicked.
(* the loop of advance_on_layer (533-570), for the boundary layer 0 *)
Fixpoint prune_loop (fuel upper : nat) (p : prune) : res (prune * option nat) :=
  match fuel with
  | O => Fuel
  | S fuel' =>
      bind (has_next fuel' p) (fun q =>
      if negb (snd q) then
        bind (input_jump_type (fst q)) (fun q =>
        if snd q then prune_loop fuel' upper (fst q)
        else if pr_layer (fst q) =? 0 then Ok (fst q, None)
        else
          bind (input_up (fst q)) (fun p =>
          prune_loop fuel' (if pr_layer p <? upper then pr_layer p else upper) p))
      else if pr_layer (fst q) =? ts_arity sc (pr_scan (fst q)) - 1 then Ok (fst q, Some upper)
      else bind (input_down (fst q)) (prune_loop fuel' upper))
  end.
(* TrieScanPruneState::advance_on_layer (476-571) with stay_in_type = None *)
Definition prune_on_layer (fuel target : nat) (p : prune) : res (prune * option nat) :=
  let p := mk_prune (pr_scan p) (pr_types p) (pr_init p) (pr_layer p) (pr_used p) target in
  bind (try_to_go target p) (fun p => prune_loop fuel (pr_layer p) p).
(* the first steps of TrieScan::advance_on_layer (648-655): down to the layer; None: a layer without types *)
Fixpoint prune_init (ks : list nat) (p : prune) : res (prune * bool) :=
  match ks with
  | [] => Ok (p, true)
  | k :: ks' =>
      bind (index (pr_types p) k) (fun l =>
      match l with
      | [] => Ok (p, false)
      | t :: _ => bind (external_down t p) (prune_init ks')
      end)
  end.
(* TrieScan for TrieScanPrune (647-672) *)
Definition prune_advance (fuel layer : nat) (p : prune) : res (prune * option nat) :=
  bind (if pr_init p then Ok (p, true) else prune_init (seq 0 (layer + 1)) p) (fun q =>
  if snd q then prune_on_layer fuel layer (fst q) else Ok (fst q, None)).
Definition prune_value (layer : nat) (p : prune) : res (prune * value) :=
  if pr_init p then
    bind (current_input layer p) (fun o => match o with Some v => Ok (p, v) | None => Panicked end)
  else Panicked.
Definition prune_scan : fullscan :=
  mk_fullscan prune (fun p => length (pr_types p)) prune_advance (fun _ => prune_value).
End Prune.

(* ---------- aggregates/ ---------- *)

(* AggregateOperation (operation.rs:13-22) *)
Inductive aggregate : Type := Min | Max | Sum | Count.

(* what is used of floating point numbers: the checked additions of Float and Double (None: the sum is
   not finite) and the conversions to Double of integers and of Float (sum_aggregate.rs:88-106) *)
Record floats : Type := mk_floats {
  add32 : Z -> Z -> option Z; add64 : Z -> Z -> option Z; int_to_64 : Z -> Z; f32_to_64 : Z -> Z }.

(* the derived order of StorageValueT (storage_value.rs:14) *)
Definition value_ltb (v w : value) : bool :=
  (order (fst v) <? order (fst w)) || (stype_eqb (fst v) (fst w) && (snd v <? snd w)%Z).

(* AggregateGroupProcessor: the states of the processors *)
Inductive processor : Type :=
| PCount (n : Z)
| PMin (v : option value)
| PMax (v : option value)
| PSum (f32 i64 f64 : option Z).
(* create_processor (operation.rs:26-35) and group() *)
Definition processor_new (a : aggregate) : processor :=
  match a with Count => PCount 0 | Max => PMax None | Min => PMin None | Sum => PSum None None None end.

Section Processors.
Variable F : floats.
Definition checked_i64 (a b : Z) : option Z := if IntModel.fits (a + b) then Some (a + b)%Z else None.
(* self.current_sum = Some(current.checked_add(value).expect(..)), or Some(value) *)
Definition add_to (add : Z -> Z -> option Z) (cur : option Z) (v : Z) : res (option Z) :=
  match cur with
  | None => Ok (Some v)
  | Some c => match add c v with Some s => Ok (Some s) | None => Panicked end
  end.
(* write_aggregate_input_value: count_aggregate.rs:40-42 (with the overflow check of a debug build),
   max_aggregate.rs:43-52, min_aggregate.rs:43-52, sum_aggregate.rs:47-86 *)
Definition processor_write (p : processor) (v : value) : res processor :=
  match p with
  | PCount n => match checked_i64 n 1 with Some n => Ok (PCount n) | None => Panicked end
  | PMax None => Ok (PMax (Some v))
  | PMax (Some w) => Ok (PMax (Some (if value_ltb w v then v else w)))
  | PMin None => Ok (PMin (Some v))
  | PMin (Some w) => Ok (PMin (Some (if value_ltb v w then v else w)))
  | PSum f32 i64 f64 =>
      match fst v with
      | Double => bind (add_to (add64 F) f64 (snd v)) (fun f64 => Ok (PSum f32 i64 f64))
      | Float => bind (add_to (add32 F) f32 (snd v)) (fun f32 => Ok (PSum f32 i64 f64))
      | Int64 => bind (add_to checked_i64 i64 (snd v)) (fun i64 => Ok (PSum f32 i64 f64))
      | _ => Ok p
      end
  end.
Definition must_add (a b : Z) : res Z := match add64 F a b with Some s => Ok s | None => Panicked end.
(* finish: count_aggregate.rs:44-46, max_aggregate.rs:54-56, min_aggregate.rs:54-56, sum_aggregate.rs:88-118 *)
Definition processor_finish (p : processor) : res (option value) :=
  match p with
  | PCount n => Ok (Some (Int64, n))
  | PMax v | PMin v => Ok v
  | PSum f32 i64 f64 =>
      match f64 with
      | Some s =>
          bind (match i64 with Some i => must_add s (int_to_64 F i) | None => Ok s end) (fun s =>
          bind (match f32 with Some f => must_add s (f32_to_64 F f) | None => Ok s end) (fun s =>
          Ok (Some (Double, s))))
      | None =>
          Ok (match i64 with
              | Some i => Some (Int64, i)
              | None => option_map (fun f => (Float, f)) f32
              end)
      end
  end.

(* ---------- aggregate.rs ---------- *)

(* AggregationInstructions (aggregate.rs:86-104) *)
Record instructions : Type := mk_instructions { in_op : aggregate; in_groups : nat; in_column : nat; in_last : nat }.
(* GeneratorAggregate::new (40-66) *)
Definition last_of (ms distinct : list marker) : option nat :=
  find (fun i => match nth_error ms i with Some x => existsb (Nat.eqb x) distinct | None => false end) (rev (seq 0 (length ms))).
Definition aggregate_new (input : list marker) (a : aggregate) (distinct group_by : list marker) (column : marker) : res instructions :=
  match position_of column input with
  | None => Panicked
  | Some c =>
      let l := match last_of input distinct with Some l => l | None => c end in
      Ok (mk_instructions a (length group_by) c (if l <? c then c else l))
  end.
(* is_valid (108-111) *)
Definition valid (i : instructions) : bool := (in_groups i <=? in_column i) && (in_column i <=? in_last i).

Section Aggregate.
Variable input : fullscan.
(* AggregatedOutputValue (204-212) *)
Inductive output : Type := NoValue | NotYet | Computed (v : value).
(* TrieScanAggregate, PeekedRowInformation (152-181) *)
Record tagg : Type := mk_tagg {
  ag_input : fstate input; ag_instr : instructions; ag_value : output; ag_peeked : option (option nat * row) }.
(* new (185-200) *)
Definition agg_new (s : fstate input) (i : instructions) : res tagg :=
  if valid i then Ok (mk_tagg s i NoValue None) else Panicked.
(* advance_on_layer (219-257) *)
Definition agg_advance (fuel layer : nat) (a : tagg) : res (tagg * option nat) :=
  let i := ag_instr a in
  let peek := match ag_peeked a with Some (Some u, _) => if u <=? layer then Some u else None | _ => None end in
  bind (match peek with
        | Some u => Ok (ag_input a, Some u)
        | None =>
            bind (fu_advance input fuel (if layer <? in_groups i then layer else in_column i) (ag_input a)) (fun q =>
            Ok (fst q, option_map (fun l => if l <? in_groups i then l else in_groups i) (snd q)))
        end) (fun q =>
  Ok (mk_tagg (fst q) i (match snd q with Some _ => NotYet | None => NoValue end) None, snd q)).
(* the loop of current_value (289-330) *)
Fixpoint agg_loop (fuel : nat) (i : instructions) (s : fstate input) (p : processor) : res (fstate input * processor * option nat) :=
  match fuel with
  | O => Fuel
  | S fuel' =>
      bind (fu_value input fuel' (in_column i) s) (fun q =>
      bind (processor_write p (snd q)) (fun p =>
      bind (fu_advance input fuel' (in_last i) (fst q)) (fun q =>
      match snd q with
      | Some u => if u <? in_groups i then Ok (fst q, p, Some u) else agg_loop fuel' i (fst q) p
      | None => Ok (fst q, p, None)
      end)))
  end.
Fixpoint read_values (fuel : nat) (ks : list nat) (s : fstate input) : res (fstate input * row) :=
  match ks with
  | [] => Ok (s, [])
  | k :: ks' =>
      bind (fu_value input fuel k s) (fun q =>
      bind (read_values fuel ks' (fst q)) (fun r => Ok (fst r, snd q :: snd r)))
  end.
(* current_value (259-355) *)
Definition agg_value (fuel layer : nat) (a : tagg) : res (tagg * value) :=
  let i := ag_instr a in
  if negb (layer <? in_groups i) then
    match ag_value a with
    | NoValue => Panicked
    | Computed v => Ok (a, v)
    | NotYet =>
        bind (read_values fuel (seq 0 (in_groups i)) (ag_input a)) (fun q =>
        bind (agg_loop fuel i (fst q) (processor_new (in_op i))) (fun l =>
        bind (processor_finish (snd (fst l))) (fun o =>
        match o with
        | Some v => Ok (mk_tagg (fst (fst l)) i (Computed v) (Some (snd l, snd q)), v)
        | None => Panicked
        end)))
    end
  else
    match ag_value a, ag_peeked a with
    | NoValue, _ => Panicked
    | Computed _, Some (_, vs) => bind (index vs layer) (fun v => Ok (a, v))
    | _, _ => bind (fu_value input fuel layer (ag_input a)) (fun q => Ok (mk_tagg (fst q) i (ag_value a) (ag_peeked a), snd q))
    end.
Definition agg_scan : fullscan := mk_fullscan tagg (fun a => in_groups (ag_instr a) + 1) agg_advance agg_value.
End Aggregate.
End Processors.

(* ---------- trie.rs: from_full_trie_scan (340-395) ---------- *)

Section Full.
Variable sc : fullscan.
(* the values of the layers ks *)
Fixpoint read_row (fuel : nat) (ks : list nat) (s : fstate sc) : res (fstate sc * row) :=
  match ks with
  | [] => Ok (s, [])
  | k :: ks' =>
      bind (fu_value sc fuel k s) (fun q =>
      bind (read_row fuel ks' (fst q)) (fun r => Ok (fst r, snd q :: snd r)))
  end.
(* The loop: the values are read from the changed layer on; the values above are those of the row before
   (the builders do not look at them).  Rows are collected before the builders are filled. *)
Fixpoint full_collect (fuel n : nat) (prev : row) (s : fstate sc) : res (list (row * nat)) :=
  match fuel with
  | O => Fuel
  | S fuel' =>
      bind (fu_advance sc fuel' (n - 1) s) (fun q =>
      match snd q with
      | None => Ok []
      | Some c =>
          bind (read_row fuel' (seq c (n - c)) (fst q)) (fun r =>
          let row := firstn c prev ++ snd r in
          bind (full_collect fuel' n row (fst r)) (fun l => Ok ((row, c) :: l)))
      end)
  end.
(* with the debug assertion that the first change is in layer 0 (352) *)
Definition from_full_trie_scan (fuel : nat) (s : fstate sc) (cut_layers : nat) : res trie :=
  if fu_columns sc s <? cut_layers then Panicked
  else
    let n := fu_columns sc s - cut_layers in
    if n =? 0 then Ok (zero_arity true)
    else
      bind (full_collect fuel n [] s) (fun rows =>
      match rows with
      | [] => Ok (trie_empty (fu_columns sc s))
      | (_, c) :: _ => if c =? 0 then Ok (build_rows n rows) else Panicked
      end).
End Full.

(* execute_tree (database.rs:473-489) for an aggregation of the rows of an operation, and
   GeneratorAggregate::generate (aggregate.rs:69-82) *)
Definition execute_aggregate (F : floats) (d fuel : nat) (i : instructions) (o : operation) (cut_layers : nat) : res trie :=
  bind (evaluate d o) (fun s =>
  match s with
  | Some s =>
      bind (agg_new (prune_scan (scans d)) (prune_new (scans d) s) i) (fun a =>
      from_full_trie_scan (agg_scan F (prune_scan (scans d))) fuel a cut_layers)
  | None => Ok (trie_empty 0)
  end).

(* ---------- nemo/src/execution/planning/operations/aggregation.rs ---------- *)

(* retain(|v| seen.insert(v)) *)
Fixpoint first_seen (seen l : list marker) : list marker :=
  match l with
  | [] => []
  | x :: l' => if existsb (Nat.eqb x) seen then first_seen seen l' else x :: first_seen (x :: seen) l'
  end.
(* order_input_output (62-96) *)
Definition order_input (input : list marker) (column : marker) (distinct group_by : list marker) : list marker :=
  first_seen [] (filter (fun x => existsb (Nat.eqb x) group_by) input ++ [column] ++ filter (fun x => existsb (Nat.eqb x) distinct) input).
Definition order_output (input : list marker) (out : marker) (group_by : list marker) : list marker :=
  first_seen [] (filter (fun x => existsb (Nat.eqb x) group_by) input ++ [out]).
