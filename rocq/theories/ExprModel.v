(* Model of nemo-physical/src/function/tree.rs, function/evaluation.rs (expression trees and the
   stack programs they are compiled to) and of the two table operators that run stack programs:
   tabular/operations/filter.rs and tabular/operations/function.rs.

   The functions of the expression language enter as an arbitrary [language]: compilation and the
   operators never look inside them (except for the conjunction built by the filter operator and
   the special case of an equality with a constant). ExprFunModel.v gives the actual functions. *)

From Coq Require Import List Arith Bool.
Import ListNotations.

(* StorageTypeName (datatypes/storage_type_name.rs:12-25) *)
Inductive stype : Type := Id32 | Id64 | Int64 | SFloat | SDouble.

Definition stype_eqb (a b : stype) : bool :=
  match a, b with
  | Id32, Id32 | Id64, Id64 | Int64, Int64 | SFloat, SFloat | SDouble, SDouble => true
  | _, _ => false
  end.

(* StorageTypeBitSet (storage_type_name.rs:84-134) over util/bitset.rs: five bits *)
Record types : Type := mk_types { b32 : bool; b64 : bool; bint : bool; bfloat : bool; bdouble : bool }.

Definition types_empty : types := mk_types false false false false false.
Definition types_full : types := mk_types true true true true true.
Definition types_single (t : stype) : types :=
  mk_types (stype_eqb t Id32) (stype_eqb t Id64) (stype_eqb t Int64) (stype_eqb t SFloat)
           (stype_eqb t SDouble).
Definition types_inter (a b : types) : types :=
  mk_types (b32 a && b32 b) (b64 a && b64 b) (bint a && bint b) (bfloat a && bfloat b)
           (bdouble a && bdouble b).
Definition types_union (a b : types) : types :=
  mk_types (b32 a || b32 b) (b64 a || b64 b) (bint a || bint b) (bfloat a || bfloat b)
           (bdouble a || bdouble b).
Definition types_contains (a : types) (t : stype) : bool :=
  match t with
  | Id32 => b32 a | Id64 => b64 a | Int64 => bint a | SFloat => bfloat a | SDouble => bdouble a
  end.
Definition types_eqb (a b : types) : bool :=
  Bool.eqb (b32 a) (b32 b) && Bool.eqb (b64 a) (b64 b) && Bool.eqb (bint a) (bint b) &&
  Bool.eqb (bfloat a) (bfloat b) && Bool.eqb (bdouble a) (bdouble b).
Definition bit (b : bool) : nat := if b then 1 else 0.
Definition types_is_unique (a : types) : bool :=
  bit (b32 a) + bit (b64 a) + bit (bint a) + bit (bfloat a) + bit (bdouble a) =? 1.

(* FunctionTypePropagation (definitions.rs:45-59) *)
Inductive propagation : Type :=
| KnownOutput (t : types)
| Preserve
| NumericUpcast
| Unknown.

(* definitions.rs:61-113 *)
Definition propagate (p : propagation) (input : list types) : types :=
  match p with
  | KnownOutput t => t
  | Preserve => fold_left types_inter input types_full
  | Unknown => types_full
  | NumericUpcast =>
      match input with
      | [] => types_empty
      | first :: _ =>
          let contains_int := forallb (fun t => types_contains t Int64) input in
          let contains_float := forallb (fun t => types_contains t SFloat) input in
          let contains_double := forallb (fun t => types_contains t SDouble) input in
          let mixing :=
            existsb (fun t => negb (types_eqb t first) ||
                              (negb (types_is_unique t) && (1 <? length input))) input in
          let r := types_empty in
          let r := if contains_int then types_union r (types_single Int64) else r in
          let r := if contains_float then types_union r (types_single SFloat) else r in
          if mixing || contains_double then types_union r (types_single SDouble) else r
      end
  end.

(* An expression language: values, functions by arity, their evaluation
   (UnaryFunction / BinaryFunction / TernaryFunction / NaryFunction traits, definitions.rs:115-442) *)
Record language : Type := {
  val : Type;
  fn1 : Type; fn2 : Type; fn3 : Type; fnn : Type;
  ev1 : fn1 -> val -> option val;
  ev2 : fn2 -> val -> val -> option val;
  ev3 : fn3 -> val -> val -> val -> option val;
  evn : fnn -> list val -> option val;
  ty1 : fn1 -> propagation;
  ty2 : fn2 -> propagation;
  ty3 : fn3 -> propagation;
  tyn : fnn -> propagation;
  truth : val -> option bool;              (* AnyDataValue::to_boolean *)
  of_bool : bool -> val;                   (* AnyDataValue::new_boolean *)
  veqb : val -> val -> bool;               (* equality of stored values *)
  conjunction : fnn;                       (* NaryFunctionEnum::BooleanConjunction *)
  is_equals : fn2 -> bool;                 (* matches BinaryFunctionEnum::Equals *)
  stored_as : val -> stype;                (* AnyDataValue::to_storage_value_t_dict *)
  domain_types : val -> types;             (* value_domain().storage_type() *)
}.

Section WithLanguage.
Context (L : language).
Notation value := (val L).

(* FunctionTree (tree.rs:53-89), reference type = column marker = nat *)
Inductive tree : Type :=
| Const (v : value)
| Ref (r : nat)
| Un (f : fn1 L) (t : tree)
| Bin (f : fn2 L) (l r : tree)
| Ter (f : fn3 L) (a b c : tree)
| Nar (f : fnn L) (ts : list tree).

(* tree.rs:1027-1069 *)
Fixpoint references (t : tree) : list nat :=
  match t with
  | Const _ => []
  | Ref r => [r]
  | Un _ t => references t
  | Bin _ l r => references l ++ references r
  | Ter _ a b c => references a ++ references b ++ references c
  | Nar _ ts => flat_map references ts
  end.

(* StackValue (evaluation.rs:26-36), StackOperation (evaluation.rs:47-60) *)
Inductive svalue : Type := SConst (v : value) | SRef (i : nat) | SThis.
Inductive sop : Type :=
| Push (s : svalue)
| Op1 (f : fn1 L)
| Op2 (f : fn2 L)
| Op3 (f : fn3 L)
| OpN (f : fnn L) (count : nat).

Inductive res (A : Type) : Type := Ok (a : A) | Panicked.
Arguments Ok {A}. Arguments Panicked {A}.

Definition bind {A B} (r : res A) (k : A -> res B) : res B :=
  match r with Ok a => k a | Panicked => Panicked end.

(* StackProgram::new (evaluation.rs:82-131).  Err becomes Panicked because the only caller unwraps
   it (evaluation.rs:197).  [debug]: with overflow checks, `parameter_count - 1` panics for 0;
   without, it wraps around and the subtraction from the height wraps back to height + 1. *)
Fixpoint check_heights (debug : bool) (ops : list sop) (height maxh : nat) : res nat :=
  match ops with
  | [] => if height =? 1 then Ok maxh else Panicked
  | op :: ops' =>
      let continue h := check_heights debug ops' h (Nat.max h maxh) in
      match op with
      | Push _ => continue (height + 1)
      | Op1 _ => if height =? 0 then Panicked else continue height
      | Op2 _ => if height <=? 1 then Panicked else continue (height - 1)
      | Op3 _ => if height <=? 2 then Panicked else continue (height - 2)
      | OpN _ n =>
          if height <? n then Panicked
          else match n with
               | O => if debug then Panicked else continue (height + 1)
               | S m => continue (height - m)
               end
      end
  end.

Definition new_program (debug : bool) (ops : list sop) : res (list sop) :=
  bind (check_heights debug ops 0 0) (fun _ => Ok ops).

Fixpoint find_index (r : nat) (l : list nat) : option nat :=
  match l with
  | [] => None
  | x :: l' => if x =? r then Some 0 else option_map S (find_index r l')
  end.

(* build_operations (evaluation.rs:139-193).  The reference map of both callers numbers columns in
   the order in which they were inserted: it is the list of the inserted columns. *)
Fixpoint build (this : option nat) (refmap : list nat) (t : tree) : res (list sop) :=
  match t with
  | Const v => Ok [Push (SConst v)]
  | Ref r =>
      if match this with Some h => h =? r | None => false end
      then Ok [Push SThis]
      else match find_index r refmap with
           | Some i => Ok [Push (SRef i)]
           | None => Panicked
           end
  | Un f t => bind (build this refmap t) (fun o => Ok (o ++ [Op1 f]))
  | Bin f l r =>
      bind (build this refmap l) (fun o1 =>
      bind (build this refmap r) (fun o2 => Ok (o1 ++ o2 ++ [Op2 f])))
  | Ter f a b c =>
      bind (build this refmap a) (fun o1 =>
      bind (build this refmap b) (fun o2 =>
      bind (build this refmap c) (fun o3 => Ok (o1 ++ o2 ++ o3 ++ [Op3 f]))))
  | Nar f ts =>
      bind ((fix go (ts : list tree) : res (list sop) :=
               match ts with
               | [] => Ok []
               | t :: ts' => bind (build this refmap t) (fun o => bind (go ts') (fun o' => Ok (o ++ o')))
               end) ts)
           (fun o => Ok (o ++ [OpN f (length ts)]))
  end.

(* StackProgram::from_function_tree (evaluation.rs:134-198) *)
Definition compile (debug : bool) (this : option nat) (refmap : list nat) (t : tree)
  : res (list sop) :=
  bind (build this refmap t) (new_program debug).

(* The stack is a list with its top first. *)
Definition pop (st : list value) : option (value * list value) :=
  match st with [] => None | v :: st' => Some (v, st') end.

(* evaluation.rs:249-256: pop n elements; the result is in the order popped *)
Fixpoint pop_n (n : nat) (st : list value) : option (list value * list value) :=
  match n with
  | O => Some ([], st)
  | S n' =>
      match pop st with
      | None => None
      | Some (v, st') =>
          match pop_n n' st' with
          | None => None
          | Some (vs, st'') => Some (v :: vs, st'')
          end
      end
  end.

(* StackProgram::evaluate (evaluation.rs:202-271): Ok None is the Rust `None`. *)
Fixpoint evaluate (ops : list sop) (refs : list value) (this : option value) (st : list value)
  : res (option value) :=
  match ops with
  | [] => match pop st with Some (v, _) => Ok (Some v) | None => Panicked end
  | op :: ops' =>
      let push o st' :=
        match o with Some v => evaluate ops' refs this (v :: st') | None => Ok None end in
      match op with
      | Push (SConst v) => push (Some v) st
      | Push (SRef i) =>
          match nth_error refs i with Some v => push (Some v) st | None => Panicked end
      | Push SThis => push this st
      | Op1 f =>
          match pop st with
          | None => Panicked
          | Some (v, st') => push (ev1 L f v) st'
          end
      | Op2 f =>
          match pop_n 2 st with
          | Some ([second; first], st') => push (ev2 L f first second) st'
          | _ => Panicked
          end
      | Op3 f =>
          match pop_n 3 st with
          | Some ([third; second; first], st') => push (ev3 L f first second third) st'
          | _ => Panicked
          end
      | OpN f n =>
          match pop_n n st with
          | Some (vs, st') => push (evn L f (rev vs)) st'
          | None => Panicked
          end
      end
  end.

(* evaluation.rs:294-301 *)
Definition evaluate_bool (ops : list sop) (refs : list value) (this : option value)
  : res (option bool) :=
  match evaluate ops refs this [] with
  | Ok (Some v) => Ok (truth L v)
  | Ok None => Ok None
  | Panicked => Panicked
  end.

(* evaluation.rs:307-345; the input types are passed in the order popped *)
Fixpoint pop_types (n : nat) (st : list types) : option (list types * list types) :=
  match n, st with
  | O, _ => Some ([], st)
  | S n', t :: st' =>
      match pop_types n' st' with Some (ts, st'') => Some (t :: ts, st'') | None => None end
  | S _, [] => None
  end.

Fixpoint type_propagation (ops : list sop) (refs : list types) (this : option types)
    (st : list types) : res types :=
  match ops with
  | [] => match st with t :: _ => Ok t | [] => Panicked end
  | op :: ops' =>
      let step n p :=
        match pop_types n st with
        | Some (ts, st') => type_propagation ops' refs this (propagate p ts :: st')
        | None => Panicked
        end in
      match op with
      | Push (SConst v) => step 0 (KnownOutput (domain_types L v))
      | Push (SRef i) =>
          match nth_error refs i with Some t => step 0 (KnownOutput t) | None => Panicked end
      | Push SThis =>
          match this with Some t => step 0 (KnownOutput t) | None => Panicked end
      | Op1 f => step 1 (ty1 L f)
      | Op2 f => step 2 (ty2 L f)
      | Op3 f => step 3 (ty3 L f)
      | OpN f n => step n (tyn L f)
      end
  end.

(* StackProgram::rename_references (evaluation.rs:347-351) with StackValue::rename (38-45) *)
Definition rename_svalue (map : nat -> option nat) (s : svalue) : svalue :=
  match s with
  | SRef i => SRef (match map i with Some j => j | None => i end)
  | _ => s
  end.
Definition rename_op (map : nat -> option nat) (o : sop) : sop :=
  match o with Push s => Push (rename_svalue map s) | _ => o end.
Definition rename_references (map : nat -> option nat) (ops : list sop) : list sop :=
  List.map (rename_op map) ops.

(* ------------------------------------------------------------------------------------------ *)
(* tabular/operations/filter.rs *)

Inductive special_filter_case : Type := FNormal | FConstant (v : value).

(* FunctionTree::special_filter (tree.rs:151-174) *)
Definition special_filter (t : tree) : special_filter_case :=
  match t with
  | Bin f (Ref _) (Const c) => if is_equals L f then FConstant c else FNormal
  | Bin f (Const c) (Ref _) => if is_equals L f then FConstant c else FNormal
  | _ => FNormal
  end.

(* filter.rs:117-130 *)
Definition find_last_reference (table : list nat) (f : tree) : option nat :=
  find (fun m => existsb (Nat.eqb m) (references f)) (rev table).

(* FunctionTree::boolean_conjunction (tree.rs:366-377) *)
Definition boolean_conjunction (fs : list tree) : tree :=
  match fs with
  | [] => Const (of_bool L true)
  | [f] => f
  | _ => Nar (conjunction L) fs
  end.

(* GeneratorFilter::compute_assignments (filter.rs:139-157): the conjunction of the filters of the
   given marker, in their order. *)
Definition filter_marker (table : list nat) (first : nat) (f : tree) : nat :=
  match find_last_reference table f with Some m => m | None => first end.
Definition filter_group (table : list nat) (first : nat) (filters : list tree) (m : nat)
  : list tree :=
  filter (fun f => filter_marker table first f =? m) filters.
Definition assignment (table : list nat) (first : nat) (filters : list tree) (m : nat)
  : option tree :=
  match filter_group table first filters m with
  | [] => None
  | g => Some (boolean_conjunction g)
  end.

(* OutputColumn (filter.rs:42-49) *)
Inductive out_column : Type := OInput | OConstant (v : value) | OFiltered (p : list sop).

(* the columns used as input of some filter, other than its own column (filter.rs:70-77) *)
Definition filter_referenced (table : list nat) (first : nat) (filters : list tree) (m : nat)
  : bool :=
  existsb (fun this =>
    match assignment table first filters this with
    | Some f => existsb (fun r => (r =? m) && negb (r =? this)) (references f)
    | None => false
    end) table.

(* the loop filter.rs:80-114 *)
Fixpoint filter_columns (debug : bool) (table : list nat) (first : nat) (filters : list tree)
    (todo : list nat) (refmap : list nat) : res (list (out_column * bool)) :=
  match todo with
  | [] => Ok []
  | m :: todo' =>
      let is_input := filter_referenced table first filters m in
      let refmap' :=
        if is_input && negb (existsb (Nat.eqb m) refmap) then refmap ++ [m] else refmap in
      bind
        (match assignment table first filters m with
         | Some f =>
             match special_filter f with
             | FNormal => bind (compile debug (Some m) refmap' f) (fun p => Ok (OFiltered p))
             | FConstant c => Ok (OConstant c)
             end
         | None => Ok OInput
         end)
        (fun c => bind (filter_columns debug table first filters todo' refmap')
                       (fun cs => Ok ((c, is_input) :: cs)))
  end.

(* GeneratorFilter::new (filter.rs:66-115).  With no columns, `input[0]` (filter.rs:145) panics
   as soon as there is a filter (no filter can have a reference then), and the debug assertion
   (filter.rs:140) panics in any case. *)
Definition filter_new (debug : bool) (table : list nat) (filters : list tree)
  : res (list (out_column * bool)) :=
  match table with
  | [] => match filters with
          | [] => if debug then Panicked else Ok []
          | _ => Panicked
          end
  | first :: _ => filter_columns debug table first filters table []
  end.

(* TrieScanFilter (filter.rs:280-345) and ColumnScanFilter::check_value (columnar/operations/
   filter.rs:56-64), for one row of the input table: each value of the row must pass the filter of
   its column given the values collected from the columns before it.  (Simplification: the trie
   scan works on all rows at once and drops a value together with everything below it; here a row
   is kept iff none of its values is dropped.) *)
Fixpoint filter_row (cols : list (out_column * bool)) (row : list value) (inputs : list value)
  : res bool :=
  match cols, row with
  | [], [] => Ok true
  | (c, used) :: cols', v :: row' =>
      let inputs' := if used then inputs ++ [v] else inputs in
      match c with
      | OInput => filter_row cols' row' inputs'
      | OConstant k => if veqb L v k then filter_row cols' row' inputs' else Ok false
      | OFiltered p =>
          match evaluate_bool p inputs (Some v) with
          | Panicked => Panicked
          | Ok (Some true) => filter_row cols' row' inputs'
          | Ok _ => Ok false
          end
      end
  | _, _ => Panicked
  end.

(* ------------------------------------------------------------------------------------------ *)
(* tabular/operations/function.rs *)

(* ComputedMarker (function.rs:31-38), LayerInformation (function.rs:70-76); InputMarker
   (function.rs:41-51): None = Unused, Some programs = Used. *)
Inductive computed : Type := CInput | CCopy (l : nat) | CComputed.
Record layer : Type := mk_layer { lcomputed : computed; lused : option (list (list sop * nat)) }.

Record function_op : Type := mk_function_op {
  layers : list layer;
  constants : list (option value * nat) }.

Inductive special_function_case : Type := SNormal | SConstant (v : option value) | SReference (r : nat).

(* FunctionTree::special_function (tree.rs:133-147) *)
Definition special_function (debug : bool) (t : tree) : res special_function_case :=
  match references t with
  | [] => bind (compile debug None [] t) (fun p =>
          bind (evaluate p [] None []) (fun v => Ok (SConstant v)))
  | _ => match t with Ref r => Ok (SReference r) | _ => Ok SNormal end
  end.

Fixpoint update {A} (l : list A) (i : nat) (f : A -> A) : list A :=
  match l, i with
  | [], _ => []
  | x :: l', O => f x :: l'
  | x :: l', S i' => x :: update l' i' f
  end.

(* InputMarker::set_used (function.rs:55-59), append_used (function.rs:62-67) *)
Definition set_used (m : option (list (list sop * nat))) : option (list (list sop * nat)) :=
  match m with None => Some [] | Some _ => m end.
Definition append_used (x : list sop * nat) (m : option (list (list sop * nat)))
  : option (list (list sop * nat)) :=
  match m with None => Some [x] | Some l => Some (l ++ [x]) end.

(* positions of the references in the output table; expect (function.rs:117-119) *)
Fixpoint positions (output : list nat) (refs : list nat) : res (list nat) :=
  match refs with
  | [] => Ok []
  | r :: refs' =>
      match find_index r output with
      | None => Panicked
      | Some p => bind (positions output refs') (fun ps => Ok (p :: ps))
      end
  end.

(* function.rs:91-105: the referenced columns, numbered in the order of the output table *)
Definition reference_map (output : list nat) (functions : list (nat * tree)) : list nat :=
  filter (fun m => existsb (fun f => existsb (Nat.eqb m) (references (snd f))) functions) output.

(* the loop function.rs:111-157 over the assigned functions (HashMap iteration, any order) *)
Fixpoint function_loop (debug : bool) (output : list nat) (refmap : list nat)
    (functions : list (nat * tree)) (ls : list layer) (cs : list (option value * nat))
  : res function_op :=
  match functions with
  | [] => Ok (mk_function_op ls cs)
  | (m, t) :: rest =>
      match find_index m output with
      | None => Panicked
      | Some out =>
          let ls := update ls out (fun l => mk_layer CComputed (lused l)) in
          bind (special_function debug t) (fun sc =>
          match sc with
          | SNormal =>
              bind (positions output (references t)) (fun ps =>
              let ls := fold_left (fun ls p =>
                          update ls p (fun l => mk_layer (lcomputed l) (set_used (lused l)))) ps ls in
              let last := fold_left Nat.max ps 0 in
              bind (compile debug None refmap t) (fun prog =>
              let ls := update ls last (fun l =>
                          mk_layer (lcomputed l) (append_used (prog, out) (lused l))) in
              function_loop debug output refmap rest ls cs))
          | SConstant v => function_loop debug output refmap rest ls (cs ++ [(v, out)])
          | SReference r =>
              match find_index r output with
              | None => Panicked
              | Some p =>
                  let ls := update ls out (fun l => mk_layer (CCopy p) (lused l)) in
                  function_loop debug output refmap rest ls cs
              end
          end)
      end
  end.

(* GeneratorFunction::new (function.rs:90-171) *)
Definition function_new (debug : bool) (output : list nat) (functions : list (nat * tree))
  : res function_op :=
  function_loop debug output (reference_map output functions) functions
    (repeat (mk_layer CInput None) (length output)) [].

(* --- possible types of the output columns (function.rs:203-258) --- *)

Definition set_types (ts : list types) (i : nat) (t : types) : list types := update ts i (fun _ => t).

Definition constant_types (cs : list (option value * nat)) (ts : list types) : list types :=
  fold_left (fun ts c => match fst c with
                         | Some v => set_types ts (snd c) (domain_types L v)
                         | None => ts
                         end) cs ts.

Fixpoint run_type_programs (ps : list (list sop * nat)) (used : list types) (ts : list types)
  : res (list types) :=
  match ps with
  | [] => Ok ts
  | (p, out) :: ps' =>
      bind (type_propagation p used None []) (fun t =>
      run_type_programs ps' used (set_types ts out t))
  end.

Fixpoint types_loop (ls : list layer) (index : nat) (input : list types) (used : list types)
    (ts : list types) : res (list types) :=
  match ls with
  | [] => Ok ts
  | l :: ls' =>
      match (match lcomputed l with
             | CInput => match input with
                         | t :: input' => Ok (set_types ts index t, input')
                         | [] => Panicked
                         end
             | CCopy src => match nth_error ts src with
                            | Some t => Ok (set_types ts index t, input)
                            | None => Panicked
                            end
             | CComputed => Ok (ts, input)
             end) with
      | Panicked => Panicked
      | Ok (ts, input) =>
          match lused l with
          | None => types_loop ls' (S index) input used ts
          | Some ps =>
              match nth_error ts index with
              | None => Panicked
              | Some t =>
                  bind (run_type_programs ps (used ++ [t]) ts) (fun ts =>
                  types_loop ls' (S index) input (used ++ [t]) ts)
              end
          end
      end
  end.

Definition possible_types (op : function_op) (input : list types) : res (list types) :=
  types_loop (layers op) 0 input []
    (constant_types (constants op) (repeat types_full (length (layers op)))).

(* --- one row of the result (function.rs:311-387) --- *)

(* the values of the computed columns, as far as known: constants are set at the start
   (function.rs:260-270) *)
Definition start_values (op : function_op) : list (option value) :=
  fold_left (fun vs c => update vs (snd c) (fun o => match fst c with Some v => Some v | None => o end))
    (constants op) (repeat None (length (layers op))).

(* function.rs:348-363: run the programs whose last input is now known *)
Fixpoint run_programs (ps : list (list sop * nat)) (inputs : list value) (vs : list (option value))
  : res (list (option value)) :=
  match ps with
  | [] => Ok vs
  | (p, out) :: ps' =>
      bind (evaluate p inputs None []) (fun r =>
      run_programs ps' inputs (update vs out (fun _ => r)))
  end.

(* TrieScanFunction::down (function.rs:329-387) for one row of the input table, layer by layer;
   [done] are the values of the layers already passed.  A value is only enumerated if its storage
   type is among the possible types of the column (RowScan, tabular/rowscan.rs:139-151).
   Result: None = no output row.  (Simplification: the trie scan enumerates all rows at once; here
   the output row of one input row is computed.  Values that a computed column may still hold from
   an earlier row are not represented: a column read before it is computed has no value.) *)
Fixpoint function_row (ls : list layer) (possible : list types) (index : nat) (row : list value)
    (inputs : list value) (vs : list (option value)) (done : list value) : res (option (list value)) :=
  match ls with
  | [] => Ok (Some done)
  | l :: ls' =>
      match (match lcomputed l with
             | CInput => match row with v :: row' => Ok (Some v, row') | [] => Panicked end
             | CCopy src => match nth_error done src with
                            | Some v => Ok (Some v, row)
                            | None => Panicked
                            end
             | CComputed => match nth_error vs index with
                            | Some o => Ok (o, row)
                            | None => Panicked
                            end
             end) with
      | Panicked => Panicked
      | Ok (None, _) => Ok None
      | Ok (Some v, row') =>
          match nth_error possible index with
          | None => Panicked
          | Some ts =>
              if types_contains ts (stored_as L v) then
                match ls', lused l with
                | _ :: _, Some ps =>
                    bind (run_programs ps (inputs ++ [v]) vs) (fun vs' =>
                    function_row ls' possible (S index) row' (inputs ++ [v]) vs' (done ++ [v]))
                | _, _ => function_row ls' possible (S index) row' inputs vs (done ++ [v])
                end
              else Ok None
          end
      end
  end.

(* GeneratorFunction::generate (function.rs:184-283) followed by reading one row *)
Definition function_apply (op : function_op) (input_types : list types) (row : list value)
  : res (option (list value)) :=
  bind (possible_types op input_types) (fun possible =>
  function_row (layers op) possible 0 row [] (start_values op) []).

End WithLanguage.

Arguments Const {L}. Arguments Ref {L}. Arguments Un {L}. Arguments Bin {L}. Arguments Ter {L}.
Arguments Nar {L}. Arguments SConst {L}. Arguments SRef {L}. Arguments SThis {L}.
Arguments Push {L}. Arguments Op1 {L}. Arguments Op2 {L}. Arguments Op3 {L}. Arguments OpN {L}.
Arguments Ok {A}. Arguments Panicked {A}.
Arguments references {L}. Arguments check_heights {L}. Arguments new_program {L}.
Arguments build {L}. Arguments compile {L}. Arguments evaluate {L}. Arguments evaluate_bool {L}.
Arguments pop {L}. Arguments pop_n {L}.
Arguments type_propagation {L}. Arguments rename_references {L}. Arguments rename_op {L}.
Arguments rename_svalue {L}. Arguments special_filter {L}. Arguments find_last_reference {L}.
Arguments boolean_conjunction {L}. Arguments filter_marker {L}. Arguments filter_group {L}.
Arguments assignment {L}. Arguments filter_referenced {L}. Arguments filter_columns {L}.
Arguments filter_new {L}. Arguments filter_row {L}. Arguments OInput {L}. Arguments OConstant {L}.
Arguments OFiltered {L}. Arguments FNormal {L}. Arguments FConstant {L}.
Arguments mk_layer {L}. Arguments lcomputed {L}. Arguments lused {L}. Arguments mk_function_op {L}.
Arguments layers {L}. Arguments constants {L}. Arguments SNormal {L}. Arguments SConstant {L}.
Arguments SReference {L}. Arguments special_function {L}. Arguments set_used {L}.
Arguments append_used {L}. Arguments reference_map {L}. Arguments function_loop {L}.
Arguments function_new {L}. Arguments constant_types {L}. Arguments run_type_programs {L}.
Arguments types_loop {L}. Arguments possible_types {L}. Arguments start_values {L}.
Arguments run_programs {L}. Arguments function_row {L}. Arguments function_apply {L}.
