(* Model of nemo-physical/src/columnar/column/{vector,rle}.rs, columnar/columnbuilder/{rle,adaptive}.rs
   and datatypes/run_length_encodable.rs.

   Values of every column type are integers here: for u32, u64, i64, usize the value itself, for
   Float and Double (whose steps are always zero) the rank of the value in the order on floats. *)

From Coq Require Import List ZArith Bool Lia.
Import ListNotations.
Local Open Scope nat_scope.

Inductive res (A : Type) : Type := Ok (a : A) | Panicked | Fuel.
Arguments Ok {A}. Arguments Panicked {A}. Arguments Fuel {A}.

Definition bind {A B} (r : res A) (k : A -> res B) : res B :=
  match r with Ok a => k a | Panicked => Panicked | Fuel => Fuel end.

(* indexing a Vec or slice *)
Definition index {A} (l : list A) (i : nat) : res A :=
  match nth_error l i with Some a => Ok a | None => Panicked end.

(* A column type: the range of its values, the steps it can encode (run_length_encodable.rs: i16
   for the integer types, none but zero for the floats), and whether arithmetic on it is checked. *)
Record kind : Type := mk_kind { vmin : Z; vmax : Z; smin : Z; smax : Z; debug : bool }.

(* RunLengthEncodable::diff_step (run_length_encodable.rs:72-74, 92-94, 112-114, 151-153;
   float.rs / double.rs: 330-332).  (i64: checked_sub fails only for differences that are no i16.) *)
Definition diff_step (k : kind) (prev curr : Z) : option Z :=
  let d := (curr - prev)%Z in
  if ((smin k <=? d) && (d <=? smax k))%Z then Some d else None.

(* RunLengthEncodable::offset (run_length_encodable.rs:44-65): the product and the sum must be
   values of the type (`expect`, overflow).  For unsigned types the absolute value of the product is
   converted. *)
Definition in_kind (k : kind) (z : Z) : bool := ((vmin k <=? z) && (z <=? vmax k))%Z.
Definition offset (k : kind) (v inc : Z) (times : nat) : res Z :=
  let d := (inc * Z.of_nat times)%Z in
  if (in_kind k d || ((vmin k =? 0)%Z && in_kind k (- d)%Z)) && in_kind k (v + d)%Z
  then Ok (v + d)%Z else Panicked.

(* slice::binary_search of the Rust standard library (Ok i or Err i) *)
Inductive search : Type := Found (i : nat) | Insert (i : nat).

Fixpoint bs_loop {A} (cmp : A -> comparison) (l : list A) (fuel base size : nat) : res nat :=
  if 1 <? size then
    match fuel with
    | O => Fuel
    | S fuel' =>
        let half := size / 2 in
        let mid := base + half in
        bind (index l mid) (fun x =>
        bs_loop cmp l fuel' (match cmp x with Gt => base | _ => mid end) (size - half))
    end
  else Ok base.

Definition binary_search {A} (cmp : A -> comparison) (l : list A) : res search :=
  match l with
  | [] => Ok (Insert 0)
  | _ =>
      bind (bs_loop cmp l (length l) 0 (length l)) (fun base =>
      bind (index l base) (fun x =>
      Ok (match cmp x with Eq => Found base | Lt => Insert (base + 1) | Gt => Insert base end)))
  end.

(* ------------------------------------------------------------------------------------------ *)
(* vector.rs *)

(* ColumnScanVector (vector.rs:69-76) *)
Record vscan : Type := mk_vscan { vcol : list Z; vpos : option nat; vstart : nat; vend : nat }.

(* vector.rs:87-93 *)
Definition vnew (col : list Z) : vscan := mk_vscan col None 0 (length col).

(* vector.rs:112-116 *)
Definition vnext (s : vscan) : res (vscan * option Z) :=
  let pos := match vpos s with None => vstart s | Some p => p + 1 end in
  let s' := mk_vscan (vcol s) (Some pos) (vstart s) (vend s) in
  if pos <? vend s then bind (index (vcol s) pos) (fun v => Ok (s', Some v)) else Ok (s', None).

(* the binary search in vector.rs:147-154; SEEK_BINARY_SEARCH = 10 *)
Fixpoint vhalve (col : list Z) (value : Z) (fuel lower upper : nat) : res (nat * nat) :=
  if 10 <=? upper - lower then
    match fuel with
    | O => Fuel
    | S fuel' =>
        let mid := (lower + upper) / 2 in
        bind (index col mid) (fun x =>
        if (x <? value)%Z then vhalve col value fuel' (mid + 1) upper
        else vhalve col value fuel' lower mid)
    end
  else Ok (lower, upper).

(* vector.rs:158-160 *)
Fixpoint vscan_up (col : list Z) (value : Z) (fuel pos upper : nat) : res nat :=
  if pos <=? upper then
    bind (index col pos) (fun x =>
    if (x <? value)%Z then
      match fuel with O => Fuel | S fuel' => vscan_up col value fuel' (pos + 1) upper end
    else Ok pos)
  else Ok pos.

(* ColumnScanVector::seek (vector.rs:124-167) *)
Definition vseek (value : Z) (s : vscan) : res (vscan * option Z) :=
  if vend s =? 0 then Ok (s, None)
  else
    let at_ p := mk_vscan (vcol s) (Some p) (vstart s) (vend s) in
    let pos := match vpos s with Some p => p | None => vstart s end in
    let upper := vend s - 1 in
    if upper <? pos then Ok (at_ pos, None)
    else
      bind (index (vcol s) upper) (fun top =>
      if (top <? value)%Z then Ok (at_ (length (vcol s)), None)
      else
        bind (index (vcol s) pos) (fun here =>
        if (value <=? here)%Z then Ok (at_ pos, Some here)
        else
          bind (vhalve (vcol s) value (upper - pos + 1) pos upper) (fun lu =>
          bind (vscan_up (vcol s) value (upper - pos + 1) (fst lu) (snd lu)) (fun p =>
          if snd lu <? p then Ok (at_ p, None)
          else bind (index (vcol s) p) (fun x => Ok (at_ p, Some x)))))).

(* vector.rs:169-172, 178-181 *)
Definition vcurrent (s : vscan) : res (option Z) :=
  match vpos s with
  | None => Ok None
  | Some p => if p <? vend s then bind (index (vcol s) p) (fun x => Ok (Some x)) else Ok None
  end.
Definition vposition (s : vscan) : option nat :=
  match vpos s with None => None | Some p => if p <? vend s then Some p else None end.

(* vector.rs:174-176, 183-187 *)
Definition vreset (s : vscan) : vscan := mk_vscan (vcol s) None (vstart s) (vend s).
Definition vnarrow (a b : nat) (s : vscan) : res vscan :=
  if b <=? length (vcol s) then Ok (mk_vscan (vcol s) None a b) else Panicked.

(* ------------------------------------------------------------------------------------------ *)
(* columnbuilder/rle.rs *)

(* RleElement (columnbuilder/rle.rs:14-22) *)
Record element : Type := mk_element { evalue : Z; elength : nat; eincrement : Z }.

(* ColumnBuilderRle (columnbuilder/rle.rs:26-30); the elements are kept with the last one first *)
Record rbuilder : Type := mk_rbuilder { relements : list element; rprevious : option Z; rcount : nat }.
Definition rnew : rbuilder := mk_rbuilder [] None 0.

(* ColumnBuilderRle::add (columnbuilder/rle.rs:69-124) *)
Definition radd (k : kind) (v : Z) (b : rbuilder) : res rbuilder :=
  let fresh := mk_element v 1 0%Z in
  match relements b with
  | [] => Ok (mk_rbuilder [fresh] (Some v) (rcount b + 1))
  | last :: before =>
      match rprevious b with
      | None => Panicked
      | Some prev =>
          let elements' :=
            match diff_step k prev v with
            | Some inc =>
                if elength last =? 1 then mk_element (evalue last) 2 inc :: before
                else if (eincrement last =? inc)%Z
                then mk_element (evalue last) (elength last + 1) (eincrement last) :: before
                else fresh :: last :: before
            | None => fresh :: last :: before
            end in
          Ok (mk_rbuilder elements' (Some v) (rcount b + 1))
      end
  end.

(* ------------------------------------------------------------------------------------------ *)
(* column/rle.rs *)

(* ColumnRle (rle.rs:15-19) *)
Record rcol : Type := mk_rcol { values : list Z; ends : list nat; increments : list Z }.

(* ColumnRle::from_rle_elements (rle.rs:26-50) *)
Fixpoint end_indices (acc : nat) (l : list element) : list nat :=
  match l with
  | [] => []
  | e :: l' => (acc + elength e) :: end_indices (acc + elength e) l'
  end.
Definition from_elements (l : list element) : rcol :=
  mk_rcol (map evalue l) (end_indices 0 l) (map eincrement l).

(* ColumnBuilderRle::finalize (columnbuilder/rle.rs:126-128) *)
Definition rfinalize (b : rbuilder) : rcol := from_elements (rev (relements b)).

(* the start of a block: the end of the block before (rle.rs:84-88, 189-194, 230-234) *)
Definition block_start (c : rcol) (e : nat) : res nat :=
  match e with O => Ok 0 | S e' => index (ends c) e' end.

(* get_element_and_increment_index_from_global_index (rle.rs:70-91) *)
Definition locate (c : rcol) (i : nat) : res (nat * nat) :=
  bind (if i =? 0 then Ok 0
        else bind (binary_search (fun e => Nat.compare e i) (ends c)) (fun r =>
             Ok (match r with Found j => j + 1 | Insert j => j end)))
  (fun e => bind (block_start c e) (fun st =>
            if i <? st then Panicked else Ok (e, i - st))).

(* get_internal (rle.rs:93-102) *)
Definition get_internal (k : kind) (c : rcol) (e i : nat) : res Z :=
  bind (index (values c) e) (fun v =>
  bind (index (increments c) e) (fun inc =>
  if (inc =? 0)%Z then Ok v else offset k v inc i)).

(* ColumnRle::len, get (rle.rs:111-127) *)
Definition rlen (c : rcol) : nat := last (ends c) 0.
Definition rget (k : kind) (c : rcol) (i : nat) : res Z :=
  bind (locate c i) (fun ei => get_internal k c (fst ei) (snd ei)).

(* ColumnScanRle (rle.rs:145-153) *)
Record rscan : Type := mk_rscan {
  col : rcol; el : nat; inc : nat; cur : option Z; lower : nat * nat; upper : nat * nat; init : bool }.

(* rle.rs:160-173 *)
Definition rscan_new (c : rcol) : res rscan :=
  bind (locate c (rlen c)) (fun u => Ok (mk_rscan c 0 0 None (0, 0) u false)).

(* rle.rs:175-183 *)
Definition initialize (s : rscan) : rscan :=
  if init s then s
  else mk_rscan (col s) (fst (lower s)) (snd (lower s)) (cur s) (lower s) (upper s) true.

(* rle.rs:202-210, 212-215 *)
Definition in_range (s : rscan) (e i : nat) : bool :=
  ((fst (lower s) <? e) || ((e =? fst (lower s)) && (snd (lower s) <=? i))) &&
  ((e <? fst (upper s)) || ((e =? fst (upper s)) && (i <? snd (upper s)))).
Definition self_in_range (s : rscan) : bool := init s && in_range s (el s) (inc s).

Definition set_pos (s : rscan) (e i : nat) : rscan :=
  mk_rscan (col s) e i (cur s) (lower s) (upper s) (init s).
Definition set_cur (s : rscan) (c : option Z) : rscan :=
  mk_rscan (col s) (el s) (inc s) c (lower s) (upper s) (init s).

(* ColumnScanRle::next (rle.rs:223-260) *)
Definition advance (s : rscan) : res rscan :=
  if init s && self_in_range s then
    bind (block_start (col s) (el s)) (fun st =>
    bind (index (ends (col s)) (el s)) (fun e =>
    Ok (if e <=? S (inc s) + st then set_pos s (S (el s)) 0 else set_pos s (el s) (S (inc s)))))
  else Ok (initialize s).

Definition rnext (k : kind) (s : rscan) : res (rscan * option Z) :=
  bind (advance s) (fun s =>
  if self_in_range s then
    bind (if inc s =? 0 then index (values (col s)) (el s)
          else match cur s with
               | Some c => bind (index (increments (col s)) (el s)) (fun i => offset k c i 1)
               | None => get_internal k (col s) (el s) (inc s)
               end)
         (fun v => Ok (set_cur s (Some v), Some v))
  else Ok (set_cur s None, None)).

(* Iterator::find (rle.rs:374) *)
Fixpoint find_from (k : kind) (value : Z) (fuel : nat) (s : rscan) : res (rscan * option Z) :=
  match fuel with
  | O => Fuel
  | S fuel' =>
      bind (rnext k s) (fun r =>
      match snd r with
      | Some v => if (value <=? v)%Z then Ok r else find_from k value fuel' (fst r)
      | None => Ok r
      end)
  end.

(* `(value - start) / inc` (rle.rs:323-325): the difference of two values of a signed type may
   overflow: panic with checks, else it wraps around.  A negative quotient is not a usize; then the
   default 0 is used. *)
Definition jump (k : kind) (value start inc : Z) : res nat :=
  let d := (value - start)%Z in
  if in_kind k d then Ok (Z.to_nat (Z.quot d inc))
  else if debug k then Panicked
  else Ok (Z.to_nat (Z.quot (d - (vmax k - vmin k + 1)) inc)).

(* the search of a position to continue from (rle.rs:297-346).  get_step_increment (rle.rs:321) is
   None for negative steps of unsigned types and Some for signed ones; then the quotient is negative
   or zero: the position is the start of the block in both cases. *)
Definition seek_target (k : kind) (value : Z) (s : rscan) : res (nat * nat) :=
  let c := col s in
  let bound := if 0 <? snd (upper s) then S (fst (upper s)) else fst (upper s) in
  let slice := firstn (bound - el s) (skipn (el s) (values c)) in
  if (bound <? el s) || (length (values c) <? bound) then Panicked
  else
  bind (binary_search (fun x => Z.compare x value) slice) (fun r =>
  let b := pred (match r with Found i => i | Insert i => i end) + el s in
  bind (index (values c) b) (fun start =>
  bind (index (increments c) b) (fun step =>
  if (value <=? start)%Z then Ok (b, 0)
  else if (step =? 0)%Z then Ok (S b, 0)
  else if (step <? 0)%Z && (vmin k =? 0)%Z then Ok (b, 0)
  else
    bind (jump k value start step) (fun j =>
    bind (block_start c b) (fun st =>
    bind (index (ends c) b) (fun e =>
    Ok (if e <=? j + st then (S b, 0) else (b, j)))))))).

(* ColumnScanRle::seek (rle.rs:255-375) *)
Definition rseek (k : kind) (value : Z) (s : rscan) : res (rscan * option Z) :=
  match values (col s) with
  | [] => Ok (s, None)
  | _ =>
      let s := initialize s in
      if negb (self_in_range s) then Ok (s, None)
      else
        bind (seek_target k value s) (fun t =>
        let s := if (el s <? fst t) || ((fst t =? el s) && (inc s <? snd t))
                 then set_pos s (fst t) (snd t) else s in
        bind (if self_in_range s
              then bind (get_internal k (col s) (el s) (inc s)) (fun v => Ok (Some v))
              else Ok None) (fun c =>
        let s := set_cur s c in
        match c with
        | Some v => if (value <=? v)%Z then Ok (s, Some v)
                    else find_from k value (S (rlen (col s))) s
        | None => find_from k value (S (rlen (col s))) s
        end))
  end.

(* rle.rs:377-403 *)
Definition rcurrent (s : rscan) : option Z := cur s.
Definition rreset (s : rscan) : rscan := mk_rscan (col s) 0 0 None (lower s) (upper s) false.
Definition rposition (s : rscan) : res (option nat) :=
  if self_in_range s
  then bind (block_start (col s) (el s)) (fun st => Ok (Some (st + inc s)))
  else Ok None.
Definition rnarrow (a b : nat) (s : rscan) : res rscan :=
  bind (locate (col s) a) (fun l =>
  bind (locate (col s) b) (fun u =>
  Ok (mk_rscan (col s) 0 0 None l u false))).

(* ------------------------------------------------------------------------------------------ *)
(* columnbuilder/adaptive.rs *)

Inductive column : Type := Vector (l : list Z) | Rle (c : rcol).
Inductive builder_type : Type := BRle (b : rbuilder) | BVector (l : list Z).
(* the limits are the fields decision_threshold and target_min_length (adaptive.rs:17-39, 100 and 50
   by default; None: decide on finalize) *)
Record abuilder : Type := mk_abuilder { abuild : builder_type; threshold : option nat; target : nat }.

(* Iterator::collect of a scan *)
Fixpoint rcollect (k : kind) (fuel : nat) (s : rscan) : res (list Z) :=
  match fuel with
  | O => Fuel
  | S fuel' =>
      bind (rnext k s) (fun r =>
      match snd r with
      | Some v => bind (rcollect k fuel' (fst r)) (fun l => Ok (v :: l))
      | None => Ok []
      end)
  end.
Definition riter (k : kind) (c : rcol) : res (list Z) :=
  bind (rscan_new c) (fun s => rcollect k (S (rlen c)) s).

(* avg_length_of_rle_elements (columnbuilder/rle.rs:49-55) *)
Definition average (b : rbuilder) : nat :=
  match relements b with [] => 0 | l => rcount b / length l end.

(* expand_sparse_rle_columns (adaptive.rs:85-104) *)
Definition expand_sparse (k : kind) (b : abuilder) : res abuilder :=
  match abuild b with
  | BVector _ => Ok b
  | BRle rb =>
      if average rb <? target b
      then bind (riter k (rfinalize rb)) (fun l => Ok (mk_abuilder (BVector l) (threshold b) (target b)))
      else Ok b
  end.

(* ColumnBuilderAdaptive::add, finalize, count (adaptive.rs:113-145) *)
Definition aadd (k : kind) (v : Z) (b : abuilder) : res abuilder :=
  bind (match threshold b, abuild b with
        | Some t, BRle rb => if t <? length (relements rb) then expand_sparse k b else Ok b
        | _, _ => Ok b
        end) (fun b =>
  match abuild b with
  | BVector l => Ok (mk_abuilder (BVector (l ++ [v])) (threshold b) (target b))
  | BRle rb => bind (radd k v rb) (fun rb => Ok (mk_abuilder (BRle rb) (threshold b) (target b)))
  end).
Definition afinalize (k : kind) (b : abuilder) : res column :=
  bind (expand_sparse k b) (fun b =>
  Ok (match abuild b with BVector l => Vector l | BRle rb => Rle (rfinalize rb) end)).
Definition acount (b : abuilder) : nat :=
  match abuild b with BVector l => length l | BRle rb => rcount rb end.
Definition anew (threshold : option nat) (target : nat) : abuilder :=
  mk_abuilder (BRle rnew) threshold target.
Fixpoint add_all (k : kind) (l : list Z) (b : abuilder) : res abuilder :=
  match l with [] => Ok b | v :: l' => bind (aadd k v b) (add_all k l') end.
Definition build_column (k : kind) (threshold : option nat) (target : nat) (l : list Z) : res column :=
  bind (add_all k l (anew threshold target)) (afinalize k).

(* ColumnEnum (column.rs:46-87): forwarding to the column, and ColumnScanEnum (columnscan.rs:52-77)
   restricted to the scans of columns *)
Inductive cscan : Type := VScan (s : vscan) | RScan (s : rscan).
Definition clen (c : column) : nat := match c with Vector l => length l | Rle r => rlen r end.
Definition cget (k : kind) (c : column) (i : nat) : res Z :=
  match c with Vector l => index l i | Rle r => rget k r i end.
Definition citer (c : column) : res cscan :=
  match c with Vector l => Ok (VScan (vnew l)) | Rle r => bind (rscan_new r) (fun s => Ok (RScan s)) end.
Definition cnext (k : kind) (s : cscan) : res (cscan * option Z) :=
  match s with
  | VScan s => bind (vnext s) (fun r => Ok (VScan (fst r), snd r))
  | RScan s => bind (rnext k s) (fun r => Ok (RScan (fst r), snd r))
  end.
Definition cseek (k : kind) (v : Z) (s : cscan) : res (cscan * option Z) :=
  match s with
  | VScan s => bind (vseek v s) (fun r => Ok (VScan (fst r), snd r))
  | RScan s => bind (rseek k v s) (fun r => Ok (RScan (fst r), snd r))
  end.
Definition ccurrent (s : cscan) : res (option Z) :=
  match s with VScan s => vcurrent s | RScan s => Ok (rcurrent s) end.
Definition cposition (s : cscan) : res (option nat) :=
  match s with VScan s => Ok (vposition s) | RScan s => rposition s end.
Definition creset (s : cscan) : cscan :=
  match s with VScan s => VScan (vreset s) | RScan s => RScan (rreset s) end.
Definition cnarrow (a b : nat) (s : cscan) : res cscan :=
  match s with
  | VScan s => bind (vnarrow a b s) (fun s => Ok (VScan s))
  | RScan s => bind (rnarrow a b s) (fun s => Ok (RScan s))
  end.
