(** Model of nemo/src/rule_model/pipeline/transformations/filter_imports.rs [TransformationFilterImports], which
    pushes rules over imported predicates into the import statements, and of the code that evaluates the pushed
    rules while reading: normalization/rule.rs [into_filter_transform_pattern], nemo-physical/src/tabular/filters.rs
    and tuple_buffer.rs. No proofs here. [None] means that the program panics. *)
From Coq Require Import List Arith ZArith Bool.
From Verif Require Import TableModel EngineModel OrderModel NormModel.
Import ListNotations.

(** ** Programs *)

(** nemo/src/io/formats/dsv/value_format.rs:25-60 and rdf/value_format.rs: the format of a column in the file; of
    the value formats only the (partial) parser of the field is kept. Fields are numbered. *)
Inductive fmt := FParse (f : Z -> option Z) | FSkip.
Definition is_skip (f : fmt) : bool := match f with FSkip => true | _ => false end.

(** rule_model/components/import_export.rs:60-90 [ImportDirective]: the predicate, whether the format is DSV or RDF
    (filter_imports.rs:227-230), the value formats (a missing format attribute stands for the general format in
    each column), the records of the file, and the filter rules. *)
Record import := mkImport {
  i_pred : tag; i_project : bool; i_formats : list fmt; i_records : list (list Z); i_rules : list srule }.

(** The statements of a program (statement.rs:25-40), sorted by kind; [f_outputs]: the predicates of @output and
    @export statements. Parameters and import literals in rules are not modelled. *)
Record fprogram := mkFprogram {
  f_rules : list srule; f_facts : list (tag * list term); f_imports : list import;
  f_preds : list (tag * nat); f_outputs : list tag }.

(** ** Which rules are pushed *)

Definition memt (p : tag) (l : list tag) : bool := if in_dec Nat.eq_dec p l then true else false.
Definition tags (l : list tag) : list tag := nodup Nat.eq_dec l.

(** filter_imports.rs:53-85 [check_rule]; term.rs:112-114, 142-147 look at the outermost constructor only *)
Definition head_term_bad (t : term) : bool := match t with TAgg _ _ _ | TEx _ => true | _ => false end.
Definition check_rule (r : srule) : option tag :=
  match body_negative r, body_positive r with
  | [], [(p, _)] =>
      if (length (tags (map fst (s_head r))) =? 1) && negb (existsb (fun a => existsb head_term_bad (snd a)) (s_head r))
      then Some p else None
  | _, _ => None
  end.

(** filter_imports.rs:87-96 [same_head_predicate] *)
Definition same_head_predicate (rs : list srule) : bool :=
  length (tags (flat_map (fun r => map fst (s_head r)) rs)) =? 1.

(** filter_imports.rs:98-130 [forbidden_predicates] *)
Definition forbidden_predicates (P : fprogram) : list tag :=
  flat_map (fun r => match check_rule r with
                     | Some _ => []
                     | None => map fst (s_head r) ++ map fst (body_positive r) ++ map fst (body_negative r)
                     end) (f_rules P)
  ++ map fst (f_facts P) ++ f_outputs P.

(** filter_imports.rs:132-180 [import_rules]: the rules of an import of predicate [p]. (Rules are identified by
    their ids; whether a rule belongs to an import depends only on its body predicate.) *)
Definition checked_for (p : tag) (r : srule) : bool :=
  match check_rule r with Some q => p =? q | None => false end.
Definition import_rules (P : fprogram) (p : tag) : list srule :=
  if memt p (forbidden_predicates P) then []
  else let rs := filter (checked_for p) (f_rules P) in
       if same_head_predicate rs then rs else [].

(** filter_imports.rs:174-177 [internalized_rules] *)
Definition internalized (P : fprogram) (r : srule) : bool :=
  match check_rule r with
  | Some p => memt p (map i_pred (f_imports P)) && negb (length (import_rules P p) =? 0)
  | None => false
  end.

(** ** Pushing projections *)

Definition head0 (r : srule) : tag * list term := nth 0 (s_head r) (0, []).

(** term.rs:137-139 [is_variable] *)
Definition is_variable (t : term) : bool := match t with TVar _ | TAnon | TEx _ => true | _ => false end.
(** The name of a variable term; [None] for an anonymous variable. *)
Definition var_name (t : term) : list (option var) :=
  match t with TVar v | TEx v => [Some v] | TAnon => [None] | _ => [] end.

(** filter_imports.rs:242-257: variables of the head and of equations *)
Definition binding_vars (r : srule) : list var :=
  flat_map (fun l => match l with
                     | LOp k ts => match assignment k ts with Some _ => flat_map uvars ts | None => [] end
                     | _ => [] end) (s_body r).
Definition used_vars (r : srule) : list var := flat_map uvars (snd (head0 r)) ++ binding_vars r.

(** filter_imports.rs:261-269: the columns used by this rule *)
Definition used_term (r : srule) (t : term) : bool :=
  match t with TVar v => memv v (used_vars r) | TConst _ => true | _ => false end.
(** filter_imports.rs:259-269: [positions] after this rule ([resize], then set the used ones) *)
Fixpoint or_lists (a b : list bool) : list bool :=
  match a, b with
  | x :: a', y :: b' => (x || y) :: or_lists a' b'
  | [], b => b
  | a, [] => a
  end.
Definition body0 (r : srule) : list term := snd (nth 0 (body_positive r) (0, [])).
Definition add_positions (pos : list bool) (r : srule) : list bool :=
  or_lists pos (map (used_term r) (body0 r)).

(** filter_imports.rs:273-290: columns that are not used are skipped; panics if there are more columns than
    positions *)
Fixpoint skip_formats (fs : list fmt) (pos : list bool) : option (list fmt) :=
  match fs, pos with
  | [], _ => Some []
  | f :: fs', b :: pos' => option_map (cons (if b then f else FSkip)) (skip_formats fs' pos')
  | _ :: _, [] => None
  end.

(** filter_imports.rs:301-318: [zip] of the head variables with the used body variables, lazily. Is there a
    difference? [None]: index out of bounds *)
Fixpoint zip_differs (hs bs : list (option var)) (pos : list bool) {struct bs} : option bool :=
  match hs with
  | [] => Some false
  | h :: hs' =>
      match bs with
      | [] => Some false
      | b :: bs' =>
          match pos with
          | [] => None
          | true :: pos' =>
              if (match h, b with Some v, Some w => v =? w | None, None => true | _, _ => false end)
              then zip_differs hs' bs' pos' else Some true
          | false :: pos' => zip_differs hs bs' pos'
          end
      end
  end.
(** filter_imports.rs:293-322: is the rule considered obsolete? [rule.body()[0]] is the first literal. *)
Definition obsolete (pos : list bool) (r : srule) : option bool :=
  match s_body r with
  | [] => None
  | l :: _ =>
      if forallb is_variable (snd (head0 r)) && forallb is_variable (literal_terms l) then
        option_map negb (zip_differs (flat_map var_name (snd (head0 r))) (flat_map var_name (literal_terms l)) pos)
      else Some false
  end.
Fixpoint obsolete_from (n : nat) (pos : list bool) (rs : list srule) : option (list nat) :=
  match rs with
  | [] => Some []
  | r :: rs' =>
      match obsolete pos r, obsolete_from (S n) pos rs' with
      | Some b, Some l => Some (if b then n :: l else l)
      | _, _ => None
      end
  end.

(** filter_imports.rs:237-323: the loop over the rules, [all] are all of them *)
Fixpoint push_loop (all rs : list srule) (pos : list bool) (fs : list fmt) (obs : list nat)
  : option (list fmt * list nat) :=
  match rs with
  | [] => Some (fs, obs)
  | r :: rs' =>
      let pos' := add_positions pos r in
      if forallb (fun b => b) pos' then push_loop all rs' pos' fs obs
      else match skip_formats fs pos', obsolete_from 0 pos' all with
           | Some fs', Some l => push_loop all rs' pos' fs' (obs ++ l)
           | _, _ => None
           end
  end.

(** Vec::remove *)
Fixpoint remove_at {A} (n : nat) (l : list A) : option (list A) :=
  match n, l with
  | _, [] => None
  | 0, _ :: r => Some r
  | S k, x :: r => option_map (cons x) (remove_at k r)
  end.
(** filter_imports.rs:325-327 *)
Fixpoint remove_all {A} (ns : list nat) (l : list A) : option (list A) :=
  match ns with
  | [] => Some l
  | n :: ns' => match remove_at n l with Some l' => remove_all ns' l' | None => None end
  end.

(** filter_imports.rs:223-333 [push_projections_and_filters] *)
Definition push (i : import) (rs : list srule) : option import :=
  if i_project i then
    match push_loop rs rs [] (i_formats i) [] with
    | None => None
    | Some (fs, obs) =>
        match remove_all obs rs with
        | None => None
        | Some rs' => Some (mkImport (i_pred i) (i_project i) fs (i_records i) (i_rules i ++ rs'))
        end
    end
  else Some (mkImport (i_pred i) (i_project i) (i_formats i) (i_records i) (i_rules i ++ rs)).

(** filter_imports.rs:193-215: an import statement *)
Definition new_import (P : fprogram) (i : import) : option import :=
  match import_rules P (i_pred i) with
  | [] => Some i
  | (r0 :: _) as rs =>
      if forallb (fun r => length (snd (head0 r)) =? length (snd (head0 r0))) rs
      then push (mkImport (fst (head0 r0)) (i_project i) (i_formats i) (i_records i) (i_rules i)) rs
      else Some i
  end.

(** filter_imports.rs:183-221 [apply] *)
Definition filter_imports (P : fprogram) : option fprogram :=
  match mapo (new_import P) (f_imports P) with
  | None => None
  | Some is =>
      Some (mkFprogram (filter (fun r => negb (internalized P r)) (f_rules P)) (f_facts P) is (f_preds P) (f_outputs P))
  end.

(** ** Evaluating pushed rules *)

(** nemo-physical/src/tabular/filters.rs:30-36 [FilterTransformPattern]: all variables in the order of their
    markers, the number of columns of the body atom, the computed variables with their expressions, the filters, and
    the head terms (one transformation each). *)
Record pattern := mkPattern {
  pt_vars : list var; pt_in : list var; pt_fns : list (var * expr); pt_filters : list oper; pt_out : list hterm }.

(** normalization/rule.rs:553-648 [into_filter_transform_pattern]: [Some None] if there is nothing to do. Inlining
    the computed variables into the expressions of the head is modelled by evaluating them in order. *)
Definition into_pattern (r : rule) : option (option pattern) :=
  match r_pos r, r_head r with
  | (_, xs) :: _, (_, hs) :: _ =>
      match gen_function (atom_vars (r_pos r)) (r_ops r) with
      | None => None
      | Some (vs, fns, ops) =>
          let fs := fst (gen_filter vs ops) in
          if forallb (fun h => match h with HVar v | HEx v => memv v (xs ++ map fst fns) | HConst _ => true end) hs then
            Some (match fs, hs with
                  | [], [] => None
                  | _, _ => Some (mkPattern (dedup (atom_vars (r_pos r) ++ head_vars r ++ flat_map op_vars (r_ops r))) xs fns fs hs)
                  end)
          else None
      end
  | _, _ => None
  end.

(** Result of an evaluation. *)
Inductive outcome := Val (z : Z) | Undef | Crash.

Fixpoint index_of (v : var) (l : list var) : option nat :=
  match l with [] => None | x :: r => if v =? x then Some 0 else option_map S (index_of v r) end.

(** filters.rs:70-90 [with_skips], function/evaluation.rs:39-44: the column a reference is renamed to *)
Definition count_true (l : list bool) : nat := length (filter (fun b => b) l).
Definition renamed (skips : list bool) (n : nat) : nat :=
  match nth_error skips n with
  | Some false => n - count_true (firstn n skips)
  | _ => n
  end.
(** evaluation.rs:219-222: indexing the referenced values *)
Definition column (skips : list bool) (vals : list Z) (vs : list var) (v : var) : outcome :=
  match index_of v vs with
  | None => Crash
  | Some n => match nth_error vals (renamed skips n) with Some z => Val z | None => Crash end
  end.

(** Evaluation of an expression whose variables have the given outcomes: functions are strict. *)
Fixpoint collect (l : list outcome) : outcome + list Z :=
  match l with
  | [] => inr []
  | Val z :: r => match collect r with inr zs => inr (z :: zs) | inl o => inl o end
  | o :: _ => inl o
  end.
Definition eval_in (env : var -> outcome) (e : expr) : outcome :=
  match collect (map env (e_vars e)) with
  | inl o => o
  | inr zs => match e_fun e zs with Some z => Val z | None => Undef end
  end.
(** rule.rs:590-618: the values of computed variables *)
Fixpoint inlined (env : var -> outcome) (fns : list (var * expr)) : var -> outcome :=
  match fns with
  | [] => env
  | (v, e) :: rest => let o := eval_in env e in inlined (fun w => if w =? v then o else env w) rest
  end.
Definition eval_op (env : var -> outcome) (o : oper) : outcome :=
  match o with
  | OFilter e => eval_in env e
  | OEq v e => match env v, eval_in env e with
               | Val a, Val b => Val (if Z.eqb b a then true_val else 0%Z)
               | Crash, _ => Crash
               | Val _, Crash => Crash
               | _, _ => Undef
               end
  end.

(** tuple_buffer.rs:467-472 [pattern_matches]: the conjunction of the filters; [None]: panic *)
Fixpoint all_true (env : var -> outcome) (fs : list oper) : option bool :=
  match fs with
  | [] => Some true
  | o :: rest => match eval_op env o with
                 | Crash => None
                 | Undef => Some false
                 | Val z => option_map (andb (Z.eqb z true_val)) (all_true env rest)
                 end
  end.

Fixpoint set_at (n : nat) (z : Z) (l : list Z) : option (list Z) :=
  match n, l with
  | _, [] => None
  | 0, _ :: r => Some (z :: r)
  | S k, x :: r => option_map (cons x) (set_at k z r)
  end.
(** tuple_buffer.rs:486-494: the transformations, from position [n] on; the result says whether all were defined *)
Fixpoint transform (env : var -> outcome) (hs : list hterm) (n : nat) (buf : list Z) : option (list Z * bool) :=
  match hs with
  | [] => Some (buf, true)
  | h :: rest =>
      match (match h with HConst c => Val c | HVar v | HEx v => env v end) with
      | Crash => None
      | Undef => Some (buf, false)
      | Val z => match set_at n z buf with Some buf' => transform env rest (S n) buf' | None => None end
      end
  end.
(** tuple_buffer.rs:474-501 [match_filters_and_transform], for a non-empty list of patterns; the new contents of
    the buffer and whether the tuple is kept *)
Fixpoint first_match (skips : list bool) (input : nat) (ps : list pattern) (buf : list Z) : option (list Z * bool) :=
  match ps with
  | [] => Some (buf, false)
  | p :: rest =>
      match all_true (column skips (firstn input buf) (pt_vars p)) (pt_filters p) with
      | None => None
      | Some false => first_match skips input rest buf
      | Some true =>
          match transform (inlined (column skips buf (pt_vars p)) (pt_fns p)) (pt_out p) 0 buf with
          | None => None
          | Some (buf', true) => Some (buf', true)
          | Some (buf', false) => first_match skips input rest buf'
          end
      end
  end.
Definition match_and_transform (skips : list bool) (input : nat) (ps : list pattern) (buf : list Z) : option (list Z * bool) :=
  match ps with [] => Some (buf, true) | _ => first_match skips input ps buf end.

(** ** Reading *)

(** dsv/reader.rs:97-143 [read]: the values of a record; [None]: the record is dropped *)
Fixpoint read_record (fs : list fmt) (rec : list Z) : option (list Z) :=
  match fs, rec with
  | [], [] => Some []
  | FSkip :: fs', _ :: rec' => read_record fs' rec'
  | FParse f :: fs', z :: rec' =>
      match f z, read_record fs' rec' with Some v, Some r => Some (v :: r) | _, _ => None end
  | _, _ => None
  end.

(** tuple_buffer.rs:311-318 [output_columns_from_patterns] *)
Definition output_columns (input : nat) (ps : list pattern) : nat :=
  match ps with
  | [] => input
  | p :: _ => if length (pt_out p) =? 0 then input else length (pt_out p)
  end.

(** tuple_buffer.rs:359-384 [add_tuple_data_value] for all values of the records, with the contents of the
    buffer *)
Fixpoint read_records (fs : list fmt) (ps : list pattern) (out : nat) (buf : list Z) (recs : list (list Z)) : option (list row) :=
  match recs with
  | [] => Some []
  | rec :: rest =>
      match read_record fs rec with
      | None => read_records fs ps out buf rest
      | Some vals =>
          match match_and_transform (map is_skip fs) (length vals) ps (vals ++ skipn (length vals) buf) with
          | None => None
          | Some (buf', keep) =>
              match read_records fs ps out buf' rest with
              | None => None
              | Some rows => Some (if keep then firstn out buf' :: rows else rows)
              end
          end
      end
  end.

(** io/format_builder.rs:686-697 [build_import] and dsv/reader.rs:51-80: the patterns of the filter rules; then
    reading with a fresh buffer (tuple_buffer.rs:294-309 [set_patterns]) *)
Definition patterns_of (rs : list srule) : option (list pattern) :=
  option_map (flat_map (fun o => match o with Some p => [p] | None => [] end))
    (mapo (fun r => match normalize r with Some n => into_pattern n | None => None end) rs).
Definition input_columns (fs : list fmt) : nat := length (filter (fun f => negb (is_skip f)) fs).
Definition import_table (i : import) : option (list row) :=
  match patterns_of (i_rules i) with
  | None => None
  | Some ps =>
      let input := input_columns (i_formats i) in
      let out := output_columns input ps in
      read_records (i_formats i) ps out (repeat 0%Z (max input out)) (i_records i)
  end.

(** The program with the imported tables. *)
Definition source (P : fprogram) : option sprogram :=
  match mapo (fun i => option_map (pair (i_pred i)) (import_table i)) (f_imports P) with
  | None => None
  | Some is => Some (mkSprogram (f_rules P) (f_facts P) is (f_preds P) (f_outputs P))
  end.
