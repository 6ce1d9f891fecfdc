(** Model of the validation and normalization of rules: nemo/src/rule_model/components/rule.rs and
    nemo/src/execution/planning/normalization. No proofs here. [None] means that the program panics. *)
From Coq Require Import List Arith ZArith Bool.
From Verif Require Import TableModel EngineModel OrderModel.
Import ListNotations.

Definition mapo {A B} (f : A -> option B) : list A -> option (list B) :=
  fix go l := match l with
              | [] => Some []
              | x :: r => match f x, go r with Some y, Some ys => Some (y :: ys) | _, _ => None end
              end.

(** ** Source rules *)

(** nemo/src/rule_model/components/term/operation/operation_kind.rs: equality has a special role in
    normalization; of every other operation only its (partial, strict) function is kept. *)
Inductive opkind := KEqual | KOther (f : list Z -> option Z).

(** nemo/src/rule_model/components/term.rs:53-67 [Term]. Variables are numbered: a universal and an existential
    variable are different variables also if they have the same name, so their numbers differ. [TAnon] is the
    universal variable without name, [TComplex] stands for maps, tuples and function terms. An aggregate
    (term/aggregate.rs) has the function of its aggregated values as in [EngineModel.aggregate]. Global
    variables are replaced before normalization and not modelled. *)
Inductive term :=
| TVar (v : var) | TAnon | TEx (v : var) | TConst (c : Z)
| TOp (k : opkind) (ts : list term)
| TAgg (f : list Z -> option Z) (t : term) (ds : list var)
| TComplex (ts : list term).

(** rule_model/components/literal.rs:20-29 *)
Inductive literal :=
| LPos (p : tag) (ts : list term)
| LNeg (p : tag) (ts : list term)
| LOp (k : opkind) (ts : list term).

(** rule_model/components/rule.rs:30-60, without import literals *)
Record srule := mkSrule { s_head : list (tag * list term); s_body : list literal }.

(** term.rs:399-408, term/operation.rs:350, term/aggregate.rs:391 [variables]: the named universal ones, *)
Fixpoint uvars (t : term) : list var :=
  match t with
  | TVar v => [v]
  | TOp _ ts | TComplex ts => flat_map uvars ts
  | TAgg _ t ds => uvars t ++ ds
  | _ => []
  end.
(** whether there is an anonymous one, *)
Fixpoint has_anon (t : term) : bool :=
  match t with
  | TAnon => true
  | TOp _ ts | TComplex ts => existsb has_anon ts
  | TAgg _ t _ => has_anon t
  | _ => false
  end.
(** and whether there is an existential one. *)
Fixpoint has_ex (t : term) : bool :=
  match t with
  | TEx _ => true
  | TOp _ ts | TComplex ts => existsb has_ex ts
  | TAgg _ t _ => has_ex t
  | _ => false
  end.

(** ** Validation *)

(** term/operation.rs:77-92 [variable_assignment]; [None] also if it is not an equality. [Some None]: the
    variable is anonymous or existential. *)
Definition assignment (k : opkind) (ts : list term) : option (option var * term) :=
  match k, ts with
  | KEqual, [TVar v; t] => Some (Some v, t)
  | KEqual, [TAnon; t] | KEqual, [TEx _; t] => Some (None, t)
  | KEqual, [t; TVar v] => Some (Some v, t)
  | KEqual, [t; TAnon] | KEqual, [t; TEx _] => Some (None, t)
  | _, _ => None
  end.

(** rule.rs:200-217 [positive_variables] *)
Definition prim_var (t : term) : list var := match t with TVar v => [v] | _ => [] end.
Definition positive_vars (body : list literal) : list var :=
  flat_map (fun l => match l with LPos _ ts => flat_map prim_var ts | _ => [] end) body.

(** rule.rs:242-252: one pass over the body *)
Fixpoint safe_pass (body : list literal) (acc : list var) : list var :=
  match body with
  | [] => acc
  | LOp k ts :: rest =>
      match assignment k ts with
      | Some (Some v, t) =>
          if negb (has_anon t) && negb (has_ex t) && inclb (uvars t) acc && negb (memv v acc)
          then safe_pass rest (acc ++ [v]) else safe_pass rest acc
      | _ => safe_pass rest acc
      end
  | _ :: rest => safe_pass rest acc
  end.
(** rule.rs:239-258: until nothing is added. [None]: out of fuel. *)
Fixpoint safe_loop (fuel : nat) (body : list literal) (acc : list var) : option (list var) :=
  match fuel with
  | 0 => None
  | S f => let acc' := safe_pass body acc in
           if length acc' =? length acc then Some acc else safe_loop f body acc'
  end.
(** rule.rs:233-259 [safe_variables] *)
Definition safe_variables (r : srule) : option (list var) :=
  safe_loop (S (length (s_body r))) (s_body r) (nodup Nat.eq_dec (positive_vars (s_body r))).

(** Validation of the terms themselves: term/operation.rs:277-306 (no anonymous variables, number of arguments
    of an equality; the other operations and the check that ground operations are defined are omitted) and
    term/aggregate.rs:277-341 (distinct variables; the check of types is omitted). *)
Fixpoint shape_ok (t : term) : bool :=
  match t with
  | TOp k ts => negb (existsb has_anon ts) && (match k with KEqual => length ts =? 2 | _ => true end) && forallb shape_ok ts
  | TAgg _ t ds =>
      shape_ok t && (length (nodup Nat.eq_dec (prim_var t ++ ds)) =? length (prim_var t ++ ds))
  | TComplex ts => forallb shape_ok ts
  | _ => true
  end.
(** atom.rs:185-206 *)
Definition atom_ok (ts : list term) : bool := negb (length ts =? 0) && forallb shape_ok ts.

(** Combine the results of [validate_term_head] on a list of terms (rule.rs:296-305 and 438-450): [None] if an
    error is reported, otherwise whether there is an aggregate. *)
Definition agg_fold (f : term -> option bool) : list term -> bool -> option bool :=
  fix go ts acc := match ts with
                   | [] => Some acc
                   | t :: r => match f t with
                               | None => None
                               | Some b => if b && acc then None else go r (b || acc)
                               end
                   end.
(** rule.rs:266-308 [validate_term_head] *)
Fixpoint head_term_ok (group : list var) (t : term) : option bool :=
  match t with
  | TComplex _ => None
  | TAgg _ s _ =>
      if (match s with TVar v | TEx v => memv v group | _ => false end) then None
      else agg_fold (head_term_ok group) [s] true
  | TOp _ ts => agg_fold (head_term_ok group) ts false
  | _ => Some false
  end.

(** rule.rs:314-357 [validate_term_body] *)
Fixpoint body_term_ok (safe : list var) (t : term) : bool :=
  match t with
  | TEx _ | TAgg _ _ _ | TComplex _ => false
  | TOp _ ts => inclb (flat_map uvars ts) safe && negb (existsb has_ex ts) && forallb (body_term_ok safe) ts
  | _ => true
  end.

(** rule.rs:424-429 *)
Definition group_by_variables (ts : list term) : list var :=
  flat_map (fun t => match t with TVar v | TEx v => [v] | _ => [] end) ts.
(** rule.rs:400-457: one head atom *)
Definition head_atom_ok (safe : list var) (existential : bool) (ts : list term) : bool :=
  atom_ok ts && inclb (flat_map uvars ts) safe && negb (existsb has_anon ts) &&
  match agg_fold (head_term_ok (group_by_variables ts)) ts false with
  | None => false
  | Some b => negb (b && existential)
  end.

(** literal.rs:38-44 [terms] *)
Definition literal_terms (l : literal) : list term :=
  match l with LPos _ ts | LNeg _ ts | LOp _ ts => ts end.
(** literal.rs:72-78 *)
Definition literal_ok (l : literal) : bool :=
  match l with LPos _ ts | LNeg _ ts => atom_ok ts | LOp k ts => shape_ok (TOp k ts) end.

(** rule.rs:464-474: variables of a negated atom that are not safe *)
Definition negative_vars (safe : list var) (l : literal) : list var :=
  match l with LNeg _ ts => filter (fun v => negb (memv v safe)) (flat_map prim_var ts) | _ => [] end.
(** rule.rs:459-498 *)
Fixpoint body_ok (safe seen : list var) (body : list literal) : bool :=
  match body with
  | [] => true
  | l :: rest =>
      literal_ok l && forallb (body_term_ok safe) (literal_terms l) &&
      forallb (fun v => negb (memv v seen)) (negative_vars safe l) &&
      body_ok safe (negative_vars safe l ++ seen) rest
  end.

(** rule.rs:377-501 [validate]: no error is reported. (Display attributes are not modelled.) *)
Definition validate (r : srule) : bool :=
  match safe_variables r with
  | None => false
  | Some safe =>
      existsb (fun l => match l with LPos _ _ => true | _ => false end) (s_body r) &&
      forallb (fun a => head_atom_ok safe (existsb (fun b => existsb has_ex (snd b)) (s_head r)) (snd a)) (s_head r) &&
      body_ok safe [] (s_body r)
  end.

(** ** Normalization *)

(** The names of generated variables: [_BODY_k], [_HEAD_k] (generator.rs:14-18), [_AGGREGATION_OUT],
    [_AGGREGATION_IN] (aggregate.rs), and the variable without name. *)
Definition body_var (k : nat) : var := 4 * k.
Definition head_var (k : nat) : var := 4 * k + 1.
Definition agg_out : var := 2.
Definition agg_in : var := 6.
Definition anonymous : var := 10.

(** normalization/operation.rs:24-36 [Operation] *)
Inductive nop := NVar (v : var) | NConst (c : Z) | NOp (k : opkind) (ns : list nop).

(** operation.rs:56-61 [new_assignment] *)
Definition new_assignment (v : var) (n : nop) : nop := NOp KEqual [NVar v; n].

(** operation.rs:74-81 [variables] *)
Fixpoint nvs (n : nop) : list var :=
  match n with NVar v => [v] | NConst _ => [] | NOp _ ns => flat_map nvs ns end.

(** operation.rs:252-360 [function_tree], evaluated (nemo-physical/src/function/tree.rs; see the Expr* files):
    operations are strict. *)
Definition apply_op (k : opkind) (zs : list Z) : option Z :=
  match k with
  | KEqual => match zs with [a; b] => Some (if Z.eqb a b then true_val else 0%Z) | _ => None end
  | KOther f => f zs
  end.
Fixpoint neval (nu : var -> Z) (n : nop) : option Z :=
  match n with
  | NVar v => Some (nu v)
  | NConst c => Some c
  | NOp k ns => match mapo (neval nu) ns with Some zs => apply_op k zs | None => None end
  end.
Definition to_expr (n : nop) : expr := mkExpr (nvs n) (fun zs => neval (val_of (nvs n) zs) n).

(** operation.rs:101-117 [variable_assignment] *)
Definition to_oper (n : nop) : oper :=
  match n with
  | NOp KEqual [NVar v; m] => OEq v (to_expr m)
  | NOp KEqual [m; NVar v] => OEq v (to_expr m)
  | _ => OFilter (to_expr n)
  end.

(** operation.rs:127-159 [normalize_body_term], [normalize_body_operation] *)
Fixpoint norm_term (t : term) : option nop :=
  match t with
  | TVar v | TEx v => Some (NVar v)
  | TAnon => Some (NVar anonymous)
  | TConst c => Some (NConst c)
  | TOp k ts => option_map (NOp k) (mapo norm_term ts)
  | TAgg _ _ _ | TComplex _ => None
  end.

(** atom/body.rs:75-139 [normalize_atom]: the loop over the terms; [k] is the last generated number *)
Fixpoint norm_body_terms (ts : list term) (used : list var) (k : nat) : option (list var * list nop * nat) :=
  match ts with
  | [] => Some ([], [], k)
  | t :: rest =>
      let fresh n :=
        match norm_body_terms rest used (S k) with
        | Some (xs, os, k') => Some (body_var (S k) :: xs, new_assignment (body_var (S k)) n :: os, k')
        | None => None
        end in
      match t with
      | TAnon =>
          match norm_body_terms rest used (S k) with
          | Some (xs, os, k') => Some (body_var (S k) :: xs, os, k')
          | None => None
          end
      | TVar v | TEx v =>
          if memv v used then fresh (NVar v)
          else match norm_body_terms rest (v :: used) k with
               | Some (xs, os, k') => Some (v :: xs, os, k')
               | None => None
               end
      | TConst c => fresh (NConst c)
      | TOp _ _ => match norm_term t with Some n => fresh n | None => None end
      | TAgg _ _ _ | TComplex _ => None
      end
  end.

(** rule.rs:496-501, 504-509: the atoms, the operations, the generator *)
Fixpoint norm_body (atoms : list (tag * list term)) (k : nat) : option (list atom * list nop * nat) :=
  match atoms with
  | [] => Some ([], [], k)
  | (p, ts) :: rest =>
      match norm_body_terms ts [] k with
      | None => None
      | Some (xs, os, k1) =>
          match norm_body rest k1 with
          | None => None
          | Some (l, os', k2) => Some ((p, xs) :: l, os ++ os', k2)
          end
      end
  end.

(** An aggregate in a head term. *)
Definition sagg := ((list Z -> option Z) * term * list var)%type.
Fixpoint first_some {A} (l : list (option A)) : option A :=
  match l with [] => None | Some x :: _ => Some x | None :: r => first_some r end.

(** operation.rs:166-220 [normalize_head_term], [normalize_head_operation] *)
Fixpoint norm_hterm (t : term) : option (nop * option sagg) :=
  match t with
  | TVar v | TEx v => Some (NVar v, None)
  | TAnon => Some (NVar anonymous, None)
  | TConst c => Some (NConst c, None)
  | TOp k ts =>
      match mapo norm_hterm ts with
      | None => None
      | Some l => Some (NOp k (map fst l), first_some (map snd l))
      end
  | TAgg f s ds => Some (NVar agg_out, Some (f, s, ds))
  | TComplex _ => None
  end.

(** atom/head.rs:101-150: the loop over the terms, with the index [i] of the next term. Results: head terms,
    operations, the aggregate with the variables outside of it and its index, the generator. *)
Fixpoint norm_head_terms (ts : list term) (i k : nat) (ag : option (sagg * list var * nat))
  : option (list hterm * list nop * option (sagg * list var * nat) * nat) :=
  match ts with
  | [] => Some ([], [], ag, k)
  | t :: rest =>
      let prim h := match norm_head_terms rest (S i) k ag with
                    | Some (hs, os, a, k') => Some (h :: hs, os, a, k')
                    | None => None
                    end in
      match t with
      | TVar v => prim (HVar v)
      | TEx v => prim (HEx v)
      | TAnon => prim (HVar anonymous)
      | TConst c => prim (HConst c)
      | TAgg f s ds =>
          match norm_head_terms rest (S i) k (Some ((f, s, ds), [], i)) with
          | Some (hs, os, a, k') => Some (HVar agg_out :: hs, os, a, k')
          | None => None
          end
      | TOp _ _ =>
          match norm_hterm t with
          | None => None
          | Some (n, sa) =>
              let ag' := match sa with
                         | Some s => Some (s, filter (fun v => negb (v =? agg_out)) (nvs n), i)
                         | None => ag
                         end in
              match norm_head_terms rest (S i) (S k) ag' with
              | Some (hs, os, a, k') => Some (HVar (head_var (S k)) :: hs, new_assignment (head_var (S k)) n :: os, a, k')
              | None => None
              end
          end
      | TComplex _ => None
      end
  end.

(** head.rs:155-162: the variables of the other head terms, and those outside the aggregate, are grouped.
    (A hash set in the program; its order is irrelevant.) *)
Definition group_of (hs : list hterm) (vs : list var) (idx : nat) : list var :=
  nodup Nat.eq_dec (vs ++ flat_map (fun ih => if fst ih =? idx then [] else hterm_vars (snd ih)) (combine (seq 0 (length hs)) hs)).

(** aggregate.rs:126-175 [normalize_aggregation] *)
Definition norm_aggregation (sa : sagg) (group : list var) : option (aggregate * list nop) :=
  let '(f, s, ds) := sa in
  match s with
  | TVar v | TEx v => Some (mkAgg v agg_out ds group f, [])
  | TAnon => Some (mkAgg anonymous agg_out ds group f, [])
  | TConst _ | TOp _ _ =>
      match norm_term s with
      | Some n => Some (mkAgg agg_in agg_out ds group f, [new_assignment agg_in n])
      | None => None
      end
  | _ => None
  end.

(** head.rs:101-175 [normalize_atom] *)
Definition norm_head_atom (ts : list term) (k : nat) : option (list hterm * list nop * option aggregate * nat) :=
  match norm_head_terms ts 0 k None with
  | None => None
  | Some (hs, os, None, k') => Some (hs, os, None, k')
  | Some (hs, os, Some (sa, vs, idx), k') =>
      match norm_aggregation sa (group_of hs vs idx) with
      | Some (a, os') => Some (hs, os ++ os', Some a, k')
      | None => None
      end
  end.

(** rule.rs:511-523; [i] is the index of the next head atom. A later aggregate replaces an earlier one. *)
Fixpoint norm_heads (atoms : list (tag * list term)) (i k : nat) (ag : option (aggregate * nat))
  : option (list hatom * list nop * option (aggregate * nat)) :=
  match atoms with
  | [] => Some ([], [], ag)
  | (p, ts) :: rest =>
      match norm_head_atom ts k with
      | None => None
      | Some (hs, os, a, k') =>
          match norm_heads rest (S i) k' (match a with Some a => Some (a, i) | None => ag end) with
          | None => None
          | Some (l, os', ag') => Some ((p, hs) :: l, os ++ os', ag')
          end
      end
  end.

(** rule.rs:129-150 [body_positive], [body_negative], [body_operations] *)
Definition body_positive (r : srule) : list (tag * list term) :=
  flat_map (fun l => match l with LPos p ts => [(p, ts)] | _ => [] end) (s_body r).
Definition body_negative (r : srule) : list (tag * list term) :=
  flat_map (fun l => match l with LNeg p ts => [(p, ts)] | _ => [] end) (s_body r).
Definition body_operations (r : srule) : list term :=
  flat_map (fun l => match l with LOp k ts => [TOp k ts] | _ => [] end) (s_body r).

(** rule.rs:487-551 [normalize_rule] (the orders are computed later) *)
Definition normalize (r : srule) : option rule :=
  match mapo norm_term (body_operations r), norm_body (body_positive r) 0 with
  | Some os, Some (pos, os1, k1) =>
      match norm_body (body_negative r) k1 with
      | None => None
      | Some (neg, os2, k2) =>
          match norm_heads (s_head r) 0 k2 None with
          | None => None
          | Some (head, os3, ag) =>
              Some (mkRule head pos neg (map to_oper (os ++ os1 ++ os2 ++ os3)) ag [] [])
          end
      end
  | _, _ => None
  end.

(** ** Programs *)

Record sprogram := mkSprogram {
  sp_rules : list srule;
  sp_facts : list (tag * list term);
  sp_imports : list (tag * list row);
  sp_preds : list (tag * nat);
  sp_outputs : list tag }.

(** term.rs [reduce] of a ground term; atom/ground.rs:75-95 [normalize_fact]: [Some None] if a term is
    undefined, [None] if it is not ground. *)
Fixpoint ground (t : term) : bool :=
  match t with TConst _ => true | TOp _ ts => forallb ground ts | _ => false end.
Definition norm_fact (ts : list term) : option (option row) :=
  if forallb ground ts
  then match mapo norm_term ts with
       | Some ns => Some (mapo (neval (fun _ => 0%Z)) ns)
       | None => None
       end
  else None.

(** normalization/program.rs:250-345 [normalize_program]. (The bookkeeping of arities and data values is not
    modelled.) *)
Definition normalize_program (sp : sprogram) : option program :=
  match mapo (fun f => option_map (option_map (pair (fst f))) (norm_fact (snd f))) (sp_facts sp), mapo normalize (sp_rules sp) with
  | Some fs, Some rules =>
      let facts := flat_map (fun o => match o with Some f => [f] | None => [] end) fs in
      let pr := mkProgram rules facts (sp_imports sp) (sp_preds sp) (sp_outputs sp) in
      option_map (fun rs => mkProgram rs facts (sp_imports sp) (sp_preds sp) (sp_outputs sp)) (compute_orders pr)
  | _, _ => None
  end.
