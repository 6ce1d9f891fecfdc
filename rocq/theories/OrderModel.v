(** Model of nemo/src/execution/planning/analysis/variable_order.rs, of the part of
    normalization/program.rs that sets the variable orders of rules, and of
    nemo-physical/src/permutator.rs (as used there). No proofs here.
    [None] means panic. Not modelled: import atoms in rules ([positive_all] is the positive body). *)
From Coq Require Import List Arith ZArith Bool.
From Verif Require Import TableModel EngineModel PermModel.
Import ListNotations.

(** variable_order.rs:21-23 [VariableOrder]: a hash map from variables to positions, as a list of its
    entries. Hash maps iterate in an unspecified order; every iteration below sorts by position. *)
Definition vorder := list (var * nat).

(** [HashMap::get], variable_order.rs:52-59 [get], [contains] *)
Fixpoint vo_get (o : vorder) (v : var) : option nat :=
  match o with [] => None | (w, i) :: r => if v =? w then Some i else vo_get r v end.
Definition vo_contains (o : vorder) (v : var) : bool := match vo_get o v with Some _ => true | None => false end.

(** [HashMap::insert] *)
Fixpoint vo_insert (o : vorder) (v : var) (i : nat) : vorder :=
  match o with
  | [] => [(v, i)]
  | (w, j) :: r => if v =? w then (w, i) :: r else (w, j) :: vo_insert r v i
  end.

(** variable_order.rs:27-33 [new] *)
Fixpoint vo_new_loop (vs : list var) (i : nat) (o : vorder) : vorder :=
  match vs with [] => o | v :: r => vo_new_loop r (S i) (vo_insert o v i) end.
Definition vo_new (vs : list var) : vorder := vo_new_loop vs 0 [].

(** [Iterator::max] *)
Definition max_opt (l : list nat) : option nat :=
  match l with [] => None | x :: r => Some (fold_left max r x) end.

(** variable_order.rs:36-39 [push] *)
Definition vo_push (o : vorder) (v : var) : vorder :=
  vo_insert o v (match max_opt (map snd o) with None => 0 | Some i => S i end).

(** [slice::sort_by] by position: a stable sort *)
Fixpoint ins_pos (x : var * nat) (l : list (var * nat)) : list (var * nat) :=
  match l with
  | [] => [x]
  | y :: r => if snd y <=? snd x then y :: ins_pos x r else x :: l
  end.
Definition sort_pos (l : list (var * nat)) : list (var * nat) := fold_left (fun acc x => ins_pos x acc) l [].

(** variable_order.rs:98-106 [iter] *)
Definition vo_iter (o : vorder) : list var := map fst (sort_pos o).

(** variable_order.rs:109-114 [as_ordered_list]: sorts the sorted list once more; [unwrap]s the positions *)
Definition with_pos (o : vorder) (vs : list var) : option (list (var * nat)) :=
  mapM (fun v => option_map (fun i => (v, i)) (vo_get o v)) vs.
Definition vo_list (o : vorder) : option (list var) :=
  option_map (fun l => map fst (sort_pos l)) (with_pos o (vo_iter o)).

(** variable_order.rs:62-85 [restrict_to]; the hash set is given by its elements in any order *)
Definition vo_restrict (o : vorder) (vs : list var) : option vorder :=
  option_map (fun l => vo_new (map fst (sort_pos l)))
    (with_pos o (filter (vo_contains o) vs)).

(** variable_order.rs:144-154 [extend] *)
Definition vo_extend (o : vorder) (vs : list var) : vorder :=
  fold_left (fun o v => if vo_contains o v then o else vo_push o v) vs o.

(** Equality of hash maps *)
Definition vo_eqb (o o' : vorder) : bool :=
  (length o =? length o') &&
  forallb (fun e => match vo_get o' (fst e) with Some i => snd e =? i | None => false end) o.

(** variable_order.rs:174-194 [IterationOrder::get_permutator] and permutator.rs:25-43 [sort_from_vec] *)
Inductive iteration := Forward | Backward | InsideOut.
Definition iteration_keys (it : iteration) (len : nat) : list nat :=
  match it with
  | Forward => seq 0 len
  | Backward => rev (seq 0 len)
  | InsideOut => rev (map (fun i => i * 2 + 1) (seq 0 (len / 2))) ++ map (fun i => i * 2) (seq 0 (len - len / 2))
  end.
(** permutator.rs:46-62 [permute] with offset 0 *)
Definition permute_by {A} (idx : list nat) (data : list A) : option (list A) :=
  if length data <? length idx then None
  else mapM (nth_error data) (idx ++ seq (length idx) (length data - length idx)).
Definition permuted {A} (it : iteration) (data : list A) : option (list A) :=
  permute_by (sort_idx Nat.leb 0 (iteration_keys it (length data))) data.

(** variable_order.rs:196-219 [column_order_for] *)
Fixpoint positions (v : var) (xs : list var) (i : nat) : list nat :=
  match xs with [] => [] | x :: r => if x =? v then i :: positions v r (S i) else positions v r (S i) end.
Definition column_order_for (xs : list var) (o : vorder) : option perm :=
  let partial := flat_map (fun v => positions v xs 0) (vo_iter o) in
  let remaining := filter (fun i => negb (existsb (Nat.eqb i) partial)) (seq 0 (length xs)) in
  from_vector (partial ++ remaining).

(** [required_trie_column_orders] *)
Definition corders := list (tag * list perm).
Fixpoint co_get (c : corders) (p : tag) : option (list perm) :=
  match c with [] => None | (q, l) :: r => if p =? q then Some l else co_get r p end.
(** [insert] of a set *)
Fixpoint co_set (c : corders) (p : tag) (l : list perm) : corders :=
  match c with
  | [] => [(p, l)]
  | (q, l0) :: r => if p =? q then (q, l) :: r else (q, l0) :: co_set r p l
  end.
(** [entry(p).or_default().insert(x)] *)
Definition co_add (c : corders) (p : tag) (x : perm) : corders :=
  let l := match co_get c p with Some l => l | None => [] end in
  co_set c p (if existsb (perm_eqb x) l then l else l ++ [x]).

(** variable_order.rs:238-261 [filter_cartesian_product] *)
Definition filter_cartesian (rem : list var) (o : vorder) (atoms : list atom) : list var :=
  let result := filter (fun v => existsb (fun a => memv v (snd a) && existsb (vo_contains o) (snd a)) atoms) rem in
  match result with [] => rem | _ => result end.

(** variable_order.rs:270-297: the number of atoms that need a new column order, and of atoms, for [v] *)
Fixpoint count_orders (c : corders) (ext : vorder) (atoms : list atom) (acc : nat * nat) : option (nat * nat) :=
  match atoms with
  | [] => Some acc
  | (p, xs) :: rest =>
      match co_get c p with
      | None => count_orders c ext rest (S (fst acc), S (snd acc))
      | Some l => match column_order_for xs ext with
                  | None => None
                  | Some x => count_orders c ext rest (if existsb (perm_eqb x) l then fst acc else S (fst acc), S (snd acc))
                  end
      end
  end.
Definition ratio (c : corders) (o : vorder) (atoms : list atom) (v : var) : option (nat * nat) :=
  count_orders c (vo_push o v) (filter (fun a => memv v (snd a)) atoms) (0, 0).

(** variable_order.rs:301-311: the comparison, and [Iterator::min_by] (the first minimum) *)
Definition ratio_lt (a b : nat * nat) : bool :=
  if snd a =? snd b then fst a <? fst b else snd b <? snd a.
Definition min_ratio (l : list (nat * nat)) : option (nat * nat) :=
  match l with [] => None | x :: r => Some (fold_left (fun m y => if ratio_lt y m then y else m) r x) end.

(** variable_order.rs:263-321 [filter_tries]; [pf]: the predicate filter *)
Definition filter_tries (vs : list var) (o : vorder) (atoms : list atom) (c : corders) (pf : tag -> bool) : option (list var) :=
  match mapM (ratio c o (filter (fun a => pf (fst a)) atoms)) vs with
  | None => None
  | Some rs =>
      match min_ratio rs with
      | None => Some []
      | Some m => Some (map fst (filter (fun vr => (fst (snd vr) =? fst m) && (snd (snd vr) =? snd m)) (combine vs rs)))
      end
  end.

(** variable_order.rs:467-493 [update_trie_column_orders] for one new variable *)
Fixpoint update_orders (c : corders) (o : vorder) (v : var) (atoms : list atom) : option corders :=
  match atoms with
  | [] => Some c
  | (p, xs) :: rest =>
      if memv v xs && forallb (vo_contains o) xs
      then match column_order_for xs o with
           | None => None
           | Some x => update_orders (co_add c p x) o v rest
           end
      else update_orders c o v rest
  end.

(** variable_order.rs:437-457: the choice of the next variable *)
Definition next_var (c : corders) (idb : tag -> bool) (atoms : list atom) (rem : list var) (o : vorder) : option var :=
  match filter_tries (filter_cartesian rem o atoms) o atoms c idb with
  | None => None
  | Some l1 => match filter_tries l1 o atoms c (fun p => negb (idb p)) with
               | None => None
               | Some l2 => hd_error l2
               end
  end.

(** variable_order.rs:436-462: the loop. Running out of fuel is reported like a panic. *)
Fixpoint order_loop (fuel : nat) (c : corders) (idb : tag -> bool) (atoms : list atom) (rem : list var) (o : vorder)
  : option (vorder * corders) :=
  match rem with
  | [] => Some (o, c)
  | _ =>
      match fuel with
      | 0 => None
      | S f =>
          match next_var c idb atoms rem o with
          | None => None
          | Some v =>
              let o' := vo_push o v in
              let rem' := filter (fun w => negb (w =? v)) rem in
              match update_orders c o' v atoms with
              | None => None
              | Some c' => order_loop f c' idb atoms rem' o'
              end
          end
      end
  end.

(** variable_order.rs:414-465 [generate_variable_order_for_rule] *)
Definition order_for_rule (it : iteration) (c : corders) (idb : tag -> bool) (atoms : list atom) : option (vorder * corders) :=
  match permuted it (dedup (atom_vars atoms)) with
  | None => None
  | Some rem => order_loop (length rem) c idb atoms rem []
  end.

(** variable_order.rs:353-377 [get_already_present_idb_edb_count_for_rule_in_tries] *)
Definition present (c : corders) (idb : tag -> bool) (atoms : list atom) : nat * nat :=
  let ps := filter (fun p => match co_get c p with Some (_ :: _) => true | _ => false end) (map fst atoms) in
  (length (filter idb ps), length (filter (fun p => negb (idb p)) ps)).

(** variable_order.rs:388-403: the comparison, and [Iterator::max_by] (the last maximum) *)
Definition present_lt (a b : nat * nat) : bool :=
  if fst a =? fst b then snd a <? snd b else fst a <? fst b.
Definition best_rule (c : corders) (idb : tag -> bool) (rules : list (nat * list atom)) : option (nat * list atom) :=
  match rules with
  | [] => None
  | x :: r => Some (fold_left (fun m y => if present_lt (present c idb (snd y)) (present c idb (snd m)) then m else y) r x)
  end.

(** variable_order.rs:379-412 [generate_variable_orders]: the loop over the remaining rules (an ordered
    map from indices) *)
Fixpoint rules_loop (fuel : nat) (it : iteration) (c : corders) (idb : tag -> bool) (rules : list (nat * list atom))
         (result : list (nat * vorder)) : option (list (nat * vorder) * corders) :=
  match rules with
  | [] => Some (result, c)
  | _ =>
      match fuel with
      | 0 => None
      | S f =>
          match best_rule c idb rules with
          | None => None
          | Some (i, atoms) =>
              match order_for_rule it c idb atoms with
              | None => None
              | Some (o, c') => rules_loop f it c' idb (filter (fun x => negb (fst x =? i)) rules) (result ++ [(i, o)])
              end
          end
      end
  end.
Definition enumerate {A} (l : list A) : list (nat * A) := combine (seq 0 (length l)) l.
(** [result.sort_by_key(|(i, _)| *i)] *)
Fixpoint ins_key {A} (x : nat * A) (l : list (nat * A)) : list (nat * A) :=
  match l with
  | [] => [x]
  | y :: r => if fst y <=? fst x then y :: ins_key x r else x :: l
  end.
Definition sort_key {A} (l : list (nat * A)) : list (nat * A) := fold_left (fun acc x => ins_key x acc) l [].

(** variable_order.rs:331-351 [build_for] *)
Definition build_for (it : iteration) (c : corders) (idb : tag -> bool) (bodies : list (list atom))
  : option (list vorder * corders) :=
  option_map (fun rc => (map snd (sort_key (fst rc)), snd rc))
             (rules_loop (length bodies) it c idb (enumerate bodies) []).

(** variable_order.rs:552-558: add the orders of one iteration to the lists of distinct orders *)
Fixpoint add_orders (all : list (list vorder)) (new : list vorder) : option (list (list vorder)) :=
  match all, new with
  | _, [] => Some all
  | [], _ :: _ => None
  | l :: all', o :: new' =>
      option_map (cons (if existsb (fun x => vo_eqb x o) l then l else l ++ [o])) (add_orders all' new')
  end.

(** variable_order.rs:542-566: the loop over the iteration orders *)
Fixpoint variants_loop (its : list iteration) (c : corders) (idb : tag -> bool) (bodies : list (list atom))
         (all : list (list vorder)) (cs : list corders) : option (list (list vorder) * list corders) :=
  match its with
  | [] => Some (all, cs)
  | it :: rest =>
      match build_for it c idb bodies with
      | None => None
      | Some (os, c') =>
          match add_orders all os with
          | None => None
          | Some all' => variants_loop rest c idb bodies all' (cs ++ [c'])
          end
      end
  end.
(** variable_order.rs:518-567 [build_preferable_variable_orders] *)
Definition build_orders (c : corders) (idb : tag -> bool) (bodies : list (list atom)) : option (list (list vorder) * list corders) :=
  variants_loop [Forward; Backward; InsideOut] c idb bodies (map (fun _ => []) bodies) [].

(** variable_order.rs:528-540: the initial column orders *)
Definition initial_orders (pr : program) : corders :=
  fold_left (fun c p => co_set c p [perm_default]) (map fst (p_facts pr) ++ map fst (p_imports pr)) [].

(** program.rs [derived_predicates] *)
Definition derived (rules : list rule) (p : tag) : bool :=
  existsb (fun r => existsb (fun a => fst a =? p) (r_head r)) rules.

(** normalization/aggregate.rs:64-71 [variables] *)
Definition agg_vars (a : aggregate) : list var := ag_in a :: ag_out a :: ag_distinct a ++ ag_group a.

(** rule.rs:274-316 [variables_non_head], [variables] *)
Definition rule_vars (r : rule) : list var :=
  head_vars r ++ atom_vars (r_pos r) ++ atom_vars (r_neg r) ++ flat_map op_vars (r_ops r) ++
  match r_agg r with Some (a, _) => agg_vars a | None => [] end.

(** program.rs:376-401 [construct_auxiliary_existential_rule]: only its body matters; no predicate is
    named [__AUX], so no body predicate is derived. The generated names are assumed to be new. *)
Definition aux_body (r : rule) : list atom :=
  let '(atoms, _, _) := norm_head (r_head r) (S (list_max (rule_vars r))) in atoms.

(** variable_order.rs:506-516 [build_preferable_variable_orders_for_rule] *)
Definition order_for_aux (r : rule) (c : corders) : option vorder :=
  match build_orders c (fun _ => false) [aux_body r] with
  | Some ((o :: _) :: _, _) => Some o
  | _ => None
  end.

(** program.rs:346-374 in [normalize_program]: extend the order, set the order for existential heads.
    A rule without existential variables has no existential order (here: the empty list). *)
Definition set_orders (c : corders) (r : rule) (o : vorder) : option rule :=
  match vo_list (vo_extend o (rule_vars r)) with
  | None => None
  | Some order =>
      let with_ex ex := mkRule (r_head r) (r_pos r) (r_neg r) (r_ops r) (r_agg r) order ex in
      if is_existential r then
        match order_for_aux r c with
        | None => None
        | Some a =>
            match vo_restrict a (nodup Nat.eq_dec (rule_vars r)) with
            | None => None
            | Some a' => option_map with_ex (vo_list a')
            end
        end
      else Some (with_ex [])
  end.

(** [Vec::pop]: the last element *)
Definition pop {A} (l : list A) : option A := hd_error (rev l).

(** program.rs:334-374: the orders of all rules *)
Definition compute_orders (pr : program) : option (list rule) :=
  match build_orders (initial_orders pr) (derived (p_rules pr)) (map r_pos (p_rules pr)) with
  | Some (alls, c :: _) =>
      match mapM pop alls with
      | None => None
      | Some os => mapM (fun ro => set_orders c (fst ro) (snd ro)) (combine (p_rules pr) os)
      end
  | _ => None
  end.
