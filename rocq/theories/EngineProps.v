(** Property theorems about rule execution: C03, C07-C12, C14, and C33 for engine states. *)
From Coq Require Import List Arith ZArith Bool Lia Permutation Sorted Relations.
From Verif Require Import TableModel TableSpec EngineModel EngineSpec StrategyModel StrategySpec.
From Verif Require Import EngineProofs7 EngineProofs10 EngineProofs11 EngineProofs12 EngineProofs13 StrategyProofs StrategyProofs3 StrategyProps.
Import ListNotations.

(** C03. Semi-naive join of atoms at step [cur], last applied at [last]: exactly the valuations that
    match all atoms with facts of steps before [cur], at least one of them not older than [last] (in the
    variant for tables that already contain the facts of step [last]: newer than [last]). *)
Theorem C03_seminaive_exact : forall ops m, ordered ops -> run manager_new ops = Some m ->
  forall last_is_new (atoms : list atom) order cur last,
  (forall a, In a atoms -> NoDup (snd a)) -> NoDup order -> incl (atom_vars atoms) order ->
  start_of last_is_new last <= cur ->
  exists n, seminaive_node (manager_reader m) last_is_new atoms order cur last = Some n /\
    (forall v, In v (nvars n) <-> In v (atom_vars atoms)) /\
    forall nu, In (map nu (nvars n)) (nrows n) <->
      (forall a, In a atoms -> stored ops (fst a) 0 cur (map nu (snd a))) /\
      (atoms = [] \/ exists a, In a atoms /\ stored ops (fst a) (start_of last_is_new last) cur (map nu (snd a))).
Proof. exact seminaive_matches. Qed.
Print Assumptions C03_seminaive_exact.

(** C03. No match is lost: whatever the steps at which a rule was applied, every match over the facts
    before an application satisfies the condition of the previous theorem at one of the applications. *)
Theorem C03_no_match_lost : forall ops steps, StronglySorted lt (0 :: steps) ->
  forall (atoms : list atom) (nu : var -> Z) cur, atoms <> [] -> In cur steps ->
  (forall a, In a atoms -> stored ops (fst a) 0 cur (map nu (snd a))) ->
  exists last cur', In (last, cur') (applications 0 steps) /\
    (forall a, In a atoms -> stored ops (fst a) 0 cur' (map nu (snd a))) /\
    exists a, In a atoms /\ stored ops (fst a) last cur' (map nu (snd a)).
Proof. exact seminaive_history. Qed.
Print Assumptions C03_no_match_lost.

(** C07. Every fact of every state reached with the default strategy is an input or has a derivation, in
    which negated atoms and aggregates refer to the facts of that state. *)
Theorem C07_sound_partial : forall pr, wf_program pr -> forall st, default_strategy (p_rules pr) st ->
  forall e, reachable pr sn_next st e ->
  forall p x, user_tag p -> result e p x -> deriv pr (result e) p x.
Proof. exact materialization_sound. Qed.
Print Assumptions C07_sound_partial.

(** C08 and C10. When execution stops, the result is a model of all rules, including existential ones. *)
Theorem C08_closed : forall pr, wf_program pr -> forall st, default_strategy (p_rules pr) st ->
  forall e n, execute pr sn_next st n = Finished e -> closed pr (result e).
Proof. exact materialization_closed. Qed.
Print Assumptions C08_closed.

Theorem C10_existential_rules_satisfied : forall pr, wf_program pr -> forall st, default_strategy (p_rules pr) st ->
  forall e n, execute pr sn_next st n = Finished e ->
  forall r nu, In r (p_rules pr) -> r_agg r = None -> matches r (result e) (result e) nu -> satisfied r (result e) nu.
Proof.
  intros pr Hwf st Hst e n Hn r nu Hr Ha Hm. destruct (materialization_closed pr Hwf st Hst e n Hn) as (_ & _ & Hc).
  destruct (Hc r Hr) as [H1 _]. destruct (H1 nu Hm) as (mu & Hmu & Hh). exists mu. split; auto. intros a Hin.
  apply In_nth_error in Hin. destruct Hin as (k & Hk). apply (Hh k a Hk). unfold agg_index. rewrite Ha. discriminate.
Qed.
Print Assumptions C10_existential_rules_satisfied.

(** C08. Without existential rules it is the unique perfect model, *)
Theorem C08_perfect_model : forall pr, wf_program pr -> forall st, default_strategy (p_rules pr) st ->
  forall e n, existential_free pr -> execute pr sn_next st n = Finished e ->
  perfect pr (result e) /\ forall M, perfect pr M -> forall p x, M p x <-> result e p x.
Proof. exact materialization_perfect. Qed.
Print Assumptions C08_perfect_model.

(** so it does not depend on the order of rules, facts and imports, or on the number of steps. *)
Theorem C08_order_independent : forall pr pr' st st' e e' n n',
  wf_program pr -> wf_program pr' -> same_program pr pr' -> existential_free pr ->
  default_strategy (p_rules pr) st -> default_strategy (p_rules pr') st' ->
  execute pr sn_next st n = Finished e -> execute pr' sn_next st' n' = Finished e' ->
  forall p x, result e p x <-> result e' p x.
Proof. exact order_independent. Qed.
Print Assumptions C08_order_independent.

(** C09. In every reachable state, for any strategy: a fact is in the table of exactly one step ([plain]: no
    existential head for the predicate; not needed if inputs and functions do not make up nulls), *)
Theorem C09_one_step : forall T pr (next : T -> option bool -> option (option nat * T)) s0 e,
  wf_program pr -> reachable pr next s0 e ->
  forall p x, invents_no_nulls pr \/ plain pr p -> result e p x ->
  exists s, at_step e p s x /\ forall s', at_step e p s' x -> s' = s.
Proof. intros T pr next s0 e. exact (stored_once pr next s0 e). Qed.
Print Assumptions C09_one_step.

(** the count reported for a predicate is the number of its distinct facts, *)
Theorem C09_counts : forall T pr (next : T -> option bool -> option (option nat * T)) s0 e,
  wf_program pr -> reachable pr next s0 e ->
  forall p, invents_no_nulls pr \/ plain pr p ->
  match count_facts e p with
  | Some n => exists l, NoDup l /\ (forall x, In x l <-> result e p x) /\ n = length l
  | None => forall x, ~ result e p x
  end.
Proof. intros T pr next s0 e. exact (facts_counted pr next s0 e). Qed.
Print Assumptions C09_counts.

(** and applying a rule keeps all facts where they are and adds exactly the facts that are new, in the
    table of the current step. *)
Theorem C09_only_new : forall T pr (next : T -> option bool -> option (option nat * T)) s0 e,
  wf_program pr -> reachable pr next s0 e -> forall i e' b, engine_apply pr e i = Some (e', b) ->
  forall p, invents_no_nulls pr \/ plain pr p ->
  forall s x, at_step e' p s x <-> at_step e p s x \/ (s = e_step e /\ result e' p x /\ ~ result e p x).
Proof. intros T pr next s0 e. exact (apply_new pr next s0 e). Qed.
Print Assumptions C09_only_new.

(** C33, for engine states (partial: ids lead back to their facts only if the last values of the facts
    of a step have one storage type, and facts without arguments have no id; see TableProps). *)
Theorem C33_engine_fact_ids_partial : forall T cls pr (next : T -> option bool -> option (option nat * T)) s0 e p,
  wf_program pr -> reachable pr next s0 e -> invents_no_nulls pr \/ plain pr p ->
  ((forall s x y, at_step e p s x -> at_step e p s y -> x <> [] /\ last_class cls x = last_class cls y) ->
   forall i x, row_by_id (e_manager e) p i = Some x <-> exists s, table_row_id cls (e_manager e) p x = Some (i, s)) /\
  (forall x, x <> [] -> result e p x <-> exists i s, table_row_id cls (e_manager e) p x = Some (i, s)) /\
  (forall x i s, table_row_id cls (e_manager e) p x = Some (i, s) -> at_step e p s x) /\
  (forall x, match find_table_row (e_manager e) p x with Some s => at_step e p s x | None => ~ result e p x end).
Proof. intros T. exact engine_fact_ids. Qed.
Print Assumptions C33_engine_fact_ids_partial.

(** C12. For every rule application there is a set [W] of head valuations whose existential values are
    nulls that occur nowhere before, differ for different variables and different frontier values,
    and are functions of the frontier values; every new fact has no new null or is a head instance for a
    valuation in [W] and a match of the rule. *)
Theorem C12_fresh : forall T pr (next : T -> option bool -> option (option nat * T)) s0 e,
  wf_program pr -> invents_no_nulls pr -> reachable pr next s0 e ->
  forall i e' b, engine_apply pr e i = Some (e', b) ->
  exists r (W : (var -> Z) -> Prop), nth_error (p_rules pr) i = Some r /\
    (forall mu v, W mu -> is_ex r v -> (mu v < 0)%Z /\ ~ occurs e (mu v)) /\
    (forall mu mu' v v', W mu -> W mu' -> is_ex r v -> is_ex r v' -> mu v = mu' v' ->
       v = v' /\ forall w, frontier r w -> mu w = mu' w) /\
    (forall mu mu', W mu -> W mu' -> (forall w, frontier r w -> mu w = mu' w) -> forall v, is_ex r v -> mu v = mu' v) /\
    forall p x, user_tag p -> result e' p x -> ~ result e p x ->
      (forall z, In z x -> (0 <= z)%Z \/ occurs e z) \/
      exists h mu nu, In h (r_head r) /\ W mu /\ p = fst h /\ x = map (hterm_val mu) (snd h) /\
        matches r (result e) (result e) nu /\ (forall v, ~ is_ex r v -> mu v = nu v).
Proof.
  intros T pr next s0 e Hwf Hnn He i e' b Ha. destruct (fresh_nulls pr next s0 e Hwf Hnn He i e' b Ha) as (r & W & Hr & [W1 W2 W3] & H).
  exists r, W. split; auto. split; auto. split; auto. split; auto.
  intros p x Hp Hx Hn. destruct (H p x Hp Hx Hn) as [?|(h & mu & nu & Q1 & Q2 & Q3 & Q4 & Q5 & Q6 & _)]; auto. right. exists h, mu, nu. auto 10.
Qed.
Print Assumptions C12_fresh.

(** C11, full statement: a new fact with a new null is a head instance for a match whose head was not
    satisfied before. *)
Definition restricted_chase (pr : program) (e : engine) (i : nat) (e' : engine) : Prop :=
  exists r, nth_error (p_rules pr) i = Some r /\
    forall p x, user_tag p -> result e' p x -> ~ result e p x ->
      (forall z, In z x -> (0 <= z)%Z \/ occurs e z) \/
      exists h mu nu, In h (r_head r) /\ p = fst h /\ x = map (hterm_val mu) (snd h) /\
        matches r (result e) (result e) nu /\ (forall v, ~ is_ex r v -> mu v = nu v) /\
        ~ satisfied r (result e) nu.
Definition C11_statement : Prop := forall pr st e i e' b, wf_program pr -> invents_no_nulls pr ->
  default_strategy (p_rules pr) st -> reachable pr sn_next st e -> engine_apply pr e i = Some (e', b) ->
  restricted_chase pr e i e'.

(** It holds if the optimization for rules with exclusive head predicates is off and the body of the rule
    had a new match at each of its previous applications. Both conditions are necessary, see below. *)
Theorem C11_restricted_chase_partial : forall T pr (next : T -> option bool -> option (option nat * T)) s0 e,
  wf_program pr -> invents_no_nulls pr -> reachable pr next s0 e ->
  forall i e' b, engine_apply pr e i = Some (e', b) ->
  (forall r, nth_error (p_rules pr) i = Some r -> exclusive r (has_facts pr r) = false) ->
  (forall k, nth_error (e_history e) k = Some i -> fired pr e k) ->
  restricted_chase pr e i e'.
Proof.
  intros T pr next s0 e Hwf Hnn He i e' b Ha Hx Hf. destruct (fresh_nulls pr next s0 e Hwf Hnn He i e' b Ha) as (r & W & Hr & _ & H).
  exists r. split; auto. intros p x Hp Hpx Hn. destruct (H p x Hp Hpx Hn) as [?|(h & mu & nu & Q1 & Q2 & Q3 & Q4 & Q5 & Q6 & Q7)]; auto.
  right. exists h, mu, nu. repeat split; auto; apply Q5.
Qed.
Print Assumptions C11_restricted_chase_partial.

(** C14. Assignments are computed in an order in which their inputs are bound, never for a variable that
    is already bound; each operation is used at most once; those that remain have their variable bound
    or an input unbound. *)
Theorem C14_functions : forall vs ops,
  exists vs' fs rest, gen_function vs ops = Some (vs', fs, rest) /\
    Permutation ops (map (fun ve => OEq (fst ve) (snd ve)) fs ++ rest) /\ vs' = vs ++ map fst fs /\
    (forall k v e, nth_error fs k = Some (v, e) ->
       incl (e_vars e) (vs ++ map fst (firstn k fs)) /\ ~ In v (vs ++ map fst (firstn k fs))) /\
    (forall v e, In (OEq v e) rest -> In v vs' \/ ~ incl (e_vars e) vs').
Proof. exact functions_scheduled. Qed.
Print Assumptions C14_functions.

(** C14, for a rule body: assignments, filters and left-over operations are a partition of the
    operations; the variables computed are the bound ones; left over are exactly the operations
    with an unbound variable. *)
Theorem C14_operations : forall r, incl (atom_vars (r_pos r)) (r_order r) ->
  exists vs fns ops1 fs ops2,
    gen_function (restrict (r_order r) (atom_vars (r_pos r))) (r_ops r) = Some (vs, fns, ops1) /\
    gen_filter vs ops1 = (fs, ops2) /\
    Permutation (r_ops r) (map (fun ve => OEq (fst ve) (snd ve)) fns ++ fs ++ ops2) /\
    (forall v, In v vs <-> bound r v) /\
    (forall o, In o fs -> body_op r o) /\
    (forall o, In o ops2 <-> In o (r_ops r) /\ ~ body_op r o).
Proof. exact operations_scheduled. Qed.
Print Assumptions C14_operations.

(** C14, for negated atoms: of the operations with an unbound variable, a negated atom with a bound variable
    filters its facts with those over its variables and the bound ones; the others are left over. *)
Theorem C14_negation : forall r vs ops l kept rest,
  (forall i j p xs q ys v, nth_error (r_neg r) i = Some (p, xs) -> nth_error (r_neg r) j = Some (q, ys) ->
     i <> j -> In v xs -> In v ys -> bound r v) ->
  (forall v, In v vs <-> bound r v) -> (forall o, In o ops <-> In o (r_ops r) /\ ~ body_op r o) ->
  gen_negation vs (r_neg r) ops = (l, kept, rest) ->
  (forall p xs fs pv, In ((p, xs), fs, pv) l -> In (p, xs) (r_neg r) /\ (exists v, In v xs /\ bound r v) /\
     (forall o, In o fs <-> neg_op r xs o) /\ forall v, In v pv <-> bound r v /\ In v xs) /\
  (forall p xs v, In (p, xs) (r_neg r) -> In v xs -> bound r v -> exists fs pv, In ((p, xs), fs, pv) l) /\
  ((forall p xs, In (p, xs) (r_neg r) -> exists v, In v xs /\ bound r v) -> forall o, In o rest <-> agg_op r o).
Proof. exact negation_scheduled. Qed.
Print Assumptions C14_negation.

(** The filters of a negated atom are applied to its table alone: if one of them uses a variable that is bound
    elsewhere, the program panics.  t(x) :- p(x,z), ~q(x,y), y > z.  p 0, q 2, t 4 *)
Definition compared : program := mkProgram
  [mkRule [(4, [HVar 0])] [(0, [0; 1])] [(2, [0; 2])]
     [OFilter (mkExpr [2; 1] (fun l => match l with [y; z] => Some (if Z.ltb z y then 1 else 0)%Z | _ => None end))]
     None [0; 1; 2] [0]]
  [(0, [1; 5]%Z); (2, [1; 7]%Z)] [] [(0, 2); (2, 2); (4, 1)] [].
Theorem C14_negated_comparison_refuted : exists st, default_strategy (p_rules compared) st /\ wf_program compared /\
  execute compared sn_next st 1 = Panicked.
Proof.
  assert (E : exists st, sn_new [[0]] (fun _ => [[0]]) (p_rules compared) = Some (Some st)) by (vm_compute; eauto).
  destruct E as (st & Est). exists st. split; [|split].
  { exists [[0]], (fun _ => [[0]]). split; [apply (singletons_ok 1); vm_compute; reflexivity|]. split; auto.
    intros strata k g rs Hs Hk Hr. vm_compute in Hs. injection Hs as <-. destruct k as [|[|k]]; try discriminate. injection Hk as <-.
    vm_compute in Hr. injection Hr as <-. apply (singletons_ok 1). vm_compute. reflexivity. }
  - assert (Hb : forall v, bound (hd (mkRule [] [] [] [] None [] []) (p_rules compared)) v <-> v = 0 \/ v = 1).
    { intros v. split.
      - induction 1 as [v Hi|v e Hi _ _]; simpl in Hi; [intuition|]. destruct Hi as [Hi|[]]. discriminate.
      - intros [-> | ->]; constructor; simpl; auto. }
    simpl in Hb. constructor.
    + intros r [<-|[]]. constructor; simpl; try discriminate.
      * intros p xs [E|[E|[]]]; injection E as <- <-; repeat constructor; simpl; intuition discriminate.
      * split; [repeat constructor; simpl; intuition discriminate|]. intros v Hv. simpl in *. tauto.
      * intros o [<-|[]]. right. right. exists 2, [0; 2]. split; auto. simpl. intros w [<-|[<-|[]]]; auto. left. apply Hb. auto.
      * intros v _ _. lia.
      * intros p xs [E|[]]. injection E as <- <-. exists 0. split; [simpl; auto|]. apply Hb. auto.
      * intros [|[|i]] [|[|j]] p xs q ys v; try discriminate; congruence.
      * intros [|[|k]] a v Hk Hi _; try discriminate. injection Hk as <-. simpl in Hi. destruct Hi as [Hi|[]]. injection Hi as <-. apply Hb. auto.
      * intros v (a & [<-|[]] & Hv). simpl in Hv. destruct Hv.
    + intros r [<-|[]]. simpl. split; [intros p xs [E|[E|[]]]; injection E as <- <-; apply even_user; reflexivity|].
      intros a [<-|[]]. apply even_user. reflexivity.
    + intros p Hp. apply even_user. simpl in Hp. intuition; subst; reflexivity.
  - vm_compute in Est. injection Est as <-. vm_compute. reflexivity.
Qed.
Print Assumptions C14_negated_comparison_refuted.

(** ** Counterexamples to C11 *)

(** (1) The optimization assumes that the head predicates have no facts if the program text has none, but
    they may be imported. r(x,!v) :- p(x).  with imports p = {1}, r = {(1,5)}.  p 0, r 2 *)
Definition imported : program := mkProgram
  [mkRule [(2, [HVar 0; HEx 1])] [(0, [0])] [] [] None [0] [0; 1]]
  [] [(0, [[1%Z]]); (2, [[1%Z; 5%Z]])] [(0, 1); (2, 2)] [].

Lemma imported_strategy : exists st, default_strategy (p_rules imported) st /\ sn_new [[0]] (fun _ => [[0]]) (p_rules imported) = Some (Some st).
Proof.
  assert (E : exists st, sn_new [[0]] (fun _ => [[0]]) (p_rules imported) = Some (Some st)) by (vm_compute; eauto).
  destruct E as (st & Est). exists st. split; auto. exists [[0]], (fun _ => [[0]]). split; [apply (singletons_ok 1); vm_compute; reflexivity|]. split; auto.
  intros strata k g rs Hs Hk Hr. vm_compute in Hs. injection Hs as <-. destruct k as [|[|k]]; try discriminate. injection Hk as <-.
  vm_compute in Hr. injection Hr as <-. apply (singletons_ok 1). vm_compute. reflexivity.
Qed.

Theorem C11_imported_refuted : ~ C11_statement.
Proof.
  intros HC. destruct (simple_program_ok imported eq_refl) as [Hwf Hnn]. destruct imported_strategy as (st & Hst & Est).
  destruct (engine_init imported) as [e|] eqn:Ee; [|vm_compute in Ee; discriminate].
  assert (He : reachable imported sn_next st e). { exists 0. left. exists st, None. cbn [execute]. now rewrite Ee. }
  vm_compute in Ee. injection Ee as Ee.
  destruct (engine_apply imported e 0) as [[e' b]|] eqn:Ea; [|rewrite <- Ee in Ea; vm_compute in Ea; discriminate].
  specialize (HC imported st e 0 e' b Hwf Hnn Hst He Ea). destruct HC as (r & Hr & HC). vm_compute in Hr. injection Hr as <-.
  assert (Hnull : e_nulls e = 0) by (rewrite <- Ee; reflexivity).
  assert (Hro : result e 2 [1%Z; 5%Z]) by (rewrite <- Ee; eexists; split; [vm_compute; reflexivity|left; reflexivity]).
  destruct (HC 2 [1%Z; (-1)%Z]) as [Hz|(h & mu & nu & H1 & H2 & H3 & H4 & H5 & H6)].
  - apply even_user. reflexivity.
  - rewrite <- Ee in Ea. vm_compute in Ea. injection Ea as <- _. eexists. split; [vm_compute; reflexivity|]. simpl. auto.
  - rewrite <- Ee. intros (rows & Hrows & Hi). vm_compute in Hrows. injection Hrows as <-. simpl in Hi. destruct Hi as [Hi|[]]. discriminate.
  - destruct (Hz (-1)%Z) as [?|Ho]; [simpl; auto|lia|]. destruct (occurs_bound _ _ _ _ _ Hwf Hnn He Ho) as [?|(n & Hn & _)]; lia.
  - destruct H1 as [<-|[]]. simpl in H3. injection H3 as E1 E2. apply H6. exists (fun v => if v =? 1 then 5%Z else nu v). split.
    + intros v Hv. destruct (Nat.eqb_spec v 1) as [->|]; auto. exfalso. apply Hv. exists (2, [HVar 0; HEx 1]). simpl. auto.
    + intros a [<-|[]]. simpl. rewrite <- (H5 0); [|intros (a & [<-|[]] & Ha); simpl in Ha; destruct Ha as [Ha|[]]; discriminate]. rewrite <- E1. exact Hro.
Qed.
Print Assumptions C11_imported_refuted.

(** (2) If the body has no new match the table of satisfied matches is not updated, but the step of the last
    application is. r(x,!v) :- p(x).  p(y) :- q(y), r(x,y).  with r(1,2), r(2,3), q(2).  p 0, r 2, q 4 *)
Definition skipped : program := mkProgram
  [mkRule [(2, [HVar 0; HEx 1])] [(0, [0])] [] [] None [0] [0; 1];
   mkRule [(0, [HVar 1])] [(4, [1]); (2, [0; 1])] [] [] None [1; 0] [1]]
  [(2, [1%Z; 2%Z]); (2, [2%Z; 3%Z]); (4, [2%Z])] [] [(0, 1); (2, 2); (4, 1)] [].

Lemma two_cycle : condensation 2 [(0, 1); (1, 0)] [[0; 1]].
Proof.
  assert (Hr : forall u v, In u [0; 1] -> reach [(0, 1); (1, 0)] u v -> In v [0; 1]).
  { intros u v Hu Huv. induction Huv as [x y [H|[H|[]]]|x|x y z _ IH1 _ IH2]; auto; injection H as <- <-; simpl; auto. }
  assert (Hr' : forall u v, In u [0; 1] -> In v [0; 1] -> reach [(0, 1); (1, 0)] u v).
  { intros u v [<-|[<-|[]]] [<-|[<-|[]]]; try apply rt_refl; apply rt_step; simpl; auto. }
  constructor.
  - simpl. auto.
  - intros c [<-|[]]. discriminate.
  - intros c u v [<-|[]] Hu. split; [intros Hv; split; apply Hr'; auto|]. intros [H _]. apply (Hr u v Hu H).
  - intros i j ci cj u v Hi Hj _ _ _. destruct i as [|[|i]], j as [|[|j]]; simpl in *; try discriminate; lia.
Qed.

Lemma skipped_strategy : exists st, default_strategy (p_rules skipped) st /\ sn_new [[0; 1]] (fun _ => [[0; 1]]) (p_rules skipped) = Some (Some st).
Proof.
  assert (E : exists st, sn_new [[0; 1]] (fun _ => [[0; 1]]) (p_rules skipped) = Some (Some st)) by (vm_compute; eauto).
  destruct E as (st & Est). exists st. split; auto. exists [[0; 1]], (fun _ => [[0; 1]]). split; [exact two_cycle|]. split; auto.
  intros strata k g rs Hs Hk Hr. vm_compute in Hs. injection Hs as <-. destruct k as [|[|k]]; try discriminate. injection Hk as <-.
  vm_compute in Hr. injection Hr as <-. exact two_cycle.
Qed.

Theorem C11_skipped_refuted : ~ C11_statement.
Proof.
  intros HC. destruct (simple_program_ok skipped eq_refl) as [Hwf Hnn]. destruct skipped_strategy as (st & Hst & Est).
  vm_compute in Est. injection Est as Est.
  destruct (execute skipped sn_next st 2) as [|e s2 resp|e] eqn:Ee; [rewrite <- Est in Ee; vm_compute in Ee; discriminate| |rewrite <- Est in Ee; vm_compute in Ee; discriminate].
  assert (He : reachable skipped sn_next st e) by (exists 2; left; eauto).
  rewrite <- Est in Ee. vm_compute in Ee. injection Ee as Ee _ _.
  destruct (engine_apply skipped e 0) as [[e' b]|] eqn:Ea; [|rewrite <- Ee in Ea; vm_compute in Ea; discriminate].
  specialize (HC skipped st e 0 e' b Hwf Hnn Hst He Ea). destruct HC as (r & Hr & HC). vm_compute in Hr. injection Hr as <-.
  assert (Hnull : e_nulls e = 0) by (rewrite <- Ee; reflexivity).
  assert (Hro : result e 2 [2%Z; 3%Z]) by (rewrite <- Ee; eexists; split; [vm_compute; reflexivity|simpl; auto]).
  destruct (HC 2 [2%Z; (-1)%Z]) as [Hz|(h & mu & nu & H1 & H2 & H3 & H4 & H5 & H6)].
  - apply even_user. reflexivity.
  - rewrite <- Ee in Ea. vm_compute in Ea. injection Ea as <- _. eexists. split; [vm_compute; reflexivity|]. simpl. auto.
  - rewrite <- Ee. intros (rows & Hrows & Hi). vm_compute in Hrows. injection Hrows as <-. simpl in Hi. destruct Hi as [Hi|[Hi|[]]]; discriminate.
  - destruct (Hz (-1)%Z) as [?|Ho]; [simpl; auto|lia|]. destruct (occurs_bound _ _ _ _ _ Hwf Hnn He Ho) as [?|(n & Hn & _)]; lia.
  - destruct H1 as [<-|[]]. simpl in H3. injection H3 as E1 E2. apply H6. exists (fun v => if v =? 1 then 3%Z else nu v). split.
    + intros v Hv. destruct (Nat.eqb_spec v 1) as [->|]; auto. exfalso. apply Hv. exists (2, [HVar 0; HEx 1]). simpl. auto.
    + intros a [<-|[]]. simpl. rewrite <- (H5 0); [|intros (a & [<-|[]] & Ha); simpl in Ha; destruct Ha as [Ha|[]]; discriminate]. rewrite <- E1. exact Hro.
Qed.
Print Assumptions C11_skipped_refuted.

(** ** The condition [wf_neg] is necessary for C07 *)

(** a(x) :- b(x), ~c(y).  with b(1), c(2): accepted by validation (rule.rs:455-500 only rejects such a variable
    if it is used in two negated atoms), but the negated atom is ignored. b 0, c 2, a 4 *)
Definition unconnected : program := mkProgram
  [mkRule [(4, [HVar 0])] [(0, [0])] [(2, [1])] [] None [0; 1] [0]]
  [(0, [1%Z]); (2, [2%Z])] [] [(0, 1); (2, 1); (4, 1)] [].

Theorem C07_unconnected_negation_refuted : exists st, default_strategy (p_rules unconnected) st /\
  match execute unconnected sn_next st 3 with
  | Finished e => result e 4 [1%Z] /\ ~ deriv unconnected (result e) 4 [1%Z]
  | _ => False
  end.
Proof.
  assert (E : exists st, sn_new [[0]] (fun _ => [[0]]) (p_rules unconnected) = Some (Some st)) by (vm_compute; eauto).
  destruct E as (st & Est). exists st. split.
  { exists [[0]], (fun _ => [[0]]). split; [apply (singletons_ok 1); vm_compute; reflexivity|]. split; auto.
    intros strata k g rs Hs Hk Hr. vm_compute in Hs. injection Hs as <-. destruct k as [|[|k]]; try discriminate. injection Hk as <-.
    vm_compute in Hr. injection Hr as <-. apply (singletons_ok 1). vm_compute. reflexivity. }
  vm_compute in Est. injection Est as <-.
  destruct (execute unconnected sn_next _ 3) as [|e s r|e] eqn:Ee; vm_compute in Ee; [discriminate|discriminate|]. injection Ee as Ee. split.
  - rewrite <- Ee. eexists. split; [vm_compute; reflexivity|simpl; auto].
  - assert (Hc : result e 2 [2%Z]) by (rewrite <- Ee; eexists; split; [vm_compute; reflexivity|simpl; auto]). clear Ee.
    intros Hd. remember 4 as p eqn:Ep. remember [1%Z] as x eqn:Ex. destruct Hd as [p x Hi|p rows x Hi Hx|rl nu mu k a Hrl Hpos Hops Hneg Hk Hag Hmu|rl ag mu k a Hrl Hra Hk Hav].
    + subst. destruct Hi as [Hi|[Hi|[]]]; discriminate.
    + destruct Hi.
    + destruct Hrl as [<-|[]]. apply (Hneg 2 [1]); [simpl; auto|]. exists (fun v => if v =? 1 then 2%Z else nu v). split; [|split; [exact Hc|intros o [[] _]]].
      intros v Hv. destruct (Nat.eqb_spec v 1) as [->|]; auto. exfalso. inversion Hv as [v Hin|v e0 Hin]; [|destruct Hin].
      simpl in Hin. destruct Hin as [Hin|[]]. discriminate.
    + destruct Hrl as [<-|[]]. discriminate.
Qed.
Print Assumptions C07_unconnected_negation_refuted.

(** ** Non-vacuity *)

(** The program of StrategyProps with a graph. edge 0, path 2, node 4, far 6 *)
Definition demo_program : program := mkProgram demo_rules
  [(0, [1%Z; 2%Z]); (0, [2%Z; 3%Z]); (4, [1%Z]); (4, [3%Z]); (2, [9%Z; 9%Z])] [(0, [[1%Z; 2%Z]; [3%Z; 4%Z]])] [(0, 2); (2, 2); (4, 1); (6, 2)] [6].

Example demo_program_wf : wf_program demo_program /\ invents_no_nulls demo_program /\ existential_free demo_program.
Proof.
  destruct (simple_program_ok demo_program eq_refl) as [H1 H2]. split; auto. split; auto.
  intros r [<-|[<-|[<-|[]]]]; reflexivity.
Qed.

(** It has a terminating run with the default strategy, with several applications of the recursive rule. *)
Example demo_program_runs : exists st, default_strategy (p_rules demo_program) st /\
  match execute demo_program sn_next st 8 with
  | Finished e => e_history e = [0; 0; 1; 1; 1; 2; 2] /\ count_facts e 2 = Some 7 /\
      predicate_rows e 6 = Some [[1%Z; 1%Z]; [3%Z; 1%Z]; [3%Z; 3%Z]] /\ fired demo_program e 3
  | _ => False
  end.
Proof.
  destruct demo_default as (st & Hst & Est). exists st. split; [exact Hst|].
  vm_compute in Est. injection Est as <-.
  destruct (execute demo_program sn_next _ 8) as [|e s r|e] eqn:Ee; vm_compute in Ee; [discriminate|discriminate|]. injection Ee as <-.
  split; [reflexivity|]. split; [vm_compute; reflexivity|]. split; [vm_compute; reflexivity|].
  exists 1, (nth 1 demo_rules (mkRule [] [] [] [] None [] [])), (fun v => match v with 0 => 1%Z | 1 => 3%Z | _ => 4%Z end).
  split; [reflexivity|]. split; [reflexivity|]. split; [constructor|].
  - intros p xs [E|[E|[]]]; injection E as <- <-.
    + exists 3. split; [auto|]. eexists. split; [vm_compute; left; reflexivity|vm_compute; auto].
    + exists 0. split; [auto with arith|]. eexists. split; [vm_compute; left; reflexivity|vm_compute; auto].
  - intros o [[] _].
  - intros p xs [].
  - right. exists 2, [0; 1], 3. split; [left; reflexivity|]. split; [vm_compute; auto|]. eexists. split; [vm_compute; left; reflexivity|vm_compute; auto].
Qed.

(** An existential rule with a satisfied and an unsatisfied match: r(x,!v) :- p(x).
    with p(1), p(2), r(1,5). Only r(2, null) is new. The hypotheses of C11 and C12 hold. *)
Definition demo_existential : program := mkProgram
  [mkRule [(2, [HVar 0; HEx 1])] [(0, [0])] [] [] None [0] [0; 1]]
  [(0, [1%Z]); (0, [2%Z]); (2, [1%Z; 5%Z])] [] [(0, 1); (2, 2)] [].

Example demo_existential_runs : wf_program demo_existential /\ invents_no_nulls demo_existential /\
  (forall r, nth_error (p_rules demo_existential) 0 = Some r -> exclusive r (has_facts demo_existential r) = false) /\
  match engine_init demo_existential with
  | Some e => (forall k, nth_error (e_history e) k = Some 0 -> fired demo_existential e k) /\
      match engine_apply demo_existential e 0 with
      | Some (e', b) => b = true /\ predicate_rows e' 2 = Some [[1%Z; 5%Z]; [2%Z; (-1)%Z]] /\ e_nulls e' = 1
      | None => False
      end
  | None => False
  end.
Proof.
  destruct (simple_program_ok demo_existential eq_refl) as [H1 H2]. split; auto. split; auto. split.
  - intros r Hr. injection Hr as <-. reflexivity.
  - destruct (engine_init demo_existential) as [e|] eqn:Ee; vm_compute in Ee; [|discriminate]. injection Ee as <-. split.
    + intros [|k] Hk; discriminate.
    + vm_compute. repeat split.
Qed.
