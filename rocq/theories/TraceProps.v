(** C15: traces are derivations. *)
From Coq Require Import List Arith ZArith Bool Lia Permutation.
From Verif Require Import TableModel EngineModel EngineSpec EngineProofs8 EngineProofs10 EngineProofs12 EngineProofs13 StrategyModel StrategySpec NormModel NormSpec NormProofs1 NormProofs2 NormProofs6 NormProofs7 NormProps.
From Verif Require Import TraceModel TraceSpec TraceProofs3 TraceProofs4 TraceProofs5.
Import ListNotations.

(** What is assumed of the environment: the physical layer returns a row of the query unless it has none, and the
    hash map of unified variables is iterated in some order. *)
Definition picks (pick : list row -> option row) : Prop :=
  forall rows, match pick rows with Some x => In x rows | None => rows = [] end.
Definition shuffles (shuffle : assignment -> assignment) : Prop := forall g, Permutation g (shuffle g).

(** Every stored fact has a trace, which is a derivation tree of the fact from input facts (at the fact's first
    step); facts that are not stored have none. This holds in every state of every execution, with any rule
    selection strategy, for any sequence of facts that are traced together and so share their subtrees.
    Missing: rules that are not [traceable], see the refutations below. *)
Theorem C15_traces_partial : forall T pr (next : T -> option bool -> option (option nat * T)) s0 e pick shuffle fs fuel,
  wf_program pr -> (forall r, In r (p_rules pr) -> traceable r) -> reachable pr next s0 e -> picks pick -> shuffles shuffle ->
  (forall f, In f fs -> user_tag (fst f)) -> e_step e <= fuel ->
  exists tr hs, trace_ground_facts pick shuffle pr e fuel [] fs = Some (tr, hs) /\
    Forall2 (fun f h =>
      (result e (fst f) (snd f) -> exists s t, tree_of fuel tr h = Some (Some t) /\ derives_fact pr e f s t /\
                                     forall s', s' < s -> ~ at_step e (fst f) s' (snd f)) /\
      (~ result e (fst f) (snd f) -> tree_of fuel tr h = Some None)) fs hs.
Proof.
  intros T pr next s0 e pick shuffle fs fuel Hwf Htr Hr Hp Hsh Hu Hf.
  destruct (reachable_inv pr next s0 e Hwf Hr) as (H & ops & Inv & _).
  pose proof (reachable_executable pr next s0 e Hwf Hr) as Hex.
  destruct (ground_spec pr Hwf e H ops Inv Htr Hex pick shuffle Hp Hsh fuel fs []) as (tr & hs & E & G & _ & _ & F); auto.
  { constructor; [constructor|intros f st []]. }
  { intros f []. }
  exists tr, hs. split; [exact E|]. revert F. apply Forall2_imp. intros f h Hc. split.
  - intros Hres. destruct Hc as [(s & Hs & Hfst & Ht)|[Hn _]].
    + destruct (tree_spec pr e H ops Inv tr G fuel s f h) as (t & Et & Dt); auto; [lia|]. exists s, t. split; [exact Et|]. split; [exact Dt|].
      intros s' Hs' Ha. apply (at_step_facts pr e H ops Inv) in Ha. exact (proj2 Hfst s' Hs' Ha).
    + exfalso. apply (result_at pr e H ops Inv) in Hres. destruct Hres as (s & Ha). apply (at_step_facts pr e H ops Inv) in Ha. exact (Hn s Ha).
  - intros Hres. destruct Hc as [(s & Hs & Hfst & Ht)|[Hn Ht]].
    + exfalso. apply Hres. apply (result_at pr e H ops Inv). exists s. apply (at_step_facts pr e H ops Inv). apply Hfst.
    + rewrite (i_step _ _ _ _ Inv) in Hf. destruct fuel as [|fuel]; [lia|]. cbn [tree_of]. rewrite Ht. reflexivity.
Qed.
Print Assumptions C15_traces_partial.

(** The same for source programs, with conditions on the source rules. *)
Theorem C15_source_traces_partial : forall sp, ok_program sp -> (forall r, In r (sp_rules sp) -> traceable_source r) ->
  exists pr, normalize_program sp = Some pr /\
  forall T (next : T -> option bool -> option (option nat * T)) s0 e pick shuffle fs,
  reachable pr next s0 e -> picks pick -> shuffles shuffle -> (forall f, In f fs -> user_tag (fst f)) ->
  exists tr hs, trace_ground_facts pick shuffle pr e (e_step e) [] fs = Some (tr, hs) /\
    Forall2 (fun f h =>
      (result e (fst f) (snd f) -> exists s t, tree_of (e_step e) tr h = Some (Some t) /\ derives_fact pr e f s t) /\
      (~ result e (fst f) (snd f) -> tree_of (e_step e) tr h = Some None)) fs hs.
Proof.
  intros sp Hok Ht. destruct (normalize_program_spec sp Hok) as (pr & En & _). exists pr. split; auto.
  destruct (program_traceable sp pr Hok Ht En) as [Hwf Htr]. intros T next s0 e pick shuffle fs Hr Hp Hs Hu.
  destruct (C15_traces_partial T pr next s0 e pick shuffle fs (e_step e) Hwf Htr Hr Hp Hs Hu (le_n _)) as (tr & hs & E & F).
  exists tr, hs. split; auto. revert F. apply Forall2_imp. intros f h [H1 H2]. split; auto. intros Hres. destruct (H1 Hres) as (s & t & A & B & _). eauto.
Qed.
Print Assumptions C15_source_traces_partial.

(** ** Refutations *)

(** The rows of a query are found in lexicographic order. *)
Fixpoint row_leb (x y : row) : bool :=
  match x, y with [], _ => true | _, [] => false | a :: x', b :: y' => (a <? b)%Z || ((a =? b)%Z && row_leb x' y') end.
Definition first_row (rows : list row) : option row :=
  match rows with [] => None | x :: l => Some (fold_left (fun m y => if row_leb m y then m else y) l x) end.
Lemma first_row_picks : picks first_row.
Proof.
  intros [|x l]; simpl; [reflexivity|]. revert x. induction l as [|y l IH]; intros x; simpl; [auto|].
  destruct (row_leb x y); [destruct (IH x); auto|destruct (IH y); auto].
Qed.
Lemma id_shuffles : shuffles (fun g => g).
Proof. intros g. apply Permutation_refl. Qed.

(** The program is evaluated with the default strategy, giving the facts [M], and the trace of [f] is [t]. *)
Definition traces_as (sp : sprogram) (f : fact) (t : option tree) (Q : interp -> Prop) : Prop := exists pr st n,
  normalize_program sp = Some pr /\ default_strategy (p_rules pr) st /\
  match execute pr sn_next st n with
  | Finished e => Q (result e) /\
      match trace_ground_facts first_row (fun g => g) pr e (e_step e) [] [f] with
      | Some (tr, [h]) => tree_of (e_step e) tr h = Some t
      | _ => False
      end
  | _ => False
  end.
Definition good_source (r : srule) : Prop := validate r = true /\ well_named r /\ supported r.
Ltac good := split; [vm_compute; reflexivity|]; split; [apply namedb_ok; vm_compute; reflexivity|apply supportedb_ok; vm_compute; reflexivity].
Ltac has := vm_compute; eexists; split; [reflexivity|]; simpl; auto; fail.
Ltac has_not := vm_compute; intros (rows & E & H); injection E as <-; simpl in H; intuition discriminate.

(** [ts_alone]: p(!v, ?x), p(?x, ?y) :- q(?x, ?y).  with q(1, 2), q(2, 9): the fact p(1, 2) follows from q(1, 2)
    by the second head atom, but its trace derives it from q(2, 9) by the first one. From q(2, 9) alone it does
    not follow. *)
Definition two_heads : srule := mkSrule [(4, [TEx 11; TVar 3]); (4, [TVar 3; TVar 7])] [LPos 0 [TVar 3; TVar 7]].
Theorem C15_existential_refuted : good_source two_heads /\
  traces_as (one two_heads [(0, [1; 2]%Z); (0, [2; 9]%Z)]) (4, [1; 2]%Z)
    (Some (TRule 0 0 [(3, 2%Z); (7, 9%Z)] [TFact (0, [2; 9]%Z)])) (fun M => M 4 [1; 2]%Z) /\
  evaluates (one two_heads [(0, [2; 9]%Z)]) (fun M => ~ M 4 [1; 2]%Z).
Proof.
  split; [good|]. split.
  - evaluate1 4. vm_compute. split; [|reflexivity]. eexists. split; [reflexivity|]. simpl. auto.
  - evaluate1 4. has_not.
Qed.
Print Assumptions C15_existential_refuted.

(** p(!v, ?x), s(!v, ?y) :- q(?x, ?y).  with q(3, 1), q(3, 2): the nulls -1 and -2 are for q(3, 1) and q(3, 2).
    The trace of p(-2, 3) is the rule application for q(3, 1), but s(-2, 1) is not a fact. So in a
    derivation tree [instance_of] does not fix the values of existential variables. *)
Definition two_nulls : srule := mkSrule [(4, [TEx 11; TVar 3]); (2, [TEx 11; TVar 7])] [LPos 0 [TVar 3; TVar 7]].
Theorem C15_nulls_refuted : good_source two_nulls /\ traceable_source two_nulls /\
  traces_as (one two_nulls [(0, [3; 1]%Z); (0, [3; 2]%Z)]) (4, [-2; 3]%Z)
    (Some (TRule 0 0 [(3, 3%Z); (7, 1%Z)] [TFact (0, [3; 1]%Z)])) (fun M => M 4 [-2; 3]%Z /\ M 2 [-2; 2]%Z /\ ~ M 2 [-2; 1]%Z).
Proof.
  split; [good|]. split.
  - constructor.
    + intros p ts us H1 H2. simpl in H1, H2. intuition congruence.
    + intros [|[|k]] p ts [|[|k']] q us Hk Hk' Hne _; simpl in Hk, Hk'; try congruence; try (destruct k; discriminate); try (destruct k'; discriminate).
  - evaluate1 4. vm_compute. split; [|reflexivity]. split; [|split].
    + eexists. split; [reflexivity|]. simpl. auto.
    + eexists. split; [reflexivity|]. simpl. auto.
    + intros (rows & E & H). injection E as <-. simpl in H. intuition discriminate.
Qed.
Print Assumptions C15_nulls_refuted.

(** [ts_alone]: p(?x, #count(?y)), p(?y, ?x) :- q(?x, ?y).  with q(5, 1), q(1, 7): the fact p(1, 5) follows
    from q(5, 1) by the second head atom, but in its trace it is a count of 5 for the tuple q(1, 7). *)
Definition count_heads : srule := mkSrule [(4, [TVar 3; TAgg count (TVar 7) []]); (4, [TVar 7; TVar 3])] [LPos 0 [TVar 3; TVar 7]].
Theorem C15_aggregate_head_refuted : good_source count_heads /\
  traces_as (one count_heads [(0, [5; 1]%Z); (0, [1; 7]%Z)]) (4, [1; 5]%Z)
    (Some (TRule 0 0 [(3, 1%Z); (7, 7%Z); (2, 5%Z)] [TFact (0, [1; 7]%Z)])) (fun M => M 4 [1; 5]%Z) /\
  evaluates (one count_heads [(0, [1; 7]%Z)]) (fun M => ~ M 4 [1; 5]%Z).
Proof.
  split; [good|]. split.
  - evaluate1 4. vm_compute. split; [|reflexivity]. eexists. split; [reflexivity|]. simpl. auto.
  - evaluate1 4. has_not.
Qed.
Print Assumptions C15_aggregate_head_refuted.

(** The trace of an aggregate's result has only one of the aggregated tuples as its premise:
    p(?x, #count(?y)) :- q(?x, ?y).  with q(5, 1), q(5, 7); p(5, 2) does not follow from q(5, 1). *)
Definition count_head : srule := mkSrule [(4, [TVar 3; TAgg count (TVar 7) []])] [LPos 0 [TVar 3; TVar 7]].
Theorem C15_aggregate_premises_refuted : good_source count_head /\ traceable_source count_head /\
  traces_as (one count_head [(0, [5; 1]%Z); (0, [5; 7]%Z)]) (4, [5; 2]%Z)
    (Some (TRule 0 0 [(3, 5%Z); (7, 1%Z); (2, 2%Z)] [TFact (0, [5; 1]%Z)])) (fun M => M 4 [5; 2]%Z) /\
  evaluates (one count_head [(0, [5; 1]%Z)]) (fun M => ~ M 4 [5; 2]%Z).
Proof.
  split; [good|]. split; [|split].
  - constructor.
    + intros p ts us H1 H2. simpl in H1, H2. intuition congruence.
    + intros [|k] p ts [|k'] q us Hk Hk' Hne _; simpl in Hk, Hk'; try congruence; try (destruct k; discriminate); try (destruct k'; discriminate).
  - evaluate1 4. vm_compute. split; [|reflexivity]. eexists. split; [reflexivity|]. simpl. auto.
  - evaluate1 4. has_not.
Qed.
Print Assumptions C15_aggregate_premises_refuted.

(** The values of computed variables in the assignment may be swapped: the rows of the query have the columns of
    computed variables in the order of their computation, but are read in the order of the rule's variables.
    p(?x + 1) :- q(?x), ?z = ?x + 2.  with q(10): the trace of p(11) says ?z = 11 (variable 7). *)
Definition swapped : srule := mkSrule [(4, [TOp plus [TVar 3; TConst 1]])] [LPos 0 [TVar 3]; LOp KEqual [TVar 7; TOp plus [TVar 3; TConst 2]]].
Theorem C15_assignment_refuted : good_source swapped /\ traceable_source swapped /\
  traces_as (one swapped [(0, [10%Z])]) (4, [11%Z])
    (Some (TRule 0 0 [(3, 10%Z); (head_var 1, 12%Z); (7, 11%Z)] [TFact (0, [10%Z])])) (fun M => M 4 [11%Z]) /\
  forall I M nu, src_matches swapped I M nu -> nu 3 = 10%Z -> nu 7 = 12%Z.
Proof.
  split; [good|]. split; [|split].
  - constructor.
    + intros p ts us H1 H2. simpl in H1, H2. intuition congruence.
    + intros [|k] p ts [|k'] q us Hk Hk' Hne _; simpl in Hk, Hk'; try congruence; try (destruct k; discriminate); try (destruct k'; discriminate).
  - evaluate1 4. vm_compute. split; [|reflexivity]. eexists. split; [reflexivity|]. simpl. auto.
  - intros I M nu Hm Hx. pose proof (sm_ops _ _ _ _ Hm KEqual [TVar 7; TOp plus [TVar 3; TConst 2]]) as Ho.
    assert (Hs : safe_op swapped KEqual [TVar 7; TOp plus [TVar 3; TConst 2]]).
    { split; [simpl; auto|]. assert (H3 : safe swapped 3) by (apply (safe_pos swapped 0 [TVar 3]); [left; reflexivity|left; reflexivity]).
      intros v [<-|[<-|[]]]; [|exact H3]. eapply (safe_eq swapped (LOp KEqual [TVar 7; TOp plus [TVar 3; TConst 2]]) 7); [simpl; auto|left; reflexivity|reflexivity|reflexivity|].
      intros w [<-|[]]. exact H3. }
    specialize (Ho Hs). simpl in Ho. unfold plus, apply_op in Ho. rewrite Hx in Ho. simpl in Ho.
    destruct (Z.eqb_spec (nu 7) 12) as [E|E]; [exact E|]. exfalso. vm_compute in Ho. discriminate.
Qed.
Print Assumptions C15_assignment_refuted.

(** ** Non-vacuity *)
Example demo_traceable : forall r, In r (sp_rules demo_source) -> traceable_source r.
Proof.
  intros r Hr. constructor.
  - intros p ts us H1 H2. simpl in Hr. repeat (destruct Hr as [<-|Hr]; [simpl in H1, H2; intuition congruence|]). destruct Hr.
  - intros k p ts k' q us Hk Hk' Hne _. exfalso. apply Hne. simpl in Hr.
    repeat (destruct Hr as [<-|Hr]; [destruct k as [|[|k]], k' as [|[|k']]; simpl in Hk, Hk'; try discriminate; reflexivity|]). destruct Hr.
Qed.

(** The traces of far(1, 5), path(1, 3), a count, and of an atom that is not a fact. *)
Example demo_traces : exists pr st e tr hs, normalize_program demo_source = Some pr /\
  sn_new (map (fun i => [i]) (seq 0 5)) (fun k => match k with 0 => map (fun i => [i]) (seq 0 4) | _ => [[0]] end) (p_rules pr) = Some (Some st) /\
  execute pr sn_next st 20 = Finished e /\
  trace_ground_facts first_row (fun g => g) pr e (e_step e) [] [(6, [1; 5]%Z); (2, [1; 3]%Z); (8, [1; 14]%Z); (6, [3; 8]%Z)] = Some (tr, hs) /\
  match map (tree_of (e_step e) tr) hs with
  | [Some (Some (TRule 2 0 _ [t1])); Some (Some (TRule 1 0 _ [TRule 0 0 _ [TFact f1]; TFact f2])); Some (Some (TRule 3 0 _ _)); Some None] =>
      f1 = (0, [1; 2]%Z) /\ f2 = (0, [2; 3]%Z) /\ t1 = TRule 1 0 [(3, 1%Z); (7, 2%Z); (11, 3%Z)] [TRule 0 0 [(3, 1%Z); (7, 2%Z)] [TFact f1]; TFact f2]
  | _ => False
  end.
Proof. do 5 eexists. split; [vm_compute; reflexivity|]. split; [vm_compute; reflexivity|]. split; [vm_compute; reflexivity|]. split; [vm_compute; reflexivity|]. vm_compute. auto. Qed.
