(** C44-C47: the transformations before execution. *)
From Coq Require Import List Arith ZArith Bool Lia.
From Verif Require Import TableModel EngineModel EngineSpec NormModel NormSpec NormProofs1 FilterImpProofs5 FilterImpProofs6 PipeModel PipeSpec PipeProofs1 PipeProofs2 PipeProofs3 PipeProofs4 PipeProofs5.
Import ListNotations.

(** ** C44: rules that are not needed are removed *)

(** The loop ends, and exactly the statements for needed predicates are kept, in their order. *)
Theorem C44_kept : forall P, exists P', active P = Some P' /\
  selects (fun r => exists p, in_head r p /\ needed P p) (p_rules P) (p_rules P') /\
  selects (fun f => needed P (fst f)) (p_facts P) (p_facts P') /\
  selects (fun i => needed P (fst i)) (p_imports P) (p_imports P') /\
  p_exports P' = p_exports P /\ p_outputs P' = p_outputs P /\ p_params P' = p_params P.
Proof. exact active_keeps. Qed.
Print Assumptions C44_kept.

(** Needed predicates, in particular outputs and exported ones, have the same facts. *)
Theorem C44_same_facts : forall P P' (M : interp) p x, active P = Some P' -> needed P p ->
  (src_deriv (source P') M p x <-> src_deriv (source P) M p x).
Proof. intros P P' M p x H. exact (active_same P P' H M p x). Qed.
Print Assumptions C44_same_facts.

(** A perfect model of the program gives one of the result with the same needed facts, and every perfect model of the
    result satisfies the program as far as it is needed. *)
Theorem C44_perfect : forall P P' (M : interp), active P = Some P' -> src_perfect (source P) M ->
  exists M', src_perfect (source P') M' /\ forall p x, needed P p -> (M' p x <-> M p x).
Proof. intros P P' M H Hp. exists (src_deriv (source P') M). exact (active_perfect P P' H M Hp). Qed.
Print Assumptions C44_perfect.
Theorem C44_perfect_converse : forall P P' (M M' : interp), active P = Some P' -> src_perfect (source P') M' ->
  (forall q x, needed P q -> (M q x <-> M' q x)) -> forall p x, needed P p -> (M p x <-> src_deriv (source P) M p x).
Proof. intros P P' M M' H Hp Ha. apply (active_perfect_inv P P' H M M' Hp). intros q Hq x. now apply Ha. Qed.
Print Assumptions C44_perfect_converse.
Theorem C44_ok : forall P P', active P = Some P' -> ok_program (source P) -> ok_program (source P').
Proof. exact active_ok. Qed.
Print Assumptions C44_ok.

(** The whole pipeline, from the program of the user to the removal of rules: a predicate that is printed or exported
    in the end has the facts of the program with the values of the parameters in it. *)
Theorem C44_pipeline : forall is_global k external P P' val, prepare is_global k external P = Some P' ->
  NoDup (map fst external) ->
  (forall g e, In (mkParam g (Some e)) (p_params P) -> expression is_global e = true) ->
  valuation external (p_params P) val -> (forall d, In d (p_params P) -> val (pa_var d) <> None) ->
  (forall r, In r (p_rules P) -> user_names r) -> (forall v, val v <> None -> forall n, v <> fresh_var n) ->
  (forall r, In r (p_rules P') -> validate r = true) /\
  forall (M : interp) p x, asked P' p -> (src_deriv (source P') M p x <-> src_deriv (source (put_program val P)) M p x).
Proof. intros ig k ext P P' val H H1 H2 H3 H4 H5 H6. split; [exact (prepare_valid ig k ext P P' H)|exact (prepare_same ig k ext P P' val H H1 H2 H3 H4 H5 H6)]. Qed.
Print Assumptions C44_pipeline.

(** a(x) :- b(x, $g), x < $h.   c(x) :- b(x, y).   d(x), a(x) :- c(x), ~ e(x).   f(x) :- a(x).   with output a,
    parameters $g = 2 * $h (where * is addition here) and $h from outside. *)
Definition padd : opkind := KOther (fun l => match l with [a; b] => Some (a + b)%Z | _ => None end).
Definition pless : opkind := KOther (fun l => match l with [a; b] => Some (if (a <? b)%Z then true_val else 0%Z) | _ => None end).
Definition demo : pprogram := mkP
  [ mkSrule [(0, [TVar 7])] [LPos 2 [TVar 7; TVar 15]; LOp pless [TVar 7; TVar 23]];
    mkSrule [(4, [TVar 7])] [LPos 2 [TVar 7; TConst 6]];
    mkSrule [(6, [TVar 7]); (0, [TVar 7])] [LPos 4 [TVar 7]; LNeg 8 [TVar 7]];
    mkSrule [(10, [TVar 7])] [LPos 0 [TVar 7]] ]
  [(8, [TConst 3]); (12, [TConst 4])] [(2, [[1; 6]; [3; 6]; [5; 7]]%Z); (14, [])] [] [0]
  [mkParam 15 (Some (TOp padd [TVar 23; TConst 2])); mkParam 23 None].
Definition demo_global (v : var) : bool := (v =? 15) || (v =? 23).
Example demo_prepared : prepare demo_global EKeep [(23, 4%Z)] demo = Some (mkP
  [ mkSrule [(0, [TVar 7])] [LPos 2 [TVar 7; TOp padd [TConst 4; TConst 2]]; LOp pless [TVar 7; TConst 4]];
    mkSrule [(4, [TVar 7])] [LOp KEqual [TVar 3; TConst 6]; LPos 2 [TVar 7; TVar 3]];
    mkSrule [(6, [TVar 7]); (0, [TVar 7])] [LPos 4 [TVar 7]; LNeg 8 [TVar 7]] ]
  [(8, [TConst 3])] [(2, [[1; 6]; [3; 6]; [5; 7]]%Z)] [] [0] (p_params demo)).
Proof. vm_compute. reflexivity. Qed.
Definition demo_val (v : var) : option Z := if v =? 15 then Some 6%Z else if v =? 23 then Some 4%Z else None.
Lemma demo_valuation : valuation [(23, 4%Z)] (p_params demo) demo_val.
Proof.
  assert (H23 : param_value [(23, 4%Z)] (p_params demo) 23 4%Z) by (apply pv_external; simpl; auto).
  assert (H15 : param_value [(23, 4%Z)] (p_params demo) 15 6%Z).
  { apply (pv_defined _ _ 15 (TOp padd [TVar 23; TConst 2]) (fun _ => 4%Z)); [simpl; intuition discriminate|simpl; auto| |reflexivity]. intros v [<-|[]]. exact H23. }
  assert (Hf : forall g z z', param_value [(23, 4%Z)] (p_params demo) g z -> param_value [(23, 4%Z)] (p_params demo) g z' -> z = z').
  { apply (param_value_fun demo_global); [repeat constructor; simpl; tauto|repeat constructor; simpl; intuition discriminate|]. intros g e [E|[E|[]]]; [injection E as <- <-; reflexivity|discriminate]. }
  intros g z. unfold demo_val. split.
  - destruct (g =? 15) eqn:E1; [apply Nat.eqb_eq in E1; subst; intros E; injection E as <-; auto|]. destruct (g =? 23) eqn:E2; [apply Nat.eqb_eq in E2; subst; intros E; injection E as <-; auto|discriminate].
  - intros H. destruct (g =? 15) eqn:E1; [apply Nat.eqb_eq in E1; subst; f_equal; eauto|]. destruct (g =? 23) eqn:E2; [apply Nat.eqb_eq in E2; subst; f_equal; eauto|].
    exfalso. apply Nat.eqb_neq in E1, E2. inversion H as [g' z' [E|[]]|g' e nu z' A [E|[E|[]]]]; subst; congruence.
Qed.
(** The hypotheses of the theorem hold, and a fact is derived. *)
Definition user_namesb (r : srule) : bool :=
  forallb (fun t => forallb (fun v => negb (v mod 8 =? 3)) (uvars t) && negb (has_ex t)) (flat_map snd (s_head r) ++ flat_map literal_terms (s_body r)).
Lemma occurs_has_ex v t : occurs_ex v t -> has_ex t = true.
Proof.
  induction 1 as [|k ts t Ht _ IH|f t ds _ IH|ts t Ht _ IH]; simpl; auto; apply existsb_exists; eauto.
Qed.
Lemma user_namesb_ok r : user_namesb r = true -> user_names r.
Proof.
  unfold user_namesb. rewrite forallb_forall. intros H t v n Ht Ho ->.
  assert (Hi : In t (flat_map snd (s_head r) ++ flat_map literal_terms (s_body r))) by (apply in_app_iff; destruct Ht as [(p & ts & A & B)|(l & A & B)]; [left; apply in_flat_map; exists (p, ts); auto|right; apply in_flat_map; eauto]).
  specialize (H t Hi). apply andb_prop in H. destruct H as [H1 H2]. destruct Ho as [Ho|Ho].
  - rewrite forallb_forall in H1. specialize (H1 _ Ho). unfold fresh_var in H1. rewrite Nat.add_comm, Nat.mul_comm, Nat.mod_add in H1 by lia. discriminate.
  - apply occurs_has_ex in Ho. rewrite Ho in H2. discriminate.
Qed.
Example demo_hypotheses : (forall r, In r (p_rules demo) -> user_names r) /\ (forall v, demo_val v <> None -> forall n, v <> fresh_var n) /\
  (forall d, In d (p_params demo) -> demo_val (pa_var d) <> None) /\ (forall g e, In (mkParam g (Some e)) (p_params demo) -> expression demo_global e = true).
Proof.
  split; [|split; [|split]].
  - intros r Hr. apply user_namesb_ok. simpl in Hr. repeat (destruct Hr as [<-|Hr]; [reflexivity|]). destruct Hr.
  - intros v Hv n. unfold demo_val, fresh_var in *. destruct (v =? 15) eqn:E1; [apply Nat.eqb_eq in E1; lia|]. destruct (v =? 23) eqn:E2; [apply Nat.eqb_eq in E2; lia|congruence].
  - intros d [<-|[<-|[]]]; discriminate.
  - intros g e [E|[E|[]]]; [injection E as <- <-; reflexivity|discriminate].
Qed.
Example demo_fact : forall M, src_deriv (source (put_program demo_val demo)) M 0 [1%Z].
Proof.
  intros M. eapply (fireb_ok _ M (mkSrule [(0, [TVar 7])] [LPos 2 [TVar 7; TConst 6]; LOp pless [TVar 7; TConst 4]]) (fun _ => 1%Z) [(2, [1; 6]%Z)]);
    [simpl; auto| |vm_compute; reflexivity|simpl; left; reflexivity|reflexivity].
  intros q y [E|[]]; injection E as <- <-. eapply sd_import; simpl; auto; simpl; auto.
Qed.
(** Predicates that are not needed can lose facts: of a rule with two heads both are kept. *)
Definition half : pprogram := mkP
  [mkSrule [(0, [TVar 7]); (4, [TVar 7])] [LPos 2 [TVar 7]]; mkSrule [(4, [TVar 7])] [LPos 6 [TVar 7]]] [] [(2, [[1]]%Z); (6, [[2]]%Z)] [] [0] [].
Theorem C44_not_needed_refuted : exists P', active half = Some P' /\ forall M,
  src_deriv (source P') M 4 [1%Z] /\ src_deriv (source half) M 4 [2%Z] /\ ~ src_deriv (source P') M 4 [2%Z].
Proof.
  eexists. split; [vm_compute; reflexivity|]. intros M. split; [|split].
  - eapply (fireb_ok _ M (mkSrule [(0, [TVar 7]); (4, [TVar 7])] [LPos 2 [TVar 7]]) (fun _ => 1%Z) [(2, [1]%Z)]); [simpl; auto| |vm_compute; reflexivity|simpl; right; left; reflexivity|reflexivity].
    intros q y [E|[]]; injection E as <- <-. eapply sd_import; simpl; auto; simpl; auto.
  - eapply (fireb_ok _ M (mkSrule [(4, [TVar 7])] [LPos 6 [TVar 7]]) (fun _ => 2%Z) [(6, [2]%Z)]); [simpl; auto| |vm_compute; reflexivity|simpl; left; reflexivity|reflexivity].
    intros q y [E|[]]; injection E as <- <-. eapply sd_import; simpl; auto; simpl; auto.
  - set (sp := source _). assert (Hx : forall p x, src_deriv sp M p x -> x = [1%Z]).
    { intros p x H. induction H as [p x (ts & [] & _)|p rows x [E|[]] H2|r I nu mu p ts x [<-|[]] HI IH Hm Hp Hna Hmu Hi|r p ts x [<-|[]] Hp Hag].
      - injection E as <- <-. destruct H2 as [<-|[]]. reflexivity.
      - destruct (sm_pos _ _ _ _ Hm 2 [TVar 7]) as (row & R1 & R2); [simpl; auto|]. apply IH in R1. subst row. inversion R2 as [|? ? ? ? [E|E]]; subst; [discriminate|]. simpl in E. injection E as E.
        assert (Em : mu 7 = nu 7) by (apply Hmu; intros (q & us & [Eq|[Eq|[]]] & Hu); injection Eq as <- <-; destruct Hu as [Hu|[]]; discriminate).
        destruct Hp as [Eq|[Eq|[]]]; injection Eq as <- <-; unfold instance in Hi; inversion Hi as [|? z ? l Ez Hl]; subst; inversion Hl; subst; simpl in Ez; injection Ez as <-; congruence.
      - exfalso. destruct Hag as (j & t & f & s & ds & nu & z & Hj & Ha & _). apply nth_error_In in Hj. destruct Hp as [Eq|[Eq|[]]]; injection Eq as <- <-; destruct Hj as [<-|[]]; inversion Ha. }
    intros H. apply Hx in H. discriminate.
Qed.
Print Assumptions C44_not_needed_refuted.

(** ** C45: exports and default outputs *)

(** The exports of the result, for every setting. *)
Theorem C45_exports : forall k P p s, In (mkExport p s) (p_exports (set_exports k P)) <->
  match k with
  | EKeep => In (mkExport p s) (p_exports P)
  | ENone => False
  | EIdb => is_derived P p /\ (In (mkExport p s) (p_exports P) \/ ~ is_exported P p /\ s = None)
  | EEdb => (~ is_derived P p /\ In (mkExport p s) (p_exports P)) \/ (is_imported P p /\ ~ is_exported P p /\ s = None)
  | EAll => is_mentioned P p /\ ~ is_exported P p /\ s = None
  end.
Proof. exact exports_of. Qed.
Print Assumptions C45_exports.
(** The setting does what it says if nothing is exported explicitly, and (all) every imported predicate is used,
    (idb) no predicate is only given by facts, (edb) no facts are given. *)
Theorem C45_documented_partial : forall k P, (k = EKeep \/ k = ENone \/ forall p, ~ is_exported P p) ->
  (k = EAll -> forall p, is_imported P p -> is_mentioned P p) ->
  (k = EIdb -> forall p ts, In (p, ts) (p_facts P) -> exists r, In r (p_rules P) /\ in_head r p) ->
  (k = EEdb -> p_facts P = []) ->
  forall p, is_exported (set_exports k P) p <-> documented k P p.
Proof.
  intros k P H1 H2 H3 H4 p. unfold is_exported. assert (E : (exists s, In (mkExport p s) (p_exports (set_exports k P))) <-> exists s, match k with
  | EKeep => In (mkExport p s) (p_exports P)
  | ENone => False
  | EIdb => is_derived P p /\ (In (mkExport p s) (p_exports P) \/ ~ is_exported P p /\ s = None)
  | EEdb => (~ is_derived P p /\ In (mkExport p s) (p_exports P)) \/ (is_imported P p /\ ~ is_exported P p /\ s = None)
  | EAll => is_mentioned P p /\ ~ is_exported P p /\ s = None
  end) by (split; intros (s & H); exists s; now apply exports_of). rewrite E. clear E.
  destruct k; cbn [documented].
  - reflexivity.
  - split; [intros (s & [])|tauto].
  - destruct H1 as [H1|[H1|H1]]; try discriminate. split.
    + intros (s & [A|(ts & A)] & _); [exact A|]. apply (H3 eq_refl p ts A).
    + intros A. exists None. split; [left; auto|right; split; auto].
  - destruct H1 as [H1|[H1|H1]]; try discriminate. rewrite (H4 eq_refl). split.
    + intros (s & [[_ A]|[A _]]); auto. exfalso. apply (H1 p). exists s. auto.
    + intros [A|(ts & [])]. exists None. right. auto.
  - destruct H1 as [H1|[H1|H1]]; try discriminate. split; [intros (s & A & _); auto|]. intros A. exists None. split; [|auto]. destruct A; auto.
Qed.
Print Assumptions C45_documented_partial.
(** With facts, "idb" exports exactly the predicates of heads and facts. *)
Theorem C45_idb : forall P p, is_exported (set_exports EIdb P) p <-> is_derived P p.
Proof.
  intros P p. split.
  - intros (s & H). apply exports_of in H. tauto.
  - intros H. destruct (in_dec Nat.eq_dec p (map e_pred (p_exports P))) as [i|i].
    + apply in_map_iff in i. destruct i as ([q s] & E & Hi). simpl in E. subst. exists s. apply (exports_of EIdb). auto.
    + exists None. apply (exports_of EIdb). split; auto. right. split; auto. intros (s & Hs). apply i. apply in_map_iff. exists (mkExport p s). auto.
Qed.
Print Assumptions C45_idb.
(** Failures. "all" drops the exports that the program asks for, and does not export predicates that are only imported. *)
Definition one_rule : srule := mkSrule [(0, [TVar 7])] [LPos 2 [TVar 7]].
Theorem C45_all_drops_explicit_refuted : exists P p, is_exported P p /\ documented EAll P p /\ ~ is_exported (set_exports EAll P) p.
Proof.
  exists (mkP [one_rule] [] [(2, [[1]]%Z)] [mkExport 0 (Some 5)] [] []), 0. split; [exists (Some 5); simpl; auto|]. split; [left; left; left; exists one_rule; split; [simpl; auto|exists [TVar 7]; simpl; auto]|].
  intros (s & H). vm_compute in H. destruct H as [H|[]]. discriminate.
Qed.
Print Assumptions C45_all_drops_explicit_refuted.
Theorem C45_all_misses_imports_refuted : exists P p, documented EAll P p /\ ~ is_exported (set_exports EAll P) p.
Proof.
  exists (mkP [] [] [(2, [[1]]%Z)] [] [] []), 2. split; [right; exists [[1]]%Z; simpl; auto|]. intros (s & H). vm_compute in H. destruct H.
Qed.
Print Assumptions C45_all_misses_imports_refuted.
(** "idb" also exports predicates that only have facts, "edb" does not export them. *)
Theorem C45_facts_refuted : exists P p, (is_exported (set_exports EIdb P) p /\ ~ documented EIdb P p) /\ (documented EEdb P p /\ ~ is_exported (set_exports EEdb P) p).
Proof.
  exists (mkP [] [(2, [TConst 1])] [] [] [] []), 2. split; split.
  - exists None. vm_compute. auto.
  - intros (r & [] & _).
  - right. exists [TConst 1]. simpl. auto.
  - intros (s & H). vm_compute in H. destruct H.
Qed.
Print Assumptions C45_facts_refuted.
(** "edb" exports an imported predicate that is also derived, unless the program asks for its export. *)
Theorem C45_edb_drops_explicit_refuted : exists P P' p, documented EEdb P p /\ P' = mkP (p_rules P) (p_facts P) (p_imports P) [mkExport p None] (p_outputs P) (p_params P) /\
  is_exported (set_exports EEdb P) p /\ ~ is_exported (set_exports EEdb P') p.
Proof.
  eexists (mkP [mkSrule [(2, [TVar 7])] [LPos 2 [TVar 7]]] [] [(2, [[1]]%Z)] [] [] []), _, 2. split; [left; exists [[1]]%Z; simpl; auto|]. split; [reflexivity|]. split.
  - exists None. vm_compute. auto.
  - intros (s & H). vm_compute in H. destruct H.
Qed.
Print Assumptions C45_edb_drops_explicit_refuted.

(** Without any output or export, exactly the predicates of heads and facts are outputs; otherwise nothing changes. *)
Theorem C45_default_outputs : forall P p, In p (p_outputs (set_default_outputs P)) <->
  In p (p_outputs P) \/ (p_outputs P = [] /\ p_exports P = [] /\ is_derived P p).
Proof. exact default_outputs. Qed.
Print Assumptions C45_default_outputs.
Theorem C45_default_rest : forall P, p_rules (set_default_outputs P) = p_rules P /\ p_facts (set_default_outputs P) = p_facts P /\
  p_imports (set_default_outputs P) = p_imports P /\ p_exports (set_default_outputs P) = p_exports P /\ p_params (set_default_outputs P) = p_params P.
Proof. exact default_rest. Qed.
Print Assumptions C45_default_rest.
(** So a predicate that is only imported is no output, although "all predicates are set as outputs"
    (set_default_outputs.rs:12), and its import is even removed. *)
Theorem C45_default_misses_imports_refuted : exists P P' p, p_outputs P = [] /\ p_exports P = [] /\ is_imported P p /\
  active (set_default_outputs P) = Some P' /\ ~ asked P' p /\ p_imports P' = [].
Proof.
  exists (mkP [] [] [(2, [[1]]%Z)] [] [] []). eexists. exists 2. do 2 (split; [reflexivity|]). split; [exists [[1]]%Z; simpl; auto|]. split; [vm_compute; reflexivity|]. split; [|reflexivity]. intros [[]|(s & [])].
Qed.
Print Assumptions C45_default_misses_imports_refuted.

(** ** C46: constants in body atoms *)

(** If the resulting rules are valid (which is checked later), the facts are the same, and positive atoms of bodies have
    only variables; heads and the number of rules do not change. *)
Theorem C46_same_facts : forall P (M : interp) p x, (forall r, In r (p_rules P) -> user_names r) ->
  (forall r, In r (p_rules (split_constants P)) -> validate r = true) ->
  (src_deriv (source (split_constants P)) M p x <-> src_deriv (source P) M p x).
Proof. exact split_constants_same. Qed.
Print Assumptions C46_same_facts.
Theorem C46_only_variables : forall P r, In r (p_rules (split_constants P)) -> only_variables r.
Proof. exact split_constants_variables. Qed.
Print Assumptions C46_only_variables.
Theorem C46_rule_count : forall P, length (p_rules (split_constants P)) = length (p_rules P).
Proof. intros P. apply split_rules_length. Qed.
Print Assumptions C46_rule_count.
Definition constants : pprogram := mkP
  [mkSrule [(0, [TVar 7])] [LPos 2 [TVar 7; TConst 5; TOp padd [TVar 7; TConst 1]]; LNeg 4 [TConst 3]; LPos 4 [TAnon]];
   mkSrule [(0, [TVar 7])] [LPos 4 [TVar 7]]; mkSrule [(0, [TConst 4])] [LPos 4 [TConst 4]]] [] [] [] [0] [].
Example constants_split : p_rules (split_constants constants) =
  [mkSrule [(0, [TVar 7])] [LOp KEqual [TVar 3; TConst 5]; LOp KEqual [TVar 11; TOp padd [TVar 7; TConst 1]]; LPos 2 [TVar 7; TVar 3; TVar 11]; LNeg 4 [TConst 3]; LPos 4 [TAnon]];
   mkSrule [(0, [TVar 7])] [LPos 4 [TVar 7]]; mkSrule [(0, [TConst 4])] [LOp KEqual [TVar 19; TConst 4]; LPos 4 [TVar 19]]].
Proof. reflexivity. Qed.
Example constants_meet : (forall r, In r (p_rules constants) -> user_names r) /\ (forall r, In r (p_rules (split_constants constants)) -> validate r = true).
Proof.
  split; intros r Hr; simpl in Hr; [apply user_namesb_ok|]; repeat (destruct Hr as [<-|Hr]; [vm_compute; reflexivity|]); destruct Hr.
Qed.
(** The names are needed: a variable [?_0] of a program that is built through the API is captured.
    a(?x) :- b(?x, 5), c(?_0). *)
Definition captured : pprogram := mkP [mkSrule [(0, [TVar 7])] [LPos 2 [TVar 7; TConst 5]; LPos 4 [TVar (fresh_var 0)]]] [] [(2, [[1; 5]]%Z); (4, [[9]]%Z)] [] [0] [].
Theorem C46_capture_refuted : (forall r, In r (p_rules (split_constants captured)) -> validate r = true) /\
  forall M, src_deriv (source captured) M 0 [1%Z] /\ ~ src_deriv (source (split_constants captured)) M 0 [1%Z].
Proof.
  split; [intros r [<-|[]]; vm_compute; reflexivity|]. intros M. split.
  - eapply (fireb_ok _ M (mkSrule [(0, [TVar 7])] [LPos 2 [TVar 7; TConst 5]; LPos 4 [TVar (fresh_var 0)]]) (fun v => if v =? 7 then 1%Z else 9%Z) [(2, [1; 5]%Z); (4, [9]%Z)]);
      [simpl; auto| |vm_compute; reflexivity|simpl; left; reflexivity|reflexivity].
    intros q y [E|[E|[]]]; injection E as <- <-; eapply sd_import; simpl; auto; simpl; auto.
  - set (sp := source _). intros H. inversion H as [? ? (ts & [] & _)|? rows ? [E|[E|[]]] _|r I nu mu ? ts ? [<-|[]] HI Hm Hp Hna Hmu Hi|r ? ts ? [<-|[]] Hp Hag]; subst; try discriminate.
    + assert (H9 : nu 3 = 9%Z).
      { destruct (sm_pos _ _ _ _ Hm 4 [TVar 3]) as (row & R1 & R2); [simpl; auto|]. apply HI in R1. inversion R2 as [|? z ? l [E|E] Hl]; subst; [discriminate|]. simpl in E. injection E as <-. inversion Hl; subst.
        inversion R1 as [? ? (us & [] & _)|? rows ? [E|[E|[]]] Hr|r0 ? ? ? ? us ? [<-|[]] _ _ [Eq|[]]|r0 ? us ? [<-|[]] [Eq|[]]]; subst; try discriminate. injection E as <-. destruct Hr as [Hr|[]]. injection Hr. auto. }
      assert (H5 : eval nu None (TOp KEqual [TVar 3; TConst 5]) = Some true_val).
      { apply (sm_ops _ _ _ _ Hm). split; [simpl; auto|]. intros v [<-|[]]. eapply safe_pos; [simpl; right; right; left; reflexivity|unfold among; simpl; auto]. }
      simpl in H5. rewrite H9 in H5. discriminate.
    + destruct Hag as (j & t & f & s & ds & nu & z & Hj & Ha & _). apply nth_error_In in Hj. destruct Hp as [Eq|[]]; injection Eq as <-. destruct Hj as [<-|[]]. inversion Ha.
Qed.
Print Assumptions C46_capture_refuted.

(** ** C47: parameters *)

(** The validation accepts exactly the declarations without duplicates where every variable has a definition, here or
    from outside, and none depends on itself. *)
Theorem C47_validation : forall is_global external ps, validate_parameters is_global external ps = true <->
  NoDup (map pa_var ps) /\ (forall g, In (mkParam g None) ps -> In g external) /\
  forall g e, In (mkParam g (Some e)) ps -> founded is_global external ps g.
Proof. exact validate_parameters_spec. Qed.
Print Assumptions C47_validation.
(** Values are unique. *)
Theorem C47_unique : forall is_global external ps, NoDup (map fst external) -> NoDup (map pa_var ps) ->
  (forall g e, In (mkParam g (Some e)) ps -> expression is_global e = true) ->
  forall g z z', param_value external ps g z -> param_value external ps g z' -> z = z'.
Proof. exact param_value_fun. Qed.
Print Assumptions C47_unique.
(** The substitution is found, has an entry for every external and every declared variable, and each entry is a closed
    term with the value of the variable. *)
Theorem C47_substitution : forall is_global external ps, NoDup (map fst external) -> validate_parameters is_global (map fst external) ps = true ->
  (forall g e, In (mkParam g (Some e)) ps -> expression is_global e = true) ->
  exists s, substitution external ps = Some s /\
    (forall v, lookup s v <> None <-> In v (map fst external) \/ exists d, In d ps /\ pa_var d = v) /\
    forall v u, lookup s v = Some u -> ground u = true /\ forall nu z, eval nu None u = Some z <-> param_value external ps v z.
Proof.
  intros ig ext ps H1 H2 H3. apply validate_parameters_spec in H2. destruct H2 as (D1 & D2 & D3). destruct (substitution_spec ig ext ps H1 D1 H3) as (s & E & I & St). exists s. split; auto. split.
  - intros v. split.
    + intros Hl. destruct (i_keys _ _ _ I v Hl) as [A|(e & A)]; auto. right. exists (mkParam v (Some e)). auto.
    + intros [A|([g [e|]] & A & <-)]; [now apply (i_ext _ _ _ I)| |].
      * apply (founded_entry ig ext ps H3 s g I St). eapply D3; eauto.
      * apply (i_ext _ _ _ I). simpl. auto.
  - intros v u Hl. split; [eapply i_ground; eauto|]. intros nu z. now apply (i_value _ _ _ I v u nu z).
Qed.
Print Assumptions C47_substitution.
(** The resulting program has the facts of the program with the values in place of the variables. *)
Theorem C47_same_facts : forall is_global external P val, NoDup (map fst external) -> validate_parameters is_global (map fst external) (p_params P) = true ->
  (forall g e, In (mkParam g (Some e)) (p_params P) -> expression is_global e = true) ->
  valuation external (p_params P) val -> (forall d, In d (p_params P) -> val (pa_var d) <> None) ->
  exists P', global external P = Some P' /\ p_exports P' = p_exports P /\ p_outputs P' = p_outputs P /\ p_imports P' = p_imports P /\ p_params P' = p_params P /\
  forall (M : interp) p x, src_deriv (source P') M p x <-> src_deriv (source (put_program val P)) M p x.
Proof. intros ig ext P val H1 H2 H3 H4 H5. apply (global_same ig). constructor; auto. Qed.
Print Assumptions C47_same_facts.
(** External values override definitions; a definition that depends on itself is rejected unless it is overridden. *)
Example overridden : substitution [(15, 1%Z)] [mkParam 15 (Some (TConst 2)); mkParam 23 (Some (TOp padd [TVar 15; TConst 1]))] =
  Some [(23, TOp padd [TConst 1; TConst 1]); (15, TConst 1)].
Proof. reflexivity. Qed.
Example cyclic : validate_parameters demo_global [] [mkParam 15 (Some (TVar 23)); mkParam 23 (Some (TVar 15))] = false /\
  validate_parameters demo_global [23] [mkParam 15 (Some (TVar 23)); mkParam 23 (Some (TVar 15))] = true.
Proof. split; reflexivity. Qed.
(** Two declarations of the same variable are rejected even if the value comes from outside. *)
Example redefined : validate_parameters demo_global [15] [mkParam 15 None; mkParam 15 None] = false.
Proof. reflexivity. Qed.
