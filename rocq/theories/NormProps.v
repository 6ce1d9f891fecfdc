(** C13: what validation and normalization of source programs guarantee; C07 and C08 for source programs. *)
From Coq Require Import List Arith ZArith Bool Lia Permutation.
From Verif Require Import TableModel EngineModel EngineSpec StrategyModel StrategySpec StrategyProofs StrategyProofs3 StrategyProps EngineProofs1 EngineProofs10 EngineProofs13 EngineProps.
From Verif Require Import OrderModel NormModel NormSpec NormProofs1 NormProofs4 NormProofs5 NormProofs6 NormProofs7.
Import ListNotations.

(** The set of safe variables is computed, for every order of the body. *)
Theorem C13_safe_variables : forall r, exists l, safe_variables r = Some l /\ forall v, In v l <-> safe r v.
Proof. exact safe_variables_spec. Qed.
Print Assumptions C13_safe_variables.

(** Normalization of a valid (and supported) rule does not panic, and on every database the rule and its normal
    form have the same matches, up to the values of generated variables. *)
Theorem C13_same_matches_partial : forall r, validate r = true -> well_named r -> supported r ->
  exists nr, normalize r = Some nr /\ forall I M nu,
    (matches nr I M nu -> src_matches r I M nu) /\
    (src_matches r I M nu -> exists nu', (forall v, ~ generated v -> nu' v = nu v) /\ matches nr I M nu').
Proof.
  intros r Hv Hw Hs. pose proof (validate_good r Hv) as G. destruct (normalize_normal r G Hw Hs) as (nr & os & En & Hn). exists nr. split; auto. intros I M nu. split.
  - exact (matches_src r G Hw Hs nr os Hn I M nu).
  - exact (src_matches_norm r G Hw Hs nr os Hn I M nu).
Qed.
Print Assumptions C13_same_matches_partial.

(** Normalization of a valid (and supported) program does not panic; its result satisfies the assumptions of all
    theorems about execution, and has the derivations and the models of the source program. *)
Theorem C13_program_partial : forall sp, ok_program sp -> exists pr, normalize_program sp = Some pr /\ wf_program pr /\
  p_preds pr = sp_preds sp /\ p_outputs pr = sp_outputs sp /\
  forall M, (forall p x, deriv pr M p x <-> src_deriv sp M p x) /\ (closed pr M <-> src_model sp M).
Proof.
  intros sp Hok. destruct (normalize_program_spec sp Hok) as (pr & En & HR & HF & HI & HP & HO & Hord). exists pr. split; auto. split; [|split; [|split]]; auto.
  - eapply program_wf; eauto.
  - intros M. split.
    + intros p x. split; [eapply deriv_src|eapply src_deriv_norm]; eauto.
    + eapply closed_src; eauto.
Qed.
Print Assumptions C13_program_partial.

(** C07 for source programs: every fact computed is derived by the source program. *)
Theorem C07_source_sound_partial : forall sp, ok_program sp -> exists pr, normalize_program sp = Some pr /\
  forall st, default_strategy (p_rules pr) st -> forall e, reachable pr sn_next st e ->
  forall p x, user_tag p -> result e p x -> src_deriv sp (result e) p x.
Proof.
  intros sp Hok. destruct (C13_program_partial sp Hok) as (pr & En & Hwf & _ & _ & HM). exists pr. split; auto. intros st Hst e He p x Hp Hx.
  apply (HM (result e)). eapply C07_sound_partial; eauto.
Qed.
Print Assumptions C07_source_sound_partial.

(** C08 and C10 for source programs: when execution stops, the result is a model of the source program, *)
Theorem C08_source_model : forall sp, ok_program sp -> exists pr, normalize_program sp = Some pr /\
  forall st, default_strategy (p_rules pr) st -> forall e n, execute pr sn_next st n = Finished e -> src_model sp (result e).
Proof.
  intros sp Hok. destruct (C13_program_partial sp Hok) as (pr & En & Hwf & _ & _ & HM). exists pr. split; auto. intros st Hst e n He.
  apply (HM (result e)). eapply C08_closed; eauto.
Qed.
Print Assumptions C08_source_model.

(** and without existential variables it is the unique perfect model of the source program, *)
Theorem C08_source_perfect : forall sp, ok_program sp -> (forall r v, In r (sp_rules sp) -> ~ ex_var r v) ->
  exists pr, normalize_program sp = Some pr /\
  forall st, default_strategy (p_rules pr) st -> forall e n, execute pr sn_next st n = Finished e ->
  src_perfect sp (result e) /\ forall M, src_perfect sp M -> forall p x, M p x <-> result e p x.
Proof.
  intros sp Hok Hex. destruct (normalize_program_spec sp Hok) as (pr & En & HR & HF & HI & HP & HO & Hord).
  destruct (C13_program_partial sp Hok) as (pr' & En' & Hwf & _ & _ & HM). rewrite En in En'. injection En' as <-. exists pr. split; auto. intros st Hst e n He.
  assert (Hef : existential_free pr) by (eapply ex_free; eauto).
  destruct (C08_perfect_model pr Hwf st Hst e n Hef He) as [H1 H2]. split.
  - intros p x. rewrite (H1 p x). apply (HM (result e)).
  - intros M HMs. apply H2. intros p x. rewrite (HMs p x). symmetry. apply (HM M).
Qed.
Print Assumptions C08_source_perfect.

(** so it does not depend on the order of rules, body literals, head atoms, facts and imports. *)
Theorem C08_source_order_independent : forall sp sp', ok_program sp -> ok_program sp' -> same_source sp sp' -> same_source sp' sp ->
  (forall r v, In r (sp_rules sp) -> ~ ex_var r v) ->
  exists pr pr', normalize_program sp = Some pr /\ normalize_program sp' = Some pr' /\
  forall st st' e e' n n', default_strategy (p_rules pr) st -> default_strategy (p_rules pr') st' ->
  execute pr sn_next st n = Finished e -> execute pr' sn_next st' n' = Finished e' ->
  forall p x, result e p x <-> result e' p x.
Proof.
  intros sp sp' Hok Hok' Hs Hs' Hex. assert (Hex' : forall r v, In r (sp_rules sp') -> ~ ex_var r v).
  { intros r v Hr He. destruct Hs' as (HR & _). destruct (HR r Hr) as (r0 & Hr0 & Hsame). apply (Hex r0 v Hr0). eapply ex_var_same; eauto. }
  destruct (C08_source_perfect sp Hok Hex) as (pr & En & H1). destruct (C08_source_perfect sp' Hok' Hex') as (pr' & En' & H2). exists pr, pr'. split; auto. split; auto.
  intros st st' e e' n n' Hst Hst' He He' p x. destruct (H1 st Hst e n He) as [P1 _]. destruct (H2 st' Hst' e' n' He') as [P2 U2]. apply U2.
  intros q y. rewrite (P1 q y). split; apply src_deriv_same; auto.
Qed.
Print Assumptions C08_source_order_independent.

(** ** Conditions of [supported] that validation does not check *)

Definition plus : opkind := KOther (fun l => match l with [a; b] => Some (a + b)%Z | _ => None end).
Definition less : opkind := KOther (fun l => match l with [a; b] => Some (if (a <? b)%Z then true_val else 0%Z) | _ => None end).
Definition inverse : opkind := KOther (fun l => match l with [a] => if (a =? 0)%Z then None else Some (1 / a)%Z | _ => None end).
Definition sum : list Z -> option Z := fun l => Some (fold_right Z.add 0%Z l).
Definition count : list Z -> option Z := fun l => Some (Z.of_nat (length l)).
(** A program with one rule. Predicates q 0, s 2, p 4; variables x 3, y 7. *)
Definition one (r : srule) (fs : list (tag * list Z)) : sprogram :=
  mkSprogram [r] (map (fun f => (fst f, map TConst (snd f))) fs) [] [(0, 1); (2, 1); (4, 1)] [].
(** Its execution with the default strategy stops with such facts, or panics. *)
Definition evaluates (sp : sprogram) (Q : (tag -> row -> Prop) -> Prop) : Prop := exists pr st n,
  normalize_program sp = Some pr /\ default_strategy (p_rules pr) st /\
  match execute pr sn_next st n with Finished e => Q (result e) | _ => False end.
Definition panics (sp : sprogram) : Prop := exists pr st n,
  normalize_program sp = Some pr /\ default_strategy (p_rules pr) st /\ execute pr sn_next st n = Panicked.

Ltac evaluate1 n := eexists; eexists; exists n; split; [vm_compute; reflexivity|]; split; [apply one_default; [vm_compute; reflexivity|vm_compute; reflexivity]|].

(** [su_ops]: p(?x) :- q(?x), ?x < ?y.  is accepted, and the comparison is ignored. *)
Definition unsafe_comparison : srule := mkSrule [(4, [TVar 3])] [LPos 0 [TVar 3]; LOp less [TVar 3; TVar 7]].
Theorem C13_unsafe_comparison_refuted : validate unsafe_comparison = true /\ well_named unsafe_comparison /\ ~ supported unsafe_comparison /\
  evaluates (one unsafe_comparison [(0, [1%Z])]) (fun M => M 4 [1%Z]).
Proof.
  split; [vm_compute; reflexivity|]. split; [apply namedb_ok; vm_compute; reflexivity|]. split.
  - apply (not_supported_ops _ [3] less [TVar 3; TVar 7] 7); [vm_compute; reflexivity|simpl; auto|simpl; auto|reflexivity|]. intros p ts Hp. simpl in Hp. intuition discriminate.
  - evaluate1 4. vm_compute. eexists. split; [reflexivity|]. simpl. auto.
Qed.
Print Assumptions C13_unsafe_comparison_refuted.

(** [su_neg]: p(?x) :- q(?x), ~s(?y).  is accepted, and the negated atom is ignored. *)
Definition unsafe_negation : srule := mkSrule [(4, [TVar 3])] [LPos 0 [TVar 3]; LNeg 2 [TVar 7]].
Theorem C13_unsafe_negation_refuted : validate unsafe_negation = true /\ well_named unsafe_negation /\ ~ supported unsafe_negation /\
  evaluates (one unsafe_negation [(0, [1%Z]); (2, [5%Z])]) (fun M => M 4 [1%Z]).
Proof.
  split; [vm_compute; reflexivity|]. split; [apply namedb_ok; vm_compute; reflexivity|]. split.
  - intros H. destruct (su_neg _ H 2 [TVar 7]) as (t & [<-|[]] & Hs); [simpl; auto|]. destruct (safe_variables_spec unsafe_negation) as (l & El & Hl). vm_compute in El. injection El as <-. apply Hl in Hs. destruct Hs as [Hs|[]]. discriminate.
  - evaluate1 4. vm_compute. eexists. split; [reflexivity|]. simpl. auto.
Qed.
Print Assumptions C13_unsafe_negation_refuted.

(** [su_ex]: p(!v + 1) :- q(?x).  is accepted, and execution panics. *)
Definition existential_operation : srule := mkSrule [(4, [TOp plus [TEx 7; TConst 1]])] [LPos 0 [TVar 3]].
Theorem C13_existential_operation_refuted : validate existential_operation = true /\ well_named existential_operation /\ ~ supported existential_operation /\
  panics (one existential_operation [(0, [1%Z])]).
Proof.
  split; [vm_compute; reflexivity|]. split; [apply namedb_ok; vm_compute; reflexivity|]. split.
  - intros H. assert (E := su_ex _ H 4 [TOp plus [TEx 7; TConst 1]] plus [TEx 7; TConst 1]). simpl in E. discriminate E; auto.
  - evaluate1 4. vm_compute. reflexivity.
Qed.
Print Assumptions C13_existential_operation_refuted.

(** [su_agg]: s( #sum(?x) ), p( #count(?x) ) :- q(?x).  is accepted, and execution panics. *)
Definition two_aggregates : srule := mkSrule [(2, [TAgg sum (TVar 3) []]); (4, [TAgg count (TVar 3) []])] [LPos 0 [TVar 3]].
Theorem C13_two_aggregates_refuted : validate two_aggregates = true /\ well_named two_aggregates /\ ~ supported two_aggregates /\
  panics (one two_aggregates [(0, [1%Z])]).
Proof.
  split; [vm_compute; reflexivity|]. split; [apply namedb_ok; vm_compute; reflexivity|]. split.
  - intros H. assert (E : 0 = 1); [|discriminate]. eapply (su_agg _ H 0 1); [reflexivity|reflexivity| |]; eexists; (split; [left; reflexivity|]); do 3 eexists; constructor.
  - evaluate1 4. vm_compute. reflexivity.
Qed.
Print Assumptions C13_two_aggregates_refuted.

(** [su_group]: p(?x + #sum(?x)) :- q(?x).  is accepted, although p(?x, #sum(?x)) is not: the input of the
    aggregate is a grouped variable. *)
Definition grouped_input : srule := mkSrule [(4, [TOp plus [TVar 3; TAgg sum (TVar 3) []]])] [LPos 0 [TVar 3]].
Theorem C13_grouped_input_refuted : validate grouped_input = true /\ well_named grouped_input /\ ~ supported grouped_input /\
  validate (mkSrule [(4, [TVar 3; TAgg sum (TVar 3) []])] [LPos 0 [TVar 3]]) = false /\
  exists nr a k, normalize grouped_input = Some nr /\ r_agg nr = Some (a, k) /\ In (ag_in a) (ag_group a).
Proof.
  split; [vm_compute; reflexivity|]. split; [apply namedb_ok; vm_compute; reflexivity|]. split; [|split].
  - intros H. eapply (su_group _ H 4 _ (TOp plus [TVar 3; TAgg sum (TVar 3) []]) sum 3 []); [left; reflexivity|left; reflexivity| |left; reflexivity]. eapply agg_sub; [right; left; reflexivity|constructor].
  - vm_compute. reflexivity.
  - eexists. eexists. eexists. split; [vm_compute; reflexivity|]. split; [reflexivity|]. vm_compute. auto.
Qed.
Print Assumptions C13_grouped_input_refuted.

(** An undefined operation in one head atom removes the other head atoms, too: p(?x), s(1 / ?x) :- q(?x). *)
Definition undefined_head : srule := mkSrule [(4, [TVar 3]); (2, [TOp inverse [TVar 3]])] [LPos 0 [TVar 3]].
Theorem C13_undefined_head_refuted : validate undefined_head = true /\ well_named undefined_head /\ supported undefined_head /\
  evaluates (one undefined_head [(0, [0%Z]); (0, [1%Z])]) (fun M => M 0 [0%Z] /\ M 4 [1%Z] /\ ~ M 4 [0%Z]).
Proof.
  split; [vm_compute; reflexivity|]. split; [apply namedb_ok; vm_compute; reflexivity|]. split; [apply supportedb_ok; vm_compute; reflexivity|].
  evaluate1 4. vm_compute. split; [|split]; try (eexists; split; [reflexivity|]; simpl; auto; fail).
  intros (rows & E & H). injection E as <-. simpl in H. intuition discriminate.
Qed.
Print Assumptions C13_undefined_head_refuted.

(** ** Non-vacuity *)

(** edge 0, path 2, node 4, far 6, deg 8, on_cycle 10; x 3, y 7, z 11, w 15
    path(?x, ?y) :- edge(?x, ?y).   path(?x, ?z) :- path(?x, ?y), edge(?y, ?z).
    far(?x, ?w + 1) :- path(?x, ?y), ?w = ?x + ?y, ?x < ?y, ~edge(?x, ?y), ~node(?y, ?z, _), ?z < 2.
    deg(?x, #count(?y) + 10) :- path(?x, ?y), edge(?x, _).
    on_cycle(?x) :- path(?x, ?x), edge(?x, 2). *)
Definition demo_source : sprogram := mkSprogram
  [mkSrule [(2, [TVar 3; TVar 7])] [LPos 0 [TVar 3; TVar 7]];
   mkSrule [(2, [TVar 3; TVar 11])] [LPos 2 [TVar 3; TVar 7]; LPos 0 [TVar 7; TVar 11]];
   mkSrule [(6, [TVar 3; TOp plus [TVar 15; TConst 1]])]
     [LPos 2 [TVar 3; TVar 7]; LOp KEqual [TVar 15; TOp plus [TVar 3; TVar 7]]; LOp less [TVar 3; TVar 7];
      LNeg 0 [TVar 3; TVar 7]; LNeg 4 [TVar 7; TVar 11; TAnon]; LOp less [TVar 11; TConst 2]];
   mkSrule [(8, [TVar 3; TOp plus [TAgg count (TVar 7) []; TConst 10]])] [LPos 2 [TVar 3; TVar 7]; LPos 0 [TVar 3; TAnon]];
   mkSrule [(10, [TVar 3])] [LPos 2 [TVar 3; TVar 3]; LPos 0 [TVar 3; TConst 2]]]
  [(0, [TConst 1; TConst 2]); (0, [TConst 2; TOp plus [TConst 1; TConst 2]]); (0, [TConst 3; TConst 1]);
   (4, [TConst 3; TConst 5; TConst 0]); (4, [TConst 1; TConst 0; TConst 0])]
  [(0, [[3; 4]%Z])] [(0, 2); (2, 2); (4, 3); (6, 2); (8, 2); (10, 1)] [6; 8; 10].

Example demo_source_ok : ok_program demo_source /\ forall r v, In r (sp_rules demo_source) -> ~ ex_var r v.
Proof.
  assert (Hall : forall (P : srule -> bool) (Q : srule -> Prop), (forall r, P r = true -> Q r) -> forallb P (sp_rules demo_source) = true -> forall r, In r (sp_rules demo_source) -> Q r).
  { intros P Q H HP r Hr. apply H. rewrite forallb_forall in HP. auto. }
  split; [constructor|].
  - apply (Hall validate); [auto|vm_compute; reflexivity].
  - apply (Hall namedb); [apply namedb_ok|vm_compute; reflexivity].
  - apply (Hall supportedb); [apply supportedb_ok|vm_compute; reflexivity].
  - intros r Hr p ts t f s ds Hp Ht Ha l l' HP. apply aggregates_list in Ha.
    assert (Ef : f = count). { simpl in Hr. repeat (destruct Hr as [<-|Hr]; [simpl in Hp; destruct Hp as [Hp|[]]; injection Hp as <- <-; simpl in Ht; repeat (destruct Ht as [<-|Ht]; [simpl in Ha; intuition congruence|]); destruct Ht|]). destruct Hr. }
    subst f. unfold count. now rewrite (Permutation_length HP).
  - intros p ts t Hp Ht. assert (H : forallb (fun f => forallb ground (snd f)) (sp_facts demo_source) = true) by reflexivity. rewrite forallb_forall in H. specialize (H _ Hp). rewrite forallb_forall in H. auto.
  - intros r Hr. assert (H : forallb (fun r => forallb (fun l => match l with LPos p _ | LNeg p _ => Nat.even p | _ => true end) (s_body r) && forallb (fun a => Nat.even (fst a)) (s_head r)) (sp_rules demo_source) = true) by reflexivity.
    rewrite forallb_forall in H. specialize (H r Hr). apply andb_true_iff in H. destruct H as [H1 H2]. rewrite forallb_forall in H1, H2. split.
    + intros p ts [Hl|Hl]; apply even_user; exact (H1 _ Hl).
    + intros p ts Hp. apply even_user. exact (H2 _ Hp).
  - intros p H. apply even_user. simpl in H. destruct H as [(ts & H)|(rows & H)]; repeat (destruct H as [H|H]; [injection H as <- _; reflexivity|]); destruct H.
  - intros r v Hr (p & ts & Hp & Ht). simpl in Hr. repeat (destruct Hr as [<-|Hr]; [simpl in Hp; destruct Hp as [Hp|[]]; injection Hp as <- <-; simpl in Ht; intuition discriminate|]). destruct Hr.
Qed.

Example demo_source_runs : evaluates demo_source (fun M => M 6 [1; 5]%Z /\ M 6 [2; 7]%Z /\ ~ M 6 [3; 8]%Z /\ M 8 [1; 14]%Z /\ M 10 [1%Z] /\ ~ M 10 [2%Z]).
Proof.
  assert (Hev : exists pr st e, normalize_program demo_source = Some pr /\
    sn_new (map (fun i => [i]) (seq 0 5)) (fun k => match k with 0 => map (fun i => [i]) (seq 0 4) | _ => [[0]] end) (p_rules pr) = Some (Some st) /\
    execute pr sn_next st 20 = Finished e /\ map (predicate_rows e) [6; 8; 10] =
      [Some [[1; 5]; [2; 7]; [1; 6]]%Z; Some [[1; 14]; [2; 14]; [3; 14]]%Z; Some [[1]]%Z]).
  { eexists. eexists. eexists. split; [vm_compute; reflexivity|]. split; [vm_compute; reflexivity|]. split; vm_compute; reflexivity. }
  destruct Hev as (pr & st & e & En & Est & Ee & Er). injection Er as R6 R8 R10. exists pr, st, 20. split; auto. rewrite Ee. split.
  - exists (map (fun i => [i]) (seq 0 5)), (fun k => match k with 0 => map (fun i => [i]) (seq 0 4) | _ => [[0]] end). vm_compute in En. injection En as <-. split; [apply (singletons_ok 5); vm_compute; reflexivity|]. split; auto.
    intros strata k g rs Hs Hk Hr. vm_compute in Hs. injection Hs as <-. destruct k as [|[|k]]; simpl in Hk; [injection Hk as <-|injection Hk as <-|destruct k; discriminate]; vm_compute in Hr; injection Hr as <-.
    + apply (singletons_ok 4). vm_compute. reflexivity.
    + apply (singletons_ok 1). vm_compute. reflexivity.
  - unfold result. rewrite R6, R8, R10. repeat split; try (eexists; split; [reflexivity|]; simpl; auto; fail); intros (rows & E & H); injection E as <-; simpl in H; intuition discriminate.
Qed.
