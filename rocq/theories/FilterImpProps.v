(** C43: pushing rules into imports. *)
From Coq Require Import List Arith ZArith Bool Lia Permutation.
From Verif Require Import TableModel EngineModel EngineSpec NormModel NormSpec NormProofs1 NormProofs7 FilterImpModel FilterImpSpec FilterImpProofs5 FilterImpProofs6.
Import ListNotations.

(** If the pushed rules are harmless, the transformation does not panic, reading the changed imports does not panic,
    nothing new is derived, and the predicates that can be observed have the same facts: relative to every
    interpretation of negation and aggregates, and in every perfect model. *)
Theorem C43_same_facts_partial : forall P sp, source P = Some sp -> ok_program sp -> (forall i, In i (f_imports P) -> harmless P i) ->
  exists P' sp', filter_imports P = Some P' /\ source P' = Some sp' /\
    (forall M p x, src_deriv sp' M p x -> src_deriv sp M p x) /\
    (forall M p x, observable P p -> (src_deriv sp M p x <-> src_deriv sp' M p x)) /\
    (forall M, src_perfect sp M -> exists M', src_perfect sp' M' /\ forall p x, observable P p -> (M p x <-> M' p x)) /\
    (forall M', src_perfect sp' M' -> exists M, src_perfect sp M /\ forall p x, observable P p -> (M p x <-> M' p x)).
Proof. exact transformed. Qed.
Print Assumptions C43_same_facts_partial.

(** Columns count as used if they have a constant, or a variable of the head or of an equation. Variables of other
    conditions do not count (see below). *)
Theorem C43_used_columns : forall r n t, validate r = true -> nth_error (body0 r) n = Some t ->
  (nth_error (used_columns r) n = Some true <-> (exists c, t = TConst c) \/ exists v, t = TVar v /\ relevant r v).
Proof. exact used_columns_spec. Qed.
Print Assumptions C43_used_columns.
(** A rule is dropped if head and body atom consist of variables, which agree as far as there are both head terms
    and used columns; conditions do not matter (see below). *)
Theorem C43_dropped_rules : forall r p bts rest, s_body r = LPos p bts :: rest -> body_positive r = [(p, bts)] ->
  exists b, obsolete (used_columns r) r = Some b /\
  (b = true <-> (forall t, In t (snd (head0 r) ++ bts) -> is_variable t = true) /\
     forall i t u, nth_error (snd (head0 r)) i = Some t -> nth_error (kept (used_columns r) bts) i = Some u ->
       t = u \/ exists v, In v (var_name t) /\ In v (var_name u)).
Proof. exact obsolete_spec. Qed.
Print Assumptions C43_dropped_rules.

(** ** Failures *)

Definition fplus : opkind := KOther (fun l => match l with [a; b] => Some (a + b)%Z | _ => None end).
Definition fless : opkind := KOther (fun l => match l with [a; b] => Some (if (a <? b)%Z then true_val else 0%Z) | _ => None end).
Definition finverse : opkind := KOther (fun l => match l with [a] => if (a =? 0)%Z then None else Some (1 / a)%Z | _ => None end).
Definition int : fmt := FParse (fun z => Some z).
Definition positive : fmt := FParse (fun z => if (0 <? z)%Z then Some z else None).
Definition csv (p : tag) (fs : list fmt) (recs : list (list Z)) : import := mkImport p true fs recs [].
Definition other (p : tag) (fs : list fmt) (recs : list (list Z)) : import := mkImport p false fs recs [].
(** Predicates r 0, p 2, q 4; variables x 3, y 7, z 11; q is exported. *)
Definition prog (rs : list srule) (is : list import) : fprogram := mkFprogram rs [] is [] [4].

Ltac setup P t t' := exists (mkSprogram (f_rules P) [] t [] [4]), (mkSprogram [] [] t' [] [4]); split; [split; [vm_compute; reflexivity|split; [apply okb_ok; vm_compute; reflexivity|eexists; split; vm_compute; reflexivity]]|split; [left; simpl; auto|intros M]].
Ltac crash := eexists; split; [vm_compute; reflexivity|]; split; [apply okb_ok; vm_compute; reflexivity|].
Lemma only_imports sp M p x : sp_rules sp = [] -> sp_facts sp = [] -> src_deriv sp M p x -> exists rows, In (p, rows) (sp_imports sp) /\ In x rows.
Proof. intros Hr Hf H. inversion H as [? ? (ts & H1 & _)|? rows ? H1 H2|? ? ? ? ? ? ? H1|? ? ? ? H1]; subst; [rewrite Hf in H1; destruct H1|eauto|rewrite Hr in H1; destruct H1|rewrite Hr in H1; destruct H1]. Qed.
Ltac absent := let H := fresh in intros H; apply only_imports in H; [|reflexivity|reflexivity]; destruct H as (rows & H1 & H2); simpl in H1; intuition; repeat (match goal with H : (_, _) = (_, _) |- _ => injection H as <- end); simpl in *; intuition discriminate.
Ltac over p H := eapply (rules_only _ _ _ _ _ _ p) in H; [|vm_compute; reflexivity|vm_compute; reflexivity|vm_compute; reflexivity];
  destruct H as (r & bts & ts & nu & rows & row & Hr & Er & Eh & Hrows & Hrow & HF & Hi & Hops); simpl in Hr; repeat (destruct Hr as [<-|Hr]); try destruct Hr; unfold body_positive in Er; simpl in Er; simpl in Eh; injection Er as <-; injection Eh as <-.
Ltac in_rows Hrows Hrow := simpl in Hrows; repeat (destruct Hrows as [Hrows|Hrows]); try contradiction; try discriminate; injection Hrows as <-; simpl in Hrow; repeat (destruct Hrow as [Hrow|Hrow]); try contradiction; try discriminate; injection Hrow; intros; try congruence.
Ltac values := repeat (match goal with
  | H : Forall2 _ [] _ |- _ => inversion H; clear H; subst
  | H : Forall2 _ (_ :: _) _ |- _ => inversion H; clear H; subst
  | H : instance _ _ _ _ |- _ => unfold instance in H
  | H : tmatch _ _ _ |- _ => destruct H as [H|H]; [discriminate|]; simpl in H; injection H as H; subst
  | H : eval _ _ _ = Some _ |- _ => simpl in H; injection H as H; subst
  end).
Ltac safe_here := split; [simpl; auto|]; let v := fresh in let H := fresh in intros v H; simpl in H; repeat (destruct H as [<-|H]); try destruct H; eapply safe_pos; [simpl; left; reflexivity|unfold among; simpl; auto].
Ltac derived r nu fs := eapply (fireb_ok _ _ r nu fs);
  [simpl; auto|let q := fresh in let y := fresh in let E := fresh in intros q y [E|[]]; injection E as <- <-; eapply sd_import; simpl; auto; simpl; auto|vm_compute; reflexivity|simpl; left; reflexivity|vm_compute; reflexivity].
Ltac present := eapply sd_import; [simpl; auto|simpl; auto].

(** q(?x) :- p(?x, ?y), 5 < ?y.   over a CSV file: the rule is considered a projection to the first column and
    dropped with its condition. *)
Definition condition : fprogram :=
  prog [mkSrule [(4, [TVar 3])] [LPos 2 [TVar 3; TVar 7]; LOp fless [TConst 5; TVar 7]]] [csv 2 [int; int] [[1; 2]; [3; 9]]%Z].
Theorem C43_condition_refuted : invents condition 4 [1%Z].
Proof.
  setup condition [(2, [[1; 2]; [3; 9]]%Z)] [(4, [[1]; [3]]%Z)]. split; [|present]. intros H. over 2 H. values.
  assert (E : nu 7 = 2%Z) by (in_rows Hrows Hrow). assert (Hs : eval nu None (TOp fless [TConst 5; TVar 7]) = Some true_val) by (apply Hops; safe_here). simpl in Hs. rewrite E in Hs. discriminate.
Qed.
Print Assumptions C43_condition_refuted.

(** The same rule twice, with different conditions: a rule that is no longer there is removed.
    q(?x) :- p(?x, ?y), 5 < ?y.   q(?x) :- p(?x, ?y), ?y < 3. *)
Definition two_conditions : fprogram :=
  prog [mkSrule [(4, [TVar 3])] [LPos 2 [TVar 3; TVar 7]; LOp fless [TConst 5; TVar 7]];
        mkSrule [(4, [TVar 3])] [LPos 2 [TVar 3; TVar 7]; LOp fless [TVar 7; TConst 3]]] [csv 2 [int; int] [[1; 2]; [3; 9]]%Z].
Theorem C43_removed_twice_refuted : panics_on two_conditions.
Proof. crash. left. vm_compute. reflexivity. Qed.
Print Assumptions C43_removed_twice_refuted.

(** q(?x) :- p(?x, ?y).   q(?y) :- p(?x, ?y).   Each row is only given to the first rule that applies. *)
Definition first_rule : fprogram :=
  prog [mkSrule [(4, [TVar 3])] [LPos 2 [TVar 3; TVar 7]]; mkSrule [(4, [TVar 7])] [LPos 2 [TVar 3; TVar 7]]] [other 2 [int; int] [[1; 2]]%Z].
Theorem C43_first_rule_refuted : loses first_rule 4 [2%Z].
Proof.
  setup first_rule [(2, [[1; 2]]%Z)] [(4, [[1]]%Z)]. split; [|absent].
  derived (mkSrule [(4, [TVar 7])] [LPos 2 [TVar 3; TVar 7]]) (fun v => if v =? 3 then 1%Z else 2%Z) [(2, [1; 2]%Z)].
Qed.
Print Assumptions C43_first_rule_refuted.

(** The same rules over a CSV file: the second column is skipped because of the first rule. *)
Definition skipped_column : fprogram :=
  prog [mkSrule [(4, [TVar 3])] [LPos 2 [TVar 3; TVar 7]]; mkSrule [(4, [TVar 7])] [LPos 2 [TVar 3; TVar 7]]] [csv 2 [int; int] [[1; 2]]%Z].
Theorem C43_skipped_column_refuted : panics_on skipped_column.
Proof. crash. right. eexists. split; vm_compute; reflexivity. Qed.
Print Assumptions C43_skipped_column_refuted.

(** q(?x), q(?y) :- p(?x, ?y).   Only the first head atom counts. *)
Definition two_heads : fprogram :=
  prog [mkSrule [(4, [TVar 3]); (4, [TVar 7])] [LPos 2 [TVar 3; TVar 7]]] [other 2 [int; int] [[1; 2]]%Z].
Theorem C43_two_heads_refuted : loses two_heads 4 [2%Z].
Proof.
  setup two_heads [(2, [[1; 2]]%Z)] [(4, [[1]]%Z)]. split; [|absent].
  eapply (fireb_ok _ M (mkSrule [(4, [TVar 3]); (4, [TVar 7])] [LPos 2 [TVar 3; TVar 7]]) (fun v => if v =? 3 then 1%Z else 2%Z) [(2, [1; 2]%Z)]);
    [simpl; auto|intros q y [E|[]]; injection E as <- <-; present|vm_compute; reflexivity|simpl; right; left; reflexivity|vm_compute; reflexivity].
Qed.
Print Assumptions C43_two_heads_refuted.

(** Two imports, p(?x) :- r(?x) and q(?x) :- p(?x): the facts of r do not become facts of q. *)
Definition chain : fprogram :=
  prog [mkSrule [(2, [TVar 3])] [LPos 0 [TVar 3]]; mkSrule [(4, [TVar 3])] [LPos 2 [TVar 3]]] [csv 0 [int] [[1]]%Z; csv 2 [int] [[2]]%Z].
Theorem C43_chain_refuted : loses chain 4 [1%Z].
Proof.
  setup chain [(0, [[1]]%Z); (2, [[2]]%Z)] [(2, [[1]]%Z); (4, [[2]]%Z)]. split; [|absent].
  eapply (fireb_ok _ M (mkSrule [(4, [TVar 3])] [LPos 2 [TVar 3]]) (fun v => 1%Z) [(2, [1]%Z)]);
    [simpl; auto| |vm_compute; reflexivity|simpl; left; reflexivity|vm_compute; reflexivity].
  intros q y [E|[]]; injection E as <- <-. derived (mkSrule [(2, [TVar 3])] [LPos 0 [TVar 3]]) (fun v : var => 1%Z) [(0, [1]%Z)].
Qed.
Print Assumptions C43_chain_refuted.

(** q(?x, ?x) :- p(?x, ?y).   over a CSV file: the comparison with a projection stops early, and q becomes unary. *)
Definition repeated_head : fprogram :=
  prog [mkSrule [(4, [TVar 3; TVar 3])] [LPos 2 [TVar 3; TVar 7]]] [csv 2 [int; int] [[1; 2]]%Z].
Theorem C43_repeated_head_refuted : loses repeated_head 4 [1; 1]%Z.
Proof.
  setup repeated_head [(2, [[1; 2]]%Z)] [(4, [[1]]%Z)]. split; [|absent].
  derived (mkSrule [(4, [TVar 3; TVar 3])] [LPos 2 [TVar 3; TVar 7]]) (fun v => if v =? 3 then 1%Z else 2%Z) [(2, [1; 2]%Z)].
Qed.
Print Assumptions C43_repeated_head_refuted.

(** q(?x, ?x) :- p(?x, ?x, ?y).   over a CSV file: the equality is dropped. *)
Definition repeated_body : fprogram :=
  prog [mkSrule [(4, [TVar 3; TVar 3])] [LPos 2 [TVar 3; TVar 3; TVar 7]]] [csv 2 [int; int; int] [[1; 2; 3]]%Z].
Theorem C43_repeated_body_refuted : invents repeated_body 4 [1; 2]%Z.
Proof. setup repeated_body [(2, [[1; 2; 3]]%Z)] [(4, [[1; 2]]%Z)]. split; [|present]. intros H. over 2 H. values. in_rows Hrows Hrow. Qed.
Print Assumptions C43_repeated_body_refuted.

(** q(?x) :- p(?x, ?y).   over a CSV file with a second column that cannot be parsed: the record is no longer
    ignored. *)
Definition unparsable : fprogram :=
  prog [mkSrule [(4, [TVar 3])] [LPos 2 [TVar 3; TVar 7]]] [csv 2 [int; positive] [[1; -2]; [3; 4]]%Z].
Theorem C43_unparsable_refuted : invents unparsable 4 [1%Z].
Proof. setup unparsable [(2, [[3; 4]]%Z)] [(4, [[1]; [3]]%Z)]. split; [|present]. intros H. over 2 H. values. in_rows Hrows Hrow. Qed.
Print Assumptions C43_unparsable_refuted.

(** q(?z) :- p(?x), ?z = ?x + 1, 5 < ?z.   Conditions on computed values panic. *)
Definition computed_condition : fprogram :=
  prog [mkSrule [(4, [TVar 11])] [LPos 2 [TVar 3]; LOp KEqual [TVar 11; TOp fplus [TVar 3; TConst 1]]; LOp fless [TConst 5; TVar 11]]] [csv 2 [int] [[1]]%Z].
Theorem C43_computed_condition_refuted : panics_on computed_condition.
Proof. crash. right. eexists. split; vm_compute; reflexivity. Qed.
Print Assumptions C43_computed_condition_refuted.

(** q(?x) :- p(?x, ?y), ?z = 1 / ?y.   A value that is undefined but not used no longer removes the match. *)
Definition undefined_value : fprogram :=
  prog [mkSrule [(4, [TVar 3])] [LPos 2 [TVar 3; TVar 7]; LOp KEqual [TVar 11; TOp finverse [TVar 7]]]] [csv 2 [int; int] [[1; 0]]%Z].
Theorem C43_undefined_value_refuted : invents undefined_value 4 [1%Z].
Proof.
  setup undefined_value [(2, [[1; 0]]%Z)] [(4, [[1]]%Z)]. split; [|present]. intros H. over 2 H. values.
  assert (E : nu 7 = 0%Z) by (in_rows Hrows Hrow).
  assert (Hs : eval nu None (TOp KEqual [TVar 11; TOp finverse [TVar 7]]) = Some true_val).
  { apply Hops. split; [simpl; auto|]. assert (S7 : safe (mkSrule [(4, [TVar 3])] [LPos 2 [TVar 3; TVar 7]; LOp KEqual [TVar 11; TOp finverse [TVar 7]]]) 7) by (eapply safe_pos; [simpl; left; reflexivity|unfold among; simpl; auto]).
    intros v Hv. simpl in Hv. destruct Hv as [<-|[<-|[]]]; auto. eapply safe_eq; [simpl; right; left; reflexivity|left; reflexivity|reflexivity|reflexivity|]. intros w [<-|[]]. exact S7. }
  simpl in Hs. rewrite E in Hs. discriminate.
Qed.
Print Assumptions C43_undefined_value_refuted.

(** q(?y, ?x) :- p(?x, ?y).   for an import with format (skip, int, int): the columns are numbered wrongly. *)
Definition user_skip : fprogram :=
  prog [mkSrule [(4, [TVar 7; TVar 3])] [LPos 2 [TVar 3; TVar 7]]] [csv 2 [FSkip; int; int] [[0; 1; 2]]%Z].
Theorem C43_user_skip_refuted : loses user_skip 4 [2; 1]%Z /\ invents user_skip 4 [1; 1]%Z.
Proof.
  split.
  - setup user_skip [(2, [[1; 2]]%Z)] [(4, [[1; 1]]%Z)]. split; [|absent].
    derived (mkSrule [(4, [TVar 7; TVar 3])] [LPos 2 [TVar 3; TVar 7]]) (fun v => if v =? 3 then 1%Z else 2%Z) [(2, [1; 2]%Z)].
  - setup user_skip [(2, [[1; 2]]%Z)] [(4, [[1; 1]]%Z)]. split; [|present]. intros H. over 2 H. values. in_rows Hrows Hrow.
Qed.
Print Assumptions C43_user_skip_refuted.
(** q(?x) :- p(?x, ?y).   for the same import *)
Definition user_skip_projection : fprogram :=
  prog [mkSrule [(4, [TVar 3])] [LPos 2 [TVar 3; TVar 7]]] [csv 2 [FSkip; int; int] [[0; 1; 2]]%Z].
Theorem C43_user_skip_projection_refuted : panics_on user_skip_projection.
Proof. crash. left. vm_compute. reflexivity. Qed.
Print Assumptions C43_user_skip_projection_refuted.

(** q(?y, 1 / ?x) :- p(?x, ?y).   q(?x, ?y) :- p(?x, ?y).   A rule that fails has already changed the row. *)
Definition changed_row : fprogram :=
  prog [mkSrule [(4, [TVar 7; TOp finverse [TVar 3]])] [LPos 2 [TVar 3; TVar 7]]; mkSrule [(4, [TVar 3; TVar 7])] [LPos 2 [TVar 3; TVar 7]]] [csv 2 [int; int] [[0; 5]]%Z].
Theorem C43_changed_row_refuted : loses changed_row 4 [0; 5]%Z.
Proof.
  setup changed_row [(2, [[0; 5]]%Z)] [(4, [[5; 5]]%Z)]. split; [|absent].
  derived (mkSrule [(4, [TVar 3; TVar 7])] [LPos 2 [TVar 3; TVar 7]]) (fun v => if v =? 3 then 0%Z else 5%Z) [(2, [0; 5]%Z)].
Qed.
Print Assumptions C43_changed_row_refuted.

(** q(#sum(?x) + 1) :- p(?x).   Only aggregates that are not part of a larger term are recognized. *)
Definition fsum : list Z -> option Z := fun l => Some (fold_right Z.add 0%Z l).
Definition nested_aggregate : fprogram :=
  prog [mkSrule [(4, [TOp fplus [TAgg fsum (TVar 3) []; TConst 1]])] [LPos 2 [TVar 3]]] [csv 2 [int] [[1]; [2]]%Z].
Theorem C43_nested_aggregate_refuted : panics_on nested_aggregate.
Proof.
  exists (mkSprogram (f_rules nested_aggregate) [] [(2, [[1]; [2]]%Z)] [] [4]). split; [vm_compute; reflexivity|]. split; [|right; eexists; split; vm_compute; reflexivity].
  constructor; simpl.
  - intros r [<-|[]]. vm_compute. reflexivity.
  - intros r [<-|[]]. apply namedb_ok. vm_compute. reflexivity.
  - intros r [<-|[]]. apply supportedb_ok. vm_compute. reflexivity.
  - intros r [<-|[]] p ts t f s ds Hp Ht Ha l l' HP. destruct Hp as [Hp|[]]. injection Hp as <- <-. destruct Ht as [<-|[]]. apply aggregates_list in Ha. simpl in Ha. destruct Ha as [Ha|[]]. injection Ha as <- <- <-.
    unfold fsum. f_equal. induction HP; simpl; lia.
  - intros p ts t [].
  - intros r [<-|[]]. split; [intros p ts [[H|[]]|[H|[]]]; [injection H as <- <-; now apply fi_even_user|discriminate]|]. intros p ts [H|[]]. injection H as <- <-. now apply fi_even_user.
  - intros p [(ts & [])|(rows & [H|[]])]. injection H as <- <-. now apply fi_even_user.
Qed.
Print Assumptions C43_nested_aggregate_refuted.

(** ** Non-vacuity: q(?y, ?x + 1) :- p(?x, ?y, ?z), ?y < ?x.   t(?x) :- r(?x, ?y).   s(?x) :- q(?x, ?y), t(?y), ~t(?x).
    over two CSV files; t 6, s 8 *)
Definition demo_rule1 : srule :=
  mkSrule [(4, [TVar 7; TOp fplus [TVar 3; TConst 1]])] [LPos 2 [TVar 3; TVar 7; TVar 11]; LOp fless [TVar 7; TVar 3]].
Definition demo_rule2 : srule := mkSrule [(6, [TVar 3])] [LPos 0 [TVar 3; TVar 7]].
Definition demo_rule3 : srule := mkSrule [(8, [TVar 3])] [LPos 4 [TVar 3; TVar 7]; LPos 6 [TVar 7]; LNeg 6 [TVar 3]].
Definition demo_import1 : import := csv 2 [int; positive; int] [[5; 2; 0]; [5; -1; 0]; [1; 2; 3]; [7; 4; 4]]%Z.
Definition demo_import2 : import := csv 0 [int; int] [[6; 0]; [2; 1]]%Z.
Definition demo_filter : fprogram := mkFprogram [demo_rule1; demo_rule2; demo_rule3] [] [demo_import1; demo_import2] [] [8].
Definition demo_result : sprogram := mkSprogram [demo_rule3] [] [(4, [[2; 6]; [4; 8]]%Z); (6, [[6]; [2]]%Z)] [] [8].

Lemma demo_rules p r : In r (import_rules demo_filter p) -> (p = 2 /\ r = demo_rule1) \/ (p = 0 /\ r = demo_rule2).
Proof.
  intros H. apply import_rules_in in H. destruct H as [H E]. simpl in H. destruct H as [<-|[<-|[<-|[]]]]; vm_compute in E; [injection E as <-; auto|injection E as <-; auto|discriminate].
Qed.
Example demo_harmless : exists sp, source demo_filter = Some sp /\ ok_program sp /\ (forall i, In i (f_imports demo_filter) -> harmless demo_filter i).
Proof.
  exists (mkSprogram [demo_rule1; demo_rule2; demo_rule3] [] [(2, [[5; 2; 0]; [1; 2; 3]; [7; 4; 4]]%Z); (0, [[6; 0]; [2; 1]]%Z)] [] [8]).
  split; [vm_compute; reflexivity|]. split; [apply okb_ok; vm_compute; reflexivity|]. intros i [<-|[<-|[]]].
  - constructor.
    + reflexivity.
    + simpl. intuition (subst; reflexivity).
    + intros r Hr. destruct (demo_rules _ _ Hr) as [[_ ->]|[E _]]; [vm_compute; reflexivity|discriminate].
    + intros r Hr. destruct (demo_rules _ _ Hr) as [[_ ->]|[E _]]; [|discriminate]. exists 4. split; [eexists; reflexivity|]. split; [reflexivity|]. eexists. split; [reflexivity|].
      intros (t & Ht & f & s & ds & Ha). apply aggregates_list in Ha. simpl in Ht. destruct Ht as [<-|[<-|[]]]; destruct Ha.
    + intros r Hr. destruct (demo_rules _ _ Hr) as [[_ ->]|[E _]]; [reflexivity|discriminate].
    + intros _ r q ts Hr Hq. simpl in Hr. destruct Hr as [<-|[<-|[<-|[]]]]; destruct Hq as [Hq|[]]; injection Hq as <- <-; discriminate.
    + intros r nr Hr En. destruct (demo_rules _ _ Hr) as [[_ ->]|[E _]]; [|discriminate]. assert (Q : exists e1 e2, nr = mkRule [(4, [HVar 7; HVar (head_var 1)])] [(2, [3; 7; 11])] [] [OFilter e1; OEq (head_var 1) e2] None [] [] /\ e_vars e1 = [7; 3] /\ e_vars e2 = [3]) by (unfold normalize in En; simpl in En; injection En as <-; repeat eexists).
      destruct Q as (e1 & e2 & -> & E1 & E2). constructor; simpl.
      * intros o [<-|[<-|[]]]; [left; simpl; rewrite E1; intros v Hv; simpl in *; intuition|right]. exists (head_var 1), e2. split; auto. split; [intros H; vm_compute in H; intuition discriminate|]. apply nd_head. simpl. auto.
      * intros [|[|i]] [|[|j]] v e e' Hi Hj; simpl in *; try discriminate; auto; try (destruct i; discriminate); destruct j; discriminate.
    + intros r nr Hr En _ _. destruct (demo_rules _ _ Hr) as [[_ ->]|[E _]]; [|discriminate]. assert (Q : exists e1 e2, nr = mkRule [(4, [HVar 7; HVar (head_var 1)])] [(2, [3; 7; 11])] [] [OFilter e1; OEq (head_var 1) e2] None [] [] /\ e_vars e1 = [7; 3] /\ e_vars e2 = [3]) by (unfold normalize in En; simpl in En; injection En as <-; repeat eexists).
      destruct Q as (e1 & e2 & -> & E1 & E2). constructor.
      * intros n Hn. vm_compute in Hn. destruct n as [|[|[|n]]]; try discriminate; [|destruct n; discriminate]. eexists. split; [reflexivity|]. discriminate.
      * intros n v Hn Hv. vm_compute in Hn. destruct n as [|[|[|n]]]; try discriminate; [|destruct n; discriminate]. simpl in Hv. injection Hv as <-. split; [vm_compute; intuition discriminate|].
        intros o [<-|[<-|[]]]; simpl; rewrite ?E1, ?E2; vm_compute; intuition discriminate.
      * left. reflexivity.
  - constructor.
    + reflexivity.
    + simpl. intuition (subst; reflexivity).
    + intros r Hr. destruct (demo_rules _ _ Hr) as [[E _]|[_ ->]]; [discriminate|vm_compute; reflexivity].
    + intros r Hr. destruct (demo_rules _ _ Hr) as [[E _]|[_ ->]]; [discriminate|]. exists 6. split; [eexists; reflexivity|]. split; [reflexivity|]. eexists. split; [reflexivity|].
      intros (t & Ht & f & s & ds & Ha). apply aggregates_list in Ha. simpl in Ht. destruct Ht as [<-|[]]; destruct Ha.
    + intros r Hr. destruct (demo_rules _ _ Hr) as [[E _]|[_ ->]]; [discriminate|reflexivity].
    + intros _ r q ts Hr Hq. simpl in Hr. destruct Hr as [<-|[<-|[<-|[]]]]; destruct Hq as [Hq|[]]; injection Hq as <- <-; discriminate.
    + intros r nr Hr En. destruct (demo_rules _ _ Hr) as [[E _]|[_ ->]]; [discriminate|]. vm_compute in En. injection En as <-. constructor; simpl; [intros o []|]. intros [|i] j v e e' Hi; discriminate.
    + intros r nr Hr En _ _. destruct (demo_rules _ _ Hr) as [[E _]|[_ ->]]; [discriminate|]. vm_compute in En. injection En as <-. constructor.
      * intros n Hn. vm_compute in Hn. destruct n as [|[|n]]; try discriminate; [|destruct n; discriminate]. eexists. split; [reflexivity|]. discriminate.
      * intros n v Hn Hv. vm_compute in Hn. destruct n as [|[|n]]; try discriminate; [|destruct n; discriminate]. simpl in Hv. injection Hv as <-. split; [vm_compute; intuition discriminate|]. intros o [].
      * right. split; [reflexivity|]. split; [reflexivity|]. reflexivity.
Qed.
(** The transformed program and its tables: both rules are pushed, the projection is dropped. *)
Example demo_transformed : exists P', filter_imports demo_filter = Some P' /\ source P' = Some demo_result /\ map (fun i => length (i_rules i)) (f_imports P') = [1; 0].
Proof. eexists. split; [vm_compute; reflexivity|]. split; vm_compute; reflexivity. Qed.
