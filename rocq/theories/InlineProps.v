(** C51: moving imports into the rules that use them does not change the answers. *)
From Coq Require Import String Ascii List Arith Bool Lia.
From Verif Require Import InlineModel InlineSpec InlineProofs1 InlineProofs2 InlineProofs3 InlineProofs4.
Import ListNotations.
Local Open Scope list_scope.
Local Open Scope string_scope.

(** For every way to look up negated atoms in which the inlined predicates are what their queries return, the same facts are
    derived for all other predicates. *)
Theorem C51_same_facts W P N p t : admissible P ->
  (forall q i u, incremental_predicates P q = Some i -> (N q u <-> results W (i_source i) u)) ->
  ~ is_inlined P p -> (derives W P N p t <-> derives W (inline P) N p t).
Proof. intros A HN Hp. now apply inline_derives. Qed.
Print Assumptions C51_same_facts.

(** So a model of the old program is one of the new program, without the facts of the inlined predicates, and the other way
    round. *)
Theorem C51_same_models W P : admissible P ->
  (forall M, stable W P M -> stable W (inline P) (fun p t => M p t /\ incremental_predicates P p = None)) /\
  (forall M, stable W (inline P) M ->
     stable W P (fun p t => match incremental_predicates P p with Some i => results W (i_source i) t | None => M p t end)).
Proof. intros A. split; intros M S; [now apply inline_stable|now apply inline_stable_conv]. Qed.
Print Assumptions C51_same_models.

(** What is exported or given out is not inlined, and neither is a predicate with facts, rules or a second import. *)
Theorem C51_answers_kept P p : is_inlined P p ->
  ~ In (SExport p) P /\ ~ In (SOutput p) P /\ (forall t, ~ In (SFact p t) P) /\
  (forall r a, In (SRule r) P -> In a (r_head r) -> a_pred a <> p) /\
  (exists i, In (SImport i) P /\ i_pred i = p /\ i_endpoint i <> None /\ forall j, In (SImport j) P -> i_pred j = p -> j = i).
Proof.
  unfold is_inlined. intros H. destruct (incremental_predicates P p) as [i|] eqn:E; [clear H|contradiction].
  destruct (inlined_facts P p i E) as (H1 & H2 & H3 & H4 & H5 & H6 & H7 & H8). do 4 (split; auto). exists i. auto.
Qed.
Print Assumptions C51_answers_kept.

(** The facts, exports and outputs are kept, and so are all imports but those of the inlined predicates. *)
Theorem C51_statements_kept P s : (forall r, s <> SRule r) -> (In s (inline P) <-> In s P /\ forall i, s = SImport i -> ~ is_inlined P (i_pred i)).
Proof.
  intros Hs. unfold inline, is_inlined. split.
  - intros H. apply in_inline in H. destruct H as [(r & k & _ & _ & ->)|(H1 & _ & H2)]; [now contradiction (Hs (rewritten_rule (incremental_predicates P) (derived P) r k))|].
    split; [exact H1|]. intros i Hi. rewrite (H2 i Hi). auto.
  - intros (H1 & H2). apply inline_kept; auto.
    + intros r Hr. now contradiction (Hs r).
    + intros i Hi. specialize (H2 i Hi). destruct (incremental_predicates P (i_pred i)); [exfalso; apply H2; discriminate|reflexivity].
Qed.
Print Assumptions C51_statements_kept.

(** An inlined positive atom is always restricted: it has a term that is not a variable, or a variable that has a value before, or
    shares a variable with such an atom of the same predicate. *)
Theorem C51_restricted P r a : In (SRule r) P -> In (LPos a) (r_body r) -> is_inlined P (a_pred a) ->
  (exists t, In t (a_args a) /\ is_variable t = false) \/ joined (is_inlined P) r a.
Proof. apply inlined_restricted. Qed.
Print Assumptions C51_restricted.

(** The names of the new variables are different for different places. *)
Theorem C51_names_differ p q n m : new_variable p n = new_variable q m -> p = q /\ n = m.
Proof. apply new_variable_inj. Qed.
Print Assumptions C51_names_differ.

(** ** Without the conditions *)

Definition no_compute : string -> list nat -> option nat := fun _ _ => None.
Definition V (x : string) := TVar x.

(** A rule that uses the imports of two endpoints is left as it is, but the imports are gone: its answers are lost. *)
Definition two_endpoints : program :=
  [ SImport (mk_import "p" (Some "http://a") 1); SImport (mk_import "q" (Some "http://b") 2); SFact "r" [5];
    SRule (mk_rule [mk_atom "h" [V "x"]] [LPos (mk_atom "r" [V "x"]); LPos (mk_atom "p" [V "x"]); LPos (mk_atom "q" [V "x"])] []);
    SOutput "h" ].

Theorem C51_two_endpoints_refuted : exists W P N p t,
  (forall r, In (SRule r) P -> computed_apart P r /\ names_free r /\ negation_safe r) /\
  (forall q i u, incremental_predicates P q = Some i -> (N q u <-> results W (i_source i) u)) /\
  ~ is_inlined P p /\ derives W P N p t /\ ~ derives W (inline P) N p t.
Proof.
  exists (mk_world no_compute (fun _ t => t = [5])), two_endpoints, (fun _ t => t = [5]), "h", [5].
  split; [|split; [|split; [|split]]].
  - intros r [H|[H|[H|[H|[H|[]]]]]]; try discriminate. injection H as <-. split; [|split].
    + apply single_atoms_apart. intros j k a b Ha Hb E _.
      destruct j as [|[|[|[|j]]]], k as [|[|[|[|k]]]]; auto; destruct Ha as [Ha|Ha], Hb as [Hb|Hb]; cbn in Ha, Hb; try discriminate;
        injection Ha as <-; injection Hb as <-; discriminate.
    + assert (X : forall v : string, v = "x" -> String.prefix "_VAR_IMPORT_" v = false) by (intros v ->; reflexivity).
      intros v [(a & H & Hv)|[(o & H & _)|(i & [] & _)]].
      * apply X. destruct H as [[<- |[]]|[[H|[H|[H|[]]]]|[H|[H|[H|[]]]]]]; try discriminate; try (injection H as <-); destruct Hv as [<- |[]]; auto.
      * destruct H as [H|[H|[H|[]]]]; discriminate.
    + intros a x v [H|[H|[H|[]]]]; discriminate.
  - intros q i u H. cbn. tauto.
  - vm_compute. auto.
  - assert (E : "h" = a_pred (mk_atom "h" [V "x"])) by reflexivity. rewrite E.
    eapply (d_rule _ _ _ (mk_rule [mk_atom "h" [V "x"]] [LPos (mk_atom "r" [V "x"]); LPos (mk_atom "p" [V "x"]); LPos (mk_atom "q" [V "x"])] []) (fun _ => 5)).
    + cbn; tauto.
    + now left.
    + reflexivity.
    + intros a [H|[H|[H|[]]]]; try discriminate; injection H as <-; discriminate.
    + intros a u [H|[H|[H|[]]]]; try discriminate; injection H as <-; intros [= <-]; cbn.
      * apply d_fact. cbn; tauto.
      * apply (d_import _ _ _ (mk_import "p" (Some "http://a") 1)); cbn; auto.
      * apply (d_import _ _ _ (mk_import "q" (Some "http://b") 2)); cbn; auto.
    + intros a x [H|[H|[H|[]]]]; discriminate.
    + intros a e' u [H|[H|[H|[]]]]; discriminate.
    + intros o [H|[H|[H|[]]]]; discriminate.
    + intros i [].
    + intros i e' [].
  - assert (F : inline two_endpoints = [SFact "r" [5];
      SRule (mk_rule [mk_atom "h" [V "x"]] [LPos (mk_atom "r" [V "x"]); LPos (mk_atom "p" [V "x"]); LPos (mk_atom "q" [V "x"])] []); SOutput "h"]) by (vm_compute; reflexivity).
    rewrite F. intros H. apply derives_inv in H. destruct H as [H|[(i & H & _)|(r & e & a & H & Ha & _ & B)]].
    + destruct H as [H|[H|[H|[]]]]; discriminate.
    + destruct H as [H|[H|[H|[]]]]; discriminate.
    + destruct H as [H|[H|[H|[]]]]; try discriminate. injection H as <-.
      assert (D := b_pos2 _ _ _ _ _ B (mk_atom "p" [V "x"]) [e "x"] (or_intror (or_introl eq_refl)) eq_refl). clear -D.
      apply derives_inv in D. destruct D as [H|[(i & H & _)|(r & e' & a & H & Ha & E & B)]].
      * destruct H as [H|[H|[H|[]]]]; discriminate.
      * destruct H as [H|[H|[H|[]]]]; discriminate.
      * destruct H as [H|[H|[H|[]]]]; try discriminate. injection H as <-. destruct Ha as [<- |[]]. discriminate E.
Qed.
Print Assumptions C51_two_endpoints_refuted.

(** Two atoms of one predicate with other terms in the same place use the same new variable: the answers are lost. *)
Definition twice : program :=
  [ SImport (mk_import "p" (Some "http://a") 1);
    SRule (mk_rule [mk_atom "h" [V "x"; V "y"]] [LPos (mk_atom "p" [V "x"; TConst 1]); LPos (mk_atom "p" [V "y"; TConst 2])] []);
    SOutput "h" ].

Theorem C51_computed_twice_refuted : exists W P N p t,
  (forall r, In (SRule r) P -> one_endpoint P r /\ names_free r /\ negation_safe r) /\
  (forall q i u, incremental_predicates P q = Some i -> (N q u <-> results W (i_source i) u)) /\
  ~ is_inlined P p /\ derives W P N p t /\ ~ derives W (inline P) N p t.
Proof.
  pose (R := fun t => t = [7; 1] \/ t = [8; 2]).
  exists (mk_world no_compute (fun _ => R)), twice, (fun _ => R), "h", [7; 8].
  split; [|split; [|split; [|split]]].
  - intros r [H|[H|[H|[]]]]; try discriminate. injection H as <-. split; [|split].
    + intros j k a b i i' Ha Hb Ei Ei'. assert (X : forall n c, rule_atom (mk_rule [mk_atom "h" [V "x"; V "y"]]
        [LPos (mk_atom "p" [V "x"; TConst 1]); LPos (mk_atom "p" [V "y"; TConst 2])] []) n c -> a_pred c = "p").
      { intros [|[|[|n]]] c [Hc|Hc]; cbn in Hc; try discriminate; injection Hc as <-; reflexivity. }
      rewrite (X _ _ Ha) in Ei. rewrite (X _ _ Hb) in Ei'. congruence.
    + assert (X : forall v : string, v = "x" \/ v = "y" -> String.prefix "_VAR_IMPORT_" v = false) by (intros v [-> | ->]; reflexivity).
      intros v [(a & H & Hv)|[(o & H & _)|(i & [] & _)]].
      * apply X. destruct H as [[<- |[]]|[[H|[H|[]]]|[H|[H|[]]]]]; try discriminate; try (injection H as <-); cbn in Hv; intuition.
      * destruct H as [H|[H|[]]]; discriminate.
    + intros a x v [H|[H|[]]]; discriminate.
  - intros q i u H. cbn. tauto.
  - vm_compute. auto.
  - assert (E : "h" = a_pred (mk_atom "h" [V "x"; V "y"])) by reflexivity. rewrite E.
    eapply (d_rule _ _ _ (mk_rule [mk_atom "h" [V "x"; V "y"]] [LPos (mk_atom "p" [V "x"; TConst 1]); LPos (mk_atom "p" [V "y"; TConst 2])] [])
              (fun v => if String.eqb v "x" then 7 else 8)).
    + cbn; tauto.
    + now left.
    + reflexivity.
    + intros a [H|[H|[]]]; try discriminate; injection H as <-; discriminate.
    + intros a u [H|[H|[]]]; try discriminate; injection H as <-; intros [= <-];
        (apply (d_import _ _ _ (mk_import "p" (Some "http://a") 1)); [cbn; auto|]); cbn; unfold R; auto.
    + intros a x [H|[H|[]]]; discriminate.
    + intros a e' u [H|[H|[]]]; discriminate.
    + intros o [H|[H|[]]]; discriminate.
    + intros i [].
    + intros i e' [].
  - assert (F : inline twice = [SRule (mk_rule [mk_atom "h" [V "x"; V "y"]]
        [LOp (OEq (V "_VAR_IMPORT_p_1") (TConst 1)); LOp (OEq (V "_VAR_IMPORT_p_1") (TConst 2))]
        [mk_il false (mk_import "_p_0" (Some "http://a") 1) ["x"; "_VAR_IMPORT_p_1"];
         mk_il false (mk_import "_p_1" (Some "http://a") 1) ["y"; "_VAR_IMPORT_p_1"]]); SOutput "h"]) by (vm_compute; reflexivity).
    rewrite F. intros H. apply derives_inv in H. destruct H as [H|[(i & H & _)|(r & e & a & H & Ha & _ & B)]].
    + destruct H as [H|[H|[]]]; discriminate.
    + destruct H as [H|[H|[]]]; discriminate.
    + destruct H as [H|[H|[]]]; try discriminate. injection H as <-.
      destruct (b_op _ _ _ _ _ B _ (or_introl eq_refl)) as (c & C1 & C2).
      destruct (b_op _ _ _ _ _ B _ (or_intror (or_introl eq_refl))) as (d & D1 & D2).
      cbn in C1, C2, D1, D2. congruence.
Qed.
Print Assumptions C51_computed_twice_refuted.

(** ** An instance *)

(** A rule with a constant in an import, and an import under negation. *)
Definition sample : program :=
  [ SImport (mk_import "p" (Some "http://a") 1); SImport (mk_import "n" (Some "http://a") 2); SFact "r" [5]; SFact "r" [6];
    SRule (mk_rule [mk_atom "h" [V "x"; V "y"]]
      [LPos (mk_atom "r" [V "x"]); LPos (mk_atom "p" [V "x"; TConst 1; V "y"]); LNeg (mk_atom "n" [V "x"; V "z"])] []);
    SOutput "h" ].

Example C51_sample_new : inline sample =
  [ SFact "r" [5]; SFact "r" [6];
    SRule (mk_rule [mk_atom "h" [V "x"; V "y"]] [LPos (mk_atom "r" [V "x"]); LOp (OEq (V "_VAR_IMPORT_p_1") (TConst 1))]
      [mk_il false (mk_import "_p_0" (Some "http://a") 1) ["x"; "_VAR_IMPORT_p_1"; "y"];
       mk_il true (mk_import "_n_1" (Some "http://a") 2) ["x"; "z"]]);
    SOutput "h" ].
Proof. vm_compute. reflexivity. Qed.

Example C51_sample_admissible : admissible sample.
Proof.
  intros r [H|[H|[H|[H|[H|[H|[]]]]]]]; try discriminate. injection H as <-.
  assert (Atoms : forall n c, rule_atom (mk_rule [mk_atom "h" [V "x"; V "y"]]
      [LPos (mk_atom "r" [V "x"]); LPos (mk_atom "p" [V "x"; TConst 1; V "y"]); LNeg (mk_atom "n" [V "x"; V "z"])] []) n c ->
      (n = 0 /\ a_pred c = "r") \/ (n = 1 /\ a_pred c = "p") \/ (n = 2 /\ a_pred c = "n")).
  { intros [|[|[|[|n]]]] c [Hc|Hc]; cbn in Hc; try discriminate; injection Hc as <-; cbn; auto. }
  split; [|split; [|split]].
  - intros j k a b i i' Ha Hb Ei Ei'.
    assert (X : forall n c l, rule_atom (mk_rule [mk_atom "h" [V "x"; V "y"]]
      [LPos (mk_atom "r" [V "x"]); LPos (mk_atom "p" [V "x"; TConst 1; V "y"]); LNeg (mk_atom "n" [V "x"; V "z"])] []) n c ->
      incremental_predicates sample (a_pred c) = Some l -> i_endpoint l = Some "http://a").
    { intros n c l Hc. destruct (Atoms n c Hc) as [(_ & ->)|[(_ & ->)|(_ & ->)]]; vm_compute; intros [= <-]; reflexivity. }
    rewrite (X _ _ _ Ha Ei), (X _ _ _ Hb Ei'). auto.
  - apply single_atoms_apart. intros j k a b Ha Hb E _.
    destruct (Atoms j a Ha) as [(-> & Ea)|[(-> & Ea)|(-> & Ea)]], (Atoms k b Hb) as [(-> & Eb)|[(-> & Eb)|(-> & Eb)]]; auto; congruence.
  - assert (X : forall v : string, v = "x" \/ v = "y" \/ v = "z" -> String.prefix "_VAR_IMPORT_" v = false) by (intros v [-> |[-> | ->]]; reflexivity).
    intros v [(a & H & Hv)|[(o & H & _)|(i & [] & _)]].
    + apply X. destruct H as [[<- |[]]|[[H|[H|[H|[]]]]|[H|[H|[H|[]]]]]]; try discriminate; try (injection H as <-); cbn in Hv; intuition.
    + destruct H as [H|[H|[H|[]]]]; discriminate.
  - intros a x v [H|[H|[H|[]]]]; try discriminate. injection H as <-. intros [<- |[<- |[]]]; discriminate.
Qed.

(** The restricted atoms are found over several steps. *)
Example C51_sample_restricted : map (incremental_predicates
  [ SImport (mk_import "p" (Some "http://a") 1); SFact "r" [5];
    SRule (mk_rule [mk_atom "h" [V "z"]] [LPos (mk_atom "p" [V "y"; V "z"]); LPos (mk_atom "p" [V "x"; V "y"]); LPos (mk_atom "r" [V "w"]);
                                          LOp (OEq (V "x") (V "w"))] []) ]) ["p"; "r"] = [Some (mk_import "p" (Some "http://a") 1); None].
Proof. vm_compute. reflexivity. Qed.

Example C51_sample_unrestricted : incremental_predicates
  [ SImport (mk_import "p" (Some "http://a") 1); SFact "r" [5];
    SRule (mk_rule [mk_atom "h" [V "z"]] [LPos (mk_atom "p" [V "y"; V "z"]); LPos (mk_atom "p" [V "x"; V "y"]); LPos (mk_atom "r" [V "w"])] []) ] "p" = None.
Proof. vm_compute. reflexivity. Qed.
