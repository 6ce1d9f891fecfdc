(** The program theorem, and when rules are admissible. *)
From Coq Require Import String Ascii List Arith Bool Lia.
From Verif Require Import InlineModel InlineSpec InlineProofs1 InlineProofs2.
Import ListNotations.
Local Open Scope list_scope.

Section program.
  Variables (W : world) (P : program).
  Hypothesis A : admissible P.

  Lemma derives_rule Q N r e h t : In (SRule r) Q -> In h (r_head r) -> values W e (a_args h) = Some t ->
    body_true W (derives W Q N) N r e -> derives W Q N (a_pred h) t.
  Proof. intros Hr Hh Ht [B1 B2 B3 B4 B5 B6 B7]. eapply d_rule; eauto. Qed.

  Lemma head_values r k e h : In (SRule r) P -> In h (r_head r) ->
    values W (extend W P r k e) (a_args h) = values W e (a_args h).
  Proof.
    intros Hr Hh. destruct (A r Hr) as (_ & _ & Nf & _). apply values_ext. intros v Hv. apply extend_same; auto. left. exists h. auto.
  Qed.

  Section negated.
    Variable N : string -> list nat -> Prop.
    Hypothesis HN : forall p i t, incremental_predicates P p = Some i -> (N p t <-> results W (i_source i) t).

    Lemma to_inlined p t : derives W P N p t ->
      match incremental_predicates P p with Some i => results W (i_source i) t | None => derives W (inline P) N p t end.
    Proof.
      intros H. induction H as [p t H|i t H Hr|r e h t Hr Hh Ht B1 _ IH B3 B4 B5 B6 B7].
      - destruct (incremental_predicates P p) as [i|] eqn:E.
        + destruct (inlined_facts P p i E) as (_ & _ & _ & _ & K & _). exfalso. eapply K; eauto.
        + apply d_fact. apply inline_kept; auto; discriminate.
      - destruct (incremental_predicates P (i_pred i)) as [j|] eqn:E.
        + destruct (inlined_facts P _ j E) as (_ & _ & _ & K & _). rewrite <- (K i H eq_refl). auto.
        + apply d_import; auto. apply inline_kept; auto; [discriminate|]. intros k [= <-]. auto.
      - destruct (incremental_predicates P (a_pred h)) as [i|] eqn:E.
        + destruct (inlined_facts P _ i E) as (_ & _ & _ & _ & _ & K & _). exfalso. eapply K; eauto.
        + destruct (A r Hr) as (O & Ca & Nf & Ns).
          pose (D := fun p t => match incremental_predicates P p with Some i => results W (i_source i) t | None => derives W (inline P) N p t end).
          assert (B : body_true W D N r e) by (split; auto).
          destruct (is_rewritten (incremental_predicates P) r) eqn:R.
          * destruct (inline_rule (incremental_predicates P) (derived P) P 0 r Hr R) as (k & Hk).
            rewrite <- (head_values r k e h Hr Hh) in Ht.
            eapply (derives_rule (inline P) N (rewritten_rule (incremental_predicates P) (derived P) r k)); [exact Hk|exact Hh|exact Ht|].
            apply (rule_forward W P r k Ca Nf D); auto.
            { unfold D. intros p u Ep. rewrite Ep. auto. }
            { unfold D. intros p j u Ep. rewrite Ep. auto. }
            { intros p j u Ep. apply HN. auto. }
          * eapply (derives_rule (inline P) N r); eauto.
            { apply inline_kept; auto; [|discriminate]. intros r0 [= <-]. auto. }
            destruct B as [C1 C2 C3 C4 C5 C6 C7]. split; auto. intros a u Ha Hu. specialize (C2 a u Ha Hu). unfold D in C2.
            rewrite (not_rewritten P r O R false a Ha) in C2. auto.
    Qed.

    Lemma from_inlined p t : derives W (inline P) N p t -> derives W P N p t.
    Proof.
      intros H. induction H as [p t H|i t H Hr|r e h t Hr Hh Ht B1 _ IH B3 B4 B5 B6 B7].
      - apply in_inline in H. destruct H as [(r & k & _ & _ & [=])|(H & _)]. now apply d_fact.
      - apply in_inline in H. destruct H as [(r & k & _ & _ & [=])|(H & _)]. now apply d_import.
      - apply in_inline in Hr. destruct Hr as [(r0 & k & Hr & R & [= ->])|(Hr & _)].
        + destruct (A r0 Hr) as (O & Ca & Nf & Ns).
          assert (B : body_true W (derives W P N) N (rewritten_rule (incremental_predicates P) (derived P) r0 k) e) by (split; auto).
          apply (derives_rule P N r0 e); auto.
          apply (rule_backward W P r0 k Nf Ns (derives W P N) (derives W P N)); auto.
          { intros p i u Ep Hu. destruct (inlined_facts P p i Ep) as (I1 & <- & _). now apply d_import. }
          { intros p i u Ep. apply HN. auto. }
        + apply (derives_rule P N r e); auto. split; auto.
    Qed.

    Lemma inlined_only p i t : incremental_predicates P p = Some i -> ~ derives W (inline P) N p t.
    Proof.
      intros E H. destruct (inlined_facts P p i E) as (_ & _ & _ & _ & K1 & K2 & _).
      inversion H as [p' t' H0|j t' H0 H1|r e h t' H0 H1 H2]; subst.
      - apply in_inline in H0. destruct H0 as [(r & k & _ & _ & [=])|(H0 & _)]. eapply K1; eauto.
      - apply in_inline in H0. destruct H0 as [(r & k & _ & _ & [=])|(_ & _ & H0)]. specialize (H0 j eq_refl). congruence.
      - apply in_inline in H0. destruct H0 as [(r0 & k & H0 & _ & [= ->])|(H0 & _)]; eapply K2; eauto.
    Qed.
  End negated.

  Theorem inline_derives N p t : (forall p i t, incremental_predicates P p = Some i -> (N p t <-> results W (i_source i) t)) ->
    ~ is_inlined P p -> (derives W P N p t <-> derives W (inline P) N p t).
  Proof.
    intros HN Hp. unfold is_inlined in Hp. split; [|now apply from_inlined].
    intros H. apply to_inlined in H; auto. destruct (incremental_predicates P p); auto. exfalso. apply Hp. discriminate.
  Qed.

  (** The new program does not look at the inlined predicates. *)
  Lemma new_negation_ext N N' : (forall p t, incremental_predicates P p = None -> (N p t <-> N' p t)) ->
    forall p t, derives W (inline P) N p t -> derives W (inline P) N' p t.
  Proof.
    intros E p t H. induction H as [p t H|i t H Hr|r e h t Hr Hh Ht B1 _ IH B3 B4 B5 B6 B7].
    - now apply d_fact.
    - now apply d_import.
    - eapply (derives_rule (inline P) N' r); eauto. split; auto. intros a e' u Ha He Hu. 
      assert (Ea : incremental_predicates P (a_pred a) = None).
      { apply in_inline in Hr. destruct Hr as [(r0 & k & Hr & R & [= ->])|(Hr & K & _)].
        - apply (r'_body P r0 k) in Ha. destruct Ha as [(_ & M)|(c & _ & [=])]. cbn in M. destruct (incremental_predicates P (a_pred a)); [exfalso; apply M; discriminate|reflexivity].
        - destruct (A r Hr) as (O & _). now apply (not_rewritten P r O (K r eq_refl) true a). }
      rewrite <- (E _ _ Ea). eapply B4; eauto.
  Qed.

  Lemma inlined_derived M p i t : incremental_predicates P p = Some i -> (derives W P M p t <-> results W (i_source i) t).
  Proof.
    intros E. destruct (inlined_facts P p i E) as (I1 & I2 & _ & I4 & K1 & K2 & _). split.
    - intros H. inversion H as [p' t' H0|j t' H0 H1|r e h t' H0 H1 H2]; subst.
      + exfalso. eapply K1; eauto.
      + rewrite <- (I4 j H0); auto.
      + exfalso. eapply K2; eauto.
    - intros H. rewrite <- I2. now apply d_import.
  Qed.

  Theorem inline_stable M : stable W P M -> stable W (inline P) (fun p t => M p t /\ incremental_predicates P p = None).
  Proof.
    intros S. assert (HN : forall p i t, incremental_predicates P p = Some i -> (M p t <-> results W (i_source i) t)).
    { intros p i t E. rewrite (S p t). now apply inlined_derived. }
    intros p t. split.
    - intros (H & E). apply (new_negation_ext M); [intros q u Eq; tauto|]. apply S in H. apply (inline_derives M p t HN); auto.
    - intros H. apply (new_negation_ext _ M) in H; [|intros q u Eq; tauto]. split.
      + apply S. now apply from_inlined.
      + destruct (incremental_predicates P p) eqn:E; auto. exfalso. eapply inlined_only; eauto.
  Qed.

  Theorem inline_stable_conv M : stable W (inline P) M ->
    stable W P (fun p t => match incremental_predicates P p with Some i => results W (i_source i) t | None => M p t end).
  Proof.
    intros S. set (M' := fun p t => match incremental_predicates P p with Some i => results W (i_source i) t | None => M p t end).
    assert (HN : forall p i t, incremental_predicates P p = Some i -> (M' p t <-> results W (i_source i) t)).
    { intros p i t E. unfold M'. rewrite E. tauto. }
    assert (X : forall p t, derives W (inline P) M p t <-> derives W (inline P) M' p t).
    { intros p t. split; apply new_negation_ext; intros q u E; unfold M'; rewrite E; tauto. }
    intros p t. destruct (incremental_predicates P p) as [i|] eqn:E.
    - rewrite (HN p i t E). symmetry. now apply inlined_derived.
    - rewrite (inline_derives M' p t HN) by (unfold is_inlined; rewrite E; auto). rewrite <- X. unfold M' at 1. rewrite E. apply S.
  Qed.
End program.

(** A rule in which each inlined predicate has one atom is never in danger. *)
Lemma single_atoms_apart P r :
  (forall j k a b, rule_atom r j a -> rule_atom r k b -> a_pred a = a_pred b -> is_inlined P (a_pred a) -> j = k) -> computed_apart P r.
Proof. intros H j k a b n x y Ha Hb E Hi _ _ _ _. eauto. Qed.
