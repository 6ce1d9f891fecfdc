(** The rewritten program has the same facts. *)
From Coq Require Import String Ascii List Arith Bool Lia.
From Verif Require Import InlineModel InlineSpec InlineProofs1.
Import ListNotations.
Local Open Scope list_scope.

(** ** The inlined predicates *)

Lemma in_sparql P p i : In i (sparql_imports P p) <-> In (SImport i) P /\ i_pred i = p /\ i_endpoint i <> None.
Proof.
  unfold sparql_imports. rewrite in_flat_map. split.
  - intros (s & Hs & H). destruct s as [| |j| | |]; try contradiction. destruct (String.eqb_spec (i_pred j) p); [|contradiction].
    destruct (i_endpoint j) eqn:E; [|contradiction]. destruct H as [<- |[]]. rewrite E. repeat split; auto. discriminate.
  - intros (H & <- & He). exists (SImport i). split; auto. rewrite String.eqb_refl. destruct (i_endpoint i); [now left|contradiction].
Qed.

Lemma in_other P p i : In i (other_imports P p) <-> In (SImport i) P /\ i_pred i = p /\ i_endpoint i = None.
Proof.
  unfold other_imports. rewrite in_flat_map. split.
  - intros (s & Hs & H). destruct s as [| |j| | |]; try contradiction. destruct (String.eqb_spec (i_pred j) p); [|contradiction].
    destruct (i_endpoint j) eqn:E; [contradiction|]. destruct H as [<- |[]]. auto.
  - intros (H & <- & He). exists (SImport i). split; auto. rewrite String.eqb_refl, He. now left.
Qed.

Lemma candidate P p i : candidates P p = Some i ->
  In (SImport i) P /\ i_pred i = p /\ i_endpoint i <> None /\ forall j, In (SImport j) P -> i_pred j = p -> j = i.
Proof.
  unfold candidates. intros H. destruct (other_imports P p) as [|o os] eqn:O; [|discriminate].
  destruct (sparql_imports P p) as [|k [|k' ks]] eqn:S; try discriminate. injection H as ->.
  assert (I : In i (sparql_imports P p)) by (rewrite S; now left). apply in_sparql in I. destruct I as (I1 & I2 & I3).
  repeat split; auto. intros j Hj Ej. destruct (i_endpoint j) eqn:E.
  - assert (K : In j (sparql_imports P p)) by (apply in_sparql; repeat split; auto; congruence). rewrite S in K. destruct K as [K|[]]. auto.
  - assert (K : In j (other_imports P p)) by (apply in_other; auto). rewrite O in K. destruct K.
Qed.

Lemma inlined_facts P p i : incremental_predicates P p = Some i ->
  In (SImport i) P /\ i_pred i = p /\ i_endpoint i <> None /\ (forall j, In (SImport j) P -> i_pred j = p -> j = i) /\
  (forall t, ~ In (SFact p t) P) /\ (forall r a, In (SRule r) P -> In a (r_head r) -> a_pred a <> p) /\
  ~ In (SExport p) P /\ ~ In (SOutput p) P.
Proof.
  unfold incremental_predicates. destruct (normal P p) eqn:N; [discriminate|]. intros H. apply candidate in H.
  destruct H as (H1 & H2 & H3 & H4). do 4 (split; [auto|]).
  assert (K : forall s, In s P -> (match s with
    | SFact q _ => String.eqb q p
    | SRule r => existsb (fun a => String.eqb (a_pred a) p) (r_head r)
                 || (negb (possible_rule (candidates P) r) && existsb (fun a => String.eqb (a_pred a) p) (body_positive r))
    | SExport q | SOutput q => String.eqb q p
    | SParameter | SImport _ => false
    end) = true -> False).
  { intros s Hs Ht. assert (X : normal P p = true) by (apply existsb_exists; eauto). congruence. }
  split; [|split; [|split]].
  - intros t Ht. apply (K _ Ht). apply String.eqb_refl.
  - intros r a Hr Ha E. apply (K _ Hr). apply orb_true_iff. left. apply existsb_exists. exists a. split; auto. apply String.eqb_eq, E.
  - intros Ht. apply (K _ Ht). apply String.eqb_refl.
  - intros Ht. apply (K _ Ht). apply String.eqb_refl.
Qed.

(** ** The statements of the new program *)

Definition rewritten_rule inl der r id : rule := fst (incremental_rule inl der r id).

Lemma in_inline inl der P id s : In s (inline_statements inl der P id) ->
  (exists r k, In (SRule r) P /\ is_rewritten inl r = true /\ s = SRule (rewritten_rule inl der r k)) \/
  (In s P /\ (forall r, s = SRule r -> is_rewritten inl r = false) /\ (forall i, s = SImport i -> inl (i_pred i) = None)).
Proof.
  revert id. induction P as [|x P IH]; intros id; cbn [inline_statements]; [intros []|].
  assert (R : forall k, In s (inline_statements inl der P k) ->
     (exists r k, In (SRule r) (x :: P) /\ is_rewritten inl r = true /\ s = SRule (rewritten_rule inl der r k)) \/
     (In s (x :: P) /\ (forall r, s = SRule r -> is_rewritten inl r = false) /\ (forall i, s = SImport i -> inl (i_pred i) = None))).
  { intros k H. apply IH in H. destruct H as [(r & k' & H1 & H2)|(H1 & H2)]; [left; exists r, k'|right]; split; auto; now right. }
  destruct x as [p t|r|i|p|p|].
  - intros [<- |H]; [right; split; [now left|split; discriminate]|eauto].
  - destruct (is_rewritten inl r) eqn:E.
    + destruct (incremental_rule inl der r id) as (r', id') eqn:E'. intros [<- |H]; [|eauto]. left. exists r, id.
      split; [now left|]. split; auto. unfold rewritten_rule. now rewrite E'.
    + intros [<- |H]; [|eauto]. right. split; [now left|]. split; [|discriminate]. intros r' [= <-]. auto.
  - destruct (inl (i_pred i)) eqn:E; [eauto|]. intros [<- |H]; [|eauto]. right. split; [now left|]. split; [discriminate|].
    intros j [= <-]. auto.
  - intros [<- |H]; [right; split; [now left|split; discriminate]|eauto].
  - intros [<- |H]; [right; split; [now left|split; discriminate]|eauto].
  - intros [<- |H]; [right; split; [now left|split; discriminate]|eauto].
Qed.

Lemma inline_rule inl der P id r : In (SRule r) P -> is_rewritten inl r = true ->
  exists k, In (SRule (rewritten_rule inl der r k)) (inline_statements inl der P id).
Proof.
  intros H E. revert id. induction P as [|x P IH]; intros id; [destruct H|]. destruct H as [-> |H].
  - cbn [inline_statements]. rewrite E. exists id. unfold rewritten_rule. destruct (incremental_rule inl der r id). now left.
  - specialize (IH H). cbn [inline_statements]. destruct x as [p t|r'|i|p|p|].
    2: destruct (is_rewritten inl r'); [destruct (incremental_rule inl der r' id) as (r'' & id')|].
    4: destruct (inl (i_pred i)).
    all: match goal with |- context [inline_statements _ _ _ ?n] => destruct (IH n) as (k & Hk) end; exists k; try (right; exact Hk); exact Hk.
Qed.

Lemma inline_kept inl der P id s : In s P -> (forall r, s = SRule r -> is_rewritten inl r = false) ->
  (forall i, s = SImport i -> inl (i_pred i) = None) -> In s (inline_statements inl der P id).
Proof.
  intros H Hr Hi. revert id. induction P as [|x P IH]; intros id; [destruct H|]. destruct H as [-> |H].
  - cbn [inline_statements]. destruct s as [p t|r|i|p|p|]; try now left.
    + rewrite (Hr r) by auto. now left.
    + rewrite (Hi i) by auto. now left.
  - specialize (IH H). cbn [inline_statements]. destruct x as [p t|r'|i|p|p|].
    2: destruct (is_rewritten inl r'); [destruct (incremental_rule inl der r' id) as (r'' & id')|].
    4: destruct (inl (i_pred i)).
    all: try (right; apply IH); apply IH.
Qed.

Lemma in_body_atoms r a : In a (body_atoms r) <-> exists neg, In (lit_atom neg a) (r_body r).
Proof.
  unfold body_atoms. rewrite in_flat_map. split.
  - intros (l & Hl & H). destruct l as [b|b|o]; [exists false|exists true|contradiction]; destruct H as [<- |[]]; auto.
  - intros ([] & H); eexists; (split; [exact H|]); now left.
Qed.

Lemma rule_atom_in r a : (exists k, rule_atom r k a) <-> exists neg, In (lit_atom neg a) (r_body r).
Proof.
  unfold rule_atom. split.
  - intros (k & [H|H]); apply nth_error_In in H; [exists false|exists true]; auto.
  - intros ([] & H); apply In_nth_error in H; destruct H as (k & H); exists k; auto.
Qed.

(** A rule that is not rewritten has no inlined atom. *)
Lemma not_rewritten P r : one_endpoint P r -> is_rewritten (incremental_predicates P) r = false ->
  forall neg a, In (lit_atom neg a) (r_body r) -> incremental_predicates P (a_pred a) = None.
Proof.
  intros O R neg a Ha. destruct (incremental_predicates P (a_pred a)) as [i|] eqn:E; auto. exfalso.
  unfold is_rewritten in R. apply Nat.eqb_neq in R. apply R. clear R. unfold rule_endpoints.
  set (f := flat_map _ _). destruct (inlined_facts P _ _ E) as (_ & _ & He & _). destruct (i_endpoint i) as [e|] eqn:Ei; [|contradiction].
  assert (All : forall x, In x f -> x = e).
  { intros x Hx. apply in_flat_map in Hx. destruct Hx as (b & Hb & Hx). destruct (incremental_predicates P (a_pred b)) as [j|] eqn:Ej; [|contradiction].
    apply in_body_atoms in Hb. apply rule_atom_in in Hb. destruct Hb as (k & Hb).
    assert (Ka : exists k, rule_atom r k a) by (apply rule_atom_in; eauto). destruct Ka as (k' & Ka).
    pose proof (O k' k a b i j Ka Hb E Ej) as Q. rewrite <- Q, Ei in Hx. destruct Hx as [<- |[]]. auto. }
  assert (Ie : In e f).
  { apply in_flat_map. exists a. split; [apply in_body_atoms; eauto|]. rewrite E, Ei. now left. }
  assert (Nd := NoDup_nodup string_dec f). assert (In e (nodup string_dec f)) by (now apply nodup_In).
  assert (All' : forall x, In x (nodup string_dec f) -> x = e) by (intros x Hx; apply nodup_In in Hx; auto).
  destruct (nodup string_dec f) as [|y [|z l]]; [contradiction|reflexivity|].
  exfalso. inversion Nd as [|? ? Hn _]; subst. apply Hn. rewrite (All' y), (All' z) by (cbn; auto). now left.
Qed.

(** ** Rules *)

(** The body of a rule is true, where [D] are the facts derived so far. *)
Record body_true (W : world) (D N : string -> list nat -> Prop) (r : rule) (e : valuation) : Prop := mk_bt {
  b_pos1 : forall a, In (LPos a) (r_body r) -> values W e (a_args a) <> None;
  b_pos2 : forall a u, In (LPos a) (r_body r) -> values W e (a_args a) = Some u -> D (a_pred a) u;
  b_neg1 : forall a x, In (LNeg a) (r_body r) -> In x (a_args a) -> value W e x <> None;
  b_neg2 : forall a e' u, In (LNeg a) (r_body r) -> same_on (bound r) e e' -> values W e' (a_args a) = Some u -> ~ N (a_pred a) u;
  b_op : forall o, In (LOp o) (r_body r) -> operation_holds W e o;
  b_imp1 : forall i, In i (r_imports r) -> il_negated i = false -> results W (i_source (il_import i)) (map e (il_vars i));
  b_imp2 : forall i e', In i (r_imports r) -> il_negated i = true -> same_on (bound r) e e' ->
           ~ results W (i_source (il_import i)) (map e' (il_vars i)) }.

Section rule.
  Variables (W : world) (P : program) (r : rule) (id : nat).
  Let inl := incremental_predicates P.
  Let der := derived P.
  Hypothesis Hr : In (SRule r) P.
  Hypothesis Ca : computed_apart P r.
  Hypothesis Nf : names_free r.
  Hypothesis Ns : negation_safe r.
  Let w := rewrite_body inl der (r_body r) id.
  Let r' := rewritten_rule inl der r id.

  Lemma r'_body l : In l (r_body r') <-> (In l (r_body r) /\ ~ moved inl l) \/ exists c, In c (w_computed w) /\ l = LOp (OEq (TVar (fst c)) (snd c)).
  Proof.
    unfold r', rewritten_rule, incremental_rule. cbn [fst r_body]. rewrite in_app_iff, in_w_body, in_map_iff. fold w.
    split; (intros [H|(c & H1 & H2)]; [left; auto|right; exists c; auto]).
  Qed.

  Lemma r'_imports i : In i (r_imports r') <-> In i (r_imports r) \/ In i (w_imports w).
  Proof. unfold r', rewritten_rule, incremental_rule. cbn [fst r_imports]. apply in_app_iff. Qed.

  Lemma in_computed_w v t : In (v, t) (w_computed w) <->
    exists neg a k, In (lit_atom neg a) (r_body r) /\ inl (a_pred a) <> None /\
      nth_error (a_args a) k = Some t /\ is_variable t = false /\ v = new_variable (a_pred a) k.
  Proof.
    unfold w. rewrite in_w_computed. split.
    - intros (n & a & H1 & H2 & H3). apply in_computed in H3. destruct H3 as (k & H3 & H4 & H5). exists n, a, k. auto.
    - intros (n & a & k & H1 & H2 & H3 & H4 & H5). exists n, a. split; auto. split; auto. apply in_computed. exists k. auto.
  Qed.

  Lemma atom_rule_vars neg a v : In (lit_atom neg a) (r_body r) -> In v (atom_vars a) -> rule_vars r v.
  Proof. intros H Hv. left. exists a. destruct neg; auto. Qed.

  Lemma arg_vars (a : atom) t v : In t (a_args a) -> In v (term_vars t) -> In v (atom_vars a).
  Proof. intros. unfold atom_vars. apply in_flat_map. eauto. Qed.

  Lemma bound_rule v : bound r v -> rule_vars r v.
  Proof.
    intros [(a & H1 & H2)|[(o & H1 & H2)|(i & H1 & _ & H2)]].
    - left. exists a. auto.
    - right. left. eauto.
    - right. right. eauto.
  Qed.

  Lemma new_not_rule v t : In (v, t) (w_computed w) -> ~ rule_vars r v.
  Proof.
    intros H Hv. apply in_computed_w in H. destruct H as (n & a & k & _ & _ & _ & _ & ->). apply Nf in Hv.
    rewrite new_variable_prefix in Hv. discriminate.
  Qed.

  Lemma computed_vars v t x : In (v, t) (w_computed w) -> In x (term_vars t) -> rule_vars r x.
  Proof.
    intros H Hx. apply in_computed_w in H. destruct H as (n & a & k & H1 & _ & H2 & _). apply nth_error_In in H2.
    eapply atom_rule_vars; [exact H1|]. eapply arg_vars; eauto.
  Qed.

  Lemma computed_unique v t t' : In (v, t) (w_computed w) -> In (v, t') (w_computed w) -> t = t'.
  Proof.
    intros H H'. apply in_computed_w in H. apply in_computed_w in H'.
    destruct H as (n & a & k & H1 & H2 & H3 & H4 & ->). destruct H' as (n' & a' & k' & H1' & H2' & H3' & H4' & E).
    apply new_variable_inj in E. destruct E as (E & <-).
    assert (A : exists j, rule_atom r j a) by (apply rule_atom_in; eauto).
    assert (A' : exists j, rule_atom r j a') by (apply rule_atom_in; eauto).
    destruct A as (j & A). destruct A' as (j' & A'). 
    assert (j = j') by (eapply (Ca j j' a a' k t t'); eauto). subst j'.
    assert (a = a') by (unfold rule_atom in *; destruct A as [A|A], A' as [A'|A']; congruence). congruence.
  Qed.

  (** The variables with a value in the old and in the new rule. *)
  Lemma bound_new v : bound r v -> bound r' v.
  Proof.
    intros [(a & H1 & H2)|[(o & H1 & H2)|(i & H1 & H2 & H3)]].
    - destruct (inl (a_pred a)) as [i|] eqn:E.
      + unfold atom_vars in H2. apply in_flat_map in H2. destruct H2 as (t & Ht & Hv). destruct (is_variable t) eqn:Et.
        * destruct t as [x| |]; try discriminate. destruct Hv as [-> |[]]. right. right.
          destruct (w_import_for inl der (r_body r) id false a i H1 E) as (il & I1 & I2 & I3 & I4). exists il. split; [|split; auto].
          { apply r'_imports. right. exact I1. }
          rewrite I4. apply in_import_variables. now left.
        * apply In_nth_error in Ht. destruct Ht as (k & Hk). right. left.
          exists (OEq (TVar (new_variable (a_pred a) k)) t). split; [|cbn; auto]. apply r'_body. right. exists (new_variable (a_pred a) k, t). split; auto.
          apply in_computed_w. exists false, a, k. rewrite E. repeat split; auto. discriminate.
      + left. exists a. split; auto. apply r'_body. left. split; [exact H1|cbn; congruence].
    - right. left. exists o. split; auto. apply r'_body. left. split; auto.
    - right. right. exists i. split; auto. apply r'_imports. auto.
  Qed.

  Lemma bound_old v : bound r' v -> bound r v \/ exists t, In (v, t) (w_computed w).
  Proof.
    intros [(a & H1 & H2)|[(o & H1 & H2)|(i & H1 & H2 & H3)]].
    - apply r'_body in H1. destruct H1 as [(H1 & _)|(c & _ & H1)]; [|discriminate]. left. left. eauto.
    - apply r'_body in H1. destruct H1 as [(H1 & _)|((v0, t) & Hc & H1)]; [left; right; left; eauto|]. injection H1 as ->.
      cbn in H2. destruct H2 as [<- |H2]; [right; eauto|]. left. apply in_computed_w in Hc. destruct Hc as (n & a & k & C1 & C2 & C3 & C4 & _).
      apply nth_error_In in C3. destruct n; [eapply Ns; eauto|]. left. exists a. split; auto. eapply arg_vars; eauto.
    - apply r'_imports in H1. destruct H1 as [H1|H1]; [left; right; right; eauto|].
      pose proof H1 as G. apply w_import_of in H1. destruct H1 as (a & i' & I1 & I2 & I3 & I4). rewrite I4 in H3. apply in_import_variables in H3.
      destruct H3 as [H3|(t & Ht)].
      + rewrite H2 in I1. left. left. exists a. split; auto. eapply arg_vars; [exact H3|now left].
      + right. exists t. apply in_w_computed. exists (il_negated i), a. rewrite I2. repeat split; auto. discriminate.
  Qed.

  (** The values of the new variables are those of the terms. *)
  Definition computed_right (e : valuation) : Prop := forall v t, In (v, t) (w_computed w) -> value W e t = Some (e v).

  Lemma literal_values e neg a i : computed_right e -> In (lit_atom neg a) (r_body r) -> inl (a_pred a) = Some i ->
    values W e (a_args a) = Some (map e (import_variables (a_pred a) 0 (a_args a))).
  Proof.
    intros C Ha Hi. apply import_values. intros v t Hv. apply C. apply in_w_computed. exists neg, a. rewrite Hi. repeat split; auto. discriminate.
  Qed.

  Lemma equalities_right e : (forall o, In (LOp o) (r_body r') -> operation_holds W e o) -> computed_right e.
  Proof.
    intros H v t Hv. assert (K : operation_holds W e (OEq (TVar v) t)).
    { apply H. apply r'_body. right. exists (v, t). auto. }
    destruct K as (c & K1 & K2). cbn in K1. congruence.
  Qed.

  Lemma computed_bound v t : In (v, t) (w_computed w) -> bound r' v /\ forall x, In x (term_vars t) -> bound r' x.
  Proof.
    intros H. assert (K : In (LOp (OEq (TVar v) t)) (r_body r')) by (apply r'_body; right; exists (v, t); auto).
    split; [|intros x Hx]; right; left; eexists; (split; [exact K|]); cbn; auto.
  Qed.

  Lemma right_same e e' : same_on (bound r') e e' -> computed_right e -> computed_right e'.
  Proof.
    intros S C v t H. destruct (computed_bound v t H) as (B1 & B2). rewrite <- (S v B1). rewrite <- (C v t H). symmetry. apply value_ext.
    intros x Hx. apply S. auto.
  Qed.

  (** From the old rule to the new one. *)
  Definition extend (e : valuation) : valuation := fun v =>
    match find (fun c => String.eqb (fst c) v) (w_computed w) with
    | Some (_, t) => match value W e t with Some c => c | None => 0 end
    | None => e v
    end.

  Lemma extend_same e v : rule_vars r v -> extend e v = e v.
  Proof.
    intros H. unfold extend. destruct (find _ _) as [(v', t)|] eqn:F; auto. apply find_some in F. destruct F as (F & E). cbn in E.
    apply String.eqb_eq in E. subst v'. exfalso. eapply new_not_rule; eauto.
  Qed.

  Lemma extend_right e : (forall v t, In (v, t) (w_computed w) -> value W e t <> None) -> computed_right (extend e).
  Proof.
    intros H v t Hv. unfold extend at 2. destruct (find _ _) as [(v', t')|] eqn:F.
    - apply find_some in F. destruct F as (F & E). cbn in E. apply String.eqb_eq in E. subst v'. assert (t' = t) by (eapply computed_unique; eauto). subst t'.
      rewrite (value_ext W (extend e) e).
      + destruct (value W e t) eqn:V; auto. exfalso. eapply H; eauto.
      + intros x Hx. apply extend_same. eapply computed_vars; eauto.
    - exfalso. eapply find_none in F; [|exact Hv]. cbn in F. rewrite String.eqb_refl in F. discriminate.
  Qed.

  Lemma rule_forward (D D' N : string -> list nat -> Prop) e : body_true W D N r e ->
    (forall p t, inl p = None -> D p t -> D' p t) ->
    (forall p i t, inl p = Some i -> D p t -> results W (i_source i) t) ->
    (forall p i t, inl p = Some i -> results W (i_source i) t -> N p t) ->
    body_true W D' N r' (extend e).
  Proof.
    intros B HD HI HN.
    assert (V : forall v t, In (v, t) (w_computed w) -> value W e t <> None).
    { intros v t H. apply in_computed_w in H. destruct H as (n & a & k & H1 & _ & H2 & _). apply nth_error_In in H2. destruct n.
      - now apply (b_neg1 _ _ _ _ _ B a).
      - pose proof (b_pos1 _ _ _ _ _ B a H1) as K. rewrite values_none in K. auto. }
    assert (C := extend_right e V).
    assert (S : forall neg a, In (lit_atom neg a) (r_body r) -> values W (extend e) (a_args a) = values W e (a_args a)).
    { intros neg a H. apply values_ext. intros v Hv. apply extend_same. eapply atom_rule_vars; eauto. }
    assert (SB : forall e', same_on (bound r') (extend e) e' -> same_on (bound r) e e').
    { intros e' H v Hv. rewrite <- (H v) by now apply bound_new. symmetry. apply extend_same. now apply bound_rule. }
    split.
    - intros a H. apply r'_body in H. destruct H as [(H & _)|(c & _ & H)]; [|discriminate]. rewrite (S false a H). now apply (b_pos1 _ _ _ _ _ B).
    - intros a u H Hu. apply r'_body in H. destruct H as [(H & M)|(c & _ & H)]; [|discriminate]. rewrite (S false a H) in Hu.
      apply HD; [|now apply (b_pos2 _ _ _ _ _ B a)]. cbn in M. destruct (inl (a_pred a)); auto. exfalso. apply M. discriminate.
    - intros a x H Hx. apply r'_body in H. destruct H as [(H & _)|(c & _ & H)]; [|discriminate].
      rewrite (value_ext W (extend e) e); [now apply (b_neg1 _ _ _ _ _ B a)|]. intros v Hv. apply extend_same. eapply (atom_rule_vars true a); eauto.
      eapply arg_vars; eauto.
    - intros a e' u H He Hu. apply r'_body in H. destruct H as [(H & _)|(c & _ & H)]; [|discriminate].
      apply (b_neg2 _ _ _ _ _ B a e'); auto.
    - intros o H. apply r'_body in H. destruct H as [(H & _)|((v, t) & Hc & H)].
      + apply (operation_ext W (extend e) e); [|now apply (b_op _ _ _ _ _ B)]. intros v Hv. apply extend_same. right. left. eauto.
      + injection H as ->. cbn. exists (extend e v). split; [reflexivity|apply C; exact Hc].
    - intros i H Hn. apply r'_imports in H. destruct H as [H|H].
      + rewrite (map_ext_in (extend e) e); [now apply (b_imp1 _ _ _ _ _ B)|]. intros v Hv. apply extend_same. right. right. eauto.
      + apply w_import_of in H. destruct H as (a & i' & I1 & I2 & I3 & I4). rewrite Hn in I1. rewrite I3, I4.
        apply (HI (a_pred a)); auto. apply (b_pos2 _ _ _ _ _ B a); auto. rewrite <- (S false a I1). eapply literal_values; eauto.
    - intros i e' H Hn He. apply r'_imports in H. destruct H as [H|H]; [apply (b_imp2 _ _ _ _ _ B i e'); auto|].
      apply w_import_of in H. destruct H as (a & i' & I1 & I2 & I3 & I4). rewrite Hn in I1. rewrite I3, I4. intros R.
      apply (b_neg2 _ _ _ _ _ B a e' (map e' (import_variables (a_pred a) 0 (a_args a)))); auto.
      + eapply (literal_values e' true a); eauto. apply (right_same (extend e)); auto.
      + eapply HN; eauto.
  Qed.

  (** From the new rule to the old one. *)
  Lemma rule_backward (D D' N : string -> list nat -> Prop) e : body_true W D' N r' e ->
    (forall p t, inl p = None -> D' p t -> D p t) ->
    (forall p i t, inl p = Some i -> results W (i_source i) t -> D p t) ->
    (forall p i t, inl p = Some i -> N p t -> results W (i_source i) t) ->
    body_true W D N r e.
  Proof.
    intros B HD HI HN.
    assert (C := equalities_right e (b_op _ _ _ _ _ B)).
    assert (G : forall e', same_on (bound r) e e' -> exists e2, same_on (bound r') e e2 /\ forall v, rule_vars r v -> e' v = e2 v).
    { intros e' H. exists (fun v => if String.prefix "_VAR_IMPORT_" v then e v else e' v). split.
      - intros v Hv. apply bound_old in Hv. destruct Hv as [Hv|(t & Ht)].
        + rewrite (Nf v) by now apply bound_rule. auto.
        + apply in_computed_w in Ht. destruct Ht as (n & a & k & _ & _ & _ & _ & ->). rewrite new_variable_prefix. auto.
      - intros v Hv. rewrite (Nf v Hv). auto. }
    assert (K : forall neg a, In (lit_atom neg a) (r_body r) -> inl (a_pred a) = None -> In (lit_atom neg a) (r_body r')).
    { intros neg a H E. apply r'_body. left. split; auto. destruct neg; cbn; congruence. }
    split.
    - intros a H. destruct (inl (a_pred a)) as [i|] eqn:E.
      + rewrite (literal_values e false a i C H E). discriminate.
      + apply (b_pos1 _ _ _ _ _ B). now apply (K false).
    - intros a u H Hu. destruct (inl (a_pred a)) as [i|] eqn:E.
      + rewrite (literal_values e false a i C H E) in Hu. injection Hu as <-. apply (HI (a_pred a) i); auto.
        destruct (w_import_for inl der (r_body r) id false a i H E) as (il & I1 & I2 & I3 & I4). rewrite <- I3, <- I4.
        apply (b_imp1 _ _ _ _ _ B il); auto. apply r'_imports. auto.
      + apply HD; auto. apply (b_pos2 _ _ _ _ _ B a); auto. now apply (K false).
    - intros a x H Hx. destruct (inl (a_pred a)) as [i|] eqn:E.
      + pose proof (literal_values e true a i C H E) as L. assert (L' : values W e (a_args a) <> None) by congruence.
        rewrite values_none in L'. auto.
      + apply (b_neg1 _ _ _ _ _ B a); auto. now apply (K true).
    - intros a e' u H He Hu Nu. destruct (G e' He) as (e2 & S2 & A2).
      assert (Q : values W e2 (a_args a) = Some u).
      { rewrite <- Hu. symmetry. apply values_ext. intros v Hv. apply A2. eapply (atom_rule_vars true); eauto. }
      destruct (inl (a_pred a)) as [i|] eqn:E.
      + rewrite (literal_values e2 true a i (right_same e e2 S2 C) H E) in Q. injection Q as <-. 
        destruct (w_import_for inl der (r_body r) id true a i H E) as (il & I1 & I2 & I3 & I4).
        apply (b_imp2 _ _ _ _ _ B il e2); auto; [apply r'_imports; auto|]. rewrite I3, I4. eapply HN; eauto.
      + apply (b_neg2 _ _ _ _ _ B a e2 u); auto. now apply (K true).
    - intros o H. apply (b_op _ _ _ _ _ B). apply r'_body. left. split; auto.
    - intros i H Hn. apply (b_imp1 _ _ _ _ _ B); auto. apply r'_imports. auto.
    - intros i e' H Hn He R. destruct (G e' He) as (e2 & S2 & A2). apply (b_imp2 _ _ _ _ _ B i e2); auto; [apply r'_imports; auto|].
      rewrite <- (map_ext_in e' e2); auto. intros v Hv. apply A2. right. right. eauto.
  Qed.
End rule.
