(** Facts about the rewriting of a rule. *)
From Coq Require Import String Ascii List Arith Bool Decimal DecimalNat DecimalString Lia.
From Verif Require Import InlineModel InlineSpec.
Import ListNotations.
Local Open Scope list_scope.

(** ** The names of the new variables *)

Fixpoint free_of (c : ascii) (s : string) : Prop :=
  match s with EmptyString => True | String a s' => a <> c /\ free_of c s' end.

Lemma decimal_free n : free_of "_"%char (decimal n).
Proof. unfold decimal. induction (Nat.to_uint n); cbn; auto; split; auto; discriminate. Qed.

Lemma decimal_inj n m : decimal n = decimal m -> n = m.
Proof.
  intros H. unfold decimal in H. apply (f_equal NilEmpty.uint_of_string) in H. rewrite !NilEmpty.usu in H. injection H as H.
  now apply Unsigned.to_uint_inj.
Qed.

Lemma last_part p q d d' : free_of "_"%char d -> free_of "_"%char d' -> (p ++ "_" ++ d = q ++ "_" ++ d')%string -> p = q /\ d = d'.
Proof.
  intros Hd Hd'. revert q. induction p as [|a p IH]; intros [|b q] H; cbn in H.
  - injection H as H. auto.
  - injection H as H1 H2. exfalso. subst. clear - Hd. induction q; cbn in Hd; destruct Hd; auto.
  - injection H as H1 H2. exfalso. subst. clear - Hd'. induction p; cbn in Hd'; destruct Hd'; auto.
  - injection H as -> H. apply IH in H. destruct H as (-> & ->). auto.
Qed.

Lemma new_variable_inj p q n m : new_variable p n = new_variable q m -> p = q /\ n = m.
Proof.
  unfold new_variable. intros H. apply (f_equal (fun s => substring 12 (String.length s - 12) s)) in H.
  cbn [append] in H. 
  assert (S : forall s, substring 12 (String.length ("_VAR_IMPORT_" ++ s) - 12) ("_VAR_IMPORT_" ++ s) = s).
  { intros s. cbn. rewrite ?Nat.sub_0_r. clear. induction s; cbn; auto. now rewrite IHs. }
  specialize (S (p ++ "_" ++ decimal n)%string) as S1. specialize (S (q ++ "_" ++ decimal m)%string) as S2.
  cbn [append] in S1, S2. rewrite S1, S2 in H. apply last_part in H; try apply decimal_free. destruct H as (-> & H).
  split; auto. now apply decimal_inj.
Qed.

Lemma new_variable_prefix p n : String.prefix "_VAR_IMPORT_" (new_variable p n) = true.
Proof. unfold new_variable. cbn. destruct p; reflexivity. Qed.

(** ** Values *)

Section term_ind.
  Variable Q : term -> Prop.
  Hypothesis Hv : forall v, Q (TVar v).
  Hypothesis Hc : forall c, Q (TConst c).
  Hypothesis Ho : forall f ts, Forall Q ts -> Q (TOp f ts).
  Fixpoint term_ind' (t : term) : Q t :=
    match t with
    | TVar v => Hv v
    | TConst c => Hc c
    | TOp f ts => Ho f ts ((fix go (l : list term) : Forall Q l :=
        match l with [] => Forall_nil Q | x :: r => Forall_cons x (term_ind' x) (go r) end) ts)
    end.
End term_ind.

Lemma value_ext W e e' t : (forall v, In v (term_vars t) -> e v = e' v) -> value W e t = value W e' t.
Proof.
  induction t as [v|c|f ts IH] using term_ind'; cbn [value term_vars]; intros H; [rewrite (H v) by (now left); reflexivity|reflexivity|].
  - assert (E : map (value W e) ts = map (value W e') ts); [|now rewrite E].
    apply map_ext_in. intros x Hx. rewrite Forall_forall in IH. apply IH; auto. intros v Hv. apply H. apply in_flat_map. eauto.
Qed.

Lemma values_ext W e e' a : (forall v, In v (atom_vars a) -> e v = e' v) -> values W e (a_args a) = values W e' (a_args a).
Proof.
  intros H. unfold values. f_equal. apply map_ext_in. intros x Hx. apply value_ext. intros v Hv. apply H. unfold atom_vars.
  apply in_flat_map. eauto.
Qed.

Lemma operation_ext W e e' o : (forall v, In v (operation_vars o) -> e v = e' v) -> operation_holds W e o <-> operation_holds W e' o.
Proof.
  destruct o as [l r|t]; cbn; intros H.
  - rewrite (value_ext W e e' l), (value_ext W e e' r); [tauto| |]; intros v Hv; apply H; apply in_or_app; auto.
  - rewrite (value_ext W e e' t); tauto.
Qed.

Lemma all_some_in {A} (l : list (option A)) : all_some l <> None <-> forall x, In x l -> x <> None.
Proof.
  induction l as [|x l IH]; cbn.
  - split; [intros _ x []|discriminate].
  - split.
    + intros H y [<- |Hy]; destruct x; try discriminate; auto; try (now contradiction H). apply IH; auto. intros E. rewrite E in H. auto.
    + intros H. destruct x; [|exfalso; now apply (H None); auto]. assert (K : all_some l <> None) by (apply IH; auto).
      destruct (all_some l); [discriminate|contradiction].
Qed.

Lemma values_none W e ts : values W e ts <> None <-> forall t, In t ts -> value W e t <> None.
Proof.
  unfold values. rewrite all_some_in. split.
  - intros H t Ht. apply H. now apply in_map.
  - intros H x Hx. apply in_map_iff in Hx. destruct Hx as (t & <- & Ht). auto.
Qed.

(** ** The import literal of an atom *)

Lemma in_computed p n args v t : In (v, t) (computed_terms p n args) <->
  exists k, nth_error args k = Some t /\ is_variable t = false /\ v = new_variable p (n + k).
Proof.
  revert n. induction args as [|x args IH]; intros n; cbn.
  - split; [intros []|intros ([|k] & H & _); discriminate].
  - assert (S : In (v, t) (computed_terms p (S n) args) <->
                exists k, nth_error args k = Some t /\ is_variable t = false /\ v = new_variable p (n + S k)).
    { rewrite IH. split; intros (k & H); exists k; [rewrite Nat.add_succ_r|rewrite Nat.add_succ_r in H]; auto. }
    destruct x as [w|c|f ts]; cbn [In]; rewrite S; clear S IH.
    + split; [intros (k & H); exists (S k); auto|]. intros ([|k] & H1 & H2 & H3); [injection H1 as <-; discriminate|exists k; auto].
    + split.
      * intros [E|(k & H)]; [injection E as <- <-; exists 0; rewrite Nat.add_0_r; auto|exists (S k); auto].
      * intros ([|k] & H1 & H2 & H3); [left; injection H1 as <-; rewrite Nat.add_0_r in H3; congruence|right; exists k; auto].
    + split.
      * intros [E|(k & H)]; [injection E as <- <-; exists 0; rewrite Nat.add_0_r; auto|exists (S k); auto].
      * intros ([|k] & H1 & H2 & H3); [left; injection H1 as <-; rewrite Nat.add_0_r in H3; congruence|right; exists k; auto].
Qed.

Lemma in_import_variables p n args v : In v (import_variables p n args) <->
  In (TVar v) args \/ exists t, In (v, t) (computed_terms p n args).
Proof.
  revert n. induction args as [|x args IH]; intros n; cbn.
  - split; [intros []|intros [[]|(t & [])]].
  - destruct x as [w|c|f ts]; cbn [In]; rewrite IH; split.
    + intros [-> |[H|H]]; auto.
    + intros [[[= ->]|H]|H]; auto.
    + intros [<- |[H|(t & H)]]; [right; eexists; left; reflexivity|auto|right; eauto].
    + intros [[[= ]|H]|(t & [[= <- <-]|H])]; eauto.
    + intros [<- |[H|(t & H)]]; [right; eexists; left; reflexivity|auto|right; eauto].
    + intros [[[= ]|H]|(t & [[= <- <-]|H])]; eauto.
Qed.

(** If the new variables have the values of their terms, the import literal looks up the values of the atom. *)
Lemma import_values W e p n args :
  (forall v t, In (v, t) (computed_terms p n args) -> value W e t = Some (e v)) ->
  values W e args = Some (map e (import_variables p n args)).
Proof.
  unfold values. revert n. induction args as [|x args IH]; intros n H; cbn [map all_some]; auto.
  destruct x as [w|c|f ts]; cbn [computed_terms import_variables map] in *.
  - rewrite (IH (S n)) by auto. reflexivity.
  - rewrite (IH (S n)) by (intros v t Ht; apply H; cbn; auto). rewrite (H _ _ (or_introl eq_refl)). reflexivity.
  - rewrite (IH (S n)) by (intros v t Ht; apply H; cbn; auto). rewrite (H _ _ (or_introl eq_refl)). reflexivity.
Qed.

(** ** The new body *)

Definition lit_atom (neg : bool) (a : atom) : literal := if neg then LNeg a else LPos a.

Definition moved (inl : string -> option import) (l : literal) : Prop :=
  match l with LPos a | LNeg a => inl (a_pred a) <> None | LOp _ => False end.

Lemma in_w_body inl der body id l : In l (w_body (rewrite_body inl der body id)) <-> In l body /\ ~ moved inl l.
Proof.
  revert id. induction body as [|x body IH]; intros id; cbn [rewrite_body]; [cbn; tauto|].
  destruct x as [a|a|o].
  - destruct (inl (a_pred a)) as [i|] eqn:E; cbn [w_body In]; rewrite IH.
    + split; [tauto|]. intros ([<- |H] & M); [exfalso; apply M; cbn; congruence|auto].
    + split; [|tauto]. intros [<- |H]; [split; [now left|cbn; tauto]|tauto].
  - destruct (inl (a_pred a)) as [i|] eqn:E; cbn [w_body In]; rewrite IH.
    + split; [tauto|]. intros ([<- |H] & M); [exfalso; apply M; cbn; congruence|auto].
    + split; [|tauto]. intros [<- |H]; [split; [now left|cbn; tauto]|tauto].
  - cbn [w_body In]. rewrite IH. split; [intros [<- |H]; [split; [now left|cbn; tauto]|tauto]|tauto].
Qed.

Lemma w_import_of inl der body id il : In il (w_imports (rewrite_body inl der body id)) ->
  exists a i, In (lit_atom (il_negated il) a) body /\ inl (a_pred a) = Some i /\
    i_source (il_import il) = i_source i /\ il_vars il = import_variables (a_pred a) 0 (a_args a).
Proof.
  revert id. induction body as [|x body IH]; intros id; cbn [rewrite_body]; [intros []|].
  assert (R : forall id', In il (w_imports (rewrite_body inl der body id')) ->
    exists a i, In (lit_atom (il_negated il) a) (x :: body) /\ inl (a_pred a) = Some i /\
    i_source (il_import il) = i_source i /\ il_vars il = import_variables (a_pred a) 0 (a_args a)).
  { intros id' H. apply IH in H. destruct H as (a & i & H & H'). exists a, i. split; auto. now right. }
  destruct x as [a|a|o]; try (destruct (inl (a_pred a)) as [i|] eqn:E); cbn [w_imports]; try (intros H; exact (R _ H)); intros [<- |H]; try exact (R _ H);
    exists a, i; cbn [il_negated il_import il_vars lit_atom negb]; (split; [now left|split; [auto|split; [|auto]]]);
    destruct (der (i_pred i)); reflexivity.
Qed.

Lemma w_import_for inl der body id neg a i : In (lit_atom neg a) body -> inl (a_pred a) = Some i ->
  exists il, In il (w_imports (rewrite_body inl der body id)) /\ il_negated il = neg /\
    i_source (il_import il) = i_source i /\ il_vars il = import_variables (a_pred a) 0 (a_args a).
Proof.
  intros H Hi. revert id H. induction body as [|x body IH]; intros id; cbn [rewrite_body]; [intros []|].
  intros [Hx|H].
  - subst x. destruct neg; cbn [lit_atom]; rewrite Hi; cbn [w_imports]; eexists; (split; [left; reflexivity|]);
      cbn; (split; [auto|split; [|auto]]); destruct (der (i_pred i)); reflexivity.
  - destruct x as [b|b|o]; try (destruct (inl (a_pred b)) as [j|] eqn:E); cbn [w_imports];
      match goal with |- context [rewrite_body inl der body ?n] => destruct (IH n H) as (il & Hil & Hr) end; exists il; (split; [|exact Hr]);
      cbn [In]; auto.
Qed.

Lemma in_w_computed inl der body id c : In c (w_computed (rewrite_body inl der body id)) <->
  exists neg a, In (lit_atom neg a) body /\ inl (a_pred a) <> None /\ In c (computed_terms (a_pred a) 0 (a_args a)).
Proof.
  revert id. induction body as [|x body IH]; intros id; cbn [rewrite_body]; [cbn; split; [intros []|intros (n & a & [] & _)]|].
  assert (G : forall d neg a, In (lit_atom neg a) (x :: body) -> inl (a_pred a) <> None -> 
            In d (computed_terms (a_pred a) 0 (a_args a)) -> x = lit_atom neg a \/ exists neg a, In (lit_atom neg a) body /\ inl (a_pred a) <> None /\ In d (computed_terms (a_pred a) 0 (a_args a))).
  { intros d neg a [H|H] H1 H2; eauto 6. }
  destruct x as [b|b|o]; try (destruct (inl (a_pred b)) as [i|] eqn:E); cbn [w_computed]; rewrite ?in_app_iff, IH; split.
  - intros [H|(n & a & H1 & H2)]; [exists false, b|exists n, a]; cbn; intuition congruence.
  - intros (n & a & H1 & H2 & H3). destruct (G _ _ _ H1 H2 H3) as [Hx|Hx]; auto. destruct n; [discriminate|]. injection Hx as ->. auto.
  - intros (n & a & H1 & H2). exists n, a. cbn. tauto.
  - intros (n & a & H1 & H2 & H3). destruct (G _ _ _ H1 H2 H3) as [Hx|Hx]; auto. destruct n; [discriminate|]. injection Hx as ->. congruence.
  - intros [H|(n & a & H1 & H2)]; [exists true, b|exists n, a]; cbn; intuition congruence.
  - intros (n & a & H1 & H2 & H3). destruct (G _ _ _ H1 H2 H3) as [Hx|Hx]; auto. destruct n; [|discriminate]. injection Hx as ->. auto.
  - intros (n & a & H1 & H2). exists n, a. cbn. tauto.
  - intros (n & a & H1 & H2 & H3). destruct (G _ _ _ H1 H2 H3) as [Hx|Hx]; auto. destruct n; [|discriminate]. injection Hx as ->. congruence.
  - intros (n & a & H1 & H2). exists n, a. cbn. tauto.
  - intros (n & a & H1 & H2 & H3). destruct (G _ _ _ H1 H2 H3) as [Hx|Hx]; auto. destruct n; discriminate.
Qed.
