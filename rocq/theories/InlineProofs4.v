(** The atoms that are inlined are restricted. *)
From Coq Require Import String Ascii List Arith Bool Lia.
From Verif Require Import InlineModel InlineSpec InlineProofs1 InlineProofs2.
Import ListNotations.
Local Open Scope list_scope.

Lemma mem_In x l : mem x l = true <-> In x l.
Proof.
  unfold mem. rewrite existsb_exists. split.
  - intros (y & Hy & E). apply String.eqb_eq in E. now subst.
  - intros H. exists x. split; auto. apply String.eqb_refl.
Qed.

Lemma in_body_positive r a : In a (body_positive r) <-> In (LPos a) (r_body r).
Proof.
  unfold body_positive. rewrite in_flat_map. split.
  - intros ([b|b|o] & H & Hb); cbn in Hb; try contradiction. destruct Hb as [-> |[]]. auto.
  - intros H. exists (LPos a). split; auto. now left.
Qed.

Lemma in_body_operations r o : In o (body_operations r) <-> In (LOp o) (r_body r).
Proof.
  unfold body_operations. rewrite in_flat_map. split.
  - intros ([b|b|p] & H & Hb); cbn in Hb; try contradiction. destruct Hb as [-> |[]]. auto.
  - intros H. exists (LOp o). split; auto. now left.
Qed.

Section one.
  Variables (inl : string -> option import) (r : rule).
  Let I p := inl p <> None.

  Lemma pass_available ops av : incl ops (body_operations r) -> (forall v, In v av -> available I r v) ->
    forall v, In v (assignment_pass ops av) -> available I r v.
  Proof.
    unfold assignment_pass. revert av. induction ops as [|o ops IH]; intros av Ho Hav; cbn [fold_left]; auto.
    apply IH; [intros x Hx; apply Ho; now right|]. destruct (variable_assignment o) as [(v, t)|] eqn:E; auto.
    destruct (forallb _ _) eqn:F; auto. intros x [<- |Hx]; auto.
    assert (Hin : In (LOp o) (r_body r)) by (apply in_body_operations, Ho; now left).
    assert (G : forall x, In x (term_vars t) -> available I r x).
    { intros y Hy. rewrite forallb_forall in F. apply Hav. apply mem_In. auto. }
    destruct o as [l u|c]; [|discriminate]. cbn in E. destruct l as [w|c|f ts].
    - injection E as -> ->. eapply av_left; eauto.
    - destruct u as [w| |]; try discriminate. injection E as -> <-. eapply av_right; eauto.
    - destruct u as [w| |]; try discriminate. injection E as -> <-. eapply av_right; eauto.
  Qed.

  Lemma available_ok v : In v (available_variables inl r) -> available I r v.
  Proof.
    unfold available_variables. set (n := List.length _). clearbody n. revert v. induction n as [|n IH]; cbn [Nat.iter nat_rect].
    - intros v H. apply in_flat_map in H. destruct H as (a & Ha & Hv). apply filter_In in Ha. destruct Ha as (Ha & Hn).
      apply av_atom with a; auto; [now apply in_body_positive|]. unfold I. unfold inlinable in Hn. destruct (inl (a_pred a)); [discriminate|auto].
    - apply pass_available; auto. apply incl_refl.
  Qed.

  Definition restricted (a : atom) : Prop := ~ I (a_pred a) \/ (exists t, In t (a_args a) /\ is_variable t = false) \/ joined I r a.

  Definition after_good (after : list (string * list string)) : Prop :=
    forall p vs, In (p, vs) after -> exists b, a_pred b = p /\ vs = atom_vars b /\ joined I r b.

  Lemma restricted_pass_ok todo after u after' : incl todo (body_positive r) -> after_good after ->
    restricted_pass inl (available_variables inl r) todo after = (u, after') ->
    after_good after' /\ incl u todo /\ forall a, In a todo -> In a u \/ restricted a.
  Proof.
    revert after u after'. induction todo as [|a todo IH]; intros after u after' Hi Hg; cbn [restricted_pass].
    - intros [= <- <-]. repeat split; auto. apply incl_refl.
    - assert (Hi' : incl todo (body_positive r)) by (intros x Hx; apply Hi; now right).
      destruct (negb _ || _) eqn:E1; [|destruct (existsb _ (atom_vars a)) eqn:E2].
      + intros H. destruct (IH after u after' Hi' Hg H) as (G1 & G2 & G3). split; auto. split; [intros x Hx; right; auto|].
        intros b [<- |Hb]; auto. right. apply orb_true_iff in E1. destruct E1 as [E1|E1].
        * left. unfold I. unfold inlinable in E1. destruct (inl (a_pred a)); [discriminate|auto].
        * right. left. apply existsb_exists in E1. destruct E1 as (t & Ht & E). exists t. split; auto. now destruct (is_variable t).
      + assert (J : joined I r a).
        { apply existsb_exists in E2. destruct E2 as (v & Hv & E). assert (Ha : In (LPos a) (r_body r)) by (apply in_body_positive, Hi; now left).
          apply orb_true_iff in E. destruct E as [E|E]; apply mem_In in E.
          - apply j_available with v; auto. now apply available_ok.
          - unfold after_of in E. apply in_flat_map in E. destruct E as ((p, vs) & Hp & E). cbn in E.
            destruct (String.eqb_spec p (a_pred a)) as [->|]; [|contradiction]. destruct (Hg _ _ Hp) as (b & Eb & -> & Jb).
            apply j_same with b v; auto. }
        intros H. apply IH in H; auto.
        * destruct H as (G1 & G2 & G3). split; auto. split; [intros x Hx; right; auto|]. intros b [<- |Hb]; auto. right. right. right. auto.
        * intros p vs [[= <- <-]|Hp]; [exists a; auto|auto].
      + destruct (restricted_pass inl (available_variables inl r) todo after) as (u0, after0) eqn:R. intros [= <- <-].
        destruct (IH after u0 after0 Hi' Hg R) as (G1 & G2 & G3). split; auto. split.
        * intros x [<- |Hx]; [now left|right; auto].
        * intros b [<- |Hb]; [left; now left|]. destruct (G3 b Hb); auto. left. now right.
  Qed.

  Lemma restricted_iter n s : incl (fst s) (body_positive r) -> after_good (snd s) -> (forall a, In a (body_positive r) -> In a (fst s) \/ restricted a) ->
    forall s', s' = Nat.iter n (fun s => restricted_pass inl (available_variables inl r) (fst s) (snd s)) s ->
    incl (fst s') (body_positive r) /\ after_good (snd s') /\ forall a, In a (body_positive r) -> In a (fst s') \/ restricted a.
  Proof.
    intros H1 H2 H3. induction n as [|n IH]; cbn [Nat.iter nat_rect]; intros s' ->; auto.
    destruct (IH _ eq_refl) as (G1 & G2 & G3). unfold Nat.iter in *. set (s1 := nat_rect _ _ _ n) in *.
    destruct (restricted_pass inl (available_variables inl r) (fst s1) (snd s1)) as (u, af) eqn:R. cbn [fst snd].
    destruct (restricted_pass_ok _ _ _ _ G1 G2 R) as (K1 & K2 & K3). split; [intros x Hx; auto|]. split; auto.
    intros a Ha. destruct (G3 a Ha) as [Hx|Hx]; auto.
  Qed.

  Lemma possible_restricted : possible_rule inl r = true -> forall a, In (LPos a) (r_body r) -> restricted a.
  Proof.
    unfold possible_rule. destruct (forallb _ _); [discriminate|]. intros H a Ha. unfold has_unrestricted_atom in H.
    unfold unrestricted_atoms in H. set (s' := Nat.iter _ _ _) in H.
    destruct (restricted_iter (S (List.length (body_positive r))) (body_positive r, [])) with (s' := s') as (_ & _ & K); auto.
    - apply incl_refl.
    - intros p vs [].
    - apply in_body_positive in Ha. destruct (K a Ha) as [X|X]; auto. destruct (fst s'); [destruct X|discriminate].
  Qed.
End one.

Lemma available_mono (I J : string -> Prop) r v : (forall p, J p -> I p) -> available I r v -> available J r v.
Proof.
  intros H A. induction A as [a v Ha Hn Hv|v t Ho _ IH|v t Ho _ IH].
  - apply av_atom with a; auto.
  - eapply av_left; eauto.
  - eapply av_right; eauto.
Qed.

Lemma joined_mono (I J : string -> Prop) r a : (forall p, J p -> I p) -> joined I r a -> joined J r a.
Proof.
  intros H A. induction A as [a v Ha Hv Av|a b v Ha _ IH E V1 V2].
  - apply j_available with v; auto. eapply available_mono; eauto.
  - eapply j_same; eauto.
Qed.

Lemma inlined_restricted P r a : In (SRule r) P -> In (LPos a) (r_body r) -> is_inlined P (a_pred a) ->
  (exists t, In t (a_args a) /\ is_variable t = false) \/ joined (is_inlined P) r a.
Proof.
  intros Hr Ha Hi. assert (Sub : forall p, is_inlined P p -> candidates P p <> None).
  { intros p. unfold is_inlined, incremental_predicates. destruct (normal P p); auto. }
  assert (Pr : possible_rule (candidates P) r = true).
  { destruct (possible_rule (candidates P) r) eqn:E; auto. exfalso. apply Hi. unfold incremental_predicates.
    assert (N : normal P (a_pred a) = true); [|now rewrite N]. apply existsb_exists. exists (SRule r). split; auto. rewrite E.
    apply orb_true_iff. right. cbn. apply existsb_exists. exists a. split; [now apply in_body_positive|]. apply String.eqb_refl. }
  destruct (possible_restricted _ _ Pr a Ha) as [H|[H|H]]; auto.
  - exfalso. apply H. auto.
  - right. eapply joined_mono; [|exact H]. auto.
Qed.

Lemma derives_inv W P N p t : derives W P N p t ->
  In (SFact p t) P \/ (exists i, In (SImport i) P /\ i_pred i = p /\ results W (i_source i) t) \/
  exists r e a, In (SRule r) P /\ In a (r_head r) /\ a_pred a = p /\ body_true W (derives W P N) N r e.
Proof.
  intros H. destruct H as [p t H|i t H Hr|r e a t Hr Ha Ht B1 B2 B3 B4 B5 B6 B7].
  - left. auto.
  - right. left. exists i. auto.
  - right. right. exists r, e, a. split; auto. split; auto. split; auto. split; auto.
Qed.
