(* Proofs about type propagation and the function operator. *)
From Coq Require Import List Arith Bool Lia.
From Verif Require Import ExprModel ExprSpec ExprProofs ExprProofs2.
Import ListNotations.

Section Proofs.
Context (L : language).
Notation value := (val L).
Notation tree := (tree L).

Lemma conforms_rev : forall ts (vs : list value), conforms ts vs -> conforms (rev ts) (rev vs).
Proof.
  intros ts vs H. unfold conforms in *. induction H as [|t v ts vs Hv _ IH]; [constructor|].
  cbn [rev]. apply Forall2_app; [exact IH|constructor; [exact Hv|constructor]].
Qed.

Lemma pop_types_app : forall ts st, pop_types (length ts) (ts ++ st) = Some (ts, st).
Proof. induction ts as [|t ts IH]; intros st; cbn; [destruct st; reflexivity|]. rewrite IH. reflexivity. Qed.

Lemma conforms_nth : forall ts (vs : list value) i v, conforms ts vs -> nth_error vs i = Some v ->
  exists t, nth_error ts i = Some t /\ types_contains t (stored_as L v) = true.
Proof.
  intros ts vs i v H. unfold conforms in H. revert i. induction H as [|t w ts vs Hw _ IH]; intros [|i] Hi;
    cbn in *; try discriminate; [injection Hi as <-; eauto|eauto].
Qed.

(* every compiled expression has announced types, and they cover its value *)
Definition announced (env : nat -> option value) (t : tree) (T : types) : Prop :=
  forall v, sem env t = Some v -> types_contains T (stored_as L v) = true.

Lemma type_list : forall refmap (rts : list types) (ts : list tree) o,
  Forall (fun t : tree => constants_typed t -> forall o : list (sop L), build None refmap t = Ok o -> exists T,
     (forall rest st, type_propagation (o ++ rest) rts None st = type_propagation rest rts None (T :: st)) /\
     forall refs, conforms rts refs -> announced (env_of None None refmap refs) t T) ts ->
  fold_right (fun t P => constants_typed t /\ P) True ts ->
  build_list L None refmap ts = Ok o -> exists Ts,
    (forall rest st, type_propagation (o ++ rest) rts None st = type_propagation rest rts None (rev Ts ++ st)) /\
    length Ts = length ts /\
    forall refs, conforms rts refs -> forall vs, collect (map (sem (env_of None None refmap refs)) ts) = Some vs -> conforms Ts vs.
Proof.
  intros refmap rts ts. induction ts as [|t ts IH]; intros o HF Hk Hb.
  - cbn in Hb. injection Hb as <-. exists []. split; [reflexivity|]. split; [reflexivity|].
    intros refs _ vs H. cbn in H. injection H as <-. constructor.
  - inversion HF as [|? ? Ht Hts]; subst. cbn [build_list] in Hb. fold (build_list L None refmap) in Hb.
    destruct Hk as [Hk1 Hk2].
    destruct (build None refmap t) as [o1|] eqn:E1; cbn [bind] in Hb; [|discriminate].
    destruct (build_list L None refmap ts) as [o2|] eqn:E2; cbn [bind] in Hb; [|discriminate].
    injection Hb as <-. destruct (Ht Hk1 o1 eq_refl) as (T & HT & HTv).
    destruct (IH o2 Hts Hk2 eq_refl) as (Ts & HTs & Hlen & HTsv).
    exists (T :: Ts). split; [|split; [cbn; congruence|]].
    + intros rest st. rewrite <- app_assoc, HT, HTs. cbn [rev]. rewrite <- app_assoc. reflexivity.
    + intros refs Hrefs vs H. cbn in H. destruct (sem (env_of None None refmap refs) t) as [v|] eqn:Ev; [|discriminate].
      destruct (collect (map (sem (env_of None None refmap refs)) ts)) as [vs'|] eqn:Evs; [|discriminate].
      injection H as <-. constructor; [apply (HTv refs Hrefs), Ev|]. apply (HTsv refs Hrefs). exact Evs.
Qed.

Lemma type_tree : typed L -> forall refmap (rts : list types) (t : tree),
  length refmap <= length rts ->
  constants_typed t -> forall o, build None refmap t = Ok o -> exists T,
     (forall rest st, type_propagation (o ++ rest) rts None st = type_propagation rest rts None (T :: st)) /\
     forall refs, conforms rts refs -> announced (env_of None None refmap refs) t T.
Proof.
  intros HT refmap rts t Hlen.
  induction t as [c|r|f t IH|f l r IHl IHr|f a b c IHa IHb IHc|f ts IH] using tree_induction; intros Hk o Hb.
  - cbn in Hb. injection Hb as <-. exists (domain_types L c). split.
    + intros rest st. cbn. reflexivity.
    + intros refs Hconf v Hv. cbn in Hv. injection Hv as <-. exact Hk.
  - cbn [build] in Hb. destruct (find_index r refmap) as [i|] eqn:Ei; [|discriminate]. injection Hb as <-.
    assert (Hi : i < length rts).
    { apply find_index_spec in Ei. assert (i < length refmap) by (apply nth_error_Some; congruence). lia. }
    destruct (nth_error rts i) as [T|] eqn:ET; [|apply nth_error_None in ET; lia].
    exists T. split.
    + intros rest st. cbn. rewrite ET. reflexivity.
    + intros refs Hconf v Hv. cbn in Hv. unfold env_of in Hv. cbn in Hv. rewrite Ei in Hv.
      destruct (conforms_nth rts refs i v Hconf Hv) as (T' & HT' & Hc). congruence.
  - cbn [build] in Hb. destruct (build None refmap t) as [o1|] eqn:E1; cbn [bind] in Hb; [|discriminate].
    injection Hb as <-. destruct (IH Hk o1 eq_refl) as (T1 & H1 & Hv1).
    exists (propagate (ty1 L f) [T1]). split.
    + intros rest st. rewrite <- app_assoc, H1. reflexivity.
    + intros refs Hconf v Hv. cbn [sem] in Hv. destruct (sem (env_of None None refmap refs) t) as [w|] eqn:Ew; [|discriminate].
      eapply typed1; [exact HT|exact Hv|]. constructor; [apply (Hv1 refs Hconf), Ew|constructor].
  - cbn [build] in Hb. destruct (build None refmap l) as [o1|] eqn:E1; cbn [bind] in Hb; [|discriminate].
    destruct (build None refmap r) as [o2|] eqn:E2; cbn [bind] in Hb; [|discriminate].
    injection Hb as <-. destruct Hk as [Hk1 Hk2].
    destruct (IHl Hk1 o1 eq_refl) as (T1 & H1 & Hv1). destruct (IHr Hk2 o2 eq_refl) as (T2 & H2 & Hv2).
    exists (propagate (ty2 L f) [T2; T1]). split.
    + intros rest st. rewrite <- !app_assoc, H1, H2. reflexivity.
    + intros refs Hconf v Hv. cbn [sem] in Hv. destruct (sem (env_of None None refmap refs) l) as [w1|] eqn:Ew1; [|discriminate].
      destruct (sem (env_of None None refmap refs) r) as [w2|] eqn:Ew2; [|discriminate].
      eapply typed2; [exact HT|exact Hv|]. constructor; [apply (Hv2 refs Hconf), Ew2|constructor; [apply (Hv1 refs Hconf), Ew1|constructor]].
  - cbn [build] in Hb. destruct (build None refmap a) as [o1|] eqn:E1; cbn [bind] in Hb; [|discriminate].
    destruct (build None refmap b) as [o2|] eqn:E2; cbn [bind] in Hb; [|discriminate].
    destruct (build None refmap c) as [o3|] eqn:E3; cbn [bind] in Hb; [|discriminate].
    injection Hb as <-. destruct Hk as (Hk1 & Hk2 & Hk3).
    destruct (IHa Hk1 o1 eq_refl) as (T1 & H1 & Hv1). destruct (IHb Hk2 o2 eq_refl) as (T2 & H2 & Hv2).
    destruct (IHc Hk3 o3 eq_refl) as (T3 & H3 & Hv3).
    exists (propagate (ty3 L f) [T3; T2; T1]). split.
    + intros rest st. rewrite <- !app_assoc, H1, H2, H3. reflexivity.
    + intros refs Hconf v Hv. cbn [sem] in Hv. destruct (sem (env_of None None refmap refs) a) as [w1|] eqn:Ew1; [|discriminate].
      destruct (sem (env_of None None refmap refs) b) as [w2|] eqn:Ew2; [|discriminate].
      destruct (sem (env_of None None refmap refs) c) as [w3|] eqn:Ew3; [|discriminate].
      eapply typed3; [exact HT|exact Hv|].
      constructor; [apply (Hv3 refs Hconf), Ew3|constructor; [apply (Hv2 refs Hconf), Ew2|constructor; [apply (Hv1 refs Hconf), Ew1|constructor]]].
  - rewrite build_nar in Hb. destruct (build_list L None refmap ts) as [o1|] eqn:E1; cbn [bind] in Hb; [|discriminate].
    injection Hb as <-. destruct (type_list refmap rts ts o1 IH Hk E1) as (Ts & HTs & Hl & Hvs).
    exists (propagate (tyn L f) (rev Ts)). split.
    + intros rest st. rewrite <- app_assoc, HTs. cbn [type_propagation app].
      replace (length ts) with (length (rev Ts)) by (rewrite rev_length; exact Hl).
      rewrite pop_types_app. reflexivity.
    + intros refs Hconf v Hv. cbn [sem] in Hv.
      destruct (collect (map (sem (env_of None None refmap refs)) ts)) as [vs|] eqn:Evs; [|discriminate].
      eapply typedn; [exact HT|exact Hv|]. apply conforms_rev, (Hvs refs Hconf). exact Evs.
Qed.

Lemma compile_type : typed L -> forall debug refmap (rts : list types) (t : tree) p,
  length refmap <= length rts -> constants_typed t ->
  compile debug None refmap t = Ok p -> exists T,
    type_propagation p rts None [] = Ok T /\
    forall refs, conforms rts refs -> announced (env_of None None refmap refs) t T.
Proof.
  intros HT debug refmap rts t p Hlen Hk Hp. apply compile_build in Hp.
  destruct (type_tree HT refmap rts t Hlen Hk p Hp) as (T & H & Hv).
  exists T. split; [|exact Hv]. specialize (H [] []). rewrite app_nil_r in H. rewrite H. reflexivity.
Qed.

End Proofs.
Arguments announced {L}.
