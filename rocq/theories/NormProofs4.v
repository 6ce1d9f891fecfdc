(** What validation ensures, and the normal form of a valid rule. *)
From Coq Require Import List Arith ZArith Bool Lia Permutation.
From Verif Require Import TableModel EngineModel EngineSpec EngineProofs1 NormModel NormSpec NormProofs1 NormProofs2 NormProofs3.
Import ListNotations.

Record good (r : srule) : Prop := {
  g_pos : exists p ts, In (LPos p ts) (s_body r);
  g_head_vars : forall p ts t v, In (p, ts) (s_head r) -> In t ts -> In v (uvars t) -> safe r v;
  g_head_anon : forall p ts t, In (p, ts) (s_head r) -> In t ts -> has_anon t = false;
  g_head_terms : forall p ts t, In (p, ts) (s_head r) -> In t ts -> exists b, head_term_ok (group_by_variables ts) t = Some b;
  g_head_one : forall p ts i j t u, In (p, ts) (s_head r) -> nth_error ts i = Some t -> nth_error ts j = Some u -> aggregating t -> aggregating u -> i = j;
  g_head_ex : forall p ts q us t, In (p, ts) (s_head r) -> aggregating_atom ts -> In (q, us) (s_head r) -> In t us -> has_ex t = false;
  g_body_op : forall l t, In l (s_body r) -> In t (literal_terms l) -> op_term t = true /\ has_ex t = false;
  g_body_safe : forall l k us v, In l (s_body r) -> In (TOp k us) (literal_terms l) -> In v (flat_map uvars us) -> safe r v;
  g_body_anon : forall l k us, In l (s_body r) -> In (TOp k us) (literal_terms l) -> has_anon (TOp k us) = false;
  g_op_anon : forall k us t, In (LOp k us) (s_body r) -> In t us -> has_anon t = false;
  g_op_eq : forall us, In (LOp KEqual us) (s_body r) -> length us = 2;
  g_neg : forall i j p ts q us v, nth_error (body_negative r) i = Some (p, ts) -> nth_error (body_negative r) j = Some (q, us) -> i <> j ->
     In (TVar v) ts -> In (TVar v) us -> safe r v }.

Lemma prim_in ts v : In v (flat_map prim_var ts) <-> In (TVar v) ts.
Proof.
  rewrite in_flat_map. split.
  - intros (t & Ht & Hv). destruct t; simpl in Hv; try destruct Hv as [<-|[]]; auto; destruct Hv.
  - intros H. exists (TVar v). simpl. auto.
Qed.
Lemma body_term_ex s t : body_term_ok s t = true -> has_ex t = false.
Proof.
  induction t as [v| |v|c|k ts IH|f t ds _|ts _] using term_ind'; simpl; auto; try discriminate. intros H. apply andb_prop in H. destruct H as [H _].
  apply andb_prop in H. destruct H as [_ H]. now apply negb_true_iff in H.
Qed.

Lemma body_ok_spec s : forall body seen, body_ok s seen body = true ->
  (forall l, In l body -> literal_ok l = true /\ forallb (body_term_ok s) (literal_terms l) = true) /\
  (forall l v, In l body -> In v (negative_vars s l) -> ~ In v seen) /\
  (forall i j p ts q us v, nth_error (flat_map (fun l => match l with LNeg p ts => [(p, ts)] | _ => [] end) body) i = Some (p, ts) ->
     nth_error (flat_map (fun l => match l with LNeg p ts => [(p, ts)] | _ => [] end) body) j = Some (q, us) -> i < j ->
     In (TVar v) ts -> In (TVar v) us -> In v s).
Proof.
  induction body as [|l body IH]; intros seen H; simpl in H.
  - split; [intros l []|]. split; [intros l v []|]. intros [|i] j p ts q us v Hi; discriminate.
  - apply andb_prop in H. destruct H as [H H4]. apply andb_prop in H. destruct H as [H H3]. apply andb_prop in H. destruct H as [H1 H2].
    destruct (IH _ H4) as (I1 & I2 & I3). rewrite forallb_forall in H3. split; [|split].
    + intros l' [<-|Hl]; auto.
    + intros l' v [<-|Hl] Hv Hs.
      * apply H3 in Hv. apply negb_true_iff, memv_false in Hv. auto.
      * apply (I2 l' v Hl Hv). apply in_or_app. now right.
    + assert (Hno : forall p ts q us v, l = LNeg p ts -> In (q, us) (flat_map (fun l => match l with LNeg p ts => [(p, ts)] | _ => [] end) body) ->
          In (TVar v) ts -> In (TVar v) us -> In v s).
      { intros p ts q us v -> Hq Hv Hw. apply in_flat_map in Hq. destruct Hq as (l' & Hl' & Hq). destruct l' as [p' t'|p' t'|k' t']; try destruct Hq as [Hq|[]]; try (destruct Hq; fail). injection Hq as -> ->.
        destruct (memv v s) eqn:Em; [now apply memv_in|]. exfalso. apply (I2 (LNeg q us) v Hl').
        - simpl. apply filter_In. split; [now apply prim_in|]. now rewrite Em.
        - apply in_or_app. left. simpl. apply filter_In. split; [now apply prim_in|]. now rewrite Em. }
      intros i j p ts q us v Hi Hj Hij Hv Hw. destruct l as [p0 t0|p0 t0|k0 t0]; simpl in Hi, Hj; eauto.
      destruct i as [|i].
      * simpl in Hi. injection Hi as -> ->. destruct j as [|j]; [lia|]. simpl in Hj. apply nth_error_In in Hj. eapply Hno; eauto.
      * destruct j as [|j]; [lia|]. simpl in Hi, Hj. apply (I3 i j p ts q us v); auto. lia.
Qed.

Lemma validate_good r : validate r = true -> good r.
Proof.
  unfold validate. destruct (safe_variables_spec r) as (s & Es & Hs). rewrite Es. intros H.
  apply andb_prop in H. destruct H as [H H3]. apply andb_prop in H. destruct H as [H1 H2].
  destruct (body_ok_spec s (s_body r) [] H3) as (B1 & _ & B3). rewrite forallb_forall in H2.
  assert (Hhead : forall p ts, In (p, ts) (s_head r) -> (forall t v, In t ts -> In v (uvars t) -> safe r v) /\ (forall t, In t ts -> has_anon t = false) /\
      exists b, agg_fold (head_term_ok (group_by_variables ts)) ts false = Some b /\ (b = true -> existsb (fun b => existsb has_ex (snd b)) (s_head r) = false)).
  { intros p ts Hp. specialize (H2 _ Hp). unfold head_atom_ok in H2. simpl in H2. apply andb_prop in H2. destruct H2 as [H2 Q4]. apply andb_prop in H2. destruct H2 as [H2 Q3].
    apply andb_prop in H2. destruct H2 as [Q1 Q2]. split; [|split].
    - intros t v Ht Hv. apply Hs. apply inclb_incl in Q2. apply Q2. apply in_flat_map. eauto.
    - apply existsb_false. now apply negb_true_iff in Q3.
    - destruct (agg_fold _ ts false) as [b|]; [|discriminate]. exists b. split; auto. intros ->. apply negb_true_iff in Q4. auto. }
  assert (Hterm : forall p ts t, In (p, ts) (s_head r) -> In t ts -> exists b, head_term_ok (group_by_variables ts) t = Some b).
  { intros p ts t Hp Ht. destruct (Hhead p ts Hp) as (_ & _ & b & Eb & _). apply agg_fold_spec in Eb. destruct Eb as (Q & _). auto. }
  assert (Hagg : forall p ts t, In (p, ts) (s_head r) -> In t ts -> aggregating t -> head_term_ok (group_by_variables ts) t = Some true).
  { intros p ts t Hp Ht Ha. destruct (Hterm p ts t Hp Ht) as (b & Eb). destruct (head_term_spec _ t b Eb) as ((_ & Q) & _). rewrite Eb, Q; auto. }
  assert (Hbody : forall l t, In l (s_body r) -> In t (literal_terms l) -> body_term_ok s t = true).
  { intros l t Hl Ht. destruct (B1 l Hl) as [_ Q]. rewrite forallb_forall in Q. auto. }
  constructor.
  - apply existsb_exists in H1. destruct H1 as ([p ts|p ts|k ts] & Hl & El); try discriminate. eauto.
  - intros p ts t v Hp Ht Hv. apply (proj1 (Hhead p ts Hp) t v Ht Hv).
  - intros p ts t Hp Ht. now apply (Hhead p ts Hp).
  - exact Hterm.
  - intros p ts i j t u Hp Hi Hj Ha Hb. destruct (Hhead p ts Hp) as (_ & _ & b & Eb & _). apply agg_fold_spec in Eb. destruct Eb as (_ & _ & _ & Q).
    apply (Q i j t u Hi Hj); (apply (Hagg p); [exact Hp|eapply nth_error_In; eauto|auto]).
  - intros p ts q us t Hp (t0 & Ht0 & Ha) Hq Ht. destruct (Hhead p ts Hp) as (_ & _ & b & Eb & Q). apply agg_fold_spec in Eb. destruct Eb as (_ & Qb & _).
    assert (Hb : b = true) by (apply Qb; right; exists t0; split; [exact Ht0|apply (Hagg p); auto]). specialize (Q Hb).
    rewrite existsb_false in Q. specialize (Q _ Hq). simpl in Q. rewrite existsb_false in Q. auto.
  - intros l t Hl Ht. specialize (Hbody l t Hl Ht). split; [eapply body_term_op; eauto|eapply body_term_ex; eauto].
  - intros l k us v Hl Ht Hv. specialize (Hbody l _ Hl Ht). simpl in Hbody. apply andb_prop in Hbody. destruct Hbody as [Q _]. apply andb_prop in Q. destruct Q as [Q _].
    apply inclb_incl in Q. apply Hs. auto.
  - intros l k us Hl Ht. destruct (B1 l Hl) as [Q _].
    assert (Qt : shape_ok (TOp k us) = true).
    { destruct l as [p ts|p ts|k0 ts]; simpl in Q, Ht.
      1,2: unfold atom_ok in Q; apply andb_prop in Q; destruct Q as [_ Q]; rewrite forallb_forall in Q; auto.
      apply andb_prop in Q. destruct Q as [_ Q]. rewrite forallb_forall in Q. auto. }
    simpl in Qt. apply andb_prop in Qt. destruct Qt as [Qt _]. apply andb_prop in Qt. destruct Qt as [Qt _]. now apply negb_true_iff in Qt.
  - intros k us t Hl Ht. destruct (B1 _ Hl) as [Q _]. simpl in Q. apply andb_prop in Q. destruct Q as [Q _]. apply andb_prop in Q. destruct Q as [Q _].
    apply negb_true_iff in Q. rewrite existsb_false in Q. auto.
  - intros us Hl. destruct (B1 _ Hl) as [Q _]. simpl in Q. apply andb_prop in Q. destruct Q as [Q _]. apply andb_prop in Q. destruct Q as [_ Q]. now apply Nat.eqb_eq in Q.
  - intros i j p ts q us v Hi Hj Hne Hv Hw. apply Hs. destruct (Nat.lt_total i j) as [Hlt|[?|Hlt]]; [|contradiction|].
    + apply (B3 i j p ts q us v Hi Hj Hlt Hv Hw).
    + apply (B3 j i q us p ts v Hj Hi Hlt Hw Hv).
Qed.

Lemma safe_dec r v : {safe r v} + {~ safe r v}.
Proof.
  destruct (safe_variables r) as [s|] eqn:E.
  - assert (H : forall w, In w s <-> safe r w) by (destruct (safe_variables_spec r) as (s' & E' & H'); rewrite E in E'; injection E' as <-; exact H').
    destruct (in_dec Nat.eq_dec v s) as [Hi|Hi]; [left|right]; rewrite <- H; auto.
  - exfalso. destruct (safe_variables_spec r) as (s' & E' & _). congruence.
Qed.

Lemma in_positive_lit r p ts : In (p, ts) (body_positive r) <-> In (LPos p ts) (s_body r).
Proof.
  unfold body_positive. rewrite in_flat_map. split.
  - intros ([q us|q us|k us] & Hl & H); try destruct H as [H|[]]; try (destruct H; fail). injection H as -> ->. auto.
  - intros H. exists (LPos p ts). simpl. auto.
Qed.
Lemma in_negative_lit r p ts : In (p, ts) (body_negative r) <-> In (LNeg p ts) (s_body r).
Proof.
  unfold body_negative. rewrite in_flat_map. split.
  - intros ([q us|q us|k us] & Hl & H); try destruct H as [H|[]]; try (destruct H; fail). injection H as -> ->. auto.
  - intros H. exists (LNeg p ts). simpl. auto.
Qed.
Lemma in_operations_lit r t : In t (body_operations r) <-> exists k us, t = TOp k us /\ In (LOp k us) (s_body r).
Proof.
  unfold body_operations. rewrite in_flat_map. split.
  - intros ([q us|q us|k us] & Hl & H); try destruct H as [H|[]]; try (destruct H; fail). subst. eauto.
  - intros (k & us & -> & H). exists (LOp k us). simpl. auto.
Qed.

(** The shape of the normalized rule. *)
Record normal (r : srule) (nr : rule) (os : list nop) : Prop := {
  nm_ops : r_ops nr = map to_oper os;
  nm_pos : Forall2 (atom_rel os) (body_positive r) (r_pos nr);
  nm_neg : Forall2 (atom_rel os) (body_negative r) (r_neg nr);
  nm_uniq : NoDup (filter isb (atom_vars (r_pos nr) ++ atom_vars (r_neg nr)));
  nm_head : Forall2 (hatom_rel os) (s_head r) (r_head nr);
  nm_huniq : NoDup (filter ish (head_vars nr));
  nm_cases : forall o, In o os -> (exists k us, In (LOp k us) (s_body r) /\ norm_term (TOp k us) = Some o) \/
     atom_op (body_positive r) (r_pos nr) o \/ atom_op (body_negative r) (r_neg nr) o \/
     (exists m p ts hs, nth_error (s_head r) m = Some (p, ts) /\ nth_error (r_head nr) m = Some (p, hs) /\ hop ts hs o);
  nm_lops : forall k us, In (LOp k us) (s_body r) -> exists o, norm_term (TOp k us) = Some o /\ In o os;
  nm_once : forall j, length (filter (assigns (head_var j)) (map to_oper os)) <= 1;
  nm_agg : (r_agg nr = None /\ forall p ts, In (p, ts) (s_head r) -> ~ aggregating_atom ts) \/
     exists m p ts hs a, r_agg nr = Some (a, m) /\ nth_error (s_head r) m = Some (p, ts) /\ nth_error (r_head nr) m = Some (p, hs) /\ agg_rel os ts hs a }.

Lemma has_ex_occurs t : has_ex t = true -> exists v, occurs_ex v t.
Proof.
  induction t as [v| |v|c|k ts IH|f t ds IH|ts IH] using term_ind'; simpl; intros H; try discriminate.
  - exists v. constructor.
  - apply existsb_exists in H. destruct H as (t & Ht & He). rewrite Forall_forall in IH. destruct (IH t Ht He) as (v & Hv). exists v. econstructor; eauto.
  - destruct (IH H) as (v & Hv). exists v. now constructor.
  - apply existsb_exists in H. destruct H as (t & Ht & He). rewrite Forall_forall in IH. destruct (IH t Ht He) as (v & Hv). exists v. eapply oe_complex; eauto.
Qed.

Section Rule.
Context (r : srule) (Hgood : good r) (Hwn : well_named r) (Hsup : supported r).

Lemma body_user l t v : In l (s_body r) -> In t (literal_terms l) -> In v (uvars t) -> ~ generated v.
Proof. intros Hl Ht Hv. apply (wn_user r Hwn t v); auto. right. eauto. Qed.
Lemma head_user p ts t v : In (p, ts) (s_head r) -> In t ts -> In v (uvars t) \/ occurs_ex v t -> ~ generated v.
Proof. intros Hl Ht Hv. apply (wn_user r Hwn t v); auto. left. eauto. Qed.
Lemma head_hyps_ok p ts : In (p, ts) (s_head r) -> head_hyps ts.
Proof.
  intros Hp. split.
  - intros t v Ht He. destruct (ish v) eqn:Ei; auto. exfalso. apply (head_user p ts t v Hp Ht); [|now apply ish_gen].
    destruct He as [->| ->]; [left; simpl; auto|right; constructor].
  - intros t Ht. split; [eapply (g_head_anon r Hgood); eauto|]. intros kk us ->. eapply (su_ex r Hsup); eauto.
Qed.

Lemma oeq_user ops x e o : Forall2 (fun t o => norm_term t = Some o) (body_operations r) ops -> In o ops -> to_oper o = OEq x e -> ~ generated x.
Proof.
  intros HF Ho Eo. assert (Hex : exists t, In t (body_operations r) /\ norm_term t = Some o).
  { clear - HF Ho. induction HF as [|a b l l' Hab _ IH]; [destruct Ho|]. destruct Ho as [<-|Ho]; [exists a; simpl; auto|]. destruct (IH Ho) as (t & H1 & H2). exists t. simpl. auto. }
  destruct Hex as (t & Ht & En). apply in_operations_lit in Ht. destruct Ht as (k & us & -> & Hl).
  assert (Hpl : plain_term (TOp k us)).
  { apply plain_op. intros t Ht. split; [eapply (g_op_anon r Hgood); eauto|]. now apply (g_body_op r Hgood (LOp k us)). }
  assert (Hx : In x (nvs o)). { apply op_vars_to_oper. rewrite Eo. simpl. auto. }
  destruct (norm_term_spec _ _ En Hpl) as (_ & Q). apply Q in Hx. simpl in Hx. apply in_flat_map in Hx. destruct Hx as (t & Ht & Hv). apply (body_user (LOp k us) t x Hl Ht Hv).
Qed.

Theorem normalize_normal : exists nr os, normalize r = Some nr /\ normal r nr os.
Proof.
  unfold normalize.
  destruct (mapo_total norm_term (body_operations r)) as (ops & Eo0).
  { intros t Ht. apply in_operations_lit in Ht. destruct Ht as (k & us & -> & Hl). apply norm_term_op. simpl. apply forallb_forall. intros t Ht. now apply (g_body_op r Hgood (LOp k us)). }
  rewrite Eo0.
  destruct (norm_body_total (body_positive r) 0) as (pos & os1 & k1 & E1).
  { intros p ts t Hp Ht. apply in_positive_lit in Hp. now apply (g_body_op r Hgood (LPos p ts)). }
  destruct (norm_body_total (body_negative r) k1) as (neg & os2 & k2 & E2).
  { intros p ts t Hp Ht. apply in_negative_lit in Hp. now apply (g_body_op r Hgood (LNeg p ts)). }
  destruct (norm_heads_total (s_head r) 0 k2 None) as (hd & os3 & ag & E3).
  { intros p ts Hp. split; [eapply head_hyps_ok; eauto|]. exists (group_by_variables ts). intros t Ht. eapply (g_head_terms r Hgood); eauto. }
  rewrite E1, E2, E3. eexists. exists (ops ++ os1 ++ os2 ++ os3). split; [reflexivity|].
  destruct (norm_body_spec _ _ _ _ _ E1) as (K1 & F1 & X1 & N1 & O1).
  { intros p ts t Hp Ht. apply in_positive_lit in Hp. now apply (g_body_op r Hgood (LPos p ts)). }
  { intros p ts v Hp Ht. apply in_positive_lit in Hp. destruct (isb v) eqn:Ei; auto. exfalso. apply (body_user (LPos p ts) (TVar v) v); simpl; auto. now apply isb_gen. }
  destruct (norm_body_spec _ _ _ _ _ E2) as (K2 & F2 & X2 & N2 & O2).
  { intros p ts t Hp Ht. apply in_negative_lit in Hp. now apply (g_body_op r Hgood (LNeg p ts)). }
  { intros p ts v Hp Ht. apply in_negative_lit in Hp. destruct (isb v) eqn:Ei; auto. exfalso. apply (body_user (LNeg p ts) (TVar v) v); simpl; auto. now apply isb_gen. }
  destruct (norm_heads_spec _ _ _ _ _ _ _ E3) as (F3 & _ & N3 & O3 & A3).
  { intros p ts Hp. eapply head_hyps_ok; eauto. }
  assert (I1 : incl os1 (ops ++ os1 ++ os2 ++ os3)) by (apply incl_appr, incl_appl, incl_refl).
  assert (I2 : incl os2 (ops ++ os1 ++ os2 ++ os3)) by (apply incl_appr, incl_appr, incl_appl, incl_refl).
  assert (I3 : incl os3 (ops ++ os1 ++ os2 ++ os3)) by (apply incl_appr, incl_appr, incl_appr, incl_refl).
  constructor; simpl; auto.
  - exact (atoms_rel_mono os1 _ _ _ I1 F1).
  - exact (atoms_rel_mono os2 _ _ _ I2 F2).
  - rewrite filter_app. apply NoDup_app'; auto. intros x Hx Hy. apply filter_In in Hx. apply filter_In in Hy. destruct Hx as [Hx Hb]. destruct Hy as [Hy _].
    destruct (X1 x Hx Hb) as (j & Hj & Ej). destruct (X2 x Hy Hb) as (j' & Hj' & Ej'). unfold body_var, var in *. lia.
  - clear - F3 I3. induction F3 as [|x y l l' [H1 H2] _ IH]; constructor; auto. split; auto. eapply hslots_mono; eauto.
  - intros o Ho. rewrite !in_app_iff in Ho. destruct Ho as [Ho|[Ho|[Ho|Ho]]].
    + left. pose proof Eo0 as Eo. apply mapo_Forall2 in Eo. assert (Hex : exists t, In t (body_operations r) /\ norm_term t = Some o).
      { clear - Eo Ho. induction Eo as [|a b l l' Hab _ IH]; [destruct Ho|]. destruct Ho as [<-|Ho]; [exists a; simpl; auto|]. destruct (IH Ho) as (t & H1 & H2). exists t. simpl. auto. }
      destruct Hex as (t & Ht & En). apply in_operations_lit in Ht. destruct Ht as (k & us & -> & Hl). eauto.
    + right. left. auto.
    + right. right. left. auto.
    + right. right. right. apply O3. auto.
  - intros k us Hl. assert (Ht : In (TOp k us) (body_operations r)) by (apply in_operations_lit; eauto). pose proof Eo0 as Eo. apply mapo_Forall2 in Eo.
    assert (Hex : exists o, norm_term (TOp k us) = Some o /\ In o ops).
    { clear - Eo Ht. induction Eo as [|a b l l' Hab _ IH]; [destruct Ht|]. destruct Ht as [->|Ht]; [exists b; simpl; auto|]. destruct (IH Ht) as (o & H1 & H2). exists o. simpl. auto. }
    destruct Hex as (o & H1 & H2). exists o. split; auto. apply in_or_app. now left.
  - intros j. fold (count (head_var j) (ops ++ os1 ++ os2 ++ os3)). rewrite !count_app.
    rewrite (count_zero (head_var j) ops), (count_zero (head_var j) os1), (count_zero (head_var j) os2); [apply (norm_heads_once _ _ _ _ _ _ _ E3 j)| | |].
    1,2: intros x e o Ho Eo Ej; apply O1 in Ho || apply O2 in Ho; destruct Ho as (m & p & ts & xs & i & t & y & n & _ & _ & _ & _ & -> & _ & Hb & _); rewrite to_oper_assign in Eo; injection Eo as <- _; rewrite Ej, isb_head in Hb; discriminate.
    intros x e o Ho Eo Ej. apply mapo_Forall2 in Eo0. apply (oeq_user ops x e o Eo0 Ho Eo). subst x. unfold generated. eauto.
  - destruct A3 as [[-> Hno]|(m & p & ts & hs & a & -> & H1 & H2 & H3)]; [left; auto|]. right. exists m, p, ts, hs, a. rewrite Nat.add_0_l. repeat split; auto. eapply agg_rel_mono; eauto.
Qed.
End Rule.
