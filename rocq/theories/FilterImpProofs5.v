(** C43: the transformed program derives the same facts. *)
From Coq Require Import List Arith ZArith Bool Lia Permutation.
From Verif Require Import TableModel EngineModel EngineSpec EngineProofs1 NormModel NormSpec NormProofs1 NormProofs2 NormProofs3 NormProofs4 NormProofs5 NormProofs6 FilterImpModel FilterImpSpec FilterImpProofs1 FilterImpProofs2 FilterImpProofs3 FilterImpProofs4.
Import ListNotations.

(** ** Only the predicates of the bodies matter *)
Definition agree (M M' : interp) (p : tag) : Prop := forall x, M p x <-> M' p x.
Lemma has_ext (M M' : interp) nu p ts : agree M M' p -> has M nu p ts -> has M' nu p ts.
Proof. intros H (row & H1 & H2). exists row. split; auto. now apply H. Qed.
Lemma src_matches_ext r (I I' M M' : interp) nu : (forall p ts, In (LPos p ts) (s_body r) -> forall x, I p x -> I' p x) ->
  (forall p ts, In (LNeg p ts) (s_body r) -> agree M M' p) -> src_matches r I M nu -> src_matches r I' M' nu.
Proof.
  intros Hp Hn [H1 H2 H3 H4]. constructor; auto.
  - intros p ts Hl. destruct (H1 p ts Hl) as (row & R1 & R2). exists row. split; eauto.
  - intros p ts Hl (nu' & N1 & N2 & N3). apply (H3 p ts Hl). exists nu'. split; auto. split; auto. eapply has_ext; [|exact N2]. intros x. specialize (Hn p ts Hl x). tauto.
Qed.
Lemma agg_instance_ext r (M M' : interp) ts x : (forall p us, In (LPos p us) (s_body r) -> agree M M' p) -> (forall p us, In (LNeg p us) (s_body r) -> agree M M' p) ->
  agg_instance r M ts x -> agg_instance r M' ts x.
Proof.
  intros Hp Hn (j & t & f & s & ds & nu & z & H1 & H2 & H3 & (L & L1 & L2 & L3) & H5).
  assert (Hm : forall nu', src_matches r M M nu' <-> src_matches r M' M' nu').
  { intros nu'. split; apply src_matches_ext.
    - intros p us Hl y. apply (Hp p us Hl).
    - intros p us Hl. now apply (Hn p us).
    - intros p us Hl y. apply (Hp p us Hl).
    - intros p us Hl y. specialize (Hn p us Hl y). tauto. }
  exists j, t, f, s, ds, nu, z. split; auto. split; auto. split; [now apply Hm|]. split; auto. exists L. split; auto. split; auto.
  intros y. rewrite L2. split; intros (nu' & z' & Q1 & Q); exists nu', z'; split; auto; now apply Hm.
Qed.
Definition depends (r : srule) (p : tag) : Prop :=
  (exists ts, In (LNeg p ts) (s_body r)) \/ (exists ts q us, In (LPos p ts) (s_body r) /\ In (q, us) (s_head r) /\ aggregating_atom us).
Lemma src_deriv_ext sp (M M' : interp) : (forall r p, In r (sp_rules sp) -> depends r p -> agree M M' p) -> forall p x, src_deriv sp M p x -> src_deriv sp M' p x.
Proof.
  intros Hd p x H. induction H as [p x H|p rows x H1 H2|r I nu mu p ts x Hr _ IH Hm Hp Hna Hmu Hi|r p ts x Hr Hp Hag].
  - now apply sd_fact.
  - eapply sd_import; eauto.
  - eapply (sd_rule sp M' r I nu mu p ts); eauto. apply (src_matches_ext r I I M M'); auto. intros p' ts' Hl. apply (Hd r); auto. left. eauto.
  - apply (sd_agg sp M' r p ts); auto. assert (Ha : aggregating_atom ts). { destruct Hag as (j & t & f & s & ds & nu & z & H1 & H2 & _). exists t. split; [eapply nth_error_In; eauto|exists f, s, ds; auto]. }
    apply (agg_instance_ext r M M'); auto; intros p' us Hl; apply (Hd r); auto; [right|left]; eauto 6.
Qed.

(** ** Checked rules *)
Lemma check_rule_some r p : check_rule r = Some p -> body_negative r = [] /\ (exists ts, body_positive r = [(p, ts)]) /\ forall v, ~ ex_var r v.
Proof.
  unfold check_rule. destruct (body_negative r); [|discriminate]. destruct (body_positive r) as [|[p0 ts] [|a l]]; try discriminate.
  destruct ((length (tags (map fst (s_head r))) =? 1) && negb (existsb (fun a => existsb head_term_bad (snd a)) (s_head r))) eqn:E; [|discriminate]. intros H. injection H as ->.
  split; auto. split; eauto. intros v (q & us & Hq & Hv). apply andb_prop in E. destruct E as [_ E]. apply negb_true_iff in E.
  assert (Ht : existsb (fun a => existsb head_term_bad (snd a)) (s_head r) = true) by (apply existsb_exists; exists (q, us); split; auto; simpl; apply existsb_exists; exists (TEx v); auto). congruence.
Qed.
Lemma pos_lit r p ts : In (LPos p ts) (s_body r) <-> In (p, ts) (body_positive r).
Proof.
  unfold body_positive. rewrite in_flat_map. split; [intros H; exists (LPos p ts); simpl; auto|]. intros (l & H1 & H2). destruct l; simpl in H2; try tauto. destruct H2 as [E|[]]. now injection E as -> ->.
Qed.
Lemma neg_lit r p ts : In (LNeg p ts) (s_body r) <-> In (p, ts) (body_negative r).
Proof.
  unfold body_negative. rewrite in_flat_map. split; [intros H; exists (LNeg p ts); simpl; auto|]. intros (l & H1 & H2). destruct l; simpl in H2; try tauto. destruct H2 as [E|[]]. now injection E as -> ->.
Qed.
Lemma memt_In p l : memt p l = true <-> In p l.
Proof. unfold memt. destruct (in_dec Nat.eq_dec p l); split; auto; discriminate. Qed.

Section Program.
Context (P : fprogram).
Definition pushed (p : tag) : Prop := In p (map i_pred (f_imports P)) /\ import_rules P p <> [].

Lemma import_rules_in p r : In r (import_rules P p) -> In r (f_rules P) /\ check_rule r = Some p.
Proof.
  unfold import_rules. destruct (memt p (forbidden_predicates P)); [intros []|]. destruct (same_head_predicate (filter (checked_for p) (f_rules P))); [|intros []].
  intros H. apply filter_In in H. destruct H as [H1 H2]. split; auto. unfold checked_for in H2. destruct (check_rule r); [|discriminate]. apply Nat.eqb_eq in H2. congruence.
Qed.
Lemma import_rules_all p r : import_rules P p <> [] -> In r (f_rules P) -> check_rule r = Some p -> In r (import_rules P p).
Proof.
  unfold import_rules. destruct (memt p (forbidden_predicates P)); [tauto|]. destruct (same_head_predicate (filter (checked_for p) (f_rules P))); [|tauto].
  intros _ H1 H2. apply filter_In. split; auto. unfold checked_for. rewrite H2. apply Nat.eqb_refl.
Qed.
Lemma not_forbidden p : import_rules P p <> [] -> ~ In p (forbidden_predicates P).
Proof. unfold import_rules. intros H Hf. apply memt_In in Hf. rewrite Hf in H. tauto. Qed.
Lemma internalized_spec r : internalized P r = true <-> exists p, check_rule r = Some p /\ pushed p.
Proof.
  unfold internalized, pushed. destruct (check_rule r) as [p|]; [|split; [discriminate|intros (p & H & _); discriminate]].
  rewrite andb_true_iff, memt_In, negb_true_iff, Nat.eqb_neq. split.
  - intros [H1 H2]. exists p. split; auto. split; auto. intros E. rewrite E in H2. now apply H2.
  - intros (p' & E & H1 & H2). injection E as <-. split; auto. destruct (import_rules P p); [tauto|simpl; lia].
Qed.
(** Rules that are kept do not mention pushed predicates in their bodies. *)
Lemma kept_rule r p ts : In r (f_rules P) -> internalized P r = false -> In (LPos p ts) (s_body r) \/ In (LNeg p ts) (s_body r) -> ~ pushed p.
Proof.
  intros Hr Hi Hl Hp. destruct (check_rule r) as [p0|] eqn:E.
  - destruct (check_rule_some r p0 E) as (H1 & (bts & H2) & _). assert (p = p0).
    { destruct Hl as [Hl|Hl]; [apply pos_lit in Hl; rewrite H2 in Hl; destruct Hl as [Hl|[]]; congruence|apply neg_lit in Hl; rewrite H1 in Hl; destruct Hl]. }
    subst p0. assert (Ht : internalized P r = true) by (apply internalized_spec; eauto). congruence.
  - apply (not_forbidden p (proj2 Hp)). unfold forbidden_predicates. apply in_app_iff. left. apply in_flat_map. exists r. split; auto. rewrite E. apply in_app_iff. right. apply in_app_iff.
    destruct Hl as [Hl|Hl]; [apply pos_lit in Hl; left|apply neg_lit in Hl; right]; apply in_map_iff; exists (p, ts); auto.
Qed.

Context (sp : sprogram) (Hsrc : source P = Some sp) (Hok : ok_program sp) (Hha : forall i, In i (f_imports P) -> harmless P i).

Lemma source_parts : sp_rules sp = f_rules P /\ sp_facts sp = f_facts P /\ Forall2 (fun i t => option_map (pair (i_pred i)) (import_table i) = Some t) (f_imports P) (sp_imports sp).
Proof.
  unfold source in Hsrc. destruct (mapo (fun i => option_map (pair (i_pred i)) (import_table i)) (f_imports P)) as [l|] eqn:E; [|discriminate]. injection Hsrc as <-. simpl. split; auto. split; auto. now apply mapo_Forall2.
Qed.

(** What the rule derives from one row. *)
Definition step (r : srule) (y x : row) : Prop :=
  exists nr p q xs hs nu, normalize r = Some nr /\ r_pos nr = [(p, xs)] /\ r_head nr = [(q, hs)] /\ fires nr xs hs nu y x.

Definition import_step (t t' : tag * list row) : Prop :=
  (import_rules P (fst t) = [] /\ t' = t) \/
  exists r hts, import_rules P (fst t) = [r] /\ s_head r = [(fst t', hts)] /\ ~ aggregating_atom hts /\
    (forall x, In x (snd t') <-> exists y, In y (snd t) /\ step r y x) /\
    forall (I M : interp) x, (exists nu mu, src_matches r I M nu /\ (forall v, ~ ex_var r v -> mu v = nu v) /\ instance None mu hts x) <-> exists y, I (fst t) y /\ step r y x.

Lemma import_case i rows : In i (f_imports P) -> import_table i = Some rows ->
  exists i' rows', new_import P i = Some i' /\ import_table i' = Some rows' /\ import_step (i_pred i, rows) (i_pred i', rows').
Proof.
  intros Hi Ht. pose proof (Hha i Hi) as H. destruct (import_rules P (i_pred i)) as [|r l] eqn:Er.
  - exists i, rows. unfold new_import. rewrite Er. split; auto. split; auto. left. auto.
  - assert (Hin : In r (import_rules P (i_pred i))) by (rewrite Er; now left). pose proof (ha_single P i H r Hin) as Es. rewrite Er in Es. injection Es as ->.
    destruct (import_rules_in _ _ Hin) as [Hr Hc]. destruct (check_rule_some r _ Hc) as (_ & _ & Hex). destruct (ha_head P i H r Hin) as (q & (bts & Hbp) & Hbn & hts & Hh & Hna).
    destruct source_parts as (Sr & _ & _). assert (Hr' : In r (sp_rules sp)) by (rewrite Sr; auto).
    destruct (rule_step r (ok_valid sp Hok r Hr') (ok_names sp Hok r Hr') (ok_supported sp Hok r Hr') (ok_symmetric sp Hok r Hr') (i_pred i) q bts hts Hbp Hbn Hh Hna Hex)
      as (nr & xs & hs & En & Hpos & Hlen & Hhead & Hne & Hnd & Hops & Hhv & Hiff).
    assert (Hstep : forall y x, step r y x <-> exists nu, fires nr xs hs nu y x).
    { intros y x. split.
      - intros (nr' & p' & q' & xs' & hs' & nu & E1 & E2 & E3 & HF). rewrite En in E1. injection E1 as <-. rewrite Hpos in E2. injection E2 as <- <-. rewrite Hhead in E3. injection E3 as <- <-. eauto.
      - intros (nu & HF). exists nr, (i_pred i), q, xs, hs, nu. auto. }
    pose proof (ha_ops P i H r nr Hin En) as Hpl. pose proof (ha_arity P i H r Hin) as Har. pose proof (ha_formats P i H) as Hf.
    assert (Hb0 : body0 r = bts) by (unfold body0; now rewrite Hbp). rewrite Hb0 in Har.
    assert (Hh0 : head0 r = (q, hts)) by (unfold head0; now rewrite Hh).
    (* the original table *)
    assert (Horig : forall x, In x rows <-> exists rec, In rec (i_records i) /\ read_record (i_formats i) rec = Some x).
    { destruct (plain_table (i_pred i) (i_project i) (i_formats i) (i_records i) (repeat true (length (i_formats i)))) as (rows0 & E0 & Hr0).
      - assert (Hf' : forall f, In f (i_formats i) -> is_skip f = false) by (intros f Hf0; now apply Hf). clear - Hf'. induction (i_formats i) as [|f fs IH]; simpl; auto. rewrite (Hf' f) by (now left). rewrite IH by (intros g Hg; apply Hf'; now right). reflexivity.
      - intros rec y Hy. rewrite (read_length (i_formats i) rec y Hf Hy). unfold count_true. clear. induction (i_formats i); simpl; auto.
      - assert (Ei : i = mkImport (i_pred i) (i_project i) (i_formats i) (i_records i) []) by (destruct i; simpl in *; rewrite <- (ha_rules P _ H); reflexivity).
        rewrite <- Ei in E0. rewrite Ht in E0. injection E0 as <-. exact Hr0. }
    assert (Hfin : forall i' rows', new_import P i = Some i' -> i_pred i' = q -> import_table i' = Some rows' ->
      (forall x, In x rows' <-> exists rec y nu, In rec (i_records i) /\ read_record (i_formats i) rec = Some y /\ fires nr xs hs nu y x) ->
      exists i' rows', new_import P i = Some i' /\ import_table i' = Some rows' /\ import_step (i_pred i, rows) (i_pred i', rows')).
    { intros i' rows' E1 E2 E3 E4. exists i', rows'. split; auto. split; auto. right. exists r, hts. cbn [fst snd]. split; auto. split; [congruence|]. split; auto. split.
      - intros x. rewrite E4. split.
        + intros (rec & y & nu & H1 & H2 & H3). exists y. split; [apply Horig; eauto|]. apply Hstep. eauto.
        + intros (y & H1 & H2). apply Horig in H1. destruct H1 as (rec & R1 & R2). apply Hstep in H2. destruct H2 as (nu & H2). eauto 8.
      - intros I M x. rewrite (Hiff I M x). split.
        + intros (nu & y & H1 & H2). exists y. split; auto. apply Hstep. eauto.
        + intros (y & H1 & H2). apply Hstep in H2. destruct H2 as (nu & H2). eauto. }
    assert (Enew : new_import P i = push (mkImport q (i_project i) (i_formats i) (i_records i) []) [r]).
    { unfold new_import. rewrite Er. cbn [forallb]. rewrite Nat.eqb_refl. cbn [andb]. rewrite Hh0. cbn [fst]. now rewrite (ha_rules P i H). }
    assert (Hall : forall b, new_import P i = Some (mkImport q b (i_formats i) (i_records i) [r]) ->
      exists i' rows', new_import P i = Some i' /\ import_table i' = Some rows' /\ import_step (i_pred i, rows) (i_pred i', rows')).
    { intros b Eb. set (ks := repeat true (length xs)).
      assert (Hkt : forall b, In b ks -> b = true) by (intros b' Hb'; now apply repeat_spec in Hb').
      assert (Hkf : forall n, nth_error ks n <> Some false) by (intros n Hn; apply nth_error_In in Hn; apply Hkt in Hn; discriminate).
      destruct (pushed_table nr (i_pred i) q xs hs Hpos Hhead Hnd Hne Hops Hhv Hpl ks (i_formats i) (i_formats i)) with (r := r) (b := b) (recs := i_records i) as (rows' & E1 & E2); auto.
      - apply repeat_length.
      - congruence.
      - intros n Hn. exfalso. now apply (Hkf n).
      - apply skip_all_true; auto. unfold ks. rewrite repeat_length. congruence.
      - intros n v Hn. exfalso. now apply (Hkf n).
      - eapply Hfin; eauto. }
    unfold push in Enew. cbn [i_project i_formats i_records i_rules i_pred] in Enew. destruct (i_project i) eqn:Ep.
    + cbn [push_loop] in Enew. replace (add_positions [] r) with (used_columns r) in Enew by (unfold add_positions, used_columns; destruct (map (used_term r) (body0 r)); reflexivity).
      destruct (forallb (fun b => b) (used_columns r)) eqn:Ea.
      * cbn [remove_all] in Enew. apply (Hall true). exact Enew.
      * assert (Hfalse : In false (used_columns r)).
        { clear - Ea. induction (used_columns r) as [|b l IH]; [discriminate|]. simpl in Ea. destruct b; [right; auto|now left]. }
        pose proof (ha_skips P i H r nr Hin En Ep Hfalse) as Hs. assert (Hkl : length (used_columns r) = length bts) by (unfold used_columns; rewrite map_length, Hb0; reflexivity).
        assert (Hav : atom_vars (r_pos nr) = xs) by (rewrite Hpos; unfold atom_vars; simpl; apply app_nil_r).
        destruct (skip_formats_total (i_formats i) (used_columns r)) as (fs' & Ef); [congruence|]. rewrite Ef in Enew. cbn [obsolete_from] in Enew.
        assert (Hun : forall n v, nth_error (used_columns r) n = Some false -> nth_error xs n = Some v -> ~ occurs nr v).
        { intros n v Hn Hv. rewrite <- Hav in Hv. destruct (hs_unused i r nr Hs n v Hn Hv) as [U1 U2]. intros [Ho|(o & Ho & Hov)]; [tauto|]. eapply U2; eauto. }
        destruct (hs_dropped i r nr Hs) as [Eo|(Eo & Eops & Ehd)]; rewrite Eo in Enew; cbn [push_loop app remove_all remove_at] in Enew.
        -- destruct (pushed_table nr (i_pred i) q xs hs Hpos Hhead Hnd Hne Hops Hhv Hpl (used_columns r) (i_formats i) fs') with (r := r) (b := true) (recs := i_records i) as (rows' & E1 & E2); auto; try congruence.
           ++ exact (hs_parse i r nr Hs).
           ++ eapply Hfin; [exact Enew|reflexivity|exact E1|exact E2].
        -- destruct (dropped_table nr q xs hs Hnd (used_columns r) (i_formats i) fs') with (b := true) (recs := i_records i) as (rows' & E1 & E2); auto; try congruence.
           ++ exact (hs_parse i r nr Hs).
           ++ rewrite Hhead in Ehd. simpl in Ehd. injection Ehd as Ehd. now rewrite Hav in Ehd.
           ++ eapply Hfin; [exact Enew|reflexivity|exact E1|exact E2].
    + apply (Hall false). exact Enew.
Qed.

Lemma all_imports : forall l ts, (forall i, In i l -> In i (f_imports P)) ->
  Forall2 (fun i t => option_map (pair (i_pred i)) (import_table i) = Some t) l ts ->
  exists is' ts', mapo (new_import P) l = Some is' /\ mapo (fun i => option_map (pair (i_pred i)) (import_table i)) is' = Some ts' /\ Forall2 import_step ts ts'.
Proof.
  induction l as [|i l IH]; intros ts Hin HF; inversion HF as [|? t ? ts0 Ht HF2]; subst.
  - exists [], []. simpl. auto.
  - destruct (import_table i) as [rows|] eqn:Et; [|discriminate]. simpl in Ht. injection Ht as <-.
    destruct (import_case i rows (Hin i (or_introl eq_refl)) Et) as (i' & rows' & E1 & E2 & E3). destruct (IH ts0 (fun j Hj => Hin j (or_intror Hj)) HF2) as (is' & ts' & F1 & F2 & F3).
    exists (i' :: is'), ((i_pred i', rows') :: ts'). simpl. unfold mapo in F1 |- *. rewrite E1, F1. split; auto. rewrite E2. simpl. unfold mapo in F2. rewrite F2. split; auto.
Qed.

Lemma imported_pred p rows : In (p, rows) (sp_imports sp) -> In p (map i_pred (f_imports P)).
Proof.
  destruct source_parts as (_ & _ & HF). intros H. destruct (Forall2_in_right _ _ _ _ HF H) as (i & Hi & E). destruct (import_table i); [|discriminate]. simpl in E. injection E as <- <-. apply in_map_iff. eauto.
Qed.
Lemma pushed_dec p : pushed p \/ ~ pushed p.
Proof.
  unfold pushed. destruct (in_dec Nat.eq_dec p (map i_pred (f_imports P))) as [H|H]; [|tauto]. destruct (import_rules P p); [tauto|]. left. split; auto. discriminate.
Qed.
Lemma pushed_harmless p : pushed p -> exists i, In i (f_imports P) /\ i_pred i = p /\ harmless P i.
Proof. intros [H _]. apply in_map_iff in H. destruct H as (i & <- & Hi). exists i. auto. Qed.
Lemma observable_not_pushed p : observable P p -> ~ pushed p.
Proof.
  intros [H|H] [H1 H2]; [|tauto]. apply (not_forbidden p H2). unfold forbidden_predicates. apply in_app_iff. right. apply in_app_iff. now right.
Qed.

Section Transformed.
Context (ts' : list (tag * list row)) (Himp : Forall2 import_step (sp_imports sp) ts').
Let sp' := mkSprogram (filter (fun r => negb (internalized P r)) (f_rules P)) (f_facts P) ts' (f_preds P) (f_outputs P).

Lemma to_source M p x : src_deriv sp' M p x -> src_deriv sp M p x.
Proof.
  destruct source_parts as (Sr & Sf & _). intros H.
  induction H as [p x (ts & H1 & H2)|p rows x H1 H2|r I nu mu p ts x Hr _ IH Hm Hp Hna Hmu Hi|r p ts x Hr Hp Hag].
  - apply sd_fact. exists ts. rewrite Sf. auto.
  - simpl in H1. destruct (Forall2_in_right _ _ _ _ Himp H1) as ([p0 rows0] & H0 & [[_ E]|(r & hts & Er & Eh & Hna & Hrows & Hiff)]).
    + injection E as -> ->. eapply sd_import; eauto.
    + cbn [fst snd] in *. apply Hrows in H2. destruct H2 as (y & Hy & Hs).
      destruct (Hiff (fun q z => q = p0 /\ z = y) M x) as [_ Hb]. destruct Hb as (nu & mu & Hm & Hmu & Hi); [exists y; auto|].
      assert (Hin : In r (import_rules P p0)) by (rewrite Er; now left). apply import_rules_in in Hin. destruct Hin as [Hin _].
      apply (sd_rule sp M r (fun q z => q = p0 /\ z = y) nu mu p hts x); auto.
      * now rewrite Sr.
      * intros q z [-> ->]. eapply sd_import; eauto.
      * rewrite Eh. now left.
  - simpl in Hr. apply filter_In in Hr. destruct Hr as [Hr _]. apply (sd_rule sp M r I nu mu p ts x); auto. now rewrite Sr.
  - simpl in Hr. apply filter_In in Hr. destruct Hr as [Hr _]. apply (sd_agg sp M r p ts x); auto. now rewrite Sr.
Qed.

Lemma from_source M p x : src_deriv sp M p x ->
  (pushed p -> exists rows, In (p, rows) (sp_imports sp) /\ In x rows) /\ (~ pushed p -> src_deriv sp' M p x).
Proof.
  destruct source_parts as (Sr & Sf & _). intros H.
  induction H as [p x (ts & H1 & H2)|p rows x H1 H2|r I nu mu p ts x Hr _ IH Hm Hp Hna Hmu Hi|r p ts x Hr Hp Hag].
  - split.
    + intros [_ Hi]. exfalso. apply (not_forbidden p Hi). unfold forbidden_predicates. apply in_app_iff. right. apply in_app_iff. left. rewrite Sf in H1. apply in_map_iff. exists (p, ts). auto.
    + intros _. apply sd_fact. exists ts. simpl. rewrite <- Sf. auto.
  - split; [eauto|]. intros Hnp. destruct (Forall2_in_left _ _ _ _ Himp H1) as (t' & Ht' & [[_ ->]|(r & hts & Er & _)]); cbn [fst] in *.
    + apply (sd_import sp' M p rows); auto.
    + exfalso. apply Hnp. split; [eapply imported_pred; eauto|]. rewrite Er. discriminate.
  - rewrite Sr in Hr. split.
    + intros Hpu. exfalso. destruct (pushed_harmless p Hpu) as (i & Hii & Ei & Hh). apply (ha_base P i Hh ltac:(rewrite Ei; exact (proj2 Hpu)) r p ts Hr Hp). auto.
    + intros Hnp. destruct (internalized P r) eqn:Ein.
      * apply internalized_spec in Ein. destruct Ein as (p0 & Hc & Hpu).
        pose proof (import_rules_all p0 r (proj2 Hpu) Hr Hc) as Hin. destruct (check_rule_some r p0 Hc) as (_ & (bts & Hbp) & Hex).
        assert (Hhas : has I nu p0 bts) by (apply (sm_pos r I M nu Hm); apply pos_lit; rewrite Hbp; now left).
        destruct Hhas as (y & Hy & Hty). destruct (proj1 (IH p0 y Hy) Hpu) as (rows & Hrows & Hyr).
        destruct (Forall2_in_left _ _ _ _ Himp Hrows) as ([q rows'] & Ht' & [[E _]|(r' & hts & Er & Eh & Hna' & Hr' & Hiff)]); cbn [fst snd] in *; [exfalso; now apply (proj2 Hpu)|].
        rewrite Er in Hin. destruct Hin as [->|[]]. rewrite Eh in Hp. destruct Hp as [Hp|[]]. injection Hp as -> <-.
        apply (sd_import sp' M p rows'); auto. apply Hr'. 
        destruct (Hiff (fun q z => q = p0 /\ z = y) M x) as [Hf _]. destruct Hf as (y' & [_ ->] & Hs); [|exists y; auto].
        exists nu, mu. split; auto. destruct Hm as [M1 M2 M3 M4]. constructor; auto.
        intros p1 ts1 Hl. apply pos_lit in Hl. rewrite Hbp in Hl. destruct Hl as [Hl|[]]. injection Hl as <- <-. exists y. auto.
      * apply (sd_rule sp' M r (fun q y => I q y /\ ~ pushed q) nu mu p ts x); auto.
        -- simpl. apply filter_In. split; auto. now rewrite Ein.
        -- intros q y [H1 H2]. exact (proj2 (IH q y H1) H2).
        -- apply (src_matches_ext r I _ M M); auto; [|intros p' ts0 _ z; tauto]. intros p' ts0 Hl z Hz. split; auto. apply (kept_rule r p' ts0); auto.
  - rewrite Sr in Hr. split.
    + intros Hpu. exfalso. destruct (pushed_harmless p Hpu) as (i & Hii & Ei & Hh). apply (ha_base P i Hh ltac:(rewrite Ei; exact (proj2 Hpu)) r p ts Hr Hp). auto.
    + intros Hnp. apply (sd_agg sp' M r p ts x); auto. simpl. apply filter_In. split; auto. destruct (internalized P r) eqn:Ein; auto. exfalso.
      apply internalized_spec in Ein. destruct Ein as (p0 & Hc & Hpu). pose proof (import_rules_all p0 r (proj2 Hpu) Hr Hc) as Hin.
      destruct (pushed_harmless p0 Hpu) as (i & Hii & <- & Hh). destruct (ha_head P i Hh r Hin) as (q & _ & _ & hts & Eh & Hna). rewrite Eh in Hp. destruct Hp as [Hp|[]]. injection Hp as <- <-.
      apply Hna. destruct Hag as (j & t & f & s & ds & nu & z & H1 & H2 & _). exists t. split; [eapply nth_error_In; eauto|exists f, s, ds; auto].
Qed.

Lemma same_deriv M p x : ~ pushed p -> (src_deriv sp M p x <-> src_deriv sp' M p x).
Proof. intros H. split; [intros Hd; exact (proj2 (from_source M p x Hd) H)|apply to_source]. Qed.

(** Predicates on which derivations depend are not pushed. *)
Lemma depends_kept r p : In r (sp_rules sp) -> depends r p -> ~ pushed p.
Proof.
  destruct source_parts as (Sr & _ & _). rewrite Sr. intros Hr Hd. destruct (internalized P r) eqn:Ein.
  - exfalso. apply internalized_spec in Ein. destruct Ein as (p0 & Hc & Hpu). destruct (check_rule_some r p0 Hc) as (Hn & _ & _). destruct Hd as [(ts & Hl)|(ts & q & us & _ & Hq & Ha)].
    + apply neg_lit in Hl. rewrite Hn in Hl. destruct Hl.
    + pose proof (import_rules_all p0 r (proj2 Hpu) Hr Hc) as Hin. destruct (pushed_harmless p0 Hpu) as (i & Hii & <- & Hh). destruct (ha_head P i Hh r Hin) as (q' & _ & _ & hts & Eh & Hna).
      rewrite Eh in Hq. destruct Hq as [Hq|[]]. injection Hq as <- <-. auto.
  - destruct Hd as [(ts & Hl)|(ts & q & us & Hl & _)]; apply (kept_rule r p ts Hr Ein); auto.
Qed.

Lemma perfect_to M : src_perfect sp M -> src_perfect sp' (src_deriv sp' M).
Proof.
  intros Hp p x. assert (Ha : forall r q, In r (sp_rules sp') -> depends r q -> agree M (src_deriv sp' M) q).
  { intros r q Hr Hd y. rewrite (Hp q y). apply same_deriv. apply (depends_kept r); auto. destruct source_parts as (Sr & _). rewrite Sr. simpl in Hr. apply filter_In in Hr. tauto. }
  split; apply src_deriv_ext; intros r q Hr Hd y; specialize (Ha r q Hr Hd y); tauto.
Qed.
Lemma perfect_from M : src_perfect sp' M -> src_perfect sp (src_deriv sp M).
Proof.
  intros Hp p x. assert (Ha : forall r q, In r (sp_rules sp) -> depends r q -> agree M (src_deriv sp M) q).
  { intros r q Hr Hd y. rewrite (Hp q y). symmetry. apply same_deriv. apply (depends_kept r); auto. }
  split; apply src_deriv_ext; intros r q Hr Hd y; specialize (Ha r q Hr Hd y); tauto.
Qed.
End Transformed.

Theorem transformed : exists P' sp', filter_imports P = Some P' /\ source P' = Some sp' /\
  (forall M p x, src_deriv sp' M p x -> src_deriv sp M p x) /\
  (forall M p x, observable P p -> (src_deriv sp M p x <-> src_deriv sp' M p x)) /\
  (forall M, src_perfect sp M -> exists M', src_perfect sp' M' /\ forall p x, observable P p -> (M p x <-> M' p x)) /\
  (forall M', src_perfect sp' M' -> exists M, src_perfect sp M /\ forall p x, observable P p -> (M p x <-> M' p x)).
Proof.
  destruct source_parts as (Sr & Sf & HF). destruct (all_imports (f_imports P) (sp_imports sp)) as (is' & ts' & E1 & E2 & E3); auto.
  unfold filter_imports. rewrite E1. eexists. eexists. split; [reflexivity|]. unfold source. cbn [f_rules f_facts f_imports f_preds f_outputs]. rewrite E2. split; [reflexivity|].
  split; [|split; [|split]].
  - intros M p x. apply to_source; auto.
  - intros M p x Ho. apply same_deriv; auto. now apply observable_not_pushed.
  - intros M Hp. eexists. split; [apply perfect_to; eauto|]. intros p x Ho. rewrite (Hp p x). apply same_deriv; auto. now apply observable_not_pushed.
  - intros M' Hp. eexists. split; [eapply perfect_from; eauto|]. intros p x Ho. rewrite (Hp p x). apply same_deriv; auto. now apply observable_not_pushed.
Qed.
End Program.
