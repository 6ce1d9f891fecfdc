(** Proofs for C44 and C45: needed statements, exports, outputs. *)
From Coq Require Import List Arith ZArith Bool Lia.
From Verif Require Import TableModel EngineModel EngineSpec NormModel NormSpec FilterImpProofs5 PipeModel PipeSpec.
Import ListNotations.

(** ** Sets *)
Lemma memp_In p l : memp p l = true <-> In p l.
Proof. unfold memp. rewrite existsb_exists. split; [intros (q & H & E); apply Nat.eqb_eq in E; now subst|]. intros H. exists p. split; auto. apply Nat.eqb_refl. Qed.
Lemma memp_false p l : memp p l = false <-> ~ In p l.
Proof. rewrite <- memp_In. destruct (memp p l); split; intros; try congruence; tauto. Qed.
Lemma addp_In q p l : In q (addp p l) <-> q = p \/ In q l.
Proof.
  unfold addp. destruct (memp p l) eqn:E.
  - apply memp_In in E. split; auto. intros [->|H]; auto.
  - rewrite in_app_iff. simpl. split; [intros [H|[<-|[]]]; auto|intros [->|H]; auto].
Qed.
Lemma addp_NoDup p l : NoDup l -> NoDup (addp p l).
Proof.
  unfold addp. destruct (memp p l) eqn:E; auto. apply memp_false in E. intros H.
  rewrite <- (rev_involutive (l ++ [p])), rev_app_distr. apply NoDup_rev. simpl. constructor; [now rewrite <- in_rev|now apply NoDup_rev].
Qed.
Lemma addall_In q ps : forall l, In q (addall ps l) <-> In q ps \/ In q l.
Proof. unfold addall. induction ps as [|p ps IH]; simpl; intros l; [tauto|]. rewrite IH, addp_In. intuition congruence. Qed.
Lemma addall_NoDup ps : forall l, NoDup l -> NoDup (addall ps l).
Proof. unfold addall. induction ps as [|p ps IH]; simpl; intros l H; auto. apply IH. now apply addp_NoDup. Qed.
Lemma addall_ext ps : forall l, exists l', addall ps l = l ++ l'.
Proof.
  unfold addall. induction ps as [|p ps IH]; simpl; intros l; [exists []; now rewrite app_nil_r|].
  destruct (IH (addp p l)) as (l' & E). rewrite E. unfold addp. destruct (memp p l); [eauto|]. exists ([p] ++ l'). now rewrite app_assoc.
Qed.
Lemma setp_In q l : In q (setp l) <-> In q l.
Proof. unfold setp. rewrite addall_In. simpl. tauto. Qed.
Lemma setp_NoDup l : NoDup (setp l).
Proof. apply addall_NoDup. constructor. Qed.
Lemma diffp_In q l l' : In q (diffp l l') <-> In q l /\ ~ In q l'.
Proof. unfold diffp. rewrite filter_In, negb_true_iff, memp_false. tauto. Qed.
Lemma body_preds_In r p : In p (body_preds r) <-> in_body r p.
Proof.
  unfold body_preds, in_body. rewrite in_flat_map. split.
  - intros (l & H1 & H2). destruct l as [q ts|q ts|k ts]; simpl in H2; [| |tauto]; destruct H2 as [<-|[]]; exists ts; auto.
  - intros (ts & [H|H]); [exists (LPos p ts)|exists (LNeg p ts)]; simpl; auto.
Qed.
Lemma head_preds_In r p : In p (head_preds r) <-> in_head r p.
Proof. unfold head_preds, in_head. rewrite in_map_iff. split; [intros ([q ts] & E & H); simpl in E; subst; eauto|intros (ts & H); exists (p, ts); auto]. Qed.

(** ** The loop of [active] *)
Section Active.
Context (P : pprogram).
Let rs := p_rules P.

(** The invariant: predicates and rules are needed, and the bodies of the rules are covered. *)
Record good (ps : list tag) (ids : list nat) : Prop := {
  g_nodup : NoDup ps;
  g_asked : forall p, asked P p -> In p ps;
  g_needed : forall p, In p ps -> needed P p;
  g_ids : forall n, In n ids -> exists r, nth_error rs n = Some r /\ (exists p, in_head r p /\ In p ps) /\ forall q, in_body r q -> In q ps }.

Lemma pass_good : forall l n ps ids, (forall i r, nth_error l i = Some r -> nth_error rs (n + i) = Some r) -> good ps ids ->
  let (ps', ids') := active_pass n l ps ids in
  good ps' ids' /\ incl ids ids' /\ (exists new, ps' = ps ++ new) /\
  forall i r p, nth_error l i = Some r -> in_head r p -> In p ps -> In (n + i) ids'.
Proof.
  induction l as [|r l IH]; simpl; intros n ps ids Hn G.
  - split; auto. split; [intros x; auto|]. split; [exists []; now rewrite app_nil_r|]. intros [|i] r p; discriminate.
  - assert (Hn' : forall i r0, nth_error l i = Some r0 -> nth_error rs (S n + i) = Some r0) by (intros i r0 Hi; replace (S n + i) with (n + S i) by lia; now apply Hn).
    pose proof (Hn 0 r eq_refl) as Hr. replace (n + 0) with n in Hr by lia.
    assert (Step : forall (ids' : list nat), (forall i r0 p, nth_error l i = Some r0 -> in_head r0 p -> In p ps -> In (S n + i) ids') -> (forall p, in_head r p -> In p ps -> In n ids') ->
      forall i r0 p, nth_error (r :: l) i = Some r0 -> in_head r0 p -> In p ps -> In (n + i) ids').
    { intros ids' H1 H2 [|i] r0 p Hi Hh Hp; [injection Hi as <-; replace (n + 0) with n by lia; eauto|]. replace (n + S i) with (S n + i) by lia. eauto. }
    destruct (memp n ids) eqn:Em.
    + specialize (IH (S n) ps ids Hn' G). destruct (active_pass (S n) l ps ids) as [ps' ids']. destruct IH as (I1 & I2 & I3 & I4).
      split; auto. split; auto. split; auto. apply (Step ids'); auto. intros p _ _. apply I2. now apply memp_In.
    + destruct (existsb (fun p => memp p ps) (head_preds r)) eqn:Ee.
      * apply existsb_exists in Ee. destruct Ee as (h & Hh & Hm). apply head_preds_In in Hh. apply memp_In in Hm.
        assert (G' : good (addall (body_preds r) ps) (ids ++ [n])).
        { destruct G as [G1 G2 G3 G4]. constructor.
          - now apply addall_NoDup.
          - intros p Hp. apply addall_In. auto.
          - intros p Hp. apply addall_In in Hp. destruct Hp as [Hp|Hp]; auto. apply body_preds_In in Hp. eapply (need_rule P r h p); eauto. eapply nth_error_In; eauto.
          - intros m Hm'. apply in_app_iff in Hm'. destruct Hm' as [Hm'|[<-|[]]].
            + destruct (G4 m Hm') as (r0 & A1 & (p & A2 & A2') & A3). exists r0. split; auto. split; [exists p; split; auto; apply addall_In; auto|]. intros q Hq. apply addall_In. auto.
            + exists r. split; auto. split; [exists h; split; auto; apply addall_In; auto|]. intros q Hq. apply addall_In. left. now apply body_preds_In. }
        specialize (IH (S n) _ _ Hn' G'). destruct (active_pass (S n) l (addall (body_preds r) ps) (ids ++ [n])) as [ps' ids']. destruct IH as (I1 & I2 & (new & I3) & I4).
        split; auto. split; [intros x Hx; apply I2; apply in_app_iff; auto|]. destruct (addall_ext (body_preds r) ps) as (l' & El). split; [exists (l' ++ new); rewrite I3, El; now rewrite app_assoc|].
        apply (Step ids').
        { intros i r0 p Hi Hh0 Hp. eapply I4; eauto. apply addall_In. auto. }
        intros p _ _. apply I2. apply in_app_iff. simpl. auto.
      * specialize (IH (S n) ps ids Hn' G). destruct (active_pass (S n) l ps ids) as [ps' ids']. destruct IH as (I1 & I2 & I3 & I4).
        split; auto. split; auto. split; auto. apply (Step ids'); auto. intros p Hh Hp. exfalso.
        assert (Ht : existsb (fun p => memp p ps) (head_preds r) = true) by (apply existsb_exists; exists p; split; [now apply head_preds_In|now apply memp_In]). congruence.
Qed.

Definition closed (ps : list tag) (ids : list nat) : Prop :=
  forall i r p, nth_error rs i = Some r -> in_head r p -> In p ps -> In i ids.
(** All predicates are asked or in bodies. *)
Definition universe : list tag := addall (map e_pred (p_exports P)) (setp (p_outputs P)) ++ flat_map body_preds rs.
Lemma good_incl ps ids : good ps ids -> incl ps universe.
Proof.
  intros G p Hp. apply (g_needed _ _ G) in Hp. unfold universe. apply in_app_iff. inversion Hp as [p' [H|(s & H)]|r p' q Hr Hh Hn Hb]; subst.
  - left. apply addall_In. right. now apply setp_In.
  - left. apply addall_In. left. apply in_map_iff. exists (mkExport p s). auto.
  - right. apply in_flat_map. exists r. split; auto. now apply body_preds_In.
Qed.
Lemma loop_good : forall fuel count ps ids, good ps ids -> (count = length ps -> closed ps ids) -> count <= length ps ->
  (count = length ps \/ length universe - length ps + 2 <= fuel) -> 1 <= fuel ->
  exists ps' ids', active_loop fuel rs count ps ids = Some (ps', ids') /\ good ps' ids' /\ closed ps' ids'.
Proof.
  induction fuel as [|fuel IH]; intros count ps ids G Hc Hle Hf H1; [lia|]. simpl. destruct (count =? length ps) eqn:E.
  - apply Nat.eqb_eq in E. exists ps, ids. auto.
  - apply Nat.eqb_neq in E. destruct Hf as [Hf|Hf]; [congruence|].
    pose proof (pass_good rs 0 ps ids (fun i r H => H) G) as Hp. destruct (active_pass 0 rs ps ids) as [ps' ids']. destruct Hp as (G' & I2 & (new & I3) & I4). simpl in I4.
    apply IH; auto; rewrite ?I3, ?app_length; try lia.
    + intros El. assert (new = []) by (destruct new; auto; simpl in El; lia). subst new. rewrite app_nil_r in *. intros i r p Hi Hh Hp. eapply I4; eauto.
    + pose proof (NoDup_incl_length (g_nodup _ _ G') (good_incl _ _ G')) as Hb. rewrite I3, app_length in Hb. destruct new; simpl in *; [left; lia|right; lia].
Qed.

Theorem required_spec : exists ps ids, required P = Some (ps, ids) /\
  (forall p, In p ps <-> needed P p) /\
  forall i r, nth_error rs i = Some r -> (In i ids <-> exists p, in_head r p /\ needed P p).
Proof.
  set (ps0 := addall (map e_pred (p_exports P)) (setp (p_outputs P))).
  assert (G : good ps0 []).
  { constructor.
    - apply addall_NoDup, setp_NoDup.
    - intros p [H|(s & H)]; apply addall_In; [right; now apply setp_In|left]. apply in_map_iff. exists (mkExport p s). auto.
    - intros p Hp. apply addall_In in Hp. apply need_asked. destruct Hp as [Hp|Hp]; [right|left; now apply (proj1 (setp_In _ _))]. apply in_map_iff in Hp. destruct Hp as ([q s] & E & H). simpl in E. subst. eauto.
    - intros n []. }
  destruct (loop_good (3 + length (flat_map body_preds (p_rules P))) 0 ps0 [] G) as (ps & ids & E & Gf & Cl); try lia.
  - intros El. destruct ps0; [|discriminate]. intros i r p _ _ [].
  - right. unfold universe. rewrite app_length. fold ps0. unfold rs. lia.
  - exists ps, ids. split; [exact E|]. assert (Hps : forall p, In p ps <-> needed P p).
    { intros p. split; [apply (g_needed _ _ Gf)|]. intros H. induction H as [p H|r p q Hr Hh Hn IH Hb]; [now apply (g_asked _ _ Gf)|].
      apply In_nth_error in Hr. destruct Hr as (i & Hi). pose proof (Cl i r p Hi Hh IH) as Hid. destruct (g_ids _ _ Gf i Hid) as (r' & A1 & _ & A3). unfold rs in A1. rewrite Hi in A1. injection A1 as <-. auto. }
    split; auto. intros i r Hi. split.
    + intros Hid. destruct (g_ids _ _ Gf i Hid) as (r' & A1 & (p & A2 & A2') & _). unfold rs in *. rewrite Hi in A1. injection A1 as <-. exists p. split; auto. now apply Hps.
    + intros (p & Hh & Hp). apply (Cl i r p); auto. now apply Hps.
Qed.

Lemma keep_ids_selects {A} (Q : A -> Prop) : forall (l : list A) n ids, (forall i x, nth_error l i = Some x -> (In (n + i) ids <-> Q x)) -> selects Q l (keep_ids n ids l).
Proof.
  induction l as [|x l IH]; simpl; intros n ids H; [constructor|].
  assert (H' : forall i y, nth_error l i = Some y -> (In (S n + i) ids <-> Q y)) by (intros i y Hi; replace (S n + i) with (n + S i) by lia; exact (H (S i) y Hi)).
  specialize (H 0 x eq_refl). replace (n + 0) with n in H by lia. destruct (memp n ids) eqn:E.
  - apply memp_In in E. constructor; [now apply H|now apply IH].
  - apply memp_false in E. constructor; [tauto|now apply IH].
Qed.
Lemma filter_selects {A} (f : A -> bool) (Q : A -> Prop) l : (forall x, f x = true <-> Q x) -> selects Q l (filter f l).
Proof. intros H. induction l as [|x l IH]; simpl; [constructor|]. destruct (f x) eqn:E; constructor; auto; [now apply H|]. rewrite <- H, E. discriminate. Qed.
Lemma selects_In {A} (Q : A -> Prop) l l' x : selects Q l l' -> (In x l' <-> In x l /\ Q x).
Proof.
  intros H. induction H as [|y l l' Hq H IH|y l l' Hq H IH]; simpl; [tauto| |].
  - rewrite IH. split; [intros [<-|[H1 H2]]; auto|intros [[<-|H1] H2]; auto].
  - rewrite IH. split; [intros [H1 H2]; auto|intros [[<-|H1] H2]; tauto].
Qed.

Theorem active_keeps : exists P', active P = Some P' /\
  selects (fun r => exists p, in_head r p /\ needed P p) (p_rules P) (p_rules P') /\
  selects (fun f => needed P (fst f)) (p_facts P) (p_facts P') /\
  selects (fun i => needed P (fst i)) (p_imports P) (p_imports P') /\
  p_exports P' = p_exports P /\ p_outputs P' = p_outputs P /\ p_params P' = p_params P.
Proof.
  destruct required_spec as (ps & ids & E & Hp & Hi). unfold active. rewrite E. eexists. split; [reflexivity|]. cbn [p_rules p_facts p_imports p_exports p_outputs p_params].
  split; [|split; [|split; [|auto]]].
  - apply keep_ids_selects. intros i r Hr. now apply Hi.
  - apply filter_selects. intros x. rewrite memp_In. apply Hp.
  - apply filter_selects. intros x. rewrite memp_In. apply Hp.
Qed.
End Active.

(** ** The same facts *)
Section Same.
Context (P P' : pprogram) (HA : active P = Some P').
Let sp := source P.
Let sp' := source P'.
Lemma keeps_of : selects (fun r => exists p, in_head r p /\ needed P p) (p_rules P) (p_rules P') /\
  selects (fun f => needed P (fst f)) (p_facts P) (p_facts P') /\ selects (fun i => needed P (fst i)) (p_imports P) (p_imports P') /\
  p_exports P' = p_exports P /\ p_outputs P' = p_outputs P /\ p_params P' = p_params P.
Proof. destruct (active_keeps P) as (Q & E & H). rewrite HA in E. injection E as <-. exact H. Qed.
Lemma kept_rules r : In r (p_rules P') <-> In r (p_rules P) /\ exists p, in_head r p /\ needed P p.
Proof. destruct keeps_of as (H & _). now apply (selects_In (fun r => exists p, in_head r p /\ needed P p)). Qed.
Lemma kept_facts f : In f (p_facts P') <-> In f (p_facts P) /\ needed P (fst f).
Proof. destruct keeps_of as (_ & H & _). now apply (selects_In (fun f => needed P (fst f))). Qed.
Lemma kept_imports i : In i (p_imports P') <-> In i (p_imports P) /\ needed P (fst i).
Proof. destruct keeps_of as (_ & _ & H & _). now apply (selects_In (fun i => needed P (fst i))). Qed.
Lemma rule_body_needed r q : In r (p_rules P') -> in_body r q -> needed P q.
Proof. intros Hr Hq. apply kept_rules in Hr. destruct Hr as (Hr & p & Hh & Hn). eapply need_rule; eauto. Qed.

Lemma deriv_more (M : interp) p x : src_deriv sp' M p x -> src_deriv sp M p x.
Proof.
  intros H. induction H as [p x H|p rows x H1 H2|r I nu mu p ts x Hr _ IH Hm Hp Hna Hmu Hi|r p ts x Hr Hp Hag].
  - apply sd_fact. destruct H as (ts & H1 & H2). exists ts. split; auto. now apply (proj1 (kept_facts _)) in H1.
  - eapply sd_import; eauto. now apply (proj1 (kept_imports _)) in H1.
  - eapply (sd_rule sp M r I nu mu p ts); eauto. now apply kept_rules in Hr.
  - eapply (sd_agg sp M r p ts); eauto. now apply kept_rules in Hr.
Qed.
Lemma deriv_less (M : interp) p x : src_deriv sp M p x -> needed P p -> src_deriv sp' M p x.
Proof.
  intros H. induction H as [p x H|p rows x H1 H2|r I nu mu p ts x Hr HI IH Hm Hp Hna Hmu Hi|r p ts x Hr Hp Hag]; intros Hn.
  - apply sd_fact. destruct H as (ts & H1 & H2). exists ts. split; auto. now apply (proj2 (kept_facts (p, ts))).
  - eapply sd_import; eauto. now apply (proj2 (kept_imports (p, rows))).
  - assert (Hr' : In r (p_rules P')) by (apply kept_rules; split; auto; exists p; split; auto; exists ts; auto).
    eapply (sd_rule sp' M r (fun q y => I q y /\ needed P q) nu mu p ts); eauto.
    + intros q y [H1 H2]. auto.
    + apply (src_matches_ext r I _ M M); auto; [|intros q us _ y; tauto]. intros q us Hq y Hy. split; auto. apply (rule_body_needed r q Hr'). exists us. auto.
  - eapply (sd_agg sp' M r p ts); eauto. apply kept_rules. split; auto. exists p. split; auto. exists ts. auto.
Qed.
Theorem active_same (M : interp) p x : needed P p -> (src_deriv sp' M p x <-> src_deriv sp M p x).
Proof. intros H. split; [apply deriv_more|intros H1; now apply deriv_less]. Qed.

(** Only needed predicates matter in the model. *)
Lemma depends_needed r q : In r (p_rules P') -> depends r q -> needed P q.
Proof.
  intros Hr [(ts & H)|(ts & q' & us & H & _)]; apply (rule_body_needed r q Hr); exists ts; auto.
Qed.
Theorem active_model (M M' : interp) p x : (forall q, needed P q -> agree M M' q) -> needed P p -> (src_deriv sp' M' p x <-> src_deriv sp M p x).
Proof.
  intros Ha Hn. rewrite <- (active_same M p x Hn). split; apply src_deriv_ext; intros r q Hr Hd y; pose proof (Ha q (depends_needed r q Hr Hd) y); tauto.
Qed.
Theorem active_perfect (M : interp) : src_perfect sp M -> src_perfect sp' (src_deriv sp' M) /\ forall p x, needed P p -> (src_deriv sp' M p x <-> M p x).
Proof.
  intros Hp. assert (Hb : forall p x, needed P p -> (src_deriv sp' M p x <-> M p x)) by (intros p x Hn; rewrite (active_same M p x Hn); symmetry; apply Hp).
  split; auto. intros p x. split; apply src_deriv_ext; intros r q Hr Hd y; specialize (Hb q y (depends_needed r q Hr Hd)); tauto.
Qed.
(** Conversely, every perfect model of the result is one of the needed part of the program. *)
Theorem active_perfect_inv (M M' : interp) : src_perfect sp' M' -> (forall q, needed P q -> agree M M' q) ->
  forall p x, needed P p -> (M p x <-> src_deriv sp M p x).
Proof. intros Hp Ha p x Hn. rewrite (Ha p Hn x), (Hp p x). now apply active_model. Qed.
Lemma active_ok : ok_program sp -> ok_program sp'.
Proof.
  intros [H1 H2 H3 H4 H5 H6 H7]. constructor; cbn [sp' sp source sp_rules sp_facts sp_imports] in *.
  - intros r Hr. apply kept_rules in Hr. apply H1. tauto.
  - intros r Hr. apply kept_rules in Hr. apply H2. tauto.
  - intros r Hr. apply kept_rules in Hr. apply H3. tauto.
  - intros r Hr. apply kept_rules in Hr. apply H4. tauto.
  - intros p ts t Hr. apply kept_facts in Hr. apply (H5 p). tauto.
  - intros r Hr. apply kept_rules in Hr. apply H6. tauto.
  - intros p [(ts & Hr)|(rows & Hr)]; apply H7; [left; exists ts; now apply (proj1 (kept_facts _)) in Hr|right; exists rows; now apply (proj1 (kept_imports _)) in Hr].
Qed.
End Same.

(** ** Predicates of a program *)
Lemma derived_In P p : In p (derived_predicates P) <-> is_derived P p.
Proof.
  unfold derived_predicates, is_derived. rewrite setp_In, in_app_iff, in_flat_map, in_map_iff. split.
  - intros [(r & H1 & H2)|([q ts] & E & H)]; [left; exists r; split; auto; now apply head_preds_In|right; simpl in E; subst; eauto].
  - intros [(r & H1 & H2)|(ts & H)]; [left; exists r; split; auto; now apply head_preds_In|right; exists (p, ts); auto].
Qed.
Lemma imported_In P p : In p (import_predicates P) <-> is_imported P p.
Proof. unfold import_predicates, is_imported. rewrite setp_In, in_map_iff. split; [intros ([q rows] & E & H); simpl in E; subst; eauto|intros (rows & H); exists (p, rows); auto]. Qed.
Lemma mentioned_In P p : In p (all_predicates P) <-> is_mentioned P p.
Proof.
  unfold all_predicates, is_mentioned, is_derived. rewrite setp_In, in_app_iff, in_flat_map, in_map_iff. split.
  - intros [(r & H1 & H2)|([q ts] & E & H)]; [|left; right; simpl in E; subst; eauto]. apply in_app_iff in H2. destruct H2 as [H2|H2]; [left; left|right]; exists r; split; auto; [now apply head_preds_In|now apply body_preds_In].
  - intros [[(r & H1 & H2)|(ts & H)]|(r & H1 & H2)]; [left; exists r; split; auto; apply in_app_iff; left; now apply head_preds_In|right; exists (p, ts); auto|left; exists r; split; auto; apply in_app_iff; right; now apply body_preds_In].
Qed.
Lemma exported_In P p : In p (setp (map e_pred (p_exports P))) <-> is_exported P p.
Proof. unfold is_exported. rewrite setp_In, in_map_iff. split; [intros ([q s] & E & H); simpl in E; subst; eauto|intros (s & H); exists (mkExport p s); auto]. Qed.

Lemma set_exports_In k P e : In e (p_exports (set_exports k P)) <->
  (In e (p_exports P) /\ keep_export k (derived_predicates P) e = true) \/ (e_spec e = None /\ In (e_pred e) (new_exports k P)).
Proof.
  unfold set_exports. cbn [p_exports]. rewrite in_app_iff, filter_In, in_map_iff. split.
  - intros [H|(p & <- & H)]; auto.
  - intros [H|[H1 H2]]; auto. right. exists (e_pred e). split; auto. destruct e as [p s]. simpl in *. now subst.
Qed.
Lemma exports_of k P p s : In (mkExport p s) (p_exports (set_exports k P)) <->
  match k with
  | EKeep => In (mkExport p s) (p_exports P)
  | ENone => False
  | EIdb => is_derived P p /\ (In (mkExport p s) (p_exports P) \/ ~ is_exported P p /\ s = None)
  | EEdb => (~ is_derived P p /\ In (mkExport p s) (p_exports P)) \/ (is_imported P p /\ ~ is_exported P p /\ s = None)
  | EAll => is_mentioned P p /\ ~ is_exported P p /\ s = None
  end.
Proof.
  rewrite set_exports_In. unfold keep_export, new_exports. destruct k; cbn [e_pred e_spec].
  - simpl. tauto.
  - simpl. split; [intros [[_ H]|[_ []]]; discriminate|tauto].
  - rewrite memp_In, diffp_In, derived_In, exported_In. tauto.
  - rewrite negb_true_iff, memp_false, diffp_In, derived_In, imported_In, exported_In. tauto.
  - rewrite diffp_In, mentioned_In, exported_In. split; [intros [[_ H]|H]; [discriminate|tauto]|tauto].
Qed.

Lemma default_outputs P p : In p (p_outputs (set_default_outputs P)) <->
  In p (p_outputs P) \/ (p_outputs P = [] /\ p_exports P = [] /\ is_derived P p).
Proof.
  unfold set_default_outputs. destruct (p_outputs P) as [|o os] eqn:Eo, (p_exports P) as [|e es] eqn:Ee; cbn [p_outputs]; rewrite ?Eo, ?derived_In; simpl; split; intros; try tauto; intuition discriminate.
Qed.
Lemma default_rest P : p_rules (set_default_outputs P) = p_rules P /\ p_facts (set_default_outputs P) = p_facts P /\ p_imports (set_default_outputs P) = p_imports P /\
  p_exports (set_default_outputs P) = p_exports P /\ p_params (set_default_outputs P) = p_params P.
Proof. unfold set_default_outputs. destruct (p_outputs P), (p_exports P) eqn:E; simpl; auto. Qed.

