(** Tracing succeeds for every fact, and its result is a derivation tree. *)
From Coq Require Import List Arith ZArith Bool Lia Permutation.
From Verif Require Import TableModel TableSpec TableProofs TableProofs2 EngineModel EngineSpec EngineProofs1 EngineProofs2 EngineProofs3 EngineProofs7 EngineProofs8 EngineProofs9 EngineProofs12 TraceModel TraceSpec TraceProofs1 TraceProofs2 TraceProofs3.
Import ListNotations.

(** ** The storage *)
Lemma find_fact_some tr f : forall h, find_fact tr f = Some h -> exists st, nth_error tr h = Some (f, st).
Proof.
  induction tr as [|[g st] tr IH]; simpl; intros h H; [discriminate|]. destruct (fact_eq_dec g f) as [->|Hn].
  - injection H as <-. simpl. eauto.
  - destruct (find_fact tr f) as [h'|]; [|discriminate]. injection H as <-. simpl. auto.
Qed.

Lemma find_fact_none tr f : find_fact tr f = None -> ~ In f (map fst tr).
Proof.
  induction tr as [|[g st] tr IH]; simpl; intros H; [tauto|]. destruct (fact_eq_dec g f) as [->|Hn]; [discriminate|].
  destruct (find_fact tr f) as [h'|]; [discriminate|]. intros [?|?]; [congruence|]. now apply IH.
Qed.

Lemma update_app tr f st st' rest : update_status (tr ++ (f, st) :: rest) (length tr) st' = tr ++ (f, st') :: rest.
Proof. induction tr as [|[g s] tr IH]; simpl; auto. now rewrite IH. Qed.

Lemma nth_error_mid {A} (l : list A) x rest : nth_error (l ++ x :: rest) (length l) = Some x.
Proof. rewrite nth_error_app2, Nat.sub_diag; auto. Qed.

Section Traced.
Context (pr : program) (Hwf : wf_program pr) (e : engine) (H : list app_rec) (ops : list op) (Inv : einv pr e H ops).
Context (Htr : forall r, In r (p_rules pr) -> traceable r).
Context (Hexe : forall i r, In i (e_history e) -> nth_error (p_rules pr) i = Some r -> executable r).
Context (pick : list row -> option row) (shuffle : assignment -> assignment).
Context (Hpick : forall rows, match pick rows with Some x => In x rows | None => rows = [] end).
Context (Hshuffle : forall g, Permutation g (shuffle g)).

Let D := facts_at ops.

(** [s] is the first step of the fact *)
Definition first (f : fact) (s : nat) : Prop := D (fst f) s (snd f) /\ forall s', s' < s -> ~ D (fst f) s' (snd f).

Lemma first_unique f s s' : first f s -> first f s' -> s = s'.
Proof.
  intros [A B] [A' B']. destruct (Nat.lt_trichotomy s s') as [Hl|[?|Hl]]; auto; exfalso; [exact (B' s Hl A)|exact (B s' Hl A')].
Qed.

Lemma find_first f : match find_table_row (e_manager e) (fst f) (snd f) with
  | Some s => first f s
  | None => forall s, ~ D (fst f) s (snd f)
  end.
Proof. apply (find_table_row_ok ops (e_manager e) (fst f) (snd f) (i_ord _ _ _ _ Inv) (i_run _ _ _ _ Inv)). Qed.

Lemma upto_first s p x : upto D s p x -> exists t, t < s /\ first (p, x) t.
Proof.
  intros (t & Ht & Hd). pose proof (find_first (p, x)) as Hf. destruct (find_table_row _ _ _) as [s'|]; [|exfalso; apply (Hf t), Hd].
  exists s'. split; auto. destruct (Nat.lt_ge_cases t s') as [Hl|?]; [|lia]. exfalso. exact (proj2 Hf t Hl Hd).
Qed.

(** ** The application that derived a fact *)
Lemma fact_origin p j x : user_tag p -> D p (S j) x -> exists i r k0 a0 mu0 nu0,
  nth_error (e_history e) j = Some i /\ nth_error (p_rules pr) i = Some r /\ fst a0 = p /\ origin D r (S j) k0 a0 x mu0 nu0.
Proof.
  intros Hu Hd. assert (Hj : j < length H).
  { destruct Hd as (t & rows & Hi & Ht & _). apply (i_bound _ _ _ _ Inv) in Hi. rewrite (i_step _ _ _ _ Inv) in Hi. lia. }
  destruct (nth_error H j) as [a|] eqn:Ea; [|apply nth_error_None in Ea; lia].
  destruct (i_apps _ _ _ _ Inv j a Ea) as (r & results & R1 & _ & R3 & R4 & _).
  assert (Hw : wf_rule r) by (apply (wf_rules pr Hwf); eapply nth_error_In; eauto).
  apply R4 in Hd. destruct (x_sound _ _ _ _ _ _ _ _ _ R3) as (W & _ & Hs).
  assert (Hi : nth_error (e_history e) j = Some (a_rule a)) by (rewrite (i_hist _ _ _ _ Inv), nth_error_map, Ea; reflexivity).
  destruct (Hs p x Hd (Hu _)) as [(nu & mu & k & b & [Hm _] & Hk & Hag & Hmu & Hp & Hx & _)|(ag & mu & k & b & Hag & Hk & Hn & Hp & Hx & _)].
  - exists (a_rule a), r, k, b, mu, nu. split; [exact Hi|]. split; [exact R1|]. split; [now symmetry|]. constructor; auto.
    + intros v _ Hb. apply Hmu. intros Hex. now apply (wf_ex r Hw v Hex).
    + intros ag Ha. exfalso. apply Hag. unfold agg_index. rewrite Ha. reflexivity.
  - destruct Hn as (nu & z & L & [Hm _] & _ & _ & _ & Hgr & _ & Hops).
    exists (a_rule a), r, k, b, mu, nu. split; [exact Hi|]. split; [exact R1|]. split; [now symmetry|]. constructor; auto.
    + intros v Hv Hb. destruct (wf_agg_head r Hw ag k b v Hag Hk) as [[<-|Hin]|Hnb]; auto.
      * unfold hatom_vars. apply in_flat_map. exists (HVar v). simpl. auto.
      * exfalso. now apply (wf_agg r Hw ag k Hag).
      * exfalso. auto.
    + intros ag' Ha. rewrite Hag in Ha. injection Ha as <-. auto.
Qed.

(** ** The memo *)
Definition traced (tr : trace) (f : fact) (h : nat) : Prop := exists d, nth_error tr h = Some (f, Success d).

Definition derived_by (tr : trace) (f : fact) (i : nat) (asg : assignment) (k : nat) (subs : list nat) : Prop :=
  exists j r a nu, first f (S j) /\ nth_error (e_history e) j = Some i /\ nth_error (p_rules pr) i = Some r /\
    nth_error (r_head r) k = Some a /\ fst a = fst f /\ matches r (upto D (S j)) (upto D (S j)) nu /\ instance_of r nu a (snd f) /\
    NoDup (map fst asg) /\ (forall v, In v (atom_vars (r_pos r)) -> In (v, nu v) asg) /\
    Forall2 (fun b h => traced tr (fst b, map nu (snd b)) h /\ exists s, s < S j /\ first (fst b, map nu (snd b)) s) (r_pos r) subs.

Definition status_ok (tr : trace) (f : fact) (st : status) : Prop :=
  match st with
  | Unknown => True
  | Fail => forall s, ~ D (fst f) s (snd f)
  | Success DInput => first f 0
  | Success (DRule i asg k subs) => derived_by tr f i asg k subs
  end.

Record good (tr : trace) : Prop := {
  gd_nodup : NoDup (map fst tr);
  gd_ok : forall f st, In (f, st) tr -> status_ok tr f st }.

Lemma Forall2_imp {A B} (P Q : A -> B -> Prop) l l' : (forall a b, P a b -> Q a b) -> Forall2 P l l' -> Forall2 Q l l'.
Proof. intros Hi. induction 1; constructor; auto. Qed.

Lemma status_mono tr tr' f st : (forall g h, traced tr g h -> traced tr' g h) -> status_ok tr f st -> status_ok tr' f st.
Proof.
  intros Hm. destruct st as [|[|i asg k subs]|]; simpl; auto. intros (j & r & a & nu & A1 & A2 & A3 & A4 & A5 & A6 & A7 & A8 & A9 & A10).
  exists j, r, a, nu. repeat (split; [assumption|]). revert A10. apply Forall2_imp. intros b h [Ht Hs]. auto.
Qed.

Lemma traced_app tr new f h : traced tr f h -> traced (tr ++ new) f h.
Proof. intros (d & Hd). exists d. rewrite nth_error_app1; auto. apply nth_error_Some. congruence. Qed.

Lemma traced_mid tr f st new : forall g h, traced (tr ++ (f, Unknown) :: new) g h -> traced (tr ++ (f, st) :: new) g h.
Proof.
  intros g h (d & Hd). exists d. destruct (Nat.lt_trichotomy h (length tr)) as [Hl|[->|Hl]].
  - rewrite nth_error_app1 in Hd |- *; auto.
  - rewrite nth_error_mid in Hd. discriminate.
  - rewrite nth_error_app2 in Hd |- *; try lia. destruct (h - length tr) as [|n] eqn:E; [lia|]. exact Hd.
Qed.

Lemma good_update tr f st new : good (tr ++ (f, Unknown) :: new) -> status_ok (tr ++ (f, st) :: new) f st -> good (tr ++ (f, st) :: new).
Proof.
  intros [G1 G2] Hs. constructor.
  - rewrite map_app in *. exact G1.
  - intros g st' Hi. assert (Hc : (g = f /\ st' = st) \/ In (g, st') (tr ++ (f, Unknown) :: new)).
    { apply in_app_iff in Hi. destruct Hi as [Hi|[Hi|Hi]]; [right; apply in_app_iff; auto|injection Hi as <- <-; auto|right; apply in_app_iff; simpl; auto]. }
    destruct Hc as [[-> ->]|Hc]; [exact Hs|]. apply (status_mono (tr ++ (f, Unknown) :: new)); [|auto]. apply traced_mid.
Qed.

Lemma good_register tr f : good tr -> ~ In f (map fst tr) -> good (tr ++ [(f, Unknown)]).
Proof.
  intros [G1 G2] Hn. constructor.
  - rewrite map_app. simpl. apply NoDup_snoc; auto.
  - intros g st Hi. apply in_app_iff in Hi. destruct Hi as [Hi|[Hi|[]]].
    + apply (status_mono tr); [|auto]. intros g' h. apply traced_app.
    + injection Hi as <- <-. exact I.
Qed.

Definition known (new : trace) : Prop := forall f, ~ In (f, Unknown) new.
(** facts whose tracing has not ended have a later step *)
Definition open_after (tr : trace) (s : nat) : Prop := forall f t, In (f, Unknown) tr -> first f t -> s < t.

Definition rec_spec (rec : trace -> fact -> option (trace * nat)) (bound : nat) : Prop :=
  forall tr f s, user_tag (fst f) -> good tr -> first f s -> s < bound -> open_after tr s ->
    exists new h, rec tr f = Some (tr ++ new, h) /\ good (tr ++ new) /\ known new /\ traced (tr ++ new) f h.

Lemma premises_spec rec bnd asg nu j atoms : rec_spec rec bnd -> S j <= bnd -> NoDup (map fst asg) -> forall tr subs,
  good tr -> open_after tr j ->
  (forall p xs, In (p, xs) atoms -> user_tag p /\ upto D (S j) p (map nu xs) /\ forall v, In v xs -> In (v, nu v) asg) ->
  exists new hs, trace_premises rec asg atoms tr subs = Some (tr ++ new, Some (subs ++ hs)) /\ good (tr ++ new) /\ known new /\
    Forall2 (fun b h => traced (tr ++ new) (fst b, map nu (snd b)) h /\ exists s, s < S j /\ first (fst b, map nu (snd b)) s) atoms hs.
Proof.
  intros Hrec Hb Hnd. induction atoms as [|[p xs] atoms IH]; intros tr subs Hg Ho Hat; simpl.
  - exists [], []. rewrite !app_nil_r. repeat split; auto; try apply Hg. intros f [].
  - destruct (Hat p xs (or_introl eq_refl)) as (Hu & Hup & Hasg).
    assert (Em : mapM (lookup asg) xs = Some (map nu xs)).
    { clear - Hasg Hnd. induction xs as [|v xs IH]; simpl; auto. rewrite (in_lookup asg v (nu v) Hnd); [|apply Hasg; simpl; auto].
      rewrite IH; [reflexivity|]. intros w Hw. apply Hasg. simpl. auto. }
    rewrite Em. destruct (upto_first _ _ _ Hup) as (t & Ht & Hf).
    destruct (Hrec tr (p, map nu xs) t) as (new & h & E & G & K & T); auto; [lia|intros f t' Hi Hf'; specialize (Ho f t' Hi Hf'); lia|].
    rewrite E. destruct T as (d & Td). unfold status_of. rewrite Td. simpl.
    destruct (IH (tr ++ new) (subs ++ [h]) G) as (new' & hs & E' & G' & K' & F').
    { intros f t' Hi Hf'. apply in_app_iff in Hi. destruct Hi as [Hi|Hi]; [eauto|]. exfalso. exact (K f Hi). }
    { intros q ys Hq. apply Hat. simpl. auto. }
    exists (new ++ new'), (h :: hs). rewrite app_assoc. split; [|split; [exact G'|split]].
    + rewrite E'. do 3 f_equal. now rewrite <- app_assoc.
    + intros f Hi. apply in_app_iff in Hi. destruct Hi as [Hi|Hi]; [exact (K f Hi)|exact (K' f Hi)].
    + constructor; auto. simpl. split; [|eauto]. apply traced_app. exists d. exact Td.
Qed.

Lemma heads_spec rec bnd i r j f tr k0 a0 mu0 nu0 : rec_spec rec bnd -> S j <= bnd ->
  first f (S j) -> nth_error (e_history e) j = Some i -> nth_error (p_rules pr) i = Some r -> fst a0 = fst f ->
  origin D r (S j) k0 a0 (snd f) mu0 nu0 ->
  good (tr ++ [(f, Unknown)]) -> open_after tr (S j) ->
  forall hs k, (forall n, nth_error hs n = nth_error (r_head r) (k + n)) -> k <= k0 ->
  exists new, trace_heads pick shuffle e rec i r (S j) f (length tr) k hs (tr ++ [(f, Unknown)]) = Some (tr ++ new, length tr) /\
    good (tr ++ new) /\ known new /\ traced (tr ++ new) f (length tr).
Proof.
  intros Hrec Hb Hf Hhist Hrule Hfst Hor Hg Ho.
  assert (Hin : In r (p_rules pr)) by (eapply nth_error_In; eauto).
  assert (Hw : wf_rule r) by now apply (wf_rules pr Hwf). assert (Ht : traceable r) by now apply Htr.
  assert (Hx : executable r) by (eapply Hexe; eauto; eapply nth_error_In; eauto).
  pose proof (EngineProofs9.Hrd pr e H ops Inv) as Hrd. fold D in Hrd.
  induction hs as [|a hs IH]; intros k Hhs Hk.
  { exfalso. specialize (Hhs (k0 - k)). replace (k + (k0 - k)) with k0 in Hhs by lia. rewrite (o_head _ _ _ _ _ _ _ _ Hor) in Hhs.
    destruct (k0 - k); discriminate. }
  assert (Hka : nth_error (r_head r) k = Some a) by (specialize (Hhs 0); rewrite Nat.add_0_r in Hhs; now symmetry).
  assert (Hnext : k <> k0 -> exists new, trace_heads pick shuffle e rec i r (S j) f (length tr) (S k) hs (tr ++ [(f, Unknown)]) = Some (tr ++ new, length tr) /\
    good (tr ++ new) /\ known new /\ traced (tr ++ new) f (length tr)).
  { intros Hne. apply IH; [|lia]. intros n. specialize (Hhs (S n)). simpl in Hhs. rewrite Hhs. f_equal. lia. }
  assert (Hk0 : k = k0 -> a = a0) by (intros ->; rewrite (o_head _ _ _ _ _ _ _ _ Hor) in Hka; congruence).
  simpl. destruct (Nat.eqb_spec (fst a) (fst f)) as [Ef|Ef]; simpl.
  2:{ apply Hnext. intros E. apply Ef. now rewrite (Hk0 E). }
  destruct (unify (snd a) (snd f) []) as [g|] eqn:Eu.
  2:{ apply Hnext. intros E. rewrite (Hk0 E), (o_row _ _ _ _ _ _ _ _ Hor) in Eu. destruct (unify_complete mu0 (snd a0) []) as (g & Eg & _); [intros v z []|]. congruence. }
  assert (Hgi : forall v z, In (v, z) (shuffle g) -> clean r v).
  { intros v z Hv. apply (Permutation_in _ (Permutation_sym (Hshuffle g))) in Hv. destruct (unify_spec _ _ _ _ Eu) as (_ & U1 & _).
    destruct (U1 v z Hv) as [[]|Hvv]. eapply clean_head; eauto. }
  destruct (trace_query_spec _ D Hrd r Hw Ht Hx (shuffle g) Hgi (S j)) as (n & vars & Eq & _). rewrite Eq.
  pose proof (Hpick (nrows n)) as Hpk. destruct (pick (nrows n)) as [rw|].
  2:{ apply Hnext. intros E. destruct (query_complete _ D Hrd r Hw Ht Hx (S j) k0 a0 (snd f) mu0 nu0 (shuffle g) Hor) as (n' & vars' & Eq' & Hne).
      - intros v z Hv. apply (Permutation_in _ (Permutation_sym (Hshuffle g))) in Hv. rewrite (Hk0 E) in Eu. destruct (unify_spec _ _ _ _ Eu) as (_ & U1 & _).
        destruct (U1 v z Hv) as [[]|Hvv]. split; auto. rewrite (o_row _ _ _ _ _ _ _ _ Hor) in Eu.
        destruct (unify_complete mu0 (snd a0) []) as (g2 & Eg2 & Hg2); [intros ? ? []|]. rewrite Eu in Eg2. injection Eg2 as <-. auto.
      - rewrite Eq in Eq'. injection Eq' as <- <-. contradiction. }
  destruct (query_sound _ D Hrd r Hw Ht Hx (S j) k0 a0 (snd f) mu0 nu0 k a g (shuffle g) n vars rw Hor Hka) as (nu & Hm & Hins & Hnd & Hasg); auto; [congruence|].
  destruct (premises_spec rec bnd (combine vars rw) nu j (r_pos r) Hrec Hb Hnd (tr ++ [(f, Unknown)]) [] Hg) as (new & hs' & Ep & Gp & Kp & Fp).
  { intros f' t Hi Hf'. apply in_app_iff in Hi. destruct Hi as [Hi|[Hi|[]]].
    - specialize (Ho f' t Hi Hf'). lia.
    - injection Hi as <-. rewrite (first_unique _ _ _ Hf' Hf). lia. }
  { intros p xs Hp. split; [|split].
    - destruct (wf_tags_rules pr Hwf r Hin) as [Hu _]. apply (Hu p xs). apply in_app_iff. auto.
    - apply (m_pos _ _ _ _ Hm p xs Hp).
    - intros v Hv. apply Hasg. apply in_flat_map. exists (p, xs). auto. }
  rewrite Ep. simpl. rewrite <- app_assoc in *. simpl in *. rewrite update_app.
  exists ((f, Success (DRule i (combine vars rw) k hs')) :: new). split; [reflexivity|]. split; [|split].
  - apply good_update; auto. exists j, r, a, nu. repeat (split; [assumption|]). revert Fp. apply Forall2_imp.
    intros b h [Tb Sb]. split; auto. now apply traced_mid.
  - intros f' [Hi|Hi]; [discriminate|exact (Kp f' Hi)].
  - exists (DRule i (combine vars rw) k hs'). apply nth_error_mid.
Qed.

Lemma register_new tr f : find_fact tr f = None -> register_fact tr f = (tr ++ [(f, Unknown)], length tr).
Proof. intros E. unfold register_fact. now rewrite E. Qed.

Lemma recursive_spec fuel : rec_spec (trace_recursive pick shuffle pr e fuel) fuel.
Proof.
  induction fuel as [|fuel IH]; intros tr f s Hu Hg Hf Hs Ho; [lia|]. simpl.
  destruct (find_fact tr f) as [h|] eqn:Ef.
  - unfold register_fact. rewrite Ef. destruct (find_fact_some _ _ _ Ef) as (st & Est). unfold status_of. rewrite Est. simpl.
    assert (Hin : In (f, st) tr) by (eapply nth_error_In; eauto).
    destruct st as [|d|].
    + exfalso. specialize (Ho f s Hin Hf). lia.
    + exists [], h. rewrite app_nil_r. repeat split; try apply Hg; auto. intros g []. exists d. exact Est.
    + exfalso. apply (gd_ok _ Hg _ _ Hin s). apply Hf.
  - rewrite (register_new _ _ Ef). unfold status_of. rewrite nth_error_mid. simpl.
    assert (Hg' : good (tr ++ [(f, Unknown)])) by (apply good_register; auto; now apply find_fact_none).
    pose proof (find_first f) as Hff. destruct (find_table_row (e_manager e) (fst f) (snd f)) as [s'|]; [|exfalso; exact (Hff s (proj1 Hf))].
    assert (s' = s) as -> by (eapply first_unique; eauto).
    destruct s as [|j].
    + rewrite Nat.eqb_refl, orb_true_r, update_app. exists [(f, Success DInput)], (length tr). split; [reflexivity|]. split; [|split].
      * apply good_update; auto.
      * intros g [Hi|[]]. discriminate.
      * exists DInput. apply nth_error_mid.
    + destruct (fact_origin (fst f) j (snd f) Hu (proj1 Hf)) as (i & r & k0 & a0 & mu0 & nu0 & Hh & Hr & Hfst & Hor).
      replace (is_derived pr (fst f)) with true.
      2:{ symmetry. unfold is_derived. apply existsb_exists. exists r. split; [eapply nth_error_In; eauto|]. apply existsb_exists. exists a0.
          split; [eapply nth_error_In; apply (o_head _ _ _ _ _ _ _ _ Hor)|]. apply Nat.eqb_eq. exact Hfst. }
      replace (S j =? 0) with false by reflexivity. simpl negb. cbn [orb].
      replace (S j - 1) with j by lia. rewrite Hh, Hr.
      destruct (heads_spec (trace_recursive pick shuffle pr e fuel) fuel i r j f tr k0 a0 mu0 nu0 IH) with (hs := r_head r) (k := 0) as (new & E & G & K & T); auto; try lia.
      exists new, (length tr). auto.
Qed.

(** Facts that are not stored *)
Lemma recursive_fail fuel tr f : good tr -> (forall s, ~ D (fst f) s (snd f)) -> known tr ->
  exists new h, trace_recursive pick shuffle pr e (S fuel) tr f = Some (tr ++ new, h) /\ good (tr ++ new) /\ known new /\
    nth_error (tr ++ new) h = Some (f, Fail).
Proof.
  intros Hg Hn Hk. simpl. destruct (find_fact tr f) as [h|] eqn:Ef.
  - unfold register_fact. rewrite Ef. destruct (find_fact_some _ _ _ Ef) as (st & Est). unfold status_of. rewrite Est. simpl.
    assert (Hin : In (f, st) tr) by (eapply nth_error_In; eauto). pose proof (gd_ok _ Hg _ _ Hin) as Hok.
    destruct st as [|[|i asg k subs]|].
    + exfalso. exact (Hk f Hin).
    + exfalso. exact (Hn 0 (proj1 Hok)).
    + exfalso. destruct Hok as (j & r & a & nu & [Hd _] & _). exact (Hn _ Hd).
    + exists [], h. rewrite app_nil_r. repeat split; try apply Hg; auto. intros g [].
  - rewrite (register_new _ _ Ef). unfold status_of. rewrite nth_error_mid. simpl.
    assert (Hg' : good (tr ++ [(f, Unknown)])) by (apply good_register; auto; now apply find_fact_none).
    pose proof (find_first f) as Hff. destruct (find_table_row (e_manager e) (fst f) (snd f)) as [s'|]; [exfalso; exact (Hn s' (proj1 Hff))|].
    rewrite update_app. exists [(f, Fail)], (length tr). split; [reflexivity|]. split; [|split].
    + apply good_update; auto.
    + intros g [Hi|[]]. discriminate.
    + apply nth_error_mid.
Qed.

(** ** Trees *)
Lemma edb_spec p x : D p 0 x -> In (p, x) (p_facts pr) \/ exists rows, In (p, rows) (p_imports pr) /\ In x rows.
Proof. intros Hd. apply (i_edb _ _ _ _ Inv) in Hd. destruct Hd as [?|?]; auto. Qed.

Lemma at_first f s : first f s -> at_step e (fst f) s (snd f).
Proof. intros [Hd _]. now apply (at_step_facts pr e H ops Inv). Qed.

Lemma tree_spec tr : good tr -> forall fuel s f h, s < fuel -> first f s -> traced tr f h ->
  exists t, tree_of fuel tr h = Some (Some t) /\ derives_fact pr e f s t.
Proof.
  intros Hg. induction fuel as [|fuel IH]; intros s f h Hs Hf (d & Hd); [lia|]. cbn [tree_of]. rewrite Hd.
  assert (Hok : status_ok tr f (Success d)) by (apply (gd_ok _ Hg); eapply nth_error_In; eauto).
  destruct d as [|i asg k subs].
  - simpl in Hok. assert (s = 0) as -> by (eapply first_unique; eauto). exists (TFact f). split; auto. destruct f as [p x].
    constructor; [exact (at_first (p, x) 0 Hf)|]. apply edb_spec. apply Hf.
  - destruct Hok as (j & r & a & nu & A1 & A2 & A3 & A4 & A5 & A6 & A7 & A8 & A9 & A10).
    assert (s = S j) as -> by (eapply first_unique; eauto).
    assert (Hgo : forall acc, exists ts,
      (fix go (l : list nat) (acc : list tree) : option (option tree) :=
         match l with
         | [] => Some (Some (TRule i k asg acc))
         | h' :: rest => match tree_of fuel tr h' with
                         | None => None
                         | Some None => Some None
                         | Some (Some t) => go rest (acc ++ [t])
                         end
         end) subs acc = Some (Some (TRule i k asg (acc ++ ts))) /\
      Forall2 (fun b t => exists s, s < S j /\ derives_fact pr e (fst b, map nu (snd b)) s t) (r_pos r) ts).
    { clear - A10 IH Hs. induction A10 as [|b h' l l' [Tb (s & Hsj & Fs)] _ IHF]; intros acc.
      - exists []. rewrite app_nil_r. auto.
      - destruct (IH s _ h' ltac:(lia) Fs Tb) as (t & Et & Dt). rewrite Et. destruct (IHF (acc ++ [t])) as (ts & Ets & Fts).
        exists (t :: ts). rewrite Ets, <- app_assoc. split; [reflexivity|]. constructor; eauto. }
    destruct (Hgo []) as (ts & Ets & Fts). exists (TRule i k asg ts). split; [exact Ets|]. destruct f as [p x].
    apply (df_rule pr e p x j i r k a nu asg ts); auto.
    + exact (at_first (p, x) (S j) Hf).
    + apply (matches_iff r (upto D (S j)) _ (upto D (S j)) _ nu); auto; intros q y; symmetry; apply (before_upto pr e H ops Inv).
Qed.

Lemma ground_spec fuel fs : forall tr, good tr -> known tr -> (forall f, In f fs -> user_tag (fst f)) -> e_step e <= fuel ->
  exists tr' hs, trace_ground_facts pick shuffle pr e fuel tr fs = Some (tr', hs) /\ good tr' /\ known tr' /\ (exists new, tr' = tr ++ new) /\
    Forall2 (fun f h => (exists s, s < e_step e /\ first f s /\ traced tr' f h) \/
                        ((forall s, ~ D (fst f) s (snd f)) /\ nth_error tr' h = Some (f, Fail))) fs hs.
Proof.
  intros tr Hg Hk Hu Hfuel. revert tr Hg Hk. induction fs as [|f fs IH]; intros tr Hg Hk; simpl.
  - exists tr, []. repeat split; auto; try apply Hg. exists []. now rewrite app_nil_r.
  - assert (Hone : exists new h, trace_recursive pick shuffle pr e fuel tr f = Some (tr ++ new, h) /\ good (tr ++ new) /\ known new /\
       ((exists s, s < e_step e /\ first f s /\ traced (tr ++ new) f h) \/ ((forall s, ~ D (fst f) s (snd f)) /\ nth_error (tr ++ new) h = Some (f, Fail)))).
    { pose proof (find_first f) as Hff. destruct (find_table_row (e_manager e) (fst f) (snd f)) as [s|].
      - assert (Hs : s < e_step e). { destruct Hff as [(t & rows & Hi & Ht & _) _]. apply (i_bound _ _ _ _ Inv) in Hi. lia. }
        assert (Hsf : s < fuel) by lia. destruct (recursive_spec fuel tr f s (Hu f (or_introl eq_refl)) Hg Hff Hsf) as (new & h & E & G & K & T); [intros g t Hi; exfalso; exact (Hk g Hi)|].
        exists new, h. repeat (split; [assumption|]). left. eauto.
      - rewrite (i_step _ _ _ _ Inv) in Hfuel. destruct fuel as [|fuel]; [lia|].
        destruct (recursive_fail fuel tr f Hg Hff Hk) as (new & h & E & G & K & T). exists new, h. auto 6. }
    destruct Hone as (new & h & E & G & K & T). rewrite E.
    assert (Kn : known (tr ++ new)). { intros g Hi. apply in_app_iff in Hi. destruct Hi as [Hi|Hi]; [exact (Hk g Hi)|exact (K g Hi)]. }
    destruct (IH (fun g Hi => Hu g (or_intror Hi)) (tr ++ new) G Kn) as (tr' & hs & E' & G' & K' & (new' & ->) & F').
    rewrite E'. simpl. exists ((tr ++ new) ++ new'), (h :: hs). repeat (split; [auto|]). { exists (new ++ new'). now rewrite app_assoc. }
    constructor; auto. destruct T as [(s & Hs & Hf & T)|[Hn T]]; [left; exists s; split; auto; split; auto; now apply traced_app|right].
    split; auto. rewrite nth_error_app1; auto. apply nth_error_Some. congruence.
Qed.
End Traced.
