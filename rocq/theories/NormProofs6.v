(** Programs and their normal forms. *)
From Coq Require Import List Arith ZArith Bool Lia Permutation.
From Verif Require Import TableModel EngineModel EngineSpec EngineProofs1 OrderModel OrderSpec OrderProofs2 OrderProps NormModel NormSpec NormProofs1 NormProofs2 NormProofs3 NormProofs4 NormProofs5.
Import ListNotations.

Lemma ground_plain t : ground t = true -> plain_term t /\ op_term t = true.
Proof.
  induction t as [v| |v|c|k ts IH|f t ds _|ts _] using term_ind'; simpl; intros H; try discriminate.
  - repeat split; reflexivity.
  - rewrite forallb_forall in H. rewrite Forall_forall in IH. split; [apply plain_op; intros t Ht; now apply IH; auto|]. apply forallb_forall. intros t Ht. now apply IH; auto.
Qed.
Lemma norm_fact_spec ts : (forall t, In t ts -> ground t = true) -> exists o, norm_fact ts = Some o /\ forall x, o = Some x <-> instance None (fun _ => 0%Z) ts x.
Proof.
  intros H. unfold norm_fact. assert (Hg : forallb ground ts = true) by (apply forallb_forall; auto). rewrite Hg.
  destruct (mapo_total norm_term ts) as (ns & En); [intros t Ht; apply norm_term_op; now apply ground_plain; auto|]. rewrite En. eexists. split; [reflexivity|]. intros x.
  rewrite <- (mapo_map norm_term (neval (fun _ => 0%Z)) ts ns En (eval (fun _ => 0%Z) None)); [apply mapo_Forall2|].
  apply Forall_forall. intros t Ht n Hn. destruct (norm_term_spec t n Hn) as (Q & _); [now apply ground_plain; auto|]. now rewrite (Q _ None).
Qed.

Definition rule_rel (r : srule) (nr : rule) : Prop := exists os, normal r nr os.

Lemma same_normal r nr nr' os : same_rule nr nr' -> normal r nr os -> normal r nr' os.
Proof.
  intros (H1 & H2 & H3 & H4 & H5) [N1 N2 N3 N4 N5 N6 N7 N8 N9 N10]. unfold head_vars in *. constructor; unfold head_vars in *; rewrite ?H1, ?H2, ?H3, ?H4, ?H5; auto.
Qed.

Lemma Forall2_trans_in {A B C} (P : A -> B -> Prop) (Q : B -> C -> Prop) (R : A -> C -> Prop) : forall l l' l'',
  Forall2 P l l' -> Forall2 Q l' l'' -> (forall a b c, P a b -> Q b c -> R a c) -> Forall2 R l l''.
Proof. intros l l' l'' H. revert l''. induction H; intros l'' H' Hi; inversion H'; subst; constructor; eauto. Qed.
Lemma Forall2_in_left {A B} (R : A -> B -> Prop) l l' a : Forall2 R l l' -> In a l -> exists b, In b l' /\ R a b.
Proof. intros H Ha. apply In_nth_error in Ha. destruct Ha as (i & Hi). destruct (Forall2_nth _ _ _ H i a Hi) as (b & Hb & Hr). exists b. split; auto. eapply nth_error_In; eauto. Qed.
Lemma Forall2_in_right {A B} (R : A -> B -> Prop) l l' b : Forall2 R l l' -> In b l' -> exists a, In a l /\ R a b.
Proof. intros H Ha. apply In_nth_error in Ha. destruct Ha as (i & Hi). destruct (Forall2_nth' _ _ _ H i b Hi) as (a & Hb & Hr). exists a. split; auto. eapply nth_error_In; eauto. Qed.

Theorem normalize_program_spec sp : ok_program sp -> exists pr, normalize_program sp = Some pr /\
  Forall2 rule_rel (sp_rules sp) (p_rules pr) /\ (forall p x, In (p, x) (p_facts pr) <-> src_fact sp p x) /\ p_imports pr = sp_imports sp /\ p_preds pr = sp_preds sp /\ p_outputs pr = sp_outputs sp /\
  forall r, In r (p_rules pr) -> (NoDup (r_order r) /\ incl (atom_vars (r_pos r)) (r_order r)) /\ (is_existential r = true -> NoDup (r_exorder r) /\ incl (head_vars r) (r_exorder r)).
Proof.
  intros Hok. unfold normalize_program.
  destruct (mapo_total (fun f => option_map (option_map (pair (fst f))) (norm_fact (snd f))) (sp_facts sp)) as (fs & Ef).
  { intros [p ts] Hp. destruct (norm_fact_spec ts) as (o & E & _); [intros t Ht; apply (ok_facts sp Hok p ts t Hp Ht)|]. cbn [fst snd]. rewrite E. simpl. eauto. }
  destruct (mapo_total normalize (sp_rules sp)) as (nrs & Er).
  { intros r Hr. destruct (normalize_normal r) as (nr & os & E & _); [apply validate_good; now apply (ok_valid sp Hok)|now apply (ok_names sp Hok)|now apply (ok_supported sp Hok)|]. rewrite E. eauto. }
  rewrite Ef, Er. set (facts := flat_map _ fs). set (pr0 := mkProgram nrs facts (sp_imports sp) (sp_preds sp) (sp_outputs sp)).
  destruct (C32_orders pr0) as (rules & Eo & HF). rewrite Eo. simpl. eexists. split; [reflexivity|]. simpl. split; [|split; [|split; [|split; [|split]]]]; auto.
  - apply mapo_Forall2 in Er. assert (Er' : Forall2 (fun r nr => In r (sp_rules sp) /\ normalize r = Some nr) (sp_rules sp) nrs).
    { apply Forall2_of_nth; [eapply Forall2_length'; eauto|]. intros i r nr Hi Hj. destruct (Forall2_nth _ _ _ Er i r Hi) as (nr' & Hj' & E). split; [eapply nth_error_In; eauto|congruence]. }
    eapply Forall2_trans_in; [exact Er'|exact HF|]. intros r nr nr' [Hr E] (Hs & _).
    destruct (normalize_normal r) as (nr0 & os & E0 & Hn); [apply validate_good; now apply (ok_valid sp Hok)|now apply (ok_names sp Hok)|now apply (ok_supported sp Hok)|].
    rewrite E in E0. injection E0 as <-. exists os. eapply same_normal; eauto.
  - intros p x. apply mapo_Forall2 in Ef. unfold facts, src_fact. rewrite in_flat_map. split.
    + intros (o & Ho & Hx). destruct o as [[q y]|]; [|destruct Hx]. destruct Hx as [E|[]]. injection E as -> ->. destruct (Forall2_in_right _ _ _ _ Ef Ho) as ([q ts] & Hq & E). simpl in E.
      destruct (norm_fact_spec ts) as (o' & Eo' & Hi); [intros t Ht; apply (ok_facts sp Hok q ts t Hq Ht)|]. rewrite Eo' in E. destruct o' as [y|]; [|discriminate]. simpl in E. injection E as -> ->. exists ts. split; auto. now apply Hi.
    + intros (ts & Hp & Hi). destruct (Forall2_in_left _ _ _ _ Ef Hp) as (o & Ho & E). simpl in E. destruct (norm_fact_spec ts) as (o' & Eo' & Hi'); [intros t Ht; apply (ok_facts sp Hok p ts t Hp Ht)|]. rewrite Eo' in E. apply Hi' in Hi. subst o'. simpl in E. injection E as <-.
      exists (Some (p, x)). split; [exact Ho|now left].
  - intros r Hr. exact (C32_orders_suffice pr0 rules Eo r Hr).
Qed.

Section Program.
Context (sp : sprogram) (Hok : ok_program sp) (pr : program).
Context (Hrules : Forall2 rule_rel (sp_rules sp) (p_rules pr)) (Hfacts : forall p x, In (p, x) (p_facts pr) <-> src_fact sp p x) (Himp : p_imports pr = sp_imports sp).

Lemma r_good r : In r (sp_rules sp) -> good r. Proof. intros H. apply validate_good. now apply (ok_valid sp Hok). Qed.
Lemma r_wn r : In r (sp_rules sp) -> well_named r. Proof. apply (ok_names sp Hok). Qed.
Lemma r_sup r : In r (sp_rules sp) -> supported r. Proof. apply (ok_supported sp Hok). Qed.

Lemma deriv_src M p x : deriv pr M p x -> src_deriv sp M p x.
Proof.
  induction 1 as [p x H|p rows x H1 H2|rl nu mu k a Hrl _ IH Hops Hneg Hk Hi Hmu|rl ag mu k a Hrl Ea Hk Hv].
  - apply sd_fact. now apply Hfacts.
  - rewrite Himp in H1. eapply sd_import; eauto.
  - destruct (Forall2_in_right _ _ _ _ Hrules Hrl) as (r & Hr & os & Hn). destruct a as [p hs]. pose proof (r_good r Hr) as G. pose proof (r_wn r Hr) as W. pose proof (r_sup r Hr) as S.
    assert (Hm : matches rl (src_deriv sp M) M nu) by (constructor; auto). destruct (head_pair' r rl os Hn k p hs Hk) as (ts & Hts & _).
    assert (Hna : ~ aggregating_atom ts) by (apply (not_agg_index r G S rl os Hn k p ts Hts); auto).
    apply (sd_rule sp M r (src_deriv sp M) nu mu p ts); auto.
    + apply (matches_src r G W S rl os Hn). exact Hm.
    + eapply nth_error_In; eauto.
    + intros v Hv. apply Hmu. intros Hx. apply Hv. now apply (is_ex_src r rl os Hn).
    + eapply (head_instance r G W S rl os Hn); eauto.
  - destruct (Forall2_in_right _ _ _ _ Hrules Hrl) as (r & Hr & os & Hn). destruct a as [p hs]. pose proof (r_good r Hr) as G. pose proof (r_wn r Hr) as W. pose proof (r_sup r Hr) as S.
    destruct (agg_head_iff r G W S rl os Hn M ag k p hs (map (hterm_val mu) hs) Ea Hk) as (ts & Hts & Hiff). apply (sd_agg sp M r p ts); auto; [eapply nth_error_In; eauto|]. apply Hiff. eauto.
Qed.
Lemma src_deriv_norm M p x : src_deriv sp M p x -> deriv pr M p x.
Proof.
  induction 1 as [p x H|p rows x H1 H2|r I nu mu p ts x Hr _ IH Hm Hp Hna Hmu Hi|r p ts x Hr Hp Hag].
  - apply d_fact. now apply Hfacts.
  - rewrite <- Himp in H1. eapply d_import; eauto.
  - destruct (Forall2_in_left _ _ _ _ Hrules Hr) as (rl & Hrl & os & Hn). pose proof (r_good r Hr) as G. pose proof (r_wn r Hr) as W. pose proof (r_sup r Hr) as S.
    destruct (src_matches_norm r G W S rl os Hn I M nu Hm) as (nu2 & Hu & Hm2). destruct (head_pair r rl os Hn p ts Hp) as (k & hs & Hk & Hh & _).
    set (mu2 := fun v => if gen_dec v then nu2 v else mu v).
    assert (Hmu2 : forall v, ~ is_ex rl v -> mu2 v = nu2 v).
    { intros v Hv. unfold mu2. destruct (gen_dec v) as [|Hg]; auto. rewrite Hmu; [symmetry; auto|]. intros Hx. apply Hv. now apply (is_ex_src r rl os Hn). }
    assert (Ei : x = map (hterm_val mu2) hs).
    { apply (instance_fun None mu2 ts).
      - apply (instance_user r W S p ts mu); auto. intros v Hv. unfold mu2. destruct (gen_dec v); [contradiction|auto].
      - apply (head_instance r G W S rl os Hn I M nu2 mu2 k p ts hs); auto. }
    rewrite Ei. apply (d_rule pr M rl nu2 mu2 k (p, hs)); auto.
    + intros q xs Hq. apply IH. apply (m_pos rl I M nu2 Hm2); auto.
    + apply (m_ops rl I M nu2 Hm2).
    + apply (m_neg rl I M nu2 Hm2).
    + apply (not_agg_index r G S rl os Hn k p ts Hk); auto.
  - destruct (Forall2_in_left _ _ _ _ Hrules Hr) as (rl & Hrl & os & Hn). pose proof (r_good r Hr) as G. pose proof (r_wn r Hr) as W. pose proof (r_sup r Hr) as S.
    destruct (agg_instance_index r G S rl os Hn M p ts x Hp Hag) as (a & k & hs & Ea & Hk & Hh). destruct (agg_head_iff r G W S rl os Hn M a k p hs x Ea Hh) as (ts' & Hk' & Hiff).
    rewrite Hk in Hk'. injection Hk' as <-. apply Hiff in Hag. destruct Hag as (mu & Hmu & ->). exact (d_agg pr M rl a mu k (p, hs) Hrl Ea Hh Hmu).
Qed.

Lemma closed_src M : closed pr M <-> src_model sp M.
Proof.
  split.
  - intros (C1 & C2 & C3). split; [|split].
    + intros p x H. apply C1. now apply Hfacts.
    + intros p rows x H. apply C2. now rewrite Himp.
    + intros r Hr. destruct (Forall2_in_left _ _ _ _ Hrules Hr) as (rl & Hrl & os & Hn). pose proof (r_good r Hr) as G. pose proof (r_wn r Hr) as W. pose proof (r_sup r Hr) as S. destruct (C3 rl Hrl) as [D1 D2]. split.
      * intros nu Hm. destruct (src_matches_norm r G W S rl os Hn M M nu Hm) as (nu2 & Hu & Hm2). destruct (D1 nu2 Hm2) as (mu & Hmu & Hh).
        exists (fun v => if gen_dec v then nu v else mu v). split.
        -- intros v Hv. destruct (gen_dec v) as [|Hg]; auto. rewrite Hmu; auto. intros Hx. apply Hv. now apply (is_ex_src r rl os Hn).
        -- intros p ts Hp Hna. destruct (head_pair r rl os Hn p ts Hp) as (k & hs & Hk & Hkh & _). exists (map (hterm_val mu) hs). split.
           ++ apply (instance_user r W S p ts mu); auto; [intros v Hv; destruct (gen_dec v); [contradiction|auto]|]. apply (head_instance r G W S rl os Hn M M nu2 mu k p ts hs); auto.
           ++ apply (Hh k (p, hs) Hkh). apply (not_agg_index r G S rl os Hn k p ts Hk); auto.
      * intros p ts x Hp Hag. destruct (agg_instance_index r G S rl os Hn M p ts x Hp Hag) as (a & k & hs & Ea & Hk & Hh). destruct (agg_head_iff r G W S rl os Hn M a k p hs x Ea Hh) as (ts' & Hk' & Hiff).
        rewrite Hk in Hk'. injection Hk' as <-. apply Hiff in Hag. destruct Hag as (mu & Hmu & ->). exact (D2 a k (p, hs) mu Ea Hh Hmu).
  - intros (C1 & C2 & C3). split; [|split].
    + intros p x H. apply C1. now apply Hfacts.
    + intros p rows x H. apply C2. now rewrite <- Himp.
    + intros rl Hrl. destruct (Forall2_in_right _ _ _ _ Hrules Hrl) as (r & Hr & os & Hn). pose proof (r_good r Hr) as G. pose proof (r_wn r Hr) as W. pose proof (r_sup r Hr) as S. destruct (C3 r Hr) as [D1 D2]. split.
      * intros nu Hm. destruct (D1 nu (matches_src r G W S rl os Hn M M nu Hm)) as (mu & Hmu & Hh).
        set (mu2 := fun v => if gen_dec v then nu v else mu v).
        assert (Hmu2 : forall v, ~ is_ex rl v -> mu2 v = nu v).
        { intros v Hv. unfold mu2. destruct (gen_dec v); auto. apply Hmu. intros Hx. apply Hv. now apply (is_ex_src r rl os Hn). }
        exists mu2. split; auto. intros k [p hs] Hk Hi. destruct (head_pair' r rl os Hn k p hs Hk) as (ts & Hts & _).
        assert (Hna : ~ aggregating_atom ts) by (apply (not_agg_index r G S rl os Hn k p ts Hts); auto). assert (Hp : In (p, ts) (s_head r)) by (eapply nth_error_In; eauto).
        destruct (Hh p ts Hp Hna) as (x & Hx & HM). simpl. replace (map (hterm_val mu2) hs) with x; auto. apply (instance_fun None mu2 ts).
        -- apply (instance_user r W S p ts mu); auto. intros v Hv. unfold mu2. destruct (gen_dec v); [contradiction|auto].
        -- apply (head_instance r G W S rl os Hn M M nu mu2 k p ts hs); auto.
      * intros ag k [p hs] mu Ea Hk Hv. destruct (agg_head_iff r G W S rl os Hn M ag k p hs (map (hterm_val mu) hs) Ea Hk) as (ts & Hts & Hiff). apply (D2 p ts); [eapply nth_error_In; eauto|]. apply Hiff. eauto.
Qed.

Lemma program_wf : (forall r, In r (p_rules pr) -> (NoDup (r_order r) /\ incl (atom_vars (r_pos r)) (r_order r)) /\ (is_existential r = true -> NoDup (r_exorder r) /\ incl (head_vars r) (r_exorder r))) -> wf_program pr.
Proof.
  intros Ho. constructor.
  - intros rl Hrl. destruct (Forall2_in_right _ _ _ _ Hrules Hrl) as (r & Hr & os & Hn). destruct (Ho rl Hrl) as [O1 O2].
    apply (normal_wf r (r_good r Hr) (r_wn r Hr) (r_sup r Hr) rl os Hn); auto. now apply (ok_symmetric sp Hok).
  - intros rl Hrl. destruct (Forall2_in_right _ _ _ _ Hrules Hrl) as (r & Hr & os & Hn). destruct (ok_tags_rules sp Hok r Hr) as [T1 T2]. split.
    + intros p xs Hp. apply in_app_iff in Hp. destruct Hp as [Hp|Hp]; [destruct (pos_atom' r rl os Hn p xs Hp) as (ts & Hl & _)|destruct (neg_atom' r rl os Hn p xs Hp) as (ts & Hl & _)]; apply (T1 p ts); auto.
    + intros [p hs] Ha. apply In_nth_error in Ha. destruct Ha as (k & Hk). destruct (head_pair' r rl os Hn k p hs Hk) as (ts & Hts & _). simpl. apply (T2 p ts). eapply nth_error_In; eauto.
  - intros p Hp. apply (ok_tags_edb sp Hok). unfold edb_preds in Hp.
    apply nodup_In in Hp. apply in_app_iff in Hp. destruct Hp as [Hp|Hp]; apply in_map_iff in Hp; destruct Hp as ([q y] & <- & Hq); simpl.
    + rewrite Himp in Hq. right. eauto.
    + apply Hfacts in Hq. destruct Hq as (ts & Hts & _). left. eauto.
Qed.
Lemma ex_free : (forall r v, In r (sp_rules sp) -> ~ ex_var r v) -> existential_free pr.
Proof.
  intros H rl Hrl. destruct (is_existential rl) eqn:E; auto. exfalso. destruct (Forall2_in_right _ _ _ _ Hrules Hrl) as (r & Hr & os & Hn).
  unfold is_existential in E. apply existsb_exists in E. destruct E as (a & Ha & Ex). destruct (hatom_ex a) as [|v l] eqn:Eh; [discriminate|].
  apply (H r v Hr). apply (is_ex_src r rl os Hn). exists a. split; auto. rewrite Eh. now left.
Qed.
End Program.

Lemma safe_same r r' : same_srule r r' -> forall v, safe r v -> safe r' v.
Proof. intros [Hb _]. induction 1 as [p ts v Hl Ha|l v t Hl He H1 H2 _ IH]; [eapply safe_pos; [apply Hb; eauto|auto]|eapply safe_eq; [apply Hb; eauto|eauto ..]]. Qed.
Lemma same_sym r r' : same_srule r r' -> same_srule r' r.
Proof. intros [H1 H2]. split; intros; symmetry; auto. Qed.
Lemma safe_op_same r r' k us : same_srule r r' -> safe_op r k us -> safe_op r' k us.
Proof. intros H [H1 H2]. split; [now apply H|]. intros v Hv. eapply safe_same; eauto. Qed.
Lemma src_matches_same r r' I M nu : same_srule r r' -> src_matches r I M nu -> src_matches r' I M nu.
Proof.
  intros H [S1 S2 S3 S4]. pose proof (same_sym _ _ H) as H'. constructor.
  - intros p ts Hl. apply S1. now apply H.
  - intros k us Hk. apply S2. now apply (safe_op_same r' r).
  - intros p ts Hl (nu' & Q1 & Q2 & Q3). apply (S3 p ts); [now apply H|]. exists nu'. split; [|split; auto].
    + intros v Hv. apply Q1. eapply safe_same; eauto.
    + intros k us (U1 & U2 & U3). apply Q3. split; [now apply H|]. split; [intros Hs; apply U2; now apply (safe_op_same r' r)|].
      intros v Hv. destruct (U3 v Hv) as [Hsv|Ha]; [left; eapply safe_same; eauto|now right].
  - intros t Hc. apply S4. destruct Hc as [p ts k us Hl Ht|p ts k us Hp Ht Ha|p ts t f s ds Hp Ht Ha].
    + eapply comp_neg; [apply H; eauto|auto].
    + eapply comp_head; [apply H; eauto|auto|auto].
    + eapply comp_agg; [apply H; eauto|eauto|eauto].
Qed.
Lemma agg_instance_same r r' M ts x : same_srule r r' -> agg_instance r M ts x -> agg_instance r' M ts x.
Proof.
  intros H (j & t & f & s & ds & nu & z & A1 & A2 & A3 & (L & L1 & L2 & L3) & A5). exists j, t, f, s, ds, nu, z. split; auto. split; auto. split; [eapply src_matches_same; eauto|]. split; auto.
  exists L. split; auto. split; auto. intros y. rewrite L2. pose proof (same_sym _ _ H) as H'.
  split; intros (nu' & z' & B1 & B2); exists nu', z'; (split; [eapply src_matches_same; eauto|auto]).
Qed.
Lemma ex_var_same r r' v : same_srule r r' -> ex_var r v -> ex_var r' v.
Proof. intros H (p & ts & H1 & H2). exists p, ts. split; auto. now apply H. Qed.
Lemma src_deriv_same sp sp' M p x : same_source sp sp' -> src_deriv sp M p x -> src_deriv sp' M p x.
Proof.
  intros (HR & HF & HI). induction 1 as [p x (ts & H & Hi)|p rows x H1 H2|r I nu mu p ts x Hr _ IH Hm Hp Hna Hmu Hi|r p ts x Hr Hp Hag].
  - apply sd_fact. exists ts. split; auto. now apply HF.
  - eapply sd_import; [apply HI; eauto|auto].
  - destruct (HR r Hr) as (r' & Hr' & Hs). eapply (sd_rule sp' M r' I nu mu p ts); auto.
    + eapply src_matches_same; eauto.
    + now apply Hs.
    + intros v Hv. apply Hmu. intros He. apply Hv. eapply ex_var_same; eauto.
  - destruct (HR r Hr) as (r' & Hr' & Hs). eapply (sd_agg sp' M r' p ts); auto; [now apply Hs|]. eapply agg_instance_same; eauto.
Qed.
