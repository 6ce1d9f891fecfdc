(** Normalized rules can be traced. *)
From Coq Require Import List Arith ZArith Bool Lia Permutation.
From Verif Require Import TableModel EngineModel EngineSpec EngineProofs1 EngineProofs2 OrderModel OrderSpec OrderProofs2 OrderProps NormModel NormSpec NormProofs1 NormProofs2 NormProofs3 NormProofs4 NormProofs5 NormProofs6 TraceModel TraceSpec.
Import ListNotations.

Lemma order_prefix first rest (vs : list var) : NoDup (first ++ rest) -> (forall v, In v first <-> In v vs) ->
  first ++ rest = restrict (first ++ rest) vs ++ rest.
Proof.
  intros Hn Hf. f_equal. unfold restrict. rewrite filter_app.
  assert (E1 : filter (fun v => memv v vs) first = first).
  { assert (Hi : incl first vs) by (intros v Hv; now apply Hf). clear - Hi. induction first as [|v first IH]; simpl; auto.
    rewrite (proj2 (memv_in v vs)); [|apply Hi; simpl; auto]. f_equal. apply IH. intros w Hw. apply Hi. simpl. auto. }
  assert (E2 : filter (fun v => memv v vs) rest = []).
  { destruct (filter (fun v => memv v vs) rest) as [|v l] eqn:E; auto. exfalso. assert (Hv : In v (filter (fun v => memv v vs) rest)) by (rewrite E; simpl; auto).
    apply filter_In in Hv. destruct Hv as [Hv Hm]. apply memv_in, Hf in Hm. clear - Hn Hv Hm. induction first as [|w first IH]; [destruct Hm|].
    simpl in Hn. inversion Hn as [|? ? N1 N2]; subst. destruct Hm as [->|Hm]; [|auto]. apply N1. apply in_app_iff. auto. }
  rewrite E1, E2. now rewrite app_nil_r.
Qed.

Lemma orders_prefix sp pr : normalize_program sp = Some pr -> forall r, In r (p_rules pr) ->
  exists rest, r_order r = restrict (r_order r) (atom_vars (r_pos r)) ++ rest.
Proof.
  intros E. unfold normalize_program in E. destruct (mapo _ (sp_facts sp)) as [fs|]; [|discriminate]. destruct (mapo normalize (sp_rules sp)) as [rs|]; [|discriminate].
  match type of E with option_map _ (compute_orders ?p) = _ => set (pr0 := p) in E end.
  destruct (C32_orders pr0) as (rules & Eo & HF). rewrite Eo in E. simpl in E. injection E as <-. simpl. intros r Hr.
  destruct (Forall2_in_right _ _ _ _ HF Hr) as (r0 & _ & (_ & S2 & _) & [N _] & (first & rest & Ef & [F1 F2] & _) & _).
  exists rest. rewrite Ef in *. apply order_prefix; auto. intros v. rewrite F2, S2. unfold in_positive, atom_vars. rewrite in_flat_map. split.
  - intros (p & xs & Hp & Hv). exists (p, xs). auto.
  - intros ([p xs] & Hp & Hv). exists p, xs. auto.
Qed.

Lemma normal_traceable r nr os : validate r = true -> good r -> well_named r -> supported r -> normal r nr os -> traceable_source r ->
  (exists rest, r_order nr = restrict (r_order nr) (atom_vars (r_pos nr)) ++ rest) -> traceable nr.
Proof.
  intros V G W Sp Hn [T2 T3] Hord.
  assert (T1 : exists p ts, In (LPos p ts) (s_body r)).
  { unfold validate in V. destruct (safe_variables r); [|discriminate]. rewrite !andb_true_iff in V. destruct V as [[V _] _].
    apply existsb_exists in V. destruct V as (lit & Hl & V). destruct lit; try discriminate. eauto. }
  constructor; auto.
  - destruct T1 as (p & ts & Hl). destruct (pos_atom r nr os Hn p ts Hl) as (xs & Hx & _). intros E. rewrite E in Hx. destruct Hx.
  - intros [p hs] [q gs] Ha Hb Hpq. simpl in Hpq. subst q. simpl. apply In_nth_error in Ha, Hb. destruct Ha as (k & Ha), Hb as (k' & Hb).
    destruct (head_pair' r nr os Hn k p hs Ha) as (ts & Hts & F1). destruct (head_pair' r nr os Hn k' p gs Hb) as (us & Hus & F2).
    rewrite <- (Forall2_length' _ _ _ F1), <- (Forall2_length' _ _ _ F2). apply (T2 p); eapply nth_error_In; eauto.
  - intros k [p hs] k' [q gs] Ha Hb Hne Hs. simpl. destruct (head_pair' r nr os Hn k p hs Ha) as (ts & Hts & F1). destruct (head_pair' r nr os Hn k' q gs Hb) as (us & Hus & F2).
    apply (T3 k p ts k' q us Hts Hus Hne). destruct Hs as [Hex|Hag].
    + left. unfold hatom_ex in Hex. simpl in Hex. destruct (flat_map hterm_ex hs) as [|v l] eqn:E; [congruence|].
      assert (Hv : In v (flat_map hterm_ex hs)) by (rewrite E; simpl; auto). apply in_flat_map in Hv. destruct Hv as (h & Hh & Hv).
      destruct h as [w|w|c]; simpl in Hv; try tauto. destruct Hv as [->|[]]. destruct (Forall2_in_right _ _ _ _ F1 Hh) as (t & Ht & Hsl).
      destruct (head_slot_user r G os p ts t (HEx v) v (nth_error_In _ _ Hts) Ht Hsl) as [->|[->|[[-> Hag]|(j & kk & us' & n & sa & -> & -> & _)]]]; [simpl; auto| | | |].
      * simpl in Hsl. discriminate.
      * eauto.
      * destruct t as [w| |w|c|kk us'|f u ds|us']; simpl in Hsl; try discriminate; try contradiction; [injection Hsl as <-; eauto|destruct Hsl as (? & ? & ? & Q & _); discriminate].
      * simpl in Hsl. destruct Hsl as (? & ? & ? & Q & _). discriminate.
    + right. unfold agg_index in Hag. destruct (r_agg nr) as [[ag kk]|] eqn:Ea; [|discriminate]. simpl in Hag. injection Hag as ->.
      destruct (agg_source r nr os Hn ag k Ea) as (p' & ts' & i & t & f & s & ds & Hk & Ht & Hagg). rewrite Hts in Hk. injection Hk as <- <-.
      exists t. split; [eapply nth_error_In; eauto|]. exists f, s, ds. exact Hagg.
  - intros ag k p xs Ea Hp Hx. destruct (agg_source r nr os Hn ag k Ea) as (p' & ts & i & t & f & s & ds & Hk & Ht & Hagg).
    destruct (the_aggregate r G Sp nr os Hn k p' ts i t f s ds Hk Ht Hagg) as (hs & a & Ea' & _ & _ & Eo & _). rewrite Ea in Ea'. injection Ea' as <-. rewrite Eo in Hx.
    destruct (neg_not_agg r W nr os Hn p xs _ Hp Hx) as [Hb|Hg]; [discriminate Hb|]. apply Hg, gen_out.
  - intros ag k [p' hs] v p xs Ea Hk Hv Hnb Hp Hx. simpl in Hv. destruct (head_pair' r nr os Hn k p' hs Hk) as (ts & Hts & F1).
    destruct (Forall2_in_right _ _ _ _ F1 Hv) as (t & Ht & Hsl).
    destruct (neg_not_agg r W nr os Hn p xs _ Hp Hx) as [Hb|Hg].
    + destruct (head_slot_user r G os p' ts t (HVar v) v (nth_error_In _ _ Hts) Ht Hsl) as [->|[->|[[-> Hag]|(j & kk & us' & n & sa & -> & -> & _)]]]; [simpl; auto| | | |].
      * apply Hnb. apply (safe_bound r G nr os Hn). apply (g_head_vars r G p' ts (TVar v) v (nth_error_In _ _ Hts) Ht). simpl. auto.
      * simpl in Hsl. discriminate.
      * discriminate Hb.
      * rewrite isb_head in Hb. discriminate.
    + destruct (head_slot_user r G os p' ts t (HVar v) v (nth_error_In _ _ Hts) Ht Hsl) as [->|[->|[[-> Hag]|(j & kk & us' & n & sa & -> & -> & _)]]]; [simpl; auto| | | |].
      * apply Hnb. apply (safe_bound r G nr os Hn). apply (g_head_vars r G p' ts (TVar v) v (nth_error_In _ _ Hts) Ht). simpl. auto.
      * simpl in Hsl. discriminate.
      * apply Hg, gen_out.
      * apply Hg, gen_head.
Qed.

Lemma program_traceable sp pr : ok_program sp -> (forall r, In r (sp_rules sp) -> traceable_source r) -> normalize_program sp = Some pr ->
  wf_program pr /\ forall r, In r (p_rules pr) -> traceable r.
Proof.
  intros Hok Ht E. destruct (normalize_program_spec sp Hok) as (pr' & E' & HR & HF & HI & _ & _ & Hord). rewrite E in E'. injection E' as <-. split.
  - eapply program_wf; eauto.
  - intros nr Hnr. destruct (Forall2_in_right _ _ _ _ HR Hnr) as (r & Hr & os & Hn).
    apply (normal_traceable r nr os); auto; [now apply (ok_valid sp Hok)|apply validate_good; now apply (ok_valid sp Hok)|now apply (ok_names sp Hok)|now apply (ok_supported sp Hok)|].
    eapply orders_prefix; eauto.
Qed.
