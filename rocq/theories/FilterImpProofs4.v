(** C43: what a rule over one imported predicate derives. *)
From Coq Require Import List Arith ZArith Bool Lia Permutation.
From Verif Require Import TableModel EngineModel EngineSpec EngineProofs1 OrderModel OrderSpec NormModel NormSpec NormProofs1 NormProofs2 NormProofs3 NormProofs4 NormProofs5 NormProofs6 FilterImpModel FilterImpSpec FilterImpProofs1 FilterImpProofs2.
Import ListNotations.

Lemma bound_same nr nr' v : r_pos nr = r_pos nr' -> r_ops nr = r_ops nr' -> bound nr v -> bound nr' v.
Proof.
  intros H1 H2 H. induction H as [v Hv|v e Hin _ IH]; [apply bound_pos; now rewrite <- H1|]. eapply bound_eq; eauto. now rewrite <- H2.
Qed.

Section Step.
Context (r : srule) (Hval : validate r = true) (W : well_named r) (S : supported r) (Hsym : symmetric_aggregates r).
Context (p q : tag) (bts hts : list term) (Hbp : body_positive r = [(p, bts)]) (Hbn : body_negative r = []) (Hh : s_head r = [(q, hts)]).
Context (Hna : ~ aggregating_atom hts) (Hex : forall v, ~ ex_var r v).

Lemma head_not_empty : hts <> [].
Proof.
  unfold validate in Hval. destruct (safe_variables r); [|discriminate]. rewrite Hh in Hval. simpl in Hval.
  intros ->. unfold head_atom_ok, atom_ok in Hval. simpl in Hval. rewrite andb_false_r in Hval. discriminate.
Qed.

Lemma rule_step : exists nr xs hs, normalize r = Some nr /\ r_pos nr = [(p, xs)] /\ length xs = length bts /\ r_head nr = [(q, hs)] /\ hs <> [] /\ NoDup xs /\
  (forall o v, In o (r_ops nr) -> In v (op_vars o) -> bound nr v) /\ (forall v, In v (head_vars nr) -> bound nr v) /\
  forall (I M : interp) x, (exists nu mu, src_matches r I M nu /\ (forall v, ~ ex_var r v -> mu v = nu v) /\ instance None mu hts x) <->
    exists nu y, I p y /\ fires nr xs hs nu y x.
Proof.
  pose proof (validate_good r Hval) as G. destruct (normalize_normal r G W S) as (nr & os & En & Hn).
  pose proof (nm_pos r nr os Hn) as HP. rewrite Hbp in HP. inversion HP as [|a0 [p' xs] l0 l1 (E1 & Hnd & HF & _) HP2 E3 E4]; subst. inversion HP2; subst. simpl in E1, Hnd, HF. subst p'. symmetry in E4.
  pose proof (nm_head r nr os Hn) as HH. rewrite Hh in HH. inversion HH as [|a1 [q' hs] l2 l3 (E5 & HFh) HH2 E6 E7]; subst. inversion HH2; subst. simpl in E5, HFh. subst q'. symmetry in E7.
  pose proof (nm_neg r nr os Hn) as HN. rewrite Hbn in HN. assert (E8 : r_neg nr = []) by (inversion HN; auto).
  assert (E9 : r_agg nr = None).
  { destruct (nm_agg r nr os Hn) as [[Ea _]|(m & p0 & ts & hs0 & a & Ea & Hm & Hm2 & _)]; auto. exfalso.
    assert (Hi : agg_index nr <> Some m). { apply (not_agg_index r G S nr os Hn m p0 ts Hm). rewrite Hh in Hm. destruct m as [|[|m]]; try discriminate. simpl in Hm. injection Hm as <- <-. exact Hna. }
    apply Hi. unfold agg_index. now rewrite Ea. }
  assert (Hnex : forall v, ~ is_ex nr v) by (intros v Hv; apply (Hex v); now apply (is_ex_src r nr os Hn)).
  set (nr' := mkRule (r_head nr) (r_pos nr) (r_neg nr) (r_ops nr) (r_agg nr) xs (head_vars nr)).
  assert (Hn' : normal r nr' os) by (apply (same_normal r nr nr' os); auto; repeat split).
  assert (Hxs : atom_vars (r_pos nr) = xs) by (rewrite E4; unfold atom_vars; simpl; apply app_nil_r).
  assert (Hwf : wf_rule nr').
  { apply (normal_wf r G W S nr' os Hn'); auto.
    - simpl. rewrite Hxs. split; auto. apply incl_refl.
    - intros He. exfalso. unfold is_existential in He. simpl in He. apply existsb_exists in He. destruct He as (a & Ha & Hb). apply negb_true_iff, Nat.eqb_neq in Hb.
      destruct (hatom_ex a) as [|v l] eqn:El; [simpl in Hb; congruence|]. apply (Hnex v). exists a. split; auto. rewrite El. now left. }
  assert (Hops : forall o v, In o (r_ops nr) -> In v (op_vars o) -> bound nr v).
  { intros o v Ho Hv. destruct (wf_ops nr' Hwf o Ho) as [Hb|[(a & k & v' & e & Ea & _)|(p0 & xs0 & Hin & _)]].
    - apply (bound_same nr' nr); auto.
    - simpl in Ea. congruence.
    - simpl in Hin. rewrite E8 in Hin. destruct Hin. }
  assert (Hhv : forall v, In v (head_vars nr) -> bound nr v).
  { intros v Hv. unfold head_vars in Hv. rewrite E7 in Hv. simpl in Hv. rewrite app_nil_r in Hv. unfold hatom_vars in Hv. simpl in Hv. apply in_flat_map in Hv. destruct Hv as (h & H1 & H2).
    destruct h as [w|w|c]; simpl in H2; try tauto; destruct H2 as [->|[]].
    - apply (bound_same nr' nr); auto. apply (wf_head nr' Hwf 0 (q, hs) v); auto; [simpl; now rewrite E7|]. unfold agg_index. simpl. rewrite E9. discriminate.
    - exfalso. apply (Hnex v). exists (q, hs). rewrite E7. split; [now left|]. unfold hatom_ex. simpl. apply in_flat_map. exists (HEx v). simpl. auto. }
  exists nr, xs, hs. split; [auto|]. split; [auto|]. split; [apply Forall2_length' in HF; auto|]. split; [auto|].
  split. { intros ->. apply Forall2_length' in HFh. apply head_not_empty. destruct hts; auto; discriminate. }
  split; [auto|]. split; [auto|]. split; [auto|].
  intros I M x. split.
  - intros (nu & mu & Hm & Hmu & Hi). destruct (src_matches_norm r G W S nr os Hn I M nu Hm) as (nu2 & Hu & Hm2).
      set (mu2 := fun v => if gen_dec v then nu2 v else mu v).
      assert (Hmu2 : forall v, mu2 v = nu2 v). { intros v. unfold mu2. destruct (gen_dec v) as [|Hg]; auto. rewrite Hmu by auto. symmetry. auto. }
      assert (Ei : x = map (hterm_val mu2) hs).
      { apply (instance_fun None mu2 hts).
        - apply (instance_user r W S q hts mu); auto; [rewrite Hh; now left|]. intros v Hv. unfold mu2. destruct (gen_dec v); [contradiction|auto].
        - apply (head_instance r G W S nr os Hn I M nu2 mu2 0 q hts hs); auto; [now rewrite Hh|now rewrite E7]. }
      exists nu2, (map nu2 xs). split; [apply (m_pos nr I M nu2 Hm2); rewrite E4; now left|]. split; auto. split.
      * intros o Ho. apply (m_ops nr I M nu2 Hm2). split; auto. eauto.
      * rewrite Ei. apply map_ext. intros [v|v|c]; simpl; auto.
  - intros (nu & y & Hy & (F1 & F2 & F3)).
      assert (Hm : matches nr I M nu).
      { constructor.
        - intros p0 xs0 H0. rewrite E4 in H0. destruct H0 as [H0|[]]. injection H0 as <- <-. now rewrite F1.
        - intros o [Ho _]. auto.
        - intros p0 xs0 H0. rewrite E8 in H0. destruct H0. }
      exists nu, nu. split; [now apply (matches_src r G W S nr os Hn)|]. split; auto. rewrite F3.
      apply (head_instance r G W S nr os Hn I M nu nu 0 q hts hs); auto; [now rewrite Hh|now rewrite E7].
Qed.
End Step.
