(** Proofs for C44, C46, C47: the transformations as wholes. *)
From Coq Require Import List Arith ZArith Bool Lia.
From Verif Require Import TableModel EngineModel EngineSpec NormModel NormSpec NormProofs1 NormProofs4 FilterImpProofs5 PipeModel PipeSpec PipeProofs1 PipeProofs2 PipeProofs3 PipeProofs4.
Import ListNotations.

Lemma valid_body_safe r l t w : validate r = true -> In l (s_body r) -> In t (literal_terms l) -> ~ variable_term t -> In w (uvars t) -> safe r w.
Proof.
  intros Hv Hl Ht Hn Hw. apply validate_good in Hv. destruct (g_body_op _ Hv _ t Hl Ht) as [Ho _].
  destruct t as [x| |x|c|k ts|f t ds|ts]; simpl in *; try discriminate; try tauto.
  - exfalso. apply Hn. right. left. eauto.
  - eapply (g_body_safe _ Hv _ k ts w Hl); simpl; auto.
Qed.

(** ** Constants in body atoms *)
Lemma fresh_user r v t n m : user_names r -> In v (map fresh_var (seq n m)) -> rule_term r t -> ~ occurs v t.
Proof. intros Hu Hv Ht Ho. apply in_map_iff in Hv. destruct Hv as (k & <- & _). exact (Hu t (fresh_var k) k Ht Ho eq_refl). Qed.
Lemma result_split r n : user_names r -> validate (result n r) = true -> exists eqs, split_of r (result n r) eqs.
Proof.
  intros Hu Hv. destruct (split_rule_spec n r) as (eqs & m & A & B & C & D). exists eqs. constructor; auto.
  - rewrite C. apply fresh_NoDup.
  - intros v t Hi Ht. rewrite C in Hi. eapply fresh_user; eauto.
  - intros v t w Hi Hw. eapply valid_eq_safe; eauto.
Qed.
Theorem split_constants_same P (M : interp) p x : (forall r, In r (p_rules P) -> user_names r) -> (forall r, In r (p_rules (split_constants P)) -> validate r = true) ->
  (src_deriv (source (split_constants P)) M p x <-> src_deriv (source P) M p x).
Proof.
  intros Hu Hv. apply split_deriv. split; [|auto]. cbn [source sp_rules split_constants p_rules] in *. pose proof (split_rules_spec (p_rules P) 0) as H.
  revert Hu Hv. induction H as [|r r' rs rs' (m & ->) _ IH]; intros Hu Hv; constructor.
  - right. apply result_split; [apply Hu|apply Hv]; simpl; auto.
  - apply IH; intros r0 H0; [apply Hu|apply Hv]; simpl; auto.
Qed.
Theorem split_constants_variables P r : In r (p_rules (split_constants P)) -> only_variables r.
Proof.
  intros H. cbn [split_constants p_rules] in H. destruct (Forall2_In_r _ _ _ _ (split_rules_spec (p_rules P) 0) H) as (r0 & _ & (m & ->)). destruct (split_rule_spec m r0) as (eqs & k & _ & _ & _ & D). exact D.
Qed.
Lemma split_rules_length rs : forall n, length (split_rules n rs) = length rs.
Proof. induction rs as [|r rs IH]; intros n; simpl; auto. destruct (split_rule n r). simpl. auto. Qed.

(** ** Parameters *)
Record good_params (ig : var -> bool) (ext : list (var * Z)) (ps : list param) (val : var -> option Z) : Prop := {
  gp_ext : NoDup (map fst ext);
  gp_valid : validate_parameters ig (map fst ext) ps = true;
  gp_exp : forall g e, In (mkParam g (Some e)) ps -> expression ig e = true;
  gp_val : valuation ext ps val;
  gp_defined : forall d, In d ps -> val (pa_var d) <> None }.
Lemma good_subst ig ext ps val : good_params ig ext ps val -> exists s, substitution ext ps = Some s /\
  forall v, match lookup s v with Some u => exists z, val v = Some z /\ ground u = true /\ forall nu ag, eval nu ag u = Some z | None => val v = None end.
Proof.
  intros [H1 H2 H3 H4 H5]. apply validate_parameters_spec in H2. destruct H2 as (D1 & D2 & D3). destruct (substitution_spec ig ext ps H1 D1 H3) as (s & E & I & St). exists s. split; auto. intros v.
  destruct (lookup s v) as [u|] eqn:El.
  - assert (Hz : exists z, val v = Some z).
    { destruct (i_keys _ _ _ I v) as [Hk|(e & Hk)]; [congruence| |].
      - apply in_map_iff in Hk. destruct Hk as ([g z] & Eg & Hk). simpl in Eg. subst. exists z. apply H4. now apply pv_external.
      - specialize (H5 _ Hk). simpl in H5. destruct (val v); [eauto|congruence]. }
    destruct Hz as (z & Hz). exists z. split; auto. pose proof (i_ground _ _ _ I v u El) as Hg. split; auto. intros nu ag. rewrite (ground_eval_any u nu nu ag None Hg). apply (i_value _ _ _ I v u nu z El). now apply H4.
  - destruct (val v) as [z|] eqn:Ev; auto. exfalso. apply H4 in Ev. inversion Ev as [g z' A E'|g e nu z' A B C D E']; subst.
    + apply (i_ext _ _ _ I v); auto. apply in_map_iff. exists (v, z). auto.
    + apply (founded_entry ig ext ps H3 s v I St); auto. eapply D3; eauto.
Qed.
Theorem global_same ig ext P val : good_params ig ext (p_params P) val -> exists P', global ext P = Some P' /\
  p_exports P' = p_exports P /\ p_outputs P' = p_outputs P /\ p_imports P' = p_imports P /\ p_params P' = p_params P /\
  forall (M : interp) p x, src_deriv (source P') M p x <-> src_deriv (source (put_program val P)) M p x.
Proof.
  intros G. destruct (good_subst _ _ _ _ G) as (s & E & H). unfold global. rewrite E. eexists. split; [reflexivity|]. do 4 (split; [reflexivity|]). intros M p x. symmetry.
  destruct (put_source_sim s val H (p_rules P) (p_facts P)) as [A B]. apply sim_deriv; auto.
Qed.

(** ** The pipeline *)
Lemma deriv_parts sp sp' (M : interp) p x : sp_rules sp' = sp_rules sp -> sp_facts sp' = sp_facts sp -> sp_imports sp' = sp_imports sp -> src_deriv sp M p x -> src_deriv sp' M p x.
Proof.
  intros Hr Hf Hi H. induction H as [p x H|p rows x H1 H2|r I nu mu p ts x Hin _ IH Hm Hp Hna Hmu Hinst|r p ts x Hin Hp Hag].
  - apply sd_fact. destruct H as (ts & A & B). exists ts. rewrite Hf. auto.
  - eapply sd_import; eauto. now rewrite Hi.
  - eapply sd_rule; eauto. now rewrite Hr.
  - eapply sd_agg; eauto. now rewrite Hr.
Qed.
Section Pipeline.
Context (ig : var -> bool) (k : export_parameters) (ext : list (var * Z)) (P P' : pprogram) (val : var -> option Z).
Hypothesis Hprep : prepare ig k ext P = Some P'.
Hypothesis Hext : NoDup (map fst ext).
Hypothesis Hexp : forall g e, In (mkParam g (Some e)) (p_params P) -> expression ig e = true.
Hypothesis Hval : valuation ext (p_params P) val.
Hypothesis Hdef : forall d, In d (p_params P) -> val (pa_var d) <> None.
Hypothesis Huser : forall r, In r (p_rules P) -> user_names r.
Hypothesis Hglob : forall v, val v <> None -> forall n, v <> fresh_var n.

Lemma prep_good : good_params ig ext (p_params P) val.
Proof. unfold prepare in Hprep. destruct (validate_parameters ig (map fst ext) (p_params P)) eqn:E; [|discriminate]. constructor; auto. Qed.
Lemma prep_rule s r n : (forall v, match lookup s v with Some u => exists z, val v = Some z /\ ground u = true /\ forall nu ag, eval nu ag u = Some z | None => val v = None end) ->
  user_names r -> validate (apply_rule s (result n r)) = true -> exists eqs, split_of (put_rule val r) (put_rule val (result n r)) eqs.
Proof.
  intros Hs Hu Hv. destruct (split_rule_spec n r) as (eqs & m & A & B & C & D). exists (map (put_eq val) eqs).
  assert (Ek : map fst (map (put_eq val) eqs) = map fst eqs) by (rewrite map_map; reflexivity).
  assert (Hn : forall v, In v (map fst eqs) -> val v = None).
  { intros v Hi. rewrite C in Hi. apply in_map_iff in Hi. destruct Hi as (i & <- & _). destruct (val (fresh_var i)) eqn:E; auto. exfalso. apply (Hglob (fresh_var i)) with (n := i); [congruence|auto]. }
  constructor.
  - simpl. now rewrite A.
  - simpl. now apply put_split_lits.
  - rewrite Ek, C. apply fresh_NoDup.
  - intros v t Hi Ht Ho. rewrite Ek, C in Hi. destruct (put_rule_term val r t Ht) as (t0 & H0 & ->). apply put_occurs in Ho. eapply fresh_user; eauto.
  - intros v t w Hi Hw. apply in_map_iff in Hi. destruct Hi as ([v0 t0] & E & Hi). unfold put_eq in E. simpl in E. injection E as -> <-.
    pose proof (put_sim s val Hs t0) as Hsim. destruct (sim_syntax _ _ Hsim) as (Eu & _). rewrite Eu in Hw. destruct (split_lits_eq _ _ _ v t0 B Hi) as (Nv & _ & _).
    apply (sim_safe (apply_rule s (result n r)) (put_rule val (result n r))); [apply sim_rule_sym; now apply put_rule_sim|].
    apply (valid_body_safe _ (apply_literal s (equality (v, t0))) (apply s t0)); auto.
    + cbn [apply_rule s_body]. apply in_map. apply (split_lits_other _ _ _ B). right. left. eauto.
    + simpl. auto.
    + intros Hvar. apply (put_not_variable val t0 Nv). apply sim_sym in Hsim. now rewrite (sim_variable _ _ Hsim Hvar).
Qed.

Theorem prepare_same (M : interp) p x : asked P' p -> (src_deriv (source P') M p x <-> src_deriv (source (put_program val P)) M p x).
Proof.
  pose proof prep_good as G. unfold prepare in Hprep. rewrite (gp_valid _ _ _ _ G) in Hprep. destruct (good_subst _ _ _ _ G) as (s & E & H).
  unfold global in Hprep. cbn [split_constants p_params] in Hprep. rewrite E in Hprep. cbn [p_rules p_facts p_imports p_exports p_outputs] in Hprep.
  set (Q := mkP _ _ _ _ _ _) in Hprep. destruct (forallb validate (p_rules (set_default_outputs (set_exports k Q)))) eqn:Ev; [|discriminate]. set (R := set_default_outputs (set_exports k Q)) in *.
  intros Ha. destruct (keeps_of R P' Hprep) as (_ & _ & _ & Ke & Ko & _). assert (Hn : needed R p) by (apply need_asked; unfold asked in *; rewrite Ke, Ko in Ha; exact Ha).
  rewrite (active_same R P' Hprep M p x Hn). rewrite forallb_forall in Ev. destruct (default_rest (set_exports k Q)) as (R1 & R2 & R3 & _). fold R in R1, R2, R3.
  assert (E1 : src_deriv (source R) M p x <-> src_deriv (source Q) M p x).
  { split; apply deriv_parts; cbn [source sp_rules sp_facts sp_imports]; rewrite ?R1, ?R2, ?R3; reflexivity. }
  rewrite E1. rewrite R1 in Ev. cbn [set_exports p_rules Q split_constants] in Ev.
  destruct (put_source_sim s val H (split_rules 0 (p_rules P)) (p_facts P)) as [A B].
  transitivity (src_deriv (source (put_program val (split_constants P))) M p x).
  - symmetry. apply sim_deriv; auto.
  - apply split_deriv. split; [|auto]. cbn [source sp_rules put_program split_constants p_rules]. pose proof (split_rules_spec (p_rules P) 0) as Hs. clear A B E1 R1 R2 R3 Hn Ha.
    assert (Huser' := Huser). clear Huser. revert Huser' Ev. induction Hs as [|r r' rs rs' (m & ->) _ IH]; intros Hu Ev; simpl; constructor.
    + right. apply (prep_rule s); [exact H|apply Hu; left; reflexivity|apply Ev; left; reflexivity].
    + apply IH; [intros r0 H0; apply Hu; simpl; auto|intros r0 H0; apply Ev; simpl; auto].
Qed.
(** Every rule that is run is valid, and its source has the right outputs. *)
Theorem prepare_valid r : In r (p_rules P') -> validate r = true.
Proof.
  unfold prepare in Hprep. destruct (validate_parameters ig (map fst ext) (p_params P)); [|discriminate]. destruct (global ext (split_constants P)) as [Q|]; [|discriminate].
  destruct (forallb validate (p_rules (set_default_outputs (set_exports k Q)))) eqn:Ev; [|discriminate]. rewrite forallb_forall in Ev. intros Hr. apply Ev. eapply kept_rules in Hr; eauto. tauto.
Qed.
End Pipeline.
