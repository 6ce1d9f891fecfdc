(** The query of a trace: its matches are the matches of the rule with the unified variables fixed. *)
From Coq Require Import List Arith ZArith Bool Lia Permutation.
From Verif Require Import TableModel EngineModel EngineSpec EngineProofs1 EngineProofs2 EngineProofs3 TraceModel TraceSpec.
Import ListNotations.

Definition grounded (r : rule) (g : assignment) : rule :=
  mkRule (r_head r) (r_pos r) (r_neg r) (r_ops r ++ map ground_op g) (r_agg r) (r_order r) (r_exorder r).

Definition clean (r : rule) (v : var) : Prop := bound r v \/ forall p xs, In (p, xs) (r_neg r) -> ~ In v xs.

Lemma bound_dec r : incl (atom_vars (r_pos r)) (r_order r) -> forall v, {bound r v} + {~ bound r v}.
Proof.
  intros Hi v. destruct (gen_function (restrict (r_order r) (atom_vars (r_pos r))) (r_ops r)) as [[[vs fs] rest]|] eqn:E.
  - pose proof (gen_function_bound r (r_order r) vs fs rest Hi E v) as Hb. destruct (in_dec Nat.eq_dec v vs); [left|right]; tauto.
  - exfalso. destruct (gen_function_spec (restrict (r_order r) (atom_vars (r_pos r))) (r_ops r)) as (a & b & c & E' & _). congruence.
Qed.

Section Grounded.
Context (r : rule) (Hwf : wf_rule r) (Ht : traceable r) (g : assignment).
Context (Hg : forall v z, In (v, z) g -> clean r v).
Let rt := grounded r g.

Lemma bound_up v : bound r v -> bound rt v.
Proof.
  induction 1 as [v Hv|v e Hin _ IH]; [now constructor|]. apply (bound_eq rt v e); auto. simpl. apply in_app_iff. auto.
Qed.

Lemma bound_g v z : In (v, z) g -> bound rt v.
Proof.
  intros Hi. apply (bound_eq rt v (mkExpr [] (fun _ => Some z))); [|intros w []]. simpl. apply in_app_iff. right. apply in_map_iff. exists (v, z). auto.
Qed.

Lemma bound_clean v : bound rt v -> clean r v.
Proof.
  induction 1 as [v Hv|v e Hin _ IH]; [left; now constructor|]. simpl in Hin. apply in_app_iff in Hin. destruct Hin as [Hin|Hin].
  - destruct (wf_ops r Hwf _ Hin) as [Hb|[(a & k & v' & e' & Ha & Heq & Hnb & Hno & Hi & Hn)|(p & xs & Hp & Hx)]].
    + left. apply Hb. simpl. auto.
    + injection Heq as <- <-. right. exact Hn.
    + left. apply (bound_eq r v e); auto. intros w Hw. destruct (Hx w) as [?|Hxs]; [simpl; auto|auto|].
      destruct (IH w Hw) as [?|Hc]; auto. exfalso. apply (Hc p xs Hp Hxs).
  - apply in_map_iff in Hin. destruct Hin as ([w z] & Heq & Hin). unfold ground_op in Heq. simpl in Heq. injection Heq as <- <-. eauto.
Qed.

Lemma neg_var_bound p xs v : In (p, xs) (r_neg r) -> In v xs -> bound rt v -> bound r v.
Proof. intros Hp Hx Hb. destruct (bound_clean v Hb) as [?|Hc]; auto. exfalso. exact (Hc p xs Hp Hx). Qed.

Lemma neg_op_same p xs o : In (p, xs) (r_neg r) -> (neg_op rt xs o <-> neg_op r xs o).
Proof.
  intros Hp. split.
  - intros (H1 & H2 & H3). simpl in H1. apply in_app_iff in H1. destruct H1 as [H1|H1].
    2:{ exfalso. apply H2. split; [simpl; apply in_app_iff; auto|]. apply in_map_iff in H1. destruct H1 as ([w z] & <- & Hin).
        intros u [<-|[]]. simpl. eapply bound_g; eauto. }
    assert (H2' : ~ forall w, In w (op_vars o) -> bound rt w).
    { intros Hc. apply H2. split; auto. simpl. apply in_app_iff. auto. }
    destruct (wf_ops r Hwf _ H1) as [Hb|[(a & k & v' & e' & Ha & -> & Hnb & Hno & Hi & Hn)|(q & ys & Hq & Hx)]].
    + exfalso. apply H2'. intros w Hw. now apply bound_up, Hb.
    + exfalso. apply H2'. intros w Hw. simpl in Hw. destruct (H3 w Hw) as [?|Hxs]; auto. destruct Hw as [<-|Hw]; [exfalso; eapply Hn; eauto|].
      specialize (Hi w Hw). simpl in Hi. destruct Hi as [<-|Hi]; [exfalso; eapply (tb_out r Ht); eauto|].
      apply bound_up. destruct (wf_agg r Hwf a k Ha) as (Hb & _). apply Hb. right. apply in_app_iff. auto.
    + split; auto. split.
      { intros Hc. apply H2'. intros w Hw. now apply bound_up, Hc. }
      intros w Hw. destruct (Hx w Hw) as [?|Hy]; auto. destruct (H3 w Hw) as [Hb|?]; auto. left. eapply neg_var_bound; eauto.
  - intros (H1 & H2 & H3). split; [simpl; apply in_app_iff; auto|]. split.
    + intros [_ Hc]. apply H2. split; auto. intros w Hw. destruct (H3 w Hw) as [?|Hx]; auto. eapply neg_var_bound; eauto.
    + intros w Hw. destruct (H3 w Hw) as [?|?]; auto. left. now apply bound_up.
Qed.

Lemma neg_match_same I nu p xs : In (p, xs) (r_neg r) -> (neg_match rt I nu p xs <-> neg_match r I nu p xs).
Proof.
  intros Hp. split.
  - intros (nu' & H1 & H2 & H3). exists nu'. split; [|split; auto].
    + intros v Hv. now apply H1, bound_up.
    + intros o Ho. apply H3. now apply (neg_op_same p).
  - intros (nu' & H1 & H2 & H3).
    assert (Hd : forall v, {bound rt v} + {~ bound rt v}) by (apply bound_dec; apply (wf_order r Hwf)).
    exists (fun v => if Hd v then nu v else nu' v).
    assert (Hs : forall v, bound r v \/ In v xs -> nu' v = if Hd v then nu v else nu' v).
    { intros v Hv. destruct (Hd v) as [Hb|Hb]; auto. apply H1. destruct Hv as [?|Hx]; auto. eapply neg_var_bound; eauto. }
    split; [|split].
    + intros v Hv. destruct (Hd v); tauto.
    + erewrite map_ext_in; [exact H2|]. intros v Hv. simpl. symmetry. auto.
    + intros o Ho. apply (neg_op_same p) in Ho; auto. rewrite <- (holds_ext nu'); auto. intros v Hv. apply Hs. now apply Ho.
Qed.

Lemma matches_down I M nu : matches rt I M nu -> matches r I M nu /\ forall v z, In (v, z) g -> nu v = z.
Proof.
  intros [H1 H2 H3]. split; [constructor|].
  - exact H1.
  - intros o [Ho Hb]. apply H2. split; [simpl; apply in_app_iff; auto|]. intros w Hw. now apply bound_up, Hb.
  - intros p xs Hp Hn. apply (H3 p xs Hp). now apply neg_match_same.
  - intros v z Hi. assert (Ho : body_op rt (ground_op (v, z))).
    { split; [simpl; apply in_app_iff; right; now apply in_map|]. intros w [<-|[]]. simpl. eapply bound_g; eauto. }
    specialize (H2 _ Ho). simpl in H2. unfold eval_expr in H2. simpl in H2. congruence.
Qed.

Lemma matches_up' I M nu : matches r I M nu -> (forall v z, In (v, z) g -> nu v = z) ->
  (forall o, In o (r_ops r) -> (forall w, In w (op_vars o) -> bound rt w) -> ~ body_op r o -> holds nu o) ->
  matches rt I M nu.
Proof.
  intros [H1 H2 H3] Hz Ho. constructor.
  - exact H1.
  - intros o [Hi Hb]. simpl in Hi. apply in_app_iff in Hi. destruct Hi as [Hi|Hi].
    + assert (Hd : forall v, {bound r v} + {~ bound r v}) by (apply bound_dec; apply (wf_order r Hwf)).
      destruct (forallb (fun w => if Hd w then true else false) (op_vars o)) eqn:Ef.
      * apply H2. split; auto. intros w Hw. rewrite forallb_forall in Ef. specialize (Ef w Hw). destruct (Hd w); [auto|discriminate].
      * apply Ho; auto. intros [_ Hc]. assert (forallb (fun w => if Hd w then true else false) (op_vars o) = true); [|congruence].
        apply forallb_forall. intros w Hw. destruct (Hd w) as [|Hn]; [reflexivity|]. exfalso. now apply Hn, Hc.
    + apply in_map_iff in Hi. destruct Hi as ([v z] & <- & Hi). simpl. unfold eval_expr. simpl. f_equal. symmetry. eauto.
  - intros p xs Hp Hn. apply (H3 p xs Hp). now apply neg_match_same.
Qed.

(** An operation that gets its variables from the unified head: it is applied to the aggregate's result. *)
Lemma extra_op o : In o (r_ops r) -> (forall w, In w (op_vars o) -> bound rt w) -> ~ body_op r o ->
  exists a k, r_agg r = Some (a, k) /\ agg_op r o /\ (exists v, In v (op_vars o) /\ ~ bound r v) /\
    forall w, In w (op_vars o) -> In w (ag_group a) \/ ~ bound r w.
Proof.
  intros Hi Hb Hn. destruct (wf_ops r Hwf _ Hi) as [Hc|[(a & k & v & e & Ha & -> & Hnb & Hno & Hinc & Hnn)|(p & xs & Hp & Hx)]].
  - exfalso. apply Hn. split; auto.
  - exists a, k. split; auto. split; [|split].
    + split; auto. split; auto. intros p xs Hp (_ & _ & H3). destruct (H3 v) as [?|?]; [simpl; auto|auto|]. eapply Hnn; eauto.
    + exists v. simpl. auto.
    + intros w [<-|Hw]; auto. specialize (Hinc w Hw). destruct Hinc as [<-|?]; auto. right. apply (wf_agg r Hwf a k Ha).
  - exfalso. apply Hn. split; auto. intros w Hw. destruct (Hx w Hw) as [?|?]; auto. eapply neg_var_bound; eauto.
Qed.

(** If all unified variables are bound in the body then nothing else becomes bound. *)
Lemma bound_same : (forall v z, In (v, z) g -> bound r v) -> forall v, bound rt v -> bound r v.
Proof.
  intros Hgb v. induction 1 as [v Hv|v e Hin _ IH]; [now constructor|]. simpl in Hin. apply in_app_iff in Hin. destruct Hin as [Hin|Hin].
  - apply (bound_eq r v e); auto.
  - apply in_map_iff in Hin. destruct Hin as ([w z] & Heq & Hin). unfold ground_op in Heq. simpl in Heq. injection Heq as <- <-. eauto.
Qed.
End Grounded.

(** What the execution of the rule tells about its negated atoms and filters. *)
Record executable (r : rule) : Prop := {
  ex_neg : forall p xs o, In (p, xs) (r_neg r) -> neg_op r xs o -> incl (op_vars o) xs;
  ex_filter : forall e, In (OFilter e) (r_ops r) -> e_vars e = [] -> exists v, bound r v }.

Lemma fun_node_vars fs : forall vs rs, nvars (fun_node vs fs rs) = vs ++ map fst fs.
Proof. induction fs as [|[v e] fs IH]; intros vs rs; simpl; [now rewrite app_nil_r|]. rewrite IH, <- app_assoc. reflexivity. Qed.

Lemma seminaive_vars rd b atoms order cur last j : seminaive_node rd b atoms order cur last = Some j -> nvars j = restrict order (atom_vars atoms).
Proof.
  unfold seminaive_node. destruct atoms as [|a atoms].
  - intros H. injection H as <-. unfold restrict. simpl. induction order; simpl; auto.
  - destruct (mapM _ _) as [ns|]; [|discriminate]. intros H. injection H as <-. reflexivity.
Qed.

Lemma filter_node_some n fs : (fs = [] \/ nvars n <> [] /\ forall o, In o fs -> incl (op_vars o) (nvars n)) <-> exists m, filter_node n fs = Some m.
Proof.
  unfold filter_node. destruct fs as [|o fs]; [split; eauto|]. split.
  - intros [?|[Hn Hi]]; [discriminate|]. destruct (nvars n) as [|v vs] eqn:Ev; [tauto|].
    replace (forallb (fun o0 => inclb (op_vars o0) (v :: vs)) (o :: fs)) with true; eauto. symmetry. apply forallb_forall. intros x Hx. now apply inclb_incl, Hi.
  - intros (m & H). right. destruct (nvars n) as [|v vs] eqn:Ev; [discriminate|]. split; [discriminate|].
    destruct (forallb (fun o0 => inclb (op_vars o0) (v :: vs)) (o :: fs)) eqn:Ef; [|discriminate]. rewrite forallb_forall in Ef.
    intros x Hx. apply inclb_incl, Ef, Hx.
Qed.
