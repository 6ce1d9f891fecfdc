(** Checks of the hypotheses of C13, for examples. *)
From Coq Require Import List Arith ZArith Bool Lia Permutation.
From Verif Require Import TableModel EngineModel EngineSpec EngineProofs1 StrategyModel StrategySpec StrategyProofs3 NormModel NormSpec NormProofs1 NormProofs2.
Import ListNotations.

Fixpoint evars (t : term) : list var :=
  match t with
  | TEx v => [v]
  | TOp _ ts | TComplex ts => flat_map evars ts
  | TAgg _ t _ => evars t
  | _ => []
  end.
Definition all_terms (r : srule) : list term := flat_map snd (s_head r) ++ flat_map literal_terms (s_body r).
Definition namedb (r : srule) : bool :=
  forallb (fun t => forallb (fun v => v mod 4 =? 3) (uvars t ++ evars t)) (all_terms r) &&
  forallb (fun t => forallb (fun t' => forallb (fun v => negb (memv v (uvars t'))) (evars t)) (all_terms r)) (all_terms r).

Lemma occurs_evars v t : occurs_ex v t -> In v (evars t).
Proof. induction 1; simpl; auto; apply in_flat_map; eauto. Qed.
Lemma rule_term_all r t : rule_term r t -> In t (all_terms r).
Proof. intros [(p & ts & H1 & H2)|(l & H1 & H2)]; unfold all_terms; apply in_app_iff; [left|right]; apply in_flat_map; eauto. Qed.
Lemma user_mod v : v mod 4 = 3 -> ~ generated v.
Proof.
  intros H [(k & ->)|[(k & ->)|[-> | [-> | ->]]]]; unfold body_var, head_var, agg_out, agg_in, anonymous in *; try discriminate.
  - rewrite Nat.mul_comm, Nat.mod_mul in H; discriminate.
  - rewrite Nat.add_comm, Nat.mul_comm, Nat.mod_add in H; discriminate.
Qed.
Lemma namedb_ok r : namedb r = true -> well_named r.
Proof.
  intros H. apply andb_true_iff in H. destruct H as [H1 H2]. rewrite forallb_forall in H1, H2. constructor.
  - intros t v Ht Hv. apply user_mod. apply rule_term_all in Ht. specialize (H1 t Ht). rewrite forallb_forall in H1. apply Nat.eqb_eq. apply H1. apply in_app_iff. destruct Hv as [Hv|Hv]; [auto|right; now apply occurs_evars].
  - intros t t' v Ht Ht' Hv Hin. apply rule_term_all in Ht. apply rule_term_all in Ht'. specialize (H2 t Ht). rewrite forallb_forall in H2. specialize (H2 t' Ht'). rewrite forallb_forall in H2.
    apply occurs_evars in Hv. specialize (H2 v Hv). apply negb_true_iff in H2. apply (proj1 (memv_false v (uvars t'))) in H2. auto.
Qed.

Fixpoint agg_list (t : term) : list ((list Z -> option Z) * term * list var) :=
  match t with TAgg f s ds => [(f, s, ds)] | TOp _ ts => flat_map agg_list ts | _ => [] end.
Lemma aggregates_list f s ds t : aggregates f s ds t -> In (f, s, ds) (agg_list t).
Proof. induction 1; simpl; auto. apply in_flat_map. eauto. Qed.

Definition supportedb (r : srule) : bool :=
  match safe_variables r with
  | None => false
  | Some s =>
      forallb (fun l => match l with
        | LOp k us => inclb (flat_map uvars us) s ||
             existsb (fun l' => match l' with LNeg _ ts => inclb (flat_map uvars us) (s ++ flat_map prim_var ts) | _ => false end) (s_body r)
        | LNeg _ ts => existsb (fun t => match t with TVar v => memv v s | TConst _ | TOp _ _ => true | _ => false end) ts
        | _ => true end) (s_body r) &&
      forallb (fun a => forallb (fun t => match t with TOp _ _ => negb (has_ex t) | _ => true end) (snd a)) (s_head r) &&
      (length (filter (fun a => existsb (fun t => negb (length (agg_list t) =? 0)) (snd a)) (s_head r)) <=? 1) &&
      forallb (fun a => forallb (fun t => forallb (fun x => match snd (fst x) with TVar v => negb (memv v (outer_vars t)) | _ => true end) (agg_list t)) (snd a)) (s_head r)
  end.

Lemma filter_one {A} (f : A -> bool) : forall l i j a b, length (filter f l) <= 1 -> nth_error l i = Some a -> nth_error l j = Some b -> f a = true -> f b = true -> i = j.
Proof.
  assert (Hpos : forall l i a, nth_error l i = Some a -> f a = true -> 1 <= length (filter f l)).
  { induction l as [|x l IH]; intros [|i] a Hi Hf; try discriminate; simpl in *.
    - injection Hi as ->. rewrite Hf. simpl. lia.
    - specialize (IH i a Hi Hf). destruct (f x); simpl; lia. }
  induction l as [|x l IH]; intros [|i] [|j] a b Hl Hi Hj Ha Hb; try discriminate; auto; simpl in *.
  - injection Hi as ->. rewrite Ha in Hl. simpl in Hl. specialize (Hpos l j b Hj Hb). lia.
  - injection Hj as ->. rewrite Hb in Hl. simpl in Hl. specialize (Hpos l i a Hi Ha). lia.
  - f_equal. apply (IH i j a b); auto. destruct (f x); simpl in Hl; lia.
Qed.
Lemma among_prim v ts : In v (flat_map prim_var ts) -> among v ts.
Proof. intros H. apply in_flat_map in H. destruct H as (t & Ht & Hv). destruct t; try destruct Hv as [-> | []]; try destruct Hv. exact Ht. Qed.

Lemma supportedb_ok r : supportedb r = true -> supported r.
Proof.
  unfold supportedb. destruct (safe_variables_spec r) as (s & Es & Hs). rewrite Es. intros H.
  apply andb_true_iff in H. destruct H as [H H4]. apply andb_true_iff in H. destruct H as [H H3]. apply andb_true_iff in H. destruct H as [H1 H2].
  rewrite forallb_forall in H1, H2, H4. apply Nat.leb_le in H3. constructor.
  - intros k us Hl. specialize (H1 _ Hl). simpl in H1. apply orb_true_iff in H1. destruct H1 as [H1|H1].
    + left. intros v Hv. apply Hs. now apply (proj1 (inclb_incl _ _) H1).
    + right. apply existsb_exists in H1. destruct H1 as (l' & Hl' & Hi). destruct l' as [p ts|p ts|]; try discriminate. exists p, ts. split; auto. intros v Hv.
      apply (proj1 (inclb_incl _ _) Hi) in Hv. apply in_app_iff in Hv. destruct Hv as [Hv|Hv]; [left; now apply Hs|right; now apply among_prim].
  - intros p ts Hl. specialize (H1 _ Hl). simpl in H1. apply existsb_exists in H1. destruct H1 as (t & Ht & Hc). exists t. split; auto. destruct t; try discriminate; auto. apply Hs. now apply memv_in.
  - intros p ts k us Hp Ht. specialize (H2 _ Hp). rewrite forallb_forall in H2. specialize (H2 _ Ht). simpl in H2. now apply negb_true_iff in H2.
  - intros i j p ts q us Hi Hj Ha Hb. eapply (filter_one _ (s_head r)); [exact H3|exact Hi|exact Hj| |].
    + destruct Ha as (t & Ht & f & s0 & ds & Hag). apply existsb_exists. exists t. split; auto. apply aggregates_list in Hag. destruct (agg_list t); [destruct Hag|reflexivity].
    + destruct Hb as (t & Ht & f & s0 & ds & Hag). apply existsb_exists. exists t. split; auto. apply aggregates_list in Hag. destruct (agg_list t); [destruct Hag|reflexivity].
  - intros p ts t f v ds Hp Ht Hag Hv. specialize (H4 _ Hp). rewrite forallb_forall in H4. specialize (H4 _ Ht). rewrite forallb_forall in H4. apply aggregates_list in Hag. specialize (H4 _ Hag). simpl in H4.
    apply negb_true_iff in H4. apply (proj1 (memv_false v (outer_vars t))) in H4. auto.
Qed.
Lemma not_supported_ops r s k us v : safe_variables r = Some s -> In (LOp k us) (s_body r) -> In v (flat_map uvars us) -> memv v s = false ->
  (forall p ts, In (LNeg p ts) (s_body r) -> ~ among v ts) -> ~ supported r.
Proof.
  intros Es Hl Hv Hm Hn Hsup. destruct (safe_variables_spec r) as (s' & Es' & Hs). rewrite Es in Es'. injection Es' as <-. apply (proj1 (memv_false v s)) in Hm.
  destruct (su_ops r Hsup k us Hl) as [H|(p & ts & Hp & H)]; [apply Hm, Hs; auto|]. destruct (H v Hv) as [H'|H']; [apply Hm; now apply Hs|]. eapply Hn; eauto.
Qed.

(** The default strategy of a single rule. *)
Definition oneb (rl : rule) : bool :=
  edgesb 1 (map fst (negation_edges [rl])) && edgesb 1 (positive_edges [rl]) &&
  match stratify 1 (negation_edges [rl]) [[0]] with Some (Some [[0]]) => true | _ => false end.
Lemma one_default rules st : match rules with [rl] => oneb rl | _ => false end = true ->
  sn_new [[0]] (fun _ => [[0]]) rules = Some (Some st) -> default_strategy rules st.
Proof.
  destruct rules as [|rl [|]]; try discriminate. unfold oneb. intros H Hn. apply andb_true_iff in H. destruct H as [H H3]. apply andb_true_iff in H. destruct H as [H1 H2].
  exists [[0]], (fun _ => [[0]]). split; [now apply (singletons_ok 1)|]. split; [|exact Hn].
  intros strata k g rs Hs Hk Hr. change (length [rl]) with 1 in Hs. rewrite Hs in H3. destruct strata as [|[|[|i] [|]] [|]]; try discriminate.
  destruct k as [|[|k]]; try discriminate. injection Hk as <-. cbn in Hr. injection Hr as <-. now apply (singletons_ok 1).
Qed.
