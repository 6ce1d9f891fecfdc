(** Proofs for C47: terms in place of their values. *)
From Coq Require Import List Arith ZArith Bool Lia.
From Verif Require Import TableModel EngineModel EngineSpec NormModel NormSpec NormProofs1 PipeModel PipeSpec PipeProofs1 PipeProofs2.
Import ListNotations.

(** Terms that differ in closed terms with the same value. *)
Inductive sim : term -> term -> Prop :=
| sim_var v : sim (TVar v) (TVar v)
| sim_anon : sim TAnon TAnon
| sim_ex v : sim (TEx v) (TEx v)
| sim_op k ts us : Forall2 sim ts us -> sim (TOp k ts) (TOp k us)
| sim_agg f t u ds : sim t u -> sim (TAgg f t ds) (TAgg f u ds)
| sim_complex ts us : Forall2 sim ts us -> sim (TComplex ts) (TComplex us)
| sim_ground t u z : ground t = true -> ground u = true -> (forall nu ag, eval nu ag t = Some z) -> (forall nu ag, eval nu ag u = Some z) -> sim t u.
Lemma sim_ind' (Q : term -> term -> Prop) :
  (forall v, Q (TVar v) (TVar v)) -> Q TAnon TAnon -> (forall v, Q (TEx v) (TEx v)) ->
  (forall k ts us, Forall2 sim ts us -> Forall2 Q ts us -> Q (TOp k ts) (TOp k us)) -> (forall f t u ds, sim t u -> Q t u -> Q (TAgg f t ds) (TAgg f u ds)) ->
  (forall ts us, Forall2 sim ts us -> Forall2 Q ts us -> Q (TComplex ts) (TComplex us)) ->
  (forall t u z, ground t = true -> ground u = true -> (forall nu ag, eval nu ag t = Some z) -> (forall nu ag, eval nu ag u = Some z) -> Q t u) -> forall t u, sim t u -> Q t u.
Proof.
  intros H1 H2 H3 H4 H5 H6 H7. fix IH 3. intros t u [v| |v|k ts us H|f t' u' ds H|ts us H|t' u' z A B C D].
  - apply H1.
  - apply H2.
  - apply H3.
  - apply H4; auto. clear -IH H. induction H; constructor; auto.
  - apply H5; auto.
  - apply H6; auto. clear -IH H. induction H; constructor; auto.
  - eapply H7; eauto.
Qed.
Lemma Forall2_sym {A} (R : A -> A -> Prop) l l' : Forall2 (fun x y => R y x) l l' -> Forall2 R l' l.
Proof. induction 1; constructor; auto. Qed.
Lemma sim_sym t u : sim t u -> sim u t.
Proof.
  intros H. induction H as [v| |v|k ts us _ IH|f t u ds _ IH|ts us _ IH|t u z A B C D] using sim_ind'; try (constructor; auto; now apply Forall2_sym).
  eapply sim_ground; eauto.
Qed.
Lemma Forall2_map_eq {A B} (f g : A -> B) l l' : Forall2 (fun x y => f x = g y) l l' -> map f l = map g l'.
Proof. induction 1; simpl; congruence. Qed.
Lemma Forall2_flat {A B} (f : A -> list B) l l' : Forall2 (fun x y => f x = f y) l l' -> flat_map f l = flat_map f l'.
Proof. induction 1; simpl; congruence. Qed.
Lemma Forall2_existsb {A} (f : A -> bool) l l' : Forall2 (fun x y => f x = f y) l l' -> existsb f l = existsb f l'.
Proof. induction 1; simpl; congruence. Qed.
Lemma Forall2_mapo {A B} (f : A -> option B) l l' : Forall2 (fun x y => f x = f y) l l' -> mapo f l = mapo f l'.
Proof. induction 1 as [|x y l l' H _ IH]; simpl; auto. now rewrite H, IH. Qed.
Lemma Forall2_impl' {A B} (R R' : A -> B -> Prop) l l' : (forall x y, R x y -> R' x y) -> Forall2 R l l' -> Forall2 R' l l'.
Proof. intros H. induction 1; constructor; auto. Qed.
Lemma ground_facts t : ground t = true -> uvars t = [] /\ has_anon t = false /\ has_ex t = false /\ outer_vars t = [] /\ ~ aggregating t /\ forall v, ~ occurs_ex v t.
Proof.
  induction t as [v| |v|c|k ts IH|f t ds _|ts _] using term_ind'; simpl; intros H; try discriminate.
  - repeat (split; auto); [intros (f & s & ds & Ha); inversion Ha|intros v Hv; inversion Hv].
  - rewrite forallb_forall in H. rewrite Forall_forall in IH.
    assert (H1 : forall t, In t ts -> uvars t = [] /\ has_anon t = false /\ has_ex t = false /\ outer_vars t = [] /\ ~ aggregating t /\ forall v, ~ occurs_ex v t) by auto. split.
    { clear -H1. induction ts as [|t ts IH]; simpl; auto. rewrite IH by (intros u Hu; apply H1; simpl; auto). destruct (H1 t) as (-> & _); simpl; auto. }
    split; [apply existsb_false; intros t Ht; now apply H1|]. split; [apply existsb_false; intros t Ht; now apply H1|]. split.
    { clear -H1. induction ts as [|t ts IH]; simpl; auto. rewrite IH by (intros u Hu; apply H1; simpl; auto). destruct (H1 t) as (_ & _ & _ & -> & _); simpl; auto. }
    split.
    + intros Ha. apply aggregating_op in Ha. destruct Ha as (t & Ht & Ha). destruct (H1 t Ht) as (_ & _ & _ & _ & N & _). auto.
    + intros v Hv. inversion Hv as [|k' ts' t Ht Ho| |]; subst. destruct (H1 t Ht) as (_ & _ & _ & _ & _ & N). eapply N; eauto.
Qed.
Lemma sim_eval t u : sim t u -> forall nu ag, eval nu ag t = eval nu ag u.
Proof.
  intros H. induction H as [v| |v|k ts us _ IH|f t u ds _ IH|ts us _ IH|t u z A B C D] using sim_ind'; intros nu ag; auto.
  - simpl. rewrite (Forall2_mapo (eval nu ag) ts us); auto. eapply Forall2_impl'; [|exact IH]. auto.
  - now rewrite C, D.
Qed.
Lemma sim_syntax t u : sim t u -> uvars t = uvars u /\ has_anon t = has_anon u /\ has_ex t = has_ex u /\ outer_vars t = outer_vars u.
Proof.
  intros H. induction H as [v| |v|k ts us _ IH|f t u ds _ IH|ts us _ IH|t u z A B C D] using sim_ind'; auto.
  - simpl. split; [|split; [|split]].
    + apply Forall2_flat. eapply Forall2_impl'; [|exact IH]. cbv beta. intuition.
    + apply Forall2_existsb. eapply Forall2_impl'; [|exact IH]. cbv beta. intuition.
    + apply Forall2_existsb. eapply Forall2_impl'; [|exact IH]. cbv beta. intuition.
    + apply Forall2_flat. eapply Forall2_impl'; [|exact IH]. cbv beta. intuition.
  - simpl. destruct IH as (-> & -> & -> & _). auto.
  - simpl. split; [|split; [|split; auto]].
    + apply Forall2_flat. eapply Forall2_impl'; [|exact IH]. cbv beta. intuition.
    + apply Forall2_existsb. eapply Forall2_impl'; [|exact IH]. cbv beta. intuition.
    + apply Forall2_existsb. eapply Forall2_impl'; [|exact IH]. cbv beta. intuition.
  - destruct (ground_facts t A) as (-> & -> & -> & -> & _), (ground_facts u B) as (-> & -> & -> & -> & _). auto.
Qed.
Lemma sim_variable t u : sim t u -> variable_term t -> u = t.
Proof. intros H [->|[(v & ->)|(v & ->)]]; inversion H; subst; auto; discriminate. Qed.
Lemma sim_agg_of f s ds t u : sim t u -> aggregates f s ds t -> exists s', sim s s' /\ aggregates f s' ds u.
Proof.
  intros H. induction H as [v| |v|k ts us _ IH|f' t u ds' H IH|ts us _ IH|t u z A B C D] using sim_ind'; intros Ha; try (inversion Ha; fail).
  - inversion Ha as [|k' ts' t Ht Ha']; subst. destruct (Forall2_In_l _ _ _ _ IH Ht) as (u & Hu & G). destruct (G Ha') as (s' & S1 & S2). exists s'. split; auto. econstructor; eauto.
  - inversion Ha; subst. exists u. split; auto. constructor.
  - exfalso. destruct (ground_facts t A) as (_ & _ & _ & _ & N & _). apply N. exists f, s, ds. auto.
Qed.
Lemma sim_aggregating t u : sim t u -> aggregating t -> aggregating u.
Proof. intros H (f & s & ds & Ha). destruct (sim_agg_of f s ds t u H Ha) as (s' & _ & A). exists f, s', ds. auto. Qed.

(** ** Rules *)
Inductive sim_lit : literal -> literal -> Prop :=
| sil_pos p ts us : Forall2 sim ts us -> sim_lit (LPos p ts) (LPos p us)
| sil_neg p ts us : Forall2 sim ts us -> sim_lit (LNeg p ts) (LNeg p us)
| sil_op k ts us : Forall2 sim ts us -> sim_lit (LOp k ts) (LOp k us).
Definition sim_atom (a b : tag * list term) : Prop := fst a = fst b /\ Forall2 sim (snd a) (snd b).
Definition sim_rule (r r' : srule) : Prop := Forall2 sim_atom (s_head r) (s_head r') /\ Forall2 sim_lit (s_body r) (s_body r').
Lemma sims_sym ts us : Forall2 sim ts us -> Forall2 sim us ts.
Proof. intros H. apply Forall2_sym. eapply Forall2_impl'; [|exact H]. intros x y. apply sim_sym. Qed.
Lemma sim_rule_sym r r' : sim_rule r r' -> sim_rule r' r.
Proof.
  intros [H1 H2]. split; apply Forall2_sym.
  - eapply Forall2_impl'; [|exact H1]. intros [p ts] [q us] [E H]. simpl in *. subst. split; auto. now apply sims_sym.
  - eapply Forall2_impl'; [|exact H2]. intros l l' H. destruct H; constructor; now apply sims_sym.
Qed.
Lemma sims_uvars ts us : Forall2 sim ts us -> flat_map uvars ts = flat_map uvars us.
Proof. intros H. apply Forall2_flat. eapply Forall2_impl'; [|exact H]. intros x y Hs. apply (sim_syntax x y Hs). Qed.
Lemma sims_among ts us v : Forall2 sim ts us -> among v ts -> among v us.
Proof. unfold among. intros H Hv. destruct (Forall2_In_l _ _ _ _ H Hv) as (u & Hu & Hs). apply sim_variable in Hs; [now subst|]. right. left. eauto. Qed.
Lemma sims_eval_op nu ag k ts us : Forall2 sim ts us -> eval nu ag (TOp k ts) = eval nu ag (TOp k us).
Proof. intros H. simpl. rewrite (Forall2_mapo (eval nu ag) ts us); auto. eapply Forall2_impl'; [|exact H]. intros x y Hs. now apply sim_eval. Qed.
Lemma sims_match nu ts us row : Forall2 sim ts us -> Forall2 (tmatch nu) ts row -> Forall2 (tmatch nu) us row.
Proof.
  intros H. revert row. induction H as [|t u ts us Hs _ IH]; intros row Hr; inversion Hr as [|? z ? row' Hz Hr']; subst; constructor; auto.
  destruct Hz as [->|Hz]; [left; apply sim_variable in Hs; auto; left; auto|right; now rewrite <- (sim_eval t u Hs)].
Qed.
Lemma sims_instance ag mu ts us x : Forall2 sim ts us -> instance ag mu ts x -> instance ag mu us x.
Proof.
  unfold instance. intros H. revert x. induction H as [|t u ts us Hs _ IH]; intros x Hr; inversion Hr as [|? z ? row' Hz Hr']; subst; constructor; auto. now rewrite <- (sim_eval t u Hs).
Qed.
Lemma sims_aggregating ts us : Forall2 sim ts us -> aggregating_atom ts -> aggregating_atom us.
Proof. intros H (t & Ht & Ha). destruct (Forall2_In_l _ _ _ _ H Ht) as (u & Hu & Hs). exists u. split; auto. eapply sim_aggregating; eauto. Qed.

Section Rule.
Context (r r' : srule) (H : sim_rule r r').
Lemma lit_of l : In l (s_body r) -> exists l', In l' (s_body r') /\ sim_lit l l'.
Proof. apply Forall2_In_l. apply H. Qed.
Lemma lit_of_inv l' : In l' (s_body r') -> exists l, In l (s_body r) /\ sim_lit l l'.
Proof. apply Forall2_In_r. apply H. Qed.
Lemma head_of a : In a (s_head r) -> exists a', In a' (s_head r') /\ sim_atom a a'.
Proof. apply Forall2_In_l. apply H. Qed.
Lemma head_of_inv a' : In a' (s_head r') -> exists a, In a (s_head r) /\ sim_atom a a'.
Proof. apply Forall2_In_r. apply H. Qed.
Lemma sim_safe v : safe r v -> safe r' v.
Proof.
  intros Hs. induction Hs as [p ts v H1 H2|l v t H1 H2 H3 H4 H5 H6].
  - destruct (lit_of _ H1) as (l' & A & B). inversion B; subst. eapply safe_pos; eauto. eapply sims_among; eauto.
  - destruct (lit_of _ H1) as (l' & A & B). destruct H2 as [->|(-> & N1 & N2 & N3)].
    + inversion B as [| |k ts us Hu]; subst. inversion Hu as [|x y l0 l1 S1 Hu']; subst. inversion Hu' as [|x' y' l2 l3 S2 Hu'']; subst. inversion Hu''; subst.
      apply sim_variable in S1; [|right; left; eauto]. subst y. destruct (sim_syntax t y' S2) as (E1 & E2 & E3 & _).
      apply (safe_eq r' (LOp KEqual [TVar v; y']) v y'); auto; [now left|congruence|congruence|]. rewrite <- E1. auto.
    + inversion B as [| |k ts us Hu]; subst. inversion Hu as [|x y l0 l1 S1 Hu']; subst. inversion Hu' as [|x' y' l2 l3 S2 Hu'']; subst. inversion Hu''; subst.
      apply sim_variable in S2; [|right; left; eauto]. subst y'. destruct (sim_syntax t y S1) as (E1 & E2 & E3 & _).
      apply (safe_eq r' (LOp KEqual [y; TVar v]) v y); auto; [right|congruence|congruence|rewrite <- E1; auto]. split; auto.
      assert (Hb : variable_term y -> variable_term t) by (intros Hy; apply sim_sym in S1; apply sim_variable in S1; auto; now subst).
      split; [|split]; [intros w ->|intros w ->|intros ->].
      * destruct Hb as [E|[(w' & E)|(w' & E)]]; [right; left; eauto|subst; eapply N3; eauto|eapply N1; eauto|eapply N2; eauto].
      * destruct Hb as [E|[(w' & E)|(w' & E)]]; [right; right; eauto|subst; eapply N3; eauto|eapply N1; eauto|eapply N2; eauto].
      * destruct Hb as [E|[(w' & E)|(w' & E)]]; [left; auto|subst; eapply N3; eauto|eapply N1; eauto|eapply N2; eauto].
Qed.
End Rule.

Section Both.
Context (r r' : srule) (H : sim_rule r r').
Lemma safe_iff v : safe r v <-> safe r' v.
Proof. split; apply sim_safe; auto. now apply sim_rule_sym. Qed.
Lemma safe_op_of k us us' : Forall2 sim us us' -> In (LOp k us) (s_body r) -> safe_op r' k us' -> safe_op r k us.
Proof. intros Hs Hi [_ A]. split; auto. intros v Hv. apply safe_iff. apply A. now rewrite <- (sims_uvars us us' Hs). Qed.
Lemma sim_negated (M : interp) nu p ts ts' : Forall2 sim ts ts' -> In (LNeg p ts) (s_body r) -> negated r' M nu p ts' -> negated r M nu p ts.
Proof.
  intros Hs Hi (nu' & A & (row & B1 & B2) & C). exists nu'. split; [intros v Hv; apply A; now apply safe_iff|]. split; [exists row; split; auto; eapply sims_match; [apply sims_sym; eauto|auto]|].
  intros k us (U1 & U2 & U3). destruct (lit_of r r' H _ U1) as (l' & L1 & L2). inversion L2 as [| |k' us0 us' Hu]; subst. rewrite (sims_eval_op nu' None k us us' Hu). apply C. split; auto. split.
  - intros Hso. apply U2. eapply safe_op_of; eauto.
  - intros v Hv. rewrite <- (sims_uvars us us' Hu) in Hv. destruct (U3 v Hv) as [D|D]; [left; now apply safe_iff|right]. eapply sims_among; eauto.
Qed.
Lemma sim_computed t' : computed r' t' -> (exists t, sim t t' /\ computed r t) \/ exists z, forall nu ag, eval nu ag t' = Some z.
Proof.
  intros Hc. inversion Hc as [p ts k us H1 H2 E|p ts k us H1 H2 H3 E|p ts u f s ds H1 H2 H3 E]; subst.
  - destruct (lit_of_inv r r' H _ H1) as (l & L1 & L2). inversion L2 as [|p' ts0 us0 Hu|]; subst. destruct (Forall2_In_r _ _ _ _ Hu H2) as (t & T1 & T2). inversion T2 as [| | |k' vs vs' V| | |t0 u0 z A B C D]; subst.
    + left. exists (TOp k vs). split; auto. eapply comp_neg; eauto.
    + right. exists z. auto.
  - destruct (head_of_inv r r' H _ H1) as ([q ts0] & L1 & L2). destruct L2 as [E Hu]. simpl in E, Hu. subst. destruct (Forall2_In_r _ _ _ _ Hu H2) as (t & T1 & T2). pose proof T2 as T3. inversion T2 as [| | |k' vs vs' V| | |t0 u0 z A B C D]; subst.
    + left. exists (TOp k vs). split; auto. eapply comp_head; eauto. intros Ha. apply H3. eapply sim_aggregating; eauto.
    + right. exists z. auto.
  - destruct (head_of_inv r r' H _ H1) as ([q ts0] & L1 & L2). destruct L2 as [E Hu]. simpl in E, Hu. subst. destruct (Forall2_In_r _ _ _ _ Hu H2) as (t & T1 & T2).
    destruct (sim_agg_of f t' ds u t (sim_sym _ _ T2) H3) as (s' & S1 & S2). left. exists s'. split; [now apply sim_sym|]. eapply comp_agg; eauto.
Qed.
Lemma sim_matches (I M : interp) nu : src_matches r I M nu -> src_matches r' I M nu.
Proof.
  intros [H1 H2 H3 H4]. constructor.
  - intros p us Hp. destruct (lit_of_inv r r' H _ Hp) as (l & L1 & L2). inversion L2 as [p' ts us' Hu| |]; subst. destruct (H1 p ts L1) as (row & R1 & R2). exists row. split; auto. eapply sims_match; eauto.
  - intros k us Hs. destruct (lit_of_inv r r' H _ (proj1 Hs)) as (l & L1 & L2). inversion L2 as [| |k' ts us' Hu]; subst. rewrite <- (sims_eval_op nu None k ts us Hu). apply H2. eapply safe_op_of; eauto.
  - intros p us Hp Hn. destruct (lit_of_inv r r' H _ Hp) as (l & L1 & L2). inversion L2 as [|p' ts us' Hu|]; subst. apply (H3 p ts L1). eapply sim_negated; eauto.
  - intros t' Ht. destruct (sim_computed t' Ht) as [(t & A & B)|(z & A)]; [|eauto]. destruct (H4 t B) as (z & Hz). exists z. now rewrite <- (sim_eval t t' A).
Qed.
End Both.
Lemma sims_nth ts us j u : Forall2 sim ts us -> nth_error us j = Some u -> exists t, nth_error ts j = Some t /\ sim t u.
Proof. intros H. revert j. induction H as [|t w ts us Hs _ IH]; intros [|j] E; simpl in *; try discriminate; eauto. injection E as <-. eauto. Qed.
Lemma sims_group ts us j nu nu' : Forall2 sim ts us -> same_group ts j nu nu' -> same_group us j nu nu'.
Proof.
  intros H G i u Hi. destruct (sims_nth ts us i u H Hi) as (t & Ht & Hs). specialize (G i t Ht). destruct (sim_syntax t u Hs) as (_ & _ & _ & E). rewrite <- E, <- !(sim_eval t u Hs). exact G.
Qed.
Lemma sim_agg_instance r r' (M : interp) ts us x : sim_rule r r' -> Forall2 sim ts us -> agg_instance r M ts x -> agg_instance r' M us x.
Proof.
  intros H Hs (j & t & f & s & ds & nu & z & A & B & C & (L & L1 & L2 & L3) & E).
  destruct (sims_nth us ts j t (sims_sym _ _ Hs) A) as (u & U1 & U2). apply sim_sym in U2. destruct (sim_agg_of f s ds t u U2 B) as (s' & S1 & S2).
  exists j, u, f, s', ds, nu, z. split; auto. split; auto. split; [eapply sim_matches; eauto|]. split; [|eapply sims_instance; eauto].
  exists L. split; auto. split; auto. intros y. rewrite (L2 y). split; intros (nu' & z' & Q1 & Q2 & Q3 & Q4); exists nu', z'.
  - split; [eapply sim_matches; eauto|]. split; [eapply sims_group; eauto|]. rewrite <- (sim_eval s s' S1). auto.
  - split; [eapply sim_matches; [apply sim_rule_sym|]; eauto|]. split; [eapply sims_group; [apply sims_sym|]; eauto|]. rewrite (sim_eval s s' S1). auto.
Qed.
Lemma sim_ex_var r r' v : sim_rule r r' -> ex_var r v -> ex_var r' v.
Proof.
  intros H (p & ts & A & B). destruct (head_of r r' H _ A) as ([q us] & C & (E & D)). simpl in *. subst. exists q, us. split; auto.
  destruct (Forall2_In_l _ _ _ _ D B) as (u & F & G). apply sim_variable in G; [now subst|]. right. right. eauto.
Qed.
Lemma sim_deriv_one sp sp' (M : interp) p x : Forall2 sim_rule (sp_rules sp) (sp_rules sp') -> Forall2 sim_atom (sp_facts sp) (sp_facts sp') -> sp_imports sp' = sp_imports sp ->
  src_deriv sp M p x -> src_deriv sp' M p x.
Proof.
  intros Hr Hf Hi H. induction H as [p x H|p rows x H1 H2|r I nu mu p ts x Hin _ IH Hm Hp Hna Hmu Hinst|r p ts x Hin Hp Hag].
  - destruct H as (ts & A & B). destruct (Forall2_In_l _ _ _ _ Hf A) as ([q us] & C & (E & D)). simpl in *. subst. apply sd_fact. exists us. split; auto. eapply sims_instance; eauto.
  - rewrite <- Hi in H1. eapply sd_import; eauto.
  - destruct (Forall2_In_l _ _ _ _ Hr Hin) as (r' & A & S). destruct (head_of r r' S _ Hp) as ([q us] & C & (E & D)). simpl in *. subst.
    eapply (sd_rule sp' M r' I nu mu q us); eauto; [eapply sim_matches; eauto| | |eapply sims_instance; eauto].
    + intros Ha. apply Hna. eapply sims_aggregating; [apply sims_sym; eauto|auto].
    + intros v Hv. apply Hmu. intros Hx. apply Hv. eapply sim_ex_var; eauto.
  - destruct (Forall2_In_l _ _ _ _ Hr Hin) as (r' & A & S). destruct (head_of r r' S _ Hp) as ([q us] & C & (E & D)). simpl in *. subst.
    eapply (sd_agg sp' M r' q us); eauto. eapply sim_agg_instance; eauto.
Qed.
Theorem sim_deriv sp sp' (M : interp) p x : Forall2 sim_rule (sp_rules sp) (sp_rules sp') -> Forall2 sim_atom (sp_facts sp) (sp_facts sp') -> sp_imports sp' = sp_imports sp ->
  (src_deriv sp M p x <-> src_deriv sp' M p x).
Proof.
  intros Hr Hf Hi. split; apply sim_deriv_one; auto.
  - apply Forall2_sym. eapply Forall2_impl'; [|exact Hr]. intros a b. apply sim_rule_sym.
  - apply Forall2_sym. eapply Forall2_impl'; [|exact Hf]. intros [p' ts] [q us] [E H]. simpl in *. split; auto. now apply sims_sym.
Qed.
