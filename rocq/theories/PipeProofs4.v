(** Proofs for C47 and C44: the values of parameters, and the whole pipeline. *)
From Coq Require Import List Arith ZArith Bool Lia.
From Verif Require Import TableModel EngineModel EngineSpec NormModel NormSpec NormProofs1 NormProofs4 PipeModel PipeSpec PipeProofs1 PipeProofs2 PipeProofs3.
Import ListNotations.

(** ** Substitutions *)
Lemma lookup_cons g u s v : lookup ((g, u) :: s) v = if g =? v then Some u else lookup s v.
Proof. unfold lookup. simpl. destruct (g =? v); auto. Qed.
Lemma lookup_None s v : lookup s v = None <-> ~ In v (map fst s).
Proof.
  induction s as [|[g u] s IH]; [unfold lookup; simpl; tauto|]. rewrite lookup_cons. simpl. destruct (g =? v) eqn:E.
  - apply Nat.eqb_eq in E. split; [discriminate|tauto].
  - apply Nat.eqb_neq in E. rewrite IH. tauto.
Qed.
Lemma lookup_In s v u : lookup s v = Some u -> In (v, u) s.
Proof. unfold lookup. destruct (find (fun e => fst e =? v) s) as [[g w]|] eqn:E; [|discriminate]. intros H. injection H as <-. apply find_some in E. destruct E as [E1 E2]. simpl in E2. apply Nat.eqb_eq in E2. now subst. Qed.
Definition extends (s s' : subst) : Prop := forall v u, lookup s v = Some u -> lookup s' v = Some u.

(** Expressions under a substitution by closed terms. *)
Lemma ground_is t : ground t = true -> is_ground t = true.
Proof.
  induction t as [v| |v|c|k ts IH|f t ds _|ts _] using term_ind'; simpl; intros H; auto; try discriminate.
  rewrite forallb_forall in *. rewrite Forall_forall in IH. auto.
Qed.
Lemma apply_ground_iff ig s e : expression ig e = true -> (forall v u, lookup s v = Some u -> ground u = true) ->
  (is_ground (apply s e) = true <-> forall v, In v (uvars e) -> exists u, lookup s v = Some u) /\ (is_ground (apply s e) = true -> ground (apply s e) = true).
Proof.
  intros He Hs. induction e as [v| |v|c|k ts IH|f t ds _|ts _] using term_ind'; simpl in *; try discriminate.
  - destruct (lookup s v) as [u|] eqn:E.
    + split; [|intros _; eauto]. split; [intros _ w [<-|[]]; eauto|intros _; apply ground_is; eauto].
    + simpl. split; [|discriminate]. split; [discriminate|]. intros H. destruct (H v) as (u & Hu); [auto|congruence].
  - split; [|auto]. split; [intros _ v []|auto].
  - rewrite forallb_forall in He. rewrite Forall_forall in IH. split.
    + rewrite forallb_forall. split.
      * intros H v Hv. apply in_flat_map in Hv. destruct Hv as (t & Ht & Hv). apply (proj1 (IH t Ht (He t Ht))); auto. apply H. now apply in_map.
      * intros H t Ht. apply in_map_iff in Ht. destruct Ht as (t0 & <- & Ht). apply (proj1 (IH t0 Ht (He t0 Ht))). intros v Hv. apply H. apply in_flat_map. eauto.
    + rewrite !forallb_forall. intros H t Ht. pose proof (H t Ht) as G. apply in_map_iff in Ht. destruct Ht as (t0 & <- & Ht). now apply (proj2 (IH t0 Ht (He t0 Ht))).
Qed.
Lemma apply_eval ig s e nu mu : expression ig e = true -> (forall v, In v (uvars e) -> exists u, lookup s v = Some u /\ eval nu None u = Some (mu v)) ->
  eval nu None (apply s e) = eval mu None e.
Proof.
  intros He H. induction e as [v| |v|c|k ts IH|f t ds _|ts _] using term_ind'; simpl in *; try discriminate; auto.
  - destruct (H v) as (u & -> & E); auto.
  - rewrite forallb_forall in He. rewrite Forall_forall in IH. assert (E : mapo (eval nu None) (map (apply s) ts) = mapo (eval mu None) ts).
    { clear k. induction ts as [|t ts IHt]; simpl; auto. assert (E1 : eval nu None (apply s t) = eval mu None t).
      { apply (IH t (or_introl eq_refl)); [apply He; simpl; auto|]. intros v Hv. apply H. simpl. apply in_app_iff. auto. }
      assert (E2 : mapo (eval nu None) (map (apply s) ts) = mapo (eval mu None) ts).
      { apply IHt; first [intros v Hv; apply H; simpl; apply in_app_iff; solve [auto]|intros u Hu; apply IH; simpl; solve [auto]|intros u Hu; apply He; simpl; solve [auto]]. }
      now rewrite E1, E2. }
    now rewrite E.
Qed.
Lemma apply_eval_defined ig s e nu z : expression ig e = true -> eval nu None (apply s e) = Some z -> forall v u, In v (uvars e) -> lookup s v = Some u -> exists y, eval nu None u = Some y.
Proof.
  intros He. revert z. induction e as [v| |v|c|k ts IH|f t ds _|ts _] using term_ind'; simpl in *; intros z Hz w u Hw Hu; try discriminate; try tauto.
  - destruct Hw as [<-|[]]. rewrite Hu in Hz. eauto.
  - rewrite forallb_forall in He. rewrite Forall_forall in IH. apply in_flat_map in Hw. destruct Hw as (t & Ht & Hw). destruct (mapo (eval nu None) (map (apply s) ts)) as [zs|] eqn:E; [|discriminate].
    apply mapo_Forall2 in E. destruct (Forall2_In_l _ _ _ _ E (in_map (apply s) ts t Ht)) as (y & _ & Hy). eapply (IH t Ht (He t Ht)); eauto.
Qed.

Section Params.
Context (ig : var -> bool) (ext : list (var * Z)) (ps : list param).
Hypothesis Hext : NoDup (map fst ext).
Hypothesis Hdecl : NoDup (map pa_var ps).
Hypothesis Hexp : forall g e, In (mkParam g (Some e)) ps -> expression ig e = true.
Let s0 : subst := map (fun e => (fst e, TConst (snd e))) ext.

Lemma s0_keys : map fst s0 = map fst ext.
Proof. unfold s0. rewrite map_map. simpl. reflexivity. Qed.
Lemma ext_fun g z z' : In (g, z) ext -> In (g, z') ext -> z = z'.
Proof.
  intros H1 H2. clear s0 Hexp Hdecl. induction ext as [|[a b] l IH]; [destruct H1|]. simpl in *. inversion Hext as [|? ? Hn Hd]; subst.
  destruct H1 as [E1|H1], H2 as [E2|H2]; auto; try congruence; exfalso; apply Hn; apply in_map_iff; [exists (g, z')|exists (g, z)]; split; auto; simpl; congruence.
Qed.
Lemma decl_fun g e e' : In (mkParam g e) ps -> In (mkParam g e') ps -> e = e'.
Proof.
  intros H1 H2. clear s0 Hexp. induction ps as [|[a b] l IH]; [destruct H1|]. simpl in *. inversion Hdecl as [|? ? Hn Hd]; subst.
  destruct H1 as [E1|H1], H2 as [E2|H2]; auto; try congruence; exfalso; apply Hn; apply in_map_iff; [exists (mkParam g e')|exists (mkParam g e)]; split; auto; simpl; congruence.
Qed.
Theorem param_value_fun g z z' : param_value ext ps g z -> param_value ext ps g z' -> z = z'.
Proof.
  intros H. revert z'. induction H as [g z H|g e nu z Hn Hp Hv IH He]; intros z' H'.
  - inversion H' as [g' z'' A E|g' e' nu' z'' A B C D E]; subst; [eapply ext_fun; eauto|]. exfalso. apply A. apply in_map_iff. exists (g, z). auto.
  - inversion H' as [g' z'' A E|g' e' nu' z'' A B C D E]; subst; [exfalso; apply Hn; apply in_map_iff; exists (g, z'); auto|].
    pose proof (decl_fun g _ _ Hp B) as E. injection E as <-. assert (eval nu None e = eval nu' None e); [|congruence].
    apply eval_occ. intros w [Hw|Hw]; [apply IH; auto|]. exfalso. specialize (Hexp g e Hp). clear -Hexp Hw.
    induction Hw as [|k ts t Ht _ IH| |]; simpl in *; try discriminate. rewrite forallb_forall in Hexp. auto.
Qed.

Record inv (s : subst) : Prop := {
  i_ground : forall v u, lookup s v = Some u -> ground u = true;
  i_keys : forall v, lookup s v <> None -> In v (map fst ext) \/ exists e, In (mkParam v (Some e)) ps;
  i_value : forall v u nu z, lookup s v = Some u -> (eval nu None u = Some z <-> param_value ext ps v z);
  i_ext : forall v, In v (map fst ext) -> lookup s v <> None }.
Lemma inv_s0 : inv s0.
Proof.
  assert (Hs : forall v u, lookup s0 v = Some u -> exists z, u = TConst z /\ In (v, z) ext).
  { intros v u H. apply lookup_In in H. apply in_map_iff in H. destruct H as ([g z] & E & H). simpl in E. injection E as <- <-. eauto. }
  constructor.
  - intros v u H. destruct (Hs v u H) as (z & -> & _). reflexivity.
  - intros v H. left. rewrite <- s0_keys. destruct (in_dec Nat.eq_dec v (map fst s0)) as [i|i]; auto. exfalso. apply H. now apply lookup_None.
  - intros v u nu z H. destruct (Hs v u H) as (z0 & -> & Hi). simpl. split; [intros E; injection E as <-; now apply pv_external|]. intros Hp. f_equal. eapply param_value_fun; eauto. now apply pv_external.
  - intros v Hv E. apply lookup_None in E. rewrite s0_keys in E. auto.
Qed.
Lemma inv_add s g e : inv s -> In (mkParam g (Some e)) ps -> lookup s g = None -> is_ground (apply s e) = true -> inv ((g, apply s e) :: s).
Proof.
  intros [I1 I2 I3 I4] Hp Hl Hg. pose proof (Hexp g e Hp) as He. destruct (apply_ground_iff ig s e He I1) as [G1 G2]. specialize (G2 Hg). rewrite G1 in Hg. constructor.
  - intros v u. rewrite lookup_cons. destruct (g =? v); [intros E; injection E as <-; auto|apply I1].
  - intros v. rewrite lookup_cons. destruct (g =? v) eqn:E; [apply Nat.eqb_eq in E; subst; eauto|apply I2].
  - intros v u nu z. rewrite lookup_cons. destruct (g =? v) eqn:E; [|apply I3]. apply Nat.eqb_eq in E. subst v. intros E. injection E as <-.
    assert (Hne : ~ In g (map fst ext)) by (intros Hi; now apply (I4 g Hi)). split.
    + intros Hz. set (mu := fun w => match lookup s w with Some u => match eval nu None u with Some y => y | None => 0%Z end | None => 0%Z end).
      assert (Hm : forall w, In w (uvars e) -> exists u, lookup s w = Some u /\ eval nu None u = Some (mu w)).
      { intros w Hw. destruct (Hg w Hw) as (u & Hu). exists u. split; auto. unfold mu. rewrite Hu. destruct (apply_eval_defined ig s e nu z He Hz w u Hw Hu) as (y & ->). reflexivity. }
      apply (pv_defined ext ps g e mu z); auto.
      * intros w Hw. destruct (Hm w Hw) as (u & Hu & E). now apply (I3 w u nu (mu w) Hu).
      * rewrite <- (apply_eval ig s e nu mu He Hm). exact Hz.
    + intros Hv. inversion Hv as [g' z' A E|g' e' mu z' A B C D E]; subst; [exfalso; apply Hne; apply in_map_iff; exists (g, z); auto|].
      pose proof (decl_fun g _ _ Hp B) as E. injection E as <-. rewrite (apply_eval ig s e nu mu He); auto.
      intros w Hw. destruct (Hg w Hw) as (u & Hu). exists u. split; auto. apply (I3 w u nu (mu w) Hu). auto.
  - intros v Hv. rewrite lookup_cons. destruct (g =? v); [discriminate|auto].
Qed.
(** A pass adds entries; nothing is added only if nothing can be. *)
Lemma pass_spec : forall l s, incl l ps -> inv s -> inv (global_pass l s) /\ (exists new, global_pass l s = new ++ s /\ forall g, In g (map fst new) -> In g (map pa_var l) /\ lookup s g = None) /\
  (length (global_pass l s) = length s -> global_pass l s = s /\ forall g e, In (mkParam g (Some e)) l -> lookup s g = None -> is_ground (apply s e) = false).
Proof.
  induction l as [|[g o] l IH]; intros s Hi I; cbn [global_pass].
  - split; auto. split; [exists []; split; auto; intros g []|]. intros _. split; auto. intros g e [].
  - assert (Hl : incl l ps) by (intros y Hy; apply Hi; simpl; auto).
    assert (Skip : (lookup s g <> None \/ o = None \/ exists e, o = Some e /\ is_ground (apply s e) = false) ->
      inv (global_pass l s) /\ (exists new, global_pass l s = new ++ s /\ forall g', In g' (map fst new) -> In g' (map pa_var (mkParam g o :: l)) /\ lookup s g' = None) /\
      (length (global_pass l s) = length s -> global_pass l s = s /\ forall g' e, In (mkParam g' (Some e)) (mkParam g o :: l) -> lookup s g' = None -> is_ground (apply s e) = false)).
    { intros Hs. destruct (IH s Hl I) as (A & (new & B1 & B2) & C). split; auto. split; [exists new; split; auto; intros g' Hg; destruct (B2 g' Hg); simpl; auto|]. intros E. destruct (C E) as [C1 C2]. split; auto.
      intros g' e [Eq|Hin] Hn; eauto. injection Eq as -> ->. destruct Hs as [Hs|[Hs|(e' & Hs & Hg)]]; [congruence|discriminate|congruence]. }
    destruct (lookup s g) as [u|] eqn:Eg; [apply Skip; left; discriminate|]. destruct o as [e|]; [|apply Skip; auto]. destruct (is_ground (apply s e)) eqn:Ei; [|apply Skip; right; right; eauto]. clear Skip.
    assert (I' : inv ((g, apply s e) :: s)) by (apply inv_add; auto; apply Hi; simpl; auto). destruct (IH _ Hl I') as (A & (new & B1 & B2) & C). split; auto. split.
    + exists (new ++ [(g, apply s e)]). split; [rewrite B1, <- app_assoc; reflexivity|]. intros g' Hg. rewrite map_app in Hg. apply in_app_iff in Hg. simpl in *. destruct Hg as [Hg|[<-|[]]]; auto.
      destruct (B2 g' Hg) as [D1 D2]. rewrite lookup_cons in D2. destruct (g =? g'); [discriminate|auto].
    + intros E. exfalso. rewrite B1, app_length in E. simpl in E. lia.
Qed.
Definition stuck (s : subst) : Prop := forall g e, In (mkParam g (Some e)) ps -> lookup s g = None -> is_ground (apply s e) = false.
(** The number of declared variables without an entry decreases. *)
Definition open_count (s : subst) : nat := length (filter (fun d => match lookup s (pa_var d) with None => true | _ => false end) ps).
Lemma filter_le {A} (f g : A -> bool) l : (forall x, In x l -> f x = true -> g x = true) -> length (filter f l) <= length (filter g l).
Proof.
  induction l as [|x l IH]; simpl; intros H; auto. assert (IH' := IH (fun y Hy => H y (or_intror Hy))). destruct (f x) eqn:Ef; [rewrite (H x (or_introl eq_refl) Ef); simpl; lia|]. destruct (g x); simpl; lia.
Qed.
Lemma filter_lt {A} (f g : A -> bool) l y : (forall x, In x l -> f x = true -> g x = true) -> In y l -> f y = false -> g y = true -> length (filter f l) < length (filter g l).
Proof.
  induction l as [|x l IH]; simpl; intros H Hy Hf Hg; [tauto|]. pose proof (filter_le f g l (fun z Hz => H z (or_intror Hz))) as Hle. destruct Hy as [->|Hy].
  - rewrite Hf, Hg. simpl. lia.
  - specialize (IH (fun z Hz => H z (or_intror Hz)) Hy Hf Hg). destruct (f x) eqn:Ef; [rewrite (H x (or_introl eq_refl) Ef); simpl; lia|]. destruct (g x); simpl; lia.
Qed.
Lemma lookup_app new s v : lookup (new ++ s) v = match lookup new v with Some u => Some u | None => lookup s v end.
Proof. induction new as [|[g u] new IH]; auto. simpl app. rewrite !lookup_cons. destruct (g =? v); auto. Qed.
Lemma loop_spec : forall fuel s, inv s -> open_count s < fuel -> exists s', global_loop fuel ps s = Some s' /\ inv s' /\ stuck s'.
Proof.
  induction fuel as [|fuel IH]; intros s I Hf; [lia|]. cbn [global_loop]. destruct (pass_spec ps s (fun x H => H) I) as (A & (new & B1 & B2) & C). destruct (length s =? length (global_pass ps s)) eqn:E.
  - apply Nat.eqb_eq in E. symmetry in E. destruct (C E) as [C1 C2]. exists (global_pass ps s). split; auto. split; auto. rewrite C1. exact C2.
  - apply Nat.eqb_neq in E. apply IH; auto. assert (open_count (global_pass ps s) < open_count s); [|lia]. rewrite B1 in *. destruct new as [|[g u] new]; [simpl in E; congruence|].
    destruct (B2 g) as [D1 D2]; [simpl; auto|]. apply in_map_iff in D1. destruct D1 as (d & D1 & D3). unfold open_count. apply (filter_lt _ _ ps d); auto.
    + intros d' _. rewrite lookup_app. destruct (lookup ((g, u) :: new) (pa_var d')); [discriminate|auto].
    + rewrite D1. simpl app. rewrite lookup_cons, Nat.eqb_refl. reflexivity.
    + rewrite D1, D2. reflexivity.
Qed.
Theorem substitution_spec : exists s, substitution ext ps = Some s /\ inv s /\ stuck s.
Proof.
  apply loop_spec; [apply inv_s0|]. unfold open_count. pose proof (filter_le (fun d => match lookup s0 (pa_var d) with None => true | _ => false end) (fun _ => true) ps (fun _ _ _ => eq_refl)) as H.
  assert (E : filter (fun _ : param => true) ps = ps) by (clear; induction ps as [|x l IH]; simpl; congruence). rewrite E in H. apply le_n_S. exact H.
Qed.
Lemma founded_entry s g : inv s -> stuck s -> founded ig (map fst ext) ps g -> lookup s g <> None.
Proof.
  intros I St H. induction H as [g H|g e Hp Hv IH]; [now apply (i_ext _ I)|]. intros Hl. pose proof (St g e Hp Hl) as Hg.
  assert (Ht : is_ground (apply s e) = true); [|congruence]. apply (apply_ground_iff ig s e (Hexp g e Hp) (i_ground _ I)). intros v Hv'.
  assert (Hig : ig v = true).
  { specialize (Hexp g e Hp). clear -Hexp Hv'. induction e as [w| |w|c|k ts IHe|f t ds _|ts _] using term_ind'; simpl in *; try discriminate; try tauto.
    - destruct Hv' as [<-|[]]. auto.
    - apply in_flat_map in Hv'. destruct Hv' as (t & Ht & Hv). rewrite forallb_forall in Hexp. rewrite Forall_forall in IHe. exact (IHe t Ht (Hexp t Ht) Hv). }
  specialize (IH v Hv' Hig). destruct (lookup s v) as [u|]; [eauto|congruence].
Qed.
End Params.

(** ** Validation of parameters *)
Lemma declared_once_spec ext ps : forall seen, declared_once seen ext ps = true <->
  NoDup (map pa_var ps) /\ (forall d, In d ps -> ~ In (pa_var d) seen) /\ forall g, In (mkParam g None) ps -> In g ext.
Proof.
  induction ps as [|[g o] ps IH]; intros seen; cbn [declared_once].
  - split; auto. intros _. split; [constructor|]. split; [intros d []|intros g []].
  - rewrite !andb_true_iff, IH, negb_true_iff, memp_false. split.
    + intros ((A & B) & C & D & E). simpl. split; [|split].
      * constructor; auto. intros Hi. apply in_map_iff in Hi. destruct Hi as (d & E1 & E2). apply (D d E2). simpl. auto.
      * intros d [<-|Hd]; [auto|]. intros Hi. apply (D d Hd). simpl. auto.
      * intros g' [Eq|Hd]; auto. injection Eq as -> ->. now apply memp_In.
    + intros (A & B & C). simpl in A. inversion A as [|? ? A1 A2]; subst. split; [split|].
      * apply (B (mkParam g o)). simpl. auto.
      * destruct o; auto. apply memp_In. apply C. simpl. auto.
      * split; auto. split; [|intros g' Hg; apply C; simpl; auto]. intros d Hd [E|Hi]; [apply A1; apply in_map_iff; exists d; auto|]. apply (B d); simpl; auto.
Qed.
Section Defined.
Context (ig : var -> bool) (ext : list var) (ps : list param).
Definition dstuck (df : list var) : Prop := forall g e, In (mkParam g (Some e)) ps -> (forall v, In v (uvars e) -> ig v = true -> In v df) -> In g df.
Lemma defined_pass_spec : forall l df, incl l ps -> (forall g, In g df -> founded ig ext ps g) -> 
  (forall g, In g (defined_pass ig l df) -> founded ig ext ps g) /\ (exists new, defined_pass ig l df = df ++ new /\ forall g, In g new -> In g (map pa_var l) /\ ~ In g df) /\
  (length (defined_pass ig l df) = length df -> defined_pass ig l df = df /\ forall g e, In (mkParam g (Some e)) l -> (forall v, In v (uvars e) -> ig v = true -> In v df) -> In g df).
Proof.
  induction l as [|[g o] l IH]; intros df Hi Hd; cbn [defined_pass].
  - split; auto. split; [exists []; split; [now rewrite app_nil_r|intros g []]|]. intros _. split; auto. intros g e [].
  - assert (Hl : incl l ps) by (intros y Hy; apply Hi; simpl; auto).
    assert (Skip : (In g df \/ o = None \/ exists e, o = Some e /\ forallb (fun v => negb (ig v) || memp v df) (uvars e) = false) ->
      (forall g, In g (defined_pass ig l df) -> founded ig ext ps g) /\ (exists new, defined_pass ig l df = df ++ new /\ forall g', In g' new -> In g' (map pa_var (mkParam g o :: l)) /\ ~ In g' df) /\
      (length (defined_pass ig l df) = length df -> defined_pass ig l df = df /\ forall g' e, In (mkParam g' (Some e)) (mkParam g o :: l) -> (forall v, In v (uvars e) -> ig v = true -> In v df) -> In g' df)).
    { intros Hs. destruct (IH df Hl Hd) as (A & (new & B1 & B2) & C). split; auto. split; [exists new; split; auto; intros g' Hg; destruct (B2 g' Hg); simpl; auto|]. intros E. destruct (C E) as [C1 C2]. split; auto.
      intros g' e [Eq|Hin] Hn; eauto. injection Eq as -> ->. destruct Hs as [Hs|[Hs|(e' & Hs & Hg)]]; [auto|discriminate|]. injection Hs as <-. exfalso.
      assert (Ht : forallb (fun v => negb (ig v) || memp v df) (uvars e) = true); [|congruence]. apply forallb_forall. intros v Hv. destruct (ig v) eqn:Ev; auto. simpl. apply memp_In. auto. }
    destruct (memp g df) eqn:Em; [apply Skip; left; now apply memp_In|]. destruct o as [e|]; [|apply Skip; auto]. destruct (forallb (fun v => negb (ig v) || memp v df) (uvars e)) eqn:Ef; [|apply Skip; right; right; eauto]. clear Skip.
    rewrite forallb_forall in Ef. apply memp_false in Em. destruct (IH (df ++ [g])) as (A & (new & B1 & B2) & C); auto.
    { intros g' Hg. apply in_app_iff in Hg. destruct Hg as [Hg|[<-|[]]]; auto. apply (fo_defined ig ext ps g e); [apply Hi; simpl; auto|]. intros v Hv Hg. specialize (Ef v Hv). rewrite Hg in Ef. simpl in Ef. apply Hd. now apply memp_In. }
    split; auto. split; [|intros E; exfalso; rewrite B1, !app_length in E; simpl in E; lia]. exists (g :: new). split; [rewrite B1, <- app_assoc; reflexivity|].
    intros g' [<-|Hg]; [simpl; auto|]. destruct (B2 g' Hg) as [D1 D2]. split; [simpl; auto|]. intros Hin. apply D2. apply in_app_iff. auto.
Qed.
Lemma defined_loop_spec : forall fuel df, incl ext df -> (forall g, In g df -> founded ig ext ps g) -> length (filter (fun d => negb (memp (pa_var d) df)) ps) < fuel ->
  exists df', defined_loop ig fuel ps df = Some df' /\ forall g, In g df' <-> founded ig ext ps g.
Proof.
  induction fuel as [|fuel IH]; intros df He Hd Hf; [lia|]. cbn [defined_loop]. destruct (defined_pass_spec ps df (fun x H => H) Hd) as (A & (new & B1 & B2) & C). destruct (length df =? length (defined_pass ig ps df)) eqn:E.
  - apply Nat.eqb_eq in E. symmetry in E. destruct (C E) as [C1 C2]. exists (defined_pass ig ps df). split; auto. rewrite C1. intros g. split; auto. intros H. induction H as [g H|g e Hp Hv IHv]; auto. apply (C2 g e); auto.
  - apply Nat.eqb_neq in E. apply IH; auto; [intros g Hg; rewrite B1; apply in_app_iff; auto|]. rewrite B1 in *. destruct new as [|g new]; [rewrite app_nil_r in E; congruence|].
    destruct (B2 g) as [D1 D2]; [simpl; auto|]. apply in_map_iff in D1. destruct D1 as (d & D1 & D3). apply (Nat.lt_le_trans _ (length (filter (fun d => negb (memp (pa_var d) df)) ps))); [|lia]. apply (filter_lt _ _ ps d); auto.
    + intros d' _. rewrite !negb_true_iff, !memp_false. intros H1 H2. apply H1. apply in_app_iff. auto.
    + rewrite D1. apply negb_false_iff. apply memp_In. apply in_app_iff. simpl. auto.
    + rewrite D1. apply negb_true_iff. now apply memp_false.
Qed.
Theorem validate_parameters_spec : validate_parameters ig ext ps = true <->
  NoDup (map pa_var ps) /\ (forall g, In (mkParam g None) ps -> In g ext) /\ forall g e, In (mkParam g (Some e)) ps -> founded ig ext ps g.
Proof.
  unfold validate_parameters. destruct (defined_loop_spec (S (length ps)) ext) as (df & E & H); [intros x; auto|intros g Hg; now apply fo_external| |].
  { pose proof (filter_le (fun d => negb (memp (pa_var d) ext)) (fun _ => true) ps (fun _ _ _ => eq_refl)) as L. assert (Ef : filter (fun _ : param => true) ps = ps) by (clear; induction ps as [|x l IH]; simpl; congruence). rewrite Ef in L. lia. }
  rewrite E, andb_true_iff, declared_once_spec, forallb_forall. split.
  - intros ((A & _ & B) & C). split; auto. split; auto. intros g e Hp. apply H. apply memp_In. exact (C _ Hp).
  - intros (A & B & C). split; [split; [assumption|split; [intros d _ []|assumption]]|]. intros [g [e|]] Hp; auto. apply memp_In. apply H. eauto.
Qed.
End Defined.

(** ** Values in place of terms *)
Section Put.
Context (s : subst) (val : var -> option Z).
Hypothesis Hsv : forall v, match lookup s v with
  | Some u => exists z, val v = Some z /\ ground u = true /\ forall nu ag, eval nu ag u = Some z
  | None => val v = None end.
Lemma put_sim t : sim (put val t) (apply s t).
Proof.
  induction t as [v| |v|c|k ts IH|f t ds IH|ts IH] using term_ind'; cbn [put apply].
  - specialize (Hsv v). destruct (lookup s v) as [u|].
    + destruct Hsv as (z & -> & Hg & He). apply (sim_ground _ _ z); auto.
    + rewrite Hsv. constructor.
  - constructor.
  - constructor.
  - apply (sim_ground _ _ c); auto.
  - constructor. induction IH; simpl; constructor; auto.
  - constructor. auto.
  - constructor. induction IH; simpl; constructor; auto.
Qed.
Lemma puts_sim ts : Forall2 sim (map (put val) ts) (map (apply s) ts).
Proof. induction ts; simpl; constructor; auto. apply put_sim. Qed.
Lemma put_rule_sim r : sim_rule (put_rule val r) (apply_rule s r).
Proof.
  split; simpl.
  - induction (s_head r); simpl; constructor; auto. split; auto. apply puts_sim.
  - induction (s_body r) as [|[p ts|p ts|k ts] l IH]; simpl; constructor; auto; constructor; apply puts_sim.
Qed.
Lemma put_source_sim rs fs : Forall2 sim_rule (map (put_rule val) rs) (map (apply_rule s) rs) /\ Forall2 sim_atom (map (put_atom val) fs) (map (apply_atom s) fs).
Proof.
  split.
  - induction rs; simpl; constructor; auto. apply put_rule_sim.
  - induction fs; simpl; constructor; auto. split; auto. apply puts_sim.
Qed.
End Put.
Lemma ground_eval_any t nu nu' ag ag' : ground t = true -> eval nu ag t = eval nu' ag' t.
Proof.
  intros H. destruct (ground_facts t H) as (E & _ & _ & _ & N & X). rewrite (eval_no_agg nu ag ag' t N). apply eval_occ. intros w [Hw|Hw]; [rewrite E in Hw; destruct Hw|exfalso; eapply X; eauto].
Qed.

(** ** Putting values keeps the relation of [split_of] *)
Lemma put_occurs val t v : occurs v (put val t) -> occurs v t.
Proof.
  induction t as [w| |w|c|k ts IH|f t ds IH|ts IH] using term_ind'; cbn [put]; auto.
  - destruct (val w); auto. intros [[]|H]. inversion H.
  - rewrite Forall_forall in IH. intros [H|H].
    + simpl in H. apply in_flat_map in H. destruct H as (t & Ht & Hv). apply in_map_iff in Ht. destruct Ht as (t0 & <- & Ht). destruct (IH t0 Ht (or_introl Hv)); [left; simpl; apply in_flat_map; eauto|right; econstructor; eauto].
    + inversion H as [|k' ts' t Ht Ho| |]; subst. apply in_map_iff in Ht. destruct Ht as (t0 & <- & Ht). destruct (IH t0 Ht (or_intror Ho)); [left; simpl; apply in_flat_map; eauto|right; econstructor; eauto].
  - intros [H|H].
    + simpl in H. apply in_app_iff in H. destruct H as [H|H]; [|left; simpl; apply in_app_iff; auto]. destruct (IH (or_introl H)); [left; simpl; apply in_app_iff; auto|right; now constructor].
    + inversion H; subst. destruct IH as [A|A]; [right; auto|left; simpl; apply in_app_iff; auto|right; now constructor].
  - rewrite Forall_forall in IH. intros [H|H].
    + simpl in H. apply in_flat_map in H. destruct H as (t & Ht & Hv). apply in_map_iff in Ht. destruct Ht as (t0 & <- & Ht). destruct (IH t0 Ht (or_introl Hv)); [left; simpl; apply in_flat_map; eauto|right; econstructor; eauto].
    + inversion H as [| | |ts' t Ht Ho]; subst. apply in_map_iff in Ht. destruct Ht as (t0 & <- & Ht). destruct (IH t0 Ht (or_intror Ho)); [left; simpl; apply in_flat_map; eauto|right; econstructor; eauto].
Qed.
Lemma put_rule_term val r t : rule_term (put_rule val r) t -> exists t0, rule_term r t0 /\ t = put val t0.
Proof.
  intros [(p & ts & A & B)|(l & A & B)].
  - simpl in A. apply in_map_iff in A. destruct A as ([q us] & E & A). unfold put_atom in E. simpl in E. injection E as -> <-. apply in_map_iff in B. destruct B as (t0 & <- & B). exists t0. split; auto. left. eauto.
  - simpl in A. apply in_map_iff in A. destruct A as (l0 & <- & A). destruct l0; simpl in B; apply in_map_iff in B; destruct B as (t0 & <- & B); exists t0; (split; [right; eexists; split; eauto|auto]).
Qed.
Lemma put_not_variable val t : ~ variable_term t -> ~ variable_term (put val t).
Proof. intros H. destruct t; cbn [put]; try (intros [E|[(w & E)|(w & E)]]; discriminate); auto. exfalso. apply H. right. left. eauto. Qed.
Definition put_eq (val : var -> option Z) (e : var * term) : var * term := (fst e, put val (snd e)).
Lemma put_split_atom val ts us e : split_atom ts us e -> (forall v, In v (map fst e) -> val v = None) -> split_atom (map (put val) ts) (map (put val) us) (map (put_eq val) e).
Proof.
  induction 1 as [|t ts us e H IH|t v ts us e Ht H IH]; simpl; intros Hv; [constructor|constructor; auto|]. rewrite (Hv v) by auto. apply (sa_new (put val t) v); auto. now apply put_not_variable.
Qed.
Lemma put_split_lits val b b' e : split_lits b b' e -> (forall v, In v (map fst e) -> val v = None) -> split_lits (map (put_literal val) b) (map (put_literal val) b') (map (put_eq val) e).
Proof.
  induction 1 as [|l b b' e H IH|p ts us e b b' e' Ha H IH]; intros Hv; [constructor|simpl; constructor; auto|].
  rewrite map_app in Hv. rewrite !map_app. cbn [map put_literal]. rewrite map_map.
  replace (map (fun x => put_literal val (equality x)) e) with (map equality (map (put_eq val) e)).
  - apply sl_pos; [apply put_split_atom; auto; intros v Hin; apply Hv; apply in_app_iff; auto|]. apply IH. intros v Hin. apply Hv. apply in_app_iff. auto.
  - rewrite map_map. apply map_ext_in. intros [v t] Hin. unfold equality, put_eq. cbn [fst snd put_literal map put]. rewrite (Hv v); auto. apply in_app_iff. left. apply in_map_iff. exists (v, t). auto.
Qed.

(** A valid rule: the terms of the equalities have safe variables. *)
Lemma valid_eq_safe r b eqs v t w : split_lits b (s_body r) eqs -> validate r = true -> In (v, t) eqs -> In w (uvars t) -> safe r w.
Proof.
  intros Hs Hv Hi Hw. apply validate_good in Hv. assert (Hl : In (equality (v, t)) (s_body r)) by (apply (split_lits_other _ _ _ Hs); right; left; eauto).
  destruct (split_lits_eq _ _ _ v t Hs Hi) as (Hn & _ & _). destruct (g_body_op _ Hv _ t Hl) as [Ho _]; [simpl; auto|].
  destruct t as [x| |x|c|k ts|f t ds|ts]; simpl in *; try discriminate; try tauto.
  - exfalso. apply Hn. right. left. eauto.
  - eapply (g_body_safe _ Hv _ k ts w Hl); simpl; auto.
Qed.
