(** C43: checks for concrete programs. *)
From Coq Require Import List Arith ZArith Bool Lia Permutation.
From Verif Require Import TableModel EngineModel EngineSpec NormModel NormSpec NormProofs1 NormProofs2 NormProofs3 NormProofs4 NormProofs7 FilterImpModel FilterImpSpec FilterImpProofs1 FilterImpProofs5.
Import ListNotations.

Lemma fi_even_user p : Nat.even p = true -> user_tag p.
Proof. intros H i E. subst p. unfold sat_tag in H. rewrite Nat.even_succ, <- Nat.negb_even in H. rewrite Nat.even_mul in H. discriminate. Qed.
Definition okb (rs : list srule) (is : list (tag * list row)) : bool :=
  forallb (fun r => validate r && namedb r && supportedb r && forallb (fun a => forallb (fun t => length (agg_list t) =? 0) (snd a)) (s_head r) &&
    forallb (fun l => match l with LPos p _ | LNeg p _ => Nat.even p | _ => true end) (s_body r) && forallb (fun a => Nat.even (fst a)) (s_head r)) rs &&
  forallb (fun t => Nat.even (fst t)) is.
Lemma okb_ok rs is ps os : okb rs is = true -> ok_program (mkSprogram rs [] is ps os).
Proof.
  unfold okb. rewrite andb_true_iff. intros [H1 H2]. rewrite forallb_forall in H1, H2.
  constructor; simpl.
  - intros r Hr. specialize (H1 r Hr). rewrite !andb_true_iff in H1. tauto.
  - intros r Hr. specialize (H1 r Hr). rewrite !andb_true_iff in H1. apply namedb_ok. tauto.
  - intros r Hr. specialize (H1 r Hr). rewrite !andb_true_iff in H1. apply supportedb_ok. tauto.
  - intros r Hr p ts t f s ds Hp Ht Ha. specialize (H1 r Hr). rewrite !andb_true_iff in H1. destruct H1 as [[[[[_ _] _] H] _] _]. rewrite forallb_forall in H. specialize (H _ Hp). simpl in H. rewrite forallb_forall in H. specialize (H _ Ht).
    apply aggregates_list in Ha. apply Nat.eqb_eq in H. destruct (agg_list t); [destruct Ha|discriminate].
  - intros p ts t [].
  - intros r Hr. specialize (H1 r Hr). rewrite !andb_true_iff in H1. destruct H1 as [[_ Hb] Hh]. rewrite forallb_forall in Hb, Hh. split.
    + intros p ts [Hl|Hl]; apply fi_even_user; exact (Hb _ Hl).
    + intros p ts Hp. apply fi_even_user. exact (Hh _ Hp).
  - intros p [(ts & [])|(rows & H)]. apply fi_even_user. exact (H2 _ H).
Qed.

Fixpoint matchb (nu : var -> Z) (ts : list term) (row : list Z) : bool :=
  match ts, row with
  | [], [] => true
  | t :: ts', z :: row' => (match t with TAnon => true | _ => match eval nu None t with Some z' => Z.eqb z' z | None => false end end) && matchb nu ts' row'
  | _, _ => false
  end.
Lemma matchb_ok nu ts : forall row, matchb nu ts row = true -> Forall2 (tmatch nu) ts row.
Proof.
  induction ts as [|t ts IH]; intros [|z row] H; simpl in H; try discriminate; constructor.
  - apply andb_prop in H. destruct H as [H _]. unfold tmatch. destruct t; auto; right; (destruct (eval nu None _) as [z'|]; [apply Z.eqb_eq in H; now subst|discriminate]).
  - apply IH. apply andb_prop in H. tauto.
Qed.
Definition fireb (r : srule) (nu : var -> Z) (fs : list (tag * row)) : bool :=
  forallb (fun l => match l with
                    | LPos p ts => existsb (fun f => (fst f =? p) && matchb nu ts (snd f)) fs
                    | LNeg _ _ => false
                    | LOp k us => match eval nu None (TOp k us) with Some z => Z.eqb z true_val | None => false end
                    end) (s_body r) &&
  forallb (fun a => forallb (fun t => (length (agg_list t) =? 0) && match eval nu None t with Some _ => true | None => false end) (snd a)) (s_head r).
Lemma fireb_ok sp M r nu fs p ts x : In r (sp_rules sp) -> (forall q y, In (q, y) fs -> src_deriv sp M q y) -> fireb r nu fs = true ->
  In (p, ts) (s_head r) -> mapo (eval nu None) ts = Some x -> src_deriv sp M p x.
Proof.
  intros Hr Hf H Hp Hx. apply andb_prop in H. destruct H as [H1 H2]. rewrite forallb_forall in H1, H2.
  assert (Hna : forall q us t, In (q, us) (s_head r) -> In t us -> ~ aggregating t).
  { intros q us t Hq Ht (f & s & ds & Ha). specialize (H2 _ Hq). simpl in H2. rewrite forallb_forall in H2. specialize (H2 _ Ht). apply andb_prop in H2. destruct H2 as [H2 _]. apply Nat.eqb_eq in H2. apply aggregates_list in Ha. destruct (agg_list t); [destruct Ha|discriminate]. }
  apply (sd_rule sp M r (fun q y => In (q, y) fs) nu nu p ts x); auto.
  - constructor.
    + intros q us Hl. specialize (H1 _ Hl). simpl in H1. apply existsb_exists in H1. destruct H1 as ([q' row] & Hq & Hm). apply andb_prop in Hm. simpl in Hm. destruct Hm as [E Hm]. apply Nat.eqb_eq in E. subst q'. exists row. split; auto. now apply matchb_ok.
    + intros k us [Hl _]. specialize (H1 _ Hl). cbv beta iota in H1. destruct (eval nu None (TOp k us)) as [z|]; [|discriminate]. apply Z.eqb_eq in H1. now subst.
    + intros q us Hl. specialize (H1 _ Hl). discriminate.
    + intros t Hc. inversion Hc as [q us k vs Hl Ht|q us k vs Hq Ht _|q us t0 f s ds Hq Ht Ha]; subst.
      * specialize (H1 _ Hl). discriminate.
      * specialize (H2 _ Hq). cbv beta in H2. rewrite forallb_forall in H2. specialize (H2 _ Ht). apply andb_prop in H2. destruct H2 as [_ H2]. destruct (eval nu None (TOp k vs)); eauto. discriminate.
      * exfalso. apply (Hna q us t0 Hq Ht). exists f, t, ds. auto.
  - intros (t & Ht & Ha). eapply Hna; eauto.
  - unfold instance. apply mapo_Forall2 in Hx. exact Hx.
Qed.

(** Programs whose rules are all over one imported predicate. *)
Definition simpleb (p q : tag) (r : srule) : bool :=
  match body_positive r, s_head r with
  | [(p', _)], [(q', ts)] => (p' =? p) && (q' =? q) && forallb (fun t => (length (agg_list t) =? 0) && match t with TEx _ => false | _ => true end) ts
  | _, _ => false
  end.
Lemma rules_only rs is ps os M q p x : (p =? q) = false -> forallb (simpleb p q) rs = true -> memt q (map fst is) = false ->
  src_deriv (mkSprogram rs [] is ps os) M q x ->
  exists r bts ts nu rows row, In r rs /\ body_positive r = [(p, bts)] /\ s_head r = [(q, ts)] /\ In (p, rows) is /\ In row rows /\
    Forall2 (tmatch nu) bts row /\ instance None nu ts x /\ forall k us, safe_op r k us -> eval nu None (TOp k us) = Some true_val.
Proof.
  intros Hpq Hs Hq H. apply Nat.eqb_neq in Hpq. rewrite forallb_forall in Hs.
  assert (Hp : forall y, src_deriv (mkSprogram rs [] is ps os) M p y -> exists rows, In (p, rows) is /\ In y rows).
  { intros y Hy. inversion Hy as [? ? (ts & [] & _)|? rows ? H1 H2|r ? ? ? ? ts ? Hr HI Hm Hp|r ? ts ? Hr Hp]; subst; simpl in *; [eauto| |];
      exfalso; specialize (Hs r Hr); unfold simpleb in Hs; destruct (body_positive r) as [|[p' bts] [|]]; try discriminate; destruct (s_head r) as [|[q' us] [|]]; try discriminate;
      rewrite !andb_true_iff, !Nat.eqb_eq in Hs; destruct Hp as [Hp|[]]; injection Hp as E1 E2; apply Hpq; destruct Hs as [[_ E] _]; congruence. }
  inversion H as [? ? (ts & [] & _)|? rows ? H1 H2|r I nu mu ? ts ? Hr HI Hm Hh Hna Hmu Hi|r ? ts ? Hr Hh Hag]; subst; simpl in *.
  - exfalso. assert (E : memt q (map fst is) = true) by (apply memt_In, in_map_iff; exists (q, rows); auto). congruence.
  - specialize (Hs r Hr). unfold simpleb in Hs. destruct (body_positive r) as [|[p' bts] [|]] eqn:Eb; try discriminate. destruct (s_head r) as [|[q' us] [|]] eqn:Eh; try discriminate.
    rewrite !andb_true_iff, !Nat.eqb_eq in Hs. destruct Hs as [[-> ->] Ht]. rewrite forallb_forall in Ht. destruct Hh as [Hh|[]]. injection Hh as ->.
    assert (Hl : In (LPos p bts) (s_body r)) by (apply pos_lit; rewrite Eb; now left). destruct (sm_pos r I M nu Hm p bts Hl) as (row & Hrow & HF). destruct (Hp row (HI _ _ Hrow)) as (rows & R1 & R2).
    assert (Hmn : forall v, mu v = nu v). { intros v. apply Hmu. intros (q0 & us0 & Hq0 & Hv). rewrite Eh in Hq0. destruct Hq0 as [Hq0|[]]. injection Hq0 as <- <-. specialize (Ht _ Hv). rewrite andb_false_r in Ht. discriminate. }
    assert (Hev : forall t, eval mu None t = eval nu None t).
    { induction t as [v| |v|c|k us IH|f t ds IH|us IH] using term_ind'; simpl; auto; try (now rewrite Hmn). replace (mapo (eval mu None) us) with (mapo (eval nu None) us); auto. clear - IH. induction IH as [|t us E _ IH]; simpl; auto. unfold mapo in *. now rewrite E, IH. }
    exists r, bts, ts, nu, rows, row. repeat (split; [auto|]).
    + unfold instance in *. clear - Hi Hev. induction Hi; constructor; auto. now rewrite <- Hev.
    + exact (sm_ops r I M nu Hm).
  - exfalso. specialize (Hs r Hr). unfold simpleb in Hs. destruct (body_positive r) as [|[p' bts] [|]]; try discriminate. destruct (s_head r) as [|[q' us] [|]]; try discriminate.
    rewrite !andb_true_iff in Hs. destruct Hs as [_ Ht]. rewrite forallb_forall in Ht. destruct Hh as [Hh|[]]. injection Hh as -> ->. destruct Hag as (j & t & f & s & ds & nu & z & H1 & H2 & _). apply nth_error_In in H1. specialize (Ht t H1). apply andb_prop in Ht. destruct Ht as [Ht _]. apply aggregates_list in H2. destruct (agg_list t); [destruct H2|discriminate].
Qed.

(** ** Characterization of used columns and dropped rules *)
Lemma assignment_equates k ts v t : assignment k ts = Some (Some v, t) <-> equates (LOp k ts) v t.
Proof.
  unfold equates. split.
  - intros H. destruct k as [|f]; [|discriminate]. destruct ts as [|a [|b [|c l]]]; try discriminate; [destruct a; discriminate| |destruct a; try discriminate; destruct b; discriminate].
    destruct a as [v1| |v1|c1|k1 ts1|f1 t1 ds1|ts1]; simpl in H; try discriminate; try (injection H as <- <-; auto; fail);
    destruct b as [v2| |v2|c2|k2 ts2|f2 t2 ds2|ts2]; simpl in H; try discriminate; try (injection H as <- <-; auto; fail); injection H as <- <-; right; repeat split; congruence.
  - intros [H|(H & H1 & H2 & H3)]; injection H as -> ->; [destruct t; reflexivity|]. destruct t; try reflexivity; exfalso; first [eapply H1; reflexivity|eapply H2; reflexivity|apply H3; reflexivity].
Qed.
Lemma assignment_named r k ts w t : validate r = true -> In (LOp k ts) (s_body r) -> assignment k ts = Some (w, t) -> exists v, w = Some v.
Proof.
  intros Hv Hl H. pose proof (validate_good r Hv) as G. destruct k as [|f]; [|discriminate].
  assert (Ha : forall u, In u ts -> has_anon u = false /\ has_ex u = false) by (intros u Hu; split; [eapply (g_op_anon r G); eauto|eapply (g_body_op r G (LOp KEqual ts)); eauto]).
  destruct w as [v|]; eauto. exfalso.
  destruct ts as [|a [|b [|c l]]]; try discriminate; [destruct a; discriminate| |destruct a; try discriminate; destruct b; discriminate].
  destruct (Ha a (or_introl eq_refl)) as [A1 A2]. destruct (Ha b (or_intror (or_introl eq_refl))) as [B1 B2]. destruct a; simpl in *; try discriminate; destruct b; simpl in *; discriminate.
Qed.
Lemma assignment_vars k ts v t : assignment k ts = Some (Some v, t) -> forall x, In x (flat_map uvars ts) <-> x = v \/ In x (uvars t).
Proof.
  intros H x. apply assignment_equates in H. destruct H as [H|(H & _)]; injection H as -> ->; simpl; rewrite ?app_nil_r, ?in_app_iff; simpl; intuition.
Qed.
Lemma used_vars_relevant r v : validate r = true -> (In v (used_vars r) <-> relevant r v).
Proof.
  intros Hv. unfold used_vars, relevant. rewrite in_app_iff. split; (intros [H|H]; [left|right]).
  - unfold head0 in H. destruct (s_head r) as [|[q ts] rest]; simpl in H; [destruct H|]. apply in_flat_map in H. destruct H as (t & Ht & H). exists q, ts, rest, t. auto.
  - unfold binding_vars in H. apply in_flat_map in H. destruct H as (l & Hl & H). destruct l as [| |k ts]; try destruct H. destruct (assignment k ts) as [[w t]|] eqn:E; [|destruct H]. destruct (assignment_named r k ts w t Hv Hl E) as (w' & ->).
    exists (LOp k ts), w', t. split; auto. split; [now apply assignment_equates|]. now apply (assignment_vars k ts w' t E).
  - destruct H as (q & ts & rest & t & E & Ht & H). unfold head0. rewrite E. simpl. apply in_flat_map. eauto.
  - destruct H as (l & w & t & Hl & He & H). assert (Q : exists k ts, l = LOp k ts) by (destruct He as [->|(-> & _)]; eauto). destruct Q as (k & ts & ->). unfold binding_vars. apply in_flat_map. exists (LOp k ts). split; auto.
    pose proof (proj2 (assignment_equates k ts w t) He) as E. rewrite E. now apply (assignment_vars k ts w t E).
Qed.
Lemma used_columns_spec r n t : validate r = true -> nth_error (body0 r) n = Some t ->
  (nth_error (used_columns r) n = Some true <-> (exists c, t = TConst c) \/ exists v, t = TVar v /\ relevant r v).
Proof.
  intros Hv Ht. unfold used_columns. rewrite nth_error_map, Ht. simpl. split.
  - intros H. injection H as H. destruct t; simpl in H; try discriminate; [right|left; eauto]. exists v. split; auto. apply used_vars_relevant; auto. now apply memv_In.
  - intros [(c & ->)|(v & -> & H)]; simpl; auto. f_equal. apply memv_In. now apply used_vars_relevant.
Qed.

Lemma zip_spec : forall bs hs pos, length bs <= length pos -> exists b, zip_differs hs bs pos = Some b /\
  (b = false <-> forall i h w, nth_error hs i = Some h -> nth_error (kept pos bs) i = Some w -> h = w).
Proof.
  induction bs as [|b bs IH]; intros hs pos Hl; simpl.
  - exists false. destruct hs; (split; [reflexivity|]); split; auto; intros _ i h w _ Hw; destruct pos as [|[] pos]; destruct i; discriminate.
  - destruct pos as [|k pos]; [simpl in Hl; lia|]. destruct hs as [|h hs].
    + exists false. split; auto. split; auto. intros _ i h w Hh. destruct i; discriminate.
    + destruct k; simpl.
      * assert (Hd : (match h, b with Some v, Some w => v =? w | None, None => true | _, _ => false end) = true <-> h = b) by (destruct h, b; try rewrite Nat.eqb_eq; split; congruence).
        destruct (match h, b with Some v, Some w => v =? w | None, None => true | _, _ => false end).
        -- destruct (IH hs pos) as (c & E & Hc); [simpl in Hl; lia|]. exists c. split; auto. rewrite Hc. split.
           ++ intros H [|i] h' w' Hh Hw; simpl in *; [injection Hh as <-; injection Hw as <-; now apply Hd|eauto].
           ++ intros H i h' w' Hh Hw. exact (H (S i) h' w' Hh Hw).
        -- exists true. split; auto. split; [discriminate|]. intros H. exfalso. assert (E : h = b) by exact (H 0 h b eq_refl eq_refl). apply Hd in E. discriminate.
      * destruct (IH (h :: hs) pos) as (c & E & Hc); [simpl in Hl; lia|]. exists c. split; auto.
Qed.
(** A rule is considered obsolete if head and body consist of variables and agree as far as both go. *)
Lemma obsolete_spec r p bts rest : s_body r = LPos p bts :: rest -> body_positive r = [(p, bts)] -> exists b, obsolete (used_columns r) r = Some b /\
  (b = true <-> (forall t, In t (snd (head0 r) ++ bts) -> is_variable t = true) /\
     forall i t u, nth_error (snd (head0 r)) i = Some t -> nth_error (kept (used_columns r) bts) i = Some u -> t = u \/ exists v, In v (var_name t) /\ In v (var_name u)).
Proof.
  intros Eb Ep. unfold obsolete. rewrite Eb. cbn [literal_terms].
  assert (Hu : used_columns r = map (used_term r) bts) by (unfold used_columns, body0; now rewrite Ep).
  destruct (forallb is_variable (snd (head0 r)) && forallb is_variable bts) eqn:E.
  - apply andb_prop in E. destruct E as [E1 E2]. rewrite forallb_forall in E1, E2.
    assert (Hn : forall l, (forall t, In t l -> is_variable t = true) -> exists f, (forall t, is_variable t = true -> var_name t = [f t]) /\ flat_map var_name l = map f l).
    { intros l Hl. exists (fun t => match t with TVar v | TEx v => Some v | _ => None end). assert (Hf : forall t, is_variable t = true -> var_name t = [match t with TVar v | TEx v => Some v | _ => None end]) by (intros [] Ht; simpl in *; try discriminate; auto). split; auto.
      induction l as [|t l IH]; simpl; auto. rewrite Hf by (apply Hl; now left). simpl. f_equal. apply IH. intros u Hu'. apply Hl. now right. }
    set (f := fun t => match t with TVar v | TEx v => Some v | _ => None end).
    assert (Hf : forall t, is_variable t = true -> var_name t = [f t]) by (intros [] Ht; simpl in *; try discriminate; auto).
    assert (Hm : forall l, (forall t, In t l -> is_variable t = true) -> flat_map var_name l = map f l).
    { induction l as [|t l IH]; intros Hl; simpl; auto. rewrite Hf by (apply Hl; now left). simpl. f_equal. apply IH. intros u Hu'. apply Hl. now right. }
    rewrite (Hm (snd (head0 r))) by auto. rewrite (Hm bts) by auto.
    destruct (zip_spec (map f bts) (map f (snd (head0 r))) (used_columns r)) as (b & -> & Hb); [rewrite Hu, !map_length; lia|]. simpl. exists (negb b). split; auto.
    assert (Hk : forall ks l, kept ks (map f l) = map f (kept ks l)) by (intros ks l; revert ks; induction l as [|t l IH]; intros [|[] ks]; simpl; auto; now rewrite IH).
    assert (Hkin : forall ks (l : list term) t, In t (kept ks l) -> In t l) by (intros ks l; revert ks; induction l as [|t l IH]; intros [|[] ks] u H; simpl in *; try tauto; [destruct H; eauto|eauto]).
    rewrite negb_true_iff, Hb. split.
    + intros H. split; [intros t Ht; apply in_app_iff in Ht; destruct Ht; auto|]. intros i t u Hi Hj. assert (Ef : f t = f u).
      { apply (H i); [rewrite nth_error_map, Hi; reflexivity|rewrite Hk, nth_error_map, Hj; reflexivity]. }
      right. exists (f t). assert (Vt : is_variable t = true) by (apply E1; eapply nth_error_In; eauto). assert (Vu : is_variable u = true) by (apply E2; eapply Hkin; eapply nth_error_In; eauto). rewrite (Hf t Vt), (Hf u Vu), Ef. simpl. auto.
    + intros [_ H] i h w Hi Hj. rewrite nth_error_map in Hi. rewrite Hk, nth_error_map in Hj. destruct (nth_error (snd (head0 r)) i) as [t|] eqn:Et; [|discriminate]. destruct (nth_error (kept (used_columns r) bts) i) as [u|] eqn:Eu; [|discriminate].
      simpl in Hi, Hj. injection Hi as <-. injection Hj as <-. assert (Vt : is_variable t = true) by (apply E1; eapply nth_error_In; eauto). assert (Vu : is_variable u = true) by (apply E2; eapply Hkin; eapply nth_error_In; eauto).
      destruct (H i t u Et Eu) as [->|(v & V1 & V2)]; auto. rewrite (Hf t Vt) in V1. rewrite (Hf u Vu) in V2. destruct V1 as [<-|[]]. destruct V2 as [V2|[]]. auto.
  - exists false. split; auto. split; [discriminate|]. intros [H _]. exfalso. apply andb_false_iff in E. destruct E as [E|E]; apply not_true_iff_false in E; apply E; apply forallb_forall; intros t Ht; apply H, in_app_iff; auto.
Qed.
