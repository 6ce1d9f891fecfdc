(** Proofs for C46: constants in body atoms. *)
From Coq Require Import List Arith ZArith Bool Lia.
From Verif Require Import TableModel EngineModel EngineSpec NormModel NormSpec NormProofs1 PipeModel PipeSpec PipeProofs1.
Import ListNotations.

Lemma eval_occ t : forall nu nu' ag, (forall w, occurs w t -> nu w = nu' w) -> eval nu ag t = eval nu' ag t.
Proof.
  induction t as [v| |v|c|k ts IH|f t ds _|ts _] using term_ind'; simpl; intros nu nu' ag H; auto.
  - f_equal. apply H. left. simpl. auto.
  - f_equal. apply H. right. constructor.
  - rewrite (mapo_ext (eval nu ag) (eval nu' ag)); auto. rewrite Forall_forall in *. intros t Ht. apply IH; auto. intros w [Hw|Hw]; apply H; [left; simpl; apply in_flat_map; eauto|right; econstructor; eauto].
Qed.

(** ** The relation of a rule to the rule with equalities *)
Inductive split_atom : list term -> list term -> list (var * term) -> Prop :=
| sa_nil : split_atom [] [] []
| sa_keep t ts us e : split_atom ts us e -> split_atom (t :: ts) (t :: us) e
| sa_new t v ts us e : ~ variable_term t -> split_atom ts us e -> split_atom (t :: ts) (TVar v :: us) ((v, t) :: e).
Definition equality (e : var * term) : literal := LOp KEqual [TVar (fst e); snd e].
Inductive split_lits : list literal -> list literal -> list (var * term) -> Prop :=
| sl_nil : split_lits [] [] []
| sl_keep l b b' e : split_lits b b' e -> split_lits (l :: b) (l :: b') e
| sl_pos p ts us e b b' e' : split_atom ts us e -> split_lits b b' e' -> split_lits (LPos p ts :: b) (map equality e ++ LPos p us :: b') (e ++ e').
Record split_of (r r' : srule) (eqs : list (var * term)) : Prop := {
  so_head : s_head r' = s_head r;
  so_body : split_lits (s_body r) (s_body r') eqs;
  so_nodup : NoDup (map fst eqs);
  so_fresh : forall v t, In v (map fst eqs) -> rule_term r t -> ~ occurs v t;
  so_safe : forall v t w, In (v, t) eqs -> In w (uvars t) -> safe r' w }.

Lemma split_atom_keep ts : split_atom ts ts [].
Proof. induction ts; constructor; auto. Qed.
Lemma split_atom_terms ts us e : split_atom ts us e ->
  (forall t, In t ts -> variable_term t -> In t us) /\ (forall v t, In (v, t) e -> In t ts /\ In (TVar v) us /\ ~ variable_term t) /\
  (forall t, In t us -> In t ts \/ exists v u, t = TVar v /\ In (v, u) e).
Proof.
  induction 1 as [|t ts us e H (I1 & I2 & I3)|t v ts us e Ht H (I1 & I2 & I3)]; simpl.
  - split; [tauto|]. split; [tauto|]. intros t [].
  - split; [intros u [<-|Hu] Hv; auto|]. split.
    + intros v u Hu. destruct (I2 v u Hu) as (A & B & C). auto.
    + intros u [<-|Hu]; auto. destruct (I3 u Hu) as [A|A]; auto.
  - split; [intros u [<-|Hu] Hv; auto; tauto|]. split.
    + intros w u [E|Hu]; [injection E as <- <-; auto|]. destruct (I2 w u Hu) as (A & B & C). auto.
    + intros u [<-|Hu]; [right; exists v, t; auto|]. destruct (I3 u Hu) as [A|(w & x & A & B)]; auto. right. exists w, x. auto.
Qed.
Lemma split_lits_pos b b' eqs : split_lits b b' eqs -> forall p ts, In (LPos p ts) b -> exists us e, split_atom ts us e /\ In (LPos p us) b' /\ incl e eqs /\ incl (map equality e) b'.
Proof.
  induction 1 as [|l b b' e H IH|q ts us e b b' e' Ha H IH]; simpl; intros p vs Hp; [tauto| |].
  - destruct Hp as [->|Hp]; [exists vs, []; split; [apply split_atom_keep|]; split; auto; split; intros x []|].
    destruct (IH p vs Hp) as (us & e0 & A & B & C & D). exists us, e0. split; auto. split; auto. split; auto. intros x Hx. right. auto.
  - destruct Hp as [E|Hp].
    + injection E as <- <-. exists us, e. split; auto. split; [apply in_app_iff; simpl; auto|]. split; intros x Hx; apply in_app_iff; auto.
    + destruct (IH p vs Hp) as (us0 & e0 & A & B & C & D). exists us0, e0. split; auto. split; [apply in_app_iff; simpl; auto|]. split; intros x Hx; apply in_app_iff; simpl; auto.
Qed.
Lemma split_lits_pos_inv b b' eqs : split_lits b b' eqs -> forall p us, In (LPos p us) b' -> exists ts e, split_atom ts us e /\ In (LPos p ts) b /\ incl e eqs.
Proof.
  induction 1 as [|l b b' e H IH|q ts us e b b' e' Ha H IH]; simpl; intros p vs Hp; [tauto| |].
  - destruct Hp as [->|Hp]; [exists vs, []; split; [apply split_atom_keep|]; split; auto; intros x []|]. destruct (IH p vs Hp) as (ts & e0 & A & B & C). exists ts, e0. auto.
  - apply in_app_iff in Hp. destruct Hp as [Hp|[E|Hp]].
    + apply in_map_iff in Hp. destruct Hp as (x & E & _). discriminate.
    + injection E as <- <-. exists ts, e. split; auto. split; auto. intros x Hx. apply in_app_iff. auto.
    + destruct (IH p vs Hp) as (ts0 & e0 & A & B & C). exists ts0, e0. split; auto. split; auto. intros x Hx. apply in_app_iff. auto.
Qed.
Lemma split_lits_other b b' eqs : split_lits b b' eqs -> forall l, In l b' <-> (In l b /\ forall p ts, l <> LPos p ts) \/ (exists e, In e eqs /\ l = equality e) \/ (exists p ts, l = LPos p ts /\ In l b').
Proof.
  intros H l. split.
  - intros Hl. induction H as [|l0 b b' e H IH|q ts us e b b' e' Ha H IH]; simpl in *; [tauto| |].
    + destruct Hl as [->|Hl]; [|destruct (IH Hl) as [[A B]|[A|(p & ts & A & B)]]; eauto 8]. destruct l; auto; [right; right; eauto 6| |]; left; split; auto; discriminate.
    + apply in_app_iff in Hl. destruct Hl as [Hl|[<-|Hl]].
      * apply in_map_iff in Hl. destruct Hl as (x & <- & Hx). right. left. exists x. split; auto. apply in_app_iff. auto.
      * right. right. exists q, us. split; auto. apply in_app_iff. simpl. auto.
      * destruct (IH Hl) as [[A B]|[(x & A & B)|(p & vs & A & B)]]; [auto|right; left; exists x; split; auto; apply in_app_iff; auto|right; right; exists p, vs; split; auto; apply in_app_iff; simpl; auto].
  - intros [[A B]|[(e & A & ->)|(p & ts & _ & A)]]; auto; (induction H as [|l0 b b' e0 H IH|q ts us e0 b b' e' Ha H IH]; simpl in *; [tauto| |]).
    + destruct A as [->|A]; auto.
    + destruct A as [A|A]; [congruence|]. apply in_app_iff. simpl. auto.
    + auto.
    + apply in_app_iff. simpl. apply in_app_iff in A. destruct A as [A|A]; auto. left. now apply in_map.
Qed.
Lemma split_lits_neg b b' eqs p ts : split_lits b b' eqs -> (In (LNeg p ts) b' <-> In (LNeg p ts) b).
Proof.
  intros H. rewrite (split_lits_other _ _ _ H). split; [intros [[A _]|[(e & _ & A)|(q & us & A & _)]]; auto; discriminate|]. intros A. left. split; auto. discriminate.
Qed.
Lemma split_lits_op b b' eqs k us : split_lits b b' eqs -> (In (LOp k us) b' <-> In (LOp k us) b \/ exists e, In e eqs /\ LOp k us = equality e).
Proof.
  intros H. rewrite (split_lits_other _ _ _ H). split; [intros [[A _]|[(e & A & B)|(q & vs & A & _)]]; eauto; discriminate|]. intros [A|A]; auto. left. split; auto. discriminate.
Qed.
Lemma split_lits_eq b b' eqs v t : split_lits b b' eqs -> In (v, t) eqs ->
  ~ variable_term t /\ (exists p ts, In (LPos p ts) b /\ In t ts) /\ exists p us, In (LPos p us) b' /\ In (TVar v) us.
Proof.
  induction 1 as [|l b b' e H IH|q ts us e b b' e' Ha H IH]; simpl; intros Hv; [tauto| |].
  - destruct (IH Hv) as (A & (p & ts & B1 & B2) & (q & us & C1 & C2)). split; auto. split; [exists p, ts|exists q, us]; auto.
  - apply in_app_iff in Hv. destruct Hv as [Hv|Hv].
    + destruct (split_atom_terms _ _ _ Ha) as (_ & A & _). destruct (A v t Hv) as (A1 & A2 & A3). split; auto. split; [exists q, ts|exists q, us; split; [apply in_app_iff; simpl; auto|]]; auto.
    + destruct (IH Hv) as (A & (p & ts0 & B1 & B2) & (q0 & us0 & C1 & C2)). split; auto. split; [exists p, ts0|exists q0, us0; split; [apply in_app_iff; simpl; auto|]]; auto.
Qed.

(** ** Valuations *)
Definition upd (eqs : list (var * term)) (nu base : var -> Z) (w : var) : Z :=
  match find (fun e => fst e =? w) eqs with
  | Some e => match eval nu None (snd e) with Some z => z | None => 0%Z end
  | None => base w
  end.
Lemma upd_other eqs nu base w : ~ In w (map fst eqs) -> upd eqs nu base w = base w.
Proof.
  intros H. unfold upd. destruct (find (fun e => fst e =? w) eqs) as [e|] eqn:E; auto. apply find_some in E. destruct E as [E1 E2]. apply Nat.eqb_eq in E2. exfalso. apply H. apply in_map_iff. exists e. auto.
Qed.
Lemma upd_at eqs nu base v t z : NoDup (map fst eqs) -> In (v, t) eqs -> eval nu None t = Some z -> upd eqs nu base v = z.
Proof.
  intros Hd Hv Hz. unfold upd. induction eqs as [|[w u] eqs IH]; simpl in *; [tauto|]. inversion Hd as [|? ? Hn Hd']; subst. destruct Hv as [E|Hv].
  - injection E as -> ->. rewrite Nat.eqb_refl. simpl. now rewrite Hz.
  - destruct (w =? v) eqn:E; auto. apply Nat.eqb_eq in E. subst. exfalso. apply Hn. apply in_map_iff. exists (v, t). auto.
Qed.
Lemma upd_eval eqs nu base ag t : (forall v, In v (map fst eqs) -> ~ occurs v t) -> eval (upd eqs nu base) ag t = eval base ag t.
Proof. intros H. apply eval_occ. intros w Hw. apply upd_other. intros Hi. eapply H; eauto. Qed.

Lemma eq_true nu v t : eval nu None (TOp KEqual [TVar v; t]) = Some true_val <-> eval nu None t = Some (nu v).
Proof.
  simpl. destruct (eval nu None t) as [z|]; [|split; discriminate]. simpl. destruct (Z.eq_dec (nu v) z) as [->|Hn].
  - rewrite ?Z.eqb_refl. split; auto.
  - destruct (Z.eqb_spec (nu v) z); [tauto|]. split; [intros E; discriminate E|congruence].
Qed.

Section Rule.
Context (r r' : srule) (eqs : list (var * term)) (S : split_of r r' eqs).
Let fresh v := In v (map fst eqs).

Lemma term_of_eq v t : In (v, t) eqs -> rule_term r t /\ ~ variable_term t /\ fresh v.
Proof.
  intros H. destruct (split_lits_eq _ _ _ v t (so_body _ _ _ S) H) as (A & (p & ts & B1 & B2) & _). split; [right; exists (LPos p ts); auto|]. split; auto. apply in_map_iff. exists (v, t). auto.
Qed.
Lemma head_term p ts t : In (p, ts) (s_head r) -> In t ts -> rule_term r t.
Proof. intros H1 H2. left. eauto. Qed.
Lemma lit_term l t : In l (s_body r) -> In t (literal_terms l) -> rule_term r t.
Proof. intros H1 H2. right. eauto. Qed.

Lemma safe_more w : safe r w -> safe r' w.
Proof.
  intros H. induction H as [p ts v H1 H2|l v t H1 H2 H3 H4 H5 H6].
  - destruct (split_lits_pos _ _ _ (so_body _ _ _ S) p ts H1) as (us & e & A & B & _). apply (safe_pos r' p us v B). unfold among in *. apply (split_atom_terms _ _ _ A); auto. right. left. eauto.
  - apply (safe_eq r' l v t); auto. assert (Hop : exists k us, l = LOp k us) by (destruct H2 as [->|[-> _]]; eauto). destruct Hop as (k & us & ->). apply (split_lits_op _ _ _ _ _ (so_body _ _ _ S)). auto.
Qed.
Lemma safe_less w : safe r' w -> safe r w \/ fresh w.
Proof.
  intros H. induction H as [p us v H1 H2|l v t H1 H2 H3 H4 H5 H6].
  - destruct (split_lits_pos_inv _ _ _ (so_body _ _ _ S) p us H1) as (ts & e & A & B & C). destruct (split_atom_terms _ _ _ A) as (_ & _ & D). destruct (D (TVar v) H2) as [D1|(v' & u & E & D1)].
    + left. eapply safe_pos; eauto.
    + injection E as <-. right. apply C in D1. now apply term_of_eq in D1.
  - assert (Hop : exists k us, l = LOp k us) by (destruct H2 as [->|[-> _]]; eauto). destruct Hop as (k & us & ->). apply (split_lits_op _ _ _ _ _ (so_body _ _ _ S)) in H1. destruct H1 as [H1|([v' t'] & H1 & E)].
    + left. apply (safe_eq r (LOp k us) v t); auto. intros w Hw. destruct (H6 w Hw) as [A|A]; auto. exfalso.
      apply (so_fresh _ _ _ S w t A); [|left; auto]. apply (lit_term _ _ H1). simpl. destruct H2 as [E|[E _]]; injection E as -> ->; simpl; auto.
    + right. unfold equality in E. simpl in E. injection E as -> ->. pose proof (term_of_eq _ _ H1) as (_ & A & B). destruct H2 as [E|[E (N1 & _)]].
      * injection E as -> ->. auto.
      * injection E as E1 E2. exfalso. apply A. right. left. eauto.
Qed.
Lemma old_safe w t : rule_term r t -> In w (uvars t) -> (safe r' w <-> safe r w).
Proof. intros Ht Hw. split; [|apply safe_more]. intros H. destruct (safe_less w H) as [A|A]; auto. exfalso. apply (so_fresh _ _ _ S w t A Ht). left. auto. Qed.

Lemma safe_op_old k us : In (LOp k us) (s_body r) -> (safe_op r' k us <-> safe_op r k us).
Proof.
  intros Hi. unfold safe_op. rewrite (split_lits_op _ _ _ k us (so_body _ _ _ S)). split; intros [_ H]; split; auto; intros v Hv; specialize (H v Hv); apply in_flat_map in Hv; destruct Hv as (t & Ht & Hv); apply (old_safe v t); auto; apply (lit_term _ _ Hi); auto.
Qed.
Lemma safe_op_new e k us : In e eqs -> LOp k us = equality e -> safe_op r' k us.
Proof.
  intros He E. split; [apply (split_lits_op _ _ _ _ _ (so_body _ _ _ S)); eauto|]. destruct e as [v t]. unfold equality in E. injection E as -> ->. simpl. intros w [<-|Hw].
  - destruct (split_lits_eq _ _ _ v t (so_body _ _ _ S) He) as (_ & _ & (p & us & A & B)). eapply safe_pos; eauto.
  - rewrite app_nil_r in Hw. eapply (so_safe _ _ _ S); eauto.
Qed.
Lemma under_same p ts k us : In (LNeg p ts) (s_body r) -> (under_negation r' ts k us <-> under_negation r ts k us).
Proof.
  intros Hn. unfold under_negation. split.
  - intros (A & B & C). apply (split_lits_op _ _ _ _ _ (so_body _ _ _ S)) in A. destruct A as [A|(e & A1 & A2)]; [|exfalso; apply B; eapply safe_op_new; eauto].
    split; auto. split; [rewrite <- (safe_op_old k us A); auto|]. intros v Hv. destruct (C v Hv) as [D|D]; auto. left. apply in_flat_map in Hv. destruct Hv as (t & Ht & Hv). apply (old_safe v t); auto. apply (lit_term _ _ A). auto.
  - intros (A & B & C). split; [apply (split_lits_op _ _ _ _ _ (so_body _ _ _ S)); auto|]. split; [rewrite (safe_op_old k us A); auto|]. intros v Hv. destruct (C v Hv) as [D|D]; auto. left. now apply safe_more.
Qed.
Lemma has_upd (M : interp) nu base p ts : (forall t, In t ts -> rule_term r t) -> (has M (upd eqs nu base) p ts <-> has M base p ts).
Proof.
  intros Ht. assert (H : forall t z, In t ts -> (tmatch (upd eqs nu base) t z <-> tmatch base t z)).
  { intros t z Hin. unfold tmatch. rewrite upd_eval; [tauto|]. intros v Hv. apply (so_fresh _ _ _ S v t Hv). auto. }
  unfold has. split; intros (row & H1 & H2); exists row; split; auto; clear H1 Ht.
  - induction H2; constructor; [apply H; simpl; auto|]. apply IHForall2. intros u z Hu. apply H. simpl. auto.
  - induction H2; constructor; [apply H; simpl; auto|]. apply IHForall2. intros u z Hu. apply H. simpl. auto.
Qed.
Lemma negated_same (M : interp) nu p ts : In (LNeg p ts) (s_body r) -> (negated r' M nu p ts <-> negated r M nu p ts).
Proof.
  intros Hn. unfold negated. split.
  - intros (nu1 & A & B & C). exists nu1. split; [intros v Hv; apply A; now apply safe_more|]. split; auto. intros k us Hu. apply C. now apply (under_same p ts k us Hn).
  - intros (nu1 & A & B & C). set (nu2 := fun w => if in_dec Nat.eq_dec w (map fst eqs) then nu w else nu1 w).
    assert (Hev : forall t ag, rule_term r t -> eval nu2 ag t = eval nu1 ag t).
    { intros t ag Ht. apply eval_occ. intros w Hw. unfold nu2. destruct (in_dec Nat.eq_dec w (map fst eqs)) as [i|i]; auto. exfalso. apply (so_fresh _ _ _ S w t i Ht Hw). }
    exists nu2. split; [|split].
    + intros v Hv. unfold nu2. destruct (in_dec Nat.eq_dec v (map fst eqs)) as [i|i]; auto. apply A. destruct (safe_less v Hv); auto. contradiction.
    + destruct B as (row & B1 & B2). exists row. split; auto. assert (Ht : forall t, In t ts -> rule_term r t) by (intros t Ht; apply (lit_term _ t Hn); auto). clear -B2 Hev Ht.
      induction B2 as [|t z ts row H _ IH]; constructor; [|apply IH; intros u Hu; apply Ht; simpl; auto]. unfold tmatch in *. rewrite Hev; auto. apply Ht. simpl. auto.
    + intros k us Hu. apply (under_same p ts k us Hn) in Hu. specialize (C k us Hu). destruct Hu as (Hu & _). rewrite <- C. simpl. rewrite (mapo_ext (eval nu2 None) (eval nu1 None)); auto.
      apply Forall_forall. intros t Ht. apply Hev. apply (lit_term _ t Hu). auto.
Qed.
Lemma computed_same t : computed r' t <-> computed r t.
Proof.
  split; intros H; inversion H as [p ts k us H1 H2 E|p ts k us H1 H2 H3 E|p ts u f s ds H1 H2 H3 E]; subst.
  - eapply comp_neg; eauto. exact (proj1 (split_lits_neg _ _ _ _ _ (so_body _ _ _ S)) H1).
  - rewrite (so_head _ _ _ S) in H1. eapply comp_head; eauto.
  - rewrite (so_head _ _ _ S) in H1. eapply comp_agg; eauto.
  - eapply comp_neg; eauto. exact (proj2 (split_lits_neg _ _ _ _ _ (so_body _ _ _ S)) H1).
  - rewrite <- (so_head _ _ _ S) in H1. eapply comp_head; eauto.
  - rewrite <- (so_head _ _ _ S) in H1. eapply comp_agg; eauto.
Qed.

Lemma match_back ts us e nu row : split_atom ts us e -> (forall v t, In (v, t) e -> eval nu None t = Some (nu v)) -> Forall2 (tmatch nu) us row -> Forall2 (tmatch nu) ts row.
Proof.
  intros H. revert row. induction H as [|t ts us e H IH|t v ts us e Ht H IH]; intros row He Hr; auto.
  - inversion Hr; subst. constructor; auto.
  - inversion Hr as [|? z ? row' Hz Hr']; subst. constructor.
    + right. destruct Hz as [Hz|Hz]; [discriminate|]. simpl in Hz. rewrite (He v t); simpl; auto.
    + apply IH; auto. intros w u Hw. apply He. simpl. auto.
Qed.
Lemma match_forth ts us e nu row : split_atom ts us e -> incl e eqs -> (forall t, In t ts -> rule_term r t) -> Forall2 (tmatch nu) ts row ->
  Forall2 (tmatch (upd eqs nu nu)) us row /\ forall v t, In (v, t) e -> exists z, eval nu None t = Some z.
Proof.
  intros H. revert row. induction H as [|t ts us e H IH|t v ts us e Ht H IH]; intros row He Hrt Hr.
  - inversion Hr; subst. split; [constructor|intros v t []].
  - inversion Hr as [|? z ? row' Hz Hr']; subst. destruct (IH row' He (fun u Hu => Hrt u (or_intror Hu)) Hr') as [A B]. split; auto. constructor; auto.
    unfold tmatch in *. rewrite upd_eval; auto. intros v Hv. apply (so_fresh _ _ _ S v t Hv). apply Hrt. simpl. auto.
  - inversion Hr as [|? z ? row' Hz Hr']; subst. assert (Hz' : eval nu None t = Some z) by (destruct Hz as [->|Hz]; auto; exfalso; apply Ht; left; auto).
    destruct (IH row') as [A B]; auto; [intros x Hx; apply He; simpl; auto|intros u Hu; apply Hrt; simpl; auto|]. split.
    + constructor; auto. right. simpl. f_equal. apply (upd_at eqs nu nu v t z); auto; [apply S|apply He; simpl; auto].
    + intros w u [E|Hu]; [injection E as <- <-; eauto|eauto].
Qed.

Lemma matches_back (I M : interp) nu : src_matches r' I M nu -> src_matches r I M nu.
Proof.
  intros [H1 H2 H3 H4]. constructor.
  - intros p ts Hp. destruct (split_lits_pos _ _ _ (so_body _ _ _ S) p ts Hp) as (us & e & A & B & C & D). destruct (H1 p us B) as (row & R1 & R2). exists row. split; auto.
    apply (match_back ts us e); auto. intros v t Hv. apply eq_true. apply H2. apply (safe_op_new (v, t)); auto.
  - intros k us Hs. apply H2. apply (safe_op_old k us); auto. apply Hs.
  - intros p ts Hn. rewrite <- (negated_same M nu p ts Hn). apply H3. now apply (split_lits_neg _ _ _ _ _ (so_body _ _ _ S)).
  - intros t Ht. apply H4. now apply computed_same.
Qed.
Lemma eval_upd_op nu base k us ag : In (LOp k us) (s_body r) -> eval (upd eqs nu base) ag (TOp k us) = eval base ag (TOp k us).
Proof.
  intros Hi. simpl. rewrite (mapo_ext (eval (upd eqs nu base) ag) (eval base ag)); auto. apply Forall_forall. intros t Ht. apply upd_eval. intros v Hv. apply (so_fresh _ _ _ S v t Hv). apply (lit_term _ t Hi). auto.
Qed.
Lemma negated_ext (M : interp) nu nu' p ts : In (LNeg p ts) (s_body r) -> (forall v, safe r v -> nu v = nu' v) -> negated r M nu p ts -> negated r M nu' p ts.
Proof. intros _ H (nu1 & A & B). exists nu1. split; auto. intros v Hv. rewrite <- (H v Hv). auto. Qed.
Lemma safe_old v : safe r v -> ~ fresh v.
Proof.
  intros H Hf. assert (Ho : exists t, rule_term r t /\ occurs v t).
  { destruct H as [p ts v H1 H2|l v t H1 H2 _ _ _].
    - exists (TVar v). split; [apply (lit_term _ (TVar v) H1); auto|left; simpl; auto].
    - exists (TVar v). split; [apply (lit_term _ (TVar v) H1)|left; simpl; auto]. destruct H2 as [->|[-> _]]; simpl; auto. }
  destruct Ho as (t & H1 & H2). apply (so_fresh _ _ _ S v t Hf H1 H2).
Qed.
Lemma matches_forth (I M : interp) nu : src_matches r I M nu -> src_matches r' I M (upd eqs nu nu).
Proof.
  intros [H1 H2 H3 H4].
  assert (Hdef : forall v t, In (v, t) eqs -> exists z, eval nu None t = Some z).
  { intros v t Hv. destruct (split_lits_eq _ _ _ v t (so_body _ _ _ S) Hv) as (A & (p & ts & B1 & B2) & _). destruct (H1 p ts B1) as (row & _ & R). clear -R B2 A.
    induction R as [|u z ts row Hu _ IH]; [destruct B2|]. destruct B2 as [->|B2]; auto. destruct Hu as [->|Hu]; [exfalso; apply A; left; auto|eauto]. }
  constructor.
  - intros p us Hp. destruct (split_lits_pos_inv _ _ _ (so_body _ _ _ S) p us Hp) as (ts & e & A & B & C). destruct (H1 p ts B) as (row & R1 & R2). exists row. split; auto.
    apply (match_forth ts us e nu row); auto. intros t Ht. apply (lit_term _ t B). auto.
  - intros k us Hs. pose proof (proj1 Hs) as Hi. apply (split_lits_op _ _ _ _ _ (so_body _ _ _ S)) in Hi. destruct Hi as [Hi|([v t] & Hi & E)].
    + rewrite eval_upd_op; auto. apply H2. now apply (safe_op_old k us Hi).
    + unfold equality in E. injection E as -> ->. apply eq_true. cbn [fst snd]. destruct (Hdef v t Hi) as (z & Hz). rewrite (upd_at eqs nu nu v t z); auto; [|apply S]. rewrite upd_eval; auto.
      intros w Hw. apply (so_fresh _ _ _ S w t Hw). now apply term_of_eq in Hi.
  - intros p ts Hn. apply (split_lits_neg _ _ _ _ _ (so_body _ _ _ S)) in Hn. rewrite (negated_same M _ p ts Hn). intros H. apply (H3 p ts Hn). eapply negated_ext; [eauto| |exact H].
    intros v Hv. apply upd_other. now apply safe_old.
  - intros t Ht. apply computed_same in Ht. destruct (H4 t Ht) as (z & Hz). exists z. rewrite upd_eval; auto. intros v Hv Ho.
    destruct Ht as [p ts k us A B|p ts k us A B _|p ts u f s ds A B C].
    + apply (so_fresh _ _ _ S v _ Hv (lit_term _ _ A B) Ho).
    + apply (so_fresh _ _ _ S v _ Hv (head_term _ _ _ A B) Ho).
    + apply (so_fresh _ _ _ S v u Hv (head_term _ _ _ A B)). clear -C Ho. induction C as [|k ts t Ht _ IH]; [destruct Ho as [Ho|Ho]; [left; simpl; apply in_app_iff; auto|right; now constructor]|].
      destruct IH as [IH|IH]; [left; simpl; apply in_flat_map; eauto|right; econstructor; eauto].
Qed.

Lemma head_upd nu base ag p ts t : In (p, ts) (s_head r) -> In t ts -> eval (upd eqs nu base) ag t = eval base ag t.
Proof. intros H1 H2. apply upd_eval. intros v Hv. apply (so_fresh _ _ _ S v t Hv). eapply head_term; eauto. Qed.
Lemma instance_upd nu base ag p ts x : In (p, ts) (s_head r) -> (instance ag (upd eqs nu base) ts x <-> instance ag base ts x).
Proof.
  intros Hp. unfold instance. assert (H : forall t, In t ts -> eval (upd eqs nu base) ag t = eval base ag t) by (intros t Ht; eapply head_upd; eauto). clear Hp.
  split; intros Hi; induction Hi as [|t z ts x Hz _ IH]; constructor; try (apply IH; intros u Hu; apply H; simpl; auto); [rewrite <- H|rewrite H]; simpl; auto.
Qed.
Lemma outer_uvars' t v : In v (outer_vars t) -> In v (uvars t). Proof. apply outer_uvars. Qed.
Lemma agg_occ v t f s ds : aggregates f s ds t -> (occurs v s \/ In v ds) -> occurs v t.
Proof.
  intros H Ho. induction H as [|k ts t Ht _ IH].
  - destruct Ho as [[Ho|Ho]|Ho]; [left|right; now constructor|left]; simpl; apply in_app_iff; auto.
  - destruct IH as [IH|IH]; [left; simpl; apply in_flat_map; eauto|right; econstructor; eauto].
Qed.
Lemma agg_same (M : interp) p ts x : In (p, ts) (s_head r) -> (agg_instance r' M ts x <-> agg_instance r M ts x).
Proof.
  intros Hp. assert (Hgroup : forall j nu1 nu2 base, same_group ts j nu1 nu2 <-> same_group ts j (upd eqs base nu1) nu2).
  { intros j nu1 nu2 base. unfold same_group. split; intros H i t Hi; specialize (H i t Hi); pose proof (nth_error_In _ _ Hi) as Ht.
    - destruct (i =? j); [intros v Hv; rewrite upd_other; auto; intros Hf; apply (so_fresh _ _ _ S v t Hf); [eapply head_term; eauto|left; now apply outer_uvars]|]. rewrite (head_upd _ _ _ p ts); auto.
    - destruct (i =? j); [intros v Hv; specialize (H v Hv); rewrite upd_other in H; auto; intros Hf; apply (so_fresh _ _ _ S v t Hf); [eapply head_term; eauto|left; now apply outer_uvars]|]. rewrite (head_upd _ _ _ p ts) in H; auto. }
  assert (Hgroup2 : forall j nu1 nu2 base, same_group ts j nu1 nu2 <-> same_group ts j nu1 (upd eqs base nu2)).
  { intros j nu1 nu2 base. unfold same_group. split; intros H i t Hi; specialize (H i t Hi); pose proof (nth_error_In _ _ Hi) as Ht.
    - destruct (i =? j); [intros v Hv; rewrite upd_other; auto; intros Hf; apply (so_fresh _ _ _ S v t Hf); [eapply head_term; eauto|left; now apply outer_uvars]|]. rewrite (head_upd _ _ _ p ts); auto.
    - destruct (i =? j); [intros v Hv; specialize (H v Hv); rewrite upd_other in H; auto; intros Hf; apply (so_fresh _ _ _ S v t Hf); [eapply head_term; eauto|left; now apply outer_uvars]|]. rewrite (head_upd _ _ _ p ts) in H; auto. }
  assert (Hset : forall j t f s ds nu y, nth_error ts j = Some t -> aggregates f s ds t ->
    ((exists nu' z', src_matches r' M M nu' /\ same_group ts j nu nu' /\ eval nu' None s = Some z' /\ y = z' :: map nu' ds) <->
     (exists nu' z', src_matches r M M nu' /\ same_group ts j nu nu' /\ eval nu' None s = Some z' /\ y = z' :: map nu' ds))).
  { intros j t f s ds nu y Hj Ha. assert (Hsd : forall v, fresh v -> ~ occurs v s /\ ~ In v ds).
    { intros v Hv. split; intros Ho; apply (so_fresh _ _ _ S v t Hv); try (eapply head_term; eauto; eapply nth_error_In; eauto); eapply agg_occ; eauto. }
    split; intros (nu' & z' & A & B & C & D).
    - exists nu', z'. split; [now apply matches_back|auto].
    - exists (upd eqs nu' nu'), z'. split; [now apply matches_forth|]. split; [now apply Hgroup2|]. split; [rewrite upd_eval; auto; intros v Hv; now apply Hsd|].
      rewrite D. f_equal. apply map_ext_in. intros v Hv. symmetry. apply upd_other. intros Hf. now apply (Hsd v Hf). }
  unfold agg_instance, src_agg_value. split.
  - intros (j & t & f & s & ds & nu & z & A & B & C & (L & L1 & L2 & L3) & E). exists j, t, f, s, ds, nu, z. split; auto. split; auto. split; [now apply matches_back|]. split; auto.
    exists L. split; auto. split; auto. intros y. rewrite (L2 y). now apply (Hset j t f s ds nu y).
  - intros (j & t & f & s & ds & nu & z & A & B & C & (L & L1 & L2 & L3) & E). exists j, t, f, s, ds, (upd eqs nu nu), z. split; auto. split; auto. split; [now apply matches_forth|]. split.
    + exists L. split; auto. split; auto. intros y. rewrite (L2 y). rewrite <- (Hset j t f s ds nu y A B).
      split; intros (nu' & z' & Q1 & Q2 & Q3); exists nu', z'; (split; [exact Q1|split; [|exact Q3]]); [now apply Hgroup in Q2 || apply (proj1 (Hgroup j nu nu' nu)); exact Q2|apply (proj2 (Hgroup j nu nu' nu)); exact Q2].
    + now apply (instance_upd nu nu (Some z) p ts x Hp).
Qed.
Lemma ex_same v : ex_var r' v <-> ex_var r v.
Proof. unfold ex_var. now rewrite (so_head _ _ _ S). Qed.
End Rule.

(** ** Programs *)
Definition split_programs (sp sp' : sprogram) : Prop :=
  Forall2 (fun r r' => r' = r \/ exists eqs, split_of r r' eqs) (sp_rules sp) (sp_rules sp') /\ sp_facts sp' = sp_facts sp /\ sp_imports sp' = sp_imports sp.
Lemma Forall2_In_l {A B} (R : A -> B -> Prop) l l' x : Forall2 R l l' -> In x l -> exists y, In y l' /\ R x y.
Proof. induction 1 as [|a b l l' H _ IH]; simpl; [tauto|]. intros [<-|Hx]; eauto. destruct (IH Hx) as (y & A1 & A2). eauto. Qed.
Lemma Forall2_In_r {A B} (R : A -> B -> Prop) l l' y : Forall2 R l l' -> In y l' -> exists x, In x l /\ R x y.
Proof. induction 1 as [|a b l l' H _ IH]; simpl; [tauto|]. intros [<-|Hx]; eauto. destruct (IH Hx) as (x & A1 & A2). eauto. Qed.

Theorem split_deriv sp sp' (M : interp) p x : split_programs sp sp' -> (src_deriv sp' M p x <-> src_deriv sp M p x).
Proof.
  intros (Hr & Hf & Hi). split; intros H.
  - induction H as [p x H|p rows x H1 H2|r' I nu mu p ts x Hin _ IH Hm Hp Hna Hmu Hinst|r' p ts x Hin Hp Hag].
    + apply sd_fact. destruct H as (ts & A & B). exists ts. rewrite Hf in A. auto.
    + rewrite Hi in H1. eapply sd_import; eauto.
    + destruct (Forall2_In_r _ _ _ _ Hr Hin) as (r & A & [->|(eqs & S)]); [eapply sd_rule; eauto|]. rewrite (so_head _ _ _ S) in Hp.
      eapply (sd_rule sp M r I nu mu p ts); eauto; [eapply matches_back; eauto|]. intros v Hv. apply Hmu. now rewrite (ex_same _ _ _ S).
    + destruct (Forall2_In_r _ _ _ _ Hr Hin) as (r & A & [->|(eqs & S)]); [eapply sd_agg; eauto|]. rewrite (so_head _ _ _ S) in Hp.
      eapply (sd_agg sp M r p ts); eauto. now apply (agg_same r r' eqs S M p ts x Hp).
  - induction H as [p x H|p rows x H1 H2|r I nu mu p ts x Hin _ IH Hm Hp Hna Hmu Hinst|r p ts x Hin Hp Hag].
    + apply sd_fact. destruct H as (ts & A & B). exists ts. rewrite Hf. auto.
    + rewrite <- Hi in H1. eapply sd_import; eauto.
    + destruct (Forall2_In_l _ _ _ _ Hr Hin) as (r' & A & [->|(eqs & S)]); [eapply sd_rule; eauto|].
      assert (Hp' : In (p, ts) (s_head r')) by (now rewrite (so_head _ _ _ S)).
      eapply (sd_rule sp' M r' I (upd eqs nu nu) (upd eqs nu mu) p ts); eauto; [eapply matches_forth; eauto| |].
      * intros v Hv. rewrite (ex_same _ _ _ S) in Hv. unfold upd. destruct (find (fun e => fst e =? v) eqs); auto.
      * now apply (instance_upd r r' eqs S nu mu None p ts x Hp).
    + destruct (Forall2_In_l _ _ _ _ Hr Hin) as (r' & A & [->|(eqs & S)]); [eapply sd_agg; eauto|].
      eapply (sd_agg sp' M r' p ts); eauto; [now rewrite (so_head _ _ _ S)|]. now apply (agg_same r r' eqs S M p ts x Hp).
Qed.

(** ** The transformation *)
Lemma split_terms_spec ts : forall n us e m, split_terms n ts = (us, e, m) -> split_atom ts us e /\ n <= m /\ map fst e = map fresh_var (seq n (m - n)) /\ forall t, In t us -> variable_term t.
Proof.
  induction ts as [|t ts IH]; simpl; intros n us e m E; [injection E as <- <- <-; split; [constructor|]; split; [lia|]; rewrite Nat.sub_diag; split; auto; intros t []|].
  assert (New : ~ variable_term t -> forall us0 e0 m0, split_terms (S n) ts = (us0, e0, m0) -> us = TVar (fresh_var n) :: us0 -> e = (fresh_var n, t) :: e0 -> m = m0 ->
    split_atom (t :: ts) us e /\ n <= m /\ map fst e = map fresh_var (seq n (m - n)) /\ forall t, In t us -> variable_term t).
  { intros Ht us0 e0 m0 E0 -> -> ->. destruct (IH _ _ _ _ E0) as (A & B & C & D). split; [now constructor|]. split; [lia|]. split.
    - simpl. rewrite C. replace (m0 - n) with (S (m0 - S n)) by lia. reflexivity.
    - intros u [<-|Hu]; auto. right. left. eauto. }
  assert (Keep : variable_term t -> forall us0 e0 m0, split_terms n ts = (us0, e0, m0) -> us = t :: us0 -> e = e0 -> m = m0 ->
    split_atom (t :: ts) us e /\ n <= m /\ map fst e = map fresh_var (seq n (m - n)) /\ forall t, In t us -> variable_term t).
  { intros Ht us0 e0 m0 E0 -> -> ->. destruct (IH _ _ _ _ E0) as (A & B & C & D). split; [now constructor|]. split; auto. split; auto. intros u [<-|Hu]; auto. }
  assert (Nv : forall t, variable_term t -> t = TAnon \/ (exists v, t = TVar v) \/ exists v, t = TEx v) by (intros u Hu; exact Hu).
  destruct t; try (destruct (split_terms (S n) ts) as [[us0 e0] m0] eqn:E0; injection E as <- <- <-; eapply New; eauto; intros [H|[(w & H)|(w & H)]]; discriminate);
    (destruct (split_terms n ts) as [[us0 e0] m0] eqn:E0; injection E as <- <- <-; eapply Keep; eauto).
  - right. left. eauto.
  - left. auto.
  - right. right. eauto.
Qed.
Lemma split_body_spec b : forall n b' md k, split_body n b = (b', md, k) -> exists eqs, split_lits b b' eqs /\ n <= k /\ map fst eqs = map fresh_var (seq n (k - n)) /\
  (md = false -> b' = b) /\ forall p us t, In (LPos p us) b' -> In t us -> variable_term t.
Proof.
  induction b as [|l b IH]; simpl; intros n b' md k E; [injection E as <- <- <-; exists []; split; [constructor|]; split; [lia|]; rewrite Nat.sub_diag; split; auto; split; auto; intros p us t []|].
  assert (Keep : forall b0 md0 k0, split_body n b = (b0, md0, k0) -> (forall p ts, l <> LPos p ts) -> b' = l :: b0 -> md = md0 -> k = k0 ->
    exists eqs, split_lits (l :: b) b' eqs /\ n <= k /\ map fst eqs = map fresh_var (seq n (k - n)) /\ (md = false -> b' = l :: b) /\ forall p us t, In (LPos p us) b' -> In t us -> variable_term t).
  { intros b0 md0 k0 E0 Hl -> -> ->. destruct (IH _ _ _ _ E0) as (eqs & A & B & C & D & F). exists eqs. split; [now constructor|]. split; auto. split; auto. split; [intros Em; now rewrite (D Em)|].
    intros p us t [G|G]; eauto. exfalso. eapply Hl; eauto. }
  destruct l as [p ts|p ts|kk ts].
  - destruct (split_terms n ts) as [[us e] m] eqn:Et. destruct (split_body m b) as [[b0 md0] k0] eqn:Eb. destruct (split_terms_spec ts n us e m Et) as (A1 & A2 & A3 & A4).
    destruct (IH _ _ _ _ Eb) as (eqs & B1 & B2 & B3 & B4 & B5). destruct e as [|e1 e2].
    + injection E as <- <- <-. assert (Em : m = n). { destruct (m - n) eqn:Ed; [lia|]. discriminate A3. } subst m. exists eqs. split; [now constructor|]. split; auto. split; auto. split; [intros Em; now rewrite (B4 Em)|].
      intros q vs t [G|G] Ht; eauto. injection G as <- <-. apply A4. clear -A1 Ht. remember (@nil (var * term)) as e0. revert Ht. induction A1; simpl; auto; [intros [<-|H]; auto|discriminate].
    + injection E as <- <- <-. exists ((e1 :: e2) ++ eqs). split; [now apply (sl_pos p ts us (e1 :: e2))|]. split; [lia|]. split.
      * rewrite map_app, B3, A3, <- map_app. f_equal. replace (k0 - n) with ((m - n) + (k0 - m)) by lia. rewrite seq_app. f_equal. f_equal. lia.
      * split; [discriminate|]. intros q vs t Hin Ht. rewrite app_comm_cons in Hin. change (?x :: map ?f e2) with (map f (e1 :: e2)) in Hin.
        destruct Hin as [Hin|Hin]; [discriminate|]. apply in_app_iff in Hin. destruct Hin as [Hin|[Hin|Hin]].
        -- apply in_map_iff in Hin. destruct Hin as (y & Hy & _). discriminate.
        -- injection Hin as <- <-. auto.
        -- eauto.
  - destruct (split_body n b) as [[b0 md0] k0] eqn:Eb. injection E as <- <- <-. eapply Keep; eauto. discriminate.
  - destruct (split_body n b) as [[b0 md0] k0] eqn:Eb. injection E as <- <- <-. eapply Keep; eauto. discriminate.
Qed.
Lemma fresh_NoDup n k : NoDup (map fresh_var (seq n k)).
Proof. apply FinFun.Injective_map_NoDup; [intros a b; unfold fresh_var; lia|apply seq_NoDup]. Qed.

(** The equalities, before the check of safety. *)
Definition result (n : nat) (r : srule) : srule := match fst (split_rule n r) with Some r' => r' | None => r end.
Lemma split_rule_spec n r : exists eqs m, s_head (result n r) = s_head r /\ split_lits (s_body r) (s_body (result n r)) eqs /\ map fst eqs = map fresh_var (seq n m) /\ only_variables (result n r).
Proof.
  unfold result, split_rule. destruct (split_body n (s_body r)) as [[b' md] k] eqn:E. destruct (split_body_spec _ _ _ _ _ E) as (eqs & A & B & C & D & F). exists eqs, (k - n). destruct md; cbn [fst].
  - split; auto.
  - rewrite (D eq_refl) in *. split; auto.
Qed.
Lemma split_rules_spec rs : forall n, Forall2 (fun r r' => exists m, r' = result m r) rs (split_rules n rs).
Proof.
  induction rs as [|r rs IH]; simpl; intros n; [constructor|]. destruct (split_rule n r) as [o k] eqn:E. constructor; auto. exists n. unfold result. now rewrite E.
Qed.
