(** Matches of a valid rule and of its normal form. *)
From Coq Require Import List Arith ZArith Bool Lia Permutation.
From Verif Require Import TableModel EngineModel EngineSpec EngineProofs1 NormModel NormSpec NormProofs1 NormProofs2 NormProofs3 NormProofs4.
Import ListNotations.

Lemma flat_uniq {A} (P : var -> bool) (f : A -> list var) : forall L m m' a a' x,
  NoDup (filter P (flat_map f L)) -> nth_error L m = Some a -> nth_error L m' = Some a' -> In x (f a) -> In x (f a') -> P x = true -> m = m'.
Proof.
  induction L as [|b L IH]; intros m m' a a' x Hn Hm Hm' Ha Ha' Hp; [destruct m; discriminate|].
  simpl in Hn. rewrite filter_app in Hn.
  assert (Hd : forall c, In c L -> In x (f b) -> In x (f c) -> False).
  { intros c Hc H1 H2. clear - Hn Hc H1 H2 Hp.
    assert (Q1 : In x (filter P (f b))) by (apply filter_In; auto).
    assert (Q2 : In x (filter P (flat_map f L))) by (apply filter_In; split; auto; apply in_flat_map; eauto).
    induction (filter P (f b)) as [|y l IHl]; [destruct Q1|]. simpl in Hn. inversion Hn as [|? ? N1 N2]; subst. destruct Q1 as [->|Q1]; [apply N1; apply in_or_app; auto|auto]. }
  destruct m as [|m]; destruct m' as [|m']; simpl in Hm, Hm'; auto.
  - exfalso. injection Hm as <-. apply nth_error_In in Hm'. eauto.
  - exfalso. injection Hm' as <-. apply nth_error_In in Hm. eauto.
  - f_equal. apply (IH m m' a a' x); auto. clear - Hn. induction (filter P (f b)); simpl in Hn; auto. inversion Hn; auto.
Qed.
Lemma flat_sub {A} (P : var -> bool) (f : A -> list var) L a : NoDup (filter P (flat_map f L)) -> In a L -> NoDup (filter P (f a)).
Proof.
  induction L as [|b L IH]; intros Hn Hin; [destruct Hin|]. simpl in Hn. rewrite filter_app in Hn. destruct Hin as [->|Hin].
  - clear - Hn. induction (filter P (f a)) as [|y l IHl]; [constructor|]. simpl in Hn. inversion Hn as [|? ? N1 N2]; subst. constructor; auto. intros H. apply N1. apply in_or_app; auto.
  - apply IH; auto. clear - Hn. induction (filter P (f b)); simpl in Hn; auto. inversion Hn; auto.
Qed.
Lemma Forall2_nth {A B} (R : A -> B -> Prop) l l' : Forall2 R l l' -> forall i a, nth_error l i = Some a -> exists b, nth_error l' i = Some b /\ R a b.
Proof. induction 1 as [|x y l l' H _ IH]; intros [|i] a E; simpl in *; try discriminate; [injection E as <-; eauto|auto]. Qed.
Lemma Forall2_nth' {A B} (R : A -> B -> Prop) l l' : Forall2 R l l' -> forall i b, nth_error l' i = Some b -> exists a, nth_error l i = Some a /\ R a b.
Proof. induction 1 as [|x y l l' H _ IH]; intros [|i] a E; simpl in *; try discriminate; [injection E as <-; eauto|auto]. Qed.
Lemma Forall2_of_nth {A B} (R : A -> B -> Prop) : forall l l', length l = length l' -> (forall i a b, nth_error l i = Some a -> nth_error l' i = Some b -> R a b) -> Forall2 R l l'.
Proof.
  induction l as [|a l IH]; intros [|b l'] Hl H; try discriminate; constructor.
  - apply (H 0); reflexivity.
  - apply IH; [now injection Hl|]. intros i x y Hx Hy. apply (H (S i)); auto.
Qed.
Lemma Forall2_length' {A B} (R : A -> B -> Prop) l l' : Forall2 R l l' -> length l = length l'.
Proof. induction 1; simpl; auto. Qed.
Lemma nodup_nth (xs : list var) i j x : NoDup xs -> nth_error xs i = Some x -> nth_error xs j = Some x -> i = j.
Proof. intros Hn Hi Hj. apply (proj1 (NoDup_nth_error xs) Hn); [apply nth_error_Some; congruence|congruence]. Qed.
Lemma val_of_nth (xs : list var) : forall row i x z, NoDup xs -> nth_error xs i = Some x -> nth_error row i = Some z -> val_of xs row x = z.
Proof.
  induction xs as [|y xs IH]; intros [|c row] [|i] x z Hn Hx Hz; simpl in *; try discriminate.
  - injection Hx as <-. injection Hz as <-. now rewrite Nat.eqb_refl.
  - inversion Hn as [|? ? N1 N2]; subst. destruct (Nat.eqb_spec x y) as [->|_]; [exfalso; apply N1; eapply nth_error_In; eauto|]. eapply IH; eauto.
Qed.

Lemma nth_error_ext_len {A} : forall l l' : list A, length l = length l' -> (forall i a b, nth_error l i = Some a -> nth_error l' i = Some b -> a = b) -> l = l'.
Proof. intros l l' Hl H. assert (Q : Forall2 eq l l') by (apply Forall2_of_nth; auto). clear - Q. induction Q; congruence. Qed.

Section Rule.
Context (r : srule) (Hgood : good r) (Hwn : well_named r) (Hsup : supported r).
Context (nr : rule) (os : list nop) (Hn : normal r nr os).

(** ** Variables *)
Lemma safe_user v : safe r v -> ~ generated v.
Proof.
  induction 1 as [p ts v Hl Ha|l v t Hl He _ _ _ _].
  - apply (body_user r Hwn (LPos p ts) (TVar v) v); simpl; auto.
  - destruct He as [->|(-> & _)]; [apply (body_user r Hwn _ (TVar v) v Hl)|apply (body_user r Hwn _ (TVar v) v Hl)]; simpl; auto.
Qed.
Lemma safe_occurs v : safe r v -> exists t, rule_term r t /\ In v (uvars t).
Proof.
  induction 1 as [p ts v Hl Ha|l v t Hl He _ _ _ _]; exists (TVar v); (split; [right|simpl; auto]).
  - exists (LPos p ts). auto.
  - exists l. split; auto. destruct He as [->|(-> & _)]; simpl; auto.
Qed.
Lemma isb_user_false v : ~ generated v -> isb v = false.
Proof. intros H. destruct (isb v) eqn:E; auto. exfalso. apply H. now apply isb_gen. Qed.
Lemma ish_user_false v : ~ generated v -> ish v = false.
Proof. intros H. destruct (ish v) eqn:E; auto. exfalso. apply H. now apply ish_gen. Qed.
Lemma gen_out : generated agg_out. Proof. unfold generated. auto. Qed.
Lemma gen_in : generated agg_in. Proof. unfold generated. auto. Qed.
Lemma gen_head j : generated (head_var j). Proof. unfold generated. eauto. Qed.

Lemma body_plain l t : In l (s_body r) -> In t (literal_terms l) -> t <> TAnon -> plain_term t.
Proof.
  intros Hl Ht Hna. destruct (g_body_op r Hgood l t Hl Ht) as [Ho He]. split; auto.
  destruct t as [v| |v|c|k us|f u ds|us]; try discriminate; auto; [contradiction|]. apply (g_body_anon r Hgood l k us Hl Ht).
Qed.
Lemma lop_plain k us : In (LOp k us) (s_body r) -> plain_term (TOp k us).
Proof.
  intros Hl. apply plain_op. intros t Ht. split; [eapply (g_op_anon r Hgood); eauto|]. now apply (g_body_op r Hgood (LOp k us)).
Qed.
Lemma head_agg_plain p ts t f s ds : In (p, ts) (s_head r) -> In t ts -> aggregates f s ds t ->
  op_term s = true /\ plain_term s /\ (forall v, In v (uvars s) -> safe r v) /\ (forall v, In v ds -> safe r v) /\ plain_term t.
Proof.
  intros Hp Ht Ha. destruct (g_head_terms r Hgood p ts t Hp Ht) as (b & Eb). destruct (head_term_spec _ _ _ Eb) as (_ & _ & Q). destruct (Q f s ds Ha) as (Q1 & _ & _).
  assert (Hanon : has_anon t = false) by (eapply (g_head_anon r Hgood); eauto).
  assert (Hex : has_ex t = false). { apply (g_head_ex r Hgood p ts p ts t Hp); auto. exists t. split; auto. exists f, s, ds. auto. }
  assert (Hv : forall v, In v (uvars t) -> safe r v) by (intros v Hv; apply (g_head_vars r Hgood p ts t v Hp Ht Hv)).
  split; auto. clear - Ha Hanon Hex Hv. split; [|split; [|split; [|split; auto]]].
  - clear Hv. induction Ha as [|k ts t Ht Ha IH]; [split; auto|]. simpl in *. rewrite existsb_false in Hanon, Hex. apply IH; auto.
  - clear Hanon Hex. induction Ha as [|k ts t Ht Ha IH]; [intros v Hw; apply Hv; simpl; apply in_or_app; auto|]. apply IH. intros v Hw. apply Hv. simpl. apply in_flat_map. eauto.
  - clear Hanon Hex. induction Ha as [|k ts t Ht Ha IH]; [intros v Hw; apply Hv; simpl; apply in_or_app; auto|]. apply IH. intros v Hw. apply Hv. simpl. apply in_flat_map. eauto.
Qed.

(** The atoms of the normalized body. *)
Lemma pos_atom p ts : In (LPos p ts) (s_body r) -> exists xs, In (p, xs) (r_pos nr) /\ atom_rel os (p, ts) (p, xs).
Proof.
  intros Hl. apply in_positive_lit in Hl. apply In_nth_error in Hl. destruct Hl as (m & Hm). destruct (Forall2_nth _ _ _ (nm_pos r nr os Hn) m _ Hm) as ([q xs] & Hq & Hr).
  pose proof (proj1 Hr) as E. simpl in E. subst q. exists xs. split; auto. eapply nth_error_In; eauto.
Qed.
Lemma pos_atom' p xs : In (p, xs) (r_pos nr) -> exists ts, In (LPos p ts) (s_body r) /\ atom_rel os (p, ts) (p, xs).
Proof.
  intros Hl. apply In_nth_error in Hl. destruct Hl as (m & Hm). destruct (Forall2_nth' _ _ _ (nm_pos r nr os Hn) m _ Hm) as ([q ts] & Hq & Hr).
  pose proof (proj1 Hr) as E. simpl in E. subst q. exists ts. split; auto. apply in_positive_lit. eapply nth_error_In; eauto.
Qed.
Lemma neg_atom p ts : In (LNeg p ts) (s_body r) -> exists xs, In (p, xs) (r_neg nr) /\ atom_rel os (p, ts) (p, xs).
Proof.
  intros Hl. apply in_negative_lit in Hl. apply In_nth_error in Hl. destruct Hl as (m & Hm). destruct (Forall2_nth _ _ _ (nm_neg r nr os Hn) m _ Hm) as ([q xs] & Hq & Hr).
  pose proof (proj1 Hr) as E. simpl in E. subst q. exists xs. split; auto. eapply nth_error_In; eauto.
Qed.
Lemma neg_atom' p xs : In (p, xs) (r_neg nr) -> exists ts, In (LNeg p ts) (s_body r) /\ atom_rel os (p, ts) (p, xs).
Proof.
  intros Hl. apply In_nth_error in Hl. destruct Hl as (m & Hm). destruct (Forall2_nth' _ _ _ (nm_neg r nr os Hn) m _ Hm) as ([q ts] & Hq & Hr).
  pose proof (proj1 Hr) as E. simpl in E. subst q. exists ts. split; auto. apply in_negative_lit. eapply nth_error_In; eauto.
Qed.
Lemma atom_var_in p ts p' xs x : atom_rel os (p, ts) (p', xs) -> In x xs -> isb x = true \/ In (TVar x) ts.
Proof. intros (_ & _ & _ & _ & H). apply H. Qed.

(** Positions of generated body variables are unique. *)
Definition all_src := body_positive r ++ body_negative r.
Definition all_atoms := r_pos nr ++ r_neg nr.
Lemma all_rel : Forall2 (atom_rel os) all_src all_atoms.
Proof. apply Forall2_app; [apply (nm_pos r nr os Hn)|apply (nm_neg r nr os Hn)]. Qed.
Lemma all_uniq : NoDup (filter isb (flat_map snd all_atoms)).
Proof. unfold all_atoms. rewrite flat_map_app. exact (nm_uniq r nr os Hn). Qed.
Lemma all_lit p ts : In (p, ts) all_src -> exists l, In l (s_body r) /\ literal_terms l = ts.
Proof.
  unfold all_src. rewrite in_app_iff. intros [H|H]; [apply in_positive_lit in H; exists (LPos p ts)|apply in_negative_lit in H; exists (LNeg p ts)]; auto.
Qed.
Lemma all_pos m a : nth_error (r_pos nr) m = Some a -> nth_error all_atoms m = Some a.
Proof. intros H. unfold all_atoms. rewrite nth_error_app1; auto. apply nth_error_Some. congruence. Qed.
Lemma all_neg m a : nth_error (r_neg nr) m = Some a -> nth_error all_atoms (length (r_pos nr) + m) = Some a.
Proof. intros H. unfold all_atoms. rewrite nth_error_app2 by lia. now replace (length (r_pos nr) + m - length (r_pos nr)) with m by lia. Qed.
Lemma all_pos_src m a : nth_error (body_positive r) m = Some a -> nth_error all_src m = Some a.
Proof. intros H. unfold all_src. rewrite nth_error_app1; auto. apply nth_error_Some. congruence. Qed.
Lemma len_pos : length (body_positive r) = length (r_pos nr).
Proof. exact (Forall2_length' _ _ _ (nm_pos r nr os Hn)). Qed.
Lemma all_neg_src m a : nth_error (body_negative r) m = Some a -> nth_error all_src (length (r_pos nr) + m) = Some a.
Proof. intros H. unfold all_src. rewrite nth_error_app2; rewrite len_pos; [|lia]. now replace (length (r_pos nr) + m - length (r_pos nr)) with m by lia. Qed.

(** Where a generated variable is assigned. *)
Definition src_of (x : var) (n : nop) : Prop :=
  (exists m p ts xs i t, nth_error all_src m = Some (p, ts) /\ nth_error all_atoms m = Some (p, xs) /\
     nth_error ts i = Some t /\ nth_error xs i = Some x /\ norm_term t = Some n /\ isb x = true /\ t <> TAnon) \/
  (exists m p ts hs i t sa j, nth_error (s_head r) m = Some (p, ts) /\ nth_error (r_head nr) m = Some (p, hs) /\ nth_error ts i = Some t /\
     nth_error hs i = Some (HVar x) /\ x = head_var j /\ (exists kk us, t = TOp kk us) /\ norm_hterm t = Some (n, sa)) \/
  (exists m p ts t f s ds, nth_error (s_head r) m = Some (p, ts) /\ In t ts /\ aggregates f s ds t /\ (forall v, s <> TVar v) /\ norm_term s = Some n /\ x = agg_in).

Lemma new_inj x n y n' : new_assignment x n = new_assignment y n' -> x = y /\ n = n'.
Proof. unfold new_assignment. intros E. injection E as <- <-. auto. Qed.

Lemma lop_assign k us x n : In (LOp k us) (s_body r) -> norm_term (TOp k us) = Some (new_assignment x n) -> ~ generated x.
Proof.
  intros Hl E. simpl in E. destruct (mapo norm_term us) as [ns|] eqn:Em; [|discriminate]. injection E as -> ->.
  apply mapo_Forall2 in Em. inversion Em as [|a b us' ns' Ha Hrest]; subst. destruct (g_body_op r Hgood _ a Hl) as [Ho He]; [simpl; auto|].
  assert (Han : has_anon a = false) by (apply (g_op_anon r Hgood _ _ a Hl); now left).
  destruct a as [v| |v|c|kk ws|f u ds|ws]; simpl in Ha, Ho, He, Han; try discriminate.
  - injection Ha as ->. apply (body_user r Hwn _ (TVar x) x Hl); simpl; auto.
  - destruct (mapo norm_term ws); discriminate.
Qed.
Lemma os_src x n : generated x -> In (new_assignment x n) os -> src_of x n.
Proof.
  intros Hg Ho. destruct (nm_cases r nr os Hn _ Ho) as [(k & us & Hl & E)|[(m & p & ts & xs & i & t & y & n' & H1 & H2 & H3 & H4 & E & H5 & H6 & H7)|[(m & p & ts & xs & i & t & y & n' & H1 & H2 & H3 & H4 & E & H5 & H6 & H7)|(m & p & ts & hs & H1 & H2 & [(i & t & n' & sa & j & Q1 & Q2 & Q3 & Q4 & E)|(t & f & s & ds & n' & Q1 & Q2 & Q3 & Q4 & E)])]]].
  - exfalso. eapply lop_assign; eauto.
  - apply new_inj in E. destruct E as [-> ->]. left. exists m, p, ts, xs, i, t. split; [now apply all_pos_src|]. split; [now apply all_pos|]. auto.
  - apply new_inj in E. destruct E as [-> ->]. left. exists (length (r_pos nr) + m), p, ts, xs, i, t. split; [now apply all_neg_src|]. split; [now apply all_neg|]. auto.
  - apply new_inj in E. destruct E as [-> ->]. right. left. exists m, p, ts, hs, i, t, sa, j. repeat split; auto.
  - apply new_inj in E. destruct E as [-> ->]. right. right. exists m, p, ts, t, f, s, ds. repeat split; auto.
Qed.
(** Aggregates are unique. *)
Lemma agg_unique m p ts i t f s ds m' p' ts' i' t' f' s' ds' :
  nth_error (s_head r) m = Some (p, ts) -> nth_error ts i = Some t -> aggregates f s ds t ->
  nth_error (s_head r) m' = Some (p', ts') -> nth_error ts' i' = Some t' -> aggregates f' s' ds' t' ->
  m' = m /\ i' = i /\ p' = p /\ ts' = ts /\ t' = t /\ f' = f /\ s' = s /\ ds' = ds.
Proof.
  intros H1 H2 H3 H1' H2' H3'.
  assert (Em : m' = m). { apply (su_agg r Hsup m' m p' ts' p ts H1' H1); [exists t'|exists t]; (split; [eapply nth_error_In; eauto|unfold aggregating; eauto]). }
  subst m'. rewrite H1 in H1'. injection H1' as <- <-.
  assert (Hp : In (p, ts) (s_head r)) by (eapply nth_error_In; eauto).
  assert (Ei : i' = i) by (apply (g_head_one r Hgood p ts i' i t' t Hp H2' H2); unfold aggregating; eauto).
  subst i'. rewrite H2 in H2'. injection H2' as <-.
  destruct (g_head_terms r Hgood p ts t Hp (nth_error_In _ _ H2)) as (b & Eb). destruct (head_term_spec _ _ _ Eb) as (_ & _ & Q). destruct (Q f s ds H3) as (_ & _ & Q').
  destruct (Q' _ _ _ H3') as (-> & -> & ->). repeat split; reflexivity.
Qed.
Lemma src_unique x n n' : src_of x n -> src_of x n' -> n = n'.
Proof.
  intros [(m & p & ts & xs & i & t & H1 & H2 & H3 & H4 & H5 & H6 & H7)|[(m & p & ts & hs & i & t & sa & j & H1 & H2 & H3 & H4 & H5 & H6 & H7)|(m & p & ts & t & f & s & ds & H1 & H2 & H3 & H4 & H5 & H6)]]
    [(m' & p' & ts' & xs' & i' & t' & H1' & H2' & H3' & H4' & H5' & H6' & H7')|[(m' & p' & ts' & hs' & i' & t' & sa' & j' & H1' & H2' & H3' & H4' & H5' & H6' & H7')|(m' & p' & ts' & t' & f' & s' & ds' & H1' & H2' & H3' & H4' & H5' & H6')]];
    try (exfalso; subst x; rewrite isb_head in *; discriminate); try (exfalso; subst x; discriminate);
    try (exfalso; rewrite H5 in H6'; unfold head_var, agg_in, var in H6'; lia); try (exfalso; rewrite H6 in H5'; unfold head_var, agg_in, var in H5'; lia).
  - assert (m' = m). { eapply (flat_uniq isb snd all_atoms m' m _ _ x all_uniq H2' H2); simpl; auto; eapply nth_error_In; eauto. }
    subst m'. rewrite H1 in H1'. injection H1' as <- <-. rewrite H2 in H2'. injection H2' as <-.
    destruct (Forall2_nth _ _ _ all_rel m _ H1) as (b & Hb & Hr). rewrite H2 in Hb. injection Hb as <-. destruct Hr as (_ & Hnd & _).
    assert (i' = i) by (eapply nodup_nth; eauto). subst i'. congruence.
  - assert (Hx : ish x = true) by (rewrite H5; apply ish_head).
    assert (m' = m). { eapply (flat_uniq ish hatom_vars (r_head nr) m' m _ _ x (nm_huniq r nr os Hn) H2' H2); auto; unfold hatom_vars; apply in_flat_map; exists (HVar x); simpl; split; auto; eapply nth_error_In; eauto. }
    subst m'. rewrite H1 in H1'. injection H1' as <- <-. rewrite H2 in H2'. injection H2' as <-.
    assert (i' = i). { eapply (flat_uniq ish hterm_vars hs i' i (HVar x) (HVar x) x); simpl; auto. apply (flat_sub ish hatom_vars (r_head nr) (p, hs)); [exact (nm_huniq r nr os Hn)|eapply nth_error_In; eauto]. }
    subst i'. congruence.
  - apply In_nth_error in H2. destruct H2 as (i & Hi). apply In_nth_error in H2'. destruct H2' as (i' & Hi').
    destruct (agg_unique _ _ _ _ _ _ _ _ _ _ _ _ _ _ _ _ H1 Hi H3 H1' Hi' H3') as (_ & _ & _ & _ & _ & _ & -> & _). congruence.
Qed.
Lemma assign_unique x n n' : generated x -> In (new_assignment x n) os -> In (new_assignment x n') os -> n = n'.
Proof. intros Hg H1 H2. eapply src_unique; eapply os_src; eauto. Qed.

(** Assignments of the normalized rule. *)
Lemma oeq_cases x e : In (OEq x e) (r_ops nr) ->
  (exists l t n, In l (s_body r) /\ equates l x t /\ plain_term t /\ norm_term t = Some n /\ e = to_expr n) \/
  (generated x /\ exists n, In (new_assignment x n) os /\ e = to_expr n).
Proof.
  rewrite (nm_ops r nr os Hn). intros H. apply in_map_iff in H. destruct H as (o & Eo & Ho).
  destruct (nm_cases r nr os Hn _ Ho) as [(k & us & Hl & E)|[(m & p & ts & xs & i & t & y & n & H1 & H2 & H3 & H4 & E & H5 & H6 & H7)|[(m & p & ts & xs & i & t & y & n & H1 & H2 & H3 & H4 & E & H5 & H6 & H7)|(m & p & ts & hs & H1 & H2 & [(i & t & n & sa & j & Q1 & Q2 & Q3 & Q4 & E)|(t & f & s & ds & n & Q1 & Q2 & Q3 & Q4 & E)])]]].
  2-5: right; subst o; rewrite to_oper_assign in Eo; injection Eo as <- <-; split; [first [now apply isb_gen|apply gen_head|apply gen_in]|eauto].
  left. pose proof (lop_plain k us Hl) as Hpl. rewrite plain_op in Hpl.
  simpl in E. destruct (mapo norm_term us) as [ns|] eqn:Em; [|discriminate]. injection E as <-. apply mapo_Forall2 in Em.
  destruct (to_oper_cases (NOp k ns)) as [(v & n & En & Et)|[(v & n & En & Hnv & Et)|Et]]; rewrite Et in Eo; try discriminate; injection Eo as <- <-; injection En as -> ->.
  - inversion Em as [|a b us' ns' Ha Hr]; subst. inversion Hr as [|a' b' us'' ns'' Ha' Hr']; subst. inversion Hr'; subst.
    assert (a = TVar v). { destruct (Hpl a) as [P1 P2]; [now left|]. destruct a as [w| |w|c|kk ws|f u ds|ws]; simpl in Ha, P1, P2; try discriminate; [congruence|]. destruct (mapo norm_term ws); discriminate. }
    subst a. exists (LOp KEqual [TVar v; a']), a', n. split; auto. split; [left; reflexivity|]. split; [apply Hpl; simpl; auto|]. auto.
  - inversion Em as [|a b us' ns' Ha Hr]; subst. inversion Hr as [|a' b' us'' ns'' Ha' Hr']; subst. inversion Hr'; subst.
    assert (a' = TVar v). { destruct (Hpl a') as [P1 P2]; [simpl; auto|]. destruct a' as [w| |w|c|kk ws|f u ds|ws]; simpl in Ha', P1, P2; try discriminate; [congruence|]. destruct (mapo norm_term ws); discriminate. }
    subst a'. exists (LOp KEqual [a; TVar v]), a, n. split; auto. split.
    + right. split; [reflexivity|]. split; [intros w ->; simpl in Ha; injection Ha as <-; eapply Hnv; reflexivity|]. split; [intros w ->; simpl in Ha; injection Ha as <-; eapply Hnv; reflexivity|].
      intros ->. simpl in Ha. injection Ha as <-. eapply Hnv. reflexivity.
    + split; [apply Hpl; now left|auto].
Qed.

Lemma safe_bound v : safe r v -> bound nr v.
Proof.
  induction 1 as [p ts v Hl Ha|l v t Hl He Hna Hne Hv IH].
  - destruct (pos_atom p ts Hl) as (xs & Hx & (_ & _ & _ & Hin & _)). apply bound_pos. unfold atom_vars. apply in_flat_map. exists (p, xs). split; [exact Hx|apply Hin; exact Ha].
  - assert (Ho : exists o n, In o os /\ norm_term t = Some n /\ to_oper o = OEq v (to_expr n)).
    { destruct He as [->|(-> & N1 & N2 & N3)]; destruct (nm_lops r nr os Hn _ _ Hl) as (o & Eo & Ho).
      - destruct (g_body_op r Hgood _ t Hl) as [Hot _]; [simpl; auto|]. apply norm_term_op in Hot. destruct Hot as (n & En). exists o, n. simpl in Eo. rewrite En in Eo. simpl in Eo. injection Eo as <-. split; [exact Ho|]. split; [exact En|exact (to_oper_assign v n)].
      - destruct (g_body_op r Hgood _ t Hl) as [Hot _]; [simpl; auto|]. apply norm_term_op in Hot. destruct Hot as (n & En). exists o, n. simpl in Eo. rewrite En in Eo. simpl in Eo. injection Eo as <-. split; auto. split; auto.
        destruct n as [w|c|kk ns]; try reflexivity. exfalso. destruct t as [u| |u|c|kk ws|f u ds|ws]; simpl in En; try discriminate; try (now eapply N1); try (now eapply N2); try contradiction. destruct (mapo norm_term ws); discriminate. }
    destruct Ho as (o & n & Ho & En & Et). apply (bound_eq nr v (to_expr n)); [rewrite (nm_ops r nr os Hn), <- Et; now apply in_map|].
    intros w Hw. simpl in Hw. destruct (norm_term_spec t n En (conj Hna Hne)) as (_ & Q). apply Q in Hw. auto.
Qed.
Lemma equates_vars l x t v : In l (s_body r) -> equates l x t -> In v (uvars t) -> ~ generated v.
Proof. intros Hl He Hv. apply (body_user r Hwn l t v Hl); auto. destruct He as [->|(-> & _)]; simpl; auto. Qed.
Lemma bound_safe v : bound nr v -> ~ generated v -> safe r v.
Proof.
  induction 1 as [v Hv|v e Hv He IH]; intros Hg.
  - unfold atom_vars in Hv. apply in_flat_map in Hv. destruct Hv as ([p xs] & Hp & Hx). destruct (pos_atom' p xs Hp) as (ts & Hl & Hr).
    destruct (atom_var_in _ _ _ _ v Hr Hx) as [Hb|Ht]; [exfalso; apply Hg; now apply isb_gen|]. eapply safe_pos; eauto.
  - destruct (oeq_cases v e Hv) as [(l & t & n & Hl & Heq & [P1 P2] & En & ->)|[Hgen _]]; [|contradiction].
    apply (safe_eq r l v t); auto. intros w Hw. destruct (norm_term_spec t n En (conj P1 P2)) as (_ & Q). apply IH; [simpl; now apply Q|]. eapply equates_vars; eauto.
Qed.
Lemma bound_assign x : bound nr x -> generated x -> In x (atom_vars (r_pos nr)) \/ exists n, In (new_assignment x n) os /\ forall w, In w (nvs n) -> bound nr w.
Proof.
  intros [v Hv|v e Hv He] Hg; [now left|]. right.
  destruct (oeq_cases v e Hv) as [(l & t & n & Hl & Heq & _)|[_ (n & Ho & ->)]].
  - exfalso. destruct Heq as [->|(-> & _)]; apply (body_user r Hwn _ (TVar v) v Hl); simpl; auto.
  - exists n. split; auto.
Qed.
Lemma bound_intro x n : In (new_assignment x n) os -> (forall w, In w (nvs n) -> bound nr w) -> bound nr x.
Proof. intros Ho Hb. apply (bound_eq nr x (to_expr n)); auto. rewrite (nm_ops r nr os Hn), <- to_oper_assign. now apply in_map. Qed.
Lemma op_bound o : In o os -> (forall w, In w (nvs o) -> bound nr w) -> body_op nr (to_oper o).
Proof. intros Ho Hb. split; [rewrite (nm_ops r nr os Hn); now apply in_map|]. intros w Hw. apply Hb. now apply op_vars_to_oper. Qed.
Lemma assign_vars x n w : In w (nvs (new_assignment x n)) <-> w = x \/ In w (nvs n).
Proof. simpl. rewrite app_nil_r. intuition. Qed.
Lemma assign_op x n : In (new_assignment x n) os -> (forall w, In w (nvs n) -> bound nr w) -> body_op nr (to_oper (new_assignment x n)).
Proof. intros Ho Hb. apply op_bound; auto. intros w Hw. apply assign_vars in Hw. destruct Hw as [->|Hw]; auto. eapply bound_intro; eauto. Qed.
Lemma assign_holds nu x n : holds nu (to_oper (new_assignment x n)) <-> neval nu n = Some (nu x).
Proof. rewrite to_oper_assign. unfold holds. now rewrite eval_to_expr. Qed.

Lemma pos_not_agg x : In x (atom_vars (r_pos nr)) -> isb x = true \/ ~ generated x.
Proof.
  unfold atom_vars. intros Hv. apply in_flat_map in Hv. destruct Hv as ([p xs] & Hp & Hx). destruct (pos_atom' p xs Hp) as (ts & Hl & Hr).
  destruct (atom_var_in _ _ _ _ x Hr Hx) as [Hb|Ht]; auto. right. apply (body_user r Hwn (LPos p ts) (TVar x) x Hl); simpl; auto.
Qed.
Lemma neg_not_agg p xs x : In (p, xs) (r_neg nr) -> In x xs -> isb x = true \/ ~ generated x.
Proof.
  intros Hp Hx. destruct (neg_atom' p xs Hp) as (ts & Hl & Hr).
  destruct (atom_var_in _ _ _ _ x Hr Hx) as [Hb|Ht]; auto. right. apply (body_user r Hwn (LNeg p ts) (TVar x) x Hl); simpl; auto.
Qed.
Lemma out_unbound : ~ bound nr agg_out.
Proof.
  intros Hb. destruct (bound_assign _ Hb gen_out) as [Hp|(n & Ho & _)].
  - destruct (pos_not_agg _ Hp) as [?|Hg]; [discriminate|apply Hg, gen_out].
  - destruct (os_src _ _ gen_out Ho) as [(m & p & ts & xs & i & t & _ & _ & _ & _ & _ & Q & _)|[(m & p & ts & hs & i & t & sa & j & _ & _ & _ & _ & Q & _)|(m & p & ts & t & f & s & ds & _ & _ & _ & _ & _ & Q)]]; try discriminate.
    unfold agg_out, head_var in Q. lia.
Qed.

(** Variables of terms in body atoms. *)
Lemma atom_term_vars l t n v : In l (s_body r) -> (forall k us, l <> LOp k us) -> In t (literal_terms l) -> t <> TAnon -> norm_term t = Some n -> In v (nvs n) -> t = TVar v \/ safe r v.
Proof.
  intros Hl Hlo Ht Hna En Hv. destruct (norm_term_spec t n En (body_plain l t Hl Ht Hna)) as (_ & Q). apply Q in Hv.
  destruct t as [w| |w|c|k us|f u ds|us]; simpl in En, Hv; try discriminate; try tauto.
  - destruct Hv as [->|[]]. auto.
  - right. eapply (g_body_safe r Hgood l k us v Hl Ht). exact Hv.
Qed.

(** ** Negated atoms *)
Lemma neg_not_pos p xs x : In (p, xs) (r_neg nr) -> In x xs -> isb x = true -> ~ In x (atom_vars (r_pos nr)).
Proof.
  intros Hp Hx Hb Hin. pose proof (nm_uniq r nr os Hn) as Hu. rewrite filter_app in Hu.
  assert (Q1 : In x (filter isb (atom_vars (r_pos nr)))) by (apply filter_In; auto).
  assert (Q2 : In x (filter isb (atom_vars (r_neg nr)))) by (apply filter_In; split; auto; unfold atom_vars; apply in_flat_map; exists (p, xs); auto).
  clear - Hu Q1 Q2. induction (filter isb (atom_vars (r_pos nr))) as [|y l IH]; [destruct Q1|]. simpl in Hu. inversion Hu as [|? ? N1 N2]; subst.
  destruct Q1 as [->|Q1]; [apply N1; apply in_or_app; auto|auto].
Qed.
Lemma nvs_safe_bound l t n : In l (s_body r) -> (forall k us, l <> LOp k us) -> In t (literal_terms l) -> t <> TAnon -> norm_term t = Some n ->
  (exists v, t = TVar v /\ ~ safe r v) \/ forall w, In w (nvs n) -> safe r w.
Proof.
  intros Hl Hlo Ht Hna En. destruct t as [v| |v|c|k us|f u ds|us]; simpl in En; try discriminate; try contradiction.
  - destruct (safe_dec r v) as [Hs|Hs]; [right|left; eauto]. injection En as <-. intros w [<-|[]]; auto.
  - exfalso. destruct (g_body_op r Hgood l _ Hl Ht) as [_ Q]. discriminate.
  - injection En as <-. right. intros w [].
  - right. intros w Hw. destruct (atom_term_vars l (TOp k us) n w Hl Hlo Ht Hna En Hw) as [?|?]; [discriminate|auto].
Qed.
Lemma lop_vars k us o v : In (LOp k us) (s_body r) -> norm_term (TOp k us) = Some o -> (In v (op_vars (to_oper o)) <-> In v (flat_map uvars us)).
Proof.
  intros Hl E. rewrite op_vars_to_oper. destruct (norm_term_spec _ _ E (lop_plain k us Hl)) as (_ & Q). rewrite Q. reflexivity.
Qed.
Lemma lop_user k us v : In (LOp k us) (s_body r) -> In v (flat_map uvars us) -> ~ generated v.
Proof. intros Hl Hv. apply in_flat_map in Hv. destruct Hv as (t & Ht & Hv). apply (body_user r Hwn (LOp k us) t v Hl Ht Hv). Qed.
Lemma lop_holds k us o nu : In (LOp k us) (s_body r) -> norm_term (TOp k us) = Some o -> (holds nu (to_oper o) <-> eval nu None (TOp k us) = Some true_val).
Proof. intros Hl E. rewrite holds_to_oper. destruct (norm_term_spec _ _ E (lop_plain k us Hl)) as (Q & _). rewrite (Q nu None). reflexivity. Qed.
Lemma lop_safe k us o : In (LOp k us) (s_body r) -> norm_term (TOp k us) = Some o -> In o os -> (body_op nr (to_oper o) <-> safe_op r k us).
Proof.
  intros Hl E Ho. split.
  - intros [_ Hb]. split; auto. intros v Hv. apply bound_safe; [|eapply lop_user; eauto]. apply Hb. eapply lop_vars; eauto.
  - intros [_ Hs]. split; [rewrite (nm_ops r nr os Hn); now apply in_map|]. intros w Hw. apply safe_bound, Hs. eapply lop_vars; eauto.
Qed.

Section Neg.
Context (p : tag) (ts : list term) (xs : list var) (m : nat).
Context (Hsrc : nth_error (body_negative r) m = Some (p, ts)) (Hatom : nth_error (r_neg nr) m = Some (p, xs)).
Context (nu : var -> Z) (Hops : forall o, body_op nr o -> holds nu o) (M : interp).

Lemma neg_lit : In (LNeg p ts) (s_body r).
Proof. apply in_negative_lit. eapply nth_error_In; eauto. Qed.
Lemma neg_in : In (p, xs) (r_neg nr).
Proof. eapply nth_error_In; eauto. Qed.
Lemma neg_rel : NoDup xs /\ Forall2 (slot os) ts xs /\ (forall v, In (TVar v) ts -> In v xs).
Proof.
  destruct (Forall2_nth _ _ _ (nm_neg r nr os Hn) m _ Hsrc) as (b & Hb & Hr). rewrite Hatom in Hb. injection Hb as <-. destruct Hr as (_ & H1 & H2 & H3 & _). auto.
Qed.

Lemma neg_forward : neg_match nr M nu p xs -> negated r M nu p ts.
Proof.
  intros (nu' & Hag & HM & Hneg). destruct neg_rel as (Hnd & Hslots & Hin). exists nu'. split; [|split].
  - intros v Hv. apply Hag. now apply safe_bound.
  - exists (map nu' xs). split; auto. apply Forall2_of_nth; [rewrite map_length; eapply Forall2_length'; eauto|]. intros i t z Ht Hz.
    destruct (Forall2_nth _ _ _ Hslots i t Ht) as (x & Hx & Hs). rewrite nth_error_map, Hx in Hz. simpl in Hz. injection Hz as <-.
    assert (Htin : In t ts) by (eapply nth_error_In; eauto). assert (Hxin : In x xs) by (eapply nth_error_In; eauto).
    destruct Hs as [->|[[-> _]|(Hna & Hb & n & En & Ho)]]; [right; reflexivity|left; reflexivity|]. right.
    pose proof (body_plain (LNeg p ts) t neg_lit Htin Hna) as Hpl. destruct (norm_term_spec t n En Hpl) as (Hev & Hnv). rewrite <- (Hev nu' None).
    destruct (nvs_safe_bound (LNeg p ts) t n neg_lit) as [(v & -> & Hv)|Hsafe]; auto; [discriminate| |].
    + apply assign_holds. apply Hneg. split; [rewrite (nm_ops r nr os Hn); now apply in_map|]. simpl in En. injection En as <-. split.
      * intros [_ Q]. apply Hv. apply bound_safe; [apply Q, op_vars_to_oper; simpl; auto|]. apply (body_user r Hwn (LNeg p ts) (TVar v) v neg_lit); simpl; auto.
      * intros w Hw. right. apply op_vars_to_oper in Hw. simpl in Hw. destruct Hw as [<-|[<-|[]]]; auto.
    + assert (Hb' : forall w, In w (nvs n) -> bound nr w) by (intros w Hw; apply safe_bound; auto).
      rewrite (neval_ext n nu' nu) by (intros w Hw; auto). rewrite (Hag x) by (eapply bound_intro; eauto). apply assign_holds. apply Hops. now apply assign_op.
  - intros k us (Hl & Hns & Hv). destruct (nm_lops r nr os Hn k us Hl) as (o & E & Ho). apply (lop_holds k us o nu' Hl E). apply Hneg.
    split; [rewrite (nm_ops r nr os Hn); now apply in_map|]. split; [intros Hb; apply Hns; now apply (lop_safe k us o)|].
    intros w Hw. apply (lop_vars k us o w Hl E) in Hw. destruct (Hv w Hw) as [Hs|Ha]; [left; now apply safe_bound|right; auto].
Qed.

Lemma neg_backward : negated r M nu p ts -> neg_match nr M nu p xs.
Proof.
  intros (nu' & Hag & (row & HM & Hrow) & Hneg). destruct neg_rel as (Hnd & Hslots & Hin).
  assert (Hlen : length row = length xs) by (rewrite <- (Forall2_length' _ _ _ Hrow); eapply Forall2_length'; eauto).
  set (nu3 := fun v => if memv v xs then val_of xs row v else if gen_dec v then nu v else nu' v).
  assert (Hpos : forall i t x, nth_error ts i = Some t -> nth_error xs i = Some x -> exists z, nth_error row i = Some z /\ tmatch nu' t z /\ nu3 x = z).
  { intros i t x Ht Hx. destruct (Forall2_nth _ _ _ Hrow i t Ht) as (z & Hz & Hm). exists z. split; auto. split; auto. unfold nu3.
    destruct (memv x xs) eqn:Em; [eapply val_of_nth; eauto|]. apply memv_false in Em. exfalso. apply Em. eapply nth_error_In; eauto. }
  assert (Huser : forall v, ~ generated v -> nu3 v = nu' v).
  { intros v Hg. unfold nu3. destruct (memv v xs) eqn:Em; [|destruct (gen_dec v); [contradiction|reflexivity]]. apply memv_in in Em.
    apply In_nth_error in Em. destruct Em as (i & Hi). destruct (Forall2_nth' _ _ _ Hslots i v Hi) as (t & Ht & Hs).
    destruct Hs as [->|[[_ Hb]|(_ & Hb & _)]]; [|exfalso; apply Hg; now apply isb_gen|exfalso; apply Hg; now apply isb_gen].
    destruct (Hpos i _ v Ht Hi) as (z & Hz & Hm & _). rewrite (val_of_nth xs row i v z Hnd Hi Hz). destruct Hm as [?|Hm]; [discriminate|]. simpl in Hm. congruence. }
  assert (Hbound : forall v, bound nr v -> nu3 v = nu v).
  { intros v Hb. destruct (gen_dec v) as [Hg|Hg]; [|rewrite Huser by auto; apply Hag; now apply bound_safe].
    destruct (memv v xs) eqn:Em; [|unfold nu3; rewrite Em; destruct (gen_dec v); [reflexivity|contradiction]]. apply memv_in in Em.
    assert (Hib : isb v = true) by (destruct (neg_not_agg p xs v neg_in Em); [auto|contradiction]).
    destruct (bound_assign v Hb Hg) as [Hp|(n & Ho & Hnb)]; [exfalso; eapply neg_not_pos; eauto using neg_in|].
    apply In_nth_error in Em. destruct Em as (i & Hi). destruct (Forall2_nth' _ _ _ Hslots i v Hi) as (t & Ht & Hs).
    (* the term at this position is the source of the assignment *)
    destruct (os_src v n Hg Ho) as [(m' & p' & ts' & xs' & i' & t' & H1 & H2 & H3 & H4 & H5 & H6 & H7)|[(m' & p' & ts' & hs & i' & t' & sa & j & _ & _ & _ & _ & Q & _)|(m' & p' & ts' & t' & f & s & ds & _ & _ & _ & _ & _ & Q)]].
    2: { rewrite Q in Hib. rewrite isb_head in Hib. discriminate. } 2: { rewrite Q in Hib. discriminate. }
    assert (m' = length (r_pos nr) + m). { eapply (flat_uniq isb snd all_atoms m' _ _ (p, xs) v all_uniq H2); [now apply all_neg| | |auto]; simpl; eapply nth_error_In; eauto. }
    subst m'. rewrite (all_neg _ _ Hatom) in H2. injection H2 as <- <-. rewrite (all_neg_src _ _ Hsrc) in H1. injection H1 as <-.
    assert (i' = i) by (eapply nodup_nth; eauto). subst i'. rewrite Ht in H3. injection H3 as <-.
    destruct (Hpos i t v Ht Hi) as (z & Hz & Hm & ->). destruct Hm as [?|Hm]; [contradiction|].
    pose proof (body_plain (LNeg p ts) t neg_lit (nth_error_In _ _ Ht) H7) as Hpl. destruct (norm_term_spec t n H5 Hpl) as (Hev & Hnv).
    assert (Hh : neval nu n = Some (nu v)) by (apply assign_holds, Hops; now apply assign_op).
    rewrite <- (Hev nu' None) in Hm. rewrite (neval_ext n nu' nu) in Hm; [congruence|]. intros w Hw. apply Hag. apply bound_safe; auto.
    apply (body_user r Hwn (LNeg p ts) t w neg_lit); [eapply nth_error_In; eauto|now apply Hnv]. }
  exists nu3. split; auto. split.
  - replace (map nu3 xs) with row; auto. rewrite <- (val_of_map xs row Hnd Hlen) at 1. apply map_ext_in. intros v Hv. unfold nu3. apply memv_in in Hv. now rewrite Hv.
  - intros o (Ho & Hnb & Hv). rewrite (nm_ops r nr os Hn) in Ho. apply in_map_iff in Ho. destruct Ho as (o' & <- & Ho).
    (* assignments to generated variables whose variables are bound are not under the negation *)
    assert (Hgen : forall x n, generated x -> In (new_assignment x n) os -> o' = new_assignment x n -> ~ In x xs -> False).
    { intros x n Hg Hx -> Hnx. apply Hnb. destruct (Hv x) as [Hb|?]; [apply op_vars_to_oper, assign_vars; auto| |contradiction].
      destruct (bound_assign x Hb Hg) as [Hp|(n' & Ho' & Hnb')].
      - apply op_bound; auto. intros w Hw. apply assign_vars in Hw. destruct Hw as [->|Hw]; auto.
        destruct (os_src x n Hg Hx) as [(m' & p' & ts' & xs' & i' & t' & H1 & H2 & H3 & H4 & H5 & H6 & H7)|[(m' & p' & ts' & hs & i' & t' & sa & j & _ & _ & _ & _ & Q & _)|(m' & p' & ts' & t' & f & s & ds & _ & _ & _ & _ & _ & Q)]].
        + assert (Hm' : exists m0 q ys, m' = m0 /\ nth_error (r_pos nr) m0 = Some (q, ys) /\ In x ys).
          { unfold atom_vars in Hp. apply in_flat_map in Hp. destruct Hp as ([q ys] & Hq & Hx'). apply In_nth_error in Hq. destruct Hq as (m0 & Hm0). exists m0, q, ys. split; auto.
            eapply (flat_uniq isb snd all_atoms m' m0 _ (q, ys) x all_uniq H2); [now apply all_pos| | |auto]; simpl; auto. eapply nth_error_In; eauto. }
          destruct Hm' as (m0 & q & ys & -> & Hm0 & Hxy). rewrite (all_pos _ _ Hm0) in H2. injection H2 as <- <-.
          assert (Hsrc0 : nth_error (body_positive r) m0 = Some (q, ts')).
          { unfold all_src in H1. rewrite nth_error_app1 in H1; auto. rewrite len_pos. apply nth_error_Some. congruence. }
          assert (Hlit : In (LPos q ts') (s_body r)) by (apply in_positive_lit; eapply nth_error_In; eauto).
          destruct (atom_term_vars (LPos q ts') t' n w Hlit) as [->|Hs]; auto; [discriminate|eapply nth_error_In; eauto| |now apply safe_bound].
          apply safe_bound. eapply safe_pos; eauto. eapply nth_error_In; eauto.
        + exfalso. rewrite Q in Hp. destruct (pos_not_agg _ Hp) as [Hib|Hu]; [rewrite isb_head in Hib; discriminate|apply Hu, gen_head].
        + exfalso. rewrite Q in Hp. destruct (pos_not_agg _ Hp) as [Hib|Hu]; [discriminate|apply Hu, gen_in].
      - rewrite (assign_unique x n n' Hg Hx Ho'). apply assign_op; auto. }
    destruct (nm_cases r nr os Hn _ Ho) as [(k & us & Hl & E)|[(m' & p' & ts' & xs' & i & t & x & n & H1 & H2 & H3 & H4 & E & H5 & H6 & H7)|[(m' & p' & ts' & xs' & i & t & x & n & H1 & H2 & H3 & H4 & E & H5 & H6 & H7)|(m' & p' & ts' & hs & H1 & H2 & [(i & t & n & sa & j & Q1 & Q2 & Q3 & Q4 & E)|(t & f & s & ds & n & Q1 & Q2 & Q3 & Q4 & E)])]]].
    + rewrite (lop_holds k us o' nu3 Hl E). rewrite (eval_ext (TOp k us)) with (nu' := nu').
      * apply Hneg. split; auto. split; [intros Hs; apply Hnb; now apply (lop_safe k us o')|]. intros v Hw. assert (Hg : ~ generated v) by (eapply lop_user; eauto).
        destruct (Hv v) as [Hb|Hx]; [eapply lop_vars; eauto|left; now apply bound_safe|]. right.
        destruct (atom_var_in p ts p xs v) as [Hb|?]; auto; [|exfalso; apply Hg; now apply isb_gen].
        destruct (Forall2_nth _ _ _ (nm_neg r nr os Hn) m _ Hsrc) as (b & Hb & Hr). rewrite Hatom in Hb. injection Hb as <-. exact Hr.
      * apply (lop_plain k us Hl).
      * intros v Hw. apply Huser. eapply lop_user; eauto. apply (outer_uvars (TOp k us)) in Hw. exact Hw.
    + exfalso. subst o'. assert (Hg : generated x) by now apply isb_gen. apply (Hgen x n Hg Ho eq_refl). intros Hx. apply (neg_not_pos p xs x neg_in Hx H6).
      unfold atom_vars. apply in_flat_map. exists (p', xs'). split; eapply nth_error_In; eauto.
    + subst o'. assert (Hg : generated x) by now apply isb_gen. assert (Hlit : In (LNeg p' ts') (s_body r)) by (apply in_negative_lit; eapply nth_error_In; eauto).
      destruct (nvs_safe_bound (LNeg p' ts') t n Hlit) as [(v & -> & Hvs)|Hsafe]; auto; [discriminate|simpl; eapply nth_error_In; eauto| |].
      * destruct (in_dec Nat.eq_dec x xs) as [Hx|Hx]; [|exfalso; eapply Hgen; eauto].
        assert (m' = m). { assert (length (r_pos nr) + m' = length (r_pos nr) + m); [|lia]. eapply (flat_uniq isb snd all_atoms _ _ (p', xs') (p, xs) x all_uniq); try now apply all_neg. - simpl. eapply nth_error_In; eauto. - exact Hx. - auto. }
        subst m'. rewrite Hsrc in H1. injection H1 as <- <-. rewrite Hatom in H2. injection H2 as <-.
        apply assign_holds. destruct (Hpos i _ x H3 H4) as (z & Hz & Hm & ->). destruct Hm as [?|Hm]; [discriminate|]. simpl in H5. injection H5 as <-. simpl in *. rewrite Huser; auto.
        apply (body_user r Hwn (LNeg p ts) (TVar v) v neg_lit); simpl; auto. eapply nth_error_In; eauto.
      * exfalso. apply Hnb. apply assign_op; auto. intros w Hw. apply safe_bound. auto.
    + exfalso. subst o'. apply (Hgen (head_var j) n (gen_head j) Ho eq_refl). intros Hx. destruct (neg_not_agg p xs _ neg_in Hx) as [Hib|Hu]; [rewrite isb_head in Hib; discriminate|apply Hu, gen_head].
    + exfalso. subst o'. apply (Hgen agg_in n gen_in Ho eq_refl). intros Hx. destruct (neg_not_agg p xs _ neg_in Hx) as [Hib|Hu]; [discriminate|apply Hu, gen_in].
Qed.
End Neg.

(** ** Matches *)
Lemma neg_pair p ts : In (LNeg p ts) (s_body r) -> exists m xs, nth_error (body_negative r) m = Some (p, ts) /\ nth_error (r_neg nr) m = Some (p, xs).
Proof.
  intros Hl. apply in_negative_lit in Hl. apply In_nth_error in Hl. destruct Hl as (m & Hm). destruct (Forall2_nth _ _ _ (nm_neg r nr os Hn) m _ Hm) as ([q xs] & Hq & Hr).
  pose proof (proj1 Hr) as E. simpl in E. subst q. eauto.
Qed.
Lemma neg_pair' p xs : In (p, xs) (r_neg nr) -> exists m ts, nth_error (body_negative r) m = Some (p, ts) /\ nth_error (r_neg nr) m = Some (p, xs).
Proof.
  intros Hl. apply In_nth_error in Hl. destruct Hl as (m & Hm). destruct (Forall2_nth' _ _ _ (nm_neg r nr os Hn) m _ Hm) as ([q ts] & Hq & Hr).
  pose proof (proj1 Hr) as E. simpl in E. subst q. eauto.
Qed.
Lemma head_pair p ts : In (p, ts) (s_head r) -> exists m hs, nth_error (s_head r) m = Some (p, ts) /\ nth_error (r_head nr) m = Some (p, hs) /\ Forall2 (hslot os) ts hs.
Proof.
  intros Hl. apply In_nth_error in Hl. destruct Hl as (m & Hm). destruct (Forall2_nth _ _ _ (nm_head r nr os Hn) m _ Hm) as ([q hs] & Hq & E & Hr). simpl in E, Hr. subst q. eauto.
Qed.
Lemma head_pair' m p hs : nth_error (r_head nr) m = Some (p, hs) -> exists ts, nth_error (s_head r) m = Some (p, ts) /\ Forall2 (hslot os) ts hs.
Proof.
  intros Hm. destruct (Forall2_nth' _ _ _ (nm_head r nr os Hn) m _ Hm) as ([q ts] & Hq & E & Hr). simpl in E, Hr. subst q. eauto.
Qed.
Lemma head_op_plain p ts k us : In (p, ts) (s_head r) -> In (TOp k us) ts -> plain_term (TOp k us).
Proof. intros Hp Ht. split; [eapply (g_head_anon r Hgood); eauto|eapply (su_ex r Hsup); eauto]. Qed.
Lemma head_op_bound p ts k us n sa : In (p, ts) (s_head r) -> In (TOp k us) ts -> ~ aggregating (TOp k us) -> norm_hterm (TOp k us) = Some (n, sa) ->
  (forall w, In w (nvs n) -> bound nr w) /\ forall nu ag, neval nu n = eval nu ag (TOp k us).
Proof.
  intros Hp Ht Hna En. destruct (norm_hterm_spec _ _ _ En (head_op_plain p ts k us Hp Ht)) as (Hev & Hnv & _). split.
  - intros w Hw. apply Hnv in Hw. destruct Hw as [Hw|[_ ?]]; [|contradiction]. apply safe_bound. apply (g_head_vars r Hgood p ts (TOp k us) w Hp Ht). now apply outer_uvars.
  - intros nu ag. rewrite Hev. now apply eval_no_agg.
Qed.
(** The aggregate of the rule. *)
Lemma the_aggregate m p ts i t f s ds : nth_error (s_head r) m = Some (p, ts) -> nth_error ts i = Some t -> aggregates f s ds t ->
  exists hs a, r_agg nr = Some (a, m) /\ nth_error (r_head nr) m = Some (p, hs) /\ Forall2 (hslot os) ts hs /\
    ag_out a = agg_out /\ ag_distinct a = ds /\ ag_val a = f /\ NoDup (ag_group a) /\
    ((exists v, s = TVar v /\ ag_in a = v) \/ (ag_in a = agg_in /\ (forall v, s <> TVar v) /\ exists n, norm_term s = Some n /\ In (new_assignment agg_in n) os)) /\
    forall v, In v (ag_group a) <-> (In v (outer_vars t) /\ v <> agg_out) \/ exists i' h, i' <> i /\ nth_error hs i' = Some h /\ In v (hterm_vars h).
Proof.
  intros Hm Ht Ha. assert (Hp : In (p, ts) (s_head r)) by (eapply nth_error_In; eauto).
  destruct (nm_agg r nr os Hn) as [[_ Hno]|(m' & p' & ts' & hs & a & Ea & H1 & H2 & (f' & s' & ds' & i' & t' & H3 & H4 & H5 & H6 & H7 & H8 & H9 & H10))].
  - exfalso. apply (Hno p ts Hp). exists t. split; [eapply nth_error_In; eauto|]. exists f, s, ds. auto.
  - destruct (agg_unique _ _ _ _ _ _ _ _ _ _ _ _ _ _ _ _ H1 H3 H4 Hm Ht Ha) as (-> & -> & -> & -> & -> & -> & -> & ->).
    destruct (Forall2_nth _ _ _ (nm_head r nr os Hn) m' _ H1) as ([q hs'] & Hq & _ & Hr). rewrite H2 in Hq. injection Hq as <- <-. simpl in Hr.
    exists hs, a. repeat (split; [assumption|]). split; [|exact H10].
    destruct H9 as [(v & Hv & Hi)|(Q1 & Q2 & Q3)]; [|right; auto]. left. exists v. split; auto. destruct Hv as [Hv|[Hv|[Hv _]]]; auto; exfalso.
    + destruct (head_agg_plain p' ts' t' f' s' ds' Hp (nth_error_In _ _ Ht) Ha) as (_ & [_ Q] & _). rewrite Hv in Q. discriminate.
    + destruct (head_agg_plain p' ts' t' f' s' ds' Hp (nth_error_In _ _ Ht) Ha) as (_ & [Q _] & _). rewrite Hv in Q. discriminate.
Qed.
Lemma agg_input_bound p ts t f s ds n : In (p, ts) (s_head r) -> In t ts -> aggregates f s ds t -> norm_term s = Some n -> forall w, In w (nvs n) -> bound nr w.
Proof.
  intros Hp Ht Ha En w Hw. destruct (head_agg_plain p ts t f s ds Hp Ht Ha) as (_ & Hpl & Hs & _). apply safe_bound, Hs. now apply (norm_term_spec s n En Hpl).
Qed.

Theorem matches_src (I M : interp) nu : matches nr I M nu -> src_matches r I M nu.
Proof.
  intros [Hpos Hops Hneg]. constructor.
  - intros p ts Hl. destruct (pos_atom p ts Hl) as (xs & Hx & (_ & Hnd & Hslots & Hin & _)). simpl in Hnd, Hslots, Hin. exists (map nu xs). split; auto.
    apply Forall2_of_nth; [rewrite map_length; eapply Forall2_length'; eauto|]. intros i t z Ht Hz.
    destruct (Forall2_nth _ _ _ Hslots i t Ht) as (x & Hxi & Hs). rewrite nth_error_map, Hxi in Hz. simpl in Hz. injection Hz as <-.
    destruct Hs as [->|[[-> _]|(Hna & Hb & n & En & Ho)]]; [right; reflexivity|left; reflexivity|]. right.
    assert (Htin : In t ts) by (eapply nth_error_In; eauto).
    destruct (norm_term_spec t n En (body_plain (LPos p ts) t Hl Htin Hna)) as (Hev & _). rewrite <- (Hev nu None). apply assign_holds, Hops. apply assign_op; auto.
    intros w Hw. apply safe_bound. destruct (atom_term_vars (LPos p ts) t n w Hl) as [->|Hs]; auto; [discriminate|]. eapply safe_pos; eauto.
  - intros k us Hs. pose proof (proj1 Hs) as Hl. destruct (nm_lops r nr os Hn k us Hl) as (o & E & Ho). apply (lop_holds k us o nu Hl E). apply Hops. now apply (lop_safe k us o).
  - intros p ts Hl Hc. destruct (neg_pair p ts Hl) as (m & xs & H1 & H2). apply (Hneg p xs); [eapply nth_error_In; eauto|]. eapply neg_backward; eauto.
  - intros t Hc. destruct Hc as [p ts k us Hl Ht|p ts k us Hp Ht Hna|p ts t f s ds Hp Ht Ha].
    + destruct (neg_atom p ts Hl) as (xs & Hx & (_ & Hnd & Hslots & Hin & _)). simpl in Hslots. apply In_nth_error in Ht. destruct Ht as (i & Ht).
      destruct (Forall2_nth _ _ _ Hslots i _ Ht) as (x & Hxi & Hs). destruct Hs as [?|[[? _]|(Hna & Hb & n & En & Ho)]]; try discriminate.
      apply nth_error_In in Ht. destruct (norm_term_spec _ n En (body_plain (LNeg p ts) _ Hl Ht Hna)) as (Hev & _). rewrite <- (Hev nu None).
      exists (nu x). apply assign_holds, Hops. apply assign_op; auto. intros w Hw. apply safe_bound. destruct (atom_term_vars (LNeg p ts) (TOp k us) n w Hl) as [?|Hs]; [intros; discriminate|exact Ht|discriminate|exact En|exact Hw|discriminate|exact Hs].
    + destruct (head_pair p ts Hp) as (m & hs & _ & _ & Hslots). pose proof Ht as Htin. apply In_nth_error in Ht. destruct Ht as (i & Ht).
      destruct (Forall2_nth _ _ _ Hslots i _ Ht) as (h & Hh & (j & n & sa & -> & En & Ho)). destruct (head_op_bound p ts k us n sa Hp Htin Hna En) as [Hb Hev].
      rewrite <- (Hev nu None). exists (nu (head_var j)). apply assign_holds, Hops. now apply assign_op.
    + destruct (head_agg_plain p ts t f s ds Hp Ht Ha) as (Hop & Hpl & Hs & _). pose proof Ht as Htin. apply In_nth_error in Ht. destruct Ht as (i & Ht). destruct (head_pair p ts Hp) as (m & hs & Hm & _ & _).
      destruct (the_aggregate m p ts i t f s ds Hm Ht Ha) as (hs' & a & _ & _ & _ & _ & _ & _ & _ & [(v & -> & _)|(_ & _ & n & En & Ho)] & _); [simpl; eauto|].
      destruct (norm_term_spec s n En Hpl) as (Hev & _). rewrite <- (Hev nu None). exists (nu agg_in). apply assign_holds, Hops. apply assign_op; auto. eapply agg_input_bound; eauto.
Qed.

(** Values for the generated variables of positive atoms. *)
Lemma pos_ext (I : interp) nu : forall (l : list (tag * list term)) (l' : list atom), Forall2 (atom_rel os) l l' -> NoDup (filter isb (atom_vars l')) ->
  (forall p ts, In (p, ts) l -> has I nu p ts) -> (forall p ts v, In (p, ts) l -> In (TVar v) ts -> isb v = false) ->
  exists nu1, (forall v, isb v = false -> nu1 v = nu v) /\ (forall v, ~ In v (atom_vars l') -> nu1 v = nu v) /\
    (forall p xs, In (p, xs) l' -> I p (map nu1 xs)) /\
    forall m p ts xs i t x, nth_error l m = Some (p, ts) -> nth_error l' m = Some (p, xs) -> nth_error ts i = Some t -> nth_error xs i = Some x -> tmatch nu t (nu1 x).
Proof.
  intros l l' HF. induction HF as [|[p ts] [q xs] l l' Hr HF IH]; intros Hnd Hh Hu.
  - exists nu. split; auto. split; auto. split; [intros p xs []|]. intros m p ts xs i t x Hm. destruct m; discriminate.
  - simpl in Hnd. rewrite filter_app in Hnd. destruct IH as (nu1 & U1 & U2 & U3 & U4).
    { clear - Hnd. induction (filter isb xs); simpl in Hnd; auto. inversion Hnd; auto. }
    { intros p' ts' H. apply Hh. now right. } { intros p' ts' v H Hv. apply (Hu p' ts' v); [now right|auto]. }
    destruct Hr as (E & Hx & Hslots & Hin & Hgen). simpl in E, Hx, Hslots, Hin, Hgen. subst q.
    destruct (Hh p ts) as (row & HI & Hrow); [now left|].
    assert (Hlen : length row = length xs) by (rewrite <- (Forall2_length' _ _ _ Hrow); eapply Forall2_length'; eauto).
    assert (Hdis : forall v, In v xs -> isb v = true -> ~ In v (atom_vars l')).
    { intros v Hv Hb Hv'. clear - Hnd Hv Hb Hv'. assert (Q1 : In v (filter isb xs)) by (apply filter_In; auto). assert (Q2 : In v (filter isb (atom_vars l'))) by (apply filter_In; auto).
      induction (filter isb xs) as [|y l IHl]; [destruct Q1|]. simpl in Hnd. inversion Hnd as [|? ? N1 N2]; subst. destruct Q1 as [->|Q1]; [apply N1; apply in_or_app; auto|auto]. }
    set (nu2 := fun v => if isb v && memv v xs then val_of xs row v else nu1 v).
    assert (Hrow_x : forall i x z, nth_error xs i = Some x -> nth_error row i = Some z -> nu2 x = z).
    { intros i x z Hxi Hz. unfold nu2. assert (Hm : memv x xs = true) by (apply memv_in; eapply nth_error_In; eauto). rewrite Hm. destruct (isb x) eqn:Hb; simpl; [eapply val_of_nth; eauto|].
      destruct (Forall2_nth' _ _ _ Hslots i x Hxi) as (t & Ht & Hs). destruct Hs as [->|[[_ ?]|(_ & ? & _)]]; try congruence.
      destruct (Forall2_nth _ _ _ Hrow i _ Ht) as (z' & Hz' & [?|Hm']); [discriminate|]. simpl in Hm'. rewrite U1 by auto. congruence. }
    assert (Hold : forall v, In v (atom_vars l') -> nu2 v = nu1 v).
    { intros v Hv. unfold nu2. destruct (isb v) eqn:Hb; simpl; auto. destruct (memv v xs) eqn:Hm; auto. apply memv_in in Hm. exfalso. eapply Hdis; eauto. }
    exists nu2. split; [|split; [|split]].
    + intros v Hb. unfold nu2. rewrite Hb. simpl. auto.
    + intros v Hv. simpl in Hv. rewrite in_app_iff in Hv. unfold nu2. destruct (memv v xs) eqn:Hm; [apply memv_in in Hm; tauto|]. rewrite andb_false_r. apply U2. tauto.
    + intros p' xs' [E|Hp].
      * injection E as <- <-. replace (map nu2 xs) with row; auto. apply nth_error_ext_len; [rewrite map_length; auto|]. intros i z z' Hz Hz'. rewrite nth_error_map in Hz'. destruct (nth_error xs i) as [x|] eqn:Hxi; [|discriminate]. simpl in Hz'. injection Hz' as <-. symmetry. eapply Hrow_x; eauto.
      * replace (map nu2 xs') with (map nu1 xs'); auto. apply map_ext_in. intros v Hv. symmetry. apply Hold. unfold atom_vars. apply in_flat_map. exists (p', xs'). auto.
    + intros [|m] p' ts' xs' i t x Hm Hm' Ht Hxi; simpl in Hm, Hm'.
      * injection Hm as <- <-. injection Hm' as <-. destruct (Forall2_nth _ _ _ Hrow i t Ht) as (z & Hz & Hmt). rewrite (Hrow_x i x z Hxi Hz). auto.
      * rewrite Hold; [eapply U4; eauto|]. unfold atom_vars. apply in_flat_map. exists (p', xs'). split; eapply nth_error_In; eauto.
Qed.

Fixpoint lookup (x : var) (l : list nop) : option nop :=
  match l with
  | [] => None
  | NOp KEqual [NVar y; n] :: rest => if y =? x then Some n else lookup x rest
  | _ :: rest => lookup x rest
  end.
Lemma lookup_in x l n : lookup x l = Some n -> In (new_assignment x n) l.
Proof.
  induction l as [|o l IH]; simpl; [discriminate|]. destruct o as [v|c|[|g] ns]; auto. destruct ns as [|a [|b [|c ns]]]; auto; destruct a as [v|c0|kk ns0]; auto.
  destruct (Nat.eqb_spec v x) as [->|_]; auto. intros E. injection E as <-. now left.
Qed.
Lemma lookup_some x l n : In (new_assignment x n) l -> exists n', lookup x l = Some n'.
Proof.
  induction l as [|o l IH]; intros H; [destruct H|]. destruct H as [->|H].
  - simpl. rewrite Nat.eqb_refl. eauto.
  - simpl. destruct o as [v|c|[|g] ns]; auto. destruct ns as [|a [|b [|c ns]]]; auto; destruct a as [v|c0|kk ns0]; auto. destruct (v =? x); eauto.
Qed.

Lemma negated_ext (M : interp) nu nu2 p ts : (forall v, ~ generated v -> nu2 v = nu v) -> negated r M nu2 p ts -> negated r M nu p ts.
Proof. intros H (nu' & H1 & H2 & H3). exists nu'. split; auto. intros v Hv. rewrite H1 by auto. apply H. now apply safe_user. Qed.

Theorem src_matches_norm (I M : interp) nu : src_matches r I M nu -> exists nu2, (forall v, ~ generated v -> nu2 v = nu v) /\ matches nr I M nu2.
Proof.
  intros [Hpos Hops Hneg Hdef].
  destruct (pos_ext I nu _ _ (nm_pos r nr os Hn)) as (nu1 & U1 & U2 & U3 & U4).
  { pose proof (nm_uniq r nr os Hn) as Hu. rewrite filter_app in Hu. clear - Hu. induction (filter isb (atom_vars (r_pos nr))) as [|y l IH]; [constructor|]. simpl in Hu. inversion Hu as [|? ? N1 N2]; subst. constructor; auto. intros H. apply N1. apply in_or_app. auto. }
  { intros p ts Hp. apply Hpos. now apply in_positive_lit. }
  { intros p ts v Hp Hv. apply in_positive_lit in Hp. apply isb_user_false. apply (body_user r Hwn (LPos p ts) (TVar v) v Hp); simpl; auto. }
  set (nu2 := fun v => if memv v (atom_vars (r_pos nr)) then nu1 v else if gen_dec v then match lookup v os with Some n => match neval nu n with Some z => z | None => 0%Z end | None => 0%Z end else nu v).
  assert (Huser : forall v, ~ generated v -> nu2 v = nu v).
  { intros v Hg. unfold nu2. destruct (memv v _); [apply U1; now apply isb_user_false|]. destruct (gen_dec v); [contradiction|auto]. }
  assert (Hpos2 : forall v, In v (atom_vars (r_pos nr)) -> nu2 v = nu1 v) by (intros v Hv; unfold nu2; apply memv_in in Hv; now rewrite Hv).
  assert (Hasg : forall x n z, generated x -> ~ In x (atom_vars (r_pos nr)) -> In (new_assignment x n) os -> neval nu n = Some z -> (forall w, In w (nvs n) -> ~ generated w) -> holds nu2 (to_oper (new_assignment x n))).
  { intros x n z Hg Hnp Ho Hz Hu. apply assign_holds. rewrite (neval_ext n nu2 nu) by auto. rewrite Hz. f_equal. unfold nu2. apply memv_false in Hnp. rewrite Hnp. destruct (gen_dec x); [|contradiction].
    destruct (lookup_some x os n Ho) as (n' & El). rewrite El. apply lookup_in in El. rewrite <- (assign_unique x n n' Hg Ho El). now rewrite Hz. }
  assert (Hbody : forall o, body_op nr o -> holds nu2 o).
  { intros o [Ho Hb]. rewrite (nm_ops r nr os Hn) in Ho. apply in_map_iff in Ho. destruct Ho as (o' & <- & Ho).
    destruct (nm_cases r nr os Hn _ Ho) as [(k & us & Hl & E)|[(m & p & ts & xs & i & t & x & n & H1 & H2 & H3 & H4 & E & H5 & H6 & H7)|[(m & p & ts & xs & i & t & x & n & H1 & H2 & H3 & H4 & E & H5 & H6 & H7)|(m & p & ts & hs & H1 & H2 & [(i & t & n & sa & j & Q1 & Q2 & Q3 & Q4 & E)|(t & f & s & ds & n & Q1 & Q2 & Q3 & Q4 & E)])]]].
    - rewrite (lop_holds k us o' nu2 Hl E). rewrite (eval_ext (TOp k us)) with (nu' := nu).
      + apply Hops. apply (lop_safe k us o' Hl E Ho). split; auto. rewrite (nm_ops r nr os Hn). now apply in_map.
      + apply (lop_plain k us Hl).
      + intros v Hw. apply Huser. eapply lop_user; eauto. apply (outer_uvars (TOp k us)) in Hw. exact Hw.
    - subst o'. apply assign_holds. assert (Hl : In (LPos p ts) (s_body r)) by (apply in_positive_lit; eapply nth_error_In; eauto).
      assert (Hx : In x (atom_vars (r_pos nr))) by (unfold atom_vars; apply in_flat_map; exists (p, xs); split; eapply nth_error_In; eauto).
      rewrite (Hpos2 x Hx). destruct (U4 m p ts xs i t x H1 H2 H3 H4) as [?|Hm]; [contradiction|].
      pose proof (nth_error_In _ _ H3) as Htin. destruct (norm_term_spec t n H5 (body_plain (LPos p ts) t Hl Htin H7)) as (Hev & Hnv). rewrite <- Hm, <- (Hev nu None). apply neval_ext.
      intros w Hw. apply Huser. apply (body_user r Hwn (LPos p ts) t w Hl Htin). now apply Hnv.
    - subst o'. assert (Hl : In (LNeg p ts) (s_body r)) by (apply in_negative_lit; eapply nth_error_In; eauto).
      pose proof (nth_error_In _ _ H3) as Htin. destruct (norm_term_spec t n H5 (body_plain (LNeg p ts) t Hl Htin H7)) as (Hev & Hnv).
      assert (Hz : exists z, eval nu None t = Some z).
      { destruct (g_body_op r Hgood _ t Hl Htin) as [P1 P2]. destruct t as [v| |v|c|k us|f u ds|us]; try discriminate; try contradiction; try (simpl; eauto; fail). apply (Hdef (TOp k us)). eapply comp_neg; eauto. }
      destruct Hz as (z & Hz). rewrite <- (Hev nu None) in Hz. apply (Hasg x n z); auto; [now apply isb_gen| |].
      + apply (neg_not_pos p xs x); auto; eapply nth_error_In; eauto.
      + intros w Hw. apply (body_user r Hwn (LNeg p ts) t w Hl Htin). now apply Hnv.
    - subst o'. destruct Q3 as (kk & us & ->). assert (Hp : In (p, ts) (s_head r)) by (eapply nth_error_In; eauto). assert (Htin : In (TOp kk us) ts) by (eapply nth_error_In; eauto).
      destruct (norm_hterm_spec _ _ _ Q4 (head_op_plain p ts kk us Hp Htin)) as (_ & Hnv & _).
      assert (Hna : ~ aggregating (TOp kk us)). { intros Ha. apply out_unbound. apply Hb. apply op_vars_to_oper, assign_vars. right. apply Hnv. auto. }
      destruct (head_op_bound p ts kk us n sa Hp Htin Hna Q4) as [_ Hev]. destruct (Hdef (TOp kk us)) as (z & Hz); [eapply comp_head; eauto|].
      apply (Hasg (head_var j) n z); auto; [apply gen_head| |now rewrite (Hev nu None)|].
      + intros Hx. destruct (pos_not_agg _ Hx) as [Hib|Hu]; [rewrite isb_head in Hib; discriminate|apply Hu, gen_head].
      + intros w Hw. apply Hnv in Hw. destruct Hw as [Hw|[_ ?]]; [|contradiction]. apply (head_user r Hwn p ts (TOp kk us) w Hp Htin). left. now apply outer_uvars.
    - subst o'. assert (Hp : In (p, ts) (s_head r)) by (eapply nth_error_In; eauto). destruct (head_agg_plain p ts t f s ds Hp Q1 Q2) as (_ & Hpl & Hs & _).
      destruct (norm_term_spec s n Q4 Hpl) as (Hev & Hnv). destruct (Hdef s) as (z & Hz); [eapply comp_agg; eauto|]. apply (Hasg agg_in n z); auto; [apply gen_in| |now rewrite (Hev nu None)|].
      + intros Hx. destruct (pos_not_agg _ Hx) as [Hib|Hu]; [discriminate|apply Hu, gen_in].
      + intros w Hw. apply safe_user, Hs. now apply Hnv. }
  exists nu2. split; auto. constructor; auto.
  - intros p xs Hp. replace (map nu2 xs) with (map nu1 xs); auto. apply map_ext_in. intros v Hv. symmetry. apply Hpos2. unfold atom_vars. apply in_flat_map. exists (p, xs). auto.
  - intros p xs Hp Hc. destruct (neg_pair' p xs Hp) as (m & ts & H1 & H2). apply (Hneg p ts); [apply in_negative_lit; eapply nth_error_In; eauto|]. apply (negated_ext M nu nu2); auto. eapply neg_forward; eauto.
Qed.

(** ** The normalized rule is well-formed *)
Lemma is_ex_src v : is_ex nr v <-> ex_var r v.
Proof.
  split.
  - intros ([p hs] & Ha & Hv). unfold hatom_ex in Hv. simpl in Hv. apply in_flat_map in Hv. destruct Hv as (h & Hh & Hv). destruct h as [w|w|c]; try destruct Hv as [->|[]]; try destruct Hv.
    apply In_nth_error in Ha. destruct Ha as (m & Hm). destruct (head_pair' m p hs Hm) as (ts & Hs & HF). apply In_nth_error in Hh. destruct Hh as (i & Hi).
    destruct (Forall2_nth' _ _ _ HF i _ Hi) as (t & Ht & Hslot). exists p, ts. split; [eapply nth_error_In; eauto|].
    destruct t as [w| |w|c|kk us|f u ds|us]; simpl in Hslot; try discriminate; try contradiction; [injection Hslot as <-; eapply nth_error_In; eauto|destruct Hslot as (j & n & sa & ? & _); discriminate].
  - intros (p & ts & Hp & Ht). destruct (head_pair p ts Hp) as (m & hs & _ & Hm & HF). apply In_nth_error in Ht. destruct Ht as (i & Hi). destruct (Forall2_nth _ _ _ HF i _ Hi) as (h & Hh & Hslot).
    simpl in Hslot. subst h. exists (p, hs). split; [eapply nth_error_In; eauto|]. unfold hatom_ex. apply in_flat_map. exists (HEx v). split; [eapply nth_error_In; eauto|simpl; auto].
Qed.
Lemma ex_user v : ex_var r v -> ~ generated v /\ forall t, rule_term r t -> ~ In v (uvars t).
Proof.
  intros (p & ts & Hp & Ht). split; [apply (head_user r Hwn p ts (TEx v) v Hp Ht); right; constructor|].
  intros t Hr. apply (wn_ex r Hwn (TEx v) t v); auto; [left; eauto|constructor].
Qed.
(** A head term without aggregate. *)
Lemma head_slot_bound p ts t h v : In (p, ts) (s_head r) -> In t ts -> ~ aggregating t -> hslot os t h -> In v (hterm_vars h) -> h = HEx v \/ bound nr v.
Proof.
  intros Hp Ht Hna Hs Hv. destruct t as [w| |w|c|kk us|f u ds|us]; simpl in Hs; try (subst h; simpl in Hv); try contradiction.
  - destruct Hv as [->|[]]. right. apply safe_bound. apply (g_head_vars r Hgood p ts (TVar v) v Hp Ht). simpl. auto.
  - exfalso. pose proof (g_head_anon r Hgood p ts _ Hp Ht) as Q. discriminate.
  - destruct Hv as [->|[]]. auto.
  - destruct Hs as (j & n & sa & -> & En & Ho). destruct Hv as [<-|[]]. right. destruct (head_op_bound p ts kk us n sa Hp Ht Hna En) as [Hb _]. eapply bound_intro; eauto.
  - exfalso. apply Hna. exists f, u, ds. constructor.
Qed.
Lemma head_slot_user p ts t h v : In (p, ts) (s_head r) -> In t ts -> hslot os t h -> In v (hterm_vars h) -> t = TVar v \/ t = TEx v \/ (v = agg_out /\ aggregating t) \/ exists j k us n sa, v = head_var j /\ t = TOp k us /\ norm_hterm t = Some (n, sa) /\ In (new_assignment v n) os.
Proof.
  intros Hp Ht Hs Hv. destruct t as [w| |w|c|kk us|f u ds|us]; simpl in Hs; try (subst h; simpl in Hv); try contradiction.
  - destruct Hv as [->|[]]. auto.
  - exfalso. pose proof (g_head_anon r Hgood p ts _ Hp Ht) as Q. discriminate.
  - destruct Hv as [->|[]]. auto.
  - destruct Hs as (j & n & sa & -> & En & Ho). destruct Hv as [<-|[]]. right. right. right. exists j, kk, us, n, sa. auto.
  - destruct Hv as [<-|[]]. right. right. left. split; auto. exists f, u, ds. constructor.
Qed.
(** The result of an operation with an aggregate is not bound. *)
Lemma agg_head_unbound p ts k us n sa j : In (p, ts) (s_head r) -> In (TOp k us) ts -> aggregating (TOp k us) -> norm_hterm (TOp k us) = Some (n, sa) ->
  In (new_assignment (head_var j) n) os -> ~ bound nr (head_var j).
Proof.
  intros Hp Ht Ha En Ho Hb. destruct (norm_hterm_spec _ _ _ En (head_op_plain p ts k us Hp Ht)) as (_ & Hnv & _).
  destruct (bound_assign _ Hb (gen_head j)) as [Hx|(n' & Ho' & Hnb)].
  - destruct (pos_not_agg _ Hx) as [Hib|Hu]; [rewrite isb_head in Hib; discriminate|apply Hu, gen_head].
  - rewrite <- (assign_unique _ _ _ (gen_head j) Ho Ho') in Hnb. apply out_unbound, Hnb, Hnv. auto.
Qed.
Lemma aggregating_of p ts i t m : nth_error (s_head r) m = Some (p, ts) -> nth_error ts i = Some t -> aggregating t -> agg_index nr = Some m.
Proof.
  intros Hm Ht (f & s & ds & Ha). destruct (the_aggregate m p ts i t f s ds Hm Ht Ha) as (hs & a & Ea & _). unfold agg_index. now rewrite Ea.
Qed.
Lemma agg_source a k : r_agg nr = Some (a, k) -> exists p ts i t f s ds, nth_error (s_head r) k = Some (p, ts) /\ nth_error ts i = Some t /\ aggregates f s ds t.
Proof.
  intros E. destruct (nm_agg r nr os Hn) as [[Q _]|(m & p & ts & hs & a' & Ea & H1 & H2 & (f & s & ds & i & t & H3 & H4 & _))]; [congruence|]. rewrite E in Ea. injection Ea as <- <-.
  exists p, ts, i, t, f, s, ds. auto.
Qed.

Theorem normal_wf : symmetric_aggregates r -> NoDup (r_order nr) /\ incl (atom_vars (r_pos nr)) (r_order nr) ->
  (is_existential nr = true -> NoDup (r_exorder nr) /\ incl (head_vars nr) (r_exorder nr)) -> wf_rule nr.
Proof.
  intros Hsym Hord Hexo. constructor; auto.
  - intros p xs Hp. apply in_app_iff in Hp. destruct Hp as [Hp|Hp]; [destruct (pos_atom' p xs Hp) as (ts & _ & (_ & Q & _))|destruct (neg_atom' p xs Hp) as (ts & _ & (_ & Q & _))]; exact Q.
  - intros o Ho. rewrite (nm_ops r nr os Hn) in Ho. apply in_map_iff in Ho. destruct Ho as (o' & <- & Ho).
    assert (Hasg : forall x n, In (new_assignment x n) os -> (forall w, In w (nvs n) -> bound nr w) -> forall v, In v (op_vars (to_oper (new_assignment x n))) -> bound nr v).
    { intros x n Hx Hb v Hv. apply op_vars_to_oper, assign_vars in Hv. destruct Hv as [->|Hv]; auto. eapply bound_intro; eauto. }
    destruct (nm_cases r nr os Hn _ Ho) as [(k & us & Hl & E)|[(m & p & ts & xs & i & t & x & n & H1 & H2 & H3 & H4 & E & H5 & H6 & H7)|[(m & p & ts & xs & i & t & x & n & H1 & H2 & H3 & H4 & E & H5 & H6 & H7)|(m & p & ts & hs & H1 & H2 & [(i & t & n & sa & j & Q1 & Q2 & Q3 & Q4 & E)|(t & f & s & ds & n & Q1 & Q2 & Q3 & Q4 & E)])]]].
    + destruct (su_ops r Hsup k us Hl) as [Hs|(p & ts & Hp & Hs)].
      * left. intros v Hv. apply (lop_vars k us o' v Hl E) in Hv. apply safe_bound. auto.
      * right. right. destruct (neg_atom p ts Hp) as (xs & Hx & (_ & _ & _ & Hin & _)). exists p, xs. split; auto. intros w Hw. apply (lop_vars k us o' w Hl E) in Hw.
        destruct (Hs w Hw) as [?|?]; [left; now apply safe_bound|right; now apply Hin].
    + subst o'. left. apply Hasg; auto. intros w Hw. assert (Hl : In (LPos p ts) (s_body r)) by (apply in_positive_lit; eapply nth_error_In; eauto). apply safe_bound.
      destruct (atom_term_vars (LPos p ts) t n w Hl) as [->|Hs]; auto; [discriminate|simpl; eapply nth_error_In; eauto|]. eapply safe_pos; eauto. eapply nth_error_In; eauto.
    + subst o'. assert (Hl : In (LNeg p ts) (s_body r)) by (apply in_negative_lit; eapply nth_error_In; eauto).
      destruct (nvs_safe_bound (LNeg p ts) t n Hl) as [(v & -> & Hvs)|Hsafe]; auto; [discriminate|simpl; eapply nth_error_In; eauto| |left; apply Hasg; auto; intros w Hw; apply safe_bound; auto].
      right. right. exists p, xs. split; [eapply nth_error_In; eauto|]. intros w Hw. right. apply op_vars_to_oper, assign_vars in Hw. destruct Hw as [->|Hw]; [eapply nth_error_In; eauto|].
      simpl in H5. injection H5 as <-. destruct Hw as [<-|[]]. destruct (Forall2_nth _ _ _ (nm_neg r nr os Hn) m _ H1) as (b & Hb & Hr). rewrite H2 in Hb. injection Hb as <-. destruct Hr as (_ & _ & _ & Hin & _). apply Hin. simpl. eapply nth_error_In; eauto.
    + subst o'. destruct Q3 as (kk & us & ->). assert (Hp : In (p, ts) (s_head r)) by (eapply nth_error_In; eauto). assert (Htin : In (TOp kk us) ts) by (eapply nth_error_In; eauto).
      destruct (norm_hterm_spec _ _ _ Q4 (head_op_plain p ts kk us Hp Htin)) as (_ & Hnv & Hsa). destruct sa as [[[f s] ds]|].
      * right. left. assert (Hag : aggregating (TOp kk us)) by (exists f, s, ds; auto). destruct (the_aggregate m p ts i _ f s ds H1 Q1 Hsa) as (hs' & a & Ea & Eh & HF & Eo & _ & _ & _ & _ & Hgrp).
        exists a, m, (head_var j), (to_expr n). split; auto. split; [apply to_oper_assign|]. split; [eapply agg_head_unbound; eauto|]. rewrite Eo. split; [unfold head_var, agg_out, var; lia|]. split.
        -- intros w Hw. simpl in Hw. apply Hnv in Hw. destruct Hw as [Hw|[-> _]]; [|now left]. right. apply Hgrp. left. split; auto. intros ->. apply (head_user r Hwn p ts (TOp kk us) agg_out Hp Htin); [left; now apply outer_uvars|apply gen_out].
        -- intros q xs Hq Hx. destruct (neg_not_agg q xs _ Hq Hx) as [Hib|Hu]; [rewrite isb_head in Hib; discriminate|apply Hu, gen_head].
      * left. apply Hasg; auto. destruct (head_op_bound p ts kk us n None Hp Htin Hsa Q4) as [Hb _]. exact Hb.
    + subst o'. left. apply Hasg; auto. assert (Hp : In (p, ts) (s_head r)) by (eapply nth_error_In; eauto). eapply agg_input_bound; eauto.
  - intros v Hnb Hneg. destruct (ish v) eqn:Hv.
    + assert (Hj : exists j, v = head_var j). { exists (v / 4). unfold ish in Hv. apply Nat.eqb_eq in Hv. unfold head_var, var in *. rewrite (Nat.div_mod v 4) at 1 by lia. lia. }
      destruct Hj as (j & ->). rewrite (nm_ops r nr os Hn). apply (nm_once r nr os Hn).
    + assert (Hz : filter (assigns v) (r_ops nr) = []); [|rewrite Hz; simpl; lia].
      destruct (filter (assigns v) (r_ops nr)) as [|o l] eqn:Ef; auto. exfalso. assert (Ho : In o (filter (assigns v) (r_ops nr))) by (rewrite Ef; now left).
      apply filter_In in Ho. destruct Ho as [Ho Ha]. destruct o as [x e|e]; [|discriminate]. simpl in Ha. apply Nat.eqb_eq in Ha. subst x.
      destruct (oeq_cases v e Ho) as [(l0 & t & n & Hl & Heq & _)|[Hg (n & Hx & _)]].
      * assert (Hlo : exists us, l0 = LOp KEqual us /\ In (TVar v) us) by (destruct Heq as [->|(-> & _)]; eexists; split; try reflexivity; simpl; auto). destruct Hlo as (us & -> & Hvu).
        assert (Hvv : In v (flat_map uvars us)) by (apply in_flat_map; exists (TVar v); simpl; auto).
        destruct (su_ops r Hsup _ _ Hl) as [Hs|(p & ts & Hp & Hs)]; [apply Hnb, safe_bound; auto|]. destruct (Hs v Hvv) as [?|Ham]; [apply Hnb; now apply safe_bound|].
        destruct (neg_atom p ts Hp) as (xs & Hxs & (_ & _ & _ & Hin & _)). apply (Hneg p xs Hxs). now apply Hin.
      * destruct (os_src v n Hg Hx) as [(m & p & ts & xs & i & t & H1 & H2 & H3 & H4 & H5 & H6 & H7)|[(m & p & ts & hs & i & t & sa & j & _ & _ & _ & _ & Q & _)|(m & p & ts & t & f & s & ds & Q1 & Q2 & Q3 & _ & Q5 & Q)]].
        -- apply nth_error_In in H2. unfold all_atoms in H2. apply in_app_iff in H2. destruct H2 as [H2|H2]; [|apply (Hneg p xs H2); eapply nth_error_In; eauto].
           apply Hnb, bound_pos. unfold atom_vars. apply in_flat_map. exists (p, xs). split; auto. simpl. eapply nth_error_In; eauto.
        -- rewrite Q, ish_head in Hv. discriminate.
        -- apply Hnb. eapply bound_intro; eauto. eapply agg_input_bound; eauto. eapply nth_error_In; eauto.
  - intros p xs Hp. destruct (neg_atom' p xs Hp) as (ts & Hl & (_ & _ & Hslots & Hin & _)). simpl in Hslots, Hin. destruct (su_neg r Hsup p ts Hl) as (t & Ht & Hc).
    destruct t as [v| |v|c|k us|f u ds|us]; try contradiction.
    + exists v. split; [now apply Hin|now apply safe_bound].
    + pose proof Ht as Htin. apply In_nth_error in Ht. destruct Ht as (i & Ht). destruct (Forall2_nth _ _ _ Hslots i _ Ht) as (x & Hx & [?|[[? _]|(Hna & _ & n & En & Ho)]]); try discriminate. exists x. split; [eapply nth_error_In; eauto|].
      simpl in En. injection En as <-. eapply bound_intro; eauto. intros w [].
    + pose proof Ht as Htin. apply In_nth_error in Ht. destruct Ht as (i & Ht). destruct (Forall2_nth _ _ _ Hslots i _ Ht) as (x & Hx & [?|[[? _]|(Hna & _ & n & En & Ho)]]); try discriminate. exists x. split; [eapply nth_error_In; eauto|].
      eapply bound_intro; eauto. intros w Hw. apply safe_bound. destruct (atom_term_vars (LNeg p ts) (TOp k us) n w Hl) as [?|Hs]; [intros; discriminate|exact Htin|discriminate|exact En|exact Hw|discriminate|exact Hs].
  - intros i j p xs q ys v Hi Hj Hne Hx Hy. destruct (isb v) eqn:Hb.
    + exfalso. apply Hne. assert (length (r_pos nr) + i = length (r_pos nr) + j); [|lia]. eapply (flat_uniq isb snd all_atoms _ _ (p, xs) (q, ys) v all_uniq); try now apply all_neg. exact Hx. exact Hy. auto.
    + destruct (Forall2_nth' _ _ _ (nm_neg r nr os Hn) i _ Hi) as ([p' ts] & Hp & Hr). destruct (Forall2_nth' _ _ _ (nm_neg r nr os Hn) j _ Hj) as ([q' us] & Hq & Hr').
      destruct (atom_var_in _ _ _ _ v Hr Hx) as [?|Hv]; [congruence|]. destruct (atom_var_in _ _ _ _ v Hr' Hy) as [?|Hv']; [congruence|].
      apply safe_bound. apply (g_neg r Hgood i j p' ts q' us v); auto.
  - intros k [p hs] v Hk Hv Hi. destruct (head_pair' k p hs Hk) as (ts & Hs & HF). simpl in Hv. apply In_nth_error in Hv. destruct Hv as (i & Hv). destruct (Forall2_nth' _ _ _ HF i _ Hv) as (t & Ht & Hsl).
    destruct (head_slot_bound p ts t (HVar v) v) as [?|?]; [eapply nth_error_In; eauto|eapply nth_error_In; eauto| |auto|simpl; auto|discriminate|auto].
    intros Ha. apply Hi. eapply aggregating_of; eauto.
  - intros v Hv. apply is_ex_src in Hv. destruct (ex_user v Hv) as [Hg Hno]. split; [|split].
    + intros Hb. apply bound_safe in Hb; auto. destruct (safe_occurs v Hb) as (t & Ht & Hvt). apply (Hno t Ht Hvt).
    + intros [p hs] Ha Hin. simpl in Hin. apply In_nth_error in Ha. destruct Ha as (k & Hk). destruct (head_pair' k p hs Hk) as (ts & Hs & HF). apply In_nth_error in Hin. destruct Hin as (i & Hi).
      destruct (Forall2_nth' _ _ _ HF i _ Hi) as (t & Ht & Hsl). assert (Hp : In (p, ts) (s_head r)) by (eapply nth_error_In; eauto). assert (Htin : In t ts) by (eapply nth_error_In; eauto).
      destruct (head_slot_user p ts t (HVar v) v Hp Htin Hsl) as [->|[->|[[-> _]|(j & _ & _ & _ & _ & -> & _)]]]; [simpl; auto| | | |].
      * apply (Hno (TVar v)); [left; eauto|simpl; auto].
      * simpl in Hsl. discriminate.
      * apply Hg, gen_out.
      * apply Hg, gen_head.
    + intros p xs Hp Hx. destruct (neg_atom' p xs Hp) as (ts & Hl & Hr). destruct (atom_var_in _ _ _ _ v Hr Hx) as [Hb|Ht]; [apply Hg; now apply isb_gen|]. apply (Hno (TVar v)); [right; exists (LNeg p ts); auto|simpl; auto].
  - intros a k Ea. destruct (agg_source a k Ea) as (p & ts & i & t & f & s & ds & Hk & Ht & Ha).
    assert (Hp : In (p, ts) (s_head r)) by (eapply nth_error_In; eauto). assert (Htin : In t ts) by (eapply nth_error_In; eauto).
    destruct (the_aggregate k p ts i t f s ds Hk Ht Ha) as (hs & a' & Ea' & Eh & HF & Eo & Ed & Ev & Hnd & Hin & Hgrp). rewrite Ea in Ea'. injection Ea' as <-.
    destruct (head_agg_plain p ts t f s ds Hp Htin Ha) as (Hop & Hpl & Hsv & Hsd & Hplt).
    assert (Hother : forall i' h v, i' <> i -> nth_error hs i' = Some h -> In v (hterm_vars h) -> exists t', nth_error ts i' = Some t' /\ hslot os t' h /\ ~ aggregating t' /\ bound nr v).
    { intros i' h v Hne Hh Hv. destruct (Forall2_nth' _ _ _ HF i' _ Hh) as (t' & Ht' & Hsl). exists t'. split; auto. split; auto.
      assert (Hna : ~ aggregating t') by (intros Hag; apply Hne; apply (g_head_one r Hgood p ts i' i t' t Hp Ht' Ht Hag); exists f, s, ds; auto). split; auto.
      destruct (head_slot_bound p ts t' h v Hp (nth_error_In _ _ Ht') Hna Hsl Hv) as [->|?]; auto. exfalso.
      assert (Q : has_ex t' = false) by (apply (g_head_ex r Hgood p ts p ts t' Hp); [exists t; split; [auto|exists f, s, ds; auto]|auto|eapply nth_error_In; eauto]).
      destruct t'; simpl in Hsl; try discriminate; try contradiction. destruct Hsl as (? & ? & ? & Qh & _). discriminate Qh. }
    split; [|split; [|split; [|split; [|split]]]]; auto.
    + intros v Hv. change (ag_in a = v \/ In v (ag_distinct a ++ ag_group a)) in Hv. rewrite in_app_iff in Hv. destruct Hv as [<-|[Hv|Hv]].
      * destruct Hin as [(v & -> & ->)|(-> & _ & n & En & Ho)]; [apply safe_bound, Hsv; simpl; auto|]. eapply bound_intro; eauto. eapply agg_input_bound; eauto.
      * rewrite Ed in Hv. apply safe_bound. auto.
      * apply Hgrp in Hv. destruct Hv as [[Hv _]|(i' & h & Hne & Hh & Hv)]; [|destruct (Hother i' h v Hne Hh Hv) as (_ & _ & _ & _ & ?); auto]. apply safe_bound. apply (g_head_vars r Hgood p ts t v Hp Htin). now apply outer_uvars.
    + intros Hg. apply Hgrp in Hg. destruct Hin as [(v & -> & Ei)|(Ei & _ & _)]; rewrite Ei in Hg.
      * destruct Hg as [[Hg _]|(i' & h & Hne & Hh & Hv)]; [apply (su_group r Hsup p ts t f v ds Hp Htin Ha Hg)|].
        destruct (Hother i' h v Hne Hh Hv) as (t' & Ht' & Hsl & Hna & _).
        assert (Hug : ~ generated v) by (apply safe_user, Hsv; simpl; auto).
        destruct (head_slot_user p ts t' h v Hp (nth_error_In _ _ Ht') Hsl Hv) as [->|[->|[[-> _]|(j & _ & _ & _ & _ & -> & _)]]]; try (apply Hug; apply gen_out || apply gen_head).
        -- destruct (g_head_terms r Hgood p ts t Hp Htin) as (b & Eb). destruct (head_term_spec _ _ _ Eb) as (_ & _ & Q). destruct (Q _ _ _ Ha) as (_ & Q' & _). apply (Q' v eq_refl).
           unfold group_by_variables. apply in_flat_map. exists (TVar v). split; [eapply nth_error_In; eauto|simpl; auto].
        -- destruct (g_head_terms r Hgood p ts t Hp Htin) as (b & Eb). destruct (head_term_spec _ _ _ Eb) as (_ & _ & Q). destruct (Q _ _ _ Ha) as (_ & Q' & _). apply (Q' v eq_refl).
           unfold group_by_variables. apply in_flat_map. exists (TEx v). split; [eapply nth_error_In; eauto|simpl; auto].
      * destruct Hg as [[Hg _]|(i' & h & Hne & Hh & Hv)].
        -- apply (head_user r Hwn p ts t agg_in Hp Htin); [left; now apply outer_uvars|apply gen_in].
        -- destruct (Hother i' h _ Hne Hh Hv) as (t' & Ht' & Hsl & Hna & _). pose proof (nth_error_In _ _ Ht') as Htin'.
           destruct (head_slot_user p ts t' h agg_in Hp Htin' Hsl Hv) as [->|[->|[[Q _]|(j & _ & _ & _ & _ & Q & _)]]]; [| |discriminate|unfold agg_in, head_var in Q; lia].
           ++ apply (head_user r Hwn p ts _ agg_in Hp Htin'); [left; simpl; auto|apply gen_in].
           ++ apply (head_user r Hwn p ts _ agg_in Hp Htin'); [right; constructor|apply gen_in].
    + rewrite Eo. apply out_unbound.
    + rewrite Ev. apply (Hsym p ts t f s ds Hp Htin Ha).
    + intros v Hv. apply is_ex_src in Hv. destruct Hv as (q & us & Hq & Hu). assert (Q : has_ex (TEx v) = false) by (apply (g_head_ex r Hgood p ts q us (TEx v) Hp); [exists t; split; [auto|exists f, s, ds; auto]|auto|auto]). discriminate.
  - intros a k [p' hs'] v Ea Hk' Hv. destruct (agg_source a k Ea) as (p & ts & i & t & f & s & ds & Hk & Ht & Ha).
    assert (Hp : In (p, ts) (s_head r)) by (eapply nth_error_In; eauto). assert (Htin : In t ts) by (eapply nth_error_In; eauto).
    destruct (the_aggregate k p ts i t f s ds Hk Ht Ha) as (hs & a' & Ea' & Eh & HF & Eo & Ed & Ev & Hnd & Hin & Hgrp). rewrite Ea in Ea'. injection Ea' as <-.
    rewrite Eh in Hk'. injection Hk' as <- <-. unfold hatom_vars in Hv. simpl in Hv. apply in_flat_map in Hv. destruct Hv as (h & Hh & Hv). apply In_nth_error in Hh. destruct Hh as (i' & Hh).
    destruct (Nat.eq_dec i' i) as [->|Hne]; [|left; right; apply Hgrp; right; eauto]. destruct (Forall2_nth' _ _ _ HF i _ Hh) as (t' & Ht' & Hsl). rewrite Ht in Ht'. injection Ht' as <-.
    assert (Hag : aggregating t) by (exists f, s, ds; auto).
    destruct (head_slot_user p ts t h v Hp Htin Hsl Hv) as [->|[->|[[-> _]|(j & kk & us & n & sa & -> & -> & En & Ho)]]]; [inversion Ha|inversion Ha|left; left; auto|right]. eapply agg_head_unbound; eauto.
Qed.

(** ** Heads *)
Lemma head_has_ex p ts t : In (p, ts) (s_head r) -> In t ts -> ~ aggregating t -> (exists v, t = TEx v) \/ has_ex t = false.
Proof.
  intros Hp Ht Hna. destruct t as [w| |w|c|kk us|f u ds|us]; eauto.
  - right. apply (su_ex r Hsup p ts kk us Hp Ht).
  - exfalso. apply Hna. exists f, u, ds. constructor.
  - exfalso. destruct (g_head_terms r Hgood p ts _ Hp Ht) as (b & Eb). discriminate.
Qed.
(** Values of head terms do not depend on generated variables. *)
Lemma head_eval_user p ts t nu nu' ag : In (p, ts) (s_head r) -> In t ts -> (forall v, ~ generated v -> nu v = nu' v) -> eval nu ag t = eval nu' ag t.
Proof.
  intros Hp Ht Hag.
  assert (Hc : has_ex t = false -> eval nu ag t = eval nu' ag t).
  { intros He. apply eval_ext; auto. intros v Hv. apply Hag. apply (head_user r Hwn p ts t v Hp Ht). left. now apply outer_uvars. }
  destruct t as [w| |w|c|kk us|f u ds|us]; try (apply Hc; reflexivity); try reflexivity.
  - simpl. f_equal. apply Hag. apply (head_user r Hwn p ts _ w Hp Ht). right. constructor.
  - apply Hc. apply (su_ex r Hsup p ts kk us Hp Ht).
Qed.
Lemma inst_eval (I M : interp) nu mu p ts t h : matches nr I M nu -> (forall v, ~ is_ex nr v -> mu v = nu v) ->
  In (p, ts) (s_head r) -> In t ts -> ~ aggregating t -> hslot os t h -> eval mu None t = Some (hterm_val mu h).
Proof.
  intros [_ Hops _] Hmu Hp Ht Hna Hs. destruct t as [w| |w|c|kk us|f u ds|us]; simpl in Hs; try (subst h; reflexivity); try contradiction.
  - exfalso. pose proof (g_head_anon r Hgood p ts _ Hp Ht) as Q. discriminate.
  - destruct Hs as (j & n & sa & -> & En & Ho). destruct (head_op_bound p ts kk us n sa Hp Ht Hna En) as [Hb Hev]. rewrite <- (Hev mu None).
    assert (Hnoex : forall v, In v (nvs (new_assignment (head_var j) n)) -> mu v = nu v).
    { intros v Hv. apply Hmu. intros Hx. apply is_ex_src in Hx. destruct (ex_user v Hx) as [Hg Hno]. apply assign_vars in Hv. destruct Hv as [->|Hv]; [apply Hg, gen_head|].
      destruct (norm_hterm_spec (TOp kk us) n sa En (head_op_plain p ts kk us Hp Ht)) as (_ & Hnv & _). apply Hnv in Hv. destruct Hv as [Hv|[-> _]]; [|apply Hg, gen_out].
      apply (Hno (TOp kk us)); [left; eauto|now apply outer_uvars]. }
    rewrite (neval_ext n mu nu) by (intros v Hv; apply Hnoex, assign_vars; auto). simpl. rewrite Hnoex by (apply assign_vars; auto). apply assign_holds, Hops. now apply assign_op.
  - exfalso. apply Hna. exists f, u, ds. constructor.
Qed.
Lemma head_instance (I M : interp) nu mu m p ts hs : matches nr I M nu -> (forall v, ~ is_ex nr v -> mu v = nu v) ->
  nth_error (s_head r) m = Some (p, ts) -> nth_error (r_head nr) m = Some (p, hs) -> ~ aggregating_atom ts -> instance None mu ts (map (hterm_val mu) hs).
Proof.
  intros Hm Hmu Hs Hh Hna. destruct (head_pair' m p hs Hh) as (ts' & Hs' & HF). rewrite Hs in Hs'. injection Hs' as <-. assert (Hp : In (p, ts) (s_head r)) by (eapply nth_error_In; eauto).
  apply Forall2_of_nth; [rewrite map_length; eapply Forall2_length'; eauto|]. intros i t z Ht Hz. destruct (Forall2_nth _ _ _ HF i t Ht) as (h & Hhi & Hsl). rewrite nth_error_map, Hhi in Hz. simpl in Hz. injection Hz as <-.
  eapply inst_eval; eauto; [eapply nth_error_In; eauto|]. intros Ha. apply Hna. exists t. split; auto. eapply nth_error_In; eauto.
Qed.
Lemma instance_fun ag mu ts x y : instance ag mu ts x -> instance ag mu ts y -> x = y.
Proof. intros H. revert y. induction H as [|t z ts x E _ IH]; intros y Hy; inversion Hy; subst; auto. f_equal; [congruence|auto]. Qed.
Lemma instance_user p ts mu mu' ag x : In (p, ts) (s_head r) -> (forall v, ~ generated v -> mu v = mu' v) -> instance ag mu ts x -> instance ag mu' ts x.
Proof.
  intros Hp Hag Hi. assert (Hsub : forall t, In t ts -> eval mu ag t = eval mu' ag t) by (intros t Ht; eapply head_eval_user; eauto).
  clear Hp. induction Hi as [|t z ts x E _ IH]; constructor; [rewrite <- Hsub; [auto|now left]|apply IH; intros u Hu; apply Hsub; now right].
Qed.
Lemma not_agg_index m p ts : nth_error (s_head r) m = Some (p, ts) -> (agg_index nr <> Some m <-> ~ aggregating_atom ts).
Proof.
  intros Hm. split.
  - intros Hi (t & Ht & Ha). apply Hi. apply In_nth_error in Ht. destruct Ht as (i & Hi'). eapply aggregating_of; eauto.
  - intros Hna Hi. unfold agg_index in Hi. destruct (r_agg nr) as [[a k]|] eqn:Ea; [|discriminate]. simpl in Hi. injection Hi as ->. destruct (agg_source a m Ea) as (p' & ts' & i & t & f & s & ds & Hk & Ht & Ha).
    rewrite Hm in Hk. injection Hk as <- <-. apply Hna. exists t. split; [eapply nth_error_In; eauto|exists f, s, ds; auto].
Qed.

(** ** Aggregates *)
Lemma same_group_user p ts i nu nu2 nu' : In (p, ts) (s_head r) -> aggregating_atom ts -> (forall v, ~ generated v -> nu2 v = nu v) ->
  same_group ts i nu nu' -> same_group ts i nu2 nu'.
Proof.
  intros Hp Hag Hu H i' t Ht. specialize (H i' t Ht). pose proof (nth_error_In _ _ Ht) as Htin. destruct (i' =? i).
  - intros v Hv. rewrite H by auto. symmetry. apply Hu. apply (head_user r Hwn p ts t v Hp Htin). left. now apply outer_uvars.
  - rewrite H. eapply head_eval_user; eauto. intros v Hv. symmetry. auto.
Qed.
Lemma src_agg_user (M : interp) p ts i f s ds nu nu2 z : In (p, ts) (s_head r) -> aggregating_atom ts -> (forall v, ~ generated v -> nu2 v = nu v) ->
  src_agg_value r M ts i f s ds nu z -> src_agg_value r M ts i f s ds nu2 z.
Proof.
  intros Hp Hag Hu (L & H1 & H2 & H3). exists L. split; auto. split; auto. intros x. rewrite H2. split; intros (nu' & z' & Q1 & Q2 & Q3 & Q4); exists nu', z'; repeat split; auto; try apply Q1.
  - eapply same_group_user; eauto.
  - apply (same_group_user p ts i nu2 nu nu' Hp Hag); auto. intros v Hv. symmetry. auto.
Qed.

Section Agg.
Context (m : nat) (p : tag) (ts : list term) (i : nat) (t : term) (f : list Z -> option Z) (s : term) (ds : list var).
Context (Hm : nth_error (s_head r) m = Some (p, ts)) (Ht : nth_error ts i = Some t) (Ha : aggregates f s ds t).
Context (hs : list hterm) (a : aggregate) (Ea : r_agg nr = Some (a, m)) (Eh : nth_error (r_head nr) m = Some (p, hs)) (HF : Forall2 (hslot os) ts hs).
Context (Eo : ag_out a = agg_out) (Ed : ag_distinct a = ds) (Ev : ag_val a = f).
Context (Hin : (exists v, s = TVar v /\ ag_in a = v) \/ (ag_in a = agg_in /\ (forall v, s <> TVar v) /\ exists n, norm_term s = Some n /\ In (new_assignment agg_in n) os)).
Context (Hgrp : forall v, In v (ag_group a) <-> (In v (outer_vars t) /\ v <> agg_out) \/ exists i' h, i' <> i /\ nth_error hs i' = Some h /\ In v (hterm_vars h)).

Lemma a_p : In (p, ts) (s_head r). Proof. eapply nth_error_In; eauto. Qed.
Lemma a_t : In t ts. Proof. eapply nth_error_In; eauto. Qed.
Lemma a_agg : aggregating t. Proof. exists f, s, ds. auto. Qed.
Lemma a_atom : aggregating_atom ts. Proof. exists t. split; [apply a_t|apply a_agg]. Qed.
Lemma a_other i' t' : i' <> i -> nth_error ts i' = Some t' -> ~ aggregating t'.
Proof. intros Hne Ht' Hag. apply Hne. apply (g_head_one r Hgood p ts i' i t' t a_p Ht' Ht Hag a_agg). Qed.
Lemma a_noex v : ~ is_ex nr v.
Proof.
  intros Hx. apply is_ex_src in Hx. destruct Hx as (q & us & Hq & Hu). pose proof (g_head_ex r Hgood p ts q us (TEx v) a_p a_atom Hq Hu) as Q. discriminate.
Qed.
Lemma a_shape : (exists k us, t = TOp k us) \/ exists f' s' ds', t = TAgg f' s' ds'.
Proof. destruct Ha; eauto. Qed.
Lemma a_outer v : In v (outer_vars t) -> In v (ag_group a) /\ ~ generated v.
Proof.
  intros Hv. assert (Hg : ~ generated v) by (apply (head_user r Hwn p ts t v a_p a_t); left; now apply outer_uvars). split; auto. apply Hgrp. left. split; auto. intros ->. apply Hg, gen_out.
Qed.
Lemma a_eval_other (I M : interp) nu i' t' h : matches nr I M nu -> i' <> i -> nth_error ts i' = Some t' -> nth_error hs i' = Some h -> eval nu None t' = Some (hterm_val nu h).
Proof.
  intros Hmt Hne Ht' Hh. destruct (Forall2_nth _ _ _ HF i' t' Ht') as (h' & Hh' & Hsl). rewrite Hh in Hh'. injection Hh' as <-.
  apply (inst_eval I M nu nu p ts t' h Hmt); auto; [apply a_p|eapply nth_error_In; eauto|eapply a_other; eauto].
Qed.
Lemma a_input (I M : interp) nu : matches nr I M nu -> eval nu None s = Some (nu (ag_in a)).
Proof.
  intros [_ Hops _]. destruct Hin as [(v & -> & ->)|(-> & _ & n & En & Ho)]; [reflexivity|].
  destruct (head_agg_plain p ts t f s ds a_p a_t Ha) as (_ & Hpl & _). destruct (norm_term_spec s n En Hpl) as (Hev & _). rewrite <- (Hev nu None).
  apply assign_holds, Hops. apply assign_op; auto. apply (agg_input_bound p ts t f s ds n a_p a_t Ha En).
Qed.
Lemma a_group (M : interp) nu nu' : matches nr M M nu -> matches nr M M nu' -> ((forall v, In v (ag_group a) -> nu' v = nu v) <-> same_group ts i nu nu').
Proof.
  intros Hmt Hmt'. split.
  - intros Hg i' t' Ht'. destruct (Nat.eqb_spec i' i) as [->|Hne].
    + rewrite Ht in Ht'. injection Ht' as <-. intros v Hv. apply Hg. now apply a_outer.
    + destruct (Forall2_nth _ _ _ HF i' t' Ht') as (h & Hh & _). rewrite (a_eval_other M M nu i' t' h Hmt Hne Ht' Hh), (a_eval_other M M nu' i' t' h Hmt' Hne Ht' Hh).
      destruct h as [v|v|c]; simpl; auto; f_equal; apply Hg; apply Hgrp; right; eexists; eexists; (split; [exact Hne|split; [exact Hh|simpl; auto]]).
  - intros Hsg v Hv. apply Hgrp in Hv. destruct Hv as [[Hv _]|(i' & h & Hne & Hh & Hv)].
    + specialize (Hsg i t Ht). rewrite Nat.eqb_refl in Hsg. auto.
    + destruct (Forall2_nth' _ _ _ HF i' h Hh) as (t' & Ht' & _). specialize (Hsg i' t' Ht'). destruct (Nat.eqb_spec i' i); [contradiction|].
      rewrite (a_eval_other M M nu i' t' h Hmt Hne Ht' Hh), (a_eval_other M M nu' i' t' h Hmt' Hne Ht' Hh) in Hsg. injection Hsg as Hsg. destruct h as [w|w|c]; simpl in Hv, Hsg; try destruct Hv as [<-|[]]; auto. destruct Hv.
Qed.
Lemma a_value (M : interp) nu z : matches nr M M nu -> (agg_value nr a M nu z <-> src_agg_value r M ts i f s ds nu z).
Proof.
  intros Hmt. unfold agg_value, src_agg_value. rewrite Ev, Ed.
  assert (Hx : forall x, (exists nu', matches nr M M nu' /\ (forall v, In v (ag_group a) -> nu' v = nu v) /\ x = map nu' (ag_in a :: ds)) <->
     (exists nu' z', src_matches r M M nu' /\ same_group ts i nu nu' /\ eval nu' None s = Some z' /\ x = z' :: map nu' ds)).
  { intros x. split.
    - intros (nu' & Hm' & Hg & ->). exists nu', (nu' (ag_in a)). split; [now apply matches_src|]. split; [now apply (a_group M)|]. split; [now apply (a_input M M)|reflexivity].
    - intros (nu' & z' & Hm' & Hg & Hz & ->). destruct (src_matches_norm M M nu' Hm') as (nu2 & Hu & Hm2). exists nu2. split; auto.
      destruct (head_agg_plain p ts t f s ds a_p a_t Ha) as (_ & Hpl & Hsv & Hsd & _). split.
      + apply (a_group M nu nu2 Hmt Hm2). intros i' t' Ht'. specialize (Hg i' t' Ht'). pose proof (nth_error_In _ _ Ht') as Htin'. destruct (i' =? i).
        * intros v Hv. rewrite <- Hg by auto. apply Hu. apply (head_user r Hwn p ts t' v a_p Htin'). left. now apply outer_uvars.
        * rewrite <- Hg. eapply head_eval_user; eauto. apply a_p.
      + simpl. f_equal.
        * pose proof (a_input M M nu2 Hm2) as Hz2. rewrite (eval_ext s) with (nu' := nu') in Hz2; [congruence|apply Hpl|]. intros v Hv. apply Hu, safe_user, Hsv. now apply outer_uvars.
        * apply map_ext_in. intros v Hv. symmetry. apply Hu, safe_user. auto. }
  split; intros (L & H1 & H2 & H3); exists L; (split; [exact H1|split; [|exact H3]]); intros x; rewrite H2; [apply Hx|symmetry; apply Hx].
Qed.
Lemma a_op o : agg_op nr o <-> exists j k us n sa, t = TOp k us /\ nth_error hs i = Some (HVar (head_var j)) /\ norm_hterm t = Some (n, sa) /\ In (new_assignment (head_var j) n) os /\ o = to_oper (new_assignment (head_var j) n).
Proof.
  split.
  - intros (Ho & Hnb & Hnn). rewrite (nm_ops r nr os Hn) in Ho. apply in_map_iff in Ho. destruct Ho as (o' & <- & Ho).
    assert (Hasg : forall x n, In (new_assignment x n) os -> o' = new_assignment x n -> (forall w, In w (nvs n) -> bound nr w) -> False).
    { intros x n Hx -> Hb. apply Hnb. now apply assign_op. }
    destruct (nm_cases r nr os Hn _ Ho) as [(k & us & Hl & E)|[(m' & p' & ts' & xs & i' & t' & x & n & H1 & H2 & H3 & H4 & E & H5 & H6 & H7)|[(m' & p' & ts' & xs & i' & t' & x & n & H1 & H2 & H3 & H4 & E & H5 & H6 & H7)|(m' & p' & ts' & hs' & H1 & H2 & [(i' & t' & n & sa & j & Q1 & Q2 & Q3 & Q4 & E)|(t' & f' & s' & ds' & n & Q1 & Q2 & Q3 & Q4 & E)])]]].
    + exfalso. destruct (su_ops r Hsup k us Hl) as [Hs|(q & us' & Hq & Hs)].
      * apply Hnb. apply (lop_safe k us o' Hl E Ho). split; auto.
      * destruct (neg_atom q us' Hq) as (xs & Hx & (_ & _ & _ & Hin' & _)). apply (Hnn q xs Hx). split; [rewrite (nm_ops r nr os Hn); now apply in_map|]. split; auto.
        intros w Hw. apply (lop_vars k us o' w Hl E) in Hw. destruct (Hs w Hw) as [?|?]; [left; now apply safe_bound|right; now apply Hin'].
    + exfalso. subst o'. apply (Hasg x n Ho eq_refl). intros w Hw. assert (Hl : In (LPos p' ts') (s_body r)) by (apply in_positive_lit; eapply nth_error_In; eauto). apply safe_bound.
      destruct (atom_term_vars (LPos p' ts') t' n w Hl) as [->|Hs]; auto; [discriminate|simpl; eapply nth_error_In; eauto|]. eapply safe_pos; eauto. eapply nth_error_In; eauto.
    + exfalso. subst o'. assert (Hl : In (LNeg p' ts') (s_body r)) by (apply in_negative_lit; eapply nth_error_In; eauto).
      destruct (nvs_safe_bound (LNeg p' ts') t' n Hl) as [(v & -> & Hvs)|Hsafe]; auto; [discriminate|simpl; eapply nth_error_In; eauto| |apply (Hasg x n Ho eq_refl); intros w Hw; apply safe_bound; auto].
      apply (Hnn p' xs); [eapply nth_error_In; eauto|]. split; [rewrite (nm_ops r nr os Hn); now apply in_map|]. split; auto. intros w Hw. right. apply op_vars_to_oper, assign_vars in Hw. destruct Hw as [->|Hw]; [eapply nth_error_In; eauto|].
      simpl in H5. injection H5 as <-. destruct Hw as [<-|[]]. destruct (Forall2_nth _ _ _ (nm_neg r nr os Hn) m' _ H1) as (b & Hb & Hr). rewrite H2 in Hb. injection Hb as <-. destruct Hr as (_ & _ & _ & Hin' & _). apply Hin'. simpl. eapply nth_error_In; eauto.
    + subst o'. destruct Q3 as (kk & us & ->). assert (Hp : In (p', ts') (s_head r)) by (eapply nth_error_In; eauto). assert (Htin : In (TOp kk us) ts') by (eapply nth_error_In; eauto).
      destruct (norm_hterm_spec _ _ _ Q4 (head_op_plain p' ts' kk us Hp Htin)) as (_ & Hnv & Hsa). destruct sa as [[[f' s'] ds']|].
      * destruct (agg_unique _ _ _ _ _ _ _ _ _ _ _ _ _ _ _ _ Hm Ht Ha H1 Q1 Hsa) as (-> & -> & -> & -> & <- & _). rewrite Eh in H2. injection H2 as <-. exists j, kk, us, n. eexists. repeat split; eauto.
      * exfalso. apply (Hasg _ n Ho eq_refl). destruct (head_op_bound p' ts' kk us n None Hp Htin Hsa Q4) as [Hb _]. exact Hb.
    + exfalso. subst o'. apply (Hasg agg_in n Ho eq_refl). assert (Hp : In (p', ts') (s_head r)) by (eapply nth_error_In; eauto). eapply agg_input_bound; eauto.
  - intros (j & k & us & n & sa & Et & Hh & En & Ho & ->). assert (Htin : In (TOp k us) ts) by (rewrite <- Et; apply a_t). rewrite Et in En. pose proof a_agg as Hag. rewrite Et in Hag.
    destruct (norm_hterm_spec _ _ _ En (head_op_plain p ts k us a_p Htin)) as (_ & Hnv & _). split; [rewrite (nm_ops r nr os Hn); now apply in_map|].
    assert (Hvo : In agg_out (op_vars (to_oper (new_assignment (head_var j) n)))) by (apply op_vars_to_oper, assign_vars; right; apply Hnv; auto). split.
    + intros [_ Hb]. apply out_unbound, Hb. auto.
    + intros q xs Hq (_ & _ & Hv). destruct (Hv _ Hvo) as [Hb|Hx]; [now apply out_unbound|]. destruct (neg_not_agg q xs _ Hq Hx) as [?|Hu]; [discriminate|apply Hu, gen_out].
Qed.
Lemma a_group_bound v : In v (ag_group a) -> bound nr v.
Proof.
  intros Hv. apply Hgrp in Hv. destruct Hv as [[Hv _]|(i' & h & Hne & Hh & Hv)].
  - apply safe_bound. apply (g_head_vars r Hgood p ts t v a_p a_t). now apply outer_uvars.
  - destruct (Forall2_nth' _ _ _ HF i' h Hh) as (t' & Ht' & Hsl). destruct (head_slot_bound p ts t' h v a_p (nth_error_In _ _ Ht') (a_other i' t' Hne Ht') Hsl Hv) as [->|?]; auto.
    exfalso. apply (a_noex v). exists (p, hs). split; [eapply nth_error_In; eauto|]. unfold hatom_ex. apply in_flat_map. exists (HEx v). split; [eapply nth_error_In; eauto|simpl; auto].
Qed.

Lemma agg_forward (M : interp) mu : agg_head_val nr a M mu -> agg_instance r M ts (map (hterm_val mu) hs).
Proof.
  intros (nu & z & Hmt & Hval & Hg & Hz & Hops). exists i, t, f, s, ds, nu, z. split; auto. split; auto. split; [now apply matches_src|]. split; [now apply a_value|].
  rewrite Eo in Hz. apply Forall2_of_nth; [rewrite map_length; eapply Forall2_length'; eauto|]. intros i' t' z' Ht' Hz'. destruct (Forall2_nth _ _ _ HF i' t' Ht') as (h & Hh & Hsl). rewrite nth_error_map, Hh in Hz'. simpl in Hz'. injection Hz' as <-.
  destruct (Nat.eq_dec i' i) as [->|Hne].
  - rewrite Ht in Ht'. injection Ht' as <-. destruct a_shape as [(k & us & Et)|(f0 & u & ds0 & Et)].
    + assert (Hsl' : exists j n sa, h = HVar (head_var j) /\ norm_hterm t = Some (n, sa) /\ In (new_assignment (head_var j) n) os) by (rewrite Et in Hsl |- *; exact Hsl).
      destruct Hsl' as (j & n & sa & -> & En & Ho). assert (Hh' : holds mu (to_oper (new_assignment (head_var j) n))). { apply Hops. apply a_op. exists j, k, us, n, sa. repeat split; auto. }
      apply assign_holds in Hh'. simpl. rewrite <- Hh'. assert (Hplt : plain_term t) by (apply (head_agg_plain p ts t f s ds a_p a_t Ha)).
      destruct (norm_hterm_spec t n sa En Hplt) as (Hev & _ & _). rewrite Hev, Hz. apply eval_ext; [apply Hplt|]. intros v Hv. symmetry. apply Hg. now apply a_outer.
    + rewrite Et in Hsl |- *. simpl in Hsl. subst h. simpl. now rewrite Hz.
  - pose proof (a_eval_other M M nu i' t' h Hmt Hne Ht' Hh) as Hev. rewrite (eval_no_agg nu (Some z) None t' (a_other i' t' Hne Ht')), Hev. f_equal.
    destruct h as [v|v|c]; simpl; auto; symmetry; apply Hg; apply Hgrp; right; eexists; eexists; (split; [exact Hne|split; [exact Hh|simpl; auto]]).
Qed.

Lemma agg_backward (M : interp) x : agg_instance r M ts x -> exists mu, agg_head_val nr a M mu /\ x = map (hterm_val mu) hs.
Proof.
  intros (i0 & t0 & f0 & s0 & ds0 & nu & z & Ht0 & Ha0 & Hmt & Hval & Hinst).
  destruct (agg_unique _ _ _ _ _ _ _ _ _ _ _ _ _ _ _ _ Hm Ht Ha Hm Ht0 Ha0) as (_ & -> & _ & _ & -> & -> & -> & ->). clear Ht0 Ha0.
  destruct (src_matches_norm M M nu Hmt) as (nu2 & Hu & Hm2).
  assert (Hval2 : agg_value nr a M nu2 z) by (apply a_value; auto; eapply src_agg_user; eauto; [apply a_p|apply a_atom]).
  assert (Hinst2 : instance (Some z) nu2 ts x) by (apply (instance_user p ts nu); auto; [apply a_p|intros v Hv; symmetry; auto]).
  destruct (nth_error hs i) as [hi|] eqn:Hhi; [|exfalso; apply nth_error_None in Hhi; rewrite <- (Forall2_length' _ _ _ HF) in Hhi; apply nth_error_None in Hhi; congruence].
  destruct (Forall2_nth _ _ _ Hinst2 i t Ht) as (zi & Hzi & Hev_i).
  set (mu := fun v => if v =? agg_out then z else if memv v (hterm_vars hi) then zi else nu2 v).
  destruct (Forall2_nth _ _ _ HF i t Ht) as (h' & Hh' & Hsl). rewrite Hhi in Hh'. injection Hh' as <-.
  assert (Hplt : plain_term t) by (apply (head_agg_plain p ts t f s ds a_p a_t Ha)).
  assert (Hui : forall v, In v (hterm_vars hi) -> v <> agg_out -> ~ bound nr v).
  { intros v Hv Hne. destruct (head_slot_user p ts t hi v a_p a_t Hsl Hv) as [Et|[Et|[[-> _]|(j & kk & us & n & sa & -> & Et & En & Ho)]]]; [|  |contradiction|].
    1,2: exfalso; destruct a_shape as [(k' & us' & Et')|(f' & s' & ds' & Et')]; congruence.
    pose proof a_t as Q1. pose proof a_agg as Q2. rewrite Et in Q1, Q2, En. apply (agg_head_unbound p ts kk us n sa j a_p Q1 Q2 En Ho). }
  assert (Hmub : forall v, bound nr v -> mu v = nu2 v).
  { intros v Hb. unfold mu. destruct (Nat.eqb_spec v agg_out) as [->|Hne]; [exfalso; now apply out_unbound|]. destruct (memv v (hterm_vars hi)) eqn:Em; auto. apply memv_in in Em. exfalso. eapply Hui; eauto. }
  assert (Hmug : forall v, In v (ag_group a) -> mu v = nu2 v) by (intros v Hv; apply Hmub; now apply a_group_bound).
  assert (Hmuz : mu agg_out = z) by (unfold mu; now rewrite Nat.eqb_refl).
  exists mu. split.
  - exists nu2, z. split; auto. split; auto. split; auto. rewrite Eo. split; auto. intros o Ho. apply a_op in Ho. destruct Ho as (j & k & us & n & sa & Et & Hh & En & Hos & ->).
    rewrite Hhi in Hh. injection Hh as ->. apply assign_holds. destruct (norm_hterm_spec t n sa En Hplt) as (Hev & _ & _). rewrite Hev, Hmuz. rewrite (eval_ext t) with (nu' := nu2); [|apply Hplt|intros v Hv; apply Hmug; now apply a_outer].
    rewrite Hev_i. f_equal. unfold mu. assert (Q : (head_var j =? agg_out) = false) by (apply Nat.eqb_neq; unfold head_var, agg_out; lia). rewrite Q. simpl. now rewrite Nat.eqb_refl.
  - apply nth_error_ext_len; [rewrite map_length, <- (Forall2_length' _ _ _ HF); symmetry; eapply Forall2_length'; eauto|]. intros i' z1 z2 Hz1 Hz2.
    destruct (Forall2_nth' _ _ _ Hinst2 i' z1 Hz1) as (t' & Ht' & He). rewrite nth_error_map in Hz2. destruct (nth_error hs i') as [h|] eqn:Hh; [|discriminate]. simpl in Hz2. injection Hz2 as <-.
    destruct (Nat.eq_dec i' i) as [->|Hne].
    + rewrite Ht in Ht'. injection Ht' as <-. rewrite Hhi in Hh. injection Hh as <-. rewrite Hev_i in He. injection He as <-.
      destruct a_shape as [(k & us & Et)|(f0 & u & ds0 & Et)]; rewrite Et in Hsl.
      * destruct Hsl as (j & n & sa & -> & En & Ho). unfold mu. simpl. assert (Q : (head_var j =? agg_out) = false) by (apply Nat.eqb_neq; unfold head_var, agg_out; lia). rewrite Q. now rewrite Nat.eqb_refl.
      * simpl in Hsl. subst hi. simpl. rewrite Hmuz. rewrite Et in Hev_i. simpl in Hev_i. congruence.
    + pose proof (a_eval_other M M nu2 i' t' h Hm2 Hne Ht' Hh) as Hev. rewrite (eval_no_agg nu2 (Some z) None t' (a_other i' t' Hne Ht')), Hev in He. injection He as <-.
      destruct h as [v|v|c]; simpl; auto; symmetry; apply Hmug; apply Hgrp; right; eexists; eexists; (split; [exact Hne|split; [exact Hh|simpl; auto]]).
Qed.
End Agg.

Theorem agg_head_iff (M : interp) a k p hs x : r_agg nr = Some (a, k) -> nth_error (r_head nr) k = Some (p, hs) ->
  exists ts, nth_error (s_head r) k = Some (p, ts) /\ (agg_instance r M ts x <-> exists mu, agg_head_val nr a M mu /\ x = map (hterm_val mu) hs).
Proof.
  intros Ea Ek. destruct (agg_source a k Ea) as (p' & ts & i & t & f & s & ds & Hk & Ht & Ha).
  destruct (the_aggregate k p' ts i t f s ds Hk Ht Ha) as (hs' & a' & Ea' & Eh & HF & Eo & Ed & Ev & Hnd & Hin & Hgrp). rewrite Ea in Ea'. injection Ea' as <-. rewrite Ek in Eh. injection Eh as <- <-.
  exists ts. split; auto. split.
  - intros H. eapply agg_backward; eauto.
  - intros (mu & H & ->). eapply agg_forward; eauto.
Qed.
Lemma agg_instance_index (M : interp) p ts x : In (p, ts) (s_head r) -> agg_instance r M ts x -> exists a k hs, r_agg nr = Some (a, k) /\ nth_error (s_head r) k = Some (p, ts) /\ nth_error (r_head nr) k = Some (p, hs).
Proof.
  intros Hp (i & t & f & s & ds & nu & z & Ht & Ha & _). destruct (head_pair p ts Hp) as (k & hs & Hk & _ & _).
  destruct (the_aggregate k p ts i t f s ds Hk Ht Ha) as (hs' & a & Ea & Eh & _). eauto 6.
Qed.

End Rule.
