(** Proofs: rules with several factors. *)
From Coq Require Import List Arith ZArith Bool Lia Permutation Sorted.
From Verif Require Import TableModel EngineModel EngineSpec EngineProofs1 EngineProofs2 EngineProofs3 EngineProofs13.
From Verif Require Import StageModel StageSpec StageProofs1 StageProofs2 StageProofs3 StageProofs4 StageProofs5.
Import ListNotations.

Lemma part_factor r p : (forall p xs, In (p, xs) (i_pos r) -> xs <> []) -> In p (fold_left add_atom (i_pos r) []) -> factor_of r (snd p) /\ incl (snd p) (i_pos r).
Proof.
  intros Hne Hp. pose proof (fold_parts (i_pos r)) as [H1 H2 H3 H4].
  assert (Hin : incl (snd p) (i_pos r)).
  { intros b Hb. apply (Permutation_in _ H1), in_flat_map. eauto. }
  split; auto. destruct (snd p) as [|a l] eqn:Ep; [exfalso; now apply (H3 p)|]. exists a. split; [apply Hin; simpl; auto|].
  rewrite <- Ep. intros b. split.
  - intros Hb. apply (fold_linked (i_pos r) p); auto. rewrite Ep. simpl. auto.
  - intros Hl. destruct (same_part _ _ _ Hl) as (q & Hq & Ha & Hb).
    assert (Hap : In a (snd p)) by (rewrite Ep; simpl; auto).
    destruct a as [t xs]. assert (Hx : xs <> []) by (apply (Hne t); apply Hin; simpl; auto). destruct xs as [|v xs]; [contradiction|].
    destruct (fop_in _ _ p q H4 Hp Hq) as [->|[Hd|Hd]]; auto; exfalso; apply (Hd v); [apply (H2 p v)|apply (H2 q v)|apply (H2 q v)|apply (H2 p v)]; auto;
      exists (t, v :: xs); simpl; auto.
Qed.

Lemma clo_mono vs vs' ops ops' : incl vs vs' -> incl ops ops' -> forall v, clo vs ops v -> clo vs' ops' v.
Proof. intros H1 H2 v. induction 1 as [v Hv|v e Hi _ IH]; [left; auto | eright; eauto]. Qed.

Section Many.
Context (rd : reader) (D : tag -> nat -> row -> Prop) (Hrd : rd_ok rd D).
Context (r : irule) (G : good_body r) (M : many_factors r).

Lemma neg_locality (negs : list atom) : (exists f, negs = filter f (i_neg r)) -> forall i k (a b : atom) v,
  nth_error negs i = Some a -> nth_error negs k = Some b -> i <> k -> In v (snd a) -> In v (snd b) -> bound (plain r) v.
Proof.
  intros [f ->] i k [p xs] [q ys] v Hi Hk Hne Ha Hb. destruct (nth_filter _ _ _ _ _ _ Hi Hk Hne) as (i' & k' & Q1 & Q2 & Q3).
  apply (g_local r G i' k' p xs q ys v); auto.
Qed.

Lemma unbound_local p xs o : In (p, xs) (i_neg r) -> neg_op (plain r) xs o -> exists t, In t (op_vars o) /\ In t xs /\ ~ bound (plain r) t.
Proof.
  intros Ha (Ho & Hn & Hv).
  assert (Dec : forall v, bound (plain r) v \/ ~ bound (plain r) v).
  { intros v. destruct (gen_function_spec (atom_vars (i_pos r ++ i_pimp r)) (i_ops r)) as (vs & fs & rest & E & _).
    pose proof (gen_function_clo _ _ _ _ _ E v) as H. rewrite bound_plain, <- H. destruct (in_dec Nat.eq_dec v vs); auto. }
  assert (Hx : forall l, (forall w, In w l -> bound (plain r) w) \/ exists w, In w l /\ ~ bound (plain r) w).
  { induction l as [|x l IH]; [left; intros w []|]. destruct (Dec x) as [Hx|Hx]; [|right; exists x; simpl; auto].
    destruct IH as [IH|(w & Hw & IH)]; [left; intros w [<-|Hw]; auto | right; exists w; simpl; auto]. }
  destruct (Hx (op_vars o)) as [Ha'|(t & Ht & Hnt)]; [exfalso; apply Hn; split; auto|]. exists t. split; auto. split; auto.
  destruct (Hv t Ht); auto. contradiction.
Qed.

(** Matches agree with the tables of the factors. *)
Lemma factors_fit cur last : last <= cur -> forall (fs : list partition_t) ops negs res,
  (forall p, In p fs -> factor_of r (snd p) /\ incl (snd p) (i_pos r)) ->
  incl ops (i_ops r) -> (exists f, negs = filter f (i_neg r)) ->
  (forall p xs o, In (p, xs) negs -> neg_op (plain r) xs o -> In o ops) ->
  factor_nodes rd (i_order r) (map (fun p : partition_t => FAtoms (snd p)) fs) ops negs cur last = Some res ->
  length (fst (fst res)) = length fs /\
  forall k p n vs nu, nth_error fs k = Some p -> nth_error (fst (fst res)) k = Some (n, vs) ->
    (forall o, body_op (plain r) o -> holds nu o) ->
    (forall q ys, In (q, ys) (i_neg r) -> ~ neg_match (plain r) (before D cur) nu q ys) ->
    (forall a, In a (snd p) -> exists s, s < cur /\ D (fst a) s (map nu (snd a))) ->
    (exists a s, In a (snd p) /\ last <= s < cur /\ D (fst a) s (map nu (snd a))) -> fits nu n.
Proof.
  intros Hle fs. induction fs as [|p fs IH]; intros ops negs res Hfs Hops Hnegs Hkeep H.
  { cbn in H. injection H as <-. split; auto. intros [|k] q n vs nu Hq; discriminate. }
  cbn [map factor_nodes] in H. destruct (Hfs p) as [Hf Hin]; [simpl; auto|]. set (l := snd p) in *.
  destruct (g_order r G) as [Ond Oin].
  assert (Oinl : incl (atom_vars l) (i_order r)).
  { intros v Hv. apply Oin. rewrite atom_vars_app, in_app_iff. left. unfold atom_vars in *. apply in_flat_map in Hv.
    destruct Hv as (a & Ha & Hv). apply in_flat_map. exists a. auto. }
  destruct (seminaive_spec rd D Hrd true l (i_order r) cur last) as (j & Ej & J1 & J2 & J3); auto.
  { intros [q xs] Ha. apply (g_atoms r G q). apply in_app_iff. left. apply Hin, Ha. }
  rewrite Ej in H.
  destruct (gen_ffn (restrict (i_order r) (atom_vars l)) ops negs) as [[[g1 ops1] negs1]|] eqn:Eg1; [|discriminate].
  destruct (ffn_node rd g1 j cur last) as [n1|] eqn:En1; [|discriminate].
  destruct (factor_nodes rd (i_order r) (map (fun p : partition_t => FAtoms (snd p)) fs) ops1 negs1 cur last) as [[[ns ops2] negs2]|] eqn:Er; [|discriminate].
  injection H as <-. cbn [fst].
  set (vs0 := restrict (i_order r) (atom_vars l)) in *.
  assert (Cl : forall v, clo vs0 ops v -> bound (part r l) v).
  { intros v Hv. apply clo_bound. cbn [part r_pos r_ops]. eapply clo_mono; [| |exact Hv]; auto. intros w Hw. unfold vs0 in Hw. apply restrict_in in Hw. tauto. }
  assert (Cp : forall v, clo vs0 ops v -> bound (plain r) v).
  { intros v Hv. apply bound_plain. eapply clo_mono; [| |exact Hv]; auto. intros w Hw. unfold vs0 in Hw. apply restrict_in in Hw.
    rewrite atom_vars_app, in_app_iff. left. destruct Hw as [_ Hw]. unfold atom_vars in *. apply in_flat_map in Hw.
    destruct Hw as (a & Ha & Hw). apply in_flat_map. exists a. auto. }
  assert (Ca : forall v, In v (atom_vars l) -> clo vs0 ops v) by (intros v Hv; left; now apply restrict_all).
  assert (Hni : forall a, In a negs -> In a (i_neg r)).
  { destruct Hnegs as [f ->]. intros a Ha. apply filter_In in Ha. tauto. }
  destruct (ffn_spec rd D Hrd vs0 ops negs cur last j g1 ops1 negs1 n1 J2 J1) as (F1 & F2 & F3 & F4 & F5 & F6); auto.
  { intros [q xs] Ha. apply (g_atoms r G q), in_app_iff. right. apply in_app_iff. auto. }
  { intros i k [q xs] [q' ys] v Hi Hk Hne Ha Hb (w & Hw & Hcw) _. apply Ca.
    apply (m_neg r M l q xs Hf); auto; [apply Hni, (nth_error_In _ _ Hi) | exists w; auto|]. apply (neg_locality negs Hnegs i k _ _ v Hi Hk); auto. }
  assert (Nf : negs1 = filter (fun a => negb (shares (fst (fst (fst g1))) a)) negs).
  { clear - Eg1. unfold gen_ffn in Eg1. destruct (gen_function _ _) as [[[vs' fns] o1]|]; [|discriminate].
    destruct (gen_filter vs' o1) as [fs0 o2]. rewrite gen_negation_filter in Eg1.
    destruct (gen_negation vs' _ o2) as [[x y] z]. injection Eg1 as <- <- <-. reflexivity. }
  destruct (IH ops1 negs1 (ns, ops2, negs2)) as [L R]; auto.
  { intros o Ho. apply Hops. apply F5 in Ho. tauto. }
  { destruct Hnegs as [f Hn]. exists (fun a => f a && negb (shares (fst (fst (fst g1))) a)). rewrite Nf, Hn. clear.
    induction (i_neg r) as [|a l IH]; simpl; auto. destruct (f a); simpl; [destruct (shares _ a); simpl; now rewrite IH|auto]. }
  { intros q xs o Ha Ho. pose proof (proj1 (F4 (q, xs)) Ha) as [Han Hns]. apply F5. split; [now apply (Hkeep q xs)|].
    destruct (unbound_local q xs o (Hni _ Han) Ho) as (t & Ht & Htx & Htb). split; [exists t; split; auto|].
    intros [q' ys] Hb Hsh. exists t. split; auto. split; auto. cbn [snd]. intros Hty. apply Htb.
    destruct (In_nth_error _ _ Han) as (i & Hi). destruct (In_nth_error _ _ Hb) as (k & Hk).
    apply (neg_locality negs Hnegs i k (q, xs) (q', ys) t); auto. intros Eik. subst k. pose proof (eq_trans (eq_sym Hi) Hk) as Epq. injection Epq as -> ->. auto. }
  cbn [fst] in L, R. split; [simpl; now rewrite L|].
  intros [|k] q n vs nu Hq Hk Ho Hn Hp Hnew; [|apply (R k q n vs nu); auto]. cbn in Hq, Hk. injection Hq as <-. injection Hk as <- _.
  change (msat nu n1). apply F6. rewrite J3. split; [split; auto|split].
  { intros o Hoo Hv. apply Ho. split; [apply Hops; auto|]. intros w Hw. apply Cp. auto. }
  intros [q xs] Ha (w & Hw & Hcw) (nu' & H1 & H2 & H3). cbn [snd fst] in *.
  assert (Hsh : exists v, In v xs /\ bound (part r l) v) by (exists w; auto).
  apply (Hn q xs (Hni _ Ha)). exists (fun v => if in_dec Nat.eq_dec v xs then nu' v else nu v). split; [|split].
  - intros v Hv. destruct (in_dec Nat.eq_dec v xs) as [Hx|Hx]; auto. apply H1, Ca. apply (m_neg r M l q xs Hf (Hni _ Ha) Hsh v Hx Hv).
  - erewrite map_ext_in; [exact H2|]. intros v Hv. cbv beta. destruct (in_dec Nat.eq_dec v xs); tauto.
  - intros o Hno. pose proof (m_neg_ops r M l q xs o Hf (Hni _ Ha) Hsh Hno) as Hb0.
    apply (holds_ext _ nu').
    + intros x Hx. destruct (in_dec Nat.eq_dec x xs) as [Hxx|Hxx]; auto. destruct (Hb0 x Hx) as [Hbx|?]; [|contradiction]. symmetry. apply H1, Ca, Hbx.
    + apply H3; [apply (Hkeep q xs); auto| |].
      * destruct (unbound_local q xs o (Hni _ Ha) Hno) as (t & Ht & _ & Htb). exists t. split; auto.
      * intros x Hx. destruct (Hb0 x Hx) as [Hbx|?]; auto.
Qed.
End Many.
