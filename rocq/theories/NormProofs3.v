(** Head atoms and the shape of a normalized rule. *)
From Coq Require Import List Arith ZArith Bool Lia Permutation.
From Verif Require Import TableModel EngineModel EngineSpec EngineProofs1 NormModel NormSpec NormProofs1 NormProofs2.
Import ListNotations.

Definition agg_rel (os : list nop) (ts : list term) (hs : list hterm) (a : aggregate) : Prop :=
  exists f s ds m t, nth_error ts m = Some t /\ aggregates f s ds t /\ ag_out a = agg_out /\ ag_distinct a = ds /\ ag_val a = f /\
    NoDup (ag_group a) /\
    ((exists v, (s = TVar v \/ s = TEx v \/ (s = TAnon /\ v = anonymous)) /\ ag_in a = v) \/
     (ag_in a = agg_in /\ (forall v, s <> TVar v) /\ exists n, norm_term s = Some n /\ In (new_assignment agg_in n) os)) /\
    forall v, In v (ag_group a) <-> (In v (outer_vars t) /\ v <> agg_out) \/
      exists m' h, m' <> m /\ nth_error hs m' = Some h /\ In v (hterm_vars h).
Lemma agg_rel_mono os os' ts hs a : incl os os' -> agg_rel os ts hs a -> agg_rel os' ts hs a.
Proof.
  intros Hi (f & s & ds & m & t & H1 & H2 & H3 & H4 & H5 & H6 & H7 & H8). exists f, s, ds, m, t. repeat split; auto; try apply H8.
  destruct H7 as [H7|(Q1 & Q2 & n & Q3 & Q4)]; [left; auto|right; repeat split; auto; exists n; auto].
Qed.

(** The operations of a head atom. *)
Definition hop (ts : list term) (hs : list hterm) (o : nop) : Prop :=
  (exists m t n sa j, nth_error ts m = Some t /\ nth_error hs m = Some (HVar (head_var j)) /\ (exists kk us, t = TOp kk us) /\
      norm_hterm t = Some (n, sa) /\ o = new_assignment (head_var j) n) \/
  (exists t f s ds n, In t ts /\ aggregates f s ds t /\ (forall v, s <> TVar v) /\ norm_term s = Some n /\ o = new_assignment agg_in n).

Lemma combine_seq_in (hs : list hterm) m h : In (m, h) (combine (seq 0 (length hs)) hs) <-> nth_error hs m = Some h.
Proof.
  assert (G : forall hs b m, In (m, h) (combine (seq b (length hs)) hs) <-> exists j, m = b + j /\ nth_error hs j = Some h).
  { clear. induction hs as [|x hs IH]; intros b m; simpl.
    - split; [tauto|]. intros (j & _ & Hj). destruct j; discriminate.
    - rewrite IH. split.
      + intros [E|(j & -> & Hj)]; [injection E as <- <-; exists 0; split; auto; lia|exists (S j); split; auto; lia].
      + intros ([|j] & -> & Hj); [left; injection Hj as <-; f_equal; lia|right; exists j; split; auto; lia]. }
  rewrite G. split; [intros (j & -> & Hj); auto|intros H; exists m; auto].
Qed.
Lemma group_of_spec hs vs idx v : In v (group_of hs vs idx) <-> In v vs \/ exists m' h, m' <> idx /\ nth_error hs m' = Some h /\ In v (hterm_vars h).
Proof.
  unfold group_of. rewrite nodup_In, in_app_iff, in_flat_map. split; (intros [H|H]; [left; auto|right]).
  - destruct H as ([m h] & Hin & Hv). simpl in Hv. destruct (Nat.eqb_spec m idx) as [->|Hne]; [destruct Hv|]. apply combine_seq_in in Hin. eauto.
  - destruct H as (m & h & Hne & Hm & Hv). exists (m, h). split; [now apply combine_seq_in|]. simpl. destruct (Nat.eqb_spec m idx); [contradiction|auto].
Qed.

Definition head_hyps (ts : list term) : Prop :=
  (forall t v, In t ts -> t = TVar v \/ t = TEx v -> ish v = false) /\
  (forall t, In t ts -> has_anon t = false /\ (forall kk us, t = TOp kk us -> has_ex t = false)).

Lemma norm_head_atom_spec ts k hs os a k' : norm_head_atom ts k = Some (hs, os, a, k') -> head_hyps ts ->
  k <= k' /\ Forall2 (hslot os) ts hs /\
  (forall v, In v (gen_heads hs) -> exists j, k < j <= k' /\ v = head_var j) /\ NoDup (gen_heads hs) /\
  (forall o, In o os -> hop ts hs o) /\
  match a with None => ~ aggregating_atom ts | Some a => agg_rel os ts hs a end.
Proof.
  unfold norm_head_atom. intros E [Hu He]. destruct (norm_head_terms ts 0 k None) as [[[[hs1 os1] a1] k1]|] eqn:E1; [|discriminate].
  destruct (norm_head_terms_spec ts 0 k None hs1 os1 a1 k1 E1 Hu He) as (K & F & G & N & O & A).
  destruct a1 as [[[[[f s] ds] vs] idx]|].
  2:{ injection E as <- <- <- <-. split; auto. split; auto. split; auto. split; auto. split; [intros o Ho; left; auto|].
      destruct A as [[_ A]|(f & s & ds & vs & m & t & Q & _)]; [|discriminate]. intros (t & Ht & Ha). apply (A t Ht Ha). }
  destruct A as [[Q _]|(f' & s' & ds' & vs' & m & t & Q & Hm & Ha & Hvs)]; [discriminate|]. injection Q as <- <- <- <- ->.
  destruct (norm_aggregation _ _) as [[a2 os2]|] eqn:E2; [|discriminate]. injection E as <- <- <- <-.
  split; auto. split; [apply hslots_mono with os1; auto; apply incl_appl, incl_refl|]. split; auto. split; auto.
  assert (Hgrp : forall v, In v (group_of hs1 vs m) <-> (In v (outer_vars t) /\ v <> agg_out) \/ exists m' h, m' <> m /\ nth_error hs1 m' = Some h /\ In v (hterm_vars h)).
  { intros v. rewrite group_of_spec, Hvs. tauto. }
  assert (Hcase : (exists v, (s = TVar v \/ s = TEx v \/ (s = TAnon /\ v = anonymous)) /\ a2 = mkAgg v agg_out ds (group_of hs1 vs m) f /\ os2 = []) \/
     (a2 = mkAgg agg_in agg_out ds (group_of hs1 vs m) f /\ (forall v, s <> TVar v) /\ exists n, norm_term s = Some n /\ os2 = [new_assignment agg_in n])).
  { unfold norm_aggregation in E2. cbn [Nat.add] in E2. destruct s as [v| |v|c|kk us|f0 t0 ds0|us]; try discriminate.
    1-3: injection E2 as <- <-; left; eexists; split; [|split; reflexivity]; auto.
    - simpl in E2. injection E2 as <- <-. right. split; [reflexivity|]. split; [discriminate|]. exists (NConst c). auto.
    - destruct (norm_term (TOp kk us)) as [n|] eqn:En; [|discriminate]. injection E2 as <- <-. right. split; [reflexivity|]. split; [discriminate|]. eauto. }
  split.
  - intros o Ho. apply in_app_iff in Ho. destruct Ho as [Ho|Ho]; [left; auto|].
    destruct Hcase as [(v & _ & _ & ->)|(_ & Hs & n & Hn & ->)]; [destruct Ho|]. destruct Ho as [<-|[]].
    right. exists t, f, s, ds, n. repeat split; auto. eapply nth_error_In; eauto.
  - exists f, s, ds, m, t. split; auto. split; auto.
    destruct Hcase as [(v & Hs & -> & ->)|(-> & Hs & n & Hn & ->)]; simpl; (repeat split; auto; try apply NoDup_nodup; try apply Hgrp).
    + left. eauto.
    + right. repeat split; auto. exists n. split; auto. apply in_or_app. right. now left.
Qed.

Definition hatom_rel (os : list nop) (a : tag * list term) (b : hatom) : Prop := fst a = fst b /\ Forall2 (hslot os) (snd a) (snd b).

Lemma norm_heads_spec : forall l i k ag l' os ag', norm_heads l i k ag = Some (l', os, ag') -> (forall p ts, In (p, ts) l -> head_hyps ts) ->
  Forall2 (hatom_rel os) l l' /\
  (forall v, In v (filter ish (flat_map hatom_vars l')) -> exists j, k < j /\ v = head_var j) /\ NoDup (filter ish (flat_map hatom_vars l')) /\
  (forall o, In o os -> exists m p ts hs, nth_error l m = Some (p, ts) /\ nth_error l' m = Some (p, hs) /\ hop ts hs o) /\
  ((ag' = ag /\ forall p ts, In (p, ts) l -> ~ aggregating_atom ts) \/
   exists m p ts hs a, ag' = Some (a, i + m) /\ nth_error l m = Some (p, ts) /\ nth_error l' m = Some (p, hs) /\ agg_rel os ts hs a).
Proof.
  induction l as [|[p ts] l IH]; intros i k ag l' os ag' E Hh; simpl in E.
  - injection E as <- <- <-. split; [constructor|]. split; [intros v []|]. split; [constructor|]. split; [intros o []|]. left. split; [reflexivity|intros p ts []].
  - destruct (norm_head_atom ts k) as [[[[hs os1] a] k1]|] eqn:E1; [|discriminate].
    destruct (norm_heads l (S i) k1 _) as [[[l1 os2] ag1]|] eqn:E2; [|discriminate]. injection E as <- <- <-.
    destruct (norm_head_atom_spec _ _ _ _ _ _ E1) as (K & F & G & N & O & A); [apply (Hh p); now left|].
    destruct (IH _ _ _ _ _ _ E2) as (F' & G' & N' & O' & A'); [intros q us Hq; apply (Hh q); now right|].
    split; [|split; [|split; [|split]]].
    + constructor; [split; auto; apply hslots_mono with os1; auto; apply incl_appl, incl_refl|].
      assert (Hi : incl os2 (os1 ++ os2)) by (apply incl_appr, incl_refl). clear - F' Hi. induction F' as [|x y l l' [H1 H2] _ IH]; constructor; auto. split; auto. eapply hslots_mono; eauto.
    + intros v Hv. simpl in Hv. rewrite filter_app in Hv. apply in_app_iff in Hv. destruct Hv as [Hv|Hv].
      * destruct (G v Hv) as (j & Hj & ->). exists j. split; [lia|auto].
      * destruct (G' v Hv) as (j & Hj & ->). exists j. split; [lia|auto].
    + simpl. rewrite filter_app. apply NoDup_app'; auto. intros v Hv Hw. destruct (G v Hv) as (j & Hj & ->). destruct (G' _ Hw) as (j' & Hj' & Ej). unfold head_var in Ej. lia.
    + intros o Ho. apply in_app_iff in Ho. destruct Ho as [Ho|Ho].
      * exists 0, p, ts, hs. auto.
      * destruct (O' o Ho) as (m & q & us & hs' & H). exists (S m), q, us, hs'. exact H.
    + assert (Hi1 : incl os1 (os1 ++ os2)) by (apply incl_appl, incl_refl). assert (Hi2 : incl os2 (os1 ++ os2)) by (apply incl_appr, incl_refl).
      destruct A' as [[-> Hno]|(m & q & us & hs' & a' & -> & H1 & H2 & H3)].
      * destruct a as [a|].
        -- right. exists 0, p, ts, hs, a. rewrite Nat.add_0_r. exact (conj eq_refl (conj eq_refl (conj eq_refl (agg_rel_mono os1 _ ts hs a Hi1 A)))).
        -- left. split; auto. intros q us [Eq|Hq]; [injection Eq as <- <-; auto|eauto].
      * right. exists (S m), q, us, hs', a'. rewrite Nat.add_succ_r. exact (conj eq_refl (conj H1 (conj H2 (agg_rel_mono os2 _ us hs' a' Hi2 H3)))).
Qed.

(** Totality. *)
Lemma norm_hterm_total g t : forall b, head_term_ok g t = Some b -> exists n sa, norm_hterm t = Some (n, sa).
Proof.
  induction t as [v| |v|c|k ts IH|f t ds _|ts _] using term_ind'; intros b E; simpl; eauto; [|discriminate].
  simpl in E. apply agg_fold_spec in E. destruct E as (H & _). rewrite Forall_forall in IH.
  destruct (mapo_total norm_hterm ts) as (l & ->); eauto. intros t Ht. destruct (H t Ht) as (c & Ec). destruct (IH t Ht c Ec) as (n & sa & ->). eauto.
Qed.
Lemma norm_head_terms_total g : forall ts i k ag, (forall t, In t ts -> exists b, head_term_ok g t = Some b) ->
  exists hs os a k', norm_head_terms ts i k ag = Some (hs, os, a, k').
Proof.
  induction ts as [|t ts IH]; intros i k ag H; [simpl; eauto 6|].
  assert (IH' : forall i k ag, exists hs os a k', norm_head_terms ts i k ag = Some (hs, os, a, k')) by (intros; apply IH; intros; apply H; now right).
  destruct (H t) as (b & Eb); [now left|].
  destruct (IH' (S i) k ag) as (h1 & o1 & a1 & k1 & E1).
  destruct t as [v| |v|c|kk us|f s ds|us]; try discriminate; cbn [norm_head_terms]; rewrite ?E1; eauto 6.
  - destruct (norm_hterm_total g (TOp kk us) b Eb) as (n & sa & ->). edestruct IH' as (h2 & o2 & a2 & k2 & ->). eauto 6.
  - edestruct IH' as (h2 & o2 & a2 & k2 & ->). eauto 6.
Qed.
Lemma norm_head_atom_total g ts k : head_hyps ts -> (forall t, In t ts -> exists b, head_term_ok g t = Some b) ->
  exists hs os a k', norm_head_atom ts k = Some (hs, os, a, k').
Proof.
  intros [Hu He] H. unfold norm_head_atom. destruct (norm_head_terms_total g ts 0 k None H) as (hs & os & a & k' & E). rewrite E.
  destruct (norm_head_terms_spec ts 0 k None hs os a k' E Hu He) as (_ & _ & _ & _ & _ & A).
  destruct a as [[[[[f s] ds] vs] idx]|]; [|eauto 6].
  destruct A as [[Q _]|(f' & s' & ds' & vs' & m & t & Q & Hm & Ha & _)]; [discriminate|]. injection Q as <- <- <- _ _.
  destruct (H t) as (b & Eb); [eapply nth_error_In; eauto|]. destruct (head_term_spec g t b Eb) as (_ & _ & Q). destruct (Q _ _ _ Ha) as (Hop & _).
  destruct (proj1 (norm_term_op s) Hop) as (n & En). unfold norm_aggregation. destruct s; try discriminate; rewrite ?En; eauto 6.
Qed.
Lemma norm_heads_total : forall l i k ag, (forall p ts, In (p, ts) l -> head_hyps ts /\ exists g, forall t, In t ts -> exists b, head_term_ok g t = Some b) ->
  exists l' os ag', norm_heads l i k ag = Some (l', os, ag').
Proof.
  induction l as [|[p ts] l IH]; intros i k ag H; simpl; eauto.
  destruct (H p ts) as (H1 & g & H2); [now left|]. destruct (norm_head_atom_total g ts k H1 H2) as (hs & os & a & k' & ->).
  destruct (IH (S i) k' (match a with Some a => Some (a, i) | None => ag end)) as (l' & os' & ag' & ->); [|eauto]. intros q us Hq. apply (H q). now right.
Qed.

(** Every generated head variable is assigned once. *)
Definition count (v : var) (os : list nop) : nat := length (filter (assigns v) (map to_oper os)).
Lemma count_app v a b : count v (a ++ b) = count v a + count v b.
Proof. unfold count. now rewrite map_app, filter_app, app_length. Qed.
Lemma count_assign v x n os : count v (new_assignment x n :: os) = (if x =? v then 1 else 0) + count v os.
Proof. unfold count. cbn [map]. rewrite to_oper_assign. simpl. destruct (x =? v); reflexivity. Qed.
Lemma norm_head_terms_once : forall ts i k ag hs os a k', norm_head_terms ts i k ag = Some (hs, os, a, k') ->
  k <= k' /\ forall j, count (head_var j) os <= 1 /\ (1 <= count (head_var j) os -> k < j <= k').
Proof.
  induction ts as [|t ts IH]; intros i k ag hs os a k' E; simpl in E.
  - injection E as <- <- <- <-. split; auto. intros j. unfold count. simpl. lia.
  - destruct t as [v| |v|c|kk us|f s ds|us]; try discriminate;
      try (match type of E with match ?X with _ => _ end = _ => destruct X as [[[[hs1 os1] a1] k1]|] eqn:E1; [|discriminate] end; injection E as <- <- <- <-; exact (IH _ _ _ _ _ _ _ E1)).
    match type of E with match ?X with _ => _ end = _ => destruct X as [[n sa]|] eqn:En; [|discriminate] end.
    match type of E with match ?X with _ => _ end = _ => destruct X as [[[[hs1 os1] a1] k1]|] eqn:E1; [|discriminate] end. injection E as <- <- <- <-.
    destruct (IH _ _ _ _ _ _ _ E1) as [K H]. split; [lia|]. intros j. rewrite count_assign. destruct (H j) as [H1 H2].
    destruct (Nat.eqb_spec (head_var (S k)) (head_var j)) as [Ej|Ej]; [|split; [lia|intros Q; assert (S k < j <= k1) by (apply H2; lia); lia]].
    assert (j = S k) by (unfold head_var, var in Ej; lia). subst j. assert (count (head_var (S k)) os1 = 0) by (destruct (count (head_var (S k)) os1); [auto|assert (S k < S k <= k1) by (apply H2; lia); lia]).
    split; lia.
Qed.
Lemma head_not_in j : (agg_in =? head_var j) = false.
Proof. apply Nat.eqb_neq. unfold agg_in, head_var. lia. Qed.
Lemma norm_head_atom_once ts k hs os a k' : norm_head_atom ts k = Some (hs, os, a, k') ->
  k <= k' /\ forall j, count (head_var j) os <= 1 /\ (1 <= count (head_var j) os -> k < j <= k').
Proof.
  unfold norm_head_atom. intros E. destruct (norm_head_terms ts 0 k None) as [[[[hs1 os1] a1] k1]|] eqn:E1; [|discriminate]. pose proof (norm_head_terms_once _ _ _ _ _ _ _ _ E1) as H.
  destruct a1 as [[[[[f s] ds] vs] idx]|]; [|injection E as <- <- <- <-; exact H].
  destruct (norm_aggregation _ _) as [[a2 os2]|] eqn:E2; [|discriminate]. injection E as <- <- <- <-. destruct H as [K H]. split; auto. intros j. rewrite count_app.
  replace (count (head_var j) os2) with 0; [rewrite Nat.add_0_r; auto|]. unfold norm_aggregation in E2.
  destruct s; try discriminate; try (injection E2 as <- <-; reflexivity).
  - destruct (norm_term (TConst c)); [|discriminate]. injection E2 as <- <-. rewrite count_assign, head_not_in. reflexivity.
  - destruct (norm_term (TOp k0 ts0)); [|discriminate]. injection E2 as <- <-. rewrite count_assign, head_not_in. reflexivity.
Qed.
Lemma norm_heads_once : forall l i k ag l' os ag', norm_heads l i k ag = Some (l', os, ag') ->
  forall j, count (head_var j) os <= 1 /\ (1 <= count (head_var j) os -> k < j).
Proof.
  induction l as [|[p ts] l IH]; intros i k ag l' os ag' E j; simpl in E.
  - injection E as <- <- <-. unfold count. simpl. lia.
  - destruct (norm_head_atom ts k) as [[[[hs os1] a] k1]|] eqn:E1; [|discriminate]. destruct (norm_heads l (S i) k1 _) as [[[l1 os2] ag1]|] eqn:E2; [|discriminate]. injection E as <- <- <-.
    destruct (norm_head_atom_once _ _ _ _ _ _ E1) as [K H1]. destruct (H1 j) as [A1 A2]. destruct (IH _ _ _ _ _ _ E2 j) as [B1 B2]. rewrite count_app.
    assert (1 <= count (head_var j) os1 -> 1 <= count (head_var j) os2 -> False) by (intros Q1 Q2; apply A2 in Q1; apply B2 in Q2; lia).
    split; [lia|]. intros Q. destruct (count (head_var j) os1) eqn:C1; [assert (k1 < j) by (apply B2; lia); lia|]. assert (k < j <= k1) by (apply A2; lia). lia.
Qed.
Lemma count_zero v os : (forall x e o, In o os -> to_oper o = OEq x e -> x <> v) -> count v os = 0.
Proof.
  intros H. unfold count. induction os as [|o os IH]; auto. simpl. assert (Q : assigns v (to_oper o) = false).
  { destruct (to_oper o) as [x e|e] eqn:Eo; auto. simpl. apply Nat.eqb_neq. apply (H x e o); [now left|auto]. }
  rewrite Q. apply IH. intros x e o' Ho. apply (H x e o'). now right.
Qed.
