(** The theorem about merging. *)
From Coq Require Import String Ascii List Arith Bool Lia.
From Verif Require Import QueryModel QuerySpec QueryProofs1 QueryProofs2 QueryProofs3.
Import ListNotations.
Local Open Scope list_scope.

Lemma names_apart c d k n : In c ["j"; "l"; "r"; "v"]%string -> In d ["j"; "l"; "r"; "v"]%string -> (c ++ decimal k = d ++ decimal n)%string -> c = d /\ k = n.
Proof.
  intros Hc Hd H. assert (Q : c = d).
  { destruct Hc as [<- |[<- |[<- |[<- |[]]]]], Hd as [<- |[<- |[<- |[<- |[]]]]]; auto; cbn in H; discriminate. }
  subst d. split; auto. apply append_inj_l, decimal_inj in H. auto.
Qed.

Section merge.
  Variable order : list string -> list string.
  Hypothesis Ho : forall l v, In v (order l) <-> In v l.
  Variable E : endpoint.
  Variables (il ir : pattern) (lvs rvs : list string) (joins lc rc : list (nat * nat)).
  Let left := PProject il lvs.
  Let right := PProject ir rvs.
  Hypothesis M : mergeable E left right joins lc rc.
  Let lj := map (fun j => nth (fst j) lvs EmptyString) joins.
  Let rj := map (fun j => nth (snd j) rvs EmptyString) joins.
  Let lm := standardize order "l" (variables_in left) lj.
  Let rm := standardize order "r" (variables_in right) rj.
  Let fl := rename_variable lm.
  Let fr := rename_variable rm.

  Lemma Pl : plain_names left. Proof. apply M. Qed.
  Lemma Pr : plain_names right. Proof. apply M. Qed.
  Lemma Nl : NoDup lvs. Proof. apply M. Qed.
  Lemma Nr : NoDup rvs. Proof. apply M. Qed.
  Lemma Gj : good_joins (List.length lvs) (List.length rvs) joins. Proof. apply M. Qed.
  Lemma Gl : good_constants (List.length lvs) lc. Proof. apply M. Qed.
  Lemma Gr : good_constants (List.length rvs) rc. Proof. apply M. Qed.
  Lemma Bl k : In k (map fst joins) \/ In k (map fst lc) -> always_bound E left k. Proof. apply M. Qed.
  Lemma Br k : In k (map snd joins) \/ In k (map fst rc) -> always_bound E right k. Proof. apply M. Qed.
  Lemma Bl' k c : In (k, c) lc -> always_bound E left k. Proof. intros H. apply Bl. right. apply in_map_iff. exists (k, c). auto. Qed.
  Lemma Br' k c : In (k, c) rc -> always_bound E right k. Proof. intros H. apply Br. right. apply in_map_iff. exists (k, c). auto. Qed.

  Lemma lj_eq : lj = map (fun k => nth k lvs EmptyString) (map fst joins). Proof. unfold lj. now rewrite map_map. Qed.
  Lemma rj_eq : rj = map (fun k => nth k rvs EmptyString) (map snd joins). Proof. unfold rj. now rewrite map_map. Qed.
  Lemma join_range i j : In (i, j) joins -> i < List.length lvs /\ j < List.length rvs. Proof. apply Gj. Qed.

  Lemma Nlj : NoDup lj.
  Proof.
    rewrite lj_eq. apply nodup_nth; [apply Nl|apply Gj|]. intros k Hk. apply in_map_iff in Hk. destruct Hk as ((i, j) & <- & H). now apply (join_range i j).
  Qed.
  Lemma Nrj : NoDup rj.
  Proof.
    rewrite rj_eq. apply nodup_nth; [apply Nr|apply Gj|]. intros k Hk. apply in_map_iff in Hk. destruct Hk as ((i, j) & <- & H). now apply (join_range i j).
  Qed.
  Lemma Ilj : incl lj lvs.
  Proof. intros x Hx. apply in_map_iff in Hx. destruct Hx as ((i, j) & <- & H). apply nth_In. now apply (join_range i j). Qed.
  Lemma Irj : incl rj rvs.
  Proof. intros x Hx. apply in_map_iff in Hx. destruct Hx as ((i, j) & <- & H). apply nth_In. now apply (join_range i j). Qed.

  Lemma l_in : In "l"%string ["l"; "r"; "v"]%string. Proof. cbn. auto. Qed.
  Lemma r_in : In "r"%string ["l"; "r"; "v"]%string. Proof. cbn. auto. Qed.

  (** The n-th joined columns. *)
  Lemma join_names k i j : nth_error joins k = Some (i, j) ->
    fl (nth i lvs EmptyString) = ("j" ++ decimal k)%string /\ fr (nth j rvs EmptyString) = ("j" ++ decimal k)%string.
  Proof.
    intros H. split.
    - apply side_join; [exact Ho|exact Pl|exact Ilj|]. apply first_index_nodup; [exact Nlj|]. unfold lj. rewrite nth_error_map, H. auto.
    - apply side_join; [exact Ho|exact Pr|exact Irj|]. apply first_index_nodup; [exact Nrj|]. unfold rj. rewrite nth_error_map, H. auto.
  Qed.

  Lemma lj_at u k : first_index u lj = Some k -> exists i j, nth_error joins k = Some (i, j) /\ u = nth i lvs EmptyString.
  Proof.
    intros H. apply first_index_nth in H. unfold lj in H. rewrite nth_error_map in H. destruct (nth_error joins k) as [(i, j)|]; [|discriminate].
    injection H as <-. eauto.
  Qed.
  Lemma rj_at u k : first_index u rj = Some k -> exists i j, nth_error joins k = Some (i, j) /\ u = nth j rvs EmptyString.
  Proof.
    intros H. apply first_index_nth in H. unfold rj in H. rewrite nth_error_map in H. destruct (nth_error joins k) as [(i, j)|]; [|discriminate].
    injection H as <-. eauto.
  Qed.

  Lemma column_in_left u : In u lvs -> In u (all_vars left). Proof. intros H. cbn. apply in_or_app. auto. Qed.
  Lemma column_in_right u : In u rvs -> In u (all_vars right). Proof. intros H. cbn. apply in_or_app. auto. Qed.

  Section solutions.
    Variables (n1 n2 a b : solution).
    Hypothesis R1 : renamed lm (all_vars left) n1 a.
    Hypothesis R2 : renamed rm (all_vars right) n2 b.
    Hypothesis S1 : sol E il n1.
    Hypothesis S2 : sol E ir n2.

    Lemma a_at u : In u lvs -> a (fl u) = n1 u. Proof. intros H. destruct R1 as (R & _). apply R. now apply column_in_left. Qed.
    Lemma b_at u : In u rvs -> b (fr u) = n2 u. Proof. intros H. destruct R2 as (R & _). apply R. now apply column_in_right. Qed.

    Definition joined_rows : Prop := forall i j, In (i, j) joins -> nth_error (map n1 lvs) i = nth_error (map n2 rvs) j.

    Lemma left_bound i j : In (i, j) joins -> exists x, n1 (nth i lvs EmptyString) = Some x.
    Proof.
      intros H. apply (bound_column E il lvs n1 i S1); [now apply (join_range i j)|]. apply Bl. left. apply in_map_iff. exists (i, j). auto.
    Qed.
    Lemma right_bound i j : In (i, j) joins -> exists x, n2 (nth j rvs EmptyString) = Some x.
    Proof.
      intros H. apply (bound_column E ir rvs n2 j S2); [now apply (join_range i j)|]. apply Br. left. apply in_map_iff. exists (i, j). auto.
    Qed.

    Lemma compatible_iff : compatible a b <-> joined_rows.
    Proof.
      split.
      - intros C i j H. destruct (join_range i j H) as (L1 & L2). rewrite (nth_error_nth_map _ _ _ EmptyString L1), (nth_error_nth_map _ _ _ EmptyString L2).
        f_equal. destruct (left_bound i j H) as (x & X). destruct (right_bound i j H) as (y & Y). rewrite X, Y. f_equal.
        apply In_nth_error in H. destruct H as (k & H). destruct (join_names k i j H) as (J1 & J2). apply (C ("j" ++ decimal k)%string).
        + rewrite <- J1, a_at; auto. now apply nth_In.
        + rewrite <- J2, b_at; auto. now apply nth_In.
      - intros J w x y Hx Hy.
        destruct (side_dom order Ho E "l" il lvs lj Pl Ilj n1 a w R1 S1) as (u & U1 & U2 & U3); [congruence|].
        destruct (side_dom order Ho E "r" ir rvs rj Pr Irj n2 b w R2 S2) as (t & T1 & T2 & T3); [congruence|].
        destruct U3 as [(k & Uk & Uw)|(k & Uw)], T3 as [(k' & Tk & Tw)|(k' & Tw)]; rewrite Uw in Tw; apply names_apart in Tw; try (cbn; tauto);
          destruct Tw as (Q & <-); try discriminate.
        destruct (lj_at u k Uk) as (i & j & K & ->). destruct (rj_at t k Tk) as (i' & j' & K' & ->). rewrite K in K'. injection K' as <- <-.
        apply nth_error_In in K. specialize (J i j K). destruct (join_range i j K) as (L1 & L2).
        rewrite (nth_error_nth_map _ _ _ EmptyString L1), (nth_error_nth_map _ _ _ EmptyString L2) in J. congruence.
    Qed.

    Lemma left_value u : In u lvs -> both a b (fl u) = n1 u.
    Proof.
      intros Hu. unfold both. rewrite a_at by auto. destruct (n1 u) eqn:Eu; auto. destruct (b (fl u)) eqn:Eb; auto. exfalso.
      destruct (side_dom order Ho E "r" ir rvs rj Pr Irj n2 b (fl u) R2 S2) as (t & T1 & T2 & T3); [congruence|].
      destruct (first_index u lj) as [k|] eqn:F.
      - destruct (lj_at u k F) as (i & j & K & ->). apply nth_error_In in K. destruct (left_bound i j K). congruence.
      - apply first_index_none in F. destruct (side_column order Ho "l" il lvs lj Pl Ilj u Hu F) as (k & Q).
        destruct T3 as [(k' & _ & Tw)|(k' & Tw)]; unfold fl, lm in Tw; fold left in Q; rewrite Q in Tw; apply names_apart in Tw; try (cbn; tauto);
          destruct Tw; discriminate.
    Qed.

    Lemma right_value u : In u rvs -> ~ In u rj -> both a b (fr u) = n2 u.
    Proof.
      intros Hu N. unfold both. rewrite b_at by auto. destruct (a (fr u)) eqn:Ea; auto. exfalso.
      destruct (side_dom order Ho E "l" il lvs lj Pl Ilj n1 a (fr u) R1 S1) as (t & T1 & T2 & T3); [congruence|].
      destruct (side_column order Ho "r" ir rvs rj Pr Irj u Hu N) as (k & Q).
      destruct T3 as [(k' & _ & Tw)|(k' & Tw)]; unfold fr, rm in Tw; fold right in Q; rewrite Q in Tw; apply names_apart in Tw; try (cbn; tauto);
        destruct Tw; discriminate.
    Qed.
  End solutions.

  (** The columns of the merged query. *)
  Lemma right_columns : filter (fun v => negb (mem v (map fl lj))) (without 0 (map fst rc) (map fr rvs)) =
    map fr (without 0 (map fst rc ++ map snd joins) rvs).
  Proof.
    rewrite <- without_map. apply without_filter. intros i x Hx. cbn [Nat.add]. rewrite nth_error_map in Hx.
    destruct (nth_error rvs i) as [u|] eqn:Eu; [|discriminate]. injection Hx as <-. f_equal. apply eq_true_iff_eq. rewrite mem_In, existsb_exists. split.
    - intros H. apply in_map_iff in H. destruct H as (t & Q & Ht). apply first_index_in in Ht. destruct Ht as (k & Hk).
      destruct (lj_at t k Hk) as (i' & j' & K & ->). destruct (join_names k i' j' K) as (J1 & _). rewrite Q in J1.
      destruct (first_index u rj) as [k'|] eqn:F.
      + destruct (rj_at u k' F) as (i2 & j2 & K2 & ->). destruct (join_names k' i2 j2 K2) as (_ & J2). rewrite J2 in J1.
        exists j2. apply nth_error_In in K2. split; [apply in_map_iff; exists (i2, j2); auto|]. apply Nat.eqb_eq.
        destruct (join_range i2 j2 K2) as (_ & L2). apply (proj1 (NoDup_nth_error rvs) Nr); [apply nth_error_Some; congruence|].
        rewrite Eu. now rewrite (nth_error_nth' rvs EmptyString L2).
      + apply first_index_none in F. apply nth_error_In in Eu. destruct (side_column order Ho "r" ir rvs rj Pr Irj u Eu F) as (k2 & Q2).
        unfold fr, rm in J1. fold right in Q2. rewrite Q2 in J1. apply names_apart in J1; try (cbn; tauto). destruct J1; discriminate.
    - intros (j & Hj & Q). apply Nat.eqb_eq in Q. subst j. apply in_map_iff in Hj. destruct Hj as ((i', j') & Q & K). cbn in Q. subst j'.
      pose proof K as K0. apply In_nth_error in K. destruct K as (k & K). destruct (join_names k i' i K) as (J1 & J2).
      destruct (join_range i' i K0) as (_ & L2). rewrite (nth_error_nth' rvs EmptyString L2) in Eu. injection Eu as <-.
      rewrite J2, <- J1. apply in_map. apply in_map_iff. exists (i', i). auto.
  Qed.

  Lemma not_joined u : In u (without 0 (map fst rc ++ map snd joins) rvs) -> ~ In u rj.
  Proof.
    intros H G. apply in_without_at in H. destruct H as (i & Hi & X). cbn in X. apply in_map_iff in G. destruct G as ((i', j') & Q & K). cbn in Q.
    destruct (join_range i' j' K) as (_ & L2). assert (i = j').
    { apply (proj1 (NoDup_nth_error rvs) Nr); [apply nth_error_Some; congruence|]. rewrite Hi, (nth_error_nth' rvs EmptyString L2). now rewrite Q. }
    subst j'. rewrite existsb_app in X. apply orb_false_iff in X. destruct X as (_ & X). 
    assert (T : existsb (Nat.eqb i) (map snd joins) = true); [|congruence]. apply existsb_exists. exists i. split; [apply in_map_iff; exists (i', i); auto|apply Nat.eqb_refl].
  Qed.

  Lemma row_of n1 n2 a b : renamed lm (all_vars left) n1 a -> renamed rm (all_vars right) n2 b -> sol E il n1 -> sol E ir n2 ->
    map (both a b) (without 0 (map fst lc) (map fl lvs) ++ map fr (without 0 (map fst rc ++ map snd joins) rvs)) =
    drop_columns (map fst lc) (map n1 lvs) ++ drop_columns (map fst rc ++ map snd joins) (map n2 rvs).
  Proof.
    intros R1 R2 S1 S2. rewrite map_app, <- !without_columns, !without_map, !map_map. f_equal.
    - apply map_ext_in. intros u Hu. apply (left_value n1 n2 a b R1 R2 S1 S2). eapply in_without; eauto.
    - apply map_ext_in. intros u Hu. apply (right_value n1 n2 a b R1 R2 S1); [eapply in_without; eauto|now apply not_joined].
  Qed.

  Theorem merge_rows : exists m, merge_patterns order left right joins lc rc = Some m /\ forall row, rows E m row <->
    exists r s, rows E left r /\ rows E right s /\ (forall i j, In (i, j) joins -> nth_error r i = nth_error s j) /\
      has_constants lc r /\ has_constants rc s /\
      row = drop_columns (map fst lc) r ++ drop_columns (map fst rc ++ map snd joins) s.
  Proof.
    eexists. split; [reflexivity|]. intros row. fold lj rj. fold left right. fold lm rm. fold fl fr. cbv beta zeta. 
    fold lj rj. rewrite right_columns. rewrite rows_project. cbn [sol]. split.
    - intros (m & (a & b & A & B & C & D) & ->).
      apply (side_sol order Ho E "l" il lvs lj lc l_in Pl Ilj Nl Gl Bl') in A. destruct A as (n1 & R1 & S1 & C1).
      apply (side_sol order Ho E "r" ir rvs rj rc r_in Pr Irj Nr Gr Br') in B. destruct B as (n2 & R2 & S2 & C2).
      exists (map n1 lvs), (map n2 rvs). split; [apply (rows_project E il lvs); eauto|]. split; [apply (rows_project E ir rvs); eauto|].
      split; [now apply (compatible_iff n1 n2 a b R1 R2 S1 S2)|]. split; [auto|]. split; [auto|].
      rewrite <- (row_of n1 n2 a b R1 R2 S1 S2). apply map_ext. auto.
    - intros (r & s & Hr & Hs & J & C1 & C2 & ->). apply (rows_project E il lvs) in Hr. apply (rows_project E ir rvs) in Hs.
      destruct Hr as (n1 & S1 & ->). destruct Hs as (n2 & S2 & ->).
      destruct (side_push order Ho E "l" il lvs lj l_in Pl Ilj n1 S1) as (a & R1).
      destruct (side_push order Ho E "r" ir rvs rj r_in Pr Irj n2 S2) as (b & R2).
      exists (both a b). split; [|symmetry; now apply row_of]. exists a, b.
      split; [apply (side_sol order Ho E "l" il lvs lj lc l_in Pl Ilj Nl Gl Bl'); eauto|].
      split; [apply (side_sol order Ho E "r" ir rvs rj rc r_in Pr Irj Nr Gr Br'); eauto|].
      split; [now apply (compatible_iff n1 n2 a b R1 R2 S1 S2)|]. intros v. reflexivity.
  Qed.
End merge.
