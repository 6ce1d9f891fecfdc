From Coq Require Import List ZArith Bool Arith Lia.
From Verif Require Import LexModel TextModel TextSpec.
Import ListNotations.
Open Scope Z_scope.
Open Scope list_scope.

Lemma str_eqb_true : forall a b, str_eqb a b = true <-> a = b.
Proof.
  induction a as [|x a IH]; intros [|y b]; cbn [str_eqb]; split; intros H; try discriminate; try reflexivity.
  - apply andb_true_iff in H. destruct H as [H1 H2]. apply Z.eqb_eq in H1. apply IH in H2. congruence.
  - injection H as -> ->. rewrite Z.eqb_refl. apply IH. reflexivity.
Qed.
Lemma strs_eqb_true : forall a b, strs_eqb a b = true <-> a = b.
Proof.
  induction a as [|x a IH]; intros [|y b]; cbn [strs_eqb]; split; intros H; try discriminate; try reflexivity.
  - apply andb_true_iff in H. destruct H as [H1 H2]. apply str_eqb_true in H1. apply IH in H2. congruence.
  - injection H as -> ->. rewrite (proj2 (str_eqb_true y y) eq_refl). apply IH. reflexivity.
Qed.

Section Texts.
Context {F : float_ops}.
Implicit Types v w : dval F.

Lemma text_as : forall v s t, is_text v s t -> as_tagged v = Value (mk_tagged s t).
Proof. intros v s [t|] H; cbn in H; [destruct H as [-> _]|rewrite H]; reflexivity. Qed.
Lemma text_of : forall s t v, is_text v s t -> of_tagged (mk_tagged s t) = v.
Proof. intros s [t|] v H; cbn in *; [|symmetry; exact H]. destruct H as [-> H]. unfold of_tagged, new_lang_string. cbn. rewrite H. reflexivity. Qed.
(* with another text and the same tag *)
Lemma text_like : forall v s t s', is_text v s t -> is_text (F:=F) (of_tagged (mk_tagged s' t)) s' t.
Proof. intros v s [t|] s' H; cbn in *; [|reflexivity]. unfold of_tagged, new_lang_string. cbn. destruct H as [_ H]. rewrite H. auto. Qed.
Lemma text_plain : forall s, is_text (F:=F) (of_tagged (mk_tagged s None)) s None.
Proof. reflexivity. Qed.
Lemma pair_compatible : forall v w s t s' u, is_text v s t -> is_text w s' u -> compatible t u -> as_pair v w = Value (mk_tagged s t, mk_tagged s' u).
Proof.
  intros v w s t s' u Hv Hw Hc. unfold as_pair. rewrite (text_as _ _ _ Hv), (text_as _ _ _ Hw). cbn. destruct Hc as [-> | ->]; destruct t as [t|]; try reflexivity.
  rewrite (proj2 (str_eqb_true t t) eq_refl). reflexivity.
Qed.
Lemma text_unique : forall v s t s' t', is_text v s t -> is_text v s' t' -> s = s' /\ t = t'.
Proof. intros v s t s' t' H H'. apply text_as in H, H'. rewrite H in H'. injection H' as -> ->. auto. Qed.
Lemma pair_inv : forall v w p, as_pair v w = Value p -> (exists t, tag (fst p) = t) -> compatible (tag (fst p)) (tag (snd p)) /\ as_tagged v = Value (fst p) /\ as_tagged w = Value (snd p).
Proof.
  intros v w p H _. unfold as_pair in H. destruct (as_tagged v) as [a| |]; try discriminate. destruct (as_tagged w) as [b| |]; try discriminate. cbn [fbind] in H.
  destruct a as [a ta], b as [b tb]. cbn [tag] in H. destruct ta as [ta|], tb as [tb|]; try discriminate H.
  - destruct (str_eqb ta tb) eqn:E; [|discriminate]. apply str_eqb_true in E. injection H as <-. cbn. unfold compatible. subst. auto.
  - injection H as <-. cbn. unfold compatible. auto.
  - injection H as <-. cbn. unfold compatible. auto.
Qed.
Lemma pair_no_panic : forall v w, as_pair v w <> Panic.
Proof.
  intros v w. unfold as_pair. destruct v, w; cbn; try discriminate. destruct (str_eqb tag tag0); discriminate.
Qed.
End Texts.

(* ---------- finding ---------- *)
Lemma sub_at : forall (n h : list str) i, (i <= length h)%nat -> firstn (length n) (skipn i h) = n <-> exists a b, h = a ++ n ++ b /\ length a = i.
Proof.
  intros n h i Hi. split.
  - intros H. exists (firstn i h), (skipn (length n) (skipn i h)). split; [|apply firstn_length_le, Hi]. rewrite <- H at 1. rewrite firstn_skipn. symmetry. apply firstn_skipn.
  - intros (a & b & -> & <-). rewrite skipn_app, skipn_all2, Nat.sub_diag by lia. cbn. rewrite firstn_app, firstn_all2, Nat.sub_diag by lia. cbn. apply app_nil_r.
Qed.
Lemma find_at_some : forall n h k i j, find_at k i h n = Some j -> (i <= j < i + k)%nat /\ firstn (length n) (skipn j h) = n /\ forall m, (i <= m < j)%nat -> firstn (length n) (skipn m h) <> n.
Proof.
  intros n h. induction k as [|k IH]; intros i j H; cbn in H; [discriminate|]. destruct (strs_eqb n _) eqn:E.
  - injection H as <-. apply strs_eqb_true in E. split; [lia|]. split; [symmetry; exact E|]. intros; lia.
  - destruct (IH (S i) j H) as (H1 & H2 & H3). split; [lia|]. split; [exact H2|]. intros m Hm. destruct (Nat.eq_dec m i) as [->|N]; [|apply H3; lia].
    intros K. symmetry in K. apply strs_eqb_true in K. congruence.
Qed.
Lemma find_at_none : forall n h k i, find_at k i h n = None -> forall m, (i <= m < i + k)%nat -> firstn (length n) (skipn m h) <> n.
Proof.
  intros n h. induction k as [|k IH]; intros i H m Hm; [lia|]. cbn in H. destruct (strs_eqb n _) eqn:E; [discriminate|].
  destruct (Nat.eq_dec m i) as [->|N]; [|apply (IH (S i) H); lia]. intros K. symmetry in K. apply strs_eqb_true in K. congruence.
Qed.
Lemma find_spec : forall graphemes s s', match unicode_find graphemes s s' with
  | Some i => (exists a b, graphemes s = a ++ graphemes s' ++ b /\ length a = i) /\ forall a b, graphemes s = a ++ graphemes s' ++ b -> (i <= length a)%nat
  | None => forall a b, graphemes s <> a ++ graphemes s' ++ b
  end.
Proof.
  intros graphemes s s'. unfold unicode_find. set (h := graphemes s). set (n := graphemes s'). destruct (Nat.ltb_spec (length h) (length n)) as [L|L].
  { intros a b E. apply (f_equal (@length _)) in E. rewrite !app_length in E. lia. }
  destruct (find_at _ 0 h n) as [i|] eqn:E.
  - destruct (find_at_some _ _ _ _ _ E) as (H1 & H2 & H3). split; [apply sub_at; [lia|exact H2]|]. intros a b K. apply Nat.nlt_ge. intros Hl.
    apply (H3 (length a) ltac:(lia)). apply sub_at; [lia|]. eauto.
  - intros a b K. assert (Hl : (length a + length n + length b = length h)%nat) by (rewrite K, !app_length; lia).
    apply (find_at_none _ _ _ _ E (length a) ltac:(lia)). apply sub_at; [lia|]. eauto.
Qed.
Lemma starts_spec : forall (a b : list str), (if (length a <? length b)%nat then false else strs_eqb (firstn (length b) a) b) = true <-> exists c, a = b ++ c.
Proof.
  intros a b. destruct (Nat.ltb_spec (length a) (length b)) as [L|L].
  - split; [discriminate|]. intros (c & ->). rewrite app_length in L. lia.
  - rewrite strs_eqb_true. split; [intros H; exists (skipn (length b) a); rewrite <- H at 1; symmetry; apply firstn_skipn|].
    intros (c & ->). rewrite firstn_app, firstn_all2, Nat.sub_diag by lia. cbn. apply app_nil_r.
Qed.
Lemma ends_spec : forall (a b : list str), (if (length a <? length b)%nat then false else strs_eqb (skipn (length a - length b) a) b) = true <-> exists c, a = c ++ b.
Proof.
  intros a b. destruct (Nat.ltb_spec (length a) (length b)) as [L|L].
  - split; [discriminate|]. intros (c & ->). rewrite app_length in L. lia.
  - rewrite strs_eqb_true. split; [intros H; exists (firstn (length a - length b) a); transitivity (firstn (length a - length b) a ++ skipn (length a - length b) a); [symmetry; apply firstn_skipn|f_equal; exact H]|].
    intros (c & ->). rewrite app_length. replace (length c + length b - length b)%nat with (length c) by lia. rewrite skipn_app, skipn_all2, Nat.sub_diag by lia. reflexivity.
Qed.

(* ---------- positions ---------- *)
Lemma at_none : forall P l p, (forall q, p <= q < p + Z.of_nat (length l) -> P q = false) -> at_positions P p l = [].
Proof.
  intros P. induction l as [|g l IH]; intros p H; [reflexivity|]. cbn [at_positions]. cbn [length] in H. rewrite (H p) by lia. apply IH. intros q Hq. apply H. lia.
Qed.
Lemma at_all : forall P l p, (forall q, p <= q < p + Z.of_nat (length l) -> P q = true) -> at_positions P p l = l.
Proof.
  intros P. induction l as [|g l IH]; intros p H; [reflexivity|]. cbn [at_positions]. cbn [length] in H. rewrite (H p) by lia. f_equal. apply IH. intros q Hq. apply H. lia.
Qed.
Lemma at_app : forall P l1 l2 p, at_positions P p (l1 ++ l2) = at_positions P p l1 ++ at_positions P (p + Z.of_nat (length l1)) l2.
Proof.
  intros P. induction l1 as [|g l IH]; intros l2 p; [cbn; rewrite Z.add_0_r; reflexivity|]. cbn [app at_positions length]. rewrite IH. replace (p + 1 + Z.of_nat (length l)) with (p + Z.of_nat (S (length l))) by lia.
  destruct (P p); reflexivity.
Qed.
Lemma at_range : forall l k e, 1 <= k -> k - 1 <= e -> e <= Z.of_nat (length l) ->
  at_positions (fun p => (k <=? p) && (p <=? e)) 1 l = firstn (Z.to_nat (e - (k - 1))) (skipn (Z.to_nat (k - 1)) l).
Proof.
  intros l k e H1 H2 H3.
  rewrite <- (firstn_skipn (Z.to_nat (k - 1)) l) at 1. rewrite at_app, firstn_length_le by lia. set (r := skipn (Z.to_nat (k - 1)) l).
  assert (Hr : Z.of_nat (length r) = Z.of_nat (length l) - (k - 1)) by (unfold r; rewrite skipn_length; lia).
  rewrite at_none; [|intros q Hq; rewrite firstn_length_le in Hq by lia; apply andb_false_iff; left; apply Z.leb_gt; lia]. cbn [app].
  rewrite <- (firstn_skipn (Z.to_nat (e - (k - 1))) r) at 1. rewrite at_app, firstn_length_le by lia. rewrite at_all, at_none.
  - apply app_nil_r.
  - intros q Hq. rewrite skipn_length in Hq. apply andb_false_iff. right. apply Z.leb_gt. lia.
  - intros q Hq. rewrite firstn_length_le in Hq by lia. apply andb_true_iff. split; apply Z.leb_le; lia.
Qed.
Lemma at_ext : forall P Q l p, (forall q, p <= q < p + Z.of_nat (length l) -> P q = Q q) -> at_positions P p l = at_positions Q p l.
Proof.
  intros P Q. induction l as [|g l IH]; intros p H; [reflexivity|]. cbn [at_positions]. cbn [length] in H. rewrite (H p) by lia. rewrite (IH (p + 1)) by (intros q Hq; apply H; lia). reflexivity.
Qed.
Lemma at_from : forall l k, 1 <= k -> k - 1 <= Z.of_nat (length l) -> at_positions (fun p => k <=? p) 1 l = skipn (Z.to_nat (k - 1)) l.
Proof.
  intros l k H1 H2. transitivity (at_positions (fun p => (k <=? p) && (p <=? Z.of_nat (length l))) 1 l).
  - apply at_ext. intros q Hq. rewrite (proj2 (Z.leb_le q _)) by lia. rewrite andb_true_r. reflexivity.
  - rewrite at_range by lia. apply firstn_all2. rewrite skipn_length. lia.
Qed.
