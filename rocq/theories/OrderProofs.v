(** Proofs about OrderModel: the operations on orders, and the order of one rule. *)
From Coq Require Import List Arith ZArith Bool Lia Permutation Sorted.
From Verif Require Import TableModel EngineModel PermModel PermProofs OrderModel OrderSpec EngineProofs1 EngineProofs4.
Import ListNotations.

(** All orders that occur are of this form, with distinct variables. *)
Definition canon (L : list var) : vorder := combine L (seq 0 (length L)).

Lemma combine_snoc {A B} (l : list A) (l' : list B) x y : length l = length l' ->
  combine (l ++ [x]) (l' ++ [y]) = combine l l' ++ [(x, y)].
Proof.
  revert l'. induction l as [|a l IH]; intros [|b l'] H; simpl in *; try discriminate; auto. f_equal. apply IH. lia.
Qed.

Lemma canon_snoc L v : canon (L ++ [v]) = canon L ++ [(v, length L)].
Proof.
  unfold canon. rewrite app_length, seq_app. simpl. apply combine_snoc. now rewrite seq_length.
Qed.

Lemma canon_fst L : map fst (canon L) = L.
Proof.
  induction L as [|v L IH] using rev_ind; auto. rewrite canon_snoc, map_app, IH. reflexivity.
Qed.
Lemma canon_snd L : map snd (canon L) = seq 0 (length L).
Proof.
  induction L as [|v L IH] using rev_ind; auto. rewrite canon_snoc, map_app, IH, app_length, seq_app. reflexivity.
Qed.

Lemma vo_get_app o o' v : vo_get (o ++ o') v = match vo_get o v with Some i => Some i | None => vo_get o' v end.
Proof. induction o as [|[w i] o IH]; simpl; auto. destruct (v =? w); auto. Qed.

Lemma vo_get_none o v : vo_get o v = None <-> ~ In v (map fst o).
Proof.
  induction o as [|[w i] o IH]; simpl; [tauto|]. destruct (Nat.eqb_spec v w) as [->|Hn].
  - split; [discriminate|]. intros H. exfalso. apply H. auto.
  - rewrite IH. split; [intros H [E|E]; [congruence|auto]|tauto].
Qed.

Lemma vo_contains_in o v : vo_contains o v = true <-> In v (map fst o).
Proof.
  unfold vo_contains. pose proof (vo_get_none o v) as H. destruct (vo_get o v).
  - split; auto. intros _. destruct (in_dec Nat.eq_dec v (map fst o)); auto. destruct H as [_ H]. specialize (H n0). discriminate.
  - split; [discriminate|]. intros Hi. exfalso. now apply H.
Qed.
Lemma contains_canon L v : vo_contains (canon L) v = true <-> In v L.
Proof. rewrite vo_contains_in, canon_fst. tauto. Qed.

Lemma vo_insert_new o v i : ~ In v (map fst o) -> vo_insert o v i = o ++ [(v, i)].
Proof.
  induction o as [|[w j] o IH]; simpl; auto. intros H. destruct (Nat.eqb_spec v w) as [->|Hn]; [exfalso; apply H; auto|].
  f_equal. apply IH. tauto.
Qed.

Lemma fold_max_seq n : forall a k, a < k -> fold_left max (seq k n) a = match n with 0 => a | S m => k + m end.
Proof.
  induction n as [|n IH]; intros a k H; auto. cbn [seq fold_left]. rewrite Nat.max_r by lia. rewrite IH by lia. destruct n; lia.
Qed.

Lemma push_canon L v : ~ In v L -> vo_push (canon L) v = canon (L ++ [v]).
Proof.
  intros H. unfold vo_push. rewrite canon_snd, canon_snoc, vo_insert_new by now rewrite canon_fst. do 3 f_equal.
  destruct L as [|w L]; auto. cbn [length seq max_opt]. rewrite fold_max_seq by lia. destruct (length L); lia.
Qed.

Lemma new_canon_loop vs : forall L, NoDup (L ++ vs) -> vo_new_loop vs (length L) (canon L) = canon (L ++ vs).
Proof.
  induction vs as [|v vs IH]; intros L H; [simpl; now rewrite app_nil_r|]. simpl.
  rewrite vo_insert_new.
  - rewrite <- canon_snoc. replace (S (length L)) with (length (L ++ [v])) by (rewrite app_length; simpl; lia).
    rewrite IH; rewrite <- app_assoc; auto.
  - rewrite canon_fst. intros Hc. apply NoDup_remove_2 in H. apply H. apply in_app_iff. auto.
Qed.
Lemma new_canon vs : NoDup vs -> vo_new vs = canon vs.
Proof. intros H. apply (new_canon_loop vs []). exact H. Qed.

(** ** Sorting by position *)
Lemma ins_pos_perm x l : Permutation (x :: l) (ins_pos x l).
Proof.
  induction l as [|y l IH]; simpl; auto. destruct (snd y <=? snd x); auto. rewrite perm_swap. constructor. exact IH.
Qed.
Lemma sort_pos_perm_acc l : forall acc, Permutation (acc ++ l) (fold_left (fun acc x => ins_pos x acc) l acc).
Proof.
  induction l as [|x l IH]; intros acc; simpl; [now rewrite app_nil_r|]. rewrite <- IH.
  rewrite <- (ins_pos_perm x acc). simpl. symmetry. apply Permutation_middle.
Qed.
Lemma sort_pos_perm l : Permutation l (sort_pos l).
Proof. apply (sort_pos_perm_acc l []). Qed.

Definition pos_le (x y : var * nat) : Prop := snd x <= snd y.
Lemma ins_pos_sorted x l : StronglySorted pos_le l -> StronglySorted pos_le (ins_pos x l).
Proof.
  induction l as [|y l IH]; simpl; intros H; [repeat constructor|]. inversion H as [|? ? H1 H2]; subst.
  destruct (Nat.leb_spec (snd y) (snd x)).
  - constructor; auto. rewrite Forall_forall in *. intros z Hz. apply (Permutation_in z (Permutation_sym (ins_pos_perm x l))) in Hz.
    destruct Hz as [<-|Hz]; [exact H0|auto].
  - constructor; auto. constructor; [unfold pos_le; lia|]. rewrite Forall_forall in *. intros z Hz. specialize (H2 z Hz). unfold pos_le in *. lia.
Qed.
Lemma sort_pos_sorted l : StronglySorted pos_le (sort_pos l).
Proof.
  unfold sort_pos. assert (H : forall acc, StronglySorted pos_le acc -> StronglySorted pos_le (fold_left (fun acc x => ins_pos x acc) l acc)).
  { induction l as [|x l IH]; simpl; auto. intros acc Ha. apply IH. now apply ins_pos_sorted. }
  apply H. constructor.
Qed.

(** A list with distinct positions is determined by its sorted permutations. *)
Lemma sorted_unique l : forall l', NoDup (map snd l) -> Permutation l l' -> StronglySorted pos_le l -> StronglySorted pos_le l' -> l = l'.
Proof.
  induction l as [|x l IH]; intros l' Hn Hp Hs Hs'.
  - apply Permutation_nil in Hp. auto.
  - destruct l' as [|y l']; [apply Permutation_sym, Permutation_nil in Hp; discriminate|].
    inversion Hs as [|? ? S1 S2]; inversion Hs' as [|? ? S1' S2']; subst. rewrite Forall_forall in *.
    assert (x = y).
    { assert (Hx : In x (y :: l')) by (apply (Permutation_in x Hp); simpl; auto).
      assert (Hy : In y (x :: l)) by (apply (Permutation_in y (Permutation_sym Hp)); simpl; auto).
      destruct Hx as [?|Hx]; auto. destruct Hy as [?|Hy]; auto. specialize (S2 y Hy). specialize (S2' x Hx). unfold pos_le in *.
      assert (E : snd x = snd y) by lia. simpl in Hn. inversion Hn as [|? ? N1 N2]; subst. exfalso. apply N1. rewrite E. now apply in_map. }
    subst y. f_equal. simpl in Hn. inversion Hn; subst. apply IH; auto. now apply Permutation_cons_inv in Hp.
Qed.

Lemma sub_sorted (l : list (var * nat)) (f : var * nat -> bool) : StronglySorted pos_le l -> StronglySorted pos_le (filter f l).
Proof.
  induction 1 as [|x l H IH Hf]; simpl; [constructor|]. destruct (f x); auto. constructor; auto.
  rewrite Forall_forall in *. intros y Hy. apply filter_In in Hy. now apply Hf.
Qed.

Lemma canon_sorted L : StronglySorted pos_le (canon L).
Proof.
  unfold canon. generalize 0. induction L as [|v L IH]; intros n; simpl; constructor; auto.
  rewrite Forall_forall. intros [w i] Hi. apply in_combine_r in Hi. apply in_seq in Hi. unfold pos_le. simpl. lia.
Qed.

(** The result of sorting does not depend on the order of the entries. *)
Lemma sort_canon L o : Permutation o (canon L) -> sort_pos o = canon L.
Proof.
  intros H. symmetry. apply sorted_unique.
  - rewrite canon_snd. apply seq_NoDup.
  - rewrite <- H. apply sort_pos_perm.
  - apply canon_sorted.
  - apply sort_pos_sorted.
Qed.
Lemma iter_canon L : vo_iter (canon L) = L.
Proof. unfold vo_iter. rewrite (sort_canon L) by auto. apply canon_fst. Qed.

Lemma get_in o v i : NoDup (map fst o) -> (vo_get o v = Some i <-> In (v, i) o).
Proof.
  induction o as [|[w j] o IH]; simpl; intros Hn; [split; [discriminate|tauto]|]. inversion Hn as [|? ? N1 N2]; subst.
  destruct (Nat.eqb_spec v w) as [->|Hd].
  - split; [intros E; injection E as <-; auto|]. intros [E|E]; [congruence|]. exfalso. apply N1. apply in_map_iff. exists (w, i). auto.
  - rewrite IH by auto. split; [auto|]. intros [E|E]; [congruence|auto].
Qed.

Lemma with_pos_spec o vs : NoDup (map fst o) -> incl vs (map fst o) -> exists l, with_pos o vs = Some l /\ map fst l = vs /\ incl l o.
Proof.
  intros Hn. induction vs as [|v vs IH]; intros Hi.
  - exists []. repeat split; auto. intros ? [].
  - destruct IH as (l & E & Hl & Hs); [intros x Hx; apply Hi; simpl; auto|].
    assert (Hv : In v (map fst o)) by (apply Hi; simpl; auto). apply in_map_iff in Hv. destruct Hv as ([w i] & Hw & Hin). simpl in Hw. subst w.
    exists ((v, i) :: l). unfold with_pos in *. cbn [mapM]. apply (get_in o v i Hn) in Hin. rewrite Hin. cbn [option_map]. rewrite E. simpl.
    split; auto. split; [congruence|]. intros x [<-|Hx]; auto. now apply get_in.
Qed.

Lemma sub_canon_sort L l : NoDup L -> NoDup (map fst l) -> incl l (canon L) ->
  map fst (sort_pos l) = filter (fun v => memv v (map fst l)) L.
Proof.
  intros HL Hn Hi.
  assert (Hc : forall x, In x (canon L) -> (memv (fst x) (map fst l) = true <-> In x l)).
  { intros [v i] Hx. rewrite memv_in. simpl. split.
    - intros Hv. apply in_map_iff in Hv. destruct Hv as ([w j] & Hw & Hin). simpl in Hw. subst w.
      assert (E : vo_get (canon L) v = Some i) by (apply get_in; [now rewrite canon_fst|auto]).
      assert (E' : vo_get (canon L) v = Some j) by (apply get_in; [now rewrite canon_fst|apply Hi; auto]). congruence.
    - intros Hv. apply in_map_iff. exists (v, i). auto. }
  assert (Es : sort_pos l = filter (fun x => memv (fst x) (map fst l)) (canon L)).
  { symmetry. apply sorted_unique.
    - assert (Hs : NoDup (map snd (canon L))) by (rewrite canon_snd; apply seq_NoDup). revert Hs. generalize (canon L) as c.
      induction c as [|x c IHc]; simpl; intros Hs; [constructor|]. inversion Hs as [|? ? N1 N2]; subst. destruct (memv (fst x) (map fst l)); auto.
      simpl. constructor; auto. intros Hc'. apply N1. apply in_map_iff in Hc'. destruct Hc' as (y & Hy & Hin). apply filter_In in Hin.
      apply in_map_iff. exists y. tauto.
    - rewrite <- sort_pos_perm. apply NoDup_Permutation.
      + apply NoDup_filter. apply (NoDup_map_inv fst). now rewrite canon_fst.
      + now apply (NoDup_map_inv fst).
      + intros x. rewrite filter_In. split; [intros [H1 H2]; apply Hc; auto|]. intros Hx. split; auto. apply Hc; auto.
    - apply sub_sorted, canon_sorted.
    - apply sort_pos_sorted. }
  rewrite Es. clear. rewrite <- (canon_fst L) at 2. generalize (canon L) as c. generalize (map fst l) as m. intros m c.
  induction c as [|x c IH]; simpl; auto. destruct (memv (fst x) m); simpl; rewrite IH; auto.
Qed.

Lemma filter_all {A} (f : A -> bool) l : (forall x, In x l -> f x = true) -> filter f l = l.
Proof.
  induction l as [|x l IH]; simpl; auto. intros H. rewrite (H x) by auto. f_equal. apply IH. auto.
Qed.

Lemma list_canon L : NoDup L -> vo_list (canon L) = Some L.
Proof.
  intros H. unfold vo_list. rewrite iter_canon. destruct (with_pos_spec (canon L) L) as (l & E & Hl & Hi); try (rewrite canon_fst; auto).
  - intros x; auto.
  - rewrite E. simpl. f_equal. rewrite (sub_canon_sort L l); auto; rewrite Hl; auto. apply filter_all. intros x. apply memv_in.
Qed.

Lemma restrict_canon L vs : NoDup L -> NoDup vs -> vo_restrict (canon L) vs = Some (canon (filter (fun v => memv v vs) L)).
Proof.
  intros HL Hv. unfold vo_restrict. destruct (with_pos_spec (canon L) (filter (vo_contains (canon L)) vs)) as (l & E & Hl & Hi).
  - now rewrite canon_fst.
  - intros x Hx. apply filter_In in Hx. now apply vo_contains_in.
  - rewrite E. simpl. f_equal. rewrite (sub_canon_sort L l); auto.
    + rewrite Hl. rewrite new_canon by now apply NoDup_filter. f_equal. apply filter_ext_in. intros v Hin.
      destruct (memv v vs) eqn:Em.
      * apply memv_in. apply filter_In. apply memv_in in Em. split; auto. now apply contains_canon.
      * apply memv_false. apply memv_false in Em. intros Hc. apply filter_In in Hc. tauto.
    + rewrite Hl. now apply NoDup_filter.
Qed.

Lemma extend_canon vs : forall L, NoDup L -> exists t, vo_extend (canon L) vs = canon (L ++ t) /\ NoDup (L ++ t) /\
  incl t vs /\ incl vs (L ++ t).
Proof.
  assert (Ex : forall v vs o, vo_extend o (v :: vs) = vo_extend (if vo_contains o v then o else vo_push o v) vs) by reflexivity.
  induction vs as [|v vs IH]; intros L H.
  - exists []. rewrite app_nil_r. repeat split; auto; intros ? [].
  - rewrite Ex. destruct (vo_contains (canon L) v) eqn:E.
    + apply contains_canon in E. destruct (IH L H) as (t & Et & Hn & H1 & H2). exists t. rewrite Et. repeat split; auto.
      * intros x Hx. right. auto.
      * intros x [<-|Hx]; auto. apply in_app_iff. auto.
    + assert (Hv : ~ In v L) by (intros Hc; apply contains_canon in Hc; congruence). rewrite push_canon by auto.
      destruct (IH (L ++ [v])) as (t & Et & Hn & H1 & H2).
      { apply NoDup_snoc; auto. }
      rewrite Et. exists (v :: t). rewrite <- app_assoc in *. simpl in *. repeat split; auto.
      * intros x [<-|Hx]; simpl; auto.
      * intros x [<-|Hx]; auto. apply in_app_iff. simpl. auto.
Qed.

(** ** Column orders *)
Lemma positions_in v xs : forall i j, In j (positions v xs i) <-> i <= j /\ nth_error xs (j - i) = Some v.
Proof.
  induction xs as [|x xs IH]; intros i j; simpl.
  - split; [tauto|]. intros [_ H]. destruct (j - i); discriminate.
  - assert (Hr : In j (positions v xs (S i)) <-> S i <= j /\ nth_error (x :: xs) (j - i) = Some v).
    { rewrite IH. split; intros [H1 H2]; split; auto; replace (j - i) with (S (j - S i)) in * by lia; auto. }
    destruct (Nat.eqb_spec x v) as [->|Hn]; simpl; rewrite ?Hr.
    + split.
      * intros [<-|[H1 H2]]; [rewrite Nat.sub_diag; auto|]. split; [lia|auto].
      * intros [H1 H2]. destruct (Nat.eq_dec i j); auto. right. split; [lia|auto].
    + split; [intros [H1 H2]; split; [lia|auto]|]. intros [H1 H2]. split; auto. destruct (Nat.eq_dec i j) as [->|]; [|lia].
      rewrite Nat.sub_diag in H2. simpl in H2. congruence.
Qed.
Lemma positions_nodup v xs : forall i, NoDup (positions v xs i).
Proof.
  induction xs as [|x xs IH]; intros i; simpl; [constructor|]. destruct (x =? v); auto. constructor; auto.
  rewrite positions_in. lia.
Qed.

Definition part (L xs : list var) : list nat := flat_map (fun v => positions v xs 0) L.
Lemma part_in L xs j : In j (part L xs) <-> exists v, In v L /\ nth_error xs j = Some v.
Proof.
  unfold part. rewrite in_flat_map. split; intros (v & H1 & H2); exists v; split; auto.
  - apply positions_in in H2. now rewrite Nat.sub_0_r in H2.
  - apply positions_in. rewrite Nat.sub_0_r. split; [lia|auto].
Qed.
Lemma part_nodup L xs : NoDup L -> NoDup (part L xs).
Proof.
  induction L as [|v L IH]; intros H; unfold part; simpl; [constructor|]. inversion H as [|? ? N1 N2]; subst. fold (part L xs).
  apply NoDup_app'; auto using positions_nodup.
  intros j Hj Hp. apply part_in in Hp. destruct Hp as (w & Hw & Ew). apply positions_in in Hj. rewrite Nat.sub_0_r in Hj. destruct Hj as [_ Ej]. congruence.
Qed.

Definition col_vec (L xs : list var) : list nat :=
  part L xs ++ filter (fun i => negb (existsb (Nat.eqb i) (part L xs))) (seq 0 (length xs)).

Lemma col_vec_perm L xs : NoDup L -> vperm (col_vec L xs) /\ length (col_vec L xs) = length xs.
Proof.
  intros H. assert (Hp : Permutation (col_vec L xs) (seq 0 (length xs))).
  { apply NoDup_Permutation; [|apply seq_NoDup|].
    - apply NoDup_app'; [now apply part_nodup|apply NoDup_filter, seq_NoDup|].
      intros j Hj Hf. apply filter_In in Hf. destruct Hf as [_ Hf]. apply negb_true_iff in Hf. apply (memv_false j (part L xs)) in Hf. auto.
    - intros j. unfold col_vec. rewrite in_app_iff, filter_In, in_seq. split.
      + intros [Hj|[Hj _]]; auto. apply part_in in Hj. destruct Hj as (v & _ & E). split; [lia|]. simpl. apply nth_error_Some. congruence.
      + intros Hj. destruct (existsb (Nat.eqb j) (part L xs)) eqn:E; [left; now apply memv_in in E|right; auto]. }
  assert (Hl : length (col_vec L xs) = length xs) by (rewrite (Permutation_length Hp), seq_length; auto).
  split; auto. apply vperm_iff. now rewrite Hl.
Qed.

Lemma nth_app_mid {A} (a : list A) x b : nth_error (a ++ x :: b) (length a) = Some x.
Proof. rewrite nth_error_app2, Nat.sub_diag by lia. reflexivity. Qed.

Lemma column_order_spec L xs : NoDup L -> exists p, column_order_for xs (canon L) = Some p /\ wfp p /\ arranges p xs L.
Proof.
  intros HL. unfold column_order_for. rewrite iter_canon. destruct (col_vec_perm L xs HL) as [Hv Hl].
  destruct (from_vector_spec _ Hv) as (p & E & Hw & G). exists p. split; [exact E|]. split; auto.
  assert (Gi : forall k i, nth_error (col_vec L xs) k = Some i -> get p i = k).
  { intros k i Hk. specialize (G k). unfold vget in G. now rewrite Hk in G. }
  split; [|split].
  - intros i Hi. destruct (vperm_onto_nth _ i Hv) as (k & Hk); [lia|]. rewrite (Gi k i Hk). rewrite <- Hl. apply nth_error_Some. congruence.
  - intros i j Hij. now apply (get_inj p).
  - intros i j x y b m a Hi Hj ->.
    assert (Hpi : In i (positions x xs 0)) by (apply positions_in; rewrite Nat.sub_0_r; split; [lia|auto]).
    assert (Hpj : In j (positions y xs 0)) by (apply positions_in; rewrite Nat.sub_0_r; split; [lia|auto]).
    apply in_split in Hpi. destruct Hpi as (i1 & i2 & Ei). apply in_split in Hpj. destruct Hpj as (j1 & j2 & Ej).
    assert (Es : exists u v w, col_vec (b ++ x :: m ++ y :: a) xs = u ++ i :: v ++ j :: w).
    { unfold col_vec. set (rest := filter _ _). clearbody rest. unfold part.
      rewrite flat_map_app. cbn [flat_map]. rewrite flat_map_app. cbn [flat_map]. rewrite Ei, Ej.
      exists (flat_map (fun v => positions v xs 0) b ++ i1), (i2 ++ flat_map (fun v => positions v xs 0) m ++ j1),
        (j2 ++ flat_map (fun v => positions v xs 0) a ++ rest). repeat rewrite <- app_assoc. simpl. repeat rewrite <- app_assoc. simpl. repeat rewrite <- app_assoc. reflexivity. }
    destruct Es as (u & v & w & Es). rewrite (Gi (length u) i), (Gi (length u + S (length v)) j); [lia| |].
    + rewrite Es. rewrite nth_error_app2 by lia. replace (length u + S (length v) - length u) with (S (length v)) by lia. simpl. apply nth_app_mid.
    + rewrite Es. apply nth_app_mid.
Qed.

Lemma column_order_more L M xs : NoDup (L ++ M) -> incl xs L -> column_order_for xs (canon (L ++ M)) = column_order_for xs (canon L).
Proof.
  intros HL Hi. unfold column_order_for. rewrite !iter_canon.
  assert (E : forall (l : list nat), (forall v, In v l -> ~ In v xs) -> flat_map (fun v => positions v xs 0) l = []).
  { induction l as [|v l IH]; simpl; auto. intros H. rewrite IH by auto. rewrite app_nil_r.
    destruct (positions v xs 0) as [|q l'] eqn:Eq; auto. exfalso. assert (Hq : In q (positions v xs 0)) by (rewrite Eq; simpl; auto).
    apply positions_in in Hq. destruct Hq as [_ Hq]. apply nth_error_In in Hq. apply (H v); auto. }
  rewrite flat_map_app, (E M), app_nil_r; auto. intros v Hv Hx. apply Hi in Hx. apply in_split in Hx. destruct Hx as (l1 & l2 & ->).
  rewrite <- app_assoc in HL. simpl in HL. apply NoDup_remove_2 in HL. apply HL. rewrite !in_app_iff. auto.
Qed.
