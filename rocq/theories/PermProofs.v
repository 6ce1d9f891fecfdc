(** Proofs about PermModel. *)
From Coq Require Import List Arith Bool Lia Permutation Sorted.
From Verif Require Import PermModel.
Import ListNotations.

Lemma set_nth_some : forall A (l : list A) i x, i < length l ->
  exists l', set_nth l i x = Some l' /\ length l' = length l /\
    (forall j, nth_error l' j = if j =? i then Some x else nth_error l j).
Proof.
  induction l as [|y l IH]; intros [|i] x H; simpl in *; try lia.
  - eexists. split; [reflexivity|]. split; [reflexivity|]. intros [|j]; reflexivity.
  - destruct (IH i x) as (l' & -> & Hl & Hn); [lia|]. simpl. eexists. split; [reflexivity|]. split; [simpl; lia|].
    intros [|j]; simpl; auto.
Qed.

Lemma nth_error_ext : forall A (l l' : list A), (forall i, nth_error l i = nth_error l' i) -> l = l'.
Proof.
  induction l as [|x l IH]; intros [|y l'] H; auto; try (specialize (H 0); discriminate).
  f_equal; [specialize (H 0); simpl in H; congruence|]. apply IH. intros i. apply (H (S i)).
Qed.

Lemma NoDup_app_l : forall A (l l' : list A), NoDup (l ++ l') -> NoDup l.
Proof.
  induction l as [|x l IH]; intros l' H; [constructor|]. simpl in H. inversion H; subst. constructor; [|eapply IH; eauto].
  intros Hx. apply H2. apply in_or_app; auto.
Qed.

Definition vperm (v : list nat) : Prop := NoDup v /\ forall x, In x v -> x < length v.

Lemma vperm_onto : forall v j, vperm v -> j < length v -> In j v.
Proof.
  intros v j [Hn Hb] Hj.
  assert (I : incl v (seq 0 (length v))) by (intros x Hx; apply in_seq; specialize (Hb x Hx); lia).
  apply (NoDup_length_incl Hn) in I; [apply I, in_seq; lia|rewrite seq_length; lia].
Qed.

Lemma vperm_onto_nth : forall v j, vperm v -> j < length v -> exists i, nth_error v i = Some j.
Proof. intros. apply In_nth_error. now apply vperm_onto. Qed.

Lemma vperm_bound : forall v i x, vperm v -> nth_error v i = Some x -> x < length v.
Proof. intros v i x [_ H] Hx. apply H. eapply nth_error_In; eauto. Qed.

Lemma nodup_inj : forall A (v : list A) i j x, NoDup v -> nth_error v i = Some x -> nth_error v j = Some x -> i = j.
Proof.
  intros A v i j x Hn Hi Hj. apply (proj1 (NoDup_nth_error v) Hn); [apply nth_error_Some; congruence|congruence].
Qed.

Lemma vperm_iff : forall v, vperm v <-> Permutation v (seq 0 (length v)).
Proof.
  intros v. split.
  - intros H. apply NoDup_Permutation; [apply H|apply seq_NoDup|]. intros x. rewrite in_seq. split.
    + intros Hx. destruct H as [_ H]. specialize (H x Hx). lia.
    + intros. apply vperm_onto; auto; lia.
  - intros H. split.
    + eapply Permutation_NoDup; [apply Permutation_sym, H|apply seq_NoDup].
    + intros x Hx. apply (Permutation_in _ H) in Hx. apply in_seq in Hx. lia.
Qed.

(** ** inverse vectors *)
Definition inverse_of (v w : list nat) : Prop :=
  length w = length v /\ forall i x, nth_error v i = Some x -> nth_error w x = Some i.

Lemma invert_loop_spec : forall (input : list nat) k r,
  NoDup input -> (forall x, In x input -> x < length r) ->
  exists w, invert_loop input k r = Some w /\ length w = length r /\
    (forall i x, nth_error input i = Some x -> nth_error w x = Some (k + i)) /\
    (forall x, ~ In x input -> nth_error w x = nth_error r x).
Proof.
  induction input as [|v input IH]; intros k r Hn Hb; simpl.
  - exists r. repeat split; auto. intros [|i] x H; discriminate.
  - inversion Hn as [|? ? Hv Hn']; subst.
    destruct (set_nth_some _ r v k) as (r' & -> & Hl & Hg); [apply Hb; simpl; auto|].
    destruct (IH (S k) r' Hn') as (w & -> & Hlw & H1 & H2).
    { intros x Hx. rewrite Hl. apply Hb. simpl; auto. }
    exists w. split; auto. split; [lia|]. split.
    + intros [|i] x Hx; simpl in Hx.
      * injection Hx as ->. rewrite H2; auto. rewrite Hg, Nat.eqb_refl. f_equal; lia.
      * rewrite (H1 i x Hx). f_equal; lia.
    + intros x Hx. rewrite H2; [|intros ?; apply Hx; simpl; auto]. rewrite Hg.
      destruct (Nat.eqb_spec x v) as [->|]; auto. exfalso. apply Hx. simpl; auto.
Qed.

Lemma invert_vec_spec : forall v, vperm v -> exists w, invert_vec v = Some w /\ inverse_of v w.
Proof.
  intros v [Hn Hb]. unfold invert_vec.
  destruct (invert_loop_spec v 0 (repeat 0 (length v)) Hn) as (w & E & Hl & H & _).
  { intros x Hx. rewrite repeat_length. auto. }
  exists w. split; auto. split; [rewrite Hl, repeat_length; auto|]. intros i x Hx. apply (H i x Hx).
Qed.

Lemma inverse_sym : forall v w, vperm v -> inverse_of v w -> inverse_of w v.
Proof.
  intros v w Hv [Hl H]. split; auto. intros j i Hj.
  assert (Hb : j < length v) by (rewrite <- Hl; apply nth_error_Some; congruence).
  destruct (vperm_onto_nth v j Hv Hb) as (i' & Hi). pose proof (H _ _ Hi) as H'. assert (i' = i) by congruence. now subst.
Qed.

Lemma inverse_vperm : forall v w, vperm v -> inverse_of v w -> vperm w.
Proof.
  intros v w Hv Hi. pose proof (inverse_sym v w Hv Hi) as [Hl H]. destruct Hi as [Hl' _]. split.
  - apply NoDup_nth_error. intros i j Hij E. destruct (nth_error w i) as [x|] eqn:Ex; [|apply nth_error_None in Ex; lia].
    symmetry in E. apply H in E. apply H in Ex. congruence.
  - intros x Hx. apply In_nth_error in Hx. destruct Hx as (i & Hx). apply H in Hx.
    rewrite Hl'. apply nth_error_Some. congruence.
Qed.

Lemma inverse_det : forall v w w', vperm v -> inverse_of v w -> inverse_of v w' -> w = w'.
Proof.
  intros v w w' Hv [Hl H] [Hl' H']. apply nth_ext with (d := 0) (d' := 0); [lia|].
  intros j Hj. destruct (vperm_onto_nth v j Hv) as (i & Hi); [lia|].
  pose proof (H _ _ Hi) as A. pose proof (H' _ _ Hi) as B.
  rewrite (nth_error_nth _ _ _ A), (nth_error_nth _ _ _ B). reflexivity.
Qed.

(** ** stripping *)
Definition stripped (v : list nat) : Prop := forall l x, v = l ++ [x] -> x <> length l.

Lemma strip_rev_spec : forall rv, exists k, rev rv = rev (strip_rev rv) ++ seq (length (strip_rev rv)) k /\ stripped (rev (strip_rev rv)).
Proof.
  induction rv as [|x rv (k & IH & IS)]; simpl.
  - exists 0. split; auto. intros l x H. destruct l; discriminate.
  - destruct (Nat.eqb_spec x (length rv - 0)) as [->|Hx].
    + exists (S k). split; auto. rewrite IH at 1. rewrite <- app_assoc. f_equal.
      rewrite seq_S. f_equal. f_equal. apply (f_equal (@length nat)) in IH. rewrite app_length, !rev_length, seq_length in IH. lia.
    + exists 0. simpl. rewrite app_nil_r. split; auto. intros l y H. apply app_inj_tail in H. destruct H as [<- <-]. rewrite rev_length. lia.
Qed.

Lemma strip_spec : forall v, exists k, v = strip v ++ seq (length (strip v)) k /\ stripped (strip v).
Proof.
  intros v. unfold strip. destruct (strip_rev_spec (rev v)) as (k & H & S). exists k. rewrite rev_length.
  rewrite rev_involutive in H. auto.
Qed.

Lemma strip_vperm : forall v, vperm v -> vperm (strip v).
Proof.
  intros v [Hn Hb]. destruct (strip_spec v) as (k & E & _). rewrite E in Hn. split.
  - apply NoDup_app_l in Hn. auto.
  - intros x Hx. assert (Hx' : In x v) by (rewrite E; apply in_or_app; auto). apply Hb in Hx'.
    rewrite E, app_length, seq_length in Hx'.
    destruct (Nat.lt_ge_cases x (length (strip v))); auto. exfalso.
    apply in_split in Hx. destruct Hx as (a & b & Hx). rewrite Hx in Hn. rewrite <- app_assoc in Hn. simpl in Hn.
    apply NoDup_remove_2 in Hn. apply Hn. apply in_or_app. right. apply in_or_app. right. rewrite <- Hx. apply in_seq. lia.
Qed.

Definition vget (v : list nat) (i : nat) : nat := match nth_error v i with Some x => x | None => i end.

Lemma vget_strip : forall v i, vget (strip v) i = vget v i.
Proof.
  intros v i. destruct (strip_spec v) as (k & E & _). rewrite E at 2. unfold vget.
  destruct (Nat.lt_ge_cases i (length (strip v))) as [H|H].
  - rewrite nth_error_app1; auto.
  - rewrite nth_error_app2; auto. rewrite (proj2 (nth_error_None _ _) H).
    destruct (nth_error (seq _ _) _) as [y|] eqn:Ey; auto.
    assert (Hlt : i - length (strip v) < k) by (rewrite <- (seq_length k (length (strip v))); apply nth_error_Some; congruence).
    erewrite nth_error_nth' in Ey by (rewrite seq_length; exact Hlt). injection Ey as <-. rewrite seq_nth; auto. lia.
  Unshelve. exact 0.
Qed.

(** ** well-formed permutations *)
Definition wfp (p : perm) : Prop :=
  vperm (idx_to_val p) /\ inverse_of (idx_to_val p) (val_to_idx p) /\ stripped (idx_to_val p) /\ stripped (val_to_idx p).

Lemma stripped_last : forall v, stripped v <-> (forall n, length v = S n -> nth_error v n <> Some n).
Proof.
  intros v. split.
  - intros H n Hn E. destruct (@exists_last _ v) as (l & x & Hx); [destruct v; [discriminate|discriminate]|].
    apply (H _ _ Hx). rewrite Hx, app_length in Hn. simpl in Hn. assert (length l = n) by lia. subst n.
    rewrite Hx, nth_error_app2, Nat.sub_diag in E by lia. simpl in E. congruence.
  - intros H l x Hx Hl. apply (H (length l)).
    + rewrite Hx, app_length. simpl. lia.
    + rewrite Hx, nth_error_app2, Nat.sub_diag by lia. simpl. congruence.
Qed.

Lemma inverse_stripped : forall v w, vperm v -> inverse_of v w -> stripped v -> stripped w.
Proof.
  intros v w Hv Hi Hs. pose proof (inverse_sym v w Hv Hi) as [Hl H]. apply stripped_last. intros n Hn E.
  apply H in E. revert E. apply (proj1 (stripped_last v) Hs). lia.
Qed.

Lemma from_idx_to_val_spec : forall v, vperm v ->
  exists p, from_idx_to_val v = Some p /\ wfp p /\ (forall i, get p i = vget v i).
Proof.
  intros v Hv. pose proof (strip_vperm v Hv) as Hs. unfold from_idx_to_val.
  destruct (invert_vec_spec _ Hs) as (w & E & Hw). rewrite E. simpl. eexists. split; [reflexivity|].
  destruct (strip_spec v) as (_ & _ & St). split.
  - split; [exact Hs|]. split; [exact Hw|]. split; auto. simpl. eapply inverse_stripped; eauto.
  - intros i. unfold get. simpl. apply vget_strip.
Qed.

Lemma get_inverse_v : forall v w i, vperm v -> inverse_of v w -> vget w (vget v i) = i.
Proof.
  intros v w i Hv [Hl H]. unfold vget. destruct (nth_error v i) as [x|] eqn:E.
  - now rewrite (H _ _ E).
  - apply nth_error_None in E. rewrite (proj2 (nth_error_None w i)); auto. lia.
Qed.

Lemma from_vector_spec : forall v, vperm v ->
  exists p, from_vector v = Some p /\ wfp p /\ (forall i, get p (vget v i) = i).
Proof.
  intros v Hv. pose proof (strip_vperm v Hv) as Hs. unfold from_vector.
  destruct (invert_vec_spec _ Hs) as (w & E & Hw). rewrite E. simpl. eexists. split; [reflexivity|].
  destruct (strip_spec v) as (_ & _ & St). split.
  - repeat split; simpl; auto; try apply (inverse_vperm _ _ Hs Hw); try apply (inverse_sym _ _ Hs Hw).
    eapply inverse_stripped; eauto.
  - intros i. rewrite <- vget_strip. unfold get; simpl. apply (get_inverse_v _ w i Hs Hw).
Qed.

Lemma invert_wfp : forall p, wfp p -> wfp (invert p) /\ forall i, get (invert p) (get p i) = i /\ get p (get (invert p) i) = i.
Proof.
  intros p (Hv & Hi & S1 & S2). split.
  - repeat split; simpl; auto; try apply (inverse_vperm _ _ Hv Hi); try apply (inverse_sym _ _ Hv Hi).
  - intros i. split; [apply (get_inverse_v _ _ i Hv Hi)|].
    apply (get_inverse_v (val_to_idx p) (idx_to_val p) i); [apply (inverse_vperm _ _ Hv Hi)|apply (inverse_sym _ _ Hv Hi)].
Qed.

Lemma default_wfp : wfp perm_default.
Proof.
  assert (S : stripped []) by (intros [|] ?; discriminate).
  repeat split; simpl; auto; [constructor|intros ? []|intros [|i] x; discriminate].
Qed.

Lemma get_inj : forall p i j, wfp p -> get p i = get p j -> i = j.
Proof. intros p i j H E. destruct (invert_wfp p H) as [_ G]. destruct (G i) as [<- _], (G j) as [<- _]. congruence. Qed.

Lemma get_lt : forall p n i, wfp p -> length (idx_to_val p) <= n -> (get p i < n <-> i < n).
Proof.
  intros p n i (Hv & _) Hl. unfold get. destruct (nth_error (idx_to_val p) i) as [x|] eqn:E.
  - pose proof (vperm_bound _ _ _ Hv E). assert (i < length (idx_to_val p)) by (apply nth_error_Some; congruence). lia.
  - lia.
Qed.

Lemma nth_map_seq : forall (f : nat -> nat) n i, nth_error (map f (seq 0 n)) i = if i <? n then Some (f i) else None.
Proof.
  intros f n i. destruct (Nat.ltb_spec i n) as [H|H].
  - rewrite nth_error_map. erewrite nth_error_nth' by (rewrite seq_length; exact H). rewrite seq_nth; auto.
  - apply nth_error_None. rewrite map_length, seq_length. auto.
  Unshelve. exact 0.
Qed.

Lemma vperm_map_seq : forall f n, (forall i, i < n -> f i < n) -> (forall i j, i < n -> j < n -> f i = f j -> i = j) ->
  vperm (map f (seq 0 n)).
Proof.
  intros f n Hb Hi. split.
  - apply NoDup_nth_error. intros i j H E. rewrite map_length, seq_length in H. rewrite !nth_map_seq in E.
    destruct (Nat.ltb_spec i n), (Nat.ltb_spec j n); try lia; try discriminate. apply Hi; auto. congruence.
  - intros x Hx. apply in_map_iff in Hx. destruct Hx as (y & <- & Hy). apply in_seq in Hy. rewrite map_length, seq_length. apply Hb. lia.
Qed.

Lemma chain_spec : forall p q, wfp p -> wfp q -> exists r, chain p q = Some r /\ wfp r /\ forall i, get r i = get q (get p i).
Proof.
  intros p q Hp Hq. unfold chain. set (n := max _ _).
  destruct (from_idx_to_val_spec (map (fun i => get q (get p i)) (seq 0 n))) as (r & E & Hr & Hg).
  - apply vperm_map_seq.
    + intros i Hi. apply (get_lt q n); auto; [lia|]. apply (get_lt p n); auto; lia.
    + intros i j _ _ E. apply (get_inj p); auto. apply (get_inj q); auto.
  - exists r. split; auto. split; auto. intros i. rewrite Hg. unfold vget. rewrite nth_map_seq.
    destruct (Nat.ltb_spec i n) as [H|H]; auto. unfold get at 2. rewrite (proj2 (nth_error_None (idx_to_val p) i)) by lia.
    unfold get. rewrite (proj2 (nth_error_None (idx_to_val q) i)) by lia. auto.
Qed.

Lemma vget_ext : forall v w, stripped v -> stripped w -> (forall i, vget v i = vget w i) -> v = w.
Proof.
  assert (A : forall v w, stripped v -> (forall i, vget v i = vget w i) -> length v <= length w).
  { intros v w Hs H. destruct (le_lt_dec (length v) (length w)) as [|Hlt]; auto. exfalso.
    destruct (length v) as [|n] eqn:El; [lia|]. apply (proj1 (stripped_last v) Hs n El). specialize (H n). unfold vget in H.
    rewrite (proj2 (nth_error_None w n)) in H by lia. destruct (nth_error v n) eqn:E; [congruence|apply nth_error_None in E; lia]. }
  intros v w Hv Hw H. assert (El : length v = length w) by (apply Nat.le_antisymm; apply A; auto).
  apply nth_ext with (d := 0) (d' := 0); auto. intros i Hi. specialize (H i). unfold vget in H.
  rewrite (nth_error_nth' v 0 Hi), (nth_error_nth' w 0) in H by lia. auto.
Qed.

Lemma eqb_spec : forall p q, wfp p -> wfp q -> (perm_eqb p q = true <-> forall i, get p i = get q i).
Proof.
  intros p q Hp Hq. unfold perm_eqb. destruct Hp as (Vp & Ip & Sp & Sp'), Hq as (Vq & Iq & Sq & Sq').
  assert (A : idx_to_val p = idx_to_val q <-> val_to_idx p = val_to_idx q).
  { split; intros E.
    - apply (inverse_det (idx_to_val p)); auto. now rewrite E.
    - apply (inverse_det (val_to_idx p)); [exact (inverse_vperm _ _ Vp Ip)|exact (inverse_sym _ _ Vp Ip)|rewrite E; exact (inverse_sym _ _ Vq Iq)]. }
  destruct (list_eq_dec Nat.eq_dec (val_to_idx p) (val_to_idx q)) as [E|E].
  - split; auto. intros _ i. apply A in E. unfold get. now rewrite E.
  - split; [discriminate|]. intros H. exfalso. apply E, A. apply vget_ext; auto.
Qed.

Lemma is_identity_spec : forall p, is_identity p = true <-> forall i, get p i = i.
Proof.
  intros p. unfold is_identity. rewrite forallb_forall. split.
  - intros H i. unfold get. destruct (nth_error (idx_to_val p) i) as [v|] eqn:E; auto.
    assert (Hi : i < length (idx_to_val p)) by (apply nth_error_Some; congruence).
    specialize (H (i, v)). simpl in H. symmetry. apply Nat.eqb_eq, H.
    apply (nth_error_In _ i). clear H.
    assert (G : forall (l : list nat) s j, nth_error (combine (seq s (length l)) l) j = option_map (fun v => (s + j, v)) (nth_error l j)).
    { induction l as [|y l IH]; intros s [|j]; simpl; auto; [f_equal; f_equal; lia|]. rewrite IH. destruct (nth_error l j); simpl; auto. do 2 f_equal; lia. }
    rewrite G, E. reflexivity.
  - intros H [i v] Hiv. simpl. apply Nat.eqb_eq.
    assert (G : forall (l : list nat) s, In (i, v) (combine (seq s (length l)) l) -> s <= i /\ nth_error l (i - s) = Some v).
    { induction l as [|y l IH]; intros s Hs; simpl in Hs; [contradiction|]. destruct Hs as [Hs|Hs].
      - injection Hs as -> ->. split; auto. now rewrite Nat.sub_diag.
      - apply IH in Hs. destruct Hs as [Hle Hs]. split; [lia|]. replace (i - s) with (S (i - S s)) by lia. auto. }
    apply G in Hiv. destruct Hiv as [_ Hiv]. rewrite Nat.sub_0_r in Hiv. specialize (H i). unfold get in H. rewrite Hiv in H. auto.
Qed.

(** ** last_mapped *)
Lemma last_mapped_spec : forall p, match last_mapped p with
  | Some i => get p i <> i /\ forall j, i < j -> get p j = j
  | None => forall j, get p j = j
  end.
Proof.
  intros p. unfold last_mapped.
  assert (H : forall (l : list nat) n, length l = n -> (forall j, n <= j -> get p j = j) ->
     (forall i x, nth_error (rev l) i = Some x -> nth_error (idx_to_val p) i = Some x) ->
     match last_mapped_loop l n with Some i => get p i <> i /\ forall j, i < j -> get p j = j | None => forall j, get p j = j end).
  { induction l as [|v l IH]; intros n Hn Hj Hl; simpl.
    - intros j. apply Hj. simpl in Hn. lia.
    - simpl in Hn. assert (Hv : nth_error (idx_to_val p) (n - 1) = Some v).
      { apply Hl. simpl. rewrite nth_error_app2 by (rewrite rev_length; lia). rewrite rev_length. replace (n - 1 - length l) with 0 by lia. reflexivity. }
      destruct (Nat.eqb_spec (n - 1) v) as [E|E].
      + apply IH; [lia| |].
        * intros j Hge. destruct (Nat.eq_dec j (n - 1)) as [->|]; [|apply Hj; lia]. unfold get. rewrite Hv. auto.
        * intros i x Hx. apply Hl. simpl. rewrite nth_error_app1; auto. apply nth_error_Some. congruence.
      + split; [unfold get; rewrite Hv; auto|]. intros j Hlt. apply Hj. lia. }
  apply H.
  - apply rev_length.
  - intros j Hj. unfold get. rewrite (proj2 (nth_error_None _ _)); auto.
  - rewrite rev_involutive. auto.
Qed.

(** ** permute *)
Lemma permute_loop_spec : forall A (l : list nat) k (v result : list A),
  NoDup l -> (forall x, In x l -> x < length result) -> k + length l <= length v ->
  exists r, permute_loop l k v result = Some r /\ length r = length result /\
    (forall i x, nth_error l i = Some x -> nth_error r x = nth_error v (k + i)) /\
    (forall x, ~ In x l -> nth_error r x = nth_error result x).
Proof.
  induction l as [|x l IH]; intros k v result Hn Hb Hl; simpl in *.
  - eexists. repeat split; auto. intros [|i] x H; discriminate.
  - inversion Hn as [|? ? Hx Hn']; subst.
    destruct (nth_error v k) as [y|] eqn:Ey; [|apply nth_error_None in Ey; lia].
    destruct (set_nth_some _ result x y) as (r & -> & Hlr & Hr); [apply Hb; auto|].
    destruct (IH (S k) v r Hn') as (r' & -> & Hl' & H1 & H2); [intros z Hz; rewrite Hlr; auto|lia|].
    exists r'. split; auto. split; [lia|]. split.
    + intros [|i] z Hz; simpl in Hz.
      * injection Hz as <-. rewrite H2 by auto. rewrite Hr, Nat.eqb_refl. now rewrite Nat.add_0_r.
      * rewrite (H1 i z Hz). f_equal; lia.
    + intros z Hz. rewrite H2 by auto. rewrite Hr. destruct (Nat.eqb_spec z x) as [->|]; auto. exfalso; auto.
Qed.

Lemma permute_spec : forall A p (v : list A), wfp p -> (forall i, length v <= i -> get p i = i) ->
  exists r, permute p v = Some r /\ length r = length v /\ forall i, nth_error r (get p i) = nth_error v i.
Proof.
  intros A p v Hp Hv.
  assert (Hlen : length (idx_to_val p) <= length v).
  { destruct (le_lt_dec (length (idx_to_val p)) (length v)) as [|H]; auto. exfalso.
    destruct Hp as (_ & _ & S & _). destruct (length (idx_to_val p)) as [|n] eqn:El; [lia|].
    apply (proj1 (stripped_last _) S n El). specialize (Hv n ltac:(lia)). unfold get in Hv.
    destruct (nth_error (idx_to_val p) n) eqn:E; [congruence|]. apply nth_error_None in E. lia. }
  unfold permute. destruct Hp as (Vp & _).
  destruct (permute_loop_spec A (idx_to_val p) 0 v v) as (r & E & Hl & H1 & H2).
  - apply Vp.
  - intros x Hx. apply Vp in Hx. lia.
  - lia.
  - exists r. split; auto. split; auto. intros i. unfold get.
    destruct (nth_error (idx_to_val p) i) as [x|] eqn:Ei; [apply (H1 i x Ei)|].
    apply nth_error_None in Ei. apply H2. intros Hi. apply Vp in Hi. lia.
Qed.

Lemma permute_invert : forall A p (v : list A), wfp p -> (forall i, length v <= i -> get p i = i) ->
  exists w, permute p v = Some w /\ permute (invert p) w = Some v.
Proof.
  intros A p v Hp Hv. destruct (permute_spec A p v Hp Hv) as (w & Ew & Hl & Hw). exists w. split; auto.
  destruct (invert_wfp p Hp) as [Hi Hg].
  destruct (permute_spec A (invert p) w Hi) as (u & Eu & Hlu & Hu).
  { intros i Hle. destruct (Hg i) as [G1 _]. rewrite Hv in G1 by lia. auto. }
  rewrite Eu. f_equal. apply nth_error_ext. intros i. destruct (Hg i) as [G1 _]. rewrite <- G1 at 1. rewrite Hu. apply Hw.
Qed.

Lemma permute_chain : forall A p q (v : list A), wfp p -> wfp q ->
  (forall i, length v <= i -> get p i = i) -> (forall i, length v <= i -> get q i = i) ->
  exists r w u, chain p q = Some r /\ permute p v = Some w /\ permute q w = Some u /\ permute r v = Some u.
Proof.
  intros A p q v Hp Hq H1 H2. destruct (chain_spec p q Hp Hq) as (r & Er & Hr & Gr).
  destruct (permute_spec A p v Hp H1) as (w & Ew & Hlw & Hw).
  destruct (permute_spec A q w Hq) as (u & Eu & Hlu & Hu); [intros; apply H2; lia|].
  destruct (permute_spec A r v Hr) as (x & Ex & Hlx & Hx); [intros i Hi; rewrite Gr, H1, H2; auto|].
  exists r, w, u. repeat split; auto. rewrite Ex. f_equal. apply nth_error_ext. intros j.
  destruct (invert_wfp r Hr) as [_ Gi]. destruct (Gi j) as [_ <-]. set (i := get (invert r) j). rewrite Hx, Gr, Hu, Hw. auto.
Qed.

(** ** from_map *)
Definition mget (m : list (nat * nat)) (k : nat) : option nat := option_map snd (find (fun kv => fst kv =? k) m).

Lemma mget_in : forall m k x, NoDup (map fst m) -> (mget m k = Some x <-> In (k, x) m).
Proof.
  induction m as [|[k' x'] m IH]; intros k x Hn; simpl.
  - split; [discriminate|intros []].
  - inversion Hn as [|? ? Hk Hn']; subst. unfold mget in *. simpl. destruct (Nat.eqb_spec k' k) as [->|Hne].
    + simpl. split; [intros H; injection H as ->; auto|]. intros [H|H]; [congruence|].
      exfalso. apply Hk. apply in_map_iff. exists (k, x). auto.
    + rewrite IH by auto. split; auto. intros [H|H]; auto. congruence.
Qed.

Lemma map_loop_spec : forall m v, NoDup (map fst m) -> exists w, map_loop m v = Some w /\
  length v <= length w /\ (forall k x, In (k, x) m -> k < length w) /\
  (forall i, vget w i = match mget m i with Some x => x | None => vget v i end) /\
  (forall n, (forall k x, In (k, x) m -> k < n) -> length v <= n -> length w <= n).
Proof.
  induction m as [|[k x] m IH]; intros v Hn.
  - exists v. repeat split; auto. intros k x [].
  - simpl in Hn. inversion Hn as [|? ? Hk Hn']; subst. set (v' := v ++ seq (length v) (S k - length v)).
    assert (Hl : length v' = max (length v) (S k)) by (unfold v'; rewrite app_length, seq_length; lia).
    destruct (set_nth_some _ v' k x) as (v'' & E & Hl'' & Hg); [lia|].
    replace (map_loop ((k, x) :: m) v) with (map_loop m v'') by (cbn [map_loop]; fold v'; now rewrite E).
    destruct (IH v'' Hn') as (w & -> & W1 & W2 & W3 & W4). exists w. split; auto. split; [lia|]. split; [|split].
    + intros k0 x0 [H|H]; [injection H as <- <-; lia|eauto].
    + intros i. rewrite W3. unfold mget at 2. simpl. destruct (Nat.eqb_spec k i) as [->|Hne].
      * simpl. replace (mget m i) with (@None nat).
        -- unfold vget. rewrite Hg, Nat.eqb_refl. auto.
        -- symmetry. unfold mget. destruct (find _ m) as [[a b]|] eqn:Ef; auto. apply find_some in Ef. simpl in Ef.
           destruct Ef as [Hi Hab]. apply Nat.eqb_eq in Hab. subst a. exfalso. apply Hk. apply in_map_iff. exists (i, b). auto.
      * fold (mget m i). destruct (mget m i); auto. unfold vget. rewrite Hg. destruct (Nat.eqb_spec i k); [congruence|].
        unfold v'. destruct (Nat.lt_ge_cases i (length v)) as [Hlt|Hge]; [rewrite nth_error_app1; auto|].
        rewrite nth_error_app2 by auto. rewrite (proj2 (nth_error_None v i)) by auto.
        destruct (nth_error (seq _ _) _) as [y|] eqn:Ey; auto.
        assert (Hlt : i - length v < S k - length v) by (rewrite <- (seq_length (S k - length v) (length v)); apply nth_error_Some; congruence).
        rewrite (nth_error_nth' _ 0) in Ey by (rewrite seq_length; exact Hlt). injection Ey as <-. rewrite seq_nth; auto. lia.
    + intros n Hn0 Hv. apply W4; [intros k0 x0 H0; apply (Hn0 k0 x0); right; exact H0|]. rewrite Hl'', Hl. specialize (Hn0 k x (or_introl eq_refl)). lia.
Qed.

Lemma nth_error_vget : forall v i, i < length v -> nth_error v i = Some (vget v i).
Proof. intros v i H. unfold vget. destruct (nth_error v i) eqn:E; auto. apply nth_error_None in E. lia. Qed.

Lemma from_map_spec : forall m, NoDup (map fst m) -> Permutation (map fst m) (map snd m) ->
  exists p, from_map m = Some p /\ wfp p /\ forall i, get p i = match mget m i with Some x => x | None => i end.
Proof.
  intros m Hn Hp. unfold from_map. destruct (map_loop_spec m [] Hn) as (w & -> & _ & Hlt & Hw & _).
  assert (E : forall i, vget w i = match mget m i with Some x => x | None => i end).
  { intros i. rewrite Hw. destruct (mget m i); auto. unfold vget. destruct i; reflexivity. }
  assert (Hval : forall i x, mget m i = Some x -> In x (map fst m)).
  { intros i x Hm. apply mget_in in Hm; auto. apply (Permutation_in _ (Permutation_sym Hp)). apply in_map_iff. exists (i, x). auto. }
  assert (Hsnd : NoDup (map snd m)) by (eapply Permutation_NoDup; eauto).
  assert (Hinj : forall i j, vget w i = vget w j -> i = j).
  { intros i j. rewrite !E. destruct (mget m i) as [x|] eqn:Ei, (mget m j) as [y|] eqn:Ej; intros Q; auto.
    - subst y. apply mget_in in Ei; auto. apply mget_in in Ej; auto.
      apply In_nth_error in Ei. apply In_nth_error in Ej. destruct Ei as (a & Ea), Ej as (b & Eb).
      assert (a = b) by (apply (nodup_inj _ (map snd m) a b x Hsnd); [rewrite nth_error_map, Ea|rewrite nth_error_map, Eb]; reflexivity).
      congruence.
    - subst x. apply Hval in Ei. apply in_map_iff in Ei. destruct Ei as ([k z] & Hk & Hin). simpl in Hk. subst k.
      apply mget_in in Hin; auto. congruence.
    - subst y. apply Hval in Ej. apply in_map_iff in Ej. destruct Ej as ([k z] & Hk & Hin). simpl in Hk. subst k.
      apply mget_in in Hin; auto. congruence. }
  destruct (from_idx_to_val_spec w) as (p & Ep & Wp & Gp).
  - split.
    + apply NoDup_nth_error. intros i j Hi Q. apply Hinj.
      assert (Hj : j < length w) by (apply nth_error_Some; rewrite <- Q; apply nth_error_Some; auto).
      rewrite !nth_error_vget in Q by auto. congruence.
    + intros x Hx. apply In_nth_error in Hx. destruct Hx as (i & Hi).
      assert (Hil : i < length w) by (apply nth_error_Some; congruence).
      rewrite nth_error_vget in Hi by auto. injection Hi as <-. rewrite E. destruct (mget m i) as [y|] eqn:Em; auto.
      apply Hval in Em. apply in_map_iff in Em. destruct Em as ([k z] & Hk & Hin). simpl in Hk. subst k. eauto.
  - exists p. split; auto. split; auto. intros i. rewrite Gp. apply E.
Qed.

(** ** from_unsorted: stable sorting *)
Section Sort.
Variable A : Type.
Variable le : A -> A -> bool.
Variable d : A.
Hypothesis le_total : forall a b, le a b = true \/ le b a = true.
Hypothesis le_trans : forall a b c, le a b = true -> le b c = true -> le a c = true.
Variable vals : list A.

(** index [i] comes before index [j] *)
Definition before_idx (i j : nat) : Prop :=
  le (nth i vals d) (nth j vals d) = true /\ (le (nth j vals d) (nth i vals d) = true -> i < j).

Lemma insert_idx_perm : forall i l, Permutation (i :: l) (insert_idx le d vals i l).
Proof.
  induction l as [|j l IH]; simpl; auto. destruct (le _ _); auto.
  eapply perm_trans; [apply perm_swap|]. apply perm_skip. exact IH.
Qed.

Lemma insert_idx_sorted : forall i l, (forall j, In j l -> j < i) -> StronglySorted before_idx l ->
  StronglySorted before_idx (insert_idx le d vals i l).
Proof.
  induction l as [|j l IH]; intros Hlt Hs; simpl.
  - constructor; constructor.
  - inversion Hs as [|? ? Hs' Hf]; subst. destruct (le (nth j vals d) (nth i vals d)) eqn:E.
    + constructor; [apply IH; auto; intros; apply Hlt; simpl; auto|].
      rewrite Forall_forall in *. intros x Hx. apply (Permutation_in _ (Permutation_sym (insert_idx_perm i l))) in Hx.
      destruct Hx as [<-|Hx]; auto. split; auto. intros _. apply Hlt. simpl; auto.
    + assert (Hij : le (nth i vals d) (nth j vals d) = true) by (destruct (le_total (nth i vals d) (nth j vals d)); congruence).
      constructor; auto. constructor.
      * split; auto. intros Hc. congruence.
      * rewrite Forall_forall in *. intros x Hx. destruct (Hf x Hx) as [H1 H2]. split; [eapply le_trans; eauto|].
        intros Hc. exfalso. assert (le (nth j vals d) (nth i vals d) = true) by (eapply le_trans; eauto). congruence.
Qed.

Lemma sort_idx_inv : forall n m acc, m + n = length vals -> Permutation acc (seq 0 m) -> StronglySorted before_idx acc ->
  let r := fold_left (fun acc i => insert_idx le d vals i acc) (seq m n) acc in
  Permutation r (seq 0 (m + n)) /\ StronglySorted before_idx r.
Proof.
  induction n as [|n IH]; intros m acc Hm Hp Hs; simpl.
  - rewrite Nat.add_0_r. auto.
  - replace (m + S n) with (S m + n) by lia. apply IH; [lia| |].
    + eapply perm_trans; [apply Permutation_sym, insert_idx_perm|].
      replace (S m) with (m + 1) by lia. rewrite seq_app. simpl. eapply perm_trans; [|apply Permutation_cons_append].
      now apply perm_skip.
    + apply insert_idx_sorted; auto. intros j Hj. apply (Permutation_in _ Hp), in_seq in Hj. lia.
Qed.

Lemma sort_idx_spec : Permutation (sort_idx le d vals) (seq 0 (length vals)) /\ StronglySorted before_idx (sort_idx le d vals).
Proof.
  unfold sort_idx. destruct (sort_idx_inv (length vals) 0 [] eq_refl (perm_nil _)) as [H1 H2]; [constructor|]. auto.
Qed.

Lemma sorted_nth : forall l i j a b, StronglySorted before_idx l -> i < j -> nth_error l i = Some a -> nth_error l j = Some b -> before_idx a b.
Proof.
  induction l as [|x l IH]; intros i j a b Hs Hij Hi Hj; [destruct i; discriminate|].
  inversion Hs as [|? ? Hs' Hf]; subst. destruct j as [|j]; [lia|]. simpl in Hj. destruct i as [|i]; simpl in Hi.
  - injection Hi as ->. rewrite Forall_forall in Hf. apply Hf. eapply nth_error_In; eauto.
  - eapply (IH i j); eauto. lia.
Qed.

Lemma from_unsorted_spec : exists p r, from_unsorted le d vals = Some p /\ wfp p /\ permute p vals = Some r /\
  (forall i j a b, i < j -> nth_error r i = Some a -> nth_error r j = Some b -> le a b = true) /\
  (forall i j a b, i < j -> nth_error vals i = Some a -> nth_error vals j = Some b -> le a b = true -> le b a = true -> get p i < get p j).
Proof.
  destruct sort_idx_spec as [Hp Hs]. set (s := sort_idx le d vals) in *.
  assert (Hlen : length s = length vals) by (apply Permutation_length in Hp; rewrite seq_length in Hp; auto).
  assert (Hv : vperm s) by (apply vperm_iff; now rewrite Hlen).
  destruct (from_vector_spec s Hv) as (p & Ep & Wp & Gp).
  destruct (invert_wfp p Wp) as [_ Gi].
  assert (Hout : forall i, length vals <= i -> get p i = i).
  { intros i Hi. rewrite <- (Gp i) at 2. f_equal. unfold vget. now rewrite (proj2 (nth_error_None s i)) by lia. }
  destruct (permute_spec A p vals Wp Hout) as (r & Er & Hlr & Hr).
  assert (Hn : forall i, i < length vals -> nth_error r i = nth_error vals (vget s i)).
  { intros i Hi. rewrite <- (Hr (vget s i)), Gp. auto. }
  exists p, r. unfold from_unsorted. fold s. repeat split; auto; try apply Wp.
  - intros i j a b Hij Ha Hb. assert (Hj : j < length vals) by (rewrite <- Hlr; apply nth_error_Some; congruence).
    rewrite Hn in Ha by lia. rewrite Hn in Hb by lia.
    assert (B : before_idx (vget s i) (vget s j)).
    { apply (sorted_nth s i j); auto; apply nth_error_vget; lia. }
    destruct B as [B _]. apply nth_error_nth with (d := d) in Ha. apply nth_error_nth with (d := d) in Hb. congruence.
  - intros i j a b Hij Ha Hb L1 L2.
    assert (Hj : j < length vals) by (apply nth_error_Some; congruence).
    destruct (Nat.lt_trichotomy (get p i) (get p j)) as [?|[E|Hlt]]; auto.
    + apply get_inj in E; auto. lia.
    + exfalso. assert (Hgi : get p i < length vals).
      { destruct (Nat.lt_ge_cases (get p i) (length vals)) as [|Hge]; auto. pose proof (Hout _ Hge) as Q. apply get_inj in Q; auto. lia. }
      assert (V : forall k, vget s (get p k) = k).
      { intros k. apply (get_inj p); auto. }
      assert (B : before_idx j i).
      { apply (sorted_nth s (get p j) (get p i)); auto; rewrite nth_error_vget by lia; f_equal; apply V. }
      destruct B as [_ B]. apply nth_error_nth with (d := d) in Ha. apply nth_error_nth with (d := d) in Hb. rewrite Ha, Hb in B. specialize (B L1). lia.
Qed.
End Sort.

(** ** from_transformation *)
Section Trans.
Variable A : Type.
Variable eqb : A -> A -> bool.
Hypothesis eqb_eq : forall a b, eqb a b = true <-> a = b.

Lemma position_spec : forall x l, match position eqb x l with
  | Some i => nth_error l i = Some x /\ forall j, j < i -> nth_error l j <> Some x
  | None => ~ In x l end.
Proof.
  induction l as [|y l IH]; simpl; auto. destruct (eqb x y) eqn:E.
  - apply eqb_eq in E. subst. split; auto. intros; lia.
  - assert (x <> y) by (intros ->; rewrite (proj2 (eqb_eq y y)) in E; auto; discriminate).
    destruct (position eqb x l) as [i|]; simpl.
    + destruct IH as [H1 H2]. split; auto. intros [|j] Hj; simpl; [congruence|]. apply H2. lia.
    + intros [?|?]; auto.
Qed.

Lemma trans_map_spec : forall source target k, incl source target ->
  exists m, trans_map eqb source target k = Some m /\ map fst m = seq k (length source) /\
    forall i, nth_error m i = option_map (fun x => (k + i, match position eqb x target with Some j => j | None => 0 end)) (nth_error source i).
Proof.
  induction source as [|s source IH]; intros target k Hi; simpl.
  - exists []. repeat split; auto. intros [|i]; reflexivity.
  - pose proof (position_spec s target) as P. destruct (position eqb s target) as [j|] eqn:Ej; [|exfalso; apply P, Hi; simpl; auto].
    destruct (IH target (S k)) as (m & -> & Hm & Hn); [intros x Hx; apply Hi; simpl; auto|].
    eexists. split; [reflexivity|]. simpl. rewrite Hm. split; auto. intros [|i]; simpl.
    + rewrite Ej. do 2 f_equal. lia.
    + rewrite Hn. destruct (nth_error source i); simpl; auto. do 2 f_equal. lia.
Qed.

Lemma from_transformation_spec : forall source target, NoDup source -> Permutation source target ->
  exists p, from_transformation eqb source target = Some p /\ wfp p /\ permute p source = Some target.
Proof.
  intros source target Hn Hp. unfold from_transformation.
  destruct (trans_map_spec source target 0) as (m & -> & Hf & Hm).
  { intros x. apply (Permutation_in _ Hp). }
  assert (Hnt : NoDup target) by (eapply Permutation_NoDup; eauto).
  assert (Hl : length m = length source) by (rewrite <- (map_length fst m), Hf, seq_length; auto).
  assert (Hlt : length target = length source) by (symmetry; now apply Permutation_length).
  assert (Hpos : forall i x, nth_error source i = Some x -> exists j, nth_error m i = Some (i, j) /\ nth_error target j = Some x).
  { intros i x Hi. rewrite Hm, Hi. simpl. pose proof (position_spec x target) as P. destruct (position eqb x target) as [j|].
    - exists j. split; auto. apply P.
    - exfalso. apply P. apply (Permutation_in _ Hp). eapply nth_error_In; eauto. }
  assert (Hsnd : vperm (map snd m)).
  { split.
    - apply NoDup_nth_error. intros a b Ha Q. rewrite map_length in Ha. rewrite !nth_error_map in Q.
      destruct (nth_error source a) as [x|] eqn:Ex; [|apply nth_error_None in Ex; lia].
      destruct (Hpos a x Ex) as (j & Hj & Tj). rewrite Hj in Q. simpl in Q.
      destruct (nth_error m b) as [[b' j']|] eqn:Eb; simpl in Q; [|discriminate]. injection Q as <-.
      destruct (nth_error source b) as [y|] eqn:Ey.
      2:{ apply nth_error_None in Ey. assert (b < length m) by (apply nth_error_Some; congruence). lia. }
      destruct (Hpos b y Ey) as (j2 & Hj2 & Tj2). rewrite Eb in Hj2. injection Hj2 as -> <-.
      apply (nodup_inj _ source a b x Hn); congruence.
    - intros x Hx. apply in_map_iff in Hx. destruct Hx as ([i j] & <- & Hin). apply In_nth_error in Hin. destruct Hin as (a & Ha). simpl.
      rewrite map_length, Hl, <- Hlt. destruct (nth_error source a) as [x|] eqn:Ex.
      + destruct (Hpos a x Ex) as (j' & Hj & Tj). rewrite Ha in Hj. injection Hj as _ <-. apply nth_error_Some. congruence.
      + apply nth_error_None in Ex. assert (a < length m) by (apply nth_error_Some; congruence). lia. }
  destruct (from_map_spec m) as (p & Ep & Wp & Gp).
  - rewrite Hf. apply seq_NoDup.
  - rewrite Hf. apply vperm_iff in Hsnd. rewrite map_length, Hl in Hsnd. now apply Permutation_sym.
  - exists p. split; auto. split; auto.
    assert (Hget : forall i x, nth_error source i = Some x -> nth_error target (get p i) = Some x).
    { intros i x Hi. destruct (Hpos i x Hi) as (j & Hj & Tj). rewrite Gp. apply nth_error_In in Hj.
      apply mget_in in Hj; [rewrite Hj; auto|rewrite Hf; apply seq_NoDup]. }
    destruct (permute_spec A p source Wp) as (r & Er & Hlr & Hr).
    { intros i Hi. rewrite Gp. destruct (mget m i) eqn:Em; auto. apply mget_in in Em; [|rewrite Hf; apply seq_NoDup].
      apply (in_map fst) in Em. rewrite Hf in Em. apply in_seq in Em. simpl in Em. lia. }
    rewrite Er. f_equal. apply nth_error_ext. intros k. destruct (invert_wfp p Wp) as [_ Gi]. destruct (Gi k) as [_ <-].
    set (i := get (invert p) k). rewrite Hr. destruct (nth_error source i) as [x|] eqn:Ex; [symmetry; now apply Hget|].
    symmetry. apply nth_error_None in Ex. apply nth_error_None. rewrite Hlt. rewrite Gp.
    destruct (mget m i) eqn:Em; auto. apply mget_in in Em; [|rewrite Hf; apply seq_NoDup].
    apply (in_map fst) in Em. rewrite Hf in Em. apply in_seq in Em. simpl in Em. lia.
Qed.
End Trans.
