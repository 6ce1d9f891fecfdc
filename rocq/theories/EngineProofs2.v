(** Joins and semi-naive evaluation. *)
From Coq Require Import List Arith ZArith Bool Lia Permutation.
From Verif Require Import TableModel EngineModel EngineSpec EngineProofs1.
Import ListNotations.

Lemma fold_join2_spec ns : forall acc, wfn acc -> (forall n, In n ns -> wfn n) ->
  wfn (fold_left join2 ns acc) /\
  (forall v, In v (nvars (fold_left join2 ns acc)) <-> In v (nvars acc) \/ exists n, In n ns /\ In v (nvars n)) /\
  forall nu, msat nu (fold_left join2 ns acc) <-> msat nu acc /\ forall n, In n ns -> msat nu n.
Proof.
  induction ns as [|n ns IH]; simpl; intros acc Ha Hn.
  - split; auto. split; [firstorder|firstorder].
  - destruct (join2_spec acc n Ha (Hn n (or_introl eq_refl))) as (H1 & H2 & H3).
    destruct (IH (join2 acc n) H1 (fun m Hm => Hn m (or_intror Hm))) as (H4 & H5 & H6).
    split; auto. split.
    + intros v. rewrite H5, H2. split.
      * intros [[?|?]|(m & ? & ?)]; [auto|right; exists n; auto|right; exists m; auto].
      * intros [?|(m & [<-|?] & ?)]; [auto|auto|right; eauto].
    + intros nu. rewrite H6, H3. split.
      * intros [[? ?] ?]. split; auto. intros m [<-|?]; auto.
      * intros [? Hm]. split; [split|]; auto.
Qed.

Lemma wfn_zero : wfn zero_node.
Proof. constructor; simpl; [constructor|]. intros r [<-|[]]. reflexivity. Qed.
Lemma msat_zero nu : msat nu zero_node.
Proof. now left. Qed.

Lemma join_nodes_spec order ns n : join_nodes order ns = Some n -> (forall m, In m ns -> wfn m) -> NoDup order ->
  nvars n = order /\ wfn n /\ forall nu, msat nu n <-> forall m, In m ns -> msat nu m.
Proof.
  unfold join_nodes. intros H Hw Hnd. destruct (inclb (nvars (fold_left join2 ns zero_node)) order) eqn:E; [|discriminate].
  apply inclb_incl in E. destruct (fold_join2_spec ns zero_node wfn_zero Hw) as (H1 & H2 & H3).
  destruct (project_spec _ _ _ H H1 Hnd) as (H4 & H5 & H6 & H7). split; auto. split; auto.
  intros nu. rewrite H7. split.
  - intros (nu' & Hag & Hs) m Hm. rewrite H3 in Hs. destruct Hs as [_ Hs].
    rewrite <- (msat_ext nu' nu); auto. intros v Hv. apply Hag, E, H2. right. eauto.
  - intros Hs. exists nu. split; auto. apply H3. split; auto. apply msat_zero.
Qed.
Lemma join_nodes_some order ns : (forall m, In m ns -> wfn m) ->
  (forall v, In v order <-> exists m, In m ns /\ In v (nvars m)) -> exists n, join_nodes order ns = Some n.
Proof.
  intros Hw Ho. destruct (fold_join2_spec ns zero_node wfn_zero Hw) as (H1 & H2 & H3). unfold join_nodes.
  assert (E : incl (nvars (fold_left join2 ns zero_node)) order).
  { intros v Hv. apply H2 in Hv. apply Ho. destruct Hv as [[]|Hv]; auto. }
  apply inclb_incl in E. rewrite E. apply project_some. intros v Hv. apply H2. right. now apply Ho.
Qed.

(** ** Readers *)
Definition rd_ok (rd : reader) (D : tag -> nat -> row -> Prop) : Prop :=
  forall p lo hi, exists rows, rd p lo hi = Some rows /\ forall r, In r rows <-> exists s, lo <= s < hi /\ D p s r.

Definition in_range (u : urange) (cur last s : nat) : Prop :=
  fst (as_range u cur last) <= s < snd (as_range u cur last).

Section Rd.
Context (rd : reader) (D : tag -> nat -> row -> Prop) (Hrd : rd_ok rd D).

Lemma rd_dec p lo hi r : {exists s, lo <= s < hi /\ D p s r} + {~ exists s, lo <= s < hi /\ D p s r}.
Proof.
  destruct (rd p lo hi) as [rows|] eqn:E.
  - destruct (in_dec row_eq_dec r rows) as [Hi|Hi].
    + left. destruct (Hrd p lo hi) as (rows' & E' & Hx). rewrite E in E'. injection E' as <-. now apply Hx.
    + right. destruct (Hrd p lo hi) as (rows' & E' & Hx). rewrite E in E'. injection E' as <-. intros H. now apply Hi, Hx.
  - exfalso. destruct (Hrd p lo hi) as (rows' & E' & Hx). congruence.
Qed.

Lemma atom_node_spec (a : atom) u cur last : NoDup (snd a) ->
  exists n, atom_node rd a u cur last = Some n /\ nvars n = snd a /\ wfn n /\
  forall nu, msat nu n <-> exists s, in_range u cur last s /\ D (fst a) s (map nu (snd a)).
Proof.
  intros Hnd. unfold atom_node, in_range. destruct (as_range u cur last) as [lo hi]. simpl.
  destruct (Hrd (fst a) lo hi) as (rows & -> & Hx). simpl. eexists. split; [reflexivity|]. simpl. split; auto. split.
  - constructor; simpl; auto. intros r Hr. apply filter_In in Hr. destruct Hr as [_ Hr]. now apply Nat.eqb_eq in Hr.
  - intros nu. unfold msat. simpl. rewrite filter_In, Hx, map_length, Nat.eqb_refl. tauto.
Qed.

Lemma mapM_atoms_spec cur last : forall aus : list (atom * urange), (forall (a : atom) u, In (a, u) aus -> NoDup (snd a)) ->
  exists ns, mapM (fun au => atom_node rd (fst au) (snd au) cur last) aus = Some ns /\
   (forall m, In m ns -> wfn m) /\
   (forall v, (exists m, In m ns /\ In v (nvars m)) <-> exists (a : atom) u, In (a, u) aus /\ In v (snd a)) /\
   forall nu, (forall m, In m ns -> msat nu m) <->
     forall a u, In (a, u) aus -> exists s, in_range u cur last s /\ D (fst a) s (map nu (snd a)).
Proof.
  induction aus as [|[a u] aus IH]; intros Hnd; simpl.
  - exists []. split; auto. split; [intros m []|]. split.
    + intros v. split; [intros (m & [] & _)|intros (b & w & [] & _)].
    + intros nu. split; [intros H b w []|intros H m []].
  - destruct (atom_node_spec a u cur last (Hnd a u (or_introl eq_refl))) as (n & -> & H1 & H2 & H3).
    destruct IH as (ns & E2 & H4 & H5 & H6).
    { intros b w Hb. apply (Hnd b w). now right. }
    rewrite E2.
    exists (n :: ns). split; auto. split; [|split].
    + intros m [<-|Hm]; auto.
    + intros v. split.
      * intros (m & [<-|Hm] & Hv). { exists a, u. rewrite H1 in Hv. split; auto. }
        destruct (proj1 (H5 v)) as (b & w & Hb & Hvb); [eauto|]. exists b, w. auto.
      * intros (b & w & [Hb|Hb] & Hv). { injection Hb as <- <-. exists n. rewrite H1. split; [now left|auto]. }
        destruct (proj2 (H5 v)) as (m & Hm & Hvm); [eauto|]. exists m. split; [now right|auto].
    + intros nu. split.
      * intros H b w [Hb|Hb]. { injection Hb as <- <-. apply H3, H. now left. }
        revert b w Hb. apply (proj1 (H6 nu)). intros m Hm. apply H. now right.
      * intros H m [<-|Hm]. { apply H3. apply (H a u). now left. }
        revert m Hm. apply H6. intros b w Hb. apply (H b w). now right.
Qed.

Lemma restrict_in order vs v : In v (restrict order vs) <-> In v order /\ In v vs.
Proof. unfold restrict. rewrite filter_In, memv_in. tauto. Qed.

Lemma combine_in_l {A B} (l : list A) : forall (l' : list B), length l = length l' ->
  forall x, In x l -> exists y, In (x, y) (combine l l').
Proof.
  induction l as [|a l IH]; intros [|b l'] Hl x Hx; simpl in *; try discriminate; [destruct Hx|].
  destruct Hx as [->|Hx]; [exists b; auto|]. destruct (IH l' ltac:(lia) x Hx) as [y Hy]. exists y. auto.
Qed.

Lemma combine_in_r {A B} (l : list A) : forall (l' : list B), length l = length l' ->
  forall y, In y l' -> exists x, In (x, y) (combine l l').
Proof.
  induction l as [|a l IH]; intros [|b l'] Hl x Hx; simpl in *; try discriminate; [destruct Hx|].
  destruct Hx as [->|Hx]; [exists a; auto|]. destruct (IH l' ltac:(lia) x Hx) as [y Hy]. exists y. auto.
Qed.

Lemma variant_node_spec (atoms : list atom) us order cur last :
  (forall a, In a atoms -> NoDup (snd a)) -> length us = length atoms -> NoDup order -> incl (atom_vars atoms) order ->
  exists n, variant_node rd atoms us order cur last = Some n /\
   nvars n = restrict order (atom_vars atoms) /\ wfn n /\
   forall nu, msat nu n <-> forall a u, In (a, u) (combine atoms us) -> exists s, in_range u cur last s /\ D (fst a) s (map nu (snd a)).
Proof.
  intros Hnd Hl Ho Hi. unfold variant_node.
  destruct (mapM_atoms_spec cur last (combine atoms us)) as (ns & -> & H1 & H2 & H3).
  { intros a u Hau. apply in_combine_l in Hau. auto. }
  assert (Hr : NoDup (restrict order (atom_vars atoms))) by (apply NoDup_filter; auto).
  destruct (join_nodes_some (restrict order (atom_vars atoms)) ns H1) as [n Hn].
  - intros v. rewrite restrict_in, H2. split.
    + intros [_ Hv]. unfold atom_vars in Hv. apply in_flat_map in Hv. destruct Hv as (a & Ha & Hv).
      destruct (combine_in_l atoms us (eq_sym Hl) a Ha) as [u Hu]. eauto.
    + intros (a & u & Hau & Hv). apply in_combine_l in Hau.
      assert (In v (atom_vars atoms)) by (apply in_flat_map; eauto). auto.
  - exists n. split; auto. destruct (join_nodes_spec _ _ _ Hn H1 Hr) as (H4 & H5 & H6).
    split; auto. split; auto. intros nu. rewrite H6. apply H3.
Qed.

Lemma nth_combine_ranges (atoms : list atom) b mid :
  forall a u, In (a, u) (combine atoms (variant_ranges b (length atoms) mid)) <->
    exists i, nth_error atoms i = Some a /\ u = variant_range b mid i.
Proof.
  unfold variant_ranges. assert (Hg : forall k a u, In (a, u) (combine atoms (map (variant_range b mid) (seq k (length atoms)))) <->
    exists i, nth_error atoms i = Some a /\ u = variant_range b mid (k + i)).
  { induction atoms as [|a0 atoms IH]; intros k a u; simpl.
    - split; [tauto|]. intros (i & H & _). destruct i; discriminate.
    - rewrite IH. split.
      + intros [H|(i & H1 & H2)].
        * injection H as <- <-. exists 0. rewrite Nat.add_0_r. auto.
        * exists (S i). rewrite Nat.add_succ_r. auto.
      + intros ([|i] & H1 & H2); simpl in H1.
        * left. injection H1 as <-. rewrite Nat.add_0_r in H2. now subst.
        * right. exists i. rewrite Nat.add_succ_r in H2. auto. }
  intros a u. apply (Hg 0).
Qed.

Definition new_start (last_is_new : bool) (last : nat) : nat := if last_is_new then last else last + 1.

Lemma mapM_variants (atoms : list atom) order cur last : (forall a, In a atoms -> NoDup (snd a)) -> NoDup order -> incl (atom_vars atoms) order ->
  forall uss, (forall us, In us uss -> length us = length atoms) ->
  exists ns, mapM (fun us => variant_node rd atoms us order cur last) uss = Some ns /\
    (forall n, In n ns -> nvars n = restrict order (atom_vars atoms) /\ wfn n) /\
    forall nu, (exists n, In n ns /\ msat nu n) <->
      exists us, In us uss /\ forall a u, In (a, u) (combine atoms us) -> exists s, in_range u cur last s /\ D (fst a) s (map nu (snd a)).
Proof.
  intros Hnd Ho Hi. induction uss as [|us uss IH]; intros Hlen; simpl.
  - exists []. split; auto. split; [intros ? []|]. intros nu. split; [intros (? & [] & _)|intros (? & [] & _)].
  - destruct (variant_node_spec atoms us order cur last Hnd (Hlen us (or_introl eq_refl)) Ho Hi) as (n & -> & H1 & H2 & H3).
    destruct IH as (ns & -> & H4 & H5); [intros; apply Hlen; now right|].
    exists (n :: ns). split; auto. split.
    + intros m [<-|Hm]; auto.
    + intros nu. split.
      * intros (m & [<-|Hm] & Hs). { exists us. split; auto. now apply H3. }
        destruct (proj1 (H5 nu)) as (us' & Hu & Hx); [eauto|]. exists us'. auto.
      * intros (us' & [<-|Hu] & Hx). { exists n. split; auto. now apply H3. }
        destruct (proj2 (H5 nu)) as (m & Hm & Hs); [eauto|]. exists m. auto.
Qed.

(** The last index satisfying a decidable property. *)
Lemma last_index {A} (P : A -> Prop) (Pdec : forall x, {P x} + {~ P x}) (l : list A) :
  (exists x, In x l /\ P x) ->
  exists i x, nth_error l i = Some x /\ P x /\ forall j y, i < j -> nth_error l j = Some y -> ~ P y.
Proof.
  induction l as [|a l IH] using rev_ind; [intros (x & [] & _)|].
  intros (x & Hx & HP). destruct (Pdec a) as [Ha|Ha].
  - exists (length l), a. rewrite nth_error_app2, Nat.sub_diag by lia. repeat split; auto.
    intros j y Hj Hy. assert (j < length (l ++ [a])) by (apply nth_error_Some; congruence). rewrite app_length in H. simpl in H. lia.
  - apply in_app_iff in Hx. destruct Hx as [Hx|[->|[]]]; [|tauto].
    destruct IH as (i & y & Hi & Hy & Hmax); [eauto|]. exists i, y.
    assert (i < length l) by (apply nth_error_Some; congruence).
    rewrite nth_error_app1 by auto. repeat split; auto. intros j z Hj Hz.
    destruct (Nat.lt_ge_cases j (length l)).
    + rewrite nth_error_app1 in Hz by auto. eauto.
    + rewrite nth_error_app2 in Hz by auto. destruct (j - length l) as [|k] eqn:E; simpl in Hz.
      * injection Hz as <-. auto.
      * destruct k; discriminate.
Qed.

Theorem seminaive_spec b (atoms : list atom) order cur last :
  (forall a, In a atoms -> NoDup (snd a)) -> NoDup order -> incl (atom_vars atoms) order -> new_start b last <= cur ->
  exists n, seminaive_node rd b atoms order cur last = Some n /\
    nvars n = restrict order (atom_vars atoms) /\ wfn n /\
    forall nu, msat nu n <->
      (forall a, In a atoms -> exists s, s < cur /\ D (fst a) s (map nu (snd a))) /\
      (atoms = [] \/ exists a s, In a atoms /\ new_start b last <= s < cur /\ D (fst a) s (map nu (snd a))).
Proof.
  intros Hnd Ho Hi Hle. unfold seminaive_node. destruct atoms as [|a0 atoms0] eqn:Eat.
  - exists zero_node. split; auto. simpl. split.
    { unfold restrict. clear. induction order; simpl; auto. }
    split; [apply wfn_zero|]. intros nu. split; [|intros _; apply msat_zero]. intros _. split; [intros a []|auto].
  - assert (Hne : atoms <> []) by (rewrite Eat; discriminate). rewrite <- Eat in *. clear Eat a0 atoms0.
    set (variants := map (variant_ranges b (length atoms)) (seq 0 (length atoms))).
    set (live := filter (fun us => negb (existsb (range_empty cur last) us)) variants).
    assert (Hlen : forall us, In us live -> length us = length atoms).
    { intros us Hu. apply filter_In in Hu. destruct Hu as [Hu _]. apply in_map_iff in Hu. destruct Hu as (m & <- & _).
      unfold variant_ranges. now rewrite map_length, seq_length. }
    destruct (mapM_variants atoms order cur last Hnd Ho Hi live Hlen) as (ns & -> & H1 & H2).
    simpl. eexists. split; [reflexivity|]. simpl. split; auto. split.
    { constructor; simpl; [apply NoDup_filter; auto|]. intros r Hr. apply in_flat_map in Hr. destruct Hr as (n & Hn & Hr).
      destruct (H1 n Hn) as [Hv Hw]. rewrite <- Hv. apply Hw; auto. }
    intros nu.
    assert (Hms : msat nu (mkNode (restrict order (atom_vars atoms)) (flat_map nrows ns)) <-> exists n, In n ns /\ msat nu n).
    { unfold msat. simpl. rewrite in_flat_map. split; intros (n & Hn & Hx); exists n; split; auto; destruct (H1 n Hn) as [Hv _]; rewrite Hv in *; auto. }
    rewrite Hms, H2.
    assert (Hin : forall mid i s, in_range (variant_range b mid i) cur last s -> s < cur).
    { intros mid i s. unfold variant_range, in_range. clear - Hle. unfold new_start in Hle.
      destruct (mid <? i); [|destruct (i =? mid)]; destruct b; simpl; intros; lia. }
    split.
    + intros (us & Hu & Hx). apply filter_In in Hu. destruct Hu as [Hu Hl].
      apply in_map_iff in Hu. destruct Hu as (mid & <- & Hmid). apply in_seq in Hmid.
      assert (Hx' : forall i a, nth_error atoms i = Some a -> exists s, in_range (variant_range b mid i) cur last s /\ D (fst a) s (map nu (snd a))).
      { intros i a Hia. apply Hx. apply nth_combine_ranges. eauto. }
      split.
      * intros a Ha. apply In_nth_error in Ha. destruct Ha as [i Hia]. destruct (Hx' i a Hia) as (s & Hs & Hd).
        exists s. split; auto. eapply Hin; eauto.
      * right. destruct (nth_error atoms mid) as [a|] eqn:Ea; [|apply nth_error_None in Ea; lia].
        destruct (Hx' mid a Ea) as (s & Hs & Hd). exists a, s. split; [eapply nth_error_In; eauto|]. split; auto.
        unfold variant_range in Hs. rewrite Nat.ltb_irrefl, Nat.eqb_refl in Hs. unfold in_range, new_start in *. destruct b; simpl in Hs; lia.
    + intros [Hall Hnew]. destruct Hnew as [->|(a & s & Ha & Hs & Hd)].
      { now destruct Hne. }
      destruct (last_index (A:=atom) (fun a : atom => exists s, new_start b last <= s < cur /\ D (fst a) s (map nu (snd a)))
                  (fun a => rd_dec (fst a) (new_start b last) cur (map nu (snd a))) atoms) as (mid & am & Hm & (sm & Hsm & Hdm) & Hmax); [eauto|].
      exists (variant_ranges b (length atoms) mid).
      assert (Hmid : mid < length atoms) by (apply (proj1 (nth_error_Some atoms mid)); intros Hc; change (nth_error atoms mid = None) in Hc; assert (Hq : Some am = None) by (rewrite <- Hm; exact Hc); discriminate Hq).
      assert (Hx : forall a u, In (a, u) (combine atoms (variant_ranges b (length atoms) mid)) ->
                 exists s, in_range u cur last s /\ D (fst a) s (map nu (snd a))).
      { intros a' u Hau. apply nth_combine_ranges in Hau. destruct Hau as (i & Hia & ->). unfold variant_range.
        destruct (Nat.ltb_spec mid i) as [Hlt|Hge].
        - destruct (Hall a') as (s' & Hs' & Hd'); [eapply nth_error_In; eauto|]. exists s'. split; auto.
          specialize (Hmax i a' Hlt Hia).
          assert (Hs'' : s' < new_start b last).
          { destruct (Nat.lt_ge_cases s' (new_start b last)); auto. exfalso. apply Hmax. exists s'. auto. }
          unfold in_range, new_start in *. destruct b; simpl; lia.
        - destruct (Nat.eqb_spec i mid) as [->|Hne2].
          + rewrite Hm in Hia. injection Hia as <-. exists sm. split; auto. unfold in_range, new_start in *. destruct b; simpl; lia.
          + destruct (Hall a') as (s' & Hs' & Hd'); [eapply nth_error_In; eauto|]. exists s'. split; auto. unfold in_range; simpl; lia. }
      split; auto. apply filter_In. split.
      * apply in_map. apply in_seq. lia.
      * rewrite negb_true_iff, <- not_true_iff_false. intros He. apply existsb_exists in He. destruct He as (u & Hu & He).
        destruct (combine_in_r atoms (variant_ranges b (length atoms) mid)) with (y := u) as [a' Ha'].
        { unfold variant_ranges. now rewrite map_length, seq_length. } { exact Hu. }
        destruct (Hx a' u Ha') as (s' & Hs' & _). unfold range_empty in He. unfold in_range in Hs'.
        destruct (as_range u cur last) as [lo hi]. apply Nat.leb_le in He. simpl in Hs'. lia.
Qed.
End Rd.
