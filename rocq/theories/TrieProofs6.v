(* The layers of a trie. *)
From Coq Require Import List ZArith Bool Lia Arith Permutation Sorted.
From Verif Require Import ColumnModel ScanModel TrieModel TrieSpec TrieProofs1 TrieProofs2 TrieProofs3 TrieProofs4 TrieProofs5.
Import ListNotations.
Local Open Scope nat_scope.

(* the different prefixes of length k in the order of their first rows, the last one first *)
Definition ppush (k : nat) (acc : list row) (r : row) : list row :=
  match acc with
  | p :: _ => if row_eq_dec (firstn k r) p then acc else firstn k r :: acc
  | [] => [firstn k r]
  end.
Definition rpre (k : nat) (L : list row) : list row := fold_left (ppush k) L [].
Definition pre (k : nat) (L : list row) : list row := rev (rpre k L).
Definition groups (k : nat) (L : list row) : list group := map (fun g : group => (fst g, rev (snd g))) (rev (rgroups k L)).
Definition flat (gs : list group) : list row := concat (map (fun g : group => map (fun v => fst g ++ [v]) (snd g)) gs).
Definition values (gs : list group) : list value := concat (map snd gs).
Definition well (n : nat) (L : list row) : Prop := Forall (fun r => length r = n) L.

Lemma rpre_snoc : forall k L r, rpre k (L ++ [r]) = ppush k (rpre k L) r.
Proof. intros. unfold rpre. rewrite fold_left_app. reflexivity. Qed.
Lemma rgroups_snoc : forall k L r, rgroups k (L ++ [r]) = gpush k (rgroups k L) r.
Proof. intros. unfold rgroups. rewrite fold_left_app. reflexivity. Qed.

Lemma rpre_head : forall k L r, exists l, rpre k (L ++ [r]) = firstn k r :: l.
Proof.
  intros k L r. rewrite rpre_snoc. unfold ppush. destruct (rpre k L) as [|p l]; [eexists; reflexivity|].
  destruct (row_eq_dec (firstn k r) p) as [->|]; eexists; reflexivity.
Qed.
Lemma rgroups_head : forall k L r, exists vs E, rgroups k (L ++ [r]) = (firstn k r, nth k r dflt :: vs) :: E.
Proof.
  intros k L r. rewrite rgroups_snoc. unfold gpush. destruct (rgroups k L) as [|[p [|v vs]] E]; [do 2 eexists; reflexivity|do 2 eexists; reflexivity|].
  destruct (row_eq_dec (firstn k r) p) as [->|]; [destruct (value_eq_dec v (nth k r dflt)) as [->|]|]; do 2 eexists; reflexivity.
Qed.
Lemma rgroups_empty : forall k, rgroups k [] = [].
Proof. reflexivity. Qed.

Lemma rgroups_prefixes : forall k L, map fst (rgroups k L) = rpre k L.
Proof.
  intros k. induction L as [|r L IH] using rev_ind; [reflexivity|]. rewrite rgroups_snoc, rpre_snoc, <- IH.
  destruct L as [|r0 L _] using rev_ind; [reflexivity|]. destruct (rgroups_head k L r0) as (vs & E & ->). rewrite gpush_step. cbn [map fst ppush].
  destruct (row_eq_dec (firstn k r) (firstn k r0)); [|reflexivity]. destruct (value_eq_dec (nth k r0 dflt) (nth k r dflt)); reflexivity.
Qed.
Lemma rgroups_flat : forall n k L, k < n -> well n L -> flat (rgroups k L) = rpre (S k) L.
Proof.
  intros n k L Hk. induction L as [|r L IH] using rev_ind; intros W; [reflexivity|]. apply Forall_app in W. destruct W as [W Wr].
  inversion Wr as [|? ? Hr _]; subst. specialize (IH W). rewrite rgroups_snoc, rpre_snoc, <- IH.
  destruct L as [|r0 L _] using rev_ind.
  - cbn [rgroups rpre fold_left gpush ppush flat map concat app fst snd]. rewrite (firstn_snoc _ k r dflt) by lia. reflexivity.
  - apply Forall_app in W. destruct W as [_ W0]. inversion W0 as [|? ? H0 _]; subst.
    destruct (rgroups_head k L r0) as (vs & E & ->). rewrite gpush_step. unfold ppush.
    assert (Hf : forall p v l, flat ((p, v :: vs) :: l) = (p ++ [v]) :: flat ((p, vs) :: l)) by reflexivity.
    rewrite Hf. pose proof (firstn_snoc _ k r dflt ltac:(lia)) as F1. pose proof (firstn_snoc _ k r0 dflt ltac:(lia)) as F0.
    pose proof (prefix_S k r r0 ltac:(lia) ltac:(lia)) as HS.
    destruct (row_eq_dec (firstn k r) (firstn k r0)) as [Ep|Np].
    + destruct (value_eq_dec (nth k r0 dflt) (nth k r dflt)) as [Ev|Nv].
      * destruct (row_eq_dec (firstn (S k) r) (firstn k r0 ++ [nth k r0 dflt])) as [_|N]; [reflexivity|].
        exfalso. apply N. rewrite F1, Ep, Ev. reflexivity.
      * destruct (row_eq_dec (firstn (S k) r) (firstn k r0 ++ [nth k r0 dflt])) as [E1|_].
        -- exfalso. rewrite <- F0 in E1. apply HS in E1. destruct E1. congruence.
        -- unfold flat. cbn [map concat fst snd]. rewrite F1, Ep. reflexivity.
    + destruct (row_eq_dec (firstn (S k) r) (firstn k r0 ++ [nth k r0 dflt])) as [E1|_].
      * exfalso. rewrite <- F0 in E1. apply HS in E1. destruct E1. congruence.
      * unfold flat. cbn [map concat fst snd app]. rewrite F1. reflexivity.
Qed.

Lemma groups_prefixes : forall k L, map fst (groups k L) = pre k L.
Proof. intros k L. unfold groups, pre. rewrite map_map, <- rgroups_prefixes, <- map_rev. apply map_ext. reflexivity. Qed.

Lemma concat_rev : forall A (ls : list (list A)), rev (concat ls) = concat (rev (map (@rev A) ls)).
Proof.
  intros A. induction ls as [|l ls IH]; [reflexivity|]. cbn [concat map rev]. rewrite rev_app_distr, IH, concat_app. cbn [concat]. rewrite app_nil_r. reflexivity.
Qed.
Lemma groups_flat : forall n k L, k < n -> well n L -> flat (groups k L) = pre (S k) L.
Proof.
  intros n k L Hk W. unfold pre. rewrite <- (rgroups_flat n k L Hk W). unfold flat, groups. rewrite concat_rev. f_equal.
  rewrite !map_map. rewrite <- map_rev. apply map_ext. intros g. cbn [fst snd]. apply map_rev.
Qed.

(* ---------- sorted rows ---------- *)

Lemma row_le_firstn : forall k r s, row_le r s -> row_le (firstn k r) (firstn k s).
Proof.
  intros k r s [H| ->]; [|right; reflexivity]. revert r s H. induction k as [|k IH]; intros r s H; [right; reflexivity|].
  destruct r as [|v r], s as [|w s]; cbn in H; try tauto. cbn [firstn]. destruct H as [H|[-> H]].
  - left. cbn. auto.
  - destruct (IH r s H) as [H'|H']; [left; cbn; auto|right; congruence].
Qed.
Definition row_gt (r s : row) : Prop := row_lt s r.

Lemma sorted_snoc : forall A (R : A -> A -> Prop) l x, StronglySorted R (l ++ [x]) -> StronglySorted R l /\ forall y, In y l -> R y x.
Proof.
  intros A R. induction l as [|a l IH]; intros x H; cbn in H; [split; [constructor|intros y []]|]. inversion H as [|? ? Hs Hf]; subst.
  apply IH in Hs. destruct Hs as [H1 H2]. split.
  - constructor; [exact H1|]. apply Forall_app in Hf. apply Hf.
  - intros y [<-|Hy]; [|apply H2, Hy]. apply Forall_app in Hf. destruct Hf as [_ Hf]. inversion Hf; subst. assumption.
Qed.
Lemma sorted_app_intro : forall A (R : A -> A -> Prop) l m, StronglySorted R l -> StronglySorted R m -> (forall x y, In x l -> In y m -> R x y) ->
  StronglySorted R (l ++ m).
Proof.
  intros A R. induction l as [|a l IH]; intros m Hl Hm H; [exact Hm|]. inversion Hl as [|? ? Hs Hf]; subst. cbn. constructor.
  - apply IH; try assumption. intros x y Hx. apply H. right. exact Hx.
  - apply Forall_app. split; [exact Hf|]. apply Forall_forall. intros y Hy. apply H; [left; reflexivity|exact Hy].
Qed.
Lemma sorted_app : forall A (R : A -> A -> Prop) l m, StronglySorted R (l ++ m) ->
  StronglySorted R l /\ StronglySorted R m /\ (forall x y, In x l -> In y m -> R x y).
Proof.
  intros A R. induction l as [|a l IH]; intros m H; [split; [constructor|split; [exact H|intros x y []]]|]. cbn in H. inversion H as [|? ? Hs Hf]; subst.
  apply IH in Hs. destruct Hs as (H1 & H2 & H3). apply Forall_app in Hf. destruct Hf as [F1 F2]. split; [constructor; assumption|]. split; [exact H2|].
  intros x y [<-|Hx] Hy; [apply (proj1 (Forall_forall _ _) F2 y Hy)|apply H3; assumption].
Qed.
Lemma sorted_rev : forall l, StronglySorted row_gt l -> StronglySorted row_lt (rev l).
Proof.
  induction l as [|r l IH]; intros H; [constructor|]. inversion H as [|? ? Hs Hf]; subst. cbn [rev]. apply sorted_app_intro.
  - apply IH, Hs.
  - repeat constructor.
  - intros x y Hx [<-|[]]. apply in_rev in Hx. apply (proj1 (Forall_forall _ _) Hf x Hx).
Qed.

Lemma rpre_in : forall k L p, In p (rpre k L) <-> exists r, In r L /\ firstn k r = p.
Proof.
  intros k L. induction L as [|r L IH] using rev_ind; intros p.
  - split; [intros []|intros (r & [] & _)].
  - rewrite rpre_snoc. assert (H : In p (ppush k (rpre k L) r) <-> In p (rpre k L) \/ p = firstn k r).
    { unfold ppush. destruct (rpre k L) as [|q l]; [cbn; intuition congruence|].
      destruct (row_eq_dec (firstn k r) q) as [->|]; [split; [auto|intros [H| ->]; [exact H|left; reflexivity]]|]. cbn. intuition congruence. }
    rewrite H, IH. split.
    + intros [(s & Hs & E)| ->]; [exists s|exists r]; rewrite in_app_iff; cbn; auto.
    + intros (s & Hs & E). apply in_app_or in Hs. destruct Hs as [Hs|[<-|[]]]; [left; eauto|right; congruence].
Qed.
Lemma rpre_sorted : forall k L, StronglySorted row_le L -> StronglySorted row_gt (rpre k L).
Proof.
  intros k. induction L as [|r L IH] using rev_ind; intros H; [constructor|]. apply sorted_snoc in H. destruct H as [Hs Hr].
  specialize (IH Hs). rewrite rpre_snoc. unfold ppush. destruct (rpre k L) as [|q l] eqn:E; [repeat constructor|].
  destruct (row_eq_dec (firstn k r) q) as [_|Nq]; [exact IH|]. constructor; [exact IH|].
  assert (Hq : row_lt q (firstn k r)).
  { assert (Hin : In q (rpre k L)) by (rewrite E; left; reflexivity). apply rpre_in in Hin. destruct Hin as (s & Hs' & <-).
    destruct (row_le_firstn k s r (Hr s Hs')) as [H|H]; [exact H|congruence]. }
  constructor; [exact Hq|]. inversion IH as [|? ? _ Hf]; subst. eapply Forall_impl; [|exact Hf]. intros x Hx. unfold row_gt in *. eapply row_lt_trans; eassumption.
Qed.
Theorem pre_sorted : forall k L, StronglySorted row_le L -> StronglySorted row_lt (pre k L).
Proof. intros k L H. apply sorted_rev, rpre_sorted, H. Qed.
Theorem pre_in : forall k L p, In p (pre k L) <-> exists r, In r L /\ firstn k r = p.
Proof. intros k L p. unfold pre. rewrite <- in_rev. apply rpre_in. Qed.
Lemma sorted_nodup : forall l, StronglySorted row_lt l -> NoDup l.
Proof.
  induction l as [|r l IH]; intros H; constructor; inversion H as [|? ? Hs Hf]; subst; [|apply IH, Hs].
  intros Hin. apply (row_lt_irrefl r). apply (proj1 (Forall_forall _ _) Hf r Hin).
Qed.

(* ---------- the values of a column ---------- *)

Lemma ds_parts : forall s E, ds (parts s E) = tvals s (values (map (fun g : group => (fst g, rev (snd g))) (rev E))).
Proof.
  intros s E. unfold ds, parts, values. rewrite !map_map. cbn [snd]. induction (rev E) as [|g l IH]; [reflexivity|]. cbn [map concat]. rewrite tvals_app, IH. reflexivity.
Qed.
Lemma layer_data : forall k L s, ic_data (layer_column k L s) = tvals s (values (groups k L)).
Proof.
  intros k L s. assert (Hc : forall E, ib_data (closed E s) = tvals s (values (map (fun g : group => (fst g, rev (snd g))) (rev E)))).
  { intros E. rewrite (ci_data _ _ (closed_cinv s E)). apply ds_parts. }
  unfold groups. destruct k as [|k].
  - unfold layer_column, finalizeT, ifinalize. cbn [ic_data]. destruct (rgroups 0 L) as [|[p vs] E]; [reflexivity|].
    rewrite opened_at. cbn [ib_data]. rewrite Hc. cbn [rev]. rewrite map_app. unfold values. rewrite map_app, concat_app. cbn [map snd concat].
    rewrite app_nil_r, tvals_app. reflexivity.
  - unfold layer_column, finalizeT, ifinalize. cbn [ic_data]. apply Hc.
Qed.

Lemma parts_groups : forall s k L, parts s (rgroups k L) = map (fun g : group => (ptype (fst g), tvals s (snd g))) (groups k L).
Proof. intros s k L. unfold parts, groups. rewrite map_map. reflexivity. Qed.

(* the interval of a group *)
Theorem layer_bounds : forall k L s g1 p vs g2, groups (S k) L = g1 ++ (p, vs) :: g2 ->
  interval_bounds (layer_column (S k) L s) (ptype p) (length (filter (fun g : group => stype_eqb (ptype (fst g)) (ptype p)) g1)) =
    Ok (match tvals s vs with [] => None | _ => Some (length (tvals s (values g1)), length (tvals s (values g1)) + length (tvals s vs)) end).
Proof.
  intros k L s g1 p vs g2 E. unfold layer_column, finalizeT.
  set (f := fun g : group => (ptype (fst g), tvals s (snd g))).
  assert (Hc : length (filter (fun g : group => stype_eqb (ptype (fst g)) (ptype p)) g1) = cnt (ptype p) (map f g1)).
  { unfold cnt. clear. induction g1 as [|g g1 IH]; [reflexivity|]. cbn [map filter f fst]. destruct (stype_eqb (ptype (fst g)) (ptype p)); cbn [length]; rewrite IH; reflexivity. }
  assert (Hd : tvals s (values g1) = ds (map f g1)).
  { unfold ds, values. clear. induction g1 as [|g g1 IH]; [reflexivity|]. cbn [map concat f snd]. rewrite tvals_app, IH. reflexivity. }
  rewrite Hc, Hd. apply (bounds_ok (parts s (rgroups (S k) L)) _ (map f g1) (ptype p) (tvals s vs) (map f g2)); [apply closed_cinv|].
  rewrite parts_groups, E, map_app. reflexivity.
Qed.

(* positions in the column of one type *)
Lemma nth_tvals : forall t W i v, nth_error (tvals t W) i = Some v <->
  exists j, nth_error W j = Some (t, v) /\ length (tvals t (firstn j W)) = i.
Proof.
  intros t. induction W as [|[s x] W IH]; intros i v.
  - split; [destruct i; discriminate|]. intros ([|j] & H & _); discriminate.
  - unfold tvals. cbn [filter fst]. destruct (stype_eqb_spec s t) as [->|Hne].
    + cbn [map snd]. destruct i as [|i].
      * cbn [nth_error]. split.
        -- intros H. injection H as ->. exists 0. auto.
        -- intros ([|j] & Hj & Hl); [cbn in Hj; congruence|]. cbn [firstn filter fst] in Hl. rewrite stype_eqb_refl in Hl. cbn in Hl. discriminate.
      * change (nth_error (tvals t W) i = Some v <-> exists j, nth_error ((t, x) :: W) j = Some (t, v) /\ length (tvals t (firstn j ((t, x) :: W))) = S i).
        rewrite IH. split.
        -- intros (j & Hj & Hl). exists (S j). split; [exact Hj|]. unfold tvals in *. cbn [firstn filter fst]. rewrite stype_eqb_refl. cbn [map length]. apply (f_equal S). exact Hl.
        -- intros ([|j] & Hj & Hl); [discriminate|]. exists j. split; [exact Hj|]. unfold tvals in *. cbn [firstn filter fst] in Hl. rewrite stype_eqb_refl in Hl. cbn [map length] in Hl. injection Hl as Hl. exact Hl.
    + change (nth_error (tvals t W) i = Some v <-> exists j, nth_error ((s, x) :: W) j = Some (t, v) /\ length (tvals t (firstn j ((s, x) :: W))) = i).
      assert (Hf : forall l, tvals t ((s, x) :: l) = tvals t l) by (intros l; unfold tvals; cbn [filter fst]; destruct (stype_eqb_spec s t); [congruence|reflexivity]).
      rewrite IH. split.
      * intros (j & Hj & Hl). exists (S j). split; [exact Hj|]. cbn [firstn]. rewrite Hf. exact Hl.
      * intros ([|j] & Hj & Hl); [cbn in Hj; congruence|]. exists j. split; [exact Hj|]. cbn [firstn] in Hl. rewrite Hf in Hl. exact Hl.
Qed.
