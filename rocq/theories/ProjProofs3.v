(* Projections: choices of columns. *)
From Coq Require Import List ZArith Bool Lia Arith Permutation Sorted.
From Verif Require Import ColumnModel ColumnSpec ScanModel ScanSpec TrieModel TrieSpec TrieScanSpec OpModel OpSpec OpProofs3 OpProofs8 ProjModel ProjSpec ProjProofs1 ProjProofs2.
From Verif Require PermModel PermProofs PermProofs2.
Import ListNotations.
Local Open Scope nat_scope.

Lemma fill_spec : forall (m : list (nat * nat)) v, NoDup (map snd m) -> (forall i x, In (i, x) m -> x < length v) ->
  exists w, PermModel.fill_inv m v = Some w /\ length w = length v /\ (forall i x, In (i, x) m -> nth_error w x = Some i) /\
    forall x, ~ In x (map snd m) -> nth_error w x = nth_error v x.
Proof.
  induction m as [|[i x] m0 IHm]; intros v Hnm Hb; cbn [PermModel.fill_inv].
  - exists v. repeat split; auto. intros ? ? [].
  - inversion Hnm as [|? ? Hx Hn']; subst. destruct (PermProofs.set_nth_some _ v x i (Hb i x (or_introl eq_refl))) as (w & -> & Hlw & Hg).
    destruct (IHm w Hn') as (u & -> & Hlu & U1 & U2); [intros a b Hab; rewrite Hlw; eapply Hb; right; exact Hab|].
    exists u. split; auto. split; [lia|]. split.
    + intros a b [H|H]; auto. injection H as <- <-. rewrite U2 by auto. now rewrite Hg, Nat.eqb_refl.
    + intros b Hb'. rewrite U2 by (intros ?; apply Hb'; right; auto). rewrite Hg. destruct (Nat.eqb_spec b x) as [->|]; auto.
      exfalso. apply Hb'. left; auto.
Qed.
Lemma distinct_NoDup : forall l, distinct l = true <-> NoDup l.
Proof.
  induction l as [|x l IH]; cbn [distinct]; [split; [constructor|reflexivity]|]. rewrite andb_true_iff, IH, NoDup_cons_iff, negb_true_iff.
  split; intros [H1 H2]; (split; [|exact H2]).
  - intros Hx. apply Bool.not_true_iff_false in H1. apply H1. apply existsb_exists. exists x. split; [exact Hx|apply Nat.eqb_refl].
  - apply Bool.not_true_iff_false. intros H. apply existsb_exists in H. destruct H as (y & Hy & E). apply Nat.eqb_eq in E. subst y. contradiction.
Qed.
Lemma valid_spec : forall c, choice_valid c = true <->
  NoDup (map snd (PermModel.ch_map c)) /\ forall i x, In (i, x) (PermModel.ch_map c) -> x < length (PermModel.ch_map c) /\ i < PermModel.ch_domain c.
Proof.
  intros c. unfold choice_valid. rewrite andb_true_iff, distinct_NoDup, forallb_forall. apply and_iff_compat_l. split.
  - intros H i x Hin. specialize (H (i, x) Hin). apply andb_true_iff in H. destruct H as [H1 H2]. apply Nat.ltb_lt in H1, H2. auto.
  - intros H [i x] Hin. destruct (H i x Hin). apply andb_true_iff. split; apply Nat.ltb_lt; assumption.
Qed.
(* a valid choice lists one input column for every output column *)
Lemma valid_vector : forall c, choice_valid c = true -> exists v, PermModel.as_vector c = Some v /\ length v = length (PermModel.ch_map c) /\
  (forall i x, In (i, x) (PermModel.ch_map c) -> nth_error v x = Some i) /\ (forall i, In i v -> exists x, In (i, x) (PermModel.ch_map c)).
Proof.
  intros c Hc. apply valid_spec in Hc. destruct Hc as [Hn Hb].
  destruct (fill_spec (PermModel.ch_map c) (repeat 0 (length (PermModel.ch_map c))) Hn) as (v & E & Hl & H1 & _).
  { intros i x Hin. rewrite repeat_length. apply (Hb i x Hin). }
  rewrite repeat_length in Hl. exists v. split; [exact E|]. split; [exact Hl|]. split; [exact H1|].
  intros i Hi. destruct (In_nth_error _ _ Hi) as [x Hx]. assert (Hxl : x < length v) by (apply nth_error_Some; congruence).
  assert (Hcov : incl (seq 0 (length (PermModel.ch_map c))) (map snd (PermModel.ch_map c))).
  { apply NoDup_length_incl; [exact Hn|rewrite seq_length, map_length; lia|]. intros y Hy. apply in_map_iff in Hy. destruct Hy as ([i' y'] & <- & Hin).
    apply in_seq. specialize (Hb i' y' Hin). cbn [snd]. lia. }
  assert (Hin : In x (map snd (PermModel.ch_map c))) by (apply Hcov, in_seq; lia). apply in_map_iff in Hin. destruct Hin as ([i' x'] & <- & Hin). cbn [snd] in *.
  rewrite (H1 i' x' Hin) in Hx. injection Hx as ->. eauto.
Qed.
Lemma nth_list_ext : forall A (l l' : list A), (forall i, nth_error l i = nth_error l' i) -> l = l'.
Proof.
  induction l as [|x l IH]; intros [|y l'] H; [reflexivity|specialize (H 0); discriminate|specialize (H 0); discriminate|].
  f_equal; [specialize (H 0); cbn in H; congruence|]. apply IH. intros i. apply (H (S i)).
Qed.
Lemma transform_pick : forall c v (r : row), choice_valid c = true -> NoDup (map fst (PermModel.ch_map c)) -> PermModel.as_vector c = Some v ->
  (forall i, In i v -> i < length r) -> exists q, PermModel.transform c r = Some q /\ map Some q = map (nth_error r) v.
Proof.
  intros c v r Hc Hnf Ev Hv. destruct (valid_vector c Hc) as (v' & Ev' & Hl & H1 & H2). rewrite Ev in Ev'. injection Ev' as <-.
  apply valid_spec in Hc. destruct Hc as [Hns Hb]. set (m := PermModel.ch_map c) in *.
  assert (Hlen : length m <= length r).
  { rewrite <- (map_length fst m), <- (seq_length (length r) 0). apply NoDup_incl_length; [exact Hnf|]. intros i Hi. apply in_map_iff in Hi.
    destruct Hi as ([i' x] & <- & Hin). apply in_seq. cbn [fst]. pose proof (Hv i' (nth_error_In _ _ (H1 i' x Hin))). lia. }
  destruct (PermProofs2.transform_loop_spec value m r (firstn (length m) r) Hns) as (q & E & Hlq & Q1 & _).
  { intros i x Hin. rewrite firstn_length. specialize (Hb i x Hin). pose proof (Hv i (nth_error_In _ _ (H1 i x Hin))). split; [assumption|]. lia. }
  exists q. split; [exact E|]. apply nth_list_ext. intros x. rewrite !nth_error_map.
  rewrite firstn_length, Nat.min_l in Hlq by exact Hlen. destruct (nth_error v x) as [i|] eqn:Ex; cbn [option_map].
  - destruct (H2 i (nth_error_In _ _ Ex)) as (x' & Hin). assert (x' = x).
    { assert (Hv' : NoDup v).
      { apply (NoDup_incl_NoDup Hnf); [rewrite map_length; lia|]. intros j Hj. apply in_map_iff in Hj. destruct Hj as ([j' y] & <- & Hin').
        cbn [fst]. eapply nth_error_In, H1, Hin'. }
      specialize (H1 i x' Hin).
      rewrite NoDup_nth_error in Hv'. apply Hv'; [apply nth_error_Some; congruence|congruence]. }
    subst x'. rewrite (Q1 i x Hin). destruct (nth_error r i) eqn:Er; [reflexivity|]. apply nth_error_None in Er. pose proof (Hv i (nth_error_In _ _ Ex)). lia.
  - apply nth_error_None in Ex. rewrite (proj2 (nth_error_None q x)) by lia. reflexivity.
Qed.

(* the columns v of the rows *)
Lemma pick_ok : forall v (r q : row), map Some q = map (nth_error r) v <-> pick v r = Ok q.
Proof.
  unfold pick. induction v as [|i v IH]; intros r q; cbn [map map_res].
  - destruct q; [split; reflexivity|split; discriminate].
  - unfold index at 1. destruct q as [|x q]; cbn [map].
    + split; [discriminate|]. destruct (nth_error r i); [|discriminate]. cbn [bind]. destruct (map_res (index r) v); discriminate.
    + specialize (IH r q). destruct (nth_error r i) as [y|]; [|split; discriminate]. cbn [bind]. split.
      * intros H. injection H as -> H. apply IH in H. rewrite H. reflexivity.
      * intros H. destruct (map_res (index r) v) as [q'| |]; try discriminate. injection H as <- <-. f_equal. apply IH. reflexivity.
Qed.
Lemma pick_total : forall v (r : row), (forall i, In i v -> i < length r) -> exists q, pick v r = Ok q.
Proof.
  unfold pick. induction v as [|i v IH]; intros r H; cbn [map_res]; [eauto|]. unfold index at 1. destruct (nth_error r i) as [x|] eqn:E.
  - cbn [bind]. destruct (IH r) as [q ->]; [intros j Hj; apply H; right; exact Hj|]. cbn. eauto.
  - apply nth_error_None in E. specialize (H i (or_introl eq_refl)). lia.
Qed.
Lemma pick_length : forall v (r q : row), pick v r = Ok q -> length q = length v.
Proof. intros v r q H. apply pick_ok in H. apply (f_equal (@length _)) in H. rewrite !map_length in H. exact H. Qed.

Lemma pick_rows : forall v (rows : list (row * nat)), (forall r i, In r (map fst rows) -> In i v -> i < length r) ->
  exists qs, map_res (fun rc => pick v (fst rc)) rows = Ok qs /\ (forall q, In q qs <-> exists r, In r (map fst rows) /\ pick v r = Ok q).
Proof.
  intros v. induction rows as [|[r c] rows IH]; intros H; cbn [map_res map fst].
  - exists []. split; [reflexivity|]. intros q. split; [intros []|intros (r & [] & _)].
  - destruct (pick_total v r) as [q Eq]. { intros i Hi. apply (H r i); [left; reflexivity|exact Hi]. }
    rewrite Eq. cbn [bind]. destruct IH as (qs & -> & Hqs). { intros r' i Hr. apply H. right. exact Hr. }
    exists (q :: qs). split; [reflexivity|]. intros q'. cbn [In]. rewrite Hqs. split.
    + intros [<-|(r' & Hr & E)]; [exists r|exists r']; auto.
    + intros (r' & [<-|Hr] & E); [left; congruence|right; exists r'; auto].
Qed.

(* reading the first last+1 columns and picking the columns v *)
Lemma project_rows : forall n P (out : list (row * nat)) v e, e < n -> v <> [] -> (forall i, In i v -> i < n - e) ->
  table_of (n - e) (fun p => exists q, length q = e /\ P (p ++ q)) (map fst out) ->
  exists qs tr, map_res (fun rc => pick v (fst rc)) out = Ok qs /\ write_rows (length v) qs = Ok tr /\
    holds (length v) (fun q => exists r, length r = n /\ P r /\ map Some q = map (nth_error r) v) tr.
Proof.
  intros n P out v e He Hv Hi [T1 T2].
  destruct (pick_rows v out) as (qs & Eq & Hqs). { intros r i Hr Hin. apply T2 in Hr. destruct Hr as [Hr _]. rewrite Hr. apply Hi, Hin. }
  destruct (written_holds (length v) qs) as (tr & Ew & HH).
  { destruct v; [congruence|cbn; lia]. }
  { apply Forall_forall. intros q Hq. apply Hqs in Hq. destruct Hq as (r & _ & E). apply (pick_length v r), E. }
  exists qs, tr. split; [exact Eq|]. split; [exact Ew|]. refine (holds_iff _ _ _ _ _ HH). intros q _. rewrite Hqs.
  assert (Hpre : forall p s : row, length p = n - e -> map (nth_error (p ++ s)) v = map (nth_error p) v).
  { intros p s Hp. apply map_ext_in. intros i Hin. apply nth_error_app1. specialize (Hi i Hin). unfold row in *. lia. }
  split.
  - intros (p & Hp & E). apply T2 in Hp. destruct Hp as (Hl & s & Hs & HP). exists (p ++ s). split; [rewrite app_length; unfold row in *; lia|].
    split; [exact HP|]. apply pick_ok in E. rewrite E. symmetry. apply Hpre, Hl.
  - intros (r & Hl & HP & E). exists (firstn (n - e) r). split.
    + apply T2. split; [rewrite firstn_length; unfold row in *; lia|]. exists (skipn (n - e) r). split; [rewrite skipn_length; unfold row in *; lia|].
      rewrite firstn_skipn. exact HP.
    + apply pick_ok. rewrite E. rewrite <- (firstn_skipn (n - e) r) at 1. apply Hpre. rewrite firstn_length. unfold row in *. lia.
Qed.
