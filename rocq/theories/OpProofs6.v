(* Layer maps of subtracted tables. *)
From Coq Require Import List ZArith Bool Lia Arith Sorted.
From Verif Require Import ColumnModel ColumnSpec ColumnProofs ScanModel ScanSpec ScanProofs ScanProofs4 TrieModel TrieScanSpec OpModel OpProofs1 OpProofs2 OpProofs4.
Import ListNotations.
Local Open Scope nat_scope.

Definition picks (map : list nat) (p : row) : row := flat_map (fun x => match nth_error p x with Some v => [v] | None => [] end) map.
Definition depth (map : list nat) (k : nat) : nat := length (filter (fun x => x <? k) map).

Lemma depth_le : forall map k, depth map k <= length map.
Proof. intros map k. unfold depth. induction map as [|x l IH]; cbn [filter length]; [lia|]. destruct (x <? k); cbn [length]; lia. Qed.
Lemma picks_length : forall map p, length (picks map p) = depth map (length p).
Proof.
  intros map p. unfold picks, depth. induction map as [|x l IH]; [reflexivity|]. cbn [flat_map filter]. rewrite app_length, IH.
  destruct (Nat.ltb_spec x (length p)) as [H|H].
  - destruct (nth_error p x) eqn:E; [reflexivity|apply nth_error_None in E; lia].
  - rewrite (proj2 (nth_error_None p x)) by exact H. reflexivity.
Qed.
Lemma picks_nil : forall map, picks map [] = [].
Proof. intros map. induction map as [|x l IH]; [reflexivity|]. unfold picks in *. cbn [flat_map]. destruct x; exact IH. Qed.

Section Map.
Variable map : list nat.
Hypothesis Hs : StronglySorted lt map.

Lemma map_split : forall u k, nth_error map u = Some k -> exists l1 l2, map = l1 ++ k :: l2 /\ length l1 = u /\ (forall x, In x l1 -> x < k) /\ (forall x, In x l2 -> k < x).
Proof.
  revert Hs. induction map as [|y l IH]; intros Hs' u k H; [destruct u; discriminate|]. apply StronglySorted_inv in Hs'. destruct Hs' as [H1 H2]. rewrite Forall_forall in H2.
  destruct u as [|u]; cbn in H.
  - injection H as ->. exists [], l. repeat split; auto. intros x [].
  - destruct (IH H1 u k H) as (l1 & l2 & -> & Hl & Ha & Hb). exists (y :: l1), l2. repeat split; [cbn; lia| |exact Hb].
    intros x [<-|Hx]; [apply H2, in_or_app; right; left; reflexivity|apply Ha, Hx].
Qed.
Lemma depth_at : forall u k, nth_error map u = Some k -> depth map k = u /\ depth map (S k) = S u.
Proof.
  intros u k H. destruct (map_split u k H) as (l1 & l2 & -> & <- & Ha & Hb). unfold depth. rewrite !filter_app, !app_length. cbn [filter].
  rewrite Nat.ltb_irrefl. assert (E : k <? S k = true) by (apply Nat.ltb_lt; lia). rewrite E. cbn [length].
  assert (G1 : forall j, k <= j -> filter (fun x => x <? j) l1 = l1).
  { intros j Hj. clear - Ha Hj. induction l1 as [|x l IH]; [reflexivity|]. cbn [filter]. destruct (Nat.ltb_spec x j) as [_|H]; [|specialize (Ha x (or_introl eq_refl)); lia]. f_equal. apply IH. intros y Hy. apply Ha. right. exact Hy. }
  assert (G2 : forall j, j <= S k -> filter (fun x => x <? j) l2 = []).
  { intros j Hj. clear - Hb Hj. induction l2 as [|x l IH]; [reflexivity|]. cbn [filter]. destruct (Nat.ltb_spec x j) as [H|_]; [specialize (Hb x (or_introl eq_refl)); lia|]. apply IH. intros y Hy. apply Hb. right. exact Hy. }
  rewrite !G1, !G2 by lia. cbn [length]. lia.
Qed.
Lemma depth_absent : forall k, ~ In k map -> depth map (S k) = depth map k.
Proof.
  intros k H. unfold depth. clear Hs. induction map as [|x l IH]; [reflexivity|]. cbn [filter].
  assert (Hx : x <> k) by (intros ->; apply H; left; reflexivity). assert (H' : ~ In k l) by (intros H'; apply H; right; exact H').
  destruct (Nat.ltb_spec x k), (Nat.ltb_spec x (S k)); try lia; cbn [length]; rewrite IH by exact H'; reflexivity.
Qed.
Lemma nth_depth : forall k x, nth_error map (depth map k) = Some x -> k <= x.
Proof.
  intros k x H. destruct (Nat.le_gt_cases k x) as [Hk|Hk]; [exact Hk|]. exfalso. destruct (depth_at _ _ H) as [_ E].
  assert (M : forall l, length (filter (fun y => y <? S x) l) <= length (filter (fun y => y <? k) l)).
  { induction l as [|y l IH]; [cbn; lia|]. cbn [filter]. destruct (Nat.ltb_spec y (S x)), (Nat.ltb_spec y k); cbn [length]; lia. }
  specialize (M map). unfold depth in *. lia.
Qed.
Lemma nth_below : forall k u x, nth_error map u = Some x -> u < depth map k -> x < k.
Proof.
  intros k u x H Hu. destruct (Nat.lt_ge_cases x k) as [Hk|Hk]; [exact Hk|]. exfalso. destruct (depth_at _ _ H) as [E _].
  assert (M : forall l, length (filter (fun y => y <? k) l) <= length (filter (fun y => y <? x) l)).
  { induction l as [|y l IH]; [cbn; lia|]. cbn [filter]. destruct (Nat.ltb_spec y x), (Nat.ltb_spec y k); cbn [length]; lia. }
  specialize (M map). unfold depth in *. lia.
Qed.
Lemma used_nth : forall u k, used_layer map k = Some u <-> nth_error map u = Some k.
Proof.
  intros u k. unfold used_layer. revert Hs u. induction map as [|y l IH]; intros Hs' u; cbn [position_of]; [destruct u; split; discriminate|].
  apply StronglySorted_inv in Hs'. destruct Hs' as [H1 H2]. rewrite Forall_forall in H2. destruct (Nat.eqb_spec k y) as [->|Hn].
  - split; [intros E; injection E as <-; reflexivity|]. destruct u as [|u]; [reflexivity|]. cbn. intros H. apply nth_error_In in H. apply H2 in H. lia.
  - destruct u as [|u]; cbn.
    + split; [destruct (position_of k l); discriminate|congruence].
    + rewrite <- (IH H1 u). destruct (position_of k l); cbn; [|split; discriminate]. split; congruence.
Qed.
Lemma used_none : forall k, used_layer map k = None <-> ~ In k map.
Proof.
  intros k. split.
  - intros E H. apply In_nth_error in H. destruct H as [u H]. apply used_nth in H. congruence.
  - intros H. destruct (used_layer map k) as [u|] eqn:E; [|reflexivity]. apply used_nth, nth_error_In in E. contradiction.
Qed.
Lemma used_some : forall k, In k map -> used_layer map k = Some (depth map k).
Proof. intros k H. apply In_nth_error in H. destruct H as [u H]. rewrite (proj1 (depth_at _ _ H)). apply used_nth, H. Qed.
Lemma picks_snoc_in : forall p v, In (length p) map -> picks map (p ++ [v]) = picks map p ++ [v].
Proof.
  intros p v H. apply In_nth_error in H. destruct H as [u H]. destruct (map_split _ _ H) as (l1 & l2 & -> & _ & Ha & Hb). unfold picks. rewrite !flat_map_app. cbn [flat_map].
  rewrite nth_error_app2 by lia. rewrite Nat.sub_diag. cbn [nth_error]. rewrite (proj2 (nth_error_None p (length p))) by lia. cbn [app].
  assert (G1 : flat_map (fun x => match nth_error (p ++ [v]) x with Some v => [v] | None => [] end) l1 = flat_map (fun x => match nth_error p x with Some v => [v] | None => [] end) l1).
  { clear - Ha. induction l1 as [|x l IH]; [reflexivity|]. cbn [flat_map]. rewrite nth_error_app1 by (apply Ha; left; reflexivity). rewrite IH by (intros y Hy; apply Ha; right; exact Hy). reflexivity. }
  assert (G2 : forall p' : row, length p' <= S (length p) -> flat_map (fun x => match nth_error p' x with Some v => [v] | None => [] end) l2 = []).
  { intros p' Hp'. clear - Hb Hp'. induction l2 as [|x l IH]; [reflexivity|]. cbn [flat_map]. rewrite (proj2 (nth_error_None p' x)) by (specialize (Hb x (or_introl eq_refl)); lia). apply IH. intros y Hy. apply Hb. right. exact Hy. }
  rewrite G1, !G2 by (rewrite ?app_length; cbn; lia). rewrite app_nil_r. reflexivity.
Qed.
Lemma picks_snoc_out : forall p v, ~ In (length p) map -> picks map (p ++ [v]) = picks map p.
Proof.
  intros p v H. unfold picks. clear Hs. induction map as [|x l IH]; [reflexivity|]. cbn [flat_map]. rewrite IH by (intros H'; apply H; right; exact H'). f_equal.
  assert (Hx : x <> length p) by (intros ->; apply H; left; reflexivity). destruct (Nat.lt_ge_cases x (length p)).
  - rewrite nth_error_app1 by assumption. reflexivity.
  - rewrite (proj2 (nth_error_None p x)) by assumption. rewrite (proj2 (nth_error_None (p ++ [v]) x)) by (rewrite app_length; cbn; lia). reflexivity.
Qed.
Lemma picks_app : forall p r, (forall x, In x map -> x < length p) -> picks map (p ++ r) = picks map p.
Proof.
  intros p r H. unfold picks. clear Hs. induction map as [|x l IH]; [reflexivity|]. cbn [flat_map]. rewrite IH by (intros y Hy; apply H; right; exact Hy). f_equal.
  rewrite nth_error_app1 by (apply H; left; reflexivity). reflexivity.
Qed.
Lemma depth_full : forall k, depth map k = length map <-> forall x, In x map -> x < k.
Proof.
  intros k. unfold depth. clear Hs. induction map as [|y l IH]; [cbn; split; [intros _ x []|reflexivity]|]. cbn [filter]. pose proof (depth_le l k) as Hl. unfold depth in Hl.
  destruct (Nat.ltb_spec y k) as [H|H]; cbn [length].
  - split; [intros E x [<-|Hx]; [exact H|apply IH; [lia|exact Hx]]|]. intros Hx. f_equal. apply IH. intros x Hx'. apply Hx. right. exact Hx'.
  - split; [lia|]. intros Hx. specialize (Hx y (or_introl eq_refl)). lia.
Qed.
(* the last layer *)
Lemma used_last : forall k u, used_layer map k = Some u -> (u = length map - 1 <-> depth map (S k) = length map).
Proof. intros k u E. apply used_nth in E. assert (u < length map) by (apply nth_error_Some; congruence). destruct (depth_at _ _ E) as [_ E2]. rewrite E2. lia. Qed.
End Map.

(* ---------- the difference keeps the numbers of its scans ---------- *)

Section Keeps.
Variable sc : scanner.
Variable A : Type.
Variable g : state sc -> A.
Hypothesis Hg : forall q fuel s s' o, ask sc q fuel s = Ok (s', o) -> g s' = g s.

Definition fol_same (active : list bool) (fol fol' : list (option (state sc))) : Prop :=
  map (option_map g) fol' = map (option_map g) fol /\ forall i, nth_error active i <> Some true -> nth_error fol' i = nth_error fol i.
Lemma fol_same_refl : forall active fol, fol_same active fol fol.
Proof. split; auto. Qed.
Lemma fol_same_trans : forall active a b c, fol_same active a b -> fol_same active b c -> fol_same active a c.
Proof. intros active a b c [H1 H2] [H3 H4]. split; [congruence|]. intros i Hi. rewrite H4, H2 by exact Hi. reflexivity. Qed.
Lemma fol_same_set : forall active fol i s s', nth_error active i = Some true -> nth_error fol i = Some (Some s) -> g s' = g s ->
  fol_same active fol (set_nth i (Some s') fol).
Proof.
  intros active fol i s s' Ha Hi Hgs. split.
  - clear Ha. revert i Hi. induction fol as [|x fol IH]; intros [|i] Hi; cbn in *; try discriminate; [injection Hi as ->; cbn; congruence|f_equal; apply IH, Hi].
  - intros j Hj. apply set_nth_other. congruence.
Qed.
Lemma pass_keeps : forall fuel idx active main fol eq value flag main' fol' eq' o,
  subtract_pass sc fuel idx active main fol eq value flag = Ok (main', fol', eq', o) -> g main' = g main /\ fol_same active fol fol'.
Proof.
  intros fuel. induction idx as [|i idx IH]; intros active main fol eq value flag main' fol' eq' o H; cbn [subtract_pass] in H.
  - injection H as <- <- <- <-. split; [reflexivity|apply fol_same_refl].
  - destruct (index eq i); cbn [bind] in H; try discriminate. destruct (index active i) as [ac| |] eqn:Ea; cbn [bind] in H; try discriminate.
    destruct ac; cbn [negb] in H; [|eapply IH, H]. destruct (index fol i) as [[s|]| |] eqn:Ei; cbn [bind] in H; try discriminate.
    destruct (s_seek sc fuel value s) as [[s' r]| |] eqn:Es; cbn [bind fst snd] in H; try discriminate.
    pose proof (Hg (RSeek value) fuel s s' r Es) as Egs. apply index_nth in Ea, Ei. pose proof (fol_same_set active fol i s s' Ea Ei Egs) as Hf.
    destruct (opt_eqb r (Some value)).
    + destruct (s_next sc fuel main) as [[m1 r1]| |] eqn:En; cbn [bind fst snd] in H; try discriminate. pose proof (Hg RNext fuel main m1 r1 En) as Egm. destruct r1 as [v1|].
      * apply IH in H. destruct H as [H1 H2]. split; [congruence|]. eapply fol_same_trans; eassumption.
      * injection H as <- <- <- <-. auto.
    + apply IH in H. destruct H as [H1 H2]. split; [congruence|]. eapply fol_same_trans; eassumption.
Qed.
Lemma while_keeps : forall fuel idx active main fol eq value main' fol' eq' o,
  subtract_while sc fuel idx active main fol eq value = Ok (main', fol', eq', o) -> g main' = g main /\ fol_same active fol fol'.
Proof.
  induction fuel as [|fuel IH]; intros idx active main fol eq value main' fol' eq' o H; cbn [subtract_while] in H; [discriminate|].
  destruct (subtract_pass sc fuel idx active main fol eq value false) as [[[[m1 f1] e1] o1]| |] eqn:E; cbn [bind] in H; try discriminate. apply pass_keeps in E. destruct E as [E1 E2].
  destruct o1 as [[v [|]]|]; [|injection H as <- <- <- <-; auto|injection H as <- <- <- <-; auto].
  apply IH in H. destruct H as [H1 H2]. split; [congruence|]. eapply fol_same_trans; eassumption.
Qed.
Lemma follow_keeps : forall fuel idx active fol eq value fol' eq', follow_loop sc fuel idx active fol eq value = Ok (fol', eq') -> fol_same active fol fol'.
Proof.
  intros fuel. induction idx as [|i idx IH]; intros active fol eq value fol' eq' H; cbn [follow_loop] in H.
  - injection H as <- <-. apply fol_same_refl.
  - destruct (index active i) as [ac| |] eqn:Ea; cbn [bind] in H; try discriminate. destruct ac; cbn [negb] in H; [|eapply IH, H].
    destruct (index fol i) as [[s|]| |] eqn:Ei; cbn [bind] in H; try discriminate.
    destruct (s_seek sc fuel value s) as [[s' r]| |] eqn:Es; cbn [bind fst snd] in H; try discriminate.
    pose proof (Hg (RSeek value) fuel s s' r Es) as Egs. apply index_nth in Ea, Ei. pose proof (fol_same_set active fol i s s' Ea Ei Egs) as Hf.
    destruct (opt_eqb r (Some value)); [apply IH in H; eapply fol_same_trans; eassumption|].
    destruct (index eq i); cbn [bind] in H; try discriminate. apply IH in H. eapply fol_same_trans; eassumption.
Qed.
Lemma subtract_keeps : forall q fuel t t' o, ask (subtract_scanner sc) q fuel t = Ok (t', o) ->
  g (t_main _ t') = g (t_main _ t) /\ fol_same (t_active _ t) (t_followers _ t) (t_followers _ t') /\
  t_subtract _ t' = t_subtract _ t /\ t_follow _ t' = t_follow _ t /\ t_active _ t' = t_active _ t.
Proof.
  intros q fuel t t' o H. assert (G : subtract_finish sc fuel t (ask sc q fuel (t_main _ t)) = Ok (t', o)) by (destruct q; exact H). clear H. unfold subtract_finish in G.
  destruct (ask sc q fuel (t_main _ t)) as [[m1 r1]| |] eqn:Em; cbn [bind fst snd] in G; try discriminate. apply Hg in Em. destruct r1 as [v|].
  - destruct (subtract_while sc fuel (t_subtract _ t) (t_active _ t) m1 (t_followers _ t) (t_active _ t) v) as [[[[m2 f2] e2] o2]| |] eqn:Ew; cbn [bind] in G; try discriminate.
    apply while_keeps in Ew. destruct Ew as [E1 E2]. destruct o2 as [w|].
    + destruct (follow_loop sc fuel (t_follow _ t) (t_active _ t) f2 e2 w) as [[f3 e3]| |] eqn:Ef; cbn [bind fst snd] in G; try discriminate. apply follow_keeps in Ef.
      injection G as <- <-. cbn. split; [congruence|]. split; [eapply fol_same_trans; eassumption|auto].
    + injection G as <- <-. cbn. split; [congruence|auto].
  - injection G as <- <-. cbn. split; [congruence|]. split; [apply fol_same_refl|auto].
Qed.
End Keeps.
