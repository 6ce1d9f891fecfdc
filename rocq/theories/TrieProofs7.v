(* The partial iterator of a trie explores its rows. *)
From Coq Require Import List ZArith Bool Lia Arith Permutation Sorted.
From Verif Require Import ColumnModel ColumnSpec ScanModel ScanSpec TrieModel TrieSpec TrieScanSpec TrieProofs1 TrieProofs2 TrieProofs3 TrieProofs4 TrieProofs5 TrieProofs6.
Import ListNotations.
Local Open Scope nat_scope.

(* ---------- cursors on a part of a column ---------- *)

Lemma from_skipn : forall v l, from v l = skipn (smaller_prefix v l) l.
Proof. intros v. induction l as [|x l IH]; [reflexivity|]. cbn. destruct (x <? v)%Z; [exact IH|reflexivity]. Qed.
Lemma smaller_le : forall v l, smaller_prefix v l <= length l.
Proof. intros v. induction l as [|x l IH]; cbn; [lia|]. destruct (x <? v)%Z; lia. Qed.

Definition at_part (cur : cursor) (a : nat) (vals : list Z) (c : option Z) (l : list Z) : Prop :=
  ca cur = a /\ cb cur = a + length vals /\
  match cat cur with
  | None => c = None /\ l = vals
  | Some q => a <= q <= a + length vals /\ skipn (q - a) vals = ahead c l /\ (c = None -> l = [])
  end.

Lemma slice_part : forall d1 vals d3 q, q <= length vals ->
  slice (d1 ++ vals ++ d3) (length d1 + q) (length d1 + length vals) = skipn q vals.
Proof.
  intros d1 vals d3 q H. unfold slice. rewrite skipn_app. rewrite skipn_nil by lia. replace (length d1 + q - length d1) with q by lia. cbn [app].
  rewrite skipn_app. rewrite firstn_app. replace (length d1 + length vals - (length d1 + q)) with (length (skipn q vals)) by (rewrite skipn_length; lia).
  rewrite firstn_all, Nat.sub_diag, firstn_O, app_nil_r. reflexivity.
Qed.
Lemma skipn_add : forall A i j (l : list A), skipn i (skipn j l) = skipn (j + i) l.
Proof. intros A i j. induction j as [|j IH]; intros l; [reflexivity|]. destruct l; [destruct i; reflexivity|]. cbn. apply IH. Qed.

Lemma value_part : forall d1 vals d3 cur c l, at_part cur (length d1) vals c l -> ColumnSpec.value (d1 ++ vals ++ d3) cur = c.
Proof.
  intros d1 vals d3 cur c l (Ha & Hb & Hc). unfold ColumnSpec.value, position. destruct (cat cur) as [q|]; [|symmetry; apply Hc].
  destruct Hc as (Hq & Hs & Hn). rewrite Hb. destruct (Nat.ltb_spec q (length d1 + length vals)) as [H|H].
  - rewrite nth_error_app2 by lia. rewrite nth_error_app1 by lia. rewrite skipn_nth_error, Hs. destruct c; [reflexivity|]. rewrite (Hn eq_refl). reflexivity.
  - rewrite skipn_nil in Hs by lia. destruct c; [discriminate|reflexivity].
Qed.

Definition act (q : request) : action := match q with RNext => Next | RSeek v => Seek v end.
Lemma step_part : forall d1 vals d3 cur c l q, at_part cur (length d1) vals c l ->
  at_part (step (d1 ++ vals ++ d3) (act q) cur) (length d1) vals (hd_error (after q c l)) (tl (after q c l)).
Proof.
  intros d1 vals d3 cur c l q (Ha & Hb & Hc).
  assert (Hat : forall l', (hd_error l' = None -> tl l' = []) /\ ahead (hd_error l') (tl l') = l').
  { intros [|x l']; cbn; auto. split; [discriminate|reflexivity]. }
  destruct q as [|v]; cbn [act step after].
  - unfold at_part. cbn [ca cb cat]. split; [exact Ha|]. split; [exact Hb|]. destruct (Hat l) as [H1 H2]. destruct (cat cur) as [q|].
    + destruct Hc as (Hq & Hs & Hn). rewrite Hb. split; [lia|]. split; [|exact H1]. rewrite H2.
      destruct c as [x|].
      * assert (q < length d1 + length vals). { destruct (Nat.lt_ge_cases q (length d1 + length vals)); [assumption|]. rewrite skipn_nil in Hs by lia. discriminate. }
        replace (Nat.min (q + 1) (length d1 + length vals) - length d1) with (q - length d1 + 1) by lia. rewrite <- skipn_add, Hs. reflexivity.
      * rewrite (Hn eq_refl) in *. cbn in Hs. assert (length (skipn (q - length d1) vals) = 0) by (rewrite Hs; reflexivity). rewrite skipn_length in H.
        apply skipn_nil. lia.
    + destruct Hc as [-> ->]. rewrite Ha. split; [lia|]. split; [|exact H1]. rewrite Nat.sub_diag. symmetry. exact H2.
  - unfold at_part. cbn [ca cb cat]. split; [exact Ha|]. split; [exact Hb|]. set (l' := from v (ahead c l)). destruct (Hat l') as [H1 H2].
    set (p := match cat cur with None => ca cur | Some p => p end).
    assert (Hp : length d1 <= p <= length d1 + length vals /\ skipn (p - length d1) vals = ahead c l).
    { unfold p. destruct (cat cur) as [q|]; [split; apply Hc|]. destruct Hc as [-> ->]. rewrite Ha, Nat.sub_diag. split; [lia|reflexivity]. }
    destruct Hp as [Hp1 Hp2]. rewrite Hb. pose proof (slice_part d1 vals d3 (p - length d1) ltac:(lia)) as Hsl.
    replace (length d1 + (p - length d1)) with p in Hsl by lia. rewrite Hsl, Hp2. pose proof (smaller_le v (ahead c l)) as Hle.
    assert (Hlen : length (ahead c l) = length d1 + length vals - p) by (rewrite <- Hp2, skipn_length; lia).
    split; [lia|]. split; [|exact H1]. rewrite H2. unfold l'. rewrite from_skipn. set (m := smaller_prefix v (ahead c l)) in *. rewrite <- Hp2, skipn_add. f_equal. lia.
Qed.

(* an empty part is represented by the interval 0, 0 *)
Definition at_frame (cur : cursor) (a : nat) (vals : list Z) (c : option Z) (l : list Z) : Prop :=
  at_part cur a vals c l \/
  (vals = [] /\ c = None /\ l = [] /\ ca cur = 0 /\ cb cur = 0 /\ (cat cur = None \/ cat cur = Some 0)).
Lemma value_frame : forall d1 vals d3 cur c l, at_frame cur (length d1) vals c l -> ColumnSpec.value (d1 ++ vals ++ d3) cur = c.
Proof.
  intros d1 vals d3 cur c l [H|(_ & -> & _ & _ & H & Hc)]; [eapply value_part, H|]. unfold ColumnSpec.value, position.
  destruct Hc as [-> | ->]; [reflexivity|]. rewrite H. reflexivity.
Qed.
Lemma step_frame : forall d1 vals d3 cur c l q, at_frame cur (length d1) vals c l ->
  at_frame (step (d1 ++ vals ++ d3) (act q) cur) (length d1) vals (hd_error (after q c l)) (tl (after q c l)).
Proof.
  intros d1 vals d3 cur c l q [H|(-> & -> & -> & Ha & H & Hc)]; [left; apply step_part, H|]. right. split; [reflexivity|].
  assert (E : after q None [] = []) by (destruct q; reflexivity). rewrite E. split; [reflexivity|]. split; [reflexivity|].
  destruct q as [|v]; cbn [act step ca cb cat]; (split; [exact Ha|]); (split; [exact H|]); right.
  - destruct Hc as [-> | ->]; [rewrite Ha; reflexivity|]. rewrite H. reflexivity.
  - destruct Hc as [-> | ->]; [rewrite Ha|]; rewrite H; reflexivity.
Qed.

(* ---------- nodes ---------- *)

(* The node with the path p, in layer k: vs are the values that can follow p. *)
Definition node (k : nat) (L : list row) (p : row) (W1 vs W3 : list value) : Prop :=
  values (groups k L) = W1 ++ vs ++ W3 /\
  exists P1 P3, pre (S k) L = P1 ++ map (fun v => p ++ [v]) vs ++ P3 /\ length P1 = length W1.
Definition kids (L : list row) (p : row) : list value :=
  match List.find (fun g : group => if row_eq_dec (fst g) p then true else false) (groups (length p) L) with Some g => snd g | None => [] end.
Definition trie_tree (L : list row) : tree := fun p t => tvals t (kids L p).

Lemma flat_app : forall g1 g2, flat (g1 ++ g2) = flat g1 ++ flat g2.
Proof. intros. unfold flat. rewrite map_app, concat_app. reflexivity. Qed.
Lemma values_app : forall g1 g2, values (g1 ++ g2) = values g1 ++ values g2.
Proof. intros. unfold values. rewrite map_app, concat_app. reflexivity. Qed.
Lemma flat_length : forall gs, length (flat gs) = length (values gs).
Proof.
  induction gs as [|g gs IH]; [reflexivity|]. unfold flat, values in *. cbn [map concat]. rewrite !app_length, map_length. f_equal. exact IH.
Qed.

Lemma group_node : forall n k L g1 p vs g2, k < n -> well n L -> groups k L = g1 ++ (p, vs) :: g2 ->
  node k L p (values g1) vs (values g2).
Proof.
  intros n k L g1 p vs g2 Hk W E. split.
  - rewrite E, values_app. reflexivity.
  - exists (flat g1), (flat g2). rewrite <- (groups_flat n k L Hk W), E, flat_app. split; [reflexivity|apply flat_length].
Qed.

Lemma pre_length : forall n k L p, well n L -> k <= n -> In p (pre k L) -> length p = k.
Proof.
  intros n k L p W Hk Hin. apply pre_in in Hin. destruct Hin as (r & Hr & <-). apply firstn_length_le.
  pose proof (proj1 (Forall_forall _ _) W r Hr). cbn in H. unfold row in *. lia.
Qed.

Lemma find_unique : forall k L g1 p vs g2, StronglySorted row_le L -> groups k L = g1 ++ (p, vs) :: g2 ->
  List.find (fun g : group => if row_eq_dec (fst g) p then true else false) (groups k L) = Some (p, vs).
Proof.
  intros k L g1 p vs g2 Hs E. pose proof (sorted_nodup _ (pre_sorted k L Hs)) as Hn. rewrite <- groups_prefixes, E, map_app in Hn. cbn [map fst] in Hn.
  rewrite E. clear E Hs. induction g1 as [|g g1 IH]; cbn [app].
  - cbn [List.find fst]. destruct (row_eq_dec p p); [reflexivity|congruence].
  - cbn [map app] in Hn. inversion Hn as [|? ? Hni Hn']; subst. cbn [List.find]. destruct (row_eq_dec (fst g) p) as [Eg|_]; [|apply IH, Hn'].
    exfalso. apply Hni. rewrite Eg. apply in_or_app. right. left. reflexivity.
Qed.

Lemma kids_group : forall n k L g1 p vs g2, k <= n -> well n L -> StronglySorted row_le L -> groups k L = g1 ++ (p, vs) :: g2 -> kids L p = vs.
Proof.
  intros n k L g1 p vs g2 Hk W Hs E. unfold kids.
  assert (Hl : length p = k).
  { apply (pre_length n k L p W Hk). rewrite <- groups_prefixes, E, map_app. apply in_or_app. right. left. reflexivity. }
  rewrite Hl, (find_unique k L g1 p vs g2 Hs E). reflexivity.
Qed.

Lemma groups_root : forall L, StronglySorted row_le L -> groups 0 L = [] \/ exists vs, groups 0 L = [([], vs)].
Proof.
  intros L Hs. pose proof (sorted_nodup _ (pre_sorted 0 L Hs)) as Hn. rewrite <- groups_prefixes in Hn.
  assert (H0 : forall g, In g (groups 0 L) -> fst g = []).
  { intros g Hg. apply (in_map fst) in Hg. rewrite groups_prefixes in Hg. apply pre_in in Hg. destruct Hg as (r & _ & E). symmetry. exact E. }
  destruct (groups 0 L) as [|[p vs] [|[q ws] gs]]; [auto| |].
  - right. exists vs. rewrite <- (H0 (p, vs)) by (left; reflexivity). reflexivity.
  - exfalso. cbn [map fst] in Hn. inversion Hn as [|? ? Hni _]; subst. apply Hni. left.
    pose proof (H0 (p, vs) (or_introl eq_refl)) as E1. pose proof (H0 (q, ws) (or_intror (or_introl eq_refl))) as E2. cbn in E1, E2. congruence.
Qed.
Lemma root_node : forall n L, 0 < n -> well n L -> StronglySorted row_le L ->
  node 0 L [] [] (values (groups 0 L)) [] /\ kids L [] = values (groups 0 L).
Proof.
  intros n L Hn W Hs. destruct (groups_root L Hs) as [E|[vs E]].
  - split.
    + unfold node. rewrite E. split; [reflexivity|]. exists [], []. split; [|reflexivity]. rewrite <- (groups_flat n 0 L Hn W), E. reflexivity.
    + unfold kids. cbn [length]. rewrite E. reflexivity.
  - pose proof (group_node n 0 L [] [] vs [] Hn W E) as Hg. pose proof (kids_group n 0 L [] [] vs [] ltac:(lia) W Hs E) as Hk. rewrite E.
    unfold values. cbn [map concat snd]. rewrite app_nil_r. split; [exact Hg|exact Hk].
Qed.

Lemma flat_types : forall gs, map ptype (flat gs) = map fst (values gs).
Proof.
  induction gs as [|[p vs] gs IH]; [reflexivity|]. change (flat ((p, vs) :: gs)) with (map (fun v => p ++ [v] : row) vs ++ flat gs).
  change (values ((p, vs) :: gs)) with (vs ++ values gs). rewrite !map_app. f_equal; [|exact IH].
  rewrite map_map. apply map_ext. intros v. unfold ptype. rewrite last_last. reflexivity.
Qed.
Lemma count_types : forall t (vs : list value), length (tvals t vs) = length (filter (fun s => stype_eqb s t) (map fst vs)).
Proof.
  intros t. induction vs as [|v vs IH]; [reflexivity|]. unfold tvals in *. cbn [filter map]. destruct (stype_eqb (fst v) t); cbn [map length]; congruence.
Qed.
Lemma count_groups : forall t (gs : list group), length (filter (fun g : group => stype_eqb (ptype (fst g)) t) gs) =
  length (filter (fun s => stype_eqb s t) (map ptype (map fst gs))).
Proof.
  intros t. induction gs as [|g gs IH]; [reflexivity|]. cbn [filter map]. destruct (stype_eqb (ptype (fst g)) t); cbn [length]; congruence.
Qed.

Lemma nth_map_inv : forall A B (f : A -> B) l i y, nth_error (map f l) i = Some y -> exists x, nth_error l i = Some x /\ f x = y.
Proof. intros A B f. induction l as [|x l IH]; intros [|i] y H; try discriminate; cbn in *; [exists x; split; congruence|apply IH, H]. Qed.

Theorem descend : forall n k L p W1 vs W3 t o v, S k < n -> well n L -> node k L p W1 vs W3 -> nth_error (tvals t vs) o = Some v ->
  exists g1 ws g2, groups (S k) L = g1 ++ (p ++ [(t, v)], ws) :: g2 /\
    length (filter (fun g : group => stype_eqb (ptype (fst g)) t) g1) = length (tvals t W1) + o.
Proof.
  intros n k L p W1 vs W3 t o v Hk W [HW (P1 & P3 & HP & Hlen)] Ho. apply nth_tvals in Ho. destruct Ho as (j & Hj & Hc).
  assert (Hp : nth_error (pre (S k) L) (length W1 + j) = Some (p ++ [(t, v)])).
  { rewrite HP, nth_error_app2 by lia. replace (length W1 + j - length P1) with j by lia. rewrite nth_error_app1.
    - rewrite nth_error_map, Hj. reflexivity.
    - rewrite map_length. eapply nth_Some_lt, Hj. }
  rewrite <- groups_prefixes in Hp. apply nth_map_inv in Hp. destruct Hp as ([q ws] & Eg & Eq). cbn [fst] in Eq. subst q. apply nth_error_split in Eg. destruct Eg as (g1 & g2 & E & Hl). exists g1, ws, g2. split; [exact E|].
  rewrite count_groups. assert (Hf : map fst g1 = firstn (length W1 + j) (pre (S k) L)).
  { rewrite <- groups_prefixes, E, map_app. rewrite <- Hl. rewrite <- (map_length fst g1). rewrite firstn_app, firstn_all, Nat.sub_diag, firstn_O, app_nil_r. reflexivity. }
  rewrite Hf, <- (groups_flat n k L ltac:(lia) W), <- firstn_map, flat_types, firstn_map, <- count_types, HW.
  rewrite firstn_app_2. rewrite firstn_app. replace (j - length vs) with 0 by (pose proof (nth_Some_lt _ _ _ _ Hj); lia).
  rewrite firstn_O, app_nil_r, tvals_app, app_length, Hc. reflexivity.
Qed.
