(* Arranged columns: align, and the operations on tables whose columns are arranged. *)
From Coq Require Import List ZArith Bool Lia Arith Permutation Sorted.
From Verif Require Import ColumnModel ScanModel TrieModel TrieSpec OpModel OpSpec OpProofs1 OpProofs2 ProjModel ProjSpec ProjProofs1 ProjProofs3 StoreModel StoreSpec StoreProofs1 StoreProofs2 PlanModel PlanSpec.
From Verif Require PermModel PermProps PermProofs.
Import ListNotations.
Local Open Scope nat_scope.

Lemma position_nth : forall x l p, position_of x l = Some p -> nth_error l p = Some x.
Proof.
  induction l as [|y l IH]; intros p H; cbn [position_of] in H; [discriminate|]. destruct (Nat.eqb_spec x y) as [->|N]; [injection H as <-; reflexivity|].
  destruct (position_of x l) as [q|]; [|discriminate]. injection H as <-. apply IH. reflexivity.
Qed.
Lemma subsequence_positions : forall target xs r, map (fun x => position_of x target) xs = map Some r -> StronglySorted lt r -> subsequence xs target.
Proof.
  induction target as [|y target IH]; intros xs r E Hs.
  { destruct xs as [|x xs]; [constructor|]. destruct r; discriminate. }
  assert (G : forall xs r, map (fun x => position_of x (y :: target)) xs = map Some r -> Forall (fun i => 0 < i) r ->
    map (fun x => position_of x target) xs = map Some (map pred r)).
  { clear. induction xs as [|x xs IH]; intros [|i r] E Hp; try discriminate; [reflexivity|]. cbn [map] in E. injection E as E1 E2.
    apply Forall_cons_iff in Hp. destruct Hp as [Hi Hp]. cbn [map]. f_equal; [|apply IH; assumption].
    cbn [position_of] in E1. destruct (x =? y); [injection E1 as <-; lia|]. destruct (position_of x target); [|discriminate]. injection E1 as <-. reflexivity. }
  assert (Gs : forall r, Forall (fun i => 0 < i) r -> StronglySorted lt r -> StronglySorted lt (map pred r)).
  { clear. induction r as [|i r IH]; intros Hp Hs; [constructor|]. apply Forall_cons_iff in Hp. apply StronglySorted_inv in Hs. destruct Hp as [Hi Hp], Hs as [Hs Hf].
    constructor; [apply IH; assumption|]. apply Forall_map. rewrite Forall_forall in *. intros j Hj. specialize (Hf j Hj). specialize (Hp j Hj). lia. }
  destruct xs as [|x xs]; [constructor|]. destruct r as [|i r]; [discriminate|]. pose proof E as E0. cbn [map] in E. injection E as E1 E2.
  apply StronglySorted_inv in Hs. destruct Hs as [Hs Hf]. cbn [position_of] in E1. destruct (Nat.eqb_spec x y) as [->|N].
  - injection E1 as <-. apply sub_take. apply (IH xs (map pred r)); [apply G|apply Gs]; assumption.
  - destruct (position_of x target) as [q|] eqn:Eq; [|discriminate]. injection E1 as <-. apply sub_skip. apply (IH _ (map pred (S q :: r))).
    + apply G; [exact E0|]. constructor; [lia|]. eapply Forall_impl; [|exact Hf]. intros j Hj. cbn beta in Hj. lia.
    + apply Gs; [|constructor; assumption]. constructor; [lia|]. eapply Forall_impl; [|exact Hf]. intros j Hj. cbn beta in Hj. lia.
Qed.
Lemma sorted_lt_nth : forall r, NoDup r -> (forall i j a b, i < j -> nth_error r i = Some a -> nth_error r j = Some b -> (a <=? b) = true) -> StronglySorted lt r.
Proof.
  induction r as [|x r IH]; intros Hn H; [constructor|]. apply NoDup_cons_iff in Hn. destruct Hn as [Hx Hn]. constructor.
  - apply IH; [exact Hn|]. intros i j a b Hij Ha Hb. apply (H (S i) (S j)); [lia|exact Ha|exact Hb].
  - apply Forall_forall. intros y Hy. destruct (In_nth_error _ _ Hy) as [j Hj]. assert (L : (x <=? y) = true) by (apply (H 0 (S j)); [lia|reflexivity|exact Hj]).
    apply Nat.leb_le in L. assert (x <> y) by (intros ->; contradiction). lia.
Qed.
Lemma align_ok : forall ms target, NoDup ms -> incl ms target ->
  exists ms' p, align ms target = Ok (ms', p) /\ permutes (length ms) p /\ PermModel.permute p ms = Some ms' /\ subsequence ms' target.
Proof.
  intros ms target Hn Hi.
  assert (Hp : exists ps, map_res (fun x => must (position_of x target)) ms = Ok ps /\ map (fun x => position_of x target) ms = map Some ps).
  { clear Hn. induction ms as [|x ms IH]; [exists []; split; reflexivity|]. destruct IH as (ps & E1 & E2); [intros y Hy; apply Hi; right; exact Hy|].
    destruct (position_In x target) as [p Ep]; [apply Hi; left; reflexivity|]. exists (p :: ps). cbn [map_res map]. rewrite Ep. cbn [must bind]. rewrite E1, E2. split; reflexivity. }
  destruct Hp as (ps & E1 & E2). assert (Hl : length ps = length ms) by (pose proof (f_equal (@length _) E2) as E; rewrite !map_length in E; lia).
  destruct (PermProps.C16_from_unsorted nat Nat.leb 0 ps) as (p & r & Ep & Er & Hperm & Hsort & _).
  { intros a b. destruct (Nat.leb_spec a b); [left; reflexivity|right; apply Nat.leb_le; lia]. }
  { intros a b c Ha Hb. apply Nat.leb_le in Ha, Hb. apply Nat.leb_le. lia. }
  assert (Hpm : permutes (length ms) p).
  { unfold PermModel.from_unsorted in Ep. assert (Hperm' : Permutation (PermModel.sort_idx Nat.leb 0 ps) (seq 0 (length ps))).
    { apply PermProofs.sort_idx_spec.
      - intros a b. destruct (Nat.leb_spec a b); [left; reflexivity|right; apply Nat.leb_le; lia].
      - intros a b c Ha Hb. apply Nat.leb_le in Ha, Hb. apply Nat.leb_le. lia. }
    assert (Hls : length (PermModel.sort_idx Nat.leb 0 ps) = length ms) by (rewrite (Permutation_length Hperm'), seq_length; exact Hl).
    assert (Ha : PermProps.arrangement (PermModel.sort_idx Nat.leb 0 ps)) by (unfold PermProps.arrangement; rewrite Hls, <- Hl; exact Hperm').
    split; [apply (PermProps.b_vector _ _ Ha Ep)|]. intros i H. destruct (PermProps.C16_from_vector _ Ha) as (p' & Ep' & _ & Hb). rewrite Ep in Ep'. injection Ep' as <-. apply Hb. lia. }
  destruct (PermProps.C16_permute marker p ms) as (ms' & Em & Hlm & Hnm & _); [apply Hpm|apply Hpm|].
  destruct (PermProps.C16_permute nat p ps) as (r' & Er' & Hlr & Hnr & _); [apply Hpm|rewrite Hl; apply Hpm|]. rewrite Er in Er'. injection Er' as <-.
  exists ms', p. split; [|split; [exact Hpm|split; [exact Em|]]].
  - unfold align. rewrite E1. cbn [bind]. rewrite Ep. cbn [must bind]. rewrite Em. reflexivity.
  - apply (subsequence_positions target ms' r).
    + apply PermProofs.nth_error_ext. intros j. rewrite !nth_error_map.
      destruct (Nat.lt_ge_cases j (length ms)) as [Hj|Hj].
      * destruct (permutes_onto _ _ _ Hpm Hj) as (i & Hi' & <-). rewrite Hnm, Hnr. pose proof (f_equal (fun l => nth_error l i) E2) as E. cbn beta in E. rewrite !nth_error_map in E. exact E.
      * rewrite (proj2 (nth_error_None ms' j)) by lia. rewrite (proj2 (nth_error_None r j)) by lia. reflexivity.
    + apply sorted_lt_nth; [|exact Hsort]. apply (Permutation_NoDup Hperm). clear - E2 Hn. revert ps E2. induction ms as [|x ms IH]; intros [|q ps] E2; try discriminate; [constructor|].
      cbn [map] in E2. injection E2 as E1 E2. apply NoDup_cons_iff in Hn. destruct Hn as [Hx Hn]. constructor; [|apply IH; assumption]. intros Hq. apply Hx.
      assert (H : In (Some q) (map (fun x => position_of x target) ms)) by (rewrite E2; apply in_map, Hq). apply in_map_iff in H. destruct H as (y & Ey & Hy).
      apply position_nth in E1, Ey. replace x with y by congruence. exact Hy.
Qed.

(* ---------- rows with arranged columns ---------- *)
Lemma lookup_iff : forall cols r x v, NoDup cols -> length r = length cols -> (lookup cols r x = Some v <-> exists i, nth_error cols i = Some x /\ nth_error r i = Some v).
Proof.
  induction cols as [|y cols IH]; intros [|w r] x v Hn Hl; cbn [length] in Hl; try lia.
  { cbn. split; [discriminate|intros (i & H & _); destruct i; discriminate]. }
  apply NoDup_cons_iff in Hn. destruct Hn as [Hy Hn]. cbn [lookup]. destruct (Nat.eqb_spec x y) as [->|N].
  - split; [intros E; exists 0; split; [reflexivity|exact E]|]. intros ([|i] & H1 & H2); [exact H2|]. exfalso. apply Hy. apply (nth_error_In cols i H1).
  - rewrite (IH r x v Hn) by (unfold row in *; lia). split.
    + intros (i & H). exists (S i). exact H.
    + intros ([|i] & H1 & H2); [cbn in H1; congruence|]. exists i. split; assumption.
Qed.
Lemma opt_ext : forall A (a b : option A), (forall v, a = Some v <-> b = Some v) -> a = b.
Proof. intros A [a|] [b|] H; try reflexivity; [symmetry; apply H; reflexivity|symmetry; apply H; reflexivity|apply H; reflexivity]. Qed.
Lemma permute_NoDup : forall p (ms ms' : list marker), permutes (length ms) p -> PermModel.permute p ms = Some ms' -> NoDup ms -> NoDup ms' /\ length ms' = length ms /\ forall x, In x ms' <-> In x ms.
Proof.
  intros p ms ms' Hp E Hn. destruct (PermProps.C16_permute marker p ms) as (w & Ew & Hl & Hw & _); [apply Hp|apply Hp|]. rewrite E in Ew. injection Ew as <-.
  split; [|split; [exact Hl|]].
  - apply NoDup_nth_error. intros i j Hi Hij. destruct (permutes_onto _ _ i Hp) as (i' & Hi' & <-); [lia|]. rewrite Hw in Hij.
    destruct (Nat.lt_ge_cases j (length ms)) as [Hj|Hj].
    + destruct (permutes_onto _ _ j Hp Hj) as (j' & Hj' & <-). rewrite Hw in Hij. f_equal. apply (proj1 (NoDup_nth_error ms) Hn); assumption.
    + rewrite (proj2 (nth_error_None ms' j)) in Hij by lia. apply nth_error_None in Hij. lia.
  - intros x. split; intros H.
    + destruct (In_nth_error _ _ H) as [j Hj]. assert (Hj' : j < length ms) by (rewrite <- Hl; apply nth_error_Some; congruence).
      destruct (permutes_onto _ _ j Hp Hj') as (i & _ & <-). rewrite Hw in Hj. apply (nth_error_In _ _ Hj).
    + destruct (In_nth_error _ _ H) as [j Hj]. rewrite <- Hw in Hj. apply (nth_error_In _ _ Hj).
Qed.
Lemma lookup_arranged : forall p ms ms' r r', NoDup ms -> length r = length ms -> permutes (length ms) p -> PermModel.permute p ms = Some ms' -> arranged p r r' ->
  forall x, lookup ms' r' x = lookup ms r x.
Proof.
  intros p ms ms' r r' Hn Hl Hp E [Hlr Ha] x. destruct (permute_NoDup _ _ _ Hp E Hn) as (Hn' & Hl' & _).
  destruct (PermProps.C16_permute marker p ms) as (w & Ew & _ & Hw & _); [apply Hp|apply Hp|]. rewrite E in Ew. injection Ew as <-.
  apply opt_ext. intros v. rewrite !lookup_iff by (try assumption; unfold row in *; lia). split.
  - intros (j & H1 & H2). assert (Hj : j < length ms) by (rewrite <- Hl'; apply nth_error_Some; congruence).
    destruct (permutes_onto _ _ j Hp Hj) as (i & Hi & <-). exists i. rewrite Hw in H1. rewrite Ha in H2 by (unfold row in *; lia). split; assumption.
  - intros (i & H1 & H2). exists (PermModel.get p i). rewrite Hw. split; [exact H1|]. rewrite Ha; [exact H2|]. apply nth_error_Some. congruence.
Qed.
Lemma part_of_nth : forall cols r xs q, part_of cols r xs q <-> length q = length xs /\ forall i x, nth_error xs i = Some x -> nth_error q i = lookup cols r x.
Proof.
  intros cols r xs q. unfold part_of. split.
  - intros E. split; [pose proof (f_equal (@length _) E) as E'; rewrite !map_length in E'; exact E'|]. intros i x Hx. pose proof (f_equal (fun l => nth_error l i) E) as E'. cbn beta in E'.
    rewrite !nth_error_map, Hx in E'. cbn in E'. destruct (nth_error q i) as [v|]; [injection E' as <-; reflexivity|discriminate].
  - intros [Hl H]. apply PermProofs.nth_error_ext. intros i. rewrite !nth_error_map. destruct (nth_error xs i) as [x|] eqn:Ex.
    + specialize (H i x Ex). assert (Hi : i < length q) by (rewrite Hl; apply nth_error_Some; congruence). apply nth_error_Some in Hi. cbn. rewrite <- H. destruct (nth_error q i); [reflexivity|congruence].
    + apply nth_error_None in Ex. rewrite (proj2 (nth_error_None q i)); [reflexivity|]. unfold row in *. lia.
Qed.
Lemma part_arranged : forall p cols r xs xs' q q', permutes (length xs) p -> PermModel.permute p xs = Some xs' -> length q = length xs -> arranged p q q' ->
  (part_of cols r xs q <-> part_of cols r xs' q').
Proof.
  intros p cols r xs xs' q q' Hp E Hl [Hlq Ha]. destruct (PermProps.C16_permute marker p xs) as (w & Ew & Hlx & Hw & _); [apply Hp|apply Hp|]. rewrite E in Ew. injection Ew as <-.
  rewrite !part_of_nth. split; intros [H0 H]; (split; [unfold row in *; lia|]).
  - intros j x Hx. assert (Hj : j < length xs) by (rewrite <- Hlx; apply nth_error_Some; congruence). destruct (permutes_onto _ _ j Hp Hj) as (i & Hi & <-). rewrite Hw in Hx.
    rewrite Ha by (unfold row in *; lia). apply H, Hx.
  - intros i x Hx. assert (Hi : i < length xs) by (apply nth_error_Some; congruence). rewrite <- Ha by (unfold row in *; lia). apply H. rewrite Hw. exact Hx.
Qed.
Lemma part_lookup : forall cols r cols' r' xs q, (forall x, lookup cols r x = lookup cols' r' x) -> (part_of cols r xs q <-> part_of cols' r' xs q).
Proof. intros cols r cols' r' xs q H. rewrite !part_of_nth. split; intros [H0 H1]; (split; [exact H0|]); intros i x Hx; [rewrite <- H|rewrite H]; auto. Qed.
(* the row of an input of the arranged operation *)
Lemma parts_arranged : forall o ms ms' r r' p xs xs' P, NoDup ms -> length r = length ms -> permutes (length ms) o -> PermModel.permute o ms = Some ms' -> arranged o r r' ->
  permutes (length xs) p -> PermModel.permute p xs = Some xs' ->
  ((exists q, part_of ms r xs q /\ P q) <-> exists q', part_of ms' r' xs' q' /\ rearranged (length xs) p P q').
Proof.
  intros o ms ms' r r' p xs xs' P Hn Hl Ho E Ha Hp Ex. pose proof (lookup_arranged _ _ _ _ _ Hn Hl Ho E Ha) as HL. split.
  - intros (q & Hq & HP). assert (Hlq : length q = length xs) by (apply part_of_nth in Hq; apply Hq). destruct (arranged_exists _ _ _ Hp Hlq) as (q' & Hlq' & Hq').
    exists q'. split; [|exists q; auto]. apply (part_lookup ms r); [intros x; symmetry; apply HL|]. apply (part_arranged p ms r xs xs' q q'); assumption.
  - intros (q' & Hq & q & Hlq & HP & Hq'). exists q. split; [|exact HP]. apply (part_arranged p ms r xs xs' q q'); try assumption. apply (part_lookup ms' r'); assumption.
Qed.
Lemma rearranged_iff : forall n p P Q s, (forall r, length r = n -> (P r <-> Q r)) -> (rearranged n p P s <-> rearranged n p Q s).
Proof. intros n p P Q s H. split; intros (r & Hl & HP & Ha); exists r; (split; [exact Hl|split; [apply H; assumption|exact Ha]]). Qed.
Lemma rearranged_chain : forall n p q pq P s, permutes n p -> permutes n q -> (forall i, PermModel.get pq i = PermModel.get q (PermModel.get p i)) ->
  (rearranged n q (rearranged n p P) s <-> rearranged n pq P s).
Proof.
  intros n p q pq P s Hp Hq H. split.
  - intros (t & Hl & (r & Hlr & HP & Ha) & Ht). exists r. split; [exact Hlr|]. split; [exact HP|]. apply (arranged_chain n p q pq r t s); assumption.
  - intros (r & Hl & HP & Ha). destruct (arranged_exists _ _ _ Hp Hl) as (t & Hlt & Ht). exists t. split; [exact Hlt|]. split; [exists r; auto|]. apply (arranged_chain n p q pq r t s); assumption.
Qed.
Lemma rearranged_identical : forall n p P s, identical p -> length s = n -> (rearranged n p P s <-> P s).
Proof.
  intros n p P s Hi Hl. rewrite (rearranged_ext n p PermModel.perm_default P s); [|intros i; rewrite Hi; unfold PermModel.get; cbn; destruct i; reflexivity].
  split; [intros (r & _ & HP & Ha); apply (arranged_default n) in Ha; subst; exact HP|]. intros HP. exists s. split; [exact Hl|]. split; [exact HP|]. apply (arranged_default n). reflexivity.
Qed.
Lemma rearranged_length : forall n p P s, rearranged n p P s -> length s = n.
Proof. intros n p P s (r & Hl & _ & Ha & _). lia. Qed.
