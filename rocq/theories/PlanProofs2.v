(* The tables that operation trees compute. *)
From Coq Require Import List ZArith Bool Lia Arith Permutation Sorted.
From Verif Require Import ColumnModel ScanModel ScanSpec TrieModel TrieSpec TrieScanSpec OpModel OpSpec OpProofs1 OpProofs2 OpProofs3 OpProofs5 OpProofs8 ProjModel ProjSpec ProjProofs1 ProjProofs3 ProjProofs4 ProjProofs5 StoreModel StoreSpec StoreProofs1 StoreProofs2 PlanModel PlanSpec PlanProofs1.
From Verif Require PermModel PermProps PermProofs.
Import ListNotations.
Local Open Scope nat_scope.

Fixpoint refs (o : op_tree) : list nat :=
  match o with
  | TLoad _ => []
  | TComputed c => [c]
  | TJoin _ subs | TUnion subs | TSubtract _ subs => flat_map refs subs
  end.
Definition root_refs (r : tree_root) : list nat := match r with ROp o => refs o | RProject _ o => refs o end.
Definition same_rows (n : nat) (P Q : row -> Prop) : Prop := forall r, length r = n -> (P r <-> Q r).
Lemma same_refl : forall n P, same_rows n P P.
Proof. intros n P r _. reflexivity. Qed.
Lemma same_sym : forall n P Q, same_rows n P Q -> same_rows n Q P.
Proof. intros n P Q H r Hr. symmetry. apply H, Hr. Qed.
Lemma same_trans : forall n P Q R, same_rows n P Q -> same_rows n Q R -> same_rows n P R.
Proof. intros n P Q R H H' r Hr. rewrite (H r Hr). apply H', Hr. Qed.

Section Computes.
Variable cat : catalog.
Definition contents : Type := list (nat * (row -> Prop)).

Inductive computes (Ld : list (nat * perm)) (C : contents) : op_tree -> nat -> (row -> Prop) -> Prop :=
| c_load i id o n P Q : nth_error Ld i = Some (id, o) -> nth_error cat id = Some (n, P, None) -> permutes n o -> same_rows n Q (rearranged n o P) ->
    computes Ld C (TLoad i) n Q
| c_computed c n P Q : nth_error C c = Some (n, P) -> same_rows n Q P -> computes Ld C (TComputed c) n Q
| c_join ms (Ts : list (list marker * (row -> Prop))) subs bs n Q : n = length ms -> Ts <> [] -> join_bindings ms (map fst Ts) = Ok bs -> (forall T, In T Ts -> incl (fst T) ms) ->
    Forall2 (fun s T => computes Ld C s (length (fst T)) (snd T)) subs Ts ->
    same_rows n Q (fun r => forall T, In T Ts -> exists q, part_of ms r (fst T) q /\ snd T q) -> computes Ld C (TJoin bs subs) n Q
| c_union n Ps subs Q : Forall2 (fun s P => computes Ld C s n P) subs Ps -> same_rows n Q (fun r => exists P : row -> Prop, In P Ps /\ P r) ->
    computes Ld C (TUnion subs) n Q
| c_subtract ms P0 s0 (Ts : list (list marker * (row -> Prop))) subs maps n Q : n = length ms -> computes Ld C s0 n P0 ->
    Forall2 (fun s T => computes Ld C s (length (fst T)) (snd T)) subs Ts -> map_res (layer_map ms) (map fst Ts) = Ok maps -> (forall T, In T Ts -> NoDup (fst T)) ->
    same_rows n Q (fun r => P0 r /\ forall T, In T Ts -> ~ exists q, part_of ms r (fst T) q /\ snd T q) -> computes Ld C (TSubtract maps (s0 :: subs)) n Q.

Lemma computes_same : forall Ld C o n P Q, same_rows n Q P -> computes Ld C o n P -> computes Ld C o n Q.
Proof.
  intros Ld C o n P Q H HC. inversion HC; subst.
  - apply (c_load Ld C i id o0 n P0 Q); try assumption. eapply same_trans; eassumption.
  - apply (c_computed Ld C c n P0 Q); try assumption. eapply same_trans; eassumption.
  - apply (c_join Ld C ms Ts subs bs _ Q); try assumption; [reflexivity|]. eapply same_trans; eassumption.
  - apply (c_union Ld C n Ps subs Q); try assumption. eapply same_trans; eassumption.
  - apply (c_subtract Ld C ms P0 s0 Ts subs maps _ Q); try assumption; [reflexivity|]. eapply same_trans; eassumption.
Qed.
Lemma sub_depth : forall subs d, list_max (map op_depth subs) <= d -> forall s, In s subs -> op_depth s <= d.
Proof. intros subs d H s Hs. apply list_max_le in H. apply (proj1 (Forall_forall _ _) H). apply in_map, Hs. Qed.
Lemma Forall2_change : forall A B (P Q : A -> B -> Prop) l k, Forall2 P l k -> (forall a b, In a l -> P a b -> Q a b) -> Forall2 Q l k.
Proof. induction 1 as [|a b l k H _ IH]; intros HQ; constructor; [apply HQ; [left; reflexivity|exact H]|]. apply IH. intros a' b' Ha. apply HQ. right. exact Ha. Qed.
Lemma computes_more : forall Ld C Ld' C', (forall i e, nth_error Ld i = Some e -> nth_error Ld' i = Some e) ->
  (forall i e, nth_error C i = Some e -> nth_error C' i = Some e) ->
  forall d o n Q, op_depth o <= d -> computes Ld C o n Q -> computes Ld' C' o n Q.
Proof.
  intros Ld C Ld' C' HL HC. induction d as [|d IH]; intros o n Q Hd H; inversion H; subst; cbn [op_depth] in Hd; try lia.
  - apply (c_load Ld' C' i id o0 n P Q); auto.
  - apply (c_computed Ld' C' c n P Q); auto.
  - apply (c_load Ld' C' i id o0 n P Q); auto.
  - apply (c_computed Ld' C' c n P Q); auto.
  - apply (c_join Ld' C' ms Ts subs bs _ Q); auto. eapply Forall2_change; [eassumption|]. intros s T Hs. apply IH. apply (sub_depth subs); [lia|exact Hs].
  - apply (c_union Ld' C' n Ps subs Q); auto. eapply Forall2_change; [eassumption|]. intros s T Hs. apply IH. apply (sub_depth subs); [lia|exact Hs].
  - cbn [map list_max fold_right] in Hd. apply (c_subtract Ld' C' ms P0 s0 Ts subs maps _ Q); auto.
    + apply IH; [|assumption]. lia.
    + eapply Forall2_change; [eassumption|]. intros s T Hs. apply IH. apply (sub_depth subs); [|exact Hs]. unfold list_max. lia.
Qed.
Lemma computes_ext : forall Ld C more more' o n Q, computes Ld C o n Q -> computes (Ld ++ more) (C ++ more') o n Q.
Proof.
  intros Ld C more more' o n Q. apply (computes_more _ _ _ _) with (d := op_depth o); [| |lia].
  - intros i e H. rewrite nth_error_app1; [exact H|]. apply nth_error_Some. congruence.
  - intros i e H. rewrite nth_error_app1; [exact H|]. apply nth_error_Some. congruence.
Qed.
Lemma computes_refs : forall Ld C d o n Q, op_depth o <= d -> computes Ld C o n Q -> forall c, In c (refs o) -> c < length C.
Proof.
  intros Ld C. induction d as [|d IH]; intros o n Q Hd H c Hc; inversion H; subst; cbn [op_depth refs] in Hd, Hc; try lia; try (destruct Hc as [<-|[]]; apply nth_error_Some; congruence); try (destruct Hc; fail).
  - apply in_flat_map in Hc. destruct Hc as (s & Hs & Hc). destruct (Forall2_in_l _ _ _ _ _ _ H4 Hs) as (T & _ & HT). apply (IH s _ _ (sub_depth subs d ltac:(lia) s Hs) HT c Hc).
  - apply in_flat_map in Hc. destruct Hc as (s & Hs & Hc). destruct (Forall2_in_l _ _ _ _ _ _ H0 Hs) as (T & _ & HT). apply (IH s _ _ (sub_depth subs d ltac:(lia) s Hs) HT c Hc).
  - apply in_flat_map in Hc. destruct Hc as (s & [<-|Hs] & Hc); cbn [map list_max fold_right] in Hd; [apply (IH s0 _ _ ltac:(lia) H1 c Hc)|].
    destruct (Forall2_in_l _ _ _ _ _ _ H2 Hs) as (T & _ & HT). apply (IH s _ _ (sub_depth subs d ltac:(unfold list_max; lia) s Hs) HT c Hc).
Qed.

(* ---------- evaluation ---------- *)
Variable m : manager.
Variable ts : tstorage.
Definition loads (Ld : list (nat * perm)) : Prop := forall i id o n P, nth_error Ld i = Some (id, o) -> nth_error cat id = Some (n, P, None) -> permutes n o ->
  exists tr, load_leaf m ts i = Ok tr /\ holds n (rearranged n o P) tr.
Definition has (C : contents) (c : nat) : Prop := forall n P, nth_error C c = Some (n, P) -> exists tr, computed_leaf ts c = Ok tr /\ holds n P tr.

Lemma inputs_exist : forall d subs (Ts : list (list marker * (row -> Prop))),
  Forall2 (fun s T => exists o, evaluate_tree m ts d s = Ok o /\ reads (length (fst T)) (snd T) (scans d) true o) subs Ts ->
  exists Us : list (table (scans d)), map_res (evaluate_tree m ts d) subs = Ok (map input Us) /\ map cols Us = map fst Ts /\ map rows Us = map snd Ts /\
    (forall U, In U Us -> table_ok true U) /\ Forall2 (fun T U => cols U = fst T /\ rows U = snd T) Ts Us.
Proof.
  intros d subs Ts H. induction H as [|s T subs Ts (o & Eo & Ho) _ (Us & E1 & E2 & E3 & E4 & E5)].
  { exists []. repeat split; try reflexivity; [intros U []|constructor]. }
  exists (mk_table (scans d) (fst T) (snd T) o :: Us). split; [|split; [|split; [|split]]].
  - cbn [map_res]. rewrite Eo. cbn [bind]. rewrite E1. reflexivity.
  - cbn [map cols]. rewrite E2. reflexivity.
  - cbn [map rows]. rewrite E3. reflexivity.
  - intros U [<-|HU]; [exact Ho|apply E4, HU].
  - constructor; [split; reflexivity|exact E5].
Qed.
Lemma leaf_reads : forall n P tr, holds n P tr -> reads n P generic true (leaf tr).
Proof. intros n P tr [H _]. exact H. Qed.
Lemma lift_leaf : forall d o e, op_depth o = 0 -> (match o with TLoad _ | TComputed _ => True | _ => False end) ->
  evaluate_tree m ts d o = Ok e -> evaluate_tree m ts (S d) o = Ok (option_map inl e).
Proof. intros d o e _ Ho E. destruct o; try destruct Ho; cbn [evaluate_tree]; rewrite E; reflexivity. Qed.

Theorem evaluate_sound : forall Ld C, loads Ld -> forall d o n Q, op_depth o <= d -> computes Ld C o n Q -> (forall c, In c (refs o) -> has C c) ->
  exists s, evaluate_tree m ts d o = Ok s /\ reads n Q (scans d) true s.
Proof.
  intros Ld C HLd. induction d as [|d IH]; intros o n Q Hd HC Hr; inversion HC; subst; cbn [op_depth] in Hd; try lia.
  - destruct (HLd _ _ _ _ _ H H0 H1) as (tr & E & HT). exists (leaf tr). split; [cbn [evaluate_tree]; rewrite E; reflexivity|].
    apply (reads_iff _ _ _ _ _ _ (same_sym _ _ _ H2)). apply leaf_reads, HT.
  - destruct (Hr c (or_introl eq_refl) _ _ H) as (tr & E & HT). exists (leaf tr). split; [cbn [evaluate_tree]; rewrite E; reflexivity|].
    apply (reads_iff _ _ _ _ _ _ (same_sym _ _ _ H0)). apply leaf_reads, HT.
  - destruct (IH (TLoad i) n Q (Nat.le_0_l _) HC Hr) as (s & E & HR). exists (option_map inl s). split; [apply lift_leaf; [reflexivity|exact I|exact E]|]. apply reads_inl, HR.
  - destruct (IH (TComputed c) n Q (Nat.le_0_l _) HC Hr) as (s & E & HR). exists (option_map inl s). split; [apply lift_leaf; [reflexivity|exact I|exact E]|]. apply reads_inl, HR.
  - destruct (inputs_exist d subs Ts) as (Us & E1 & E2 & E3 & E4 & E5).
    { eapply Forall2_change; [exact H3|]. intros s T Hs HT. apply (IH s _ _ (sub_depth subs d ltac:(lia) s Hs) HT). intros c Hc. apply Hr. cbn [refs]. apply in_flat_map. exists s. auto. }
    destruct (join_generate_reads (scans d) true ms Us bs) as (s & Es & HR).
    { intros ->. inversion E5. subst. congruence. }
    { exact E4. }
    { rewrite E2. assumption. }
    { intros U HU. destruct (Forall2_in_r _ _ _ _ _ _ E5 HU) as (T & HT & Ec & _). rewrite Ec. auto. }
    exists (option_map (fun s => inr (inl s)) s). split; [cbn [evaluate_tree]; rewrite E1; cbn [bind]; rewrite Es; reflexivity|].
    apply (reads_iff _ (joined ms Us)).
    { intros r Hl. rewrite (H4 r Hl). unfold joined. split.
      - intros G T HT. destruct (Forall2_in_l _ _ _ _ _ _ E5 HT) as (U & HU & Ec & Er). destruct (G U HU) as (q & Hq1 & Hq2). exists q. rewrite <- Ec, <- Er. auto.
      - intros G U HU. destruct (Forall2_in_r _ _ _ _ _ _ E5 HU) as (T & HT & Ec & Er). destruct (G T HT) as (q & Hq1 & Hq2). exists q. rewrite Ec, Er. auto. }
    pose proof (reads_inr _ _ (scans d) _ _ _ (reads_inl _ _ _ (either_trie (either_trie (scans d) (union_trie (scans d))) (either_trie (scans d) (subtract_trie (scans d)))) _ _ HR)) as G.
    destruct s as [s|]; exact G.
  - destruct (inputs_exist d subs (map (fun P => (seq 0 n, P)) Ps)) as (Us & E1 & E2 & E3 & E4 & E5).
    { clear HC H0. induction H as [|s P subs Ps Hs _ IHF]; [constructor|]. cbn [map]. constructor.
      - cbn [fst snd]. rewrite seq_length. apply (IH s); [apply (sub_depth (s :: subs) d); [lia|left; reflexivity]|exact Hs|]. intros c Hc. apply Hr. cbn [refs flat_map]. apply in_or_app. left. exact Hc.
      - apply IHF; [intros c Hc; apply Hr; cbn [refs flat_map]; apply in_or_app; right; exact Hc|].
        change (list_max (map op_depth (s :: subs))) with (max (op_depth s) (list_max (map op_depth subs))) in Hd. lia. }
    assert (Hcols : forall U, In U Us -> cols U = seq 0 n /\ In (rows U) Ps).
    { intros U HU. destruct (Forall2_in_r _ _ _ _ _ _ E5 HU) as (T & HT & Ec & Er). apply in_map_iff in HT. destruct HT as (P & <- & HP). cbn [fst snd] in *. rewrite Er. auto. }
    destruct (union_generate_reads (scans d) n Us) as (s & Es & HR).
    { intros U HU. split; [apply E4, HU|]. rewrite (proj1 (Hcols U HU)). apply seq_length. }
    exists (option_map (fun s => inr (inr (inl s))) s). split; [cbn [evaluate_tree]; rewrite E1; cbn [bind]; rewrite Es; reflexivity|].
    apply (reads_iff _ (fun r => exists U, In U Us /\ rows U r)).
    { intros r Hl. rewrite (H0 r Hl). split.
      - intros (U & HU & HP). exists (rows U). split; [apply Hcols, HU|exact HP].
      - intros (P & HP & HPr). destruct (Forall2_in_l _ _ _ _ _ (seq 0 n, P) E5) as (U & HU & Ec & Er); [apply in_map_iff; exists P; auto|]. exists U. rewrite Er. auto. }
    pose proof (reads_inr _ _ (scans d) _ _ _ (reads_inr _ _ (either_trie (scans d) (join_trie (scans d))) _ _ _ (reads_inl _ _ _ (either_trie (scans d) (subtract_trie (scans d))) _ _ HR))) as G.
    destruct s as [s|]; exact G.
  - cbn [map list_max fold_right] in Hd.
    destruct (inputs_exist d (s0 :: subs) ((ms, P0) :: Ts)) as (Us0 & E1 & E2 & E3 & E4 & E5).
    { constructor.
      - apply (IH s0); [lia|assumption|]. intros c Hc. apply Hr. cbn [refs flat_map]. apply in_or_app. left. exact Hc.
      - eapply Forall2_change; [exact H1|]. intros s T Hs HT. apply (IH s _ _ (sub_depth subs d ltac:(unfold list_max; lia) s Hs) HT). intros c Hc. apply Hr. cbn [refs flat_map]. apply in_or_app. right. apply in_flat_map. exists s. auto. }
    destruct Us0 as [|U0 Us]; [inversion E5|]. cbn [map fst] in E2. injection E2 as Ec0 E2.
    assert (Er0 : rows U0 = P0) by (inversion E5; tauto). assert (E6 : Forall2 (fun T U => cols U = fst T /\ rows U = snd T) Ts Us) by (inversion E5; assumption).
    destruct (subtract_generate_reads (scans d) true ms U0 Us maps) as (s & Es & HR).
    { exact Ec0. }
    { rewrite E2. assumption. }
    { intros U HU. destruct (Forall2_in_r _ _ _ _ _ _ E6 HU) as (T & HT & Ec & _). rewrite Ec. auto. }
    { exact E4. }
    exists (option_map (fun s => inr (inr (inr s))) s). split; [cbn [evaluate_tree]; rewrite E1; cbn [bind]; rewrite Es; reflexivity|].
    apply (reads_iff _ (fun r => rows U0 r /\ forall U, In U Us -> ~ exists q, part_of ms r (cols U) q /\ rows U q)).
    { intros r Hl. rewrite (H4 r Hl), Er0. apply and_iff_compat_l. split.
      - intros G T HT. destruct (Forall2_in_l _ _ _ _ _ _ E6 HT) as (U & HU & Ec & Er). rewrite <- Ec, <- Er. apply G, HU.
      - intros G U HU. destruct (Forall2_in_r _ _ _ _ _ _ E6 HU) as (T & HT & Ec & Er). rewrite Ec, Er. apply G, HT. }
    pose proof (reads_inr _ _ (scans d) _ _ _ (reads_inr _ _ (either_trie (scans d) (join_trie (scans d))) _ _ _ (reads_inr _ _ (either_trie (scans d) (union_trie (scans d))) _ _ _ HR))) as G.
    destruct s as [s|]; exact G.
Qed.
End Computes.
