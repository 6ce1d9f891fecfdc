(* Execution of operation trees. *)
From Coq Require Import List ZArith Bool Lia Arith Permutation Sorted.
From Verif Require Import ColumnModel ColumnSpec ScanModel ScanSpec TrieModel TrieSpec TrieScanSpec TrieProofs8 TrieProofs13 TrieProofs14 OpModel OpSpec OpProofs3 OpProofs8 ProjModel ProjSpec ProjProofs1 ProjProofs2 ProjProofs3 ProjProofs4.
From Verif Require PermModel PermProofs PermProofs2.
Import ListNotations.
Local Open Scope nat_scope.

Lemma projection_projected : forall input output P v, (forall r, length r = length input -> map (nth_error r) v = map (lookup input r) output) ->
  forall q, projected (length input) P v q <-> projection input P output q.
Proof.
  intros input output P v H q. split; intros (r & Hl & HP & E); exists r; (split; [exact Hl|]; split; [exact HP|]).
  - unfold part_of. rewrite <- (H r Hl). exact E.
  - rewrite (H r Hl). exact E.
Qed.
Lemma scan_holds : forall n P sc strict s, reads n P sc strict (Some s) ->
  exists enough tr, (forall fuel, enough <= fuel -> from_partial_trie_scan sc fuel s 0 = Ok tr) /\ holds n P tr.
Proof.
  intros n P sc strict s HR.
  assert (Ea : ts_arity sc s = n). { destruct HR as (types & tau & (_ & R & Hsim & Hs) & _). apply (e_arity _ _ _ _ _ _ Hsim _ _ Hs). }
  destruct (Nat.eq_dec n 0) as [->|Hn].
  - exists 0, (zero_arity true). split; [intros fuel _; unfold from_partial_trie_scan; rewrite Ea; reflexivity|].
    assert (HP0 : P []). { destruct HR as (types & tau & _ & H). apply (H [] eq_refl). exact Logic.I. }
    apply (holds_iff 0 (fun _ => true = true)); [|apply zero_holds]. intros r Hr. destruct r; [tauto|discriminate].
  - destruct (collect_reads n P sc strict s 0 ltac:(lia) HR) as (en & out & E & HT & HS). rewrite Nat.sub_0_r in *.
    exists en, (build_rows n out). split.
    + intros fuel Hf. unfold from_partial_trie_scan. rewrite Ea. cbn [Nat.ltb Nat.leb]. rewrite Nat.sub_0_r. destruct (Nat.eqb_spec n 0); [lia|].
      rewrite (E fuel Hf). reflexivity.
    + apply (holds_iff n (fun r => In r (map fst out))); [|apply stores_holds; [lia|exact HS]]. intros r Hl. rewrite (proj2 HT r). split.
      * intros (_ & q & Hq & H). destruct q; [rewrite app_nil_r in H; exact H|discriminate].
      * intros H. split; [exact Hl|]. exists []. rewrite app_nil_r. auto.
Qed.
Lemma map_nth_seq : forall (r : row), map (nth_error r) (seq 0 (length r)) = map Some r.
Proof.
  intros r. apply nth_list_ext. intros i. rewrite !nth_error_map. destruct (Nat.lt_ge_cases i (length r)) as [H|H].
  - rewrite (nth_error_nth' (seq 0 (length r)) 0) by (rewrite seq_length; exact H). rewrite seq_nth by exact H. cbn [option_map plus].
    destruct (nth_error r i) as [x|] eqn:E; [reflexivity|]. apply nth_error_None in E. lia.
  - rewrite (proj2 (nth_error_None (seq 0 (length r)) i)) by (rewrite seq_length; exact H). rewrite (proj2 (nth_error_None r i)) by exact H. reflexivity.
Qed.

Theorem execute_project_holds : forall content o d p v, formed content o -> depth o <= d -> projects (length (markers o)) v p -> (forall i, In i v -> i < length (markers o)) ->
  exists enough tr, (forall fuel, enough <= fuel -> execute_project d fuel p o 0 = Ok tr) /\
    holds (length v) (projected (length (markers o)) (meaning content o) v) tr.
Proof.
  intros content o d p v Hf Hd HP Hv. set (n := length (markers o)) in *. destruct (evaluate_reads content d o Hd Hf) as (s & Es & HR). fold n in HR.
  destruct s as [s|].
  - destruct (PermModel.choice_is_identity (pj_choice p)) eqn:Ei.
    + destruct (scan_holds n (meaning content o) (scans d) true s HR) as (en & tr & E & HH). exists en, tr. split.
      * intros fuel Hfu. unfold execute_project. rewrite Es. cbn [bind]. rewrite Ei. apply E, Hfu.
      * apply (pr_identity _ _ _ HP) in Ei. subst v. rewrite seq_length. refine (holds_iff _ _ _ _ _ HH). intros r Hl. unfold projected. split.
        -- intros H. exists r. split; [exact Hl|]. split; [exact H|]. rewrite <- Hl. symmetry. apply map_nth_seq.
        -- intros (q & Hq & H & E'). rewrite <- Hq, map_nth_seq in E'. apply map_some_inj in E'. subst q. exact H.
    + assert (Hn : 0 < n).
      { destruct (Nat.eq_dec n 0) as [E0|E0]; [|lia]. exfalso. assert (v = seq 0 n).
        { rewrite E0. destruct v as [|i v]; [reflexivity|]. specialize (Hv i (or_introl eq_refl)). unfold n in *. lia. }
        apply (pr_identity _ _ _ HP) in H. congruence. }
      destruct (apply_operation_holds n (meaning content o) (scans d) true s p v Hn HR HP Hv) as (en & tr & E & HH). exists en, tr. split; [|exact HH].
      intros fuel Hfu. unfold execute_project. rewrite Es. cbn [bind]. rewrite Ei. apply E, Hfu.
  - exists 0, (trie_empty (pj_arity p)). split; [intros fuel _; unfold execute_project; rewrite Es; reflexivity|].
    apply empty_holds. intros q _ (r & Hl & H & _). apply (HR r Hl H).
Qed.
