(* Execution of one tree. *)
From Coq Require Import List ZArith Bool Lia Arith Permutation Sorted.
From Verif Require Import ColumnModel ScanModel ScanSpec TrieModel TrieSpec TrieScanSpec OpModel OpSpec OpProofs3 ProjModel ProjSpec ProjProofs1 ProjProofs2 ProjProofs3 ProjProofs4 ProjProofs5 StoreModel StoreSpec StoreProofs1 StoreProofs2 PlanModel PlanSpec PlanProofs1 PlanProofs2.
From Verif Require PermModel PermProps PermProofs.
Import ListNotations.
Local Open Scope nat_scope.

Lemma holds_rows : forall n P tr, holds n P tr -> (trie_is_empty tr = true <-> forall r, length r = n -> ~ P r).
Proof.
  intros n P tr (H1 & _ & H3). unfold trie_is_empty. split.
  - intros E. unfold leaf in H1. rewrite E in H1. exact H1.
  - intros H. apply Nat.eqb_eq, H3, H.
Qed.
Lemma empty_is_empty : forall n, trie_is_empty (trie_empty n) = true.
Proof. intros n. apply (holds_rows n (fun _ => False)); [apply empty_holds; intros r _ []|intros r _ []]. Qed.
Lemma without_keeping : forall (sc : triescan) fuel s cs tr trs, 0 < ts_arity sc s -> with_dependents sc fuel s cs false = Ok (tr, trs) -> trie_is_empty tr = true.
Proof.
  intros sc fuel s cs tr trs Hn E. unfold with_dependents in E. destruct (map_res _ cs) as [vs| |]; try discriminate. cbn [bind] in E.
  destruct (negb false && _); [discriminate|]. destruct (Nat.eqb_spec (ts_arity sc s) 0); [lia|].
  destruct (row_collect _ _ _) as [rows| |]; try discriminate. cbn [bind] in E. destruct rows as [|rc rows].
  - injection E as <- _. apply empty_is_empty.
  - destruct (map_res _ vs) as [ds| |]; try discriminate. cbn [bind] in E. injection E as <- _. reflexivity.
Qed.

Section Roots.
Variable cat : catalog.
Inductive root_computes (Ld : list (nat * perm)) (C : contents) : tree_root -> nat -> (row -> Prop) -> Prop :=
| rc_op o n Q : computes cat Ld C o n Q -> root_computes Ld C (ROp o) n Q
| rc_project p o n0 Q0 v n Q : computes cat Ld C o n0 Q0 -> projects n0 v p -> (forall i, In i v -> i < n0) -> length v = n -> same_rows n Q (projected n0 Q0 v) ->
    root_computes Ld C (RProject p o) n Q.
Lemma root_same : forall Ld C o n P Q, same_rows n Q P -> root_computes Ld C o n P -> root_computes Ld C o n Q.
Proof.
  intros Ld C o n P Q H HC. inversion HC; subst; [constructor; eapply computes_same; eassumption|].
  apply (rc_project Ld C p o0 n0 Q0 v _ Q); try assumption; [reflexivity|]. eapply same_trans; eassumption.
Qed.
Lemma root_ext : forall Ld C more more' o n Q, root_computes Ld C o n Q -> root_computes (Ld ++ more) (C ++ more') o n Q.
Proof. intros Ld C more more' o n Q H. inversion H; subst; [constructor; apply computes_ext; assumption|]. apply (rc_project _ _ p o0 n0 Q0 v _ Q); try assumption; [apply computes_ext; assumption|reflexivity]. Qed.
Lemma root_refs_lt : forall Ld C o n Q, root_computes Ld C o n Q -> forall c, In c (root_refs o) -> c < length C.
Proof. intros Ld C o n Q H c Hc. inversion H; subst; cbn [root_refs] in Hc; eapply computes_refs; eauto. Qed.

Variable m : manager.
Lemma execute_op : forall ts Ld C t o n Q cs vs, loads cat m ts Ld -> t_root t = ROp o -> computes cat Ld C o n Q -> (forall c, In c (refs o) -> has ts C c) ->
  Forall2 (fun c v => PermModel.as_vector c = Some v /\ forall i, In i v -> i < n) cs vs -> (0 < t_used t \/ 0 < n) ->
  exists enough tr trs, (forall fuel, enough <= fuel -> execute_tree m fuel ts t cs = Ok (tr, trs)) /\
    (0 < t_used t -> holds n Q tr) /\ (t_used t = 0 -> trie_is_empty tr = true) /\ Forall2 (fun v t => holds (length v) (projected n Q v) t) vs trs.
Proof.
  intros ts Ld C t o n Q cs vs HL Et HC Hr HF Hu. destruct (evaluate_sound cat m ts Ld C HL (op_depth o) o n Q (le_n _) HC Hr) as (s & Es & HR). destruct s as [s|].
  - destruct (with_dependents_holds n Q (scans (op_depth o)) true s cs vs (0 <? t_used t) HR HF) as (en & tr & trs & E & H1 & H2).
    { destruct Hu as [Hu|Hu]; [left; apply Nat.ltb_lt, Hu|right; exact Hu]. }
    exists en, tr, trs. split; [|split; [|split; [|exact H2]]].
    + intros fuel Hf. unfold execute_tree. rewrite Et, Es. cbn [bind]. apply E, Hf.
    + intros H. apply H1, Nat.ltb_lt, H.
    + intros H. specialize (E en (le_n _)). rewrite H in E, Hu. cbn [Nat.ltb Nat.leb] in E. apply (without_keeping _ _ _ _ _ _) in E; [exact E|].
      destruct HR as (types & tau & (_ & R & Hsim & Hs) & _). rewrite (e_arity _ _ _ _ _ _ Hsim _ _ Hs). destruct Hu; lia.
  - exists 0, (trie_empty 0), (map (fun _ => trie_empty 0) cs). split; [|split; [|split]].
    + intros fuel _. unfold execute_tree. rewrite Et, Es. reflexivity.
    + intros _. apply empty_holds, HR.
    + intros _. apply empty_is_empty.
    + clear - HF HR. induction HF as [|c v cs vs _ _ IH]; cbn [map]; constructor; [|exact IH]. apply empty_holds. intros q _ (r & Hl & H & _). apply (HR r Hl H).
Qed.
Lemma execute_projection : forall ts Ld C t p o n Q, loads cat m ts Ld -> t_root t = RProject p o -> root_computes Ld C (RProject p o) n Q -> (forall c, In c (refs o) -> has ts C c) ->
  (PermModel.choice_is_identity (pj_choice p) = true -> t_cut t = 0) ->
  exists enough tr, (forall fuel, enough <= fuel -> execute_tree m fuel ts t [] = Ok (tr, [])) /\ holds n Q tr.
Proof.
  intros ts Ld C t p o n Q HL Et HC Hr Hcut. inversion HC as [|? ? n0 Q0 v ? ? K1 K2 K3 K5 K4]; subst. destruct (evaluate_sound cat m ts Ld C HL (op_depth o) o n0 Q0 (le_n _) K1 Hr) as (s & Es & HR). destruct s as [s|].
  - destruct (PermModel.choice_is_identity (pj_choice p)) eqn:Ei.
    + destruct (scan_holds n0 Q0 (scans (op_depth o)) true s HR) as (en & tr & E & HH). exists en, tr. split.
      * intros fuel Hfu. unfold execute_tree. rewrite Et, Es. cbn [bind]. rewrite Ei, Hcut by reflexivity. rewrite (E fuel Hfu). reflexivity.
      * apply (pr_identity _ _ _ K2) in Ei. subst v. rewrite seq_length in *. refine (holds_iff _ _ _ _ _ HH). intros r Hl. rewrite (K4 r Hl). unfold projected. split.
        -- intros H. exists r. split; [exact Hl|]. split; [exact H|]. rewrite <- Hl. symmetry. apply map_nth_seq.
        -- intros (q & Hq & H & E'). rewrite <- Hq, map_nth_seq in E'. apply map_some_inj in E'. subst q. exact H.
    + assert (Hn : 0 < n0).
      { destruct (Nat.eq_dec n0 0) as [->|E0]; [|lia]. exfalso. assert (E : v = seq 0 0).
        { destruct v as [|i v]; [reflexivity|]. specialize (K3 i (or_introl eq_refl)). lia. }
        apply (pr_identity _ _ _ K2) in E. congruence. }
      destruct (apply_operation_holds n0 Q0 (scans (op_depth o)) true s p v Hn HR K2 K3) as (en & tr & E & HH). exists en, tr. split.
      * intros fuel Hfu. unfold execute_tree. rewrite Et, Es. cbn [bind]. rewrite Ei. rewrite (E fuel Hfu). reflexivity.
      * refine (holds_iff _ _ _ _ (same_sym _ _ _ K4) HH).
  - exists 0, (trie_empty (pj_arity p)). split; [intros fuel _; unfold execute_tree; rewrite Et, Es; reflexivity|].
    apply empty_holds. intros q Hq HQ. apply (K4 q Hq) in HQ. destruct HQ as (r & Hl & H & _). apply (HR r Hl H).
Qed.
End Roots.
