(* The rows of a union of tries. *)
From Coq Require Import List ZArith Bool Lia Arith Sorted.
From Verif Require Import ColumnModel ColumnSpec ColumnProofs ScanModel ScanSpec ScanProofs TrieModel TrieScanSpec OpModel OpSpec OpProofs1 OpProofs2 OpProofs3 OpProofs4.
Import ListNotations.
Local Open Scope nat_scope.

Definition has_input {sub} (T : table sub) : bool := match input T with Some _ => true | None => false end.
Lemma used_inputs : forall sub (Ts : list (table sub)), exists subs,
  flat_map (fun o : option (tstate sub) => match o with Some s => [s] | None => [] end) (map input Ts) = subs /\
  map input (filter has_input Ts) = map Some subs.
Proof.
  intros sub. induction Ts as [|T Ts IH]; [exists []; auto|]. destruct IH as (subs & E1 & E2). unfold has_input at 1. cbn [map flat_map filter].
  destruct (input T) as [s|] eqn:E.
  - exists (s :: subs). cbn [app map]. split; [congruence|]. rewrite E. f_equal. exact E2.
  - exists subs. cbn [app]. auto.
Qed.

Lemma union_generate_reads : forall sub n (Ts : list (table sub)),
  (forall T, In T Ts -> table_ok true T /\ length (cols T) = n) ->
  exists o, union_generate sub (map input Ts) = Ok o /\
    reads n (fun r => exists T, In T Ts /\ rows T r) (either_trie sub (union_trie sub)) true o.
Proof.
  intros sub n Ts HT. destruct (used_inputs sub Ts) as (subs & E1 & E2). set (Us := filter has_input Ts) in *.
  assert (HU : forall T, In T Us -> table_ok true T) by (intros T H; apply filter_In in H; apply HT, H).
  assert (Hn : forall T, In T Us -> length (cols T) = n) by (intros T H; apply filter_In in H; apply HT, H).
  destruct (choose_inputs sub true Us subs HU E2) as (Ty & Tau & R & Hch).
  assert (Hls : length subs = length Us). { pose proof (f_equal (@length _) E2) as E0. rewrite !map_length in E0. lia. }
  assert (Hrows : forall r, length r = n -> ((exists T, In T Ts /\ rows T r) <-> exists i, i < length Us /\ in_tree (Tau i) [] r)).
  { intros r Hr. split.
    - intros (T & HTs & Hrow). assert (HTU : In T Us).
      { apply filter_In. split; [exact HTs|]. unfold has_input. destruct (input T) eqn:E; [reflexivity|]. exfalso.
        destruct (HT T HTs) as [Hok Hl]. unfold table_ok, reads in Hok. rewrite E in Hok. apply (Hok r); [congruence|exact Hrow]. }
      destruct (In_nth_error _ _ HTU) as [i Hi]. exists i. split; [apply nth_error_Some; congruence|].
      destruct (Hch i T Hi) as (s & _ & _ & _ & _ & H). apply H; [rewrite (Hn T HTU); exact Hr|exact Hrow].
    - intros (i & Hi & Hin). destruct (nth_error Us i) as [T|] eqn:ET; [|apply nth_error_None in ET; lia]. pose proof (nth_error_In _ _ ET) as HTU.
      exists T. split; [apply filter_In in HTU; apply HTU|]. destruct (Hch i T ET) as (s & _ & _ & _ & _ & H). apply H; [rewrite (Hn T HTU); exact Hr|exact Hin]. }
  unfold union_generate. rewrite E1. destruct subs as [|s subs]; [|destruct subs as [|s' subs]].
  - exists None. split; [reflexivity|]. cbn. intros r Hr H. apply (Hrows r Hr) in H. destruct H as (i & Hi & _). cbn in Hls. lia.
  - destruct Us as [|T [|T' Us']]; cbn in Hls; try lia. exists (Some (inl s)). split; [reflexivity|]. cbn [reads].
    destruct (Hch 0 T eq_refl) as (s0 & Es0 & Hsim & Hprop & Hs0 & Hrow). cbn in Es0. injection Es0 as <-. exists (Ty 0), (Tau 0). split.
    + apply explores_inl. rewrite <- (Hn T (or_introl eq_refl)). split; [exact Hprop|]. exists (R 0). auto.
    + intros r Hr. rewrite (Hrows r Hr). cbn [length]. split; [intros (i & Hi & H); assert (i = 0) by lia; subst; exact H|]. intros H. exists 0. auto.
  - set (m := length Us) in *.
    assert (HS : forall i, i < m -> simulates n (Ty i) (Tau i) sub true (R i) /\ proper n (Ty i) (Tau i)).
    { intros i Hi. destruct (nth_error Us i) as [T|] eqn:ET; [|apply nth_error_None in ET; unfold m in Hi; lia].
      destruct (Hch i T ET) as (s0 & _ & H1 & H2 & _). rewrite (Hn T (nth_error_In _ _ ET)) in H1, H2. auto. }
    assert (Hm : 0 < m) by (cbn in Hls; lia).
    destruct (union_new_ok sub m n Ty Tau R (fun i Hi => proj1 (HS i Hi)) Hm (s :: s' :: subs)) as (u & Eu & Hu); [exact Hls| |].
    { intros i x Hx. assert (Hi : i < m) by (rewrite <- Hls; apply nth_error_Some; congruence). destruct (nth_error Us i) as [T|] eqn:ET; [|apply nth_error_None in ET; unfold m in Hi; lia].
      destruct (Hch i T ET) as (s0 & E0 & _ & _ & H & _). assert (s0 = x) by congruence. subst. exact H. }
    rewrite Eu. cbn [bind]. exists (Some (inr u)). split; [reflexivity|]. cbn [reads]. exists (union_types m Ty), (union_tree m Tau). split.
    + apply explores_inr. split; [apply (union_proper m n Ty Tau (fun i Hi => proj2 (HS i Hi)) Hm)|].
      exists (union_state sub m n Tau R). split; [|exact Hu]. apply (union_simulates sub m n Ty Tau R (fun i Hi => proj1 (HS i Hi)) (fun i Hi => proj2 (HS i Hi)) Hm).
    + intros r Hr. rewrite (Hrows r Hr). rewrite <- (union_tree_rows m Tau Hm r []). cbn [in_tree]. split; [intros [H _]; exact H|]. intros H. split; [exact H|]. exists 0. split; [exact Hm|exact I].
Qed.
