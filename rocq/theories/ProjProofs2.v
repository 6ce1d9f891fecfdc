(* What stored tables hold; projections. *)
From Coq Require Import List ZArith Bool Lia Arith Permutation Sorted.
From Verif Require Import ColumnModel ColumnSpec ScanModel ScanSpec TrieModel TrieSpec TrieScanSpec TrieProofs1 TrieProofs2 TrieProofs3 TrieProofs4 TrieProofs5 TrieProofs6 TrieProofs7 TrieProofs8 TrieProofs9 TrieProofs10 TrieProofs11 TrieProofs12 TrieProofs13 TrieProofs14 OpModel OpSpec OpProofs3 OpProofs8 ProjModel ProjSpec ProjProofs1.
From Verif Require PermModel PermProofs PermProofs2.
Import ListNotations.
Local Open Scope nat_scope.

Lemma holds_iff : forall n P Q tr, (forall r, length r = n -> (P r <-> Q r)) -> holds n P tr -> holds n Q tr.
Proof.
  intros n P Q tr H (H1 & H2 & H3). split; [exact (reads_iff _ _ _ _ _ _ H H1)|]. split; [|intros HQ; apply H3; intros r Hl HP; apply (HQ r Hl), (H r Hl), HP].
  intros Hn (r & Hl & Hr). apply (presents_iff n P Q tr H), H2; [exact Hn|]. exists r. split; [exact Hl|apply H; assumption].
Qed.
Lemma stores_holds : forall n tr L, 0 < n -> stores n tr L -> holds n (fun r => In r L) tr.
Proof.
  intros n tr L Hn HS. pose proof (stores_presents n tr L Hn HS) as HP. split; [|split; [intros _ _; exact HP|]].
  2:{ intros HL. destruct HP as (_ & T & [_ T2] & _ & En & _). rewrite En. destruct T as [|r T]; [reflexivity|]. exfalso. destruct (proj1 (T2 r) (or_introl eq_refl)) as [Hl Hr]. apply (HL r Hl Hr). }
  unfold leaf. destruct (Nat.eqb_spec (num_rows tr) 0) as [E|E].
  - cbn [reads]. intros r Hl Hr. destruct HP as (_ & T & [_ T2] & _ & En & _). rewrite E in En. destruct T; [|discriminate]. apply (proj2 (T2 r)). auto.
  - cbn [reads]. exists (trie_types L), (trie_tree L). split; [apply generic_explores; assumption|]. intros r Hl.
    rewrite (in_tree_pre n L (st_well _ _ _ HS) (st_sorted _ _ _ HS) r []); [|exact Hl|intros ->; cbn in Hl; lia]. cbn [app].
    rewrite (pre_all n L r (st_well _ _ _ HS)). tauto.
Qed.
Lemma written_holds : forall n rows, 0 < n -> Forall (fun r => length r = n) rows -> exists tr, write_rows n rows = Ok tr /\ holds n (fun r => In r rows) tr.
Proof.
  intros n rows Hn Hr. destruct (write_rows_stores n rows Hn Hr) as (tr & L & E & HS & Hp). exists tr. split; [exact E|].
  apply (holds_iff n (fun r => In r L)); [|apply stores_holds; assumption]. intros r _. split; apply Permutation_in; [exact Hp|apply Permutation_sym, Hp].
Qed.
Lemma zero_explores : forall (sc : triescan) s strict, ts_arity sc s = 0 -> ts_layer sc s = None -> explores 0 (fun _ => []) (fun _ _ => []) sc strict s.
Proof.
  intros sc s strict Ha Hl. split; [split; intros; lia|]. exists (fun s' fs => s' = s /\ fs = []). split; [|auto]. split.
  - intros s' fs [-> ->]. exact Ha.
  - intros s' fs k _ Hk. lia.
  - intros s' fs [-> ->]. split; [cbn; lia|exact Hl].
  - intros s' fs f [_ E]. destruct fs; discriminate.
  - intros s' fs t [_ ->] _ H. cbn in H. lia.
  - intros q s' fs t c l [_ E]. destruct fs; discriminate.
  - intros s' fs t c l gs [_ E]. destruct fs; discriminate.
Qed.
Lemma zero_holds : forall b, holds 0 (fun _ => b = true) (zero_arity b).
Proof.
  intros [|]; (split; [|split; [intros H; lia|]]); try reflexivity; try (intros H; exfalso; apply (H [] eq_refl); reflexivity).
  - cbn. exists (fun _ => []), (fun _ _ => []). split; [apply zero_explores; reflexivity|]. intros r Hl. destruct r; [cbn; tauto|discriminate].
  - cbn. intros r _ H. discriminate.
Qed.
Lemma empty_holds : forall n P m, (forall r, length r = n -> ~ P r) -> holds n P (trie_empty m).
Proof.
  intros n P m H. assert (E : num_rows (trie_empty m) = 0).
  { unfold num_rows, trie_empty. cbn [tr_columns tr_empty_row]. destruct (rev (repeat (matrix_finalize matrix_new) m)) as [|c l] eqn:E; [reflexivity|].
    assert (Hc : In c (repeat (matrix_finalize matrix_new) m)) by (apply in_rev; rewrite E; left; reflexivity). apply repeat_spec in Hc. subst c. reflexivity. }
  split; [|split; [|intros _; exact E]].
  - unfold leaf. rewrite E. exact H.
  - intros _ (r & Hl & Hr). exfalso. apply (H r Hl Hr).
Qed.

(* ---------- rows read by a row scan ---------- *)
Lemma collect_reads : forall n P (sc : triescan) strict s e, e < n -> reads n P sc strict (Some s) ->
  exists enough out, (forall fuel, enough <= fuel -> row_collect sc fuel (rowscan_new sc s e e) = Ok out) /\
    table_of (n - e) (fun p => exists q, length q = e /\ P (p ++ q)) (map fst out) /\ stores (n - e) (build_rows (n - e) out) (map fst out).
Proof.
  intros n P sc strict s e He (types & tau & (Hp & R & Hsim & HR) & Hrows).
  destruct (collect_rows n types tau Hp sc strict R Hsim e He s HR) as (en & out & E & [T1 T2] & Hlk).
  exists en, out. split; [exact E|]. split.
  - split; [exact T1|]. intros r. rewrite T2. assert (Hd : forall A B C : Prop, (A -> (B <-> C)) -> (A /\ B <-> A /\ C)) by tauto. apply Hd.
    intros Hl. split; intros (q & Hq & H); exists q; (split; [exact Hq|]); apply Hrows; auto; rewrite app_length; unfold row in *; lia.
  - apply build_rows_stores; [lia| |exact T1|exact Hlk]. apply Forall_forall. intros r Hr. apply T2 in Hr. apply Hr.
Qed.
