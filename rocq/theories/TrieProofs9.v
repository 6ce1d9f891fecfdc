(* A trie explores exactly its rows. *)
From Coq Require Import List ZArith Bool Lia Arith Permutation Sorted.
From Verif Require Import ColumnModel ColumnSpec ScanModel ScanSpec TrieModel TrieSpec TrieScanSpec TrieProofs1 TrieProofs2 TrieProofs3 TrieProofs4 TrieProofs5 TrieProofs6 TrieProofs7 TrieProofs8.
Import ListNotations.
Local Open Scope nat_scope.

Lemma tree_in : forall n L p t z, length p < n -> well n L -> StronglySorted row_le L ->
  (In z (trie_tree L p t) <-> In (p ++ [(t, z)]) (pre (S (length p)) L)).
Proof.
  intros n L p t z Hp W Hs. unfold trie_tree. rewrite <- (groups_flat n (length p) L Hp W). split.
  - unfold kids. destruct (List.find _ (groups (length p) L)) as [[q vs]|] eqn:Ef; [|intros []]. apply find_some in Ef. destruct Ef as [Hin Hq].
    cbn [fst] in Hq. destruct (row_eq_dec q p) as [->|]; [|discriminate]. cbn [snd]. intros Hz. unfold tvals in Hz. apply in_map_iff in Hz.
    destruct Hz as ([s y] & <- & Hf). apply filter_In in Hf. destruct Hf as [Hf Ht]. cbn [fst snd] in *. destruct (stype_eqb_spec s t) as [->|]; [|discriminate].
    apply in_concat. exists (map (fun v => p ++ [v]) vs). split; [apply in_map_iff; exists (p, vs); auto|]. apply in_map_iff. exists (t, y). auto.
  - intros Hin. apply in_concat in Hin. destruct Hin as (l & Hl & Hin). apply in_map_iff in Hl. destruct Hl as ([q vs] & <- & Hg). cbn [fst snd] in Hin.
    apply in_map_iff in Hin. destruct Hin as (v & E & Hv). apply app_inj_tail in E. destruct E as [-> ->].
    apply in_split in Hg. destruct Hg as (g1 & g2 & Eg). rewrite (kids_group n (length p) L g1 p vs g2 ltac:(lia) W Hs Eg).
    unfold tvals. apply in_map_iff. exists (t, z). split; [reflexivity|]. apply filter_In. split; [exact Hv|]. cbn. apply stype_eqb_refl.
Qed.

Lemma in_tree_pre : forall n L, well n L -> StronglySorted row_le L -> forall r p, length p + length r = n -> r <> [] ->
  (in_tree (trie_tree L) p r <-> In (p ++ r) (pre n L)).
Proof.
  intros n L W Hs. induction r as [|[t z] r IH]; intros p Hl Hne; [congruence|]. cbn [in_tree fst snd length] in *.
  rewrite (tree_in n L p t z ltac:(lia) W Hs). destruct r as [|w r].
  - cbn [in_tree]. cbn in Hl. replace (S (length p)) with n by lia. tauto.
  - rewrite IH; [|rewrite app_length; cbn [length] in *; lia|discriminate]. rewrite <- app_assoc. cbn [app]. split; [tauto|]. intros H. split; [|exact H].
    apply pre_in in H. destruct H as (s & Hin & E). apply pre_in. exists s. split; [exact Hin|].
    assert (E2 : firstn (S (length p)) (firstn n s) = firstn (S (length p)) (p ++ (t, z) :: w :: r)) by (rewrite E; reflexivity).
    rewrite firstn_firstn in E2. replace (Nat.min (S (length p)) n) with (S (length p)) in E2 by (cbn [length] in Hl; lia). rewrite E2.
    rewrite firstn_app. rewrite firstn_all2 by lia. replace (S (length p) - length p) with 1 by lia. reflexivity.
Qed.

Lemma pre_all : forall n L r, well n L -> (In r (pre n L) <-> In r L).
Proof.
  intros n L r W. rewrite pre_in. split.
  - intros (s & Hs & <-). pose proof (proj1 (Forall_forall _ _) W s Hs) as H. cbn in H. rewrite firstn_all2 by (unfold row in *; lia). exact Hs.
  - intros H. exists r. split; [exact H|]. pose proof (proj1 (Forall_forall _ _) W r H) as Hl. cbn in Hl. apply firstn_all2. unfold row in *. lia.
Qed.

Lemma row_lt_snoc : forall q v w, row_lt (q ++ [v]) (q ++ [w]) -> value_lt v w.
Proof. intros q v w. induction q as [|x q IH]; cbn [app row_lt]; [tauto|]. intros [H|[_ H]]; [destruct (value_lt_irrefl _ H)|apply IH, H]. Qed.
Lemma kids_sorted : forall n L p t, length p < n -> well n L -> StronglySorted row_le L -> increasing (trie_tree L p t).
Proof.
  intros n L p t Hp W Hs. unfold trie_tree, kids. destruct (List.find _ (groups (length p) L)) as [[q vs]|] eqn:Ef; [|constructor]. cbn [snd].
  apply find_some in Ef. destruct Ef as [Hin _]. apply in_split in Hin. destruct Hin as (g1 & g2 & E).
  pose proof (pre_sorted (S (length p)) L Hs) as Hsort. rewrite <- (groups_flat n (length p) L Hp W), E, flat_app in Hsort.
  apply sorted_app in Hsort. destruct Hsort as (_ & Hsort & _). change (flat ((q, vs) :: g2)) with (map (fun v => q ++ [v] : row) vs ++ flat g2) in Hsort.
  apply sorted_app in Hsort. destruct Hsort as (Hsort & _ & _). clear E. unfold increasing, tvals.
  induction vs as [|[s x] vs IH]; [constructor|]. cbn [map] in Hsort. inversion Hsort as [|? ? Hs' Hf]; subst. cbn [filter fst].
  destruct (stype_eqb_spec s t) as [->|]; [|apply IH, Hs']. cbn [map snd]. constructor; [apply IH, Hs'|].
  apply Forall_forall. intros y Hy. apply in_map_iff in Hy. destruct Hy as ([s' y'] & <- & Hin). apply filter_In in Hin. destruct Hin as [Hin Ht].
  cbn [fst snd] in *. destruct (stype_eqb_spec s' t) as [->|]; [|discriminate]. 
  assert (H : row_lt (q ++ [(t, x)]) (q ++ [(t, y')])) by (apply (proj1 (Forall_forall _ _) Hf); apply in_map_iff; exists (t, y'); auto).
  apply row_lt_snoc in H. destruct H as [H|[_ H]]; cbn in H; [lia|exact H].
Qed.

Definition trie_types (L : list row) (k : nat) : list stype :=
  filter (fun t => negb (length (tvals t (values (groups k L))) =? 0)) all_types.

Lemma kids_values : forall L p v, In v (kids L p) -> In v (values (groups (length p) L)).
Proof.
  intros L p v H. unfold kids in H. destruct (List.find _ (groups (length p) L)) as [g|] eqn:Ef; [|destruct H]. apply find_some in Ef. destruct Ef as [Hin _].
  apply in_concat. exists (snd g). split; [apply in_map, Hin|exact H].
Qed.
Lemma all_types_in : forall t, In t all_types.
Proof. intros []; cbn; tauto. Qed.
Lemma filter_sorted : forall A (R : A -> A -> Prop) f l, StronglySorted R l -> StronglySorted R (filter f l).
Proof.
  intros A R f. induction l as [|x l IH]; intros H; [constructor|]. inversion H as [|? ? Hs Hf]; subst. cbn. destruct (f x); [|apply IH, Hs].
  constructor; [apply IH, Hs|]. apply Forall_forall. intros y Hy. apply filter_In in Hy. apply (proj1 (Forall_forall _ _) Hf). tauto.
Qed.
Lemma all_types_sorted : StronglySorted (fun s t => order s < order t) all_types.
Proof. unfold all_types. repeat (constructor; [|repeat constructor]). constructor. Qed.

Theorem trie_proper : forall n L, well n L -> StronglySorted row_le L -> proper n (trie_types L) (trie_tree L).
Proof.
  intros n L W Hs. constructor.
  - intros p t Hp. apply (kids_sorted n); assumption.
  - intros p t Hp Hne. unfold trie_types. apply filter_In. split; [apply all_types_in|]. apply negb_true_iff, Nat.eqb_neq. intros H0.
    apply Hne. unfold trie_tree. destruct (tvals t (kids L p)) as [|z zs] eqn:Ez; [reflexivity|]. exfalso.
    assert (Hz : In z (tvals t (values (groups (length p) L)))).
    { assert (Hz : In z (tvals t (kids L p))) by (rewrite Ez; left; reflexivity). unfold tvals in *. apply in_map_iff in Hz. destruct Hz as (v & <- & Hv).
      apply filter_In in Hv. apply in_map. apply filter_In. split; [apply kids_values|]; tauto. }
    apply length_zero_iff_nil in H0. rewrite H0 in Hz. destruct Hz.
  - intros k _. apply filter_sorted, all_types_sorted.
Qed.

Lemma filter_ext_in' : forall A (f g : A -> bool) l, (forall x, f x = g x) -> filter f l = filter g l.
Proof. intros A f g l H. induction l as [|x l IH]; [reflexivity|]. cbn. rewrite H, IH. reflexivity. Qed.

Theorem generic_simulates : forall n tr L, 0 < n -> stores n tr L -> simulates n (trie_types L) (trie_tree L) generic true (grel n tr L).
Proof.
  intros n tr L Hn HS. constructor.
  - intros s fs G. cbn [generic ts_arity]. rewrite (gr_trie _ _ _ _ _ G). apply (st_arity _ _ _ HS).
  - intros s fs k G Hk. cbn [generic ts_types]. unfold g_types. rewrite (gr_trie _ _ _ _ _ G).
    destruct (nth_lt _ (tr_columns tr) k) as [c Hc]; [rewrite (st_arity _ _ _ HS); exact Hk|]. rewrite Hc. unfold trie_types. apply filter_ext_in'.
    intros t. rewrite (lo_data _ _ _ (st_layers _ _ _ HS k c Hc)). reflexivity.
  - intros s fs G. split; [apply (gr_le _ _ _ _ _ G)|]. cbn [generic ts_layer]. rewrite (gr_path _ _ _ _ _ G). destruct fs; cbn; rewrite ?map_length; reflexivity.
  - intros s fs f G. eapply grel_up; eassumption.
  - intros s fs t G Hv Hl. eapply grel_down; eassumption.
  - intros q s fs t c l G. exists 0. destruct (grel_ask n tr L Hn HS q s fs t c l G) as (s' & E & G'). exists s'. split; [|exact G'].
    intros fuel _. destruct q; exact E.
  - intros s fs t c l gs G _. cbn [generic ts_current].
    assert (Hk : nth_error (fs ++ (t, c, l) :: gs) (length fs) = Some (t, c, l)) by (rewrite nth_error_app2, Nat.sub_diag by lia; reflexivity).
    pose proof (gr_le _ _ _ _ _ G) as Hl. rewrite app_length in Hl. cbn in Hl.
    destruct (gr_frames _ _ _ _ _ G _ _ Hk) as (f & W1 & vs & W3 & Hf & Hnode & Hkids & Hat). cbn [f_type f_current fst snd] in Hat.
    rewrite (get_ok n tr L HS s (length fs) f t (gr_trie _ _ _ _ _ G) ltac:(lia) Hf). cbn [bind fst snd]. f_equal.
    rewrite (node_data L _ _ _ _ _ t Hnode). eapply value_frame, Hat.
Qed.

Lemma initial_rel : forall n tr L, stores n tr L -> grel n tr L (partial_iterator tr) [].
Proof.
  intros n tr L HS. constructor; cbn [partial_iterator g_trie g_path g_scans].
  - reflexivity.
  - reflexivity.
  - rewrite map_length. apply (st_arity _ _ _ HS).
  - cbn. lia.
  - intros f t Hf. cbn [partial_iterator g_scans] in Hf. apply nth_map_inv in Hf. destruct Hf as (c & Hc & <-). cbn [ca cb]. split; [reflexivity|].
    rewrite (lo_data _ _ _ (st_layers _ _ _ HS 0 c Hc)). reflexivity.
  - intros [|k] fr H; discriminate.
Qed.
Theorem generic_explores : forall n tr L, 0 < n -> stores n tr L -> explores n (trie_types L) (trie_tree L) generic true (partial_iterator tr).
Proof.
  intros n tr L Hn HS. split; [apply trie_proper; apply HS|]. exists (grel n tr L). split; [apply generic_simulates; assumption|]. apply initial_rel, HS.
Qed.

(* writing rows *)
Theorem write_rows_stores : forall n rows, 0 < n -> Forall (fun r => length r = n) rows ->
  exists tr L, write_rows n rows = Ok tr /\ stores n tr L /\ Permutation L rows.
Proof.
  intros n rows Hn Hr. destruct (buffer_ok n rows Hn Hr) as (b & sb & L & E1 & E2 & Hp & Hs & Hc & Hcol).
  assert (W : well n L). { apply Forall_forall. intros r Hin. apply (proj1 (Forall_forall _ _) Hr). eapply Permutation_in; eassumption. }
  unfold write_rows. rewrite E1. cbn [bind]. rewrite E2. cbn [bind]. unfold from_tuple_buffer. rewrite Hc. destruct L as [|r0 rest].
  - assert (Hlay : forall m k types_, k + m = n -> (0 < k -> types_ <> []) -> exists cols, fill_columns sb [] types_ k m = Ok cols /\ length cols = m /\
      forall j c, nth_error cols j = Some c -> forall s, ic_data (c s) = []).
    { induction m as [|m IH]; intros k types_ Hk Ht; cbn [fill_columns].
      - exists []. split; [reflexivity|]. split; [reflexivity|]. intros [|j] c H; discriminate.
      - rewrite (Hcol k) by lia. cbn [bind column map fill_column].
        set (ty := if k =? column_number sb - 1 then [] else [] ++ [Id32]).
        assert (Hm : exists m0, (if 0 <? k then match rev types_ with t :: _ => Ok (matrix_finish t matrix_new) | [] => Panicked end else Ok (commit_value matrix_new)) = Ok m0 /\
          forall s, ic_data (matrix_finalize m0 s) = []).
        { destruct (Nat.ltb_spec 0 k) as [H|H].
          - destruct (rev types_) as [|t l] eqn:Er; [exfalso; apply (Ht H); rewrite <- (rev_involutive types_), Er; reflexivity|]. eexists. split; [reflexivity|]. intros s. reflexivity.
          - eexists. split; [reflexivity|]. intros s. reflexivity. }
        destruct Hm as (m0 & -> & Hm0). cbn [bind].
        destruct m as [|m].
        + cbn [fill_columns bind]. eexists. split; [reflexivity|]. split; [reflexivity|]. intros [|[|j]] c H; cbn in H; try discriminate. injection H as <-. exact Hm0.
        + destruct (IH (k + 1) ty ltac:(lia)) as (cols & E & Hl & Hd).
          { intros _. unfold ty. destruct (Nat.eqb_spec k (column_number sb - 1)); [lia|discriminate]. }
          rewrite E. cbn [bind]. eexists. split; [reflexivity|]. split; [cbn; lia|]. intros [|j] c H; cbn in H; [injection H as <-; exact Hm0|eapply Hd, H]. }
    destruct (Hlay n 0 [] eq_refl ltac:(lia)) as (cols & E & Hl & Hd). rewrite E. cbn [bind]. eexists. exists []. split; [reflexivity|]. split; [|exact Hp].
    constructor; cbn [tr_columns]; [exact Hl|exact W|exact Hs|]. intros k c Hk. constructor.
    + intros s. rewrite (Hd k c Hk s). reflexivity.
    + intros s g1 p vs g2 _ H. destruct g1; discriminate.
  - pose proof (Forall_inv W) as H0. pose proof (Forall_inv_tail W) as Wr. cbn beta in H0.
    rewrite (fill_columns_ok n sb r0 rest H0 Wr Hc Hcol n 0 [] [] eq_refl); [|symmetry; apply breaks_0|left; reflexivity].
    cbn [bind]. eexists. exists (r0 :: rest). split; [reflexivity|]. split; [|exact Hp]. constructor; cbn [tr_columns].
    + rewrite map_length, seq_length. reflexivity.
    + exact W.
    + exact Hs.
    + intros k c Hk. apply nth_map_inv in Hk. destruct Hk as (j & Hj & <-).
      assert (j = k). { pose proof (nth_Some_lt _ _ _ _ Hj) as Hlt. rewrite seq_length in Hlt. rewrite (nth_error_nth' _ 0) in Hj by (rewrite seq_length; exact Hlt). rewrite seq_nth in Hj by exact Hlt. injection Hj as <-. reflexivity. }
      subst j. apply layer_column_ok.
Qed.
