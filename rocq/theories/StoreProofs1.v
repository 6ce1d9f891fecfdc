(* Tables written from rows, reordering a stored trie, closest orders. *)
From Coq Require Import List ZArith Bool Arith Lia Permutation Sorted.
From Verif Require Import ColumnModel ColumnSpec ScanModel ScanSpec TrieModel TrieSpec TrieScanSpec TrieProofs1 TrieProofs2 TrieProofs3 TrieProofs4 TrieProofs5 TrieProofs6 TrieProofs7 TrieProofs8 TrieProofs9 TrieProofs10 TrieProofs11 TrieProofs12 TrieProofs13 TrieProofs14 OpModel OpSpec OpProofs3 OpProofs8 ProjModel ProjSpec ProjProofs1 ProjProofs2 ProjProofs3 ProjProofs4 ProjProofs5 OpProps StoreModel StoreSpec.
From Verif Require PermModel PermProofs PermProps.
Import ListNotations.
Local Open Scope nat_scope.

(* ---------- tries written from rows ---------- *)
Lemma good_iff : forall n P Q tr, (forall r, length r = n -> (P r <-> Q r)) -> good_trie n P tr -> good_trie n Q tr.
Proof.
  intros n P Q tr H (H1 & H2 & H3). split; [exact H1|]. split; [exact (holds_iff n P Q tr H H2)|]. intros Hn. destruct (H3 Hn) as [H4 H5].
  split; [exact (presents_iff n P Q tr H H4)|exact (reads_iff _ _ _ _ _ _ H H5)].
Qed.
Lemma stores_good : forall n tr L, 0 < n -> stores n tr L -> good_trie n (fun r => In r L) tr.
Proof.
  intros n tr L Hn HS. pose proof (stores_presents n tr L Hn HS) as HP. split; [apply HP|]. split; [apply stores_holds; assumption|].
  intros _. split; [exact HP|]. cbn [reads]. exists (trie_types L), (trie_tree L). split; [apply generic_explores; assumption|]. intros r Hl.
  rewrite (in_tree_pre n L (st_well _ _ _ HS) (st_sorted _ _ _ HS) r []); [|exact Hl|intros ->; cbn in Hl; lia]. cbn [app].
  rewrite (pre_all n L r (st_well _ _ _ HS)). tauto.
Qed.
Lemma written_good : forall n rows, 0 < n -> Forall (fun r => length r = n) rows ->
  exists tr, write_rows n rows = Ok tr /\ good_trie n (fun r => In r rows) tr.
Proof.
  intros n rows Hn Hr. destruct (write_rows_stores n rows Hn Hr) as (tr & L & E & HS & Hp). exists tr. split; [exact E|].
  apply (good_iff n (fun r => In r L)); [|apply stores_good; assumption]. intros r _. split; apply Permutation_in; [exact Hp|apply Permutation_sym, Hp].
Qed.
Lemma reads_same : forall n P Q sc b b' s, 0 < n -> reads n P sc b (Some s) -> reads n Q sc b' (Some s) -> forall r, length r = n -> (P r <-> Q r).
Proof.
  intros n P Q sc b b' s Hn H1 H2 r Hl.
  destruct (collect_reads n P sc b s 0 Hn H1) as (e1 & o1 & E1 & (_ & T1) & _). destruct (collect_reads n Q sc b' s 0 Hn H2) as (e2 & o2 & E2 & (_ & T2) & _).
  specialize (E1 (max e1 e2) ltac:(lia)). specialize (E2 (max e1 e2) ltac:(lia)). rewrite E1 in E2. injection E2 as <-.
  assert (X : forall P0 : row -> Prop, (exists q : row, length q = 0 /\ P0 (r ++ q)) <-> P0 r).
  { intros P0. split; [intros ([|] & Hq & H); [rewrite app_nil_r in H; exact H|discriminate]|]. intros H. exists []. rewrite app_nil_r. auto. }
  specialize (T1 r). specialize (T2 r). rewrite X in T1, T2. rewrite Nat.sub_0_r in *. tauto.
Qed.
Lemma holds_good : forall n rows tr P, 0 < n -> Forall (fun r => length r = n) rows -> write_rows n rows = Ok tr -> holds n P tr -> good_trie n P tr.
Proof.
  intros n rows tr P Hn Hr E [HH _]. destruct (written_good n rows Hn Hr) as (tr' & E' & HG). rewrite E in E'. injection E' as <-.
  refine (good_iff n _ P tr _ HG). intros r Hl. destruct HG as (_ & _ & HG). destruct (HG Hn) as [(_ & T & (_ & T2) & _ & En & _) HR].
  unfold leaf in HH. destruct (Nat.eqb_spec (num_rows tr) 0) as [Z|Z].
  - rewrite Z in En. destruct T; [|discriminate]. cbn [reads] in HH. split.
    + intros H. destruct (proj2 (T2 r) (conj Hl H)).
    + intros H. destruct (HH r Hl H).
  - apply (reads_same n _ _ generic true true _ Hn HR HH r Hl).
Qed.
Lemma apply_written : forall sc fuel p s tr v, PermModel.as_vector (pj_choice p) = Some v -> v <> [] -> pj_arity p = length v ->
  apply_operation sc fuel p s = Ok tr -> exists rows, Forall (fun r => length r = length v) rows /\ write_rows (length v) rows = Ok tr.
Proof.
  intros sc fuel p s tr v Ev Hv Ha E. unfold apply_operation in E. destruct (_ <=? _); [discriminate|]. rewrite Ev in E. cbn [must bind] in E.
  destruct v as [|i v']; [congruence|]. set (v := i :: v') in *. destruct (row_collect _ _ _) as [rows| |]; try discriminate. cbn [bind] in E.
  destruct (existsb _ _); [discriminate|]. destruct (map_res (fun rc : row * nat => pick v (fst rc)) rows) as [qs| |] eqn:Eq; try discriminate. cbn [bind] in E.
  rewrite Ha in E. exists qs. split; [|exact E]. clear - Eq. revert qs Eq. induction rows as [|[r c] rows IH]; intros qs E; cbn [map_res fst] in E.
  - injection E as <-. constructor.
  - destruct (pick v r) as [q| |] eqn:Ep; try discriminate. cbn [bind] in E. destruct (map_res _ rows) as [qs'| |]; try discriminate. cbn [bind] in E. injection E as <-.
    constructor; [exact (pick_length v r q Ep)|]. apply IH. reflexivity.
Qed.

(* ---------- permutations of n columns ---------- *)
Lemma permutes_length : forall n p, permutes n p -> length (PermModel.idx_to_val p) <= n.
Proof.
  intros n p [B H]. apply PermProps.built_wf in B. destruct B as (Hv & _ & S & _).
  destruct (Nat.le_gt_cases (length (PermModel.idx_to_val p)) n) as [L|L]; [exact L|]. exfalso.
  destruct (length (PermModel.idx_to_val p)) as [|k] eqn:El; [lia|]. rewrite PermProofs.stripped_last in S. apply (S k El).
  specialize (H k ltac:(lia)). unfold PermModel.get in H. destruct (nth_error (PermModel.idx_to_val p) k) eqn:En; [congruence|]. apply nth_error_None in En. lia.
Qed.
Lemma permutes_of_length : forall n p, PermProps.built p -> length (PermModel.idx_to_val p) <= n -> permutes n p.
Proof.
  intros n p B L. split; [exact B|]. intros i Hi. unfold PermModel.get. rewrite (proj2 (nth_error_None _ _)) by lia. reflexivity.
Qed.
Lemma permutes_default : forall n, permutes n PermModel.perm_default.
Proof. intros n. apply permutes_of_length; [constructor|cbn; lia]. Qed.
Lemma permutes_chain : forall n p q, permutes n p -> permutes n q -> exists r, PermModel.chain p q = Some r /\ permutes n r /\ forall i, PermModel.get r i = PermModel.get q (PermModel.get p i).
Proof.
  intros n p q [B1 H1] [B2 H2]. destruct (PermProps.C16_chain p q B1 B2) as (r & E & G). exists r. split; [exact E|]. split; [|exact G].
  split; [eapply PermProps.b_chain; [exact B1|exact B2|exact E]|]. intros i Hi. rewrite G, H1, H2; auto.
Qed.
Lemma arranged_exists : forall n p (r : row), permutes n p -> length r = n -> exists s, length s = n /\ arranged p r s.
Proof.
  intros n p r Hp Hl. pose proof (permutes_length n p Hp) as L. destruct Hp as [B _]. pose proof (PermProps.built_wf p B) as W.
  exists (map (fun j => nth (PermModel.get (PermModel.invert p) j) r (Id32, 0%Z)) (seq 0 n)). split; [rewrite map_length, seq_length; reflexivity|].
  split; [rewrite map_length, seq_length; unfold row in *; lia|].
  intros i Hi. assert (Hg : PermModel.get p i < n) by (apply (PermProofs.get_lt p n i W L); unfold row in *; lia).
  rewrite nth_error_map, (nth_error_nth' (seq 0 n) 0) by (rewrite seq_length; exact Hg). rewrite seq_nth by exact Hg. cbn [plus option_map].
  destruct (PermProofs.invert_wfp p W) as [_ Hinv]. rewrite (proj1 (Hinv i)). symmetry. apply nth_error_nth'. exact Hi.
Qed.
(* every position is the image of one *)
Lemma permutes_onto : forall n p j, permutes n p -> j < n -> exists i, i < n /\ PermModel.get p i = j.
Proof.
  intros n p j Hp Hj. pose proof (permutes_length n p Hp) as L. destruct Hp as [B _]. pose proof (PermProps.built_wf p B) as W.
  exists (PermModel.get (PermModel.invert p) j). destruct (PermProofs.invert_wfp p W) as [_ Hinv]. specialize (Hinv j). split; [|apply Hinv].
  apply (PermProofs.get_lt p n _ W L). rewrite (proj2 Hinv). exact Hj.
Qed.
Lemma arranged_unique : forall n p (r s s' : row), permutes n p -> length r = n -> arranged p r s -> arranged p r s' -> s = s'.
Proof.
  intros n p r s s' Hp Hl [L1 H1] [L2 H2]. apply nth_list_ext. intros j. destruct (Nat.lt_ge_cases j n) as [Hj|Hj].
  - destruct (permutes_onto n p j Hp Hj) as (i & Hi & <-). rewrite H1, H2 by (unfold row in *; lia). reflexivity.
  - rewrite !(proj2 (nth_error_None _ _)) by (unfold row in *; lia). reflexivity.
Qed.
Lemma arranged_back : forall n p (s : row), permutes n p -> length s = n -> exists r, length r = n /\ arranged p r s.
Proof.
  intros n p s Hp Hl. assert (Hi : permutes n (PermModel.invert p)).
  { destruct Hp as [B H]. split; [constructor; exact B|]. intros i Hi. destruct (PermProps.C16_invert p B i) as [G _]. rewrite (H i Hi) in G. exact G. }
  destruct (arranged_exists n (PermModel.invert p) s Hi Hl) as (r & Lr & _ & Ha). exists r. split; [exact Lr|]. split; [unfold row in *; lia|].
  intros i Hlt. destruct Hp as [B H]. destruct (PermProps.C16_invert p B i) as [G _]. rewrite <- (Ha (PermModel.get p i)); [rewrite G; reflexivity|].
  rewrite Hl. pose proof (PermProps.built_wf p B) as W. apply (PermProofs.get_lt p n i W (permutes_length n p (conj B H))). unfold row in *. lia.
Qed.
Lemma arranged_inj : forall n p (r r' s : row), permutes n p -> length s = n -> arranged p r s -> arranged p r' s -> r = r'.
Proof.
  intros n p r r' s Hp Hl [L1 H1] [L2 H2]. apply nth_list_ext. intros i. destruct (Nat.lt_ge_cases i n) as [Hi|Hi].
  - rewrite <- H1, <- H2 by (unfold row in *; lia). reflexivity.
  - rewrite !(proj2 (nth_error_None _ _)) by (unfold row in *; lia). reflexivity.
Qed.
Lemma arranged_chain : forall n p q pq (r s t : row), permutes n p -> permutes n q -> (forall i, PermModel.get pq i = PermModel.get q (PermModel.get p i)) ->
  length r = n -> arranged p r s -> (arranged q s t <-> arranged pq r t).
Proof.
  intros n p q pq r s t Hp Hq G Hl [L1 H1]. pose proof (permutes_length n p Hp) as Lp. pose proof (PermProps.built_wf p (proj1 Hp)) as W. split.
  - intros [L2 H2]. split; [unfold row in *; lia|]. intros i Hi. rewrite G, H2, H1; auto. apply (proj2 (PermProofs.get_lt p (length s) i W ltac:(unfold row in *; lia))). unfold row in *; lia.
  - intros [L2 H2]. split; [unfold row in *; lia|]. intros j Hj. destruct (permutes_onto n p j Hp ltac:(unfold row in *; lia)) as (i & Hi & <-).
    rewrite <- G, H2, H1 by (unfold row in *; lia). reflexivity.
Qed.
Lemma rearranged_as : forall n p Q s, permutes n p -> length s = n -> (rearranged n p (arranged_as n p Q) s <-> Q s).
Proof.
  intros n p Q s Hp Hl. split.
  - intros (r & Lr & (s' & Ls' & HQ & H2) & H1). rewrite (arranged_unique n p r s s' Hp Lr H1 H2). exact HQ.
  - intros HQ. destruct (arranged_back n p s Hp Hl) as (r & Lr & Ha). exists r. split; [exact Lr|]. split; [|exact Ha]. exists s. auto.
Qed.
Lemma arranged_default : forall (n : nat) (r s : row), arranged PermModel.perm_default r s <-> s = r.
Proof.
  intros _ r s. assert (D : forall i, PermModel.get PermModel.perm_default i = i) by (intros [|i]; reflexivity). split.
  - intros [L H]. apply nth_list_ext. intros i. destruct (Nat.lt_ge_cases i (length r)) as [Hi|Hi]; [specialize (H i Hi); rewrite D in H; exact H|].
    rewrite !(proj2 (nth_error_None _ _)) by (unfold row in *; lia). reflexivity.
  - intros ->. split; [reflexivity|]. intros i _. rewrite D. reflexivity.
Qed.
Lemma arranged_ext : forall p q (r s : row), (forall i, PermModel.get p i = PermModel.get q i) -> arranged p r s -> arranged q r s.
Proof. intros p q r s G [L H]. split; [exact L|]. intros i Hi. rewrite <- G. apply H, Hi. Qed.

(* ---------- reordering a trie ---------- *)
Lemma reorder_good : forall source target n P tr, permutes n source -> permutes n target -> good_trie n (rearranged n source P) tr ->
  exists p, from_reordering source target n = Ok p /\
    (PermModel.choice_is_identity (pj_choice p) = true -> good_trie n (rearranged n target P) tr) /\
    (PermModel.choice_is_identity (pj_choice p) = false ->
       exists enough tr', (forall fuel, enough <= fuel -> apply_operation generic fuel p (partial_iterator tr) = Ok tr') /\ good_trie n (rearranged n target P) tr').
Proof.
  intros source target n P tr Hs Ht HG. pose proof (PermProps.built_wf _ (proj1 Hs)) as Ws. pose proof (PermProps.built_wf _ (proj1 Ht)) as Wt.
  destruct (from_reordering_ok source target n Ws Wt (permutes_length _ _ Hs) (permutes_length _ _ Ht)) as (v & p & Ep & HP & Hlv & Hget & Hb).
  exists p. split; [exact Ep|].
  assert (Htr : forall r s t, length r = n -> length t = n -> arranged source r s -> (map Some t = map (nth_error s) v <-> arranged target r t)).
  { intros r s t Hlr Hlt (Hls & Ha). split.
    - intros E'. split; [unfold row in *; lia|]. intros i Hi. rewrite Hlr in Hi. assert (Eg : nth_error (map Some t) (PermModel.get target i) = nth_error (map (nth_error s) v) (PermModel.get target i)) by (rewrite E'; reflexivity).
      rewrite !nth_error_map, (Hget i Hi) in Eg. cbn [option_map] in Eg. rewrite (Ha i) in Eg by (unfold row in *; lia).
      destruct (nth_error t (PermModel.get target i)) as [x|]; cbn in Eg; congruence.
    - intros (_ & Hta). apply nth_list_ext. intros j. rewrite !nth_error_map. destruct (Nat.lt_ge_cases j n) as [Hj|Hj].
      + destruct (permutes_onto n target j Ht Hj) as (i & Hi & <-). rewrite (Hget i Hi). cbn [option_map]. rewrite (Ha i), (Hta i) by (unfold row in *; lia).
        destruct (nth_error r i) eqn:Er; [reflexivity|]. apply nth_error_None in Er. unfold row in *. lia.
      + rewrite (proj2 (nth_error_None t j)), (proj2 (nth_error_None v j)) by (unfold row in *; lia). reflexivity. }
  assert (Hproj : forall t, length t = n -> (projected n (rearranged n source P) v t <-> rearranged n target P t)).
  { intros t Hlt. split.
    - intros (s & Hls & (r & Hlr & HPr & Hr) & E'). exists r. split; [exact Hlr|]. split; [exact HPr|]. apply (Htr r s t Hlr Hlt Hr), E'.
    - intros (r & Hlr & HPr & Hta). destruct (arranged_exists n source r Hs Hlr) as (s & Hls & Hr). exists s. split; [exact Hls|].
      split; [exists r; auto|]. apply (Htr r s t Hlr Hlt Hr), Hta. }
  split.
  - intros Hid. apply (pr_identity _ _ _ HP) in Hid. refine (good_iff n _ _ tr _ HG). intros t Hlt. rewrite <- (Hproj t Hlt). unfold projected. rewrite Hid. split.
    + intros Ht'. exists t. split; [exact Hlt|]. split; [exact Ht'|]. rewrite <- Hlt. symmetry. apply map_nth_seq.
    + intros (s & Hls & Hs' & E). rewrite <- Hls, map_nth_seq in E. assert (t = s).
      { apply nth_list_ext. intros i. apply (f_equal (fun l => nth_error l i)) in E. rewrite !nth_error_map in E. destruct (nth_error t i), (nth_error s i); cbn in E; congruence. }
      subst. exact Hs'.
  - intros Hid. assert (Hn : 0 < n).
    { destruct n; [|lia]. exfalso. destruct v; [|discriminate]. assert (X : PermModel.choice_is_identity (pj_choice p) = true) by (apply (pr_identity _ _ _ HP); reflexivity). congruence. }
    destruct HG as (_ & _ & HG). destruct (HG Hn) as [_ HR].
    destruct (apply_operation_holds n _ generic true (partial_iterator tr) p v Hn HR HP Hb) as (en & tr' & E & HH). exists en, tr'. split; [exact E|].
    rewrite Hlv in HH. destruct (apply_written generic en p (partial_iterator tr) tr' v) as (rows & Hr & Ew).
    { apply (pr_vector _ _ _ HP). } { destruct v; [cbn in Hlv; lia|discriminate]. } { apply (pr_arity _ _ _ HP). } { apply E. lia. }
    rewrite Hlv in Hr, Ew. refine (holds_good n rows tr' _ Hn Hr Ew _). exact (holds_iff n _ _ tr' Hproj HH).
Qed.
