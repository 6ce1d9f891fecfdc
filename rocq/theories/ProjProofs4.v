(* The operations project/reorder and the dependent tables. *)
From Coq Require Import List ZArith Bool Lia Arith Permutation Sorted.
From Verif Require Import ColumnModel ColumnSpec ScanModel ScanSpec TrieModel TrieSpec TrieScanSpec TrieProofs8 TrieProofs13 TrieProofs14 OpModel OpSpec OpProofs3 OpProofs8 ProjModel ProjSpec ProjProofs1 ProjProofs2 ProjProofs3.
From Verif Require PermModel PermProofs PermProofs2.
Import ListNotations.
Local Open Scope nat_scope.

Lemma position_same : forall x l, PermModel.position Nat.eqb x l = position_of x l.
Proof. intros x. induction l as [|y l IH]; [reflexivity|]. cbn. rewrite IH. reflexivity. Qed.

(* p picks the columns v of tables with n columns *)
Record projects (n : nat) (v : list nat) (p : projector) : Prop := {
  pr_valid : choice_valid (pj_choice p) = true;
  pr_keys : NoDup (map fst (PermModel.ch_map (pj_choice p)));
  pr_vector : PermModel.as_vector (pj_choice p) = Some v;
  pr_arity : pj_arity p = length v;
  pr_last : forall i, In i v -> i <= pj_last p;
  pr_bound : 0 < n -> pj_last p < n;
  pr_identity : PermModel.choice_is_identity (pj_choice p) = true <-> v = seq 0 n }.

Lemma last_spec : forall input output acc, incl output input ->
  let last := fold_left (fun last x => match position_of x input with Some p => if last <? p then p else last | None => last end) output acc in
  acc <= last /\ (forall x p, In x output -> position_of x input = Some p -> p <= last) /\ (acc < length input -> last < length input).
Proof.
  intros input. induction output as [|x output IH]; intros acc Hi; cbn [fold_left].
  - split; [lia|]. split; [intros x p []|auto].
  - destruct (position_In x input) as [p Ep]; [apply Hi; left; reflexivity|]. rewrite Ep.
    destruct (IH (if acc <? p then p else acc)) as (H1 & H2 & H3); [intros y Hy; apply Hi; right; exact Hy|].
    assert (Hp : p < length input) by (apply nth_error_Some; rewrite (position_lt _ _ _ Ep); congruence).
    destruct (Nat.ltb_spec acc p) as [H|H]; (split; [lia|split]); [| |..].
    + intros y q [<-|Hy] Eq; [assert (q = p) by congruence; lia|apply (H2 y q Hy Eq)].
    + intros _. apply H3. exact Hp.
    + intros y q [<-|Hy] Eq; [assert (q = p) by congruence; lia|apply (H2 y q Hy Eq)].
    + exact H3.
Qed.

Theorem project_new_ok : forall output input, NoDup output -> incl output input -> NoDup input ->
  exists v p, project_new output input = Ok p /\ projects (length input) v p /\
    (forall r, length r = length input -> map (nth_error r) v = map (lookup input r) output) /\ length v = length output /\ (forall i, In i v -> i < length input).
Proof.
  intros output input Hn Hi Hnin. assert (Hle : length output <= length input) by (apply NoDup_incl_length; assumption).
  unfold project_new. destruct (Nat.ltb_spec (length input) (length output)); [lia|].
  destruct (PermProofs2.choice_loop_spec nat Nat.eqb Nat.eqb_eq input output 0 [] Hi Hn) as (m & E & Hl & Hm0); [intros ? ? _ _ []|].
  assert (Hm : forall j, nth_error m j = match @nth_error marker output j with Some t => option_map (fun i => (i, j)) (position_of t input) | None => None end).
  { intros j. refine (eq_trans (Hm0 j) _). change (@nth_error nat output j) with (@nth_error marker output j). destruct (@nth_error marker output j); [rewrite position_same|]; reflexivity. }
  clear Hm0. change (length m = @length marker output) in Hl.
  unfold PermModel.choice_from_transformation. rewrite E. cbn [app option_map must bind].
  assert (Hpos : forall j t, nth_error output j = Some t -> exists i, nth_error m j = Some (i, j) /\ position_of t input = Some i /\ i < length input).
  { intros j t Ht. rewrite Hm, Ht. destruct (position_In t input) as [i Ei]; [apply Hi; eapply nth_error_In; eauto|].
    exists i. rewrite Ei. cbn. repeat split; auto. apply nth_error_Some. rewrite (position_lt _ _ _ Ei). congruence. }
  assert (Hin : forall i x, In (i, x) m -> exists t, nth_error output x = Some t /\ position_of t input = Some i /\ nth_error m x = Some (i, x) /\ i < length input).
  { intros i x H'. apply In_nth_error in H'. destruct H' as (j & Hj). destruct (nth_error output j) as [t|] eqn:Et.
    - destruct (Hpos j t Et) as (i' & E' & Es & Hb). rewrite Hj in E'. injection E' as <- <-. eauto 6.
    - rewrite Hm, Et in Hj. discriminate. }
  assert (Hsnd : forall j, nth_error (map snd m) j = if j <? length m then Some j else None).
  { intros j. rewrite nth_error_map, Hl. destruct (Nat.ltb_spec j (length output)) as [H'|H'].
    - destruct (nth_error output j) as [t|] eqn:Et; [|apply nth_error_None in Et; lia].
      destruct (Hpos j t Et) as (i & -> & _). reflexivity.
    - rewrite Hm. now rewrite (proj2 (nth_error_None output j)). }
  assert (Hns : NoDup (map snd m)) by (apply PermProofs2.map_snd_seq; auto).
  assert (Hnf : NoDup (map fst m)).
  { apply NoDup_nth_error. intros j k Hj Ejk. rewrite map_length in Hj. rewrite !nth_error_map in Ejk.
    destruct (nth_error m j) as [[i x]|] eqn:Ej; [|apply nth_error_None in Ej; lia]. destruct (nth_error m k) as [[i' x']|] eqn:Ek; [|discriminate].
    cbn in Ejk. injection Ejk as <-. destruct (nth_error output j) as [t|] eqn:Et; [|apply nth_error_None in Et; lia].
    destruct (Hpos j t Et) as (i1 & E1 & P1 & _). assert (Hk : k < length output) by (rewrite <- Hl; apply nth_error_Some; congruence).
    destruct (nth_error output k) as [t'|] eqn:Et'; [|apply nth_error_None in Et'; lia]. destruct (Hpos k t' Et') as (i2 & E2 & P2 & _).
    rewrite Ej in E1. injection E1 as E1 _. rewrite Ek in E2. injection E2 as E2 _. subst i1 i2. apply position_lt in P1, P2.
    assert (t = t') by congruence. subst t'. rewrite NoDup_nth_error in Hn. apply Hn; [apply nth_error_Some; congruence|congruence]. }
  set (c := PermModel.mkChoice m (length input)).
  assert (Hv : choice_valid c = true).
  { apply valid_spec. split; [exact Hns|]. intros i x H'. destruct (Hin i x H') as (t & Ht & _ & _ & Hb). cbn [PermModel.ch_map c PermModel.ch_domain].
    split; [|exact Hb]. rewrite Hl. apply nth_error_Some. congruence. }
  change (PermModel.mkChoice m (@length nat input)) with c.
  unfold checked. rewrite Hv. cbn [bind]. destruct (valid_vector c Hv) as (v & Ev & Hlv & V1 & V2). cbn [c PermModel.ch_map] in *.
  destruct (last_spec input output 0 Hi) as (L1 & L2 & L3). exists v.
  assert (Hvj : forall j i, nth_error v j = Some i -> exists t, nth_error output j = Some t /\ position_of t input = Some i).
  { intros j i Hj. assert (Hj' : j < length output) by (rewrite <- Hl, <- Hlv; apply nth_error_Some; congruence).
    destruct (nth_error output j) as [t|] eqn:Et; [|apply nth_error_None in Et; lia]. destruct (Hpos j t Et) as (i' & Ei & Pi & _).
    rewrite (V1 i' j (nth_error_In _ _ Ei)) in Hj. injection Hj as ->. eauto. }
  assert (Hvb : forall i, In i v -> i < length input). { intros i Hiv. destruct (V2 i Hiv) as (x & Hx). destruct (Hin i x Hx) as (t & _ & _ & _ & Hb). exact Hb. }
  eexists. split; [reflexivity|]. split; [|split; [|split; [lia|exact Hvb]]].
  - split; cbn [pj_choice pj_arity pj_last PermModel.ch_map]; auto.
    + lia.
    + intros i Hiv. destruct (V2 i Hiv) as (x & Hx). destruct (Hin i x Hx) as (t & Ht & Ei & _). apply (L2 t i); [eapply nth_error_In; eauto|exact Ei].
    + unfold PermModel.choice_is_identity, PermModel.choice_is_permutation. cbn [PermModel.ch_map c PermModel.ch_domain]. rewrite andb_true_iff, Nat.eqb_eq, forallb_forall. split.
      * intros [E1 E2]. apply nth_list_ext. intros j. destruct (nth_error v j) as [i|] eqn:Ej.
        -- destruct (V2 i (nth_error_In _ _ Ej)) as (x & Hx). destruct (Hvj j i Ej) as (t & Ht & Ei). destruct (Hpos j t Ht) as (i' & Em & Ei' & Hb).
           assert (i' = i) by congruence. subst i'. specialize (E2 _ (nth_error_In _ _ Em)). cbn in E2. apply Nat.eqb_eq in E2. subst i.
           symmetry. rewrite (nth_error_nth' _ 0) by (rewrite seq_length; lia). rewrite seq_nth by lia. reflexivity.
        -- symmetry. apply nth_error_None. apply nth_error_None in Ej. rewrite seq_length. lia.
      * intros ->. rewrite seq_length in Hlv. split; [lia|]. intros [i x] Hx. cbn. apply Nat.eqb_eq. specialize (V1 i x Hx).
        assert (Hxl : x < length input) by (rewrite <- (seq_length (length input) 0); apply nth_error_Some; congruence).
        rewrite (nth_error_nth' _ 0) in V1 by (rewrite seq_length; lia). rewrite seq_nth in V1 by lia. injection V1 as <-. reflexivity.
  - intros r Hr. apply nth_list_ext. intros j. rewrite !nth_error_map. destruct (nth_error v j) as [i|] eqn:Ej.
    + destruct (Hvj j i Ej) as (t & -> & Ei). cbn. f_equal. symmetry. apply position_lookup, Ei.
    + apply nth_error_None in Ej. rewrite (proj2 (nth_error_None output j)) by lia. reflexivity.
Qed.

(* ---------- apply_operation ---------- *)
Definition projected (n : nat) (P : row -> Prop) (v : list nat) (q : row) : Prop :=
  exists r, length r = n /\ P r /\ map Some q = map (nth_error r) v.

Lemma collect_first : forall (sc : triescan) r out enough, (forall fuel, enough <= fuel -> row_collect sc fuel r = Ok out) ->
  forall fuel, enough <= fuel -> exists r', row_next sc fuel r = Ok (r', hd_error out).
Proof.
  intros sc r out enough H fuel Hf. specialize (H (S fuel) ltac:(lia)). cbn [row_collect] in H.
  destruct (row_next sc fuel r) as [[r' [x|]]| |]; try discriminate; cbn [bind snd fst] in H.
  - destruct (row_collect sc fuel r') as [l| |]; try discriminate. injection H as <-. exists r'. reflexivity.
  - injection H as <-. exists r'. reflexivity.
Qed.

Theorem apply_operation_holds : forall n P sc strict s p v, 0 < n -> reads n P sc strict (Some s) -> projects n v p -> (forall i, In i v -> i < n) ->
  exists enough tr, (forall fuel, enough <= fuel -> apply_operation sc fuel p s = Ok tr) /\ holds (length v) (projected n P v) tr.
Proof.
  intros n P sc strict s p v Hn HR HP Hv. pose proof (pr_bound _ _ _ HP Hn) as Hb.
  assert (Ea : ts_arity sc s = n). { destruct HR as (types & tau & (_ & R & Hsim & Hs) & _). apply (e_arity _ _ _ _ _ _ Hsim _ _ Hs). }
  set (e := n - pj_last p - 1). assert (He : e < n) by (unfold e; lia).
  destruct (collect_reads n P sc strict s e He HR) as (en & out & E & HT & _).
  assert (Hcase : v = [] \/ v <> []) by (destruct v; [left; reflexivity|right; discriminate]). destruct Hcase as [->|Hne].
  - exists en. exists (zero_arity (match hd_error out with Some _ => true | None => false end)). split.
    + intros fuel Hf. unfold apply_operation. rewrite Ea. destruct (Nat.leb_spec n (pj_last p)); [lia|].
      rewrite (pr_vector _ _ _ HP). cbn [must bind]. destruct (collect_first sc _ out en E fuel Hf) as (r' & E'). fold e. rewrite E'. reflexivity.
    + apply (holds_iff _ (fun _ => match hd_error out with Some _ => true | None => false end = true)); [|apply zero_holds].
      intros q Hq. destruct q; [|discriminate]. unfold projected. destruct HT as [_ T2]. split.
      * destruct out as [|[r c] out]; cbn; [discriminate|]. intros _. destruct (proj1 (T2 r) (or_introl eq_refl)) as (Hl & q & Hq' & HPr).
        exists (r ++ q). split; [rewrite app_length; unfold row in *; lia|auto].
      * intros (r & Hl & HPr & _). assert (Hin : In (firstn (n - e) r) (map fst out)).
        { apply T2. split; [rewrite firstn_length; unfold row in *; lia|]. exists (skipn (n - e) r). split; [rewrite skipn_length; unfold row in *; lia|]. rewrite firstn_skipn. exact HPr. }
        destruct out; [destruct Hin|reflexivity].
  - assert (Em : forall (A : Type) (x y : A), match v with [] => x | _ => y end = y) by (intros; destruct v; congruence).
    destruct (project_rows n P out v e He) as (qs & tr & Eq & Ew & HH).
    { exact Hne. }
    { intros i Hi. pose proof (pr_last _ _ _ HP i Hi). unfold e. lia. }
    { exact HT. }
    exists en, tr. split; [|exact HH]. intros fuel Hf. unfold apply_operation. rewrite Ea. destruct (Nat.leb_spec n (pj_last p)); [lia|].
    rewrite (pr_vector _ _ _ HP). cbn [must bind]. rewrite Em. fold e. rewrite (E fuel Hf). cbn [bind].
    destruct (existsb (fun rc => pj_last p + 1 <? length (fst rc)) out) eqn:Ex.
    { apply existsb_exists in Ex. destruct Ex as (rc & Hin & Hlt). apply Nat.ltb_lt in Hlt. destruct HT as [_ T2].
      destruct (proj1 (T2 (fst rc)) (in_map fst _ _ Hin)) as [Hl _]. unfold row, e in *. lia. }
    rewrite Eq. cbn [bind]. rewrite (pr_arity _ _ _ HP). exact Ew.
Qed.

Theorem apply_first_finds : forall n P sc strict s p v, 0 < n -> reads n P sc strict (Some s) -> projects n v p -> (forall i, In i v -> i < n) ->
  exists enough o, (forall fuel, enough <= fuel -> apply_operation_first sc fuel p s = Ok o) /\
    match o with Some q => length q = length v /\ projected n P v q | None => forall q, ~ projected n P v q end.
Proof.
  intros n P sc strict s p v Hn HR HP Hv. pose proof (pr_bound _ _ _ HP Hn) as Hb.
  assert (Ea : ts_arity sc s = n). { destruct HR as (types & tau & (_ & R & Hsim & Hs) & _). apply (e_arity _ _ _ _ _ _ Hsim _ _ Hs). }
  set (e := n - pj_last p - 1). assert (He : e < n) by (unfold e; lia).
  destruct (collect_reads n P sc strict s e He HR) as (en & out & E & [_ T2] & _). destruct out as [|[r c] out].
  - exists en, None. split.
    + intros fuel Hf. unfold apply_operation_first. rewrite Ea. destruct (Nat.leb_spec n (pj_last p)); [lia|].
      destruct (collect_first sc _ [] en E fuel Hf) as (r' & E'). fold e. rewrite E'. reflexivity.
    + intros q (r & Hl & HPr & _). apply (proj2 (T2 (firstn (n - e) r))). split; [rewrite firstn_length; unfold row in *; lia|].
      exists (skipn (n - e) r). split; [rewrite skipn_length; unfold row in *; lia|]. rewrite firstn_skipn. exact HPr.
  - destruct (proj1 (T2 r) (or_introl eq_refl)) as (Hl & q' & Hq' & HPr).
    assert (Hvi : forall i, In i v -> i < length r). { intros i Hi. pose proof (pr_last _ _ _ HP i Hi). unfold row, e in *. lia. }
    destruct (transform_pick (pj_choice p) v r (pr_valid _ _ _ HP) (pr_keys _ _ _ HP) (pr_vector _ _ _ HP) Hvi) as (q & Et & Eq).
    exists en, (Some q). split.
    + intros fuel Hf. unfold apply_operation_first. rewrite Ea. destruct (Nat.leb_spec n (pj_last p)); [lia|].
      destruct (collect_first sc _ _ en E fuel Hf) as (r' & E'). fold e. rewrite E'. cbn [bind snd hd_error]. rewrite Et. reflexivity.
    + split; [apply (f_equal (@length _)) in Eq; rewrite !map_length in Eq; exact Eq|]. exists (r ++ q'). split; [rewrite app_length; unfold row in *; lia|].
      split; [exact HPr|]. rewrite Eq. apply map_ext_in. intros i Hi. symmetry. apply nth_error_app1. apply Hvi, Hi.
Qed.

(* ---------- the dependent tables ---------- *)
Theorem with_dependents_holds : forall n P sc strict s cs vs (keep : bool), reads n P sc strict (Some s) ->
  Forall2 (fun c v => PermModel.as_vector c = Some v /\ forall i, In i v -> i < n) cs vs -> (keep = true \/ 0 < n) ->
  exists enough tr trs, (forall fuel, enough <= fuel -> with_dependents sc fuel s cs keep = Ok (tr, trs)) /\
    (keep = true -> holds n P tr) /\ Forall2 (fun v t => holds (length v) (projected n P v) t) vs trs.
Proof.
  intros n P sc strict s cs vs keep HR HF Hkn.
  assert (Ea : ts_arity sc s = n). { destruct HR as (types & tau & (_ & R & Hsim & Hs) & _). apply (e_arity _ _ _ _ _ _ Hsim _ _ Hs). }
  assert (Evs : map_res (fun c => must (PermModel.as_vector c)) cs = Ok vs).
  { clear - HF. induction HF as [|c v cs vs [H _] _ IH]; [reflexivity|]. cbn [map_res]. rewrite H. cbn [must bind]. rewrite IH. reflexivity. }
  assert (Hvs : forall v, In v vs -> forall i, In i v -> i < n).
  { intros v Hv. destruct (Forall2_in_r _ _ _ _ _ _ HF Hv) as (c & _ & _ & H). exact H. }
  destruct (Nat.eq_dec n 0) as [->|Hn0].
  { (* no columns *)
    destruct keep; [|destruct Hkn; [discriminate|lia]].
    assert (HP0 : P []). { destruct HR as (types & tau & _ & H). apply (H [] eq_refl). exact Logic.I. }
    exists 0, (zero_arity true), (map (fun _ => zero_arity true) vs). split; [|split].
    - intros fuel _. unfold with_dependents. rewrite Evs. cbn [bind]. rewrite Ea. reflexivity.
    - intros _. apply (holds_iff 0 (fun _ => true = true)); [|apply zero_holds]. intros r Hr. destruct r; [tauto|discriminate].
    - clear - Hvs HP0. induction vs as [|v vs IH]; [constructor|]. cbn [map]. constructor; [|apply IH; intros v' Hv; apply Hvs; right; exact Hv].
      destruct v as [|i v]; [|specialize (Hvs (i :: v) (or_introl eq_refl) i (or_introl eq_refl)); lia].
      apply (holds_iff 0 (fun _ => true = true)); [|apply zero_holds]. intros r Hr. destruct r; [|discriminate]. split; [|tauto]. intros _. exists []. auto. }
  set (last := list_max (concat vs)).
  assert (Hlast : forall v i, In v vs -> In i v -> i <= last).
  { intros v i Hv Hi. assert (H : list_max (concat vs) <= last) by (unfold last; lia). apply list_max_le in H. apply (proj1 (Forall_forall _ _) H).
    apply in_concat. eauto. }
  assert (Hlb : last < n).
  { assert (H : last <= n - 1); [|lia]. unfold last. apply list_max_le. apply Forall_forall. intros i Hi. apply in_concat in Hi. destruct Hi as (v & Hv & Hi). specialize (Hvs v Hv i Hi). lia. }
  set (e := if keep then 0 else n - (last + 1)). assert (He : e < n) by (unfold e; destruct keep; lia).
  destruct (collect_reads n P sc strict s e He HR) as (en & out & E & HT & HS).
  assert (Hcase : out = [] \/ exists rc0 out0, out = rc0 :: out0) by (destruct out; eauto). destruct Hcase as [->|(rc0 & out0 & Eo)].
  - (* no rows *)
    assert (Hno : forall r, length r = n -> ~ P r).
    { intros r Hl HPr. apply (proj2 (proj2 HT (firstn (n - e) r))). split; [rewrite firstn_length; unfold row in *; lia|]. exists (skipn (n - e) r).
      split; [rewrite skipn_length; unfold row in *; lia|]. rewrite firstn_skipn. exact HPr. }
    exists en, (trie_empty n), (map (fun _ => trie_empty n) vs). split; [|split].
    + intros fuel Hf. unfold with_dependents. rewrite Evs. cbn [bind]. rewrite Ea. fold last. destruct (Nat.ltb_spec n (last + 1)); [lia|]. rewrite andb_false_r.
      destruct (Nat.eqb_spec n 0); [lia|]. fold e. rewrite (E fuel Hf). reflexivity.
    + intros _. apply empty_holds, Hno.
    + clear - Hno. induction vs as [|v vs IH]; constructor; [|exact IH]. apply empty_holds. intros q _ (r & Hl & HPr & _). apply (Hno r Hl HPr).
  - assert (Hds : exists trs, map_res (dependent_table out) vs = Ok trs /\ Forall2 (fun v t => holds (length v) (projected n P v) t) vs trs).
    { assert (Hsome : exists r, length r = n /\ P r).
      { destruct (proj1 (proj2 HT (fst rc0))) as (Hl & q & Hq & HPr); [rewrite Eo; left; reflexivity|]. exists (fst rc0 ++ q). split; [rewrite app_length; unfold row in *; lia|exact HPr]. }
      assert (Hb : forall v i, In v vs -> In i v -> i < n - e).
      { intros v i Hv Hi. specialize (Hlast v i Hv Hi). specialize (Hvs v Hv i Hi). unfold e. destruct keep; lia. }
      clear - Hb HT Hsome He. clearbody e. clear last. induction vs as [|v vs IH]; [exists []; split; [reflexivity|constructor]|]. cbn [map_res].
      destruct IH as (trs & E1 & E2); [intros v' i Hv; apply Hb; right; exact Hv|].
      assert (Hd : exists t, dependent_table out v = Ok t /\ holds (length v) (projected n P v) t).
      { assert (Hcase : v = [] \/ v <> []) by (destruct v; [left; reflexivity|right; discriminate]). destruct Hcase as [->|Hne].
        - exists (zero_arity true). split; [reflexivity|]. apply (holds_iff 0 (fun _ => true = true)); [|apply zero_holds].
          intros r Hr. destruct r; [|discriminate]. split; [|reflexivity]. intros _. destruct Hsome as (r & Hl & HPr). exists r. auto.
        - assert (Em : forall (A : Type) (x y : A), match v with [] => x | _ => y end = y) by (intros; destruct v; congruence).
          destruct (project_rows n P out v e He) as (qs & t & Eq & Ew & HH).
          { exact Hne. }
          { intros i Hi. apply (Hb v i); [left; reflexivity|exact Hi]. }
          { exact HT. }
          exists t. split; [|exact HH]. unfold dependent_table. rewrite Em, Eq. cbn [bind]. exact Ew. }
      destruct Hd as (t & -> & Ht). cbn [bind]. rewrite E1. cbn [bind]. exists (t :: trs). split; [reflexivity|constructor; assumption]. }
    destruct Hds as (trs & Ed & Hd). exists en, (if keep then build_rows n out else trie_empty 0), trs. split; [|split; [|exact Hd]].
    + intros fuel Hf. unfold with_dependents. rewrite Evs. cbn [bind]. rewrite Ea. fold last. destruct (Nat.ltb_spec n (last + 1)); [lia|]. rewrite andb_false_r.
      destruct (Nat.eqb_spec n 0); [lia|]. fold e. rewrite (E fuel Hf). cbn [bind]. rewrite Ed. rewrite Eo. reflexivity.
    + intros ->. unfold e in *. rewrite Nat.sub_0_r in *. apply (holds_iff n (fun r => In r (map fst out))); [|apply stores_holds; [lia|exact HS]].
      intros r Hl. rewrite (proj2 HT r). split.
      * intros (_ & q & Hq & H). destruct q; [rewrite app_nil_r in H; exact H|discriminate].
      * intros H. split; [exact Hl|]. exists []. rewrite app_nil_r. auto.
Qed.

(* ---------- reordering ---------- *)
Lemma fold_insert : forall (f g : nat -> nat) l m, NoDup (map f l) -> (forall i, In i l -> ~ In (f i) (map fst m)) ->
  fold_left (fun m i => PermModel.insert_map m (f i) (g i)) l m = m ++ map (fun i => (f i, g i)) l.
Proof.
  intros f g. induction l as [|i l IH]; intros m Hn Hm; cbn [fold_left map]; [rewrite app_nil_r; reflexivity|].
  cbn [map] in Hn. apply NoDup_cons_iff in Hn. destruct Hn as [Hi Hn]. rewrite PermProofs2.insert_map_new by (apply Hm; left; reflexivity).
  rewrite IH; [rewrite <- app_assoc; reflexivity|exact Hn|]. intros j Hj Hin. rewrite map_app in Hin. apply in_app_or in Hin. destruct Hin as [Hin|[Hin|[]]].
  - apply (Hm j); [right; exact Hj|exact Hin].
  - cbn in Hin. apply Hi. rewrite Hin. apply in_map, Hj.
Qed.
Lemma get_map_NoDup : forall p n, PermProofs.wfp p -> NoDup (map (PermModel.get p) (seq 0 n)).
Proof.
  intros p n Hp. apply NoDup_nth_error. intros i j Hi E. rewrite map_length, seq_length in Hi. rewrite !nth_error_map in E.
  rewrite (nth_error_nth' (seq 0 n) 0) in E by (rewrite seq_length; lia). rewrite seq_nth in E by lia. cbn [option_map] in E.
  destruct (nth_error (seq 0 n) j) as [k|] eqn:Ek; [|discriminate]. injection E as E. apply PermProofs.get_inj in E; [|exact Hp]. subst k.
  assert (Hj : j < n) by (rewrite <- (seq_length n 0); apply nth_error_Some; congruence).
  rewrite (nth_error_nth' (seq 0 n) 0) in Ek by (rewrite seq_length; lia). rewrite seq_nth in Ek by lia. injection Ek as Ek. lia.
Qed.
Theorem from_reordering_ok : forall source target n, PermProofs.wfp source -> PermProofs.wfp target ->
  length (PermModel.idx_to_val source) <= n -> length (PermModel.idx_to_val target) <= n ->
  exists v p, from_reordering source target n = Ok p /\ projects n v p /\ length v = n /\
    (forall i, i < n -> nth_error v (PermModel.get target i) = Some (PermModel.get source i)) /\ (forall i, In i v -> i < n).
Proof.
  intros source target n Hs Ht Ls Lt. unfold from_reordering.
  rewrite fold_insert by (try (apply get_map_NoDup, Hs); intros ? _ []). cbn [app].
  set (m := map (fun i => (PermModel.get source i, PermModel.get target i)) (seq 0 n)). set (c := PermModel.mkChoice m n).
  assert (Hlm : length m = n) by (unfold m; rewrite map_length, seq_length; reflexivity).
  assert (Hin : forall i x, In (i, x) m -> exists k, k < n /\ i = PermModel.get source k /\ x = PermModel.get target k).
  { intros i x H. unfold m in H. apply in_map_iff in H. destruct H as (k & E & Hk). injection E as <- <-. apply in_seq in Hk. exists k. repeat split; lia. }
  assert (Esnd : map snd m = map (PermModel.get target) (seq 0 n)) by (unfold m; rewrite map_map; reflexivity).
  assert (Efst : map fst m = map (PermModel.get source) (seq 0 n)) by (unfold m; rewrite map_map; reflexivity).
  assert (Hv : choice_valid c = true).
  { apply valid_spec. cbn [c PermModel.ch_map PermModel.ch_domain]. split; [rewrite Esnd; apply get_map_NoDup, Ht|]. intros i x H. destruct (Hin i x H) as (k & Hk & -> & ->).
    rewrite Hlm. split; apply PermProofs.get_lt; assumption. }
  unfold checked. rewrite Hv. cbn [bind]. destruct (valid_vector c Hv) as (v & Ev & Hlv & V1 & V2). cbn [c PermModel.ch_map] in *.
  assert (Hvb : forall i, In i v -> i < n). { intros i Hi. destruct (V2 i Hi) as (x & Hx). destruct (Hin i x Hx) as (k & Hk & -> & _). apply PermProofs.get_lt; assumption. }
  assert (Hget : forall i, i < n -> nth_error v (PermModel.get target i) = Some (PermModel.get source i)).
  { intros i Hi. apply V1. unfold m. apply in_map_iff. exists i. split; [reflexivity|]. apply in_seq. lia. }
  exists v. eexists. split; [reflexivity|]. split; [|split; [lia|split; [exact Hget|exact Hvb]]].
  split; cbn [pj_choice pj_arity pj_last]; auto.
  - change (NoDup (map fst m)). rewrite Efst. apply get_map_NoDup, Hs.
  - lia.
  - intros i Hi. specialize (Hvb i Hi). lia.
  - lia.
  - unfold PermModel.choice_is_identity, PermModel.choice_is_permutation. cbn [c PermModel.ch_map PermModel.ch_domain]. rewrite Hlm, Nat.eqb_refl. cbn [andb]. rewrite forallb_forall. split.
    + intros H. apply nth_list_ext. intros j. destruct (nth_error v j) as [i|] eqn:Ej.
      * assert (Hj : j < n) by (rewrite <- Hlm, <- Hlv; apply nth_error_Some; congruence). destruct (V2 i (nth_error_In _ _ Ej)) as (x & Hx).
        (* the entry for the value j *)
        assert (Hjm : In j (map snd m)).
        { assert (Hcov : incl (seq 0 n) (map snd m)); [|apply Hcov, in_seq; lia]. apply NoDup_length_incl; [rewrite Esnd; apply get_map_NoDup, Ht|rewrite seq_length, map_length; lia|].
          intros y Hy. apply in_map_iff in Hy. destruct Hy as ([i' y'] & <- & Hin'). destruct (Hin i' y' Hin') as (k & Hk & _ & ->). apply in_seq. cbn [snd].
          pose proof (proj2 (PermProofs.get_lt target n k Ht Lt) Hk). lia. }
        apply in_map_iff in Hjm. destruct Hjm as ([i' j'] & Ej' & Hin'). cbn in Ej'. subst j'. rewrite (V1 i' j Hin') in Ej. injection Ej as ->.
        specialize (H _ Hin'). cbn in H. apply Nat.eqb_eq in H. subst i. symmetry. rewrite (nth_error_nth' _ 0) by (rewrite seq_length; lia). rewrite seq_nth by lia. reflexivity.
      * symmetry. apply nth_error_None. apply nth_error_None in Ej. rewrite seq_length. lia.
    + intros -> [i x] Hx. cbn. apply Nat.eqb_eq. specialize (V1 i x Hx). assert (Hxl : x < n) by (rewrite <- (seq_length n 0); apply nth_error_Some; congruence).
      rewrite (nth_error_nth' _ 0) in V1 by (rewrite seq_length; lia). rewrite seq_nth in V1 by lia. injection V1 as <-. reflexivity.
Qed.
