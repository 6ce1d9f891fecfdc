(* RowScan: all rows. *)
From Coq Require Import List ZArith Bool Lia Arith Sorted.
From Verif Require Import ColumnModel ScanModel ScanSpec TrieModel TrieSpec TrieScanSpec TrieProofs1 TrieProofs2 TrieProofs3 TrieProofs4 TrieProofs6 TrieProofs7 TrieProofs8 TrieProofs10 TrieProofs11.
Import ListNotations.
Local Open Scope nat_scope.

(* every row after the first comes with the index of the first column that differs from the row before *)
Fixpoint linked (prev : option row) (out : list (row * nat)) : Prop :=
  match out with
  | [] => True
  | (p, c) :: out' =>
      match prev with
      | None => True
      | Some p0 => c < length p /\ firstn c p = firstn c p0 /\ firstn (S c) p <> firstn (S c) p0
      end /\ linked (Some p) out'
  end.

Section Collect.
Variable n : nat.
Variable types : nat -> list stype.
Variable tau : tree.
Hypothesis Hproper : proper n types tau.
Variable sc : triescan.
Variable strict : bool.
Variable R : tstate sc -> list frame -> Prop.
Hypothesis Hsim : simulates n types tau sc strict R.
Variable e : nat.
Hypothesis He : e < n.

Section NonEmpty.
Hypothesis Hne : forall k, k < n -> types k <> [].

Notation rinv := (rinv n types tau sc R e).
Notation remaining := (remaining n types tau).

Definition restart (r : rowscan sc) : rowscan sc :=
  mk_rowscan sc (rs_scan _ r) (rs_empty _ r) (rs_types _ r) (rs_used _ r) (rs_single _ r) (rs_existential _ r) (rs_row _ r) (length (rs_row _ r) - 1).
Lemma restart_inv : forall r fs, rinv r fs -> rinv (restart r) fs.
Proof. intros r fs I. constructor; apply I. Qed.
Lemma advance_loop_start : forall fuel r fs, rinv r fs -> fs <> [] -> advance sc fuel r = advance_loop sc fuel (restart r).
Proof.
  intros fuel r fs I Hfs. unfold advance. rewrite (ri_empty _ _ _ _ _ _ _ _ I), (ri_ex _ _ _ _ _ _ _ _ I).
  rewrite (e_arity _ _ _ _ _ _ Hsim _ _ (ri_rel _ _ _ _ _ _ _ _ I)). replace (e =? n) with false by (symmetry; apply Nat.eqb_neq; lia). cbn [andb].
  destruct (e_layer _ _ _ _ _ _ Hsim _ _ (ri_rel _ _ _ _ _ _ _ _ I)) as [_ El]. rewrite El. destruct fs as [|f fs]; [congruence|]. cbn [layer_of bind].
  pose proof (ri_row _ _ _ _ _ _ _ _ I) as Hrow. destruct (rs_row sc r) eqn:E; [cbn in Hrow; lia|]. rewrite <- E. reflexivity.
Qed.

Lemma collect_ok : forall N r fs, length (remaining fs) < N -> rinv r fs -> on_values (removelast fs) -> fs <> [] ->
  exists enough out, (forall fuel, enough <= fuel -> row_collect sc fuel r = Ok out) /\
    StronglySorted row_lt (map fst out) /\
    (forall p, In p (map fst out) <-> exists y, In y (remaining fs) /\ firstn (n - e) y = p) /\
    (forall prev, match prev with None => True | Some p0 => changes n types tau (n - e - 1) fs p0 end -> linked prev out).
Proof.
  induction N as [|N IH]; intros r fs HN I Hv Hfs; [lia|].
  destruct (loop_ok n types tau Hproper sc strict R Hsim e He Hne _ (restart r) fs (Nat.lt_succ_diag_r _) (restart_inv r fs I) Hv) as (en & r' & E & Ho).
  assert (Hcol : forall fuel, en <= fuel -> row_collect sc (S fuel) r =
    match row_get sc r' with None => Ok [] | Some x => bind (row_collect sc fuel r') (fun l => Ok (x :: l)) end).
  { intros fuel Hf. cbn [row_collect]. unfold row_next. rewrite (advance_loop_start fuel r fs I Hfs), (E fuel Hf). cbn [bind fst snd]. destruct (row_get sc r'); reflexivity. }
  unfold outcome in Ho. destruct (remaining fs) as [|x rest] eqn:Er.
  - destruct Ho as (L1 & L2 & L3). exists (S en), []. split; [|split; [constructor|split; [|intros; exact Logic.I]]].
    + intros [|fuel] Hf; [lia|]. rewrite Hcol by lia. unfold row_get. rewrite L1, L2, L3. replace (e =? n) with false by (symmetry; apply Nat.eqb_neq; lia). reflexivity.
    + intros p. split; [intros []|intros (y & [] & _)].
  - destruct Ho as (fs' & sib & I' & Hv' & Hl' & Hx & Hp' & Hrow & Hrest & Hsib & Hle & Hchg).
    assert (Hfs' : fs' <> []) by (intros ->; cbn in Hl'; lia).
    destruct (IH r' fs') as (en' & out & E' & S1 & S2 & S3).
    + rewrite Hrest in HN. cbn [length] in HN. rewrite app_length in HN. lia.
    + exact I'.
    + intros f Hf. apply Hv', removelast_in, Hf.
    + exact Hfs'.
    + assert (Hget : row_get sc r' = Some (firstn (n - e) x, rs_change _ r')).
      { unfold row_get. destruct (e_layer _ _ _ _ _ _ Hsim _ _ (ri_rel _ _ _ _ _ _ _ _ I')) as [_ El]. rewrite El, Hrow. destruct fs'; [congruence|]. reflexivity. }
      assert (Hafter : forall y, In y (remaining fs') -> row_lt (firstn (n - e) x) (firstn (n - e) y)).
      { intros y Hy. destruct (remaining_after n types tau Hproper fs' (ri_good _ _ _ _ _ _ _ _ I') Hv' y Hy) as [_ H].
        rewrite Hl' in H. exact (eq_ind _ (fun q => row_lt q _) H _ Hp'). }
      assert (Hlx : length (firstn (n - e) x) = n - e) by (apply firstn_length_le; lia).
      exists (S (en + en')), ((firstn (n - e) x, rs_change _ r') :: out). split; [|split; [|split]].
      * intros [|fuel] Hf; [lia|]. rewrite Hcol by lia. rewrite Hget. rewrite E' by lia. reflexivity.
      * cbn [map fst]. constructor; [exact S1|]. apply Forall_forall. intros p Hp. apply S2 in Hp. destruct Hp as (y & Hy & <-). apply Hafter, Hy.
      * intros p. cbn [map fst In]. rewrite S2, Hrest. split.
        -- intros [<-|(y & Hy & <-)]; [exists x; split; [left|]; reflexivity|]. exists y. split; [right; apply in_or_app; right; exact Hy|reflexivity].
        -- intros (y & [<-|Hy] & <-); [left; reflexivity|]. apply in_app_or in Hy. destruct Hy as [Hy|Hy]; [left; symmetry; apply Hsib, Hy|right; exists y; auto].
      * intros prev Hprev. cbn [linked].
        assert (Hc : rs_change sc r' <= n - e - 1).
        { cbn [restart rs_change] in Hle. rewrite (ri_row _ _ _ _ _ _ _ _ I) in Hle. exact Hle. }
        split.
        -- destruct prev as [p0|]; [|exact Logic.I].
           assert (Hch0 : rs_change sc (restart r) = n - e - 1) by (cbn [restart rs_change]; rewrite (ri_row _ _ _ _ _ _ _ _ I); reflexivity).
           specialize (Hchg p0). rewrite Hch0 in Hchg. destruct (Hchg Hprev) as [H1 H2]. split; [flia|]. rewrite !firstn_firstn.
           replace (Nat.min (rs_change sc r') (n - e)) with (rs_change sc r') by lia. replace (Nat.min (S (rs_change sc r')) (n - e)) with (S (rs_change sc r')) by lia. auto.
        -- apply S3. constructor.
           ++ rewrite Hl'. f_equal. exact Hp'.
           ++ rewrite Hl'. intros ?; lia.
           ++ intros y Hy Heq. specialize (Hafter y Hy). replace (S (n - e - 1)) with (n - e) in Heq by lia. rewrite firstn_firstn, Nat.min_id in Heq.
              exact (row_lt_irrefl _ (eq_ind _ (fun q => row_lt _ q) Hafter _ Heq)).
Qed.
End NonEmpty.

Lemma in_tree_app : forall q p r, in_tree tau p (q ++ r) <-> in_tree tau p q /\ in_tree tau (p ++ q) r.
Proof.
  induction q as [|v q IH]; intros p r; cbn [app in_tree]; [rewrite app_nil_r; tauto|]. rewrite IH, <- app_assoc. cbn [app]. tauto.
Qed.
Lemma in_tree_types : forall k r p, in_tree tau p r -> length p + length r <= n -> length p <= k -> k < length p + length r -> types k <> [].
Proof.
  intros k. induction r as [|v r IH]; intros p Hr Hl H1 H2; cbn [length in_tree] in *; [lia|]. destruct Hr as [Hv Hr].
  destruct (Nat.eq_dec (length p) k) as [<-|N].
  - assert (H : In (fst v) (types (length p))) by (apply (p_types _ _ _ Hproper); [lia|intros E; rewrite E in Hv; destruct Hv]).
    intros E. rewrite E in H. destruct H.
  - apply (IH (p ++ [v]) Hr); rewrite app_length; cbn; lia.
Qed.

Theorem collect_rows : forall s, R s [] ->
  exists enough out, (forall fuel, enough <= fuel -> row_collect sc fuel (rowscan_new sc s e e) = Ok out) /\
    table_of (n - e) (fun p => exists q, length q = e /\ in_tree tau [] (p ++ q)) (map fst out) /\ linked None out.
Proof.
  intros s HR. set (r := rowscan_new sc s e e).
  assert (Ea : ts_arity sc s = n) by (eapply (e_arity _ _ _ _ _ _ Hsim), HR).
  assert (Et : map (ts_types sc s) (seq 0 n) = map types (seq 0 n)).
  { apply map_ext_in. intros k Hk. apply in_seq in Hk. apply (e_types _ _ _ _ _ _ Hsim _ _ _ HR). lia. }
  destruct (e_layer _ _ _ _ _ _ Hsim _ _ HR) as [_ El]. cbn [layer_of] in El.
  destruct (existsb (fun l => match l with [] => true | _ => false end) (map types (seq 0 n))) eqn:Ex.
  - (* a layer without types *)
    assert (Hr : rs_empty sc r = true). { unfold r, rowscan_new. cbn [rs_empty]. rewrite Ea, Et, Ex. apply orb_true_r. }
    exists 1, []. split; [|split; [split; [constructor|]|exact Logic.I]].
    + intros [|fuel] Hf; [lia|]. cbn [row_collect]. unfold row_next, advance. rewrite Hr. cbn [bind fst snd]. unfold row_get.
      unfold r, rowscan_new. cbn [rs_scan rs_existential rs_single]. rewrite El. cbn [orb]. rewrite andb_false_r. reflexivity.
    + intros p. split; [intros []|]. intros (Hl & q & Hq & Hin). exfalso. apply existsb_exists in Ex. destruct Ex as (l & Hl' & Hl0). apply in_map_iff in Hl'.
      destruct Hl' as (k & <- & Hk). apply in_seq in Hk. apply (in_tree_types k (p ++ q) [] Hin); cbn; try rewrite app_length; try lia.
      destruct (types k); [reflexivity|discriminate].
  - assert (Hne : forall k, k < n -> types k <> []).
    { intros k Hk E. apply Bool.not_true_iff_false in Ex. apply Ex. apply existsb_exists. exists []. split; [|reflexivity]. apply in_map_iff. exists k. split; [exact E|]. apply in_seq. lia. }
    destruct (types_first n types tau Hproper e He Hne 0 ltac:(lia)) as (t0 & Ht0 & Et0).
    assert (Hu : length (repeat 0 n) = n) by apply repeat_length.
    set (r1 := with_used sc r (set_nth 0 0 (rs_used _ r))).
    assert (I0 : rinv n types tau sc R e r []).
    { unfold r, rowscan_new. constructor; cbn [rs_scan rs_types rs_used rs_empty rs_existential rs_row]; rewrite ?Ea.
      - exact HR.
      - split; [cbn; lia|]. intros k f Hk. destruct k; discriminate.
      - exact Et.
      - exact Hu.
      - intros k f Hk. destruct k; discriminate.
      - rewrite Et, Ex, orb_false_r. apply Nat.eqb_neq. lia.
      - reflexivity.
      - apply repeat_length. }
    destruct (rinv_down n types tau sc strict R Hsim e He r [] 0 t0 I0 ltac:(intros f []) ltac:(cbn; lia) Ht0) as (s1 & Ed & I1). cbn [length app path map] in I1.
    set (r2 := with_scan sc (with_used sc r (set_nth 0 0 (rs_used sc r))) s1) in *.
    set (fs := [(t0, None, tau [] t0)]) in *.
    assert (Hrem : remaining n types tau fs = under n types tau []).
    { unfold fs. change [(t0, @None Z, tau [] t0)] with ([] ++ [(t0, @None Z, tau [] t0)]). rewrite remaining_snoc. cbn [path map length]. rewrite app_nil_r.
      rewrite (under_unfold n types tau []) by (cbn; lia). cbn [length]. rewrite Et0 at 1. cbn [length]. reflexivity. }
    assert (Hadv : forall fuel, advance sc fuel r = advance sc fuel r2).
    { intros fuel. rewrite (advance_loop_start fuel r2 fs I1 ltac:(discriminate)). unfold advance. rewrite (ri_empty _ _ _ _ _ _ _ _ I0), (ri_ex _ _ _ _ _ _ _ _ I0).
      rewrite (e_arity _ _ _ _ _ _ Hsim _ _ (ri_rel _ _ _ _ _ _ _ _ I0)). replace (e =? n) with false by (symmetry; apply Nat.eqb_neq; lia). cbn [andb].
      change (rs_scan sc r) with s. rewrite El. cbn [layer_of bind]. unfold first_type, type_at.
      rewrite (index_some _ _ _ _ (types_at n types tau sc R e r [] 0 I0 ltac:(lia))). cbn [bind]. rewrite (index_some _ _ _ _ Ht0). cbn [bind].
      rewrite put_ok by (rewrite (ri_used_len _ _ _ _ _ _ _ _ I0); lia). cbn [bind fst snd]. change (rs_scan sc (with_used sc r (set_nth 0 0 (rs_used sc r)))) with (rs_scan sc r).
      rewrite Ed. cbn [bind]. pose proof (ri_row _ _ _ _ _ _ _ _ I1) as Hrow. unfold restart, r2. cbn [with_scan with_used rs_row].
      change (rs_row sc r2) with (rs_row sc r) in Hrow. destruct (rs_row sc r) eqn:Erow; [cbn in Hrow; lia|]. reflexivity. }
    destruct (collect_ok Hne _ r2 fs (Nat.lt_succ_diag_r _) I1 ltac:(intros f []) ltac:(discriminate)) as (en & out & E & S1 & S2 & S3).
    exists en, out. split; [|split; [split; [exact S1|]|apply (S3 None Logic.I)]].
    + intros fuel Hf. specialize (E fuel Hf). destruct fuel as [|fuel]; [exact E|]. cbn [row_collect] in *. unfold row_next in *. rewrite Hadv. exact E.
    + intros p. rewrite S2, Hrem. split.
      * intros (y & Hy & <-). apply (under_in n types tau Hproper) in Hy; [|cbn; lia]. destruct Hy as (y' & E' & Hl & Hin). cbn [app] in E'. subst y'.
        split; [apply firstn_length_le; lia|]. exists (skipn (n - e) y). split; [rewrite skipn_length; lia|]. rewrite firstn_skipn. exact Hin.
      * intros (Hl & q & Hq & Hin). exists (p ++ q). split.
        -- apply (under_in n types tau Hproper); [cbn; lia|]. exists (p ++ q). split; [reflexivity|]. split; [rewrite app_length; lia|exact Hin].
        -- rewrite firstn_app, <- Hl, firstn_all, Nat.sub_diag, firstn_O, app_nil_r. reflexivity.
Qed.
End Collect.
