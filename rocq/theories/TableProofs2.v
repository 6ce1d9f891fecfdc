From Coq Require Import List Arith ZArith Bool Lia Sorted.
From Verif Require Import TableModel TableProofs TableSpec.
Import ListNotations.

Lemma minv_ext m h1 h2 : (forall p, h1 p = h2 p) -> minv m h1 -> minv m h2.
Proof. intros He H p. specialize (H p). rewrite <- He. exact H. Qed.

Lemma log_snoc ops o p : log (ops ++ [o]) p = log1 (log ops) o p.
Proof. unfold log. now rewrite fold_left_app. Qed.

Lemma ss_lt_all (l : list nat) x : StronglySorted lt (l ++ [x]) -> forall y, In y l -> y < x.
Proof. intros H y Hy. apply ss_app_inv in H. destruct H as (_ & _ & H). apply H; simpl; auto. Qed.

Lemma add_results_spec results : forall m hist step m' ps,
  minv m hist ->
  (forall p, StronglySorted lt (map fst (hist p ++ map (fun qr => (step, snd qr))
                 (filter (fun qr => (fst qr =? p) && negb (length (snd qr) =? 0)) results)))) ->
  add_results m step results = Some (m', ps) ->
  minv m' (fun p => hist p ++ map (fun qr => (step, snd qr))
                 (filter (fun qr => (fst qr =? p) && negb (length (snd qr) =? 0)) results)).
Proof.
  induction results as [|[q rows] rest IH]; intros m hist step m' ps H Hs Ha.
  - simpl in *. injection Ha as <- <-. eapply minv_ext; [|exact H]. intros p. now rewrite app_nil_r.
  - destruct rows as [|r0 rows0].
    + simpl in Ha. eapply minv_ext; [|eapply IH; eauto].
      * intros p. simpl. now rewrite andb_false_r.
      * intros p. specialize (Hs p). simpl in Hs. now rewrite andb_false_r in Hs.
    + set (rows := r0 :: rows0) in *.
      assert (Ha' : (let '(m1, id) := register_table m rows in
        match add_subtable m1 q step id with
        | None => None
        | Some m2 => match add_results m2 step rest with
                   | None => None
                   | Some (m3, ps) => Some (m3, q :: ps)
                   end
        end) = Some (m', ps)) by exact Ha. clear Ha. cbn beta iota delta [register_table] in Ha'.
      destruct (add_subtable _ q step _) as [m2|] eqn:E2; [|discriminate].
      destruct (add_results m2 step rest) as [[m3 ps3]|] eqn:E3; [|discriminate].
      injection Ha' as -> <-.
      assert (H2 : minv m2 (upd hist q (hist q ++ [(step, rows)]))).
      { eapply (minv_add m hist q step rows rows); eauto; [tauto|].
        intros s t Hin. specialize (Hs q). simpl in Hs. rewrite Nat.eqb_refl in Hs. simpl in Hs.
        rewrite map_app in Hs. simpl in Hs. apply ss_app_inv in Hs. destruct Hs as (_ & _ & Hlt).
        apply Hlt; [|now left]. change s with (fst (s, t)). now apply in_map. }
      eapply minv_ext; [|eapply IH; eauto].
      * intros p. unfold upd. simpl. destruct (Nat.eqb_spec p q) as [->|Hne].
        -- rewrite Nat.eqb_refl. simpl. now rewrite <- app_assoc.
        -- destruct (Nat.eqb_spec q p); [congruence|]. reflexivity.
      * intros p. specialize (Hs p). unfold upd. simpl in Hs. destruct (Nat.eqb_spec p q) as [->|Hne].
        -- rewrite Nat.eqb_refl in Hs. simpl in Hs. now rewrite <- app_assoc.
        -- destruct (Nat.eqb_spec q p); [congruence|]. exact Hs.
Qed.

Lemma ordered_prefix ops o : ordered (ops ++ [o]) -> ordered ops.
Proof. intros H b a p ->. apply (H b (a ++ [o])). now rewrite app_assoc. Qed.

Lemma run_snoc ops o : forall m, run m (ops ++ [o]) = match run m ops with None => None | Some m' => run1 m' o end.
Proof.
  induction ops as [|o' ops IH]; intros m; simpl.
  - destruct (run1 m o); auto.
  - destruct (run1 m o'); auto.
Qed.

Lemma run_minv ops : forall m, ordered ops -> run manager_new ops = Some m -> minv m (log ops).
Proof.
  induction ops as [|o ops IH] using rev_ind; intros m Ho Hr.
  - injection Hr as <-. exact minv_new.
  - rewrite run_snoc in Hr. destruct (run manager_new ops) as [m0|] eqn:E0; [|discriminate].
    specialize (IH m0 (ordered_prefix _ _ Ho) eq_refl).
    assert (Hsort : forall p, StronglySorted lt (map fst (log1 (log ops) o p))).
    { intros p. rewrite <- log_snoc. apply (Ho _ [] p). now rewrite app_nil_r. }
    eapply minv_ext; [intros p; symmetry; apply log_snoc|].
    destruct o as [p a|p sources|step results|p lo hi|p]; simpl in Hr.
    + assert (Hm : m = mkManager (db m0) (upd (subtables m0) p (Some handler_default))
                                (upd (arities m0) p (Some a))).
      { unfold register_predicate in Hr. destruct (arities m0 p) as [a'|].
        - destruct (Nat.eqb_spec a' a); congruence.
        - congruence. }
      subst m. intros q. simpl. unfold upd. destruct (Nat.eqb_spec q p) as [->|Hne].
      * apply hinv_default.
      * apply IH.
    + unfold add_edb in Hr. destruct sources as [|s0 srest].
      * injection Hr as <-. eapply minv_ext; [|exact IH]. intros q. simpl. now rewrite andb_false_r.
      * set (sources := s0 :: srest) in *.
        pose proof (Hsort p) as Hp. simpl in Hp. rewrite Nat.eqb_refl in Hp. simpl in Hp. rewrite map_app in Hp.
        eapply minv_ext; [|eapply (minv_add m0 (log ops) p 0 (concat sources)); [exact IH| | |exact Hr]].
        -- intros q. unfold upd. simpl. destruct (Nat.eqb_spec q p) as [->|]; reflexivity.
        -- intros r. apply nodup_In.
        -- intros s t Hin. eapply ss_lt_all; [exact Hp|]. change s with (fst (s, t)). now apply in_map.
    + destruct (add_results m0 step results) as [[m1 ps]|] eqn:E1; [|discriminate]. injection Hr as <-.
      eapply add_results_spec in E1; [exact E1|exact IH|]. intros p. apply Hsort.
    + destruct (combine_tables_spec m0 (log ops) p lo hi IH) as (m' & res & E & H1 & _).
      rewrite E in Hr. injection Hr as <-. exact H1.
    + destruct (combine_predicate_spec m0 (log ops) p IH) as (m' & res & E & H1 & _).
      rewrite E in Hr. injection Hr as <-. exact H1.
Qed.

Lemma range_reads ops m : ordered ops -> run manager_new ops = Some m ->
  forall p lo hi, exists ids, tables_in_range m p lo hi = Some ids /\
    forall r, rows_of m ids r <-> stored ops p lo hi r.
Proof.
  intros Ho Hr p lo hi. pose proof (run_minv ops m Ho Hr p) as Hp. unfold tables_in_range.
  destruct (subtables m p) as [h|].
  - destruct (hinv_cover (db m) h (log ops p) lo hi Hp) as (ids & Hids & _ & Hrows).
    exists ids. split; auto.
  - exists []. split; auto. intros r. split.
    + intros (id & [] & _).
    + intros (s & rows & Hin & _). rewrite Hp in Hin. destruct Hin.
Qed.

Lemma step_tables ops m : ordered ops -> run manager_new ops = Some m ->
  forall p lo hi,
    (forall r, rows_of m (map snd (tables_in_range_steps m p lo hi)) r <-> stored ops p lo hi r) /\
    (forall s id, In (s, id) (tables_in_range_steps m p lo hi) -> lo <= s < hi /\
        forall r, In r (contents m id) <-> stored ops p s (S s) r).
Proof.
  intros Ho Hr p lo hi. pose proof (run_minv ops m Ho Hr p) as Hp. unfold tables_in_range_steps.
  destruct (subtables m p) as [h|].
  2:{ split; [|intros ? ? []]. intros r. split; [intros (? & [] & _)|]. intros (? & ? & Hin & _). rewrite Hp in Hin. destruct Hin. }
  assert (Hsrt : StronglySorted lt (map fst (single h))) by apply (hi_sorted _ _ _ Hp).
  assert (Hone : forall i s id, nth_error (single h) i = Some (s, id) ->
     forall r, In r (contents m id) <-> stored ops p s (S s) r).
  { intros i s id Hn r. destruct (hi_single _ _ _ Hp _ _ _ Hn) as [_ (rows & Hrw & He)].
    unfold contents. rewrite He. split.
    - intros Hin. exists s, rows. split; [eapply nth_error_In; eauto|]. split; [lia|auto].
    - intros (s' & rows' & Hin & Hs & Hr'). replace s' with s in * by lia.
      apply In_nth_error in Hin. destruct Hin as [j Hj].
      destruct (nth_error (single h) j) as [[sj idj]|] eqn:Ej.
      2:{ apply nth_error_None in Ej. rewrite (hi_len _ _ _ Hp) in Ej. apply nth_error_None in Ej. congruence. }
      destruct (hi_single _ _ _ Hp _ _ _ Ej) as [_ (rowsj & Hrj & _)]. rewrite Hj in Hrj. injection Hrj as <- <-.
      assert (i = j).
      { apply (map_nth_error fst) in Hn. apply (map_nth_error fst) in Ej. simpl in *.
        assert (Hnd : NoDup (map fst (single h))).
        { clear -Hsrt. induction Hsrt as [|a l Hl IH Hf]; constructor; auto.
          intros Hin. rewrite Forall_forall in Hf. apply Hf in Hin. lia. }
        rewrite NoDup_nth_error in Hnd. apply Hnd; [apply nth_error_Some; congruence|congruence]. }
      subst j. congruence. }
  split.
  - intros r. split.
    + intros (id & Hin & Hr'). apply in_map_iff in Hin. destruct Hin as ([s id'] & <- & Hin).
      apply filter_In in Hin. destruct Hin as [Hin Hb]. simpl in *. apply andb_true_iff in Hb.
      destruct Hb as [Hb1 Hb2]. apply Nat.leb_le in Hb1. apply Nat.ltb_lt in Hb2.
      apply In_nth_error in Hin. destruct Hin as [i Hi].
      apply (Hone i s id' Hi) in Hr'. destruct Hr' as (s' & rows & Hx & Hs & Hrr).
      exists s', rows. repeat split; auto; lia.
    + intros (s & rows & Hin & Hs & Hrr). apply In_nth_error in Hin. destruct Hin as [i Hi].
      destruct (nth_error (single h) i) as [[s' id']|] eqn:En.
      2:{ apply nth_error_None in En. rewrite (hi_len _ _ _ Hp) in En. apply nth_error_None in En. congruence. }
      destruct (hi_single _ _ _ Hp _ _ _ En) as [_ (rows' & Hr' & He)]. rewrite Hi in Hr'. injection Hr' as <- <-.
      exists id'. split; [|now apply He]. apply in_map_iff. exists (s, id'). split; auto. apply filter_In.
      split; [eapply nth_error_In; eauto|]. simpl. apply andb_true_iff. split; [apply Nat.leb_le|apply Nat.ltb_lt]; lia.
  - intros s id Hin. apply filter_In in Hin. destruct Hin as [Hin Hb]. simpl in Hb. apply andb_true_iff in Hb.
    destruct Hb as [Hb1 Hb2]. apply Nat.leb_le in Hb1. apply Nat.ltb_lt in Hb2. split; [lia|].
    apply In_nth_error in Hin. destruct Hin as [i Hi]. apply (Hone i s id Hi).
Qed.

Lemma log_combine ops p lo hi q : log (ops ++ [OpCombine p lo hi]) q = log ops q.
Proof. now rewrite log_snoc. Qed.

Lemma ordered_combine ops o : ordered ops -> (forall q, log (ops ++ [o]) q = log ops q) -> ordered (ops ++ [o]).
Proof.
  intros Ho Hl b a p He. destruct a as [|x a] using rev_ind.
  - rewrite app_nil_r in He. subst b. rewrite Hl. apply (Ho _ [] p). now rewrite app_nil_r.
  - clear IHa. rewrite app_assoc in He. apply app_inj_tail in He. destruct He as [-> _]. apply (Ho b a p). reflexivity.
Qed.

Lemma combine_ok ops m p lo hi : ordered ops -> run manager_new ops = Some m ->
  exists m' res, combine_tables m p lo hi = Some (m', res) /\
    run manager_new (ops ++ [OpCombine p lo hi]) = Some m' /\
    (forall q, log (ops ++ [OpCombine p lo hi]) q = log ops q) /\
    ordered (ops ++ [OpCombine p lo hi]) /\
    match res with
    | Some id => forall r, In r (contents m' id) <-> stored ops p lo hi r
    | None => forall r, ~ stored ops p lo hi r
    end.
Proof.
  intros Ho Hr. pose proof (run_minv ops m Ho Hr) as Hm.
  destruct (combine_tables_spec m (log ops) p lo hi Hm) as (m' & res & E & H1 & _ & _ & _ & _ & H2).
  exists m', res. split; auto. split.
  { rewrite run_snoc, Hr. simpl. now rewrite E. }
  split; [intros q; apply log_combine|]. split; [apply ordered_combine; auto; intros; apply log_combine|].
  destruct res as [id|].
  - exact H2.
  - intros r (s & t & Hin & Hs & Hrr). exact (H2 s t r Hin Hs Hrr).
Qed.

Lemma combine_predicate_ok ops m p : ordered ops -> run manager_new ops = Some m ->
  exists m' res, combine_predicate m p = Some (m', res) /\
    run manager_new (ops ++ [OpCombinePredicate p]) = Some m' /\
    (forall q, log (ops ++ [OpCombinePredicate p]) q = log ops q) /\
    ordered (ops ++ [OpCombinePredicate p]) /\
    match res with
    | Some id => forall r, In r (contents m' id) <-> exists s rows, In (s, rows) (log ops p) /\ In r rows
    | None => forall s rows r, In (s, rows) (log ops p) -> ~ In r rows
    end.
Proof.
  intros Ho Hr. pose proof (run_minv ops m Ho Hr) as Hm.
  destruct (combine_predicate_spec m (log ops) p Hm) as (m' & res & E & H1 & _ & _ & _ & _ & H2).
  assert (Hl : forall q, log (ops ++ [OpCombinePredicate p]) q = log ops q) by (intros; now rewrite log_snoc).
  exists m', res. split; auto. split.
  { rewrite run_snoc, Hr. simpl. now rewrite E. }
  split; auto. split; [now apply ordered_combine|]. exact H2.
Qed.

Lemma merge_invisible ops m o m' :
  ordered ops -> run manager_new ops = Some m ->
  (exists p lo hi, o = OpCombine p lo hi) \/ (exists p, o = OpCombinePredicate p) ->
  run1 m o = Some m' ->
  forall q lo hi ids ids', tables_in_range m q lo hi = Some ids -> tables_in_range m' q lo hi = Some ids' ->
    forall r, rows_of m ids r <-> rows_of m' ids' r.
Proof.
  intros Ho Hr Hkind Ho1 q lo hi ids ids' Hids Hids' r.
  assert (Hl : forall q, log (ops ++ [o]) q = log ops q).
  { intros q0. rewrite log_snoc. destruct Hkind as [(p & a & b & ->)|(p & ->)]; reflexivity. }
  assert (Ho' : ordered (ops ++ [o])) by now apply ordered_combine.
  assert (Hr' : run manager_new (ops ++ [o]) = Some m') by (rewrite run_snoc, Hr; exact Ho1).
  destruct (range_reads _ _ Ho Hr q lo hi) as (i1 & E1 & R1). rewrite Hids in E1. injection E1 as <-.
  destruct (range_reads _ _ Ho' Hr' q lo hi) as (i2 & E2 & R2). rewrite Hids' in E2. injection E2 as <-.
  rewrite R1, R2. unfold stored. now rewrite Hl.
Qed.

Lemma defrag_ok ps : forall ops m f cs, ordered ops -> run manager_new ops = Some m ->
  exists m' f' extra, defrag (m, f) cs ps = Some (m', f') /\
    run manager_new (ops ++ extra) = Some m' /\ ordered (ops ++ extra) /\
    (forall q, log (ops ++ extra) q = log ops q) /\
    (forall o, In o extra -> exists p lo hi, o = OpCombine p lo hi).
Proof.
  induction ps as [|p ps IH]; intros ops m f cs Ho Hr.
  - exists m, f, []. rewrite app_nil_r. repeat split; auto. intros o [].
  - cbn [defrag]. unfold defrag1.
    destruct (S (fr_count f p) =? max_fragmentation).
    + destruct (combine_ok ops m p (match fr_last f p with Some l => l + 1 | None => 0 end) (cs + 1) Ho Hr)
        as (m1 & res & E & Hr1 & Hl1 & Ho1 & _).
      rewrite E.
      destruct (IH _ m1 (mkFrag (upd (fr_count f) p 0) (upd (fr_last f) p (Some cs))) cs Ho1 Hr1)
        as (m' & f' & extra & Ed & Hr' & Ho' & Hl' & Hc').
      exists m', f', (OpCombine p (match fr_last f p with Some l => l + 1 | None => 0 end) (cs + 1) :: extra).
      split; [exact Ed|]. rewrite <- app_assoc in Hr', Ho', Hl'. simpl in *. split; [exact Hr'|]. split; [exact Ho'|]. split.
      * intros q. rewrite Hl'. apply Hl1.
      * intros o [<-|Hin]; eauto.
    + apply IH; auto.
Qed.

Lemma defrag_invisible ops m f cs ps : ordered ops -> run manager_new ops = Some m ->
  exists m' f', defrag (m, f) cs ps = Some (m', f') /\
    forall q lo hi, exists ids, tables_in_range m' q lo hi = Some ids /\
      forall r, rows_of m' ids r <-> stored ops q lo hi r.
Proof.
  intros Ho Hr. destruct (defrag_ok ps ops m f cs Ho Hr) as (m' & f' & extra & E & Hr' & Ho' & Hl & _).
  exists m', f'. split; auto. intros q lo hi.
  destruct (range_reads _ _ Ho' Hr' q lo hi) as (ids & Ei & Hi). exists ids. split; auto.
  intros r. rewrite Hi. unfold stored. now rewrite Hl.
Qed.

(** ** Fact ids *)

(** All rows have a column and the last values of all rows have one storage type. *)
Definition uniform (cls : Z -> nat) (rows : list row) : Prop :=
  forall x y, In x rows -> In y rows -> x <> [] /\ last_class cls x = last_class cls y.

Lemma row_position_cons cls rows r : r <> [] -> row_position cls rows r = typed_position cls rows r.
Proof. now destruct r. Qed.
Lemma same_class_true cls x y : x <> [] -> last_class cls x = last_class cls y -> same_class cls x y = true.
Proof.
  unfold same_class. intros Hx <-. unfold last_class. destruct (rev x) as [|z l] eqn:E; simpl.
  - apply (f_equal (@length Z)) in E. rewrite rev_length in E. now destruct x.
  - apply Nat.eqb_refl.
Qed.
Lemma row_position_In cls rows r i : row_position cls rows r = Some i -> In r rows /\ i < length rows.
Proof.
  unfold row_position. destruct r as [|z r]; [discriminate|].
  revert i. induction rows as [|x rest IH]; cbn [typed_position]; intros i H; [discriminate|].
  destruct (row_eq_dec x (z :: r)) as [->|].
  - injection H as <-. simpl. split; [now left|lia].
  - destruct (typed_position cls rest (z :: r)) as [j|]; [|discriminate]. injection H as <-. simpl.
    destruct (IH j eq_refl). split; [now right|]. destruct (same_class _ _ _); lia.
Qed.
Lemma row_position_spec cls rows r i : uniform cls rows -> row_position cls rows r = Some i -> nth_error rows i = Some r.
Proof.
  intros Hu H. destruct (row_position_In _ _ _ _ H) as [Hin _].
  rewrite row_position_cons in H by now apply (Hu r r).
  revert i Hin H. induction rows as [|x rest IH]; simpl; intros i Hin H; [discriminate|].
  destruct (row_eq_dec x r) as [->|].
  - injection H as <-. reflexivity.
  - destruct (typed_position cls rest r) as [j|]; [|discriminate]. injection H as <-.
    destruct Hin as [->|Hin]; [congruence|]. rewrite same_class_true.
    + simpl. apply IH; auto. intros a b Ha Hb. apply Hu; now right.
    + apply (Hu x x); now left.
    + apply (Hu x r); [now left|now right].
Qed.
Lemma row_position_none cls rows r : r <> [] -> row_position cls rows r = None -> ~ In r rows.
Proof.
  intros Hne. rewrite row_position_cons by auto. induction rows as [|x rest IH]; simpl; intros H; [tauto|].
  destruct (row_eq_dec x r) as [->|Hx]; [discriminate|].
  destruct (typed_position cls rest r); [discriminate|]. intros [->|Hin]; [congruence|]. now apply IH.
Qed.

Lemma row_id_by_id cls m l : (forall s id, In (s, id) l -> uniform cls (contents m id)) -> forall skipped r i s,
  row_id_loop cls m l skipped r = Some (i, s) -> row_by_id_loop m l skipped i = Some r /\ skipped <= i.
Proof.
  induction l as [|[st id] rest IH]; simpl; intros Hu skipped r i s H; [discriminate|].
  destruct (row_position cls (contents m id) r) as [k|] eqn:E.
  - injection H as <- <-. apply row_position_spec in E; [|eapply Hu; now left].
    assert (k < length (contents m id)) by (apply nth_error_Some; congruence).
    destruct (Nat.ltb_spec (skipped + k) (skipped + length (contents m id))); [|lia].
    replace (skipped + k - skipped) with k by lia. split; [auto|lia].
  - apply IH in H; [|intros s0 id0 Hin; apply (Hu s0 id0); now right]. destruct H as [H Hle].
    destruct (Nat.ltb_spec i (skipped + length (contents m id))); [lia|]. split; [auto|lia].
Qed.

Lemma row_by_id_flat m l : forall skipped i, skipped <= i ->
  row_by_id_loop m l skipped i = nth_error (concat (map (fun si => contents m (snd si)) l)) (i - skipped).
Proof.
  induction l as [|[st id] rest IH]; simpl; intros skipped i Hle.
  - now destruct (i - skipped).
  - destruct (Nat.ltb_spec i (skipped + length (contents m id))).
    + rewrite nth_error_app1 by lia. reflexivity.
    + rewrite nth_error_app2 by lia. rewrite IH by lia. f_equal. lia.
Qed.

Lemma row_id_some cls m l r : r <> [] -> forall skipped, (exists s id, In (s, id) l /\ In r (contents m id)) ->
  exists i s, row_id_loop cls m l skipped r = Some (i, s) /\
    exists id, In (s, id) l /\ In r (contents m id).
Proof.
  intros Hne. induction l as [|[st id] rest IH]; simpl; intros skipped (s & id0 & Hin & Hr); [destruct Hin|].
  destruct (row_position cls (contents m id) r) as [k|] eqn:E.
  - exists (skipped + k), st. split; auto. exists id. split; auto. apply row_position_In in E. tauto.
  - destruct Hin as [Heq|Hin].
    + injection Heq as -> ->. apply row_position_none in E; auto. tauto.
    + destruct (IH (skipped + length (contents m id))) as (i & s' & Hi & id' & Hin' & Hr'); eauto.
      exists i, s'. split; auto. exists id'. auto.
Qed.

Lemma fact_ids_unique cls m p r i h :
  subtables m p = Some h -> NoDup (concat (map (fun si => contents m (snd si)) (single h))) ->
  (forall s id, In (s, id) (single h) -> uniform cls (contents m id)) ->
  row_by_id m p i = Some r -> exists s', table_row_id cls m p r = Some (i, s').
Proof.
  intros Hh Hnd Hu Hi. unfold table_row_id, row_by_id in *. rewrite Hh in *.
  pose proof Hi as Hi'. rewrite row_by_id_flat in Hi' by lia. rewrite Nat.sub_0_r in Hi'.
  assert (Hex : exists s id, In (s, id) (single h) /\ In r (contents m id)).
  { pose proof (nth_error_In _ _ Hi') as Hc. apply in_concat in Hc. destruct Hc as (t & Ht & Hr).
    apply in_map_iff in Ht. destruct Ht as ([s0 id] & <- & Hin). eauto. }
  assert (Hne : r <> []).
  { destruct Hex as (s0 & id & Hin & Hr). apply (Hu s0 id Hin r r Hr Hr). }
  destruct (row_id_some cls m (single h) r Hne 0 Hex) as (j & s' & Hj & _).
  exists s'. rewrite Hj. apply row_id_by_id in Hj; auto. destruct Hj as [Hj _].
  rewrite row_by_id_flat in Hj by lia. rewrite Nat.sub_0_r in Hj.
  rewrite NoDup_nth_error in Hnd. assert (i = j) as ->; [|auto].
  apply Hnd; [apply nth_error_Some; congruence|congruence].
Qed.

Lemma find_row_loop_spec m l r :
  match find_row_loop m l r with
  | Some s => exists before id after, l = before ++ (s, id) :: after /\ In r (contents m id) /\
                forall s' id', In (s', id') before -> ~ In r (contents m id')
  | None => forall s id, In (s, id) l -> ~ In r (contents m id)
  end.
Proof.
  induction l as [|[st id] rest IH]; simpl; [intros ? ? []|].
  destruct (in_dec row_eq_dec r (contents m id)) as [Hin|Hnin].
  - exists [], id, rest. auto.
  - destruct (find_row_loop m rest r) as [s|].
    + destruct IH as (b & id0 & a & -> & H1 & H2). exists ((st, id) :: b), id0, a. split; auto. split; auto.
      intros s' id' [Heq|Hin]; [congruence|eauto].
    + intros s id0 [Heq|Hin]; [congruence|eauto].
Qed.

Lemma single_stored ops m p h : ordered ops -> run manager_new ops = Some m -> subtables m p = Some h ->
  StronglySorted lt (map fst (single h)) /\
  (forall s id, In (s, id) (single h) -> forall r, In r (contents m id) <-> stored ops p s (S s) r) /\
  (forall r s, stored ops p s (S s) r -> exists id, In (s, id) (single h)).
Proof.
  intros Ho Hr Hh. pose proof (run_minv ops m Ho Hr p) as Hp. rewrite Hh in Hp.
  split; [apply (hi_sorted _ _ _ Hp)|].
  assert (H1 : forall s id, In (s, id) (single h) -> forall r, In r (contents m id) <-> stored ops p s (S s) r).
  { intros s id Hin. destruct (step_tables ops m Ho Hr p s (S s)) as [_ Hst].
    apply Hst. unfold tables_in_range_steps. rewrite Hh. apply filter_In. split; auto. simpl.
    apply andb_true_iff. split; [apply Nat.leb_le|apply Nat.ltb_lt]; lia. }
  split; auto.
  intros r s Hs. destruct (step_tables ops m Ho Hr p s (S s)) as [Hst _]. apply Hst in Hs.
  destruct Hs as (id & Hin & Hr'). apply in_map_iff in Hin. destruct Hin as ([s' id'] & <- & Hin).
  unfold tables_in_range_steps in Hin. rewrite Hh in Hin. apply filter_In in Hin. destruct Hin as [Hin Hb].
  simpl in *. apply andb_true_iff in Hb. destruct Hb as [Hb1 Hb2]. apply Nat.leb_le in Hb1. apply Nat.ltb_lt in Hb2.
  exists id'. replace s with s' by lia. exact Hin.
Qed.

Lemma find_table_row_ok ops m p r : ordered ops -> run manager_new ops = Some m ->
  match find_table_row m p r with
  | Some s => stored ops p s (S s) r /\ forall s', s' < s -> ~ stored ops p s' (S s') r
  | None => forall s, ~ stored ops p s (S s) r
  end.
Proof.
  intros Ho Hr. unfold find_table_row. destruct (subtables m p) as [h|] eqn:Hh.
  2:{ pose proof (run_minv ops m Ho Hr p) as Hp. rewrite Hh in Hp. intros s (s' & rows & Hin & _).
      rewrite Hp in Hin. destruct Hin. }
  destruct (single_stored ops m p h Ho Hr Hh) as (Hs & H1 & H2).
  pose proof (find_row_loop_spec m (single h) r) as Hf. destruct (find_row_loop m (single h) r) as [s|].
  - destruct Hf as (b & id & a & He & Hin & Hb). split.
    + apply (H1 s id); auto. rewrite He. apply in_or_app. right. now left.
    + intros s' Hlt Hst. destruct (H2 _ _ Hst) as [id' Hin']. apply (H1 s' id' Hin') in Hst.
      rewrite He in Hin'. apply in_app_or in Hin'. destruct Hin' as [Hin'|[Heq|Hin']].
      * eapply Hb; eauto.
      * injection Heq as -> _. lia.
      * rewrite He, map_app in Hs. apply ss_app_inv in Hs. destruct Hs as (_ & Hs & _). simpl in Hs.
        inversion Hs as [|? ? _ Hf]; subst. rewrite Forall_forall in Hf.
        assert (s < s'); [|lia]. apply Hf. change s' with (fst (s', id')). now apply in_map.
  - intros s Hst. destruct (H2 _ _ Hst) as [id Hin]. apply (Hf s id Hin). now apply (H1 s id Hin).
Qed.

(** Facts are stored at most once if the log never repeats a fact and tables are sets. *)
Definition once (ops : list op) (p : tag) : Prop :=
  forall r s s', stored ops p s (S s) r -> stored ops p s' (S s') r -> s = s'.

Lemma once_nodup ops m p h : ordered ops -> run manager_new ops = Some m -> subtables m p = Some h ->
  once ops p -> (forall id, NoDup (contents m id)) ->
  NoDup (concat (map (fun si => contents m (snd si)) (single h))).
Proof.
  intros Ho Hr Hh Honce Hnd.
  destruct (single_stored ops m p h Ho Hr Hh) as (Hs & H1 & _).
  remember (single h) as l eqn:El. clear El Hh.
  induction l as [|[s id] rest IH]; simpl; [constructor|].
  inversion Hs as [|? ? Hs' Hf]; subst.
  assert (IH' : NoDup (concat (map (fun si => contents m (snd si)) rest))).
  { apply IH; auto. intros s0 id0 Hin. apply H1. now right. }
  clear IH. assert (Hd : forall r, In r (contents m id) -> ~ In r (concat (map (fun si => contents m (snd si)) rest))).
  { intros r Hin Hc. apply in_concat in Hc. destruct Hc as (t & Ht & Hrt). apply in_map_iff in Ht.
    destruct Ht as ([s' id'] & <- & Hin'). simpl in Hrt.
    apply (H1 s id) in Hin; [|now left]. apply (H1 s' id') in Hrt; [|now right].
    assert (s = s') by (eapply Honce; eauto). subst. rewrite Forall_forall in Hf.
    assert (s' < s'); [|lia]. apply Hf. simpl. change s' with (fst (s', id')). now apply in_map. }
  generalize (Hnd id) Hd. generalize (contents m id) as A. clear -IH'.
  induction A as [|a A IHA]; simpl; auto. intros Hnd Hd. inversion Hnd; subst. constructor.
  - rewrite in_app_iff. intros [|]; auto. eapply Hd; eauto.
  - apply IHA; auto.
Qed.

Definition nodup_op (o : op) : Prop :=
  match o with OpStep _ results => forall p rows, In (p, rows) results -> NoDup rows | _ => True end.

Lemma nodup_snoc (D : list (list row)) t : (forall id, NoDup (nth id D [])) -> NoDup t ->
  forall id, NoDup (nth id (D ++ [t]) []).
Proof.
  intros H Ht id. destruct (Nat.lt_ge_cases id (length D)).
  - now rewrite app_nth1.
  - rewrite app_nth2 by auto. destruct (id - length D) as [|[|k]]; simpl; auto; constructor.
Qed.

Lemma add_subtable_db m p s id m' : add_subtable m p s id = Some m' -> db m' = db m.
Proof. unfold add_subtable. destruct (subtables m p); [|discriminate]. intros H. injection H as <-. reflexivity. Qed.

Lemma add_results_nodup results : forall m step m' ps,
  (forall p rows, In (p, rows) results -> NoDup rows) ->
  (forall id, NoDup (contents m id)) -> add_results m step results = Some (m', ps) -> forall id, NoDup (contents m' id).
Proof.
  induction results as [|[q rows] rest IH]; intros m step m' ps Hnd H Ha.
  - simpl in Ha. injection Ha as <- <-. exact H.
  - destruct rows as [|r0 rows0].
    + simpl in Ha. eapply IH; eauto. intros; eapply Hnd; right; eauto.
    + simpl in Ha. destruct (add_subtable _ q step _) as [m2|] eqn:E2; [|discriminate].
      destruct (add_results m2 step rest) as [[m3 ps3]|] eqn:E3; [|discriminate]. injection Ha as -> <-.
      eapply (IH m2); [| |exact E3].
      * intros p rows Hin. apply (Hnd p rows). now right.
      * apply add_subtable_db in E2. unfold contents. rewrite E2. simpl. apply nodup_snoc; auto.
        apply (Hnd q (r0 :: rows0)). now left.
Qed.

Lemma combine_tables_nodup m p lo hi m' res : (forall id, NoDup (contents m id)) ->
  combine_tables m p lo hi = Some (m', res) -> forall id, NoDup (contents m' id).
Proof.
  intros H. unfold combine_tables. destruct (subtables m p) as [h|]; [|intros E; injection E as <- <-; auto].
  destruct (cover_range h lo hi) as [[|i1 [|i2 ids]]|]; try discriminate.
  - simpl. intros E; injection E as <- <-; auto.
  - intros E; injection E as <- <-; auto.
  - destruct (union_tables m (i1 :: i2 :: ids)) as [|x l] eqn:E; intros E'; injection E' as <- <-; auto.
    unfold contents. simpl. apply nodup_snoc; auto. rewrite <- E. apply NoDup_nodup.
Qed.

Lemma run_nodup ops m : (forall o, In o ops -> nodup_op o) -> run manager_new ops = Some m ->
  forall id, NoDup (contents m id).
Proof.
  enough (forall m0, (forall id, NoDup (contents m0 id)) -> (forall o, In o ops -> nodup_op o) ->
            run m0 ops = Some m -> forall id, NoDup (contents m id)) as Hx.
  { intros. eapply Hx; eauto. intros i. unfold contents. simpl. destruct i; constructor. }
  induction ops as [|o ops IH]; simpl; intros m0 H0 Hops Hr.
  - injection Hr as <-. exact H0.
  - destruct (run1 m0 o) as [m1|] eqn:E; [|discriminate].
    apply (IH m1); auto. clear IH Hr.
    destruct o as [p a|p sources|step results|p lo hi|p]; simpl in E.
    + unfold register_predicate in E. destruct (arities m0 p) as [a'|]; [destruct (a' =? a); [|discriminate]|]; injection E as <-; auto.
    + unfold add_edb in E. destruct sources as [|s0 sr]; [injection E as <-; auto|].
      cbn [register_table] in E. apply add_subtable_db in E. unfold contents. rewrite E. simpl.
      apply nodup_snoc; auto. apply (NoDup_nodup row_eq_dec (concat (s0 :: sr))).
    + destruct (add_results m0 step results) as [[m2 ps]|] eqn:E2; [|discriminate]. injection E as <-.
      eapply add_results_nodup; [|exact H0|exact E2].
      exact (Hops (OpStep step results) (or_introl eq_refl)).
    + destruct (combine_tables m0 p lo hi) as [[m2 res]|] eqn:E2; [|discriminate]. injection E as <-.
      eapply combine_tables_nodup; eauto.
    + unfold combine_predicate in E. destruct (subtables m0 p) as [h|]; [|injection E as <-; auto].
      destruct (last_step h) as [ls|]; [|injection E as <-; auto].
      destruct (combine_tables m0 p 0 (ls + 1)) as [[m2 res]|] eqn:E2; [|discriminate]. injection E as <-.
      eapply combine_tables_nodup; eauto.
Qed.

(** In every step, the facts of [p] have a column and the storage types of their last values agree. *)
Definition one_type (cls : Z -> nat) (ops : list op) (p : tag) : Prop :=
  forall s x y, stored ops p s (S s) x -> stored ops p s (S s) y -> x <> [] /\ last_class cls x = last_class cls y.

Lemma one_type_uniform cls ops m p h : ordered ops -> run manager_new ops = Some m -> subtables m p = Some h ->
  one_type cls ops p -> forall s id, In (s, id) (single h) -> uniform cls (contents m id).
Proof.
  intros Ho Hr Hh H1 s id Hin x y Hx Hy. destruct (single_stored ops m p h Ho Hr Hh) as (_ & Hs & _).
  apply (H1 s); now apply (Hs s id Hin).
Qed.

Lemma fact_ids_bijective cls ops m p r i :
  ordered ops -> (forall o, In o ops -> nodup_op o) -> once ops p -> one_type cls ops p -> run manager_new ops = Some m ->
  (row_by_id m p i = Some r <-> exists s, table_row_id cls m p r = Some (i, s)).
Proof.
  intros Ho Hnd Honce H1 Hr. destruct (subtables m p) as [h|] eqn:Hh.
  - pose proof (one_type_uniform cls ops m p h Ho Hr Hh H1) as Hu. split.
    + intros Hi. eapply fact_ids_unique; eauto. eapply once_nodup; eauto. eapply run_nodup; eauto.
    + intros (s & H). unfold table_row_id, row_by_id in *. rewrite Hh in *. apply row_id_by_id in H; tauto.
  - unfold row_by_id, table_row_id. rewrite Hh. split; [discriminate|]. intros (s & H). discriminate.
Qed.

Lemma fact_id_step cls ops m p r : r <> [] -> ordered ops -> run manager_new ops = Some m ->
  (exists s, stored ops p s (S s) r) <-> exists i s, table_row_id cls m p r = Some (i, s).
Proof.
  intros Hne Ho Hr. unfold table_row_id. destruct (subtables m p) as [h|] eqn:Hh.
  - destruct (single_stored ops m p h Ho Hr Hh) as (Hs & H1 & H2). split.
    + intros (s & Hst). destruct (H2 _ _ Hst) as [id Hin]. apply (H1 _ _ Hin) in Hst.
      destruct (row_id_some cls m (single h) r Hne 0) as (i & s' & E & _); eauto.
    + intros (i & s & E). clear H2.
      enough (exists s id, In (s, id) (single h) /\ In r (contents m id)) as (s' & id & Hin & Hx).
      { exists s'. eapply H1; eauto. }
      clear -E. revert E. generalize 0 as k. generalize (single h) as l.
      induction l as [|[st id] rest IH]; simpl; intros k E; [discriminate|].
      destruct (row_position cls (contents m id) r) as [j|] eqn:Ej.
      * apply row_position_In in Ej. exists st, id. split; [auto|tauto].
      * apply IH in E. destruct E as (s' & id' & Hin & Hx). exists s', id'. auto.
  - pose proof (run_minv ops m Ho Hr p) as Hp. rewrite Hh in Hp. split.
    + intros (s & s' & rows & Hin & _). rewrite Hp in Hin. destruct Hin.
    + intros (i & s & E). discriminate.
Qed.

(** The step reported with an id is a step at which the fact was stored. *)
Lemma fact_id_right_step cls ops m p r i s : ordered ops -> run manager_new ops = Some m ->
  table_row_id cls m p r = Some (i, s) -> stored ops p s (S s) r /\ forall s', s' < s -> ~ stored ops p s' (S s') r.
Proof.
  intros Ho Hr. unfold table_row_id. destruct (subtables m p) as [h|] eqn:Hh; [|discriminate].
  destruct (single_stored ops m p h Ho Hr Hh) as (Hs & H1 & H2). intros E.
  enough (exists before id after, single h = before ++ (s, id) :: after /\ In r (contents m id) /\
            forall s' id', In (s', id') before -> ~ In r (contents m id')) as (b & id & a & He & Hin & Hb).
  - split.
    + apply (H1 s id); auto. rewrite He. apply in_or_app. right. now left.
    + intros s' Hlt Hst. destruct (H2 _ _ Hst) as [id' Hin']. apply (H1 s' id' Hin') in Hst.
      rewrite He in Hin'. apply in_app_or in Hin'. destruct Hin' as [Hin'|[Heq|Hin']].
      * eapply Hb; eauto.
      * injection Heq as -> _. lia.
      * rewrite He, map_app in Hs. apply ss_app_inv in Hs. destruct Hs as (_ & Hs & _). simpl in Hs.
        inversion Hs as [|? ? _ Hf]; subst. rewrite Forall_forall in Hf.
        assert (s < s'); [|lia]. apply Hf. change s' with (fst (s', id')). now apply in_map.
  - assert (Hne : r <> []).
    { clear -E. revert E. generalize 0 as k. generalize (single h) as l.
      induction l as [|[st id] rest IH]; simpl; intros k E; [discriminate|].
      destruct (row_position cls (contents m id) r) as [j|] eqn:Ej; [|eauto]. destruct r; discriminate. }
    clear -E Hne. revert E. generalize 0 as k. generalize (single h) as l.
    induction l as [|[st id] rest IH]; simpl; intros k E; [discriminate|].
    destruct (row_position cls (contents m id) r) as [j|] eqn:Ej.
    + injection E as _ <-. apply row_position_In in Ej. exists [], id, rest. split; auto. split; [tauto|]. intros ? ? [].
    + apply IH in E. destruct E as (b & id0 & a & -> & Hin & Hb). exists ((st, id) :: b), id0, a. split; auto. split; auto.
      intros s' id' [Heq|Hi]; [|eauto]. injection Heq as <- <-. now apply (row_position_none cls).
Qed.

(** ** Checking [ordered] on concrete histories *)
Fixpoint sortedb (l : list nat) : bool :=
  match l with
  | [] => true
  | x :: r => forallb (fun y => x <? y) r && sortedb r
  end.
Lemma sortedb_ok l : sortedb l = true -> StronglySorted lt l.
Proof.
  induction l as [|x r IH]; simpl; intros H; constructor; apply andb_true_iff in H; destruct H as [H1 H2]; auto.
  rewrite forallb_forall in H1. apply Forall_forall. intros y Hy. apply Nat.ltb_lt. auto.
Qed.

Definition touched1 (o : op) : list tag :=
  match o with OpEdb q _ => [q] | OpStep _ rs => map fst rs | _ => [] end.

Lemma log_other ops : forall p, (forall o, In o ops -> ~ In p (touched1 o)) -> log ops p = [].
Proof.
  induction ops as [|o ops IH] using rev_ind; intros p H; [reflexivity|].
  rewrite log_snoc. assert (IH' : log ops p = []) by (apply IH; intros; apply H; apply in_or_app; now left).
  assert (Ho : ~ In p (touched1 o)) by (apply H; apply in_or_app; right; now left).
  destruct o as [q a|q s|s rs|q lo hi|q]; simpl in *; rewrite ?IH'; auto.
  - destruct (p =? q); auto.
  - destruct (Nat.eqb_spec p q); [subst; tauto|]. reflexivity.
  - replace (filter _ rs) with (@nil (tag * list row)); auto.
    symmetry. clear -Ho. induction rs as [|[q rows] rs IH]; simpl in *; auto.
    destruct (Nat.eqb_spec q p); simpl; [exfalso; tauto|]. apply IH. tauto.
Qed.

Definition orderedb (ops : list op) : bool :=
  forallb (fun k => forallb (fun p => sortedb (map fst (log (firstn k ops) p))) (flat_map touched1 ops))
          (seq 0 (S (length ops))).

Lemma orderedb_ok ops : orderedb ops = true -> ordered ops.
Proof.
  intros H b a p He. unfold orderedb in H. rewrite forallb_forall in H.
  assert (Hb : b = firstn (length b) ops).
  { rewrite He. rewrite firstn_app, Nat.sub_diag. simpl. now rewrite firstn_all, app_nil_r. }
  specialize (H (length b)). rewrite <- Hb in H. rewrite forallb_forall in H.
  destruct (in_dec Nat.eq_dec p (flat_map touched1 ops)) as [Hin|Hnin].
  - apply sortedb_ok, H; auto. apply in_seq. rewrite He, app_length. lia.
  - rewrite log_other; [constructor|]. intros o Ho Hp. apply Hnin. apply in_flat_map. exists o. split; auto.
    rewrite He. apply in_or_app. now left.
Qed.

Definition onceb (ops : list op) (p : tag) : bool :=
  forallb (fun a => forallb (fun b => (fst a =? fst b) ||
     forallb (fun r => if in_dec row_eq_dec r (snd b) then false else true) (snd a)) (log ops p)) (log ops p).
Lemma onceb_ok ops p : onceb ops p = true -> once ops p.
Proof.
  intros H r s s' (a & t & Hin & Ha & Hr) (a' & t' & Hin' & Ha' & Hr').
  unfold onceb in H. rewrite forallb_forall in H. specialize (H _ Hin). rewrite forallb_forall in H.
  specialize (H _ Hin'). simpl in H. apply orb_true_iff in H. destruct H as [H|H].
  - apply Nat.eqb_eq in H. lia.
  - rewrite forallb_forall in H. specialize (H _ Hr). destruct (in_dec row_eq_dec r t'); [discriminate|tauto].
Qed.
Definition nodupb (o : op) : bool :=
  match o with OpStep _ rs => forallb (fun pr => length (nodup row_eq_dec (snd pr)) =? length (snd pr)) rs | _ => true end.
Lemma nodup_len (l : list row) : length (nodup row_eq_dec l) = length l -> NoDup l.
Proof.
  assert (Hle : forall l : list row, length (nodup row_eq_dec l) <= length l).
  { induction l0 as [|x r IH]; simpl; auto. destruct (in_dec row_eq_dec x r); simpl; lia. }
  induction l as [|x r IH]; simpl; intros H; constructor.
  - destruct (in_dec row_eq_dec x r); auto. specialize (Hle r). lia.
  - destruct (in_dec row_eq_dec x r); simpl in H; [specialize (Hle r); lia|]. apply IH. lia.
Qed.
Lemma nodupb_ok ops : forallb nodupb ops = true -> forall o, In o ops -> nodup_op o.
Proof.
  intros H o Ho. rewrite forallb_forall in H. specialize (H o Ho). destruct o; simpl in *; auto.
  intros p rows Hin. rewrite forallb_forall in H. specialize (H _ Hin). simpl in H. apply Nat.eqb_eq in H. now apply nodup_len.
Qed.
