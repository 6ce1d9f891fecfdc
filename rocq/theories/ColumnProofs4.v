(* Seeking in run-length encoded columns; the adaptive builder. *)
From Coq Require Import List ZArith Bool Lia Sorted.
From Verif Require Import ColumnModel ColumnSpec ColumnProofs ColumnProofs2 ColumnProofs3.
Import ListNotations.
Local Open Scope nat_scope.

Lemma slice_cons : forall data p b x, p < b -> nth_error data p = Some x -> slice data p b = x :: slice data (p + 1) b.
Proof.
  intros data p b x H Hx. unfold slice. replace (b - p) with (S (b - (p + 1))) by lia.
  assert (E : skipn p data = x :: skipn (p + 1) data).
  { clear H. revert p Hx. induction data as [|y data IH]; intros p Hx; [destruct p; discriminate|]. destruct p as [|p]; cbn in *; [congruence|apply IH, Hx]. }
  rewrite E. reflexivity.
Qed.
Lemma slice_empty : forall data b, slice data b b = [].
Proof. intros data b. unfold slice. rewrite Nat.sub_diag. reflexivity. Qed.

Lemma find_from_rep : forall k es v fuel s a b p, good k es -> rrep es s (mk_cursor a b (Some p)) -> p <= b -> b - p < fuel ->
  let q := Nat.min (p + 1) b in
  let c' := mk_cursor a b (Some (q + smaller_prefix v (slice (expand es) q b))) in
  exists s', find_from k v fuel s = Ok (s', value (expand es) c') /\ rrep es s' c'.
Proof.
  intros k es v. induction fuel as [|fuel IH]; intros s a b p Hg Hr Hp Hf; [lia|]. cbn [find_from].
  destruct (rnext_rep k es s _ Hg Hr) as (s1 & E1 & Hr1). rewrite E1. cbn [bind snd fst]. cbn [step ca cb cat] in *.
  set (q := Nat.min (p + 1) b) in *. destruct (Nat.eq_dec q b) as [Eq|Hq].
  - rewrite Eq in *. rewrite slice_empty. cbn [smaller_prefix]. rewrite Nat.add_0_r, value_end. eauto.
  - assert (Hqb : q < b) by lia. destruct (expand_lt es q) as (x & Hx). { destruct Hr as (_ & Hb & _). cbn in Hb. lia. }
    rewrite (value_at _ _ _ _ x Hqb Hx). rewrite (slice_cons _ _ _ _ Hqb Hx). cbn [smaller_prefix].
    destruct (Z.leb_spec v x) as [Hge|Hlt].
    + destruct (Z.ltb_spec x v); [lia|]. rewrite Nat.add_0_r, (value_at _ _ _ _ x Hqb Hx). eauto.
    + destruct (Z.ltb_spec x v); [|lia]. destruct (IH s1 a b q Hg Hr1 ltac:(lia) ltac:(lia)) as (s' & E & Hr').
      rewrite Nat.min_l in E, Hr' by lia. exists s'. replace (q + S (smaller_prefix v (slice (expand es) (q + 1) b))) with (q + 1 + smaller_prefix v (slice (expand es) (q + 1) b)) by lia. auto.
Qed.

(* the difference of the value sought and the values of the column can be computed *)
Definition seekable (k : kind) (v : Z) (data : list Z) : Prop :=
  in_kind k v = true /\ (debug k = false \/ forall x, In x data -> (x < v)%Z -> in_kind k (v - x) = true).

Lemma value_start : forall es e x, filled es -> nth_error es e = Some x -> nth_error (expand es) (start es e) = Some (evalue x).
Proof.
  intros es e x Hf Hx. pose proof (filled_nth _ _ _ Hf Hx). rewrite <- (Nat.add_0_r (start es e)), (expand_nth _ _ _ 0 Hx) by lia. f_equal. lia.
Qed.

Lemma seek_target_ok : forall k es s a b p v, good k es -> at_loc es s a b p -> p < b -> sorted_on (expand es) a b ->
  seekable k v (expand es) ->
  exists te ti q, seek_target k v s = Ok (te, ti) /\ loc es q te ti /\
    forall i x, p <= i -> i < q -> i < b -> nth_error (expand es) i = Some x -> (x < v)%Z.
Proof.
  intros k es s a b p v Hg Hat Hp Hsort (Hv & Hseek). pose proof (g_filled _ _ Hg) as Hf.
  destruct Hat as (Hc & Hb & Ha & Hlo & Hup & Hi & Hl). unfold seek_target. rewrite Hc.
  set (ue := fst (upper s)) in *. set (ui := snd (upper s)) in *.
  set (bd := if 0 <? ui then S ue else ue).
  assert (Hbd : el s < bd /\ bd <= length es).
  { pose proof (loc_order es p _ _ b _ _ Hf Hl Hup) as Ho. pose proof (loc_le _ _ _ _ Hup). unfold bd. destruct (Nat.ltb_spec 0 ui).
    - split; [lia|]. destruct Hup as [_ [(x & Hx & _)|[_ Hx]]]; [|lia]. apply nth_error_Some. congruence.
    - split; [lia|lia]. }
  destruct Hbd as [Hb1 Hb2].
  change (values (from_elements es)) with (map evalue es). rewrite map_length.
  destruct (Nat.ltb_spec bd (el s)); [lia|]. destruct (Nat.ltb_spec (length es) bd); [lia|]. cbn [orb].
  set (sl := firstn (bd - el s) (skipn (el s) (map evalue es))).
  assert (Hsl : length sl = bd - el s) by (unfold sl; rewrite firstn_length, skipn_length, map_length; lia).
  assert (Hslv : forall j y, nth_error sl j = Some y -> exists x, nth_error es (el s + j) = Some x /\ evalue x = y).
  { intros j y Hy. assert (Hj : j < bd - el s) by (rewrite <- Hsl; apply nth_error_Some; congruence).
    unfold sl in Hy. rewrite nth_firstn, nth_skipn in Hy by lia.
    destruct (nth_error es (el s + j)) as [x|] eqn:Ex; [|apply nth_error_None in Ex; lia].
    rewrite (map_nth_error _ _ _ Ex) in Hy. exists x. split; [reflexivity|congruence]. }
  (* starts of later blocks are in range *)
  assert (Hst : forall f, el s < f -> f < bd -> p < start es f /\ start es f < b).
  { intros f H1 H2. split; [apply (loc_before _ _ _ _ Hf Hl); lia|].
    apply (loc_order es _ f 0 b ue ui Hf); [apply loc_start; [exact Hf|lia]|exact Hup|]. unfold bd in H2. destruct (Nat.ltb_spec 0 ui); lia. }
  destruct (binary_search_spec Z (fun x => Z.compare x v) sl) as (r & Er & Hr). fold sl in Er. rewrite Er. cbn [bind].
  set (b' := pred (match r with Found i => i | Insert i => i end) + el s).
  assert (Hidx : match r with Found i => i | Insert i => i end <= bd - el s).
  { destruct r as [j|j]; [|lia]. destruct Hr as (y & Hy & _). assert (j < length sl) by (apply nth_error_Some; congruence). lia. }
  assert (Hb' : el s <= b' /\ b' < bd) by (unfold b'; lia).
  destruct (nth_error es b') as [x|] eqn:Ex; [|apply nth_error_None in Ex; lia].
  assert (E1 : index (map evalue es) b' = Ok (evalue x)) by (apply index_Ok, map_nth_error, Ex).
  assert (E2 : index (increments (from_elements es)) b' = Ok (eincrement x)) by (apply index_Ok; cbn; apply map_nth_error, Ex).
  rewrite E1. cbn [bind]. rewrite E2. cbn [bind].
  pose proof (filled_nth _ _ _ Hf Ex) as Hxl. pose proof (value_start es b' x Hf Ex) as Hxv.
  (* Fact A *)
  assert (HA : el s < b' -> (evalue x < v)%Z).
  { intros Hlt. destruct r as [j|j]; cbn in b'.
    - destruct Hr as (y & Hy & Hcmp). apply Z.compare_eq in Hcmp. subst y.
      destruct (Hslv _ _ Hy) as (z & Hz & Hzv). assert (Hjl : j < bd - el s) by (rewrite <- Hsl; apply nth_error_Some; congruence).
      assert (Ej : el s + j = S b') by (unfold b'; lia). rewrite Ej in Hz.
      pose proof (value_start es (S b') z Hf Hz) as Hzn. destruct (Hst b' ltac:(lia) ltac:(lia)). destruct (Hst (S b') ltac:(lia) ltac:(lia)).
      pose proof (start_S _ _ _ Ex) as HS.
      assert (Hle : (evalue x <= evalue z)%Z) by (apply (Hsort (start es b') (start es (S b'))); lia || assumption).
      destruct (Z.eq_dec (evalue x) v) as [E|]; [|lia]. exfalso.
      (* all values of the block are v *)
      assert (Hall : forall i, i < elength x -> (evalue x + eincrement x * Z.of_nat i)%Z = v).
      { intros i Hil. pose proof (expand_nth es b' x i Ex Hil) as Hn.
        assert (evalue x <= evalue x + eincrement x * Z.of_nat i)%Z by (apply (Hsort (start es b') (start es b' + i)); lia || assumption).
        assert (evalue x + eincrement x * Z.of_nat i <= evalue z)%Z by (apply (Hsort (start es b' + i) (start es (S b'))); lia || assumption). lia. }
      pose proof (maximal_nth _ _ _ _ _ (g_maximal _ _ Hg) Ex Hz) as Hsep. unfold separate in Hsep.
      rewrite Hall in Hsep by lia. unfold diff_step in Hsep. pose proof (g_zero _ _ Hg) as Hz0. replace (evalue z - v)%Z with 0%Z in Hsep by lia.
      destruct (Z.leb_spec (smin k) 0); [|lia]. destruct (Z.leb_spec 0 (smax k)); [|lia]. cbn [andb] in Hsep. destruct Hsep as [Hs1 Hs2].
      pose proof (Hall 1 ltac:(lia)). apply Hs2. lia.
    - destruct Hr as (_ & Hr & _). destruct (Hr ltac:(unfold b' in Hlt; lia)) as (y & Hy & Hcmp). rewrite Z.compare_lt_iff in Hcmp.
      destruct (Hslv _ _ Hy) as (z & Hz & Hzv). replace (el s + (j - 1)) with b' in Hz by (unfold b' in *; lia). assert (x = z) by congruence. subst z. lia. }
  (* everything before the block *)
  assert (Hbefore : (evalue x < v)%Z -> forall i y, p <= i -> i < start es b' -> nth_error (expand es) i = Some y -> (y < v)%Z).
  { intros Hxlt i y H1 H2 Hy. destruct (Nat.eq_dec (el s) b') as [E|Hne].
    - exfalso. rewrite <- E in H2. destruct Hl as [Hl _]. lia.
    - destruct (Hst b' ltac:(lia) ltac:(lia)). pose proof (Hsort i (start es b') y (evalue x) ltac:(lia) ltac:(lia) ltac:(lia) Hy Hxv). lia. }
  assert (Hblock : forall n, (evalue x < v)%Z -> n <= elength x -> (forall i, i < n -> (evalue x + eincrement x * Z.of_nat i < v)%Z) ->
     forall i y, p <= i -> i < start es b' + n -> nth_error (expand es) i = Some y -> (y < v)%Z).
  { intros n Hxlt Hn Hin i y H1 H2 Hy. destruct (Nat.lt_ge_cases i (start es b')) as [H3|H3]; [eapply Hbefore; eassumption|].
    pose proof (expand_nth es b' x (i - start es b') Ex ltac:(lia)) as Hn'. replace (start es b' + (i - start es b')) with i in Hn' by lia.
    assert (y = (evalue x + eincrement x * Z.of_nat (i - start es b'))%Z) by congruence. subst y. apply Hin. lia. }
  pose proof (start_S _ _ _ Ex) as HS.
  destruct (Z.leb_spec v (evalue x)) as [Hvx|Hvx].
  { exists b', 0, (start es b'). split; [reflexivity|]. split; [apply loc_start; [exact Hf|lia]|].
    intros i y H1 H2. exfalso. destruct (Nat.eq_dec (el s) b') as [E|Hne]; [|pose proof (HA ltac:(lia)); lia].
    rewrite <- E in H2. destruct Hl as [Hl _]. lia. }
  destruct (Z.eqb_spec (eincrement x) 0) as [E0|E0].
  { exists (S b'), 0, (start es (S b')). split; [reflexivity|]. split; [apply loc_start; [exact Hf|lia]|].
    intros i y H1 H2 _ Hy. apply (Hblock (elength x) Hvx (Nat.le_refl _)) with (i := i); [|lia|lia|exact Hy]. intros j _. rewrite E0. lia. }
  destruct (Z.ltb_spec (eincrement x) 0) as [Hneg|Hpos].
  - assert (Hdown : forall i, (evalue x + eincrement x * Z.of_nat i < v)%Z) by (intros i; nia).
    destruct (vmin k =? 0)%Z; cbn [andb].
    { exists b', 0, (start es b'). split; [reflexivity|]. split; [apply loc_start; [exact Hf|lia]|].
      intros i y H1 H2 _ Hy. eapply Hbefore; eassumption. }
    assert (Hj : exists j, jump k v (evalue x) (eincrement x) = Ok j).
    { unfold jump. destruct (in_kind k (v - evalue x)) eqn:Ed; [eauto|]. destruct Hseek as [Hd|Hd]; [rewrite Hd; eauto|].
      rewrite (Hd (evalue x)) in Ed; [discriminate| |lia]. eapply nth_error_In; exact Hxv. }
    destruct Hj as (j & Ej). rewrite Ej. cbn [bind]. rewrite block_start_ok by lia. cbn [bind]. rewrite ends_index by lia. cbn [bind].
    destruct (Nat.leb_spec (start es (S b')) (j + start es b')) as [Hje|Hje].
    + exists (S b'), 0, (start es (S b')). split; [reflexivity|]. split; [apply loc_start; [exact Hf|lia]|].
      intros i y H1 H2 _ Hy. apply (Hblock (elength x) Hvx (Nat.le_refl _)) with (i := i); [|lia|lia|exact Hy]. intros i' _. apply Hdown.
    + exists b', j, (start es b' + j). split; [reflexivity|]. split; [split; [reflexivity|left; exists x; split; [exact Ex|lia]]|].
      intros i y H1 H2 _ Hy. apply (Hblock j Hvx) with (i := i); [lia| |lia|lia|exact Hy]. intros i' _. apply Hdown.
  - assert (Hpos' : (0 < eincrement x)%Z) by lia. cbn [andb].
    assert (Hj : exists j, jump k v (evalue x) (eincrement x) = Ok j /\ forall i, i < j -> (evalue x + eincrement x * Z.of_nat i < v)%Z).
    { unfold jump. destruct (in_kind k (v - evalue x)) eqn:Ed.
      - eexists. split; [reflexivity|]. intros i Hij. set (d := (v - evalue x)%Z) in *. assert (Hd0 : (0 <= d)%Z) by lia.
        rewrite Z.quot_div_nonneg in Hij by lia. pose proof (Z.div_mod d (eincrement x) ltac:(lia)). pose proof (Z.mod_pos_bound d (eincrement x) Hpos').
        assert (Hk : (Z.of_nat i < d / eincrement x)%Z) by lia.
        assert (eincrement x * Z.of_nat i < eincrement x * (d / eincrement x))%Z by (apply Z.mul_lt_mono_pos_l; assumption). lia.
      - assert (Hd : debug k = false).
        { destruct Hseek as [Hd|Hd]; [exact Hd|]. rewrite (Hd (evalue x)) in Ed; [discriminate| |lia]. eapply nth_error_In; exact Hxv. }
        rewrite Hd. eexists. split; [reflexivity|]. intros i Hij. exfalso.
        pose proof (typed_nth _ _ _ _ (g_typed _ _ Hg) Hxv). apply in_kind_iff in Hv.
        set (d := (v - evalue x - (vmax k - vmin k + 1))%Z) in *. assert (d <= 0)%Z by lia.
        replace d with (- (- d))%Z in Hij by lia. rewrite Z.quot_opp_l in Hij by lia. rewrite Z.quot_div_nonneg in Hij by lia.
        pose proof (Z.div_pos (- d) (eincrement x) ltac:(lia) ltac:(lia)). lia. }
    destruct Hj as (j & Ej & Hup'). rewrite Ej. cbn [bind]. rewrite block_start_ok by lia. cbn [bind]. rewrite ends_index by lia. cbn [bind].
    destruct (Nat.leb_spec (start es (S b')) (j + start es b')) as [Hje|Hje].
    + exists (S b'), 0, (start es (S b')). split; [reflexivity|]. split; [apply loc_start; [exact Hf|lia]|].
      intros i y H1 H2 _ Hy. apply (Hblock (elength x) Hvx (Nat.le_refl _)) with (i := i); [|lia|lia|exact Hy]. intros i' Hi'. apply Hup'. lia.
    + exists b', j, (start es b' + j). split; [reflexivity|]. split; [split; [reflexivity|left; exists x; split; [exact Ex|lia]]|].
      intros i y H1 H2 _ Hy. apply (Hblock j Hvx) with (i := i); [lia| |lia|lia|exact Hy]. exact Hup'.
Qed.

Lemma rrep_start : forall es s c, filled es -> rrep es s c ->
  let p := match cat c with None => ca c | Some p => p end in
  ca c <= p <= cb c /\
  (p < cb c -> at_loc es (initialize s) (ca c) (cb c) p) /\
  (p = cb c -> cur (initialize s) = None /\ self_in_range (initialize s) = false).
Proof.
  intros es s c Hf Hrep p. pose proof Hrep as (Hc & Hb & Hlo & Hup & Hp). unfold p. destruct (cat c) as [q|] eqn:Ec.
  - destruct Hp as (Hr & H1 & H2). split; [lia|]. split.
    + intros H. destruct (H1 H) as (Hi & Hl & _). unfold initialize. rewrite Hi. unfold at_loc. do 6 (split; [assumption || lia|]). exact Hl.
    + intros H. destruct (H2 H) as (Hcu & Ho). split; [|exact Ho]. unfold initialize. destruct (init s); exact Hcu.
  - destruct (initialize_at es s c Hrep Ec) as (Hat & Hcur). split; [lia|]. split; [intros _; exact Hat|].
    intros H. split; [exact Hcur|]. rewrite (at_loc_range _ _ _ _ _ Hf Hat). apply Nat.ltb_ge. lia.
Qed.

Lemma initialize_frame : forall s, col (initialize s) = col s /\ lower (initialize s) = lower s /\ upper (initialize s) = upper s /\
  cur (initialize s) = cur s /\ init (initialize s) = true /\ initialize (initialize s) = initialize s.
Proof. intros s. unfold initialize. destruct (init s) eqn:E; cbn; rewrite ?E; auto 10. Qed.

Lemma rseek_rep : forall k es s c v, good k es -> rrep es s c -> permitted (expand es) (Seek v) c -> seekable k v (expand es) ->
  exists s', rseek k v s = Ok (s', value (expand es) (step (expand es) (Seek v) c)) /\ rrep es s' (step (expand es) (Seek v) c).
Proof.
  intros k es s c v Hg Hrep Hperm Hseek. apply sorted_slice in Hperm. pose proof (g_filled _ _ Hg) as Hf.
  destruct (rrep_start es s c Hf Hrep) as (Hr & H1 & H2). cbn [step]. set (p := match cat c with None => ca c | Some p => p end) in *.
  pose proof Hrep as (Hc & Hb & Hlo & Hup & Hp0).
  assert (Hend : p = cb c -> forall s', (s' = s \/ s' = initialize s) -> rrep es s' (mk_cursor (ca c) (cb c) (Some (cb c)))).
  { intros E s' Hs'. destruct (H2 E) as (Hcu & Ho). destruct (initialize_frame s) as (F1 & F2 & F3 & F4 & F5 & F6).
    assert (col s' = col s /\ lower s' = lower s /\ upper s' = upper s /\ cur s' = cur s /\ initialize s' = initialize s) as (G1 & G2 & G3 & G4 & G5)
      by (destruct Hs' as [->| ->]; auto 10).
    unfold rrep. cbn [ca cb cat]. rewrite G1, G2, G3, G4, G5. do 6 (split; [assumption || lia|]). intros _. split; [congruence|exact Ho]. }
  unfold rseek.
  destruct (values (col s)) as [|v0 vs] eqn:Ev.
  { assert (es = []) by (rewrite Hc in Ev; cbn in Ev; destruct es; [reflexivity|discriminate]). subst es.
    assert (cb c = 0) by (cbn in Hb; unfold total in Hb; cbn in Hb; lia). assert (p = cb c) by lia. rewrite H0, slice_empty. cbn [smaller_prefix].
    rewrite Nat.add_0_r, value_end. exists s. split; [reflexivity|]. apply Hend; [exact H0|left; reflexivity]. }
  clear v0 vs Ev. destruct (Nat.eq_dec p (cb c)) as [E|Hne].
  { destruct (H2 E) as (_ & Ho). rewrite Ho. cbn [negb]. exists (initialize s). rewrite E, slice_empty. cbn [smaller_prefix].
    rewrite Nat.add_0_r, value_end. split; [reflexivity|]. apply Hend; [exact E|right; reflexivity]. }
  assert (Hpb : p < cb c) by lia. specialize (H1 Hpb). rewrite (at_loc_range _ _ _ _ _ Hf H1). destruct (Nat.ltb_spec p (cb c)); [|lia]. cbn [negb].
  destruct (seek_target_ok k es _ _ _ p v Hg H1 Hpb Hperm Hseek) as (te & ti & q & Et & Hlt & Hsmall). rewrite Et. cbn [bind fst snd].
  set (s0 := initialize s) in *.
  set (s1 := if (el s0 <? te) || ((te =? el s0) && (inc s0 <? ti)) then set_pos s0 te ti else s0).
  set (m := Nat.max p q).
  assert (Hat : at_loc es s1 (ca c) (cb c) m).
  { pose proof H1 as (A1 & A2 & A3 & A4 & A5 & A6 & A7). pose proof (loc_order es p _ _ q te ti Hf A7 Hlt) as Ho.
    assert (Hcond : (el s0 <? te) || ((te =? el s0) && (inc s0 <? ti)) = (p <? q)).
    { apply Bool.eq_true_iff_eq. rewrite orb_true_iff, andb_true_iff, !Nat.ltb_lt, Nat.eqb_eq. lia. }
    unfold s1. rewrite Hcond. destruct (Nat.ltb_spec p q) as [Hpq|Hpq].
    - unfold m. rewrite Nat.max_r by lia. unfold at_loc, set_pos. cbn. do 6 (split; [assumption || lia|]). exact Hlt.
    - unfold m. rewrite Nat.max_l by lia. exact H1. }
  assert (Hm : forall i x, p <= i -> i < m -> i < cb c -> nth_error (expand es) i = Some x -> (x < v)%Z).
  { intros i x G1 G2 G3 Gx. apply (Hsmall i x); [lia|lia|lia|exact Gx]. }
  rewrite (at_loc_range _ _ _ _ _ Hf Hat).
  assert (Hcol : col s1 = from_elements es) by apply Hat.
  assert (Hcb : cb c <= length (expand es)) by (rewrite expand_length; lia).
  destruct (Nat.ltb_spec m (cb c)) as [Hmb|Hmb].
  - rewrite Hcol. destruct (get_internal_ok k es m (el s1) (inc s1)) as (x & Ex & Hx); try apply Hg; [apply Hat|lia|].
    rewrite Ex. cbn [bind]. pose proof (at_loc_rep es s1 _ _ m x Hat Hmb Hx) as Hrep1.
    destruct (Z.leb_spec v x) as [Hvx|Hvx].
    + rewrite (seek_position (expand es) v p (cb c) m); [|exact Hcb|lia|lia| |].
      * rewrite (value_at _ _ _ _ x Hmb Hx). eexists. split; [reflexivity|exact Hrep1].
      * intros i y G1 G2 Gy. apply (Hm i y); [lia|lia|lia|exact Gy].
      * intros y _ Hy. assert (x = y) by congruence. lia.
    + change (col (set_cur s1 (Some x))) with (col s1). rewrite Hcol, rlen_total.
      destruct (find_from_rep k es v (S (total es)) _ _ _ _ Hg Hrep1 ltac:(lia) ltac:(lia)) as (s' & E & Hr').
      rewrite Nat.min_l in E, Hr' by lia.
      assert (Eq : p + smaller_prefix v (slice (expand es) p (cb c)) = m + 1 + smaller_prefix v (slice (expand es) (m + 1) (cb c))).
      { assert (Hpre : forall d q', q' = p + d -> q' <= cb c -> (forall i y, p <= i -> i < q' -> nth_error (expand es) i = Some y -> (y < v)%Z) ->
           p + smaller_prefix v (slice (expand es) p (cb c)) = q' + smaller_prefix v (slice (expand es) q' (cb c))).
        { induction d as [|d IH]; intros q' Eq' Hq' Hall; [rewrite Eq', Nat.add_0_r; reflexivity|].
          rewrite (IH (p + d) eq_refl ltac:(lia)); [|intros i y; intros; apply (Hall i y); [lia|lia|assumption]].
          destruct (expand_lt es (p + d) ltac:(lia)) as (y & Hy). rewrite (slice_cons _ (p + d) _ y) by (lia || exact Hy). cbn [smaller_prefix].
          pose proof (Hall (p + d) y ltac:(lia) ltac:(lia) Hy). destruct (Z.ltb_spec y v); [|lia]. replace (p + d + 1) with q' by lia. lia. }
        apply (Hpre (m + 1 - p)); [lia|lia|]. intros i y G1 G2 Gy. destruct (Nat.eq_dec i m) as [->|Hn]; [assert (x = y) by congruence; lia|].
        apply (Hm i y); [lia|lia|lia|exact Gy]. }
      rewrite Eq. eauto.
  - cbn [bind]. pose proof (at_loc_cur es s1 _ _ _ None Hat) as Hat1.
    pose proof (at_loc_rep_end es _ _ _ m Hf Hat1 Hmb eq_refl) as Hrep1.
    change (col (set_cur s1 None)) with (col s1). rewrite Hcol, rlen_total.
    destruct (find_from_rep k es v (S (total es)) _ _ _ _ Hg Hrep1 ltac:(lia) ltac:(lia)) as (s' & E & Hr').
    rewrite Nat.min_r in E, Hr' by lia. rewrite slice_empty in E, Hr'. cbn [smaller_prefix] in E, Hr'. rewrite Nat.add_0_r in E, Hr'.
    rewrite (seek_position (expand es) v p (cb c) (cb c)); [|exact Hcb|lia|lia| |lia].
    + eauto.
    + intros i y G1 G2 Gy. apply (Hm i y); [lia|lia|lia|exact Gy].
Qed.

Lemma rnew_rep : forall es, filled es -> exists s, rscan_new (from_elements es) = Ok s /\ rrep es s (mk_cursor 0 (total es) None).
Proof.
  intros es Hf. unfold rscan_new. rewrite rlen_total. destruct (locate_ok es (total es) Hf (Nat.le_refl _)) as (e & i & E & Hl). rewrite E. cbn [bind].
  eexists. split; [reflexivity|]. unfold rrep. cbn. split; [reflexivity|]. split; [lia|]. split; [apply (loc_start es 0 Hf); lia|]. split; [exact Hl|auto].
Qed.
Lemma rreset_rep : forall es s c, rrep es s c -> rrep es (rreset s) (step (expand es) Reset c).
Proof. intros es s c (Hc & Hb & Hlo & Hup & Hp). unfold rrep, rreset, step. cbn. auto 10. Qed.
Lemma rnarrow_rep : forall es s c a b, filled es -> rrep es s c -> a <= b <= total es ->
  exists s', rnarrow a b s = Ok s' /\ rrep es s' (step (expand es) (Narrow a b) c).
Proof.
  intros es s c a b Hf (Hc & Hb & Hlo & Hup & Hp) H. unfold rnarrow. rewrite Hc.
  destruct (locate_ok es a Hf ltac:(lia)) as (e & i & E & Hl). rewrite E. cbn [bind].
  destruct (locate_ok es b Hf ltac:(lia)) as (e' & i' & E' & Hl'). rewrite E'. cbn [bind].
  eexists. split; [reflexivity|]. unfold rrep, step. cbn. auto 10.
Qed.

(* ---------- get, iteration ---------- *)

Lemma rget_ok : forall k es i, good k es -> i < total es -> exists v, rget k (from_elements es) i = Ok v /\ nth_error (expand es) i = Some v.
Proof.
  intros k es i Hg Hi. unfold rget. destruct (locate_ok es i (g_filled _ _ Hg) ltac:(lia)) as (e & j & E & Hl). rewrite E. cbn [bind fst snd].
  apply (get_internal_ok k es i e j); try apply Hg; assumption.
Qed.

Lemma rcollect_rep : forall k es fuel s c, good k es -> rrep es s c ->
  let q := match cat c with None => ca c | Some p => Nat.min (p + 1) (cb c) end in
  cb c - q < fuel -> rcollect k fuel s = Ok (slice (expand es) q (cb c)).
Proof.
  intros k es. induction fuel as [|fuel IH]; intros s c Hg Hr q Hf; [lia|]. cbn [rcollect].
  destruct (rnext_rep k es s c Hg Hr) as (s1 & E1 & Hr1). rewrite E1. cbn [bind snd fst]. cbn [step] in *. fold q in E1, Hr1 |- *.
  pose proof Hr1 as (_ & Hb & _ & _ & Hq & _). cbn in Hb, Hq.
  destruct (Nat.eq_dec q (cb c)) as [Eq|Hq'].
  - rewrite Eq, value_end, slice_empty. reflexivity.
  - destruct (expand_lt es q ltac:(lia)) as (x & Hx). rewrite (value_at _ _ _ _ x) by (lia || exact Hx).
    specialize (IH s1 _ Hg Hr1). cbn [cat cb ca] in IH. rewrite Nat.min_l in IH by lia. rewrite IH by lia. cbn [bind].
    rewrite (slice_cons _ q _ x) by (lia || exact Hx). reflexivity.
Qed.

Lemma slice_all : forall data, slice data 0 (length data) = data.
Proof. intros data. unfold slice. rewrite Nat.sub_0_r. cbn. apply firstn_all. Qed.

Lemma riter_ok : forall k es, good k es -> riter k (from_elements es) = Ok (expand es).
Proof.
  intros k es Hg. unfold riter. destruct (rnew_rep es (g_filled _ _ Hg)) as (s & E & Hr). rewrite E. cbn [bind]. rewrite rlen_total.
  pose proof (rcollect_rep k es (S (total es)) s _ Hg Hr) as H. cbn [cat ca cb] in H. rewrite H by lia. rewrite <- expand_length, slice_all. reflexivity.
Qed.

(* ---------- the adaptive builder ---------- *)

Lemma fits_le : forall k m n, m <= n -> fits k n -> fits k m.
Proof. intros k m n H [H0|H0]; [left; exact H0|right]. intros i s Hi. apply H0. lia. Qed.

Lemma built_good : forall k b data, (smin k <= 0 <= smax k)%Z -> typed k data -> fits k (length data) -> built k b data -> good k (rev (relements b)).
Proof.
  intros k b data Hk Ht Hfit (Hex & Hf & Hs & Hm & Hc & Hp & H1). constructor; try assumption.
  - rewrite Hex. exact Ht.
  - rewrite <- expand_length, Hex. exact Hfit.
Qed.

Definition abuilt (k : kind) (b : abuilder) (data : list Z) : Prop :=
  match abuild b with BVector l => l = data | BRle rb => built k rb data end.

Lemma expand_sparse_built : forall k b data, (smin k <= 0 <= smax k)%Z -> typed k data -> fits k (length data) -> abuilt k b data ->
  exists b', expand_sparse k b = Ok b' /\ abuilt k b' data.
Proof.
  intros k b data Hk Ht Hfit Hb. unfold expand_sparse, abuilt in *. destruct (abuild b) as [rb|l] eqn:E.
  - destruct (average rb <? target b).
    + unfold rfinalize. rewrite riter_ok by (eapply built_good; eassumption). cbn [bind]. eexists. split; [reflexivity|]. cbn. apply Hb.
    + exists b. rewrite E. auto.
  - exists b. rewrite E. auto.
Qed.

Lemma aadd_built : forall k b data v, (smin k <= 0 <= smax k)%Z -> typed k data -> fits k (length data) -> abuilt k b data ->
  exists b', aadd k v b = Ok b' /\ abuilt k b' (data ++ [v]).
Proof.
  intros k b data v Hk Ht Hfit Hb. unfold aadd.
  assert (G : exists b1, match threshold b, abuild b with
        | Some t, BRle rb => if t <? length (relements rb) then expand_sparse k b else Ok b
        | _, _ => Ok b
        end = Ok b1 /\ abuilt k b1 data).
  { destruct (threshold b) as [t|]; [|eauto]. destruct (abuild b) as [rb|l] eqn:E; [|eauto]. destruct (t <? length (relements rb)); [|eauto].
    apply expand_sparse_built; assumption. }
  destruct G as (b1 & E1 & Hb1). rewrite E1. cbn [bind]. unfold abuilt in *. destruct (abuild b1) as [rb|l].
  - destruct (radd_built k rb data v Hk Hb1) as (rb' & E & Hb'). rewrite E. cbn [bind]. eexists. split; [reflexivity|]. exact Hb'.
  - eexists. split; [reflexivity|]. cbn. rewrite Hb1. reflexivity.
Qed.

Lemma add_all_built : forall k l b data, (smin k <= 0 <= smax k)%Z -> typed k (data ++ l) -> fits k (length (data ++ l)) -> abuilt k b data ->
  exists b', add_all k l b = Ok b' /\ abuilt k b' (data ++ l).
Proof.
  intros k. induction l as [|v l IH]; intros b data Hk Ht Hfit Hb; cbn [add_all].
  - rewrite app_nil_r. eauto.
  - destruct (aadd_built k b data v Hk) as (b1 & E1 & Hb1); [apply Forall_app in Ht; apply Ht| |exact Hb|].
    + eapply fits_le; [|exact Hfit]. rewrite app_length. lia.
    + rewrite E1. cbn [bind]. replace (data ++ v :: l) with ((data ++ [v]) ++ l) in * by (rewrite <- app_assoc; reflexivity).
      apply IH; assumption.
Qed.

(* what a column represents *)
Definition represents (k : kind) (c : column) (data : list Z) : Prop :=
  match c with
  | Vector l => l = data
  | Rle r => exists es, r = from_elements es /\ expand es = data /\ good k es
  end.

Lemma build_represents : forall k t g data, (smin k <= 0 <= smax k)%Z -> typed k data -> fits k (length data) ->
  exists c, build_column k t g data = Ok c /\ represents k c data.
Proof.
  intros k t g data Hk Ht Hfit. unfold build_column.
  assert (H0 : abuilt k (anew t g) []).
  { unfold abuilt, anew. cbn. unfold built. cbn. repeat split; try constructor. congruence. intros e []. }
  destruct (add_all_built k data (anew t g) [] Hk Ht Hfit H0) as (b & E & Hb). rewrite E. cbn [bind]. cbn [app] in Hb. unfold afinalize.
  destruct (expand_sparse_built k b data Hk Ht Hfit Hb) as (b1 & E1 & Hb1). rewrite E1. cbn [bind]. eexists. split; [reflexivity|].
  unfold abuilt, represents in *. destruct (abuild b1) as [rb|l]; [|exact Hb1]. exists (rev (relements rb)). split; [reflexivity|].
  split; [apply Hb1|]. eapply built_good; eassumption.
Qed.
