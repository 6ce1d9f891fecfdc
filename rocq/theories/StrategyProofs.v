(** Proofs about the rule selection strategies. *)
From Coq Require Import List Arith Bool Lia Permutation Relations.
From Verif Require Import TableModel EngineModel StrategyModel StrategySpec.
Import ListNotations.

Definition safe {T} (next : T -> option bool -> option (option nat * T)) (s0 : T) (n : nat) : Prop :=
  forall H s r, history next s0 H s r -> exists o s', next s r = Some (o, s') /\ forall i, o = Some i -> i < n.

Lemma safe_hist {T} next (s0 : T) n : safe next s0 n -> forall H s r, history next s0 H s r -> forall i b, In (i, b) H -> i < n.
Proof.
  intros Hs. induction 1 as [|H s r i s' b Hh IH Hn]; [intros ? ? []|].
  intros i0 b0 Hi. apply in_app_iff in Hi. destruct Hi as [Hi|[Hi|[]]]; [eauto|]. injection Hi as <- <-.
  destruct (Hs _ _ _ Hh) as (o & s'' & E & Ho). rewrite Hn in E. injection E as <- <-. auto.
Qed.

(** ** Round robin *)

Fixpoint leading (R : list (nat * bool)) : nat :=
  match R with (_, false) :: R' => S (leading R') | _ => 0 end.

Record rr_inv (n : nat) (recs : list bool) (H : list (nat * bool)) (s : rr) (resp : option bool) : Prop := {
  ri_count : rr_count s = n;
  ri_rec : rr_rec s = recs;
  ri_cur : rr_cur s < n;
  ri_wd : rr_without s < n;
  ri_cases : (H = [] /\ resp = None /\ rr_without s = 0 /\ rr_cur s = 0) \/
    exists b R, rev H = (rr_cur s, b) :: R /\ resp = Some b /\ leading R = rr_without s /\
      forall d, d <= rr_without s -> exists b', nth_error (rev H) d = Some ((rr_cur s + n - d) mod n, b') /\ (0 < d -> b' = false) }.

Lemma rr_step n recs H s resp : 0 < n -> length recs = n -> rr_inv n recs H s resp ->
  exists o s', rr_next s resp = Some (o, s') /\
    (forall i, o = Some i -> i < n /\ forall b, rr_inv n recs (H ++ [(i, b)]) s' (Some b)) /\
    (o = None -> n <= leading (rev H) /\ forall i, i < n -> exists d, d < n /\ nth_error (rev H) d = Some (i, false)) /\
    (n <= leading (rev H) -> o = None).
Proof.
  intros Hn Hl [I1 I2 I3 I4 I5]. unfold rr_next. rewrite I1, I2.
  destruct (n =? 0) eqn:En; [apply Nat.eqb_eq in En; lia|].
  destruct (nth_error recs (rr_cur s)) as [rec|] eqn:Er; [|apply nth_error_None in Er; lia].
  destruct I5 as [(-> & -> & W & C)|(b & R & ER & -> & W & Hd)].
  - exists (Some 0), s. split; [reflexivity|]. split; [|split; [discriminate|simpl; lia]].
    intros i E. injection E as <-. split; auto. intros b. constructor; auto. right. exists b, []. simpl. rewrite C, W.
    repeat split; auto. intros d Hd. exists b. assert (d = 0) by lia. subst d. simpl. split; [|lia]. f_equal. f_equal. rewrite Nat.sub_0_r. now rewrite Nat.mod_same by lia.
  - set (wd := if b then 0 else S (rr_without s)).
    assert (Hlead : leading (rev H) = wd). { rewrite ER. simpl. unfold wd. destruct b; auto. }
    destruct (n <=? wd) eqn:Ew.
    + apply Nat.leb_le in Ew. exists None. eexists. split; [reflexivity|]. split; [discriminate|]. split; [|auto].
      intros _. split; [lia|]. intros i Hi. unfold wd in Ew. destruct b; [lia|].
      exists ((rr_cur s + n - i) mod n). assert (Hdn : (rr_cur s + n - i) mod n < n) by (apply Nat.mod_upper_bound; lia). split; auto.
      set (d := (rr_cur s + n - i) mod n) in *.
      destruct (Hd d) as (b' & Hb & Hb'); [lia|]. rewrite Hb. f_equal. f_equal.
      * unfold d. destruct (le_lt_dec i (rr_cur s)) as [Hle|Hgt].
        -- assert (E1 : (rr_cur s + n - i) mod n = rr_cur s - i).
           { replace (rr_cur s + n - i) with (rr_cur s - i + 1 * n) by lia. rewrite Nat.mod_add by lia. apply Nat.mod_small. lia. }
           rewrite E1. replace (rr_cur s + n - (rr_cur s - i)) with (i + 1 * n) by lia. rewrite Nat.mod_add by lia. now apply Nat.mod_small.
        -- rewrite (Nat.mod_small (rr_cur s + n - i)) by lia. replace (rr_cur s + n - (rr_cur s + n - i)) with i by lia. now apply Nat.mod_small.
      * destruct (Nat.eq_dec d 0) as [E0|]; [|apply Hb'; lia]. rewrite E0 in Hb. rewrite ER in Hb. simpl in Hb. now injection Hb as _ <-.
    + apply Nat.leb_gt in Ew. set (cur := if (if b then negb rec else true) then (rr_cur s + 1) mod n else rr_cur s).
      exists (Some cur). eexists. split; [reflexivity|].
      assert (Hcur : cur < n). { unfold cur. destruct (if b then negb rec else true); auto. apply Nat.mod_upper_bound. lia. }
      split; [|split; [discriminate|intros; lia]].
      intros i E. injection E as <-. split; auto. intros b'. constructor; simpl; auto. right. exists b', (rev H). rewrite rev_app_distr. simpl.
      split; auto. split; auto. split; auto. intros d Hle. destruct d as [|d].
      * exists b'. split; [|lia]. simpl. f_equal. f_equal. replace (cur + n - 0) with (cur + 1 * n) by lia. rewrite Nat.mod_add by lia. symmetry. now apply Nat.mod_small.
      * simpl. unfold wd in Hle, Ew. destruct b; [lia|]. destruct (Hd d) as (b2 & Hb2 & Hb3); [lia|]. exists b2. split.
        -- change (nth_error (rev H) d = Some ((cur + n - S d) mod n, b2)). rewrite Hb2. f_equal. f_equal.
           unfold cur. destruct (Nat.eq_dec (rr_cur s + 1) n) as [Ec|Ec].
           ++ rewrite Ec, Nat.mod_same by lia. replace (rr_cur s + n - d) with (0 + n - S d + 1 * n) by lia. rewrite Nat.mod_add by lia. reflexivity.
           ++ rewrite (Nat.mod_small (rr_cur s + 1)) by lia. f_equal. lia.
        -- intros _. destruct d as [|d]; [|apply Hb3; lia]. rewrite ER in Hb2. simpl in Hb2. now injection Hb2 as _ <-.
Qed.

Lemma rr_history rules H s resp : 0 < length rules -> history rr_next (rr_new rules) H s resp ->
  rr_inv (length rules) (map is_recursive rules) H s resp.
Proof.
  intros Hn. induction 1 as [|H s resp i s' b Hh IH Hnx].
  - constructor; simpl; auto.
  - destruct (rr_step _ _ _ _ _ Hn (map_length _ _) IH) as (o & s'' & E & Ho & _). rewrite Hnx in E. injection E as <- <-.
    now apply (Ho i).
Qed.

Lemma rr_safe rules : safe rr_next (rr_new rules) (length rules).
Proof.
  intros H s r Hh. destruct (Nat.eq_dec (length rules) 0) as [E0|E0].
  - assert (Hc : rr_count s = 0).
    { revert E0 Hh. clear. intros E0. induction 1 as [|H s resp i s' b Hh IH Hnx]; [exact E0|]. unfold rr_next in Hnx. rewrite IH in Hnx. discriminate. }
    unfold rr_next. rewrite Hc. simpl. eexists. eexists. split; [reflexivity|discriminate].
  - assert (Hn : 0 < length rules) by lia. destruct (rr_step _ _ _ _ _ Hn (map_length _ _) (rr_history rules H s r Hn Hh)) as (o & s' & E & Ho & _).
    exists o, s'. split; auto. intros i Hi. now apply Ho.
Qed.

(** The history of a stopped round robin ends with a round without derivations. *)
Lemma rr_stops rules H : stops rr_next (rr_new rules) H ->
  forall i, i < length rules -> exists l, nth_error H l = Some (i, false) /\ forall k e, l <= k -> nth_error H k = Some e -> snd e = false.
Proof.
  intros (s & resp & s' & Hh & Hn) i Hi. assert (Hpos : 0 < length rules) by lia.
  destruct (rr_step _ _ _ _ _ Hpos (map_length _ _) (rr_history rules H s resp Hpos Hh)) as (o & s'' & E & _ & Ho & _).
  rewrite Hn in E. injection E as <- <-. destruct (Ho eq_refl) as [Hlead Hall]. destruct (Hall i Hi) as (d & Hd & Hnth).
  assert (Hdl : d < length (rev H)) by (apply nth_error_Some; congruence). rewrite rev_length in Hdl.
  assert (Hrev : forall (l : list (nat * bool)) d, d < length l -> nth_error (rev l) d = nth_error l (length l - S d)).
  { clear. intros l d Hd. rewrite (nth_error_nth' (rev l) (0,false)) by (rewrite rev_length; auto).
    rewrite rev_nth by auto. symmetry. apply nth_error_nth'. lia. }
  exists (length H - S d). rewrite <- Hrev by auto. split; auto.
  intros k e Hk He. assert (Hkl : k < length H) by (apply nth_error_Some; congruence).
  assert (Hin : forall (R : list (nat * bool)) m e, m < leading R -> nth_error R m = Some e -> snd e = false).
  { clear. induction R as [|[x [|]] R IH]; intros m e Hm He; simpl in Hm; try lia. destruct m as [|m]; simpl in He; [now injection He as <-|]. apply (IH m); auto. lia. }
  apply (Hin (rev H) (length H - S k)); [lia|]. rewrite Hrev by lia. rewrite <- He. f_equal. lia.
Qed.

(** It stops exactly after a full round without derivations. *)
Lemma leading_spec R n : n <= leading R <-> n <= length R /\ forall e, In e (firstn n R) -> snd e = false.
Proof.
  revert n. induction R as [|[x [|]] R IH]; intros n.
  - simpl. split; [intros; split; [lia|]|intros []; lia]. assert (n = 0) by lia. subst. simpl. tauto.
  - simpl. split; [intros; assert (n = 0) by lia; subst; simpl; split; [lia|tauto]|].
    intros [Hl Hf]. destruct n; [lia|]. specialize (Hf (x, true)). simpl in Hf. discriminate Hf. auto.
  - simpl. destruct n as [|n]; [simpl; split; [split; [lia|tauto]|lia]|]. simpl. specialize (IH n). split.
    + intros Hle. destruct IH as [IH _]. destruct IH as [Hl Hf]; [lia|]. split; [lia|]. intros e [<-|He]; auto.
    + intros [Hl Hf]. assert (n <= leading R); [apply IH; split; [lia|auto]|lia].
Qed.

Lemma rr_stop_iff rules H s resp : history rr_next (rr_new rules) H s resp ->
  (exists s', rr_next s resp = Some (None, s')) <->
  exists H1 H2, H = H1 ++ H2 /\ length H2 = length rules /\ forall e, In e H2 -> snd e = false.
Proof.
  intros Hh. destruct (Nat.eq_dec (length rules) 0) as [E0|E0].
  - split.
    + intros _. exists H, []. rewrite app_nil_r. rewrite E0. simpl. tauto.
    + intros _. destruct (rr_safe rules H s resp Hh) as (o & s' & E & Ho). exists s'. rewrite E. destruct o as [i|]; auto. specialize (Ho i eq_refl). lia.
  - assert (Hn : 0 < length rules) by lia. pose proof (rr_step _ _ _ _ _ Hn (map_length _ _) (rr_history rules H s resp Hn Hh)) as (o & s' & E & _ & Ho1 & Ho2).
    assert (Hiff : length rules <= leading (rev H) <-> exists H1 H2, H = H1 ++ H2 /\ length H2 = length rules /\ forall e, In e H2 -> snd e = false).
    { rewrite leading_spec, rev_length. split.
      - intros [Hl Hf]. exists (firstn (length H - length rules) H), (skipn (length H - length rules) H).
        rewrite firstn_skipn. split; auto. split; [rewrite skipn_length; lia|]. intros e He. apply Hf.
        rewrite firstn_rev. rewrite <- in_rev. exact He.
      - intros (H1 & H2 & -> & Hl & Hf). rewrite app_length. split; [lia|]. rewrite rev_app_distr.
        intros e He. rewrite <- Hl, <- rev_length, firstn_app, firstn_all, Nat.sub_diag in He. simpl in He. rewrite app_nil_r in He.
        apply Hf. now apply in_rev. }
    rewrite <- Hiff. split.
    + intros (s'' & E'). rewrite E in E'. injection E' as -> _. now apply Ho1.
    + intros Hle. rewrite (Ho2 Hle) in E. eauto.
Qed.

(** ** Sequences of groups *)

Definition relabel (ids : list nat) (h : list (nat * bool)) : list (nat * bool) := map (fun rb => (nth (fst rb) ids 0, snd rb)) h.

Lemma stops_nil {T} next (s : T) s' : next s None = Some (None, s') -> stops next s [].
Proof. intros E. exists s, None, s'. split; auto. constructor. Qed.

Lemma seq_next_inv {T} (next : T -> option bool -> option (option nat * T)) l resp o st' :
  seq_next next l resp = Some (o, st') ->
  exists sk rest, l = sk ++ rest /\
    (forall x, sk = [] \/ (exists x0 sk' s', sk = x0 :: sk' /\ next (snd x0) resp = Some (None, s') /\ (In x sk' -> exists s'', next (snd x) None = Some (None, s'')))) /\
    ((o = None /\ rest = []) \/
     exists ids s rest' s' r i, rest = (ids, s) :: rest' /\ next s (match sk with [] => resp | _ => None end) = Some (Some r, s') /\
       nth_error ids r = Some i /\ o = Some i /\ st' = (ids, s') :: rest').
Proof.
  revert resp. induction l as [|[ids s] l IH]; intros resp; simpl.
  - intros E. injection E as <- <-. exists [], []. split; auto.
  - destruct (next s resp) as [[[r|] s']|] eqn:En; [| |discriminate].
    + destruct (nth_error ids r) as [i|] eqn:Ei; [|discriminate]. intros E. injection E as <- <-.
      exists [], ((ids, s) :: l). split; auto. split; auto. right. exists ids, s, l, s', r, i. auto 10.
    + intros E. destruct (IH None E) as (sk & rest & -> & Hsk & Hc). exists ((ids, s) :: sk), rest. split; auto. split.
      * intros x. right. exists (ids, s), sk, s'. split; auto. split; auto. intros Hx.
        destruct (Hsk x) as [->|(x0 & sk' & s2 & -> & Hx0 & Hx')]; [destruct Hx|]. destruct Hx as [<-|Hx]; eauto.
      * destruct Hc as [Hc|(ids1 & s1 & rest' & s1' & r & i & H1 & H2 & H3)]; auto. right. exists ids1, s1, rest', s1', r, i. split; auto. split; auto.
        destruct sk; auto.
Qed.

Section Seq.
Context {T : Type} (next : T -> option bool -> option (option nat * T)).

Definition ran (sub : list nat * T) (h' : list (nat * bool)) : Prop :=
  exists h s r, history next (snd sub) h s r /\ (forall i b, In (i, b) h -> i < length (fst sub)) /\ h' = relabel (fst sub) h.
Definition ran_all (sub : list nat * T) (h' : list (nat * bool)) : Prop :=
  exists h, stops next (snd sub) h /\ (forall i b, In (i, b) h -> i < length (fst sub)) /\ h' = relabel (fst sub) h.

Lemma ran_all_ran sub h : ran_all sub h -> ran sub h.
Proof. intros (h0 & (s & r & s' & Hh & _) & Hv & ->). exists h0, s, r. auto. Qed.

Lemma seq_hist subs H st resp : history (seq_next next) subs H st resp ->
  (H = [] /\ st = subs /\ resp = None) \/
  exists pre Hs ids s0 s rest h, subs = pre ++ (ids, s0) :: rest /\ st = (ids, s) :: rest /\ Forall2 ran_all pre Hs /\
    history next s0 h s resp /\ (forall i b, In (i, b) h -> i < length ids) /\ H = concat Hs ++ relabel ids h.
Proof.
  induction 1 as [|H st resp i st' b Hh IH Hn]; [auto|right].
  destruct (seq_next_inv _ _ _ _ _ Hn) as (sk & rest & Est & Hsk & [[? _]|(ids & s & rest' & s' & r & i' & Er & Hr & Hi & Ei & ->)]); [discriminate|].
  injection Ei as <-. subst rest.
  destruct IH as [(-> & -> & ->)|(pre & Hs & ids0 & s0 & s1 & rest0 & h & -> & -> & Hpre & Hh0 & Hv & ->)].
  - (* the first call *)
    exists sk, (map (fun _ => []) sk), ids, s, s', rest', [(r, b)]. split; auto. split; auto. split.
    { clear - Hsk. assert (Hall : forall x, In x sk -> exists s', next (snd x) None = Some (None, s')).
      { intros x Hx. destruct (Hsk x) as [->|(x0 & sk' & s' & -> & Hx0 & Hx')]; [destruct Hx|]. destruct Hx as [<-|Hx]; eauto. }
      clear Hsk. induction sk as [|x sk IH]; simpl; constructor.
      - destruct (Hall x) as (s' & Hs'); [simpl; auto|]. exists []. split; [eapply stops_nil; eauto|]. split; [intros ? ? []|reflexivity].
      - apply IH. intros y Hy. apply Hall. simpl. auto. }
    assert (Hnone : next s None = Some (Some r, s')) by (destruct sk; auto).
    split; [apply (h_step next s [] s None r s' b); [constructor|auto]|]. split.
    { intros i0 b0 [Hi0|[]]. injection Hi0 as <- <-. apply nth_error_Some. congruence. }
    assert (Ec : concat (map (fun _ : list nat * T => @nil (nat * bool)) sk) = []) by (clear; induction sk; simpl; auto).
    rewrite Ec. simpl. f_equal. f_equal. symmetry. apply nth_error_nth. auto.
  - destruct sk as [|x0 sk].
    + simpl in Est. injection Est as <- <- <-. exists pre, Hs, ids0, s0, s', rest0, (h ++ [(r, b)]).
      split; auto. split; auto. split; auto. split; [now apply (h_step _ _ h s1 resp)|]. split.
      { intros i0 b0 Hx. apply in_app_iff in Hx. destruct Hx as [Hx|[Hx|[]]]; eauto. injection Hx as <- <-. apply nth_error_Some. congruence. }
      unfold relabel. rewrite map_app, app_assoc. f_equal. simpl. f_equal. f_equal. symmetry. apply nth_error_nth. auto.
    + simpl in Est. injection Est as <- Est. subst rest0.
      exists (pre ++ (ids0, s0) :: sk), (Hs ++ relabel ids0 h :: map (fun _ => []) sk), ids, s, s', rest', [(r, b)].
      split; [now rewrite <- app_assoc|]. split; auto. split.
      { apply Forall2_app; auto. constructor.
        - destruct (Hsk (ids0, s1)) as [?|(x1 & sk' & s2 & E & Hx1 & _)]; [discriminate|]. injection E as <- <-. simpl in Hx1.
          exists h. split; [|auto]. exists s1, resp, s2. auto.
        - clear - Hsk. assert (Hall : forall x, In x sk -> exists s', next (snd x) None = Some (None, s')).
          { intros x Hx. destruct (Hsk x) as [?|(x0 & sk' & s' & E & Hx0 & Hx')]; [discriminate|]. injection E as <- <-. auto. }
          clear Hsk. induction sk as [|x sk IH]; simpl; constructor.
          + destruct (Hall x) as (s' & Hs'); [simpl; auto|]. exists []. split; [eapply stops_nil; eauto|]. split; [intros ? ? []|reflexivity].
          + apply IH. intros y Hy. apply Hall. simpl. auto. }
      split; [apply (h_step next s [] s None r s' b); [constructor|auto]|]. split.
      { intros i0 b0 [Hi0|[]]. injection Hi0 as <- <-. apply nth_error_Some. congruence. }
      assert (Ec : concat (map (fun _ : list nat * T => @nil (nat * bool)) sk) = []) by (clear; induction sk; simpl; auto).
      rewrite concat_app. simpl. rewrite Ec, app_nil_r. f_equal. f_equal. f_equal. symmetry. apply nth_error_nth. auto.
Qed.

Lemma seq_running subs H st resp : history (seq_next next) subs H st resp ->
  exists pre rest Hs, subs = pre ++ rest /\ Forall2 ran pre Hs /\ H = concat Hs.
Proof.
  intros Hh. destruct (seq_hist _ _ _ _ Hh) as [(-> & _ & _)|(pre & Hs & ids & s0 & s & rest & h & -> & -> & Hpre & Hh0 & Hv & ->)].
  - exists [], subs, []. auto.
  - exists (pre ++ [(ids, s0)]), rest, (Hs ++ [relabel ids h]). split; [now rewrite <- app_assoc|]. split.
    + apply Forall2_app; [|constructor; [exists h, s, resp; auto|constructor]].
      clear - Hpre. induction Hpre; constructor; auto. now apply ran_all_ran.
    + rewrite concat_app. simpl. now rewrite app_nil_r.
Qed.

Lemma seq_stops subs H : stops (seq_next next) subs H -> exists Hs, Forall2 ran_all subs Hs /\ H = concat Hs.
Proof.
  intros (st & resp & st' & Hh & Hn).
  destruct (seq_next_inv _ _ _ _ _ Hn) as (sk & rest & Est & Hsk & [[_ ->]|(ids & s & rest' & s' & r & i' & Er & Hr & Hi & Ei & ->)]); [|discriminate].
  rewrite app_nil_r in Est. subst sk.
  destruct (seq_hist _ _ _ _ Hh) as [(-> & -> & ->)|(pre & Hs & ids & s0 & s & rest & h & -> & -> & Hpre & Hh0 & Hv & ->)].
  - exists (map (fun _ => []) subs). split.
    + assert (Hall : forall x, In x subs -> exists s', next (snd x) None = Some (None, s')).
      { intros x Hx. destruct (Hsk x) as [->|(x0 & sk' & s' & -> & Hx0 & Hx')]; [destruct Hx|]. destruct Hx as [<-|Hx]; eauto. }
      clear - Hall. induction subs as [|x sk IH]; simpl; constructor.
      * destruct (Hall x) as (s' & Hs'); [simpl; auto|]. exists []. split; [eapply stops_nil; eauto|]. split; [intros ? ? []|reflexivity].
      * apply IH. intros y Hy. apply Hall. simpl. auto.
    + clear. induction subs; simpl; auto.
  - exists (Hs ++ relabel ids h :: map (fun _ => []) rest). split.
    + apply Forall2_app; auto. constructor.
      * destruct (Hsk (ids, s)) as [?|(x1 & sk' & s2 & E & Hx1 & _)]; [discriminate|]. injection E as <- <-. simpl in Hx1.
        exists h. split; [|auto]. exists s, resp, s2. auto.
      * assert (Hall : forall x, In x rest -> exists s', next (snd x) None = Some (None, s')).
        { intros x Hx. destruct (Hsk x) as [?|(x0 & sk' & s' & E & Hx0 & Hx')]; [discriminate|]. injection E as <- <-. auto. }
        clear - Hall. induction rest as [|x sk IH]; simpl; constructor.
        -- destruct (Hall x) as (s' & Hs'); [simpl; auto|]. exists []. split; [eapply stops_nil; eauto|]. split; [intros ? ? []|reflexivity].
        -- apply IH. intros y Hy. apply Hall. simpl. auto.
    + rewrite concat_app. simpl. assert (Ec : concat (map (fun _ : list nat * T => @nil (nat * bool)) rest) = []) by (clear; induction rest; simpl; auto).
      now rewrite Ec, app_nil_r.
Qed.

Lemma seq_safe subs n : (forall ids s, In (ids, s) subs -> safe next s (length ids) /\ forall i, In i ids -> i < n) -> safe (seq_next next) subs n.
Proof.
  intros Hsub. 
  assert (Hgo : forall l resp, (forall ids s, In (ids, s) l -> (forall i, In i ids -> i < n)) ->
     (forall ids s rest, l = (ids, s) :: rest -> (exists o s', next s resp = Some (o, s') /\ forall i, o = Some i -> i < length ids) /\
        forall ids' s', In (ids', s') rest -> exists o s2, next s' None = Some (o, s2) /\ forall i, o = Some i -> i < length ids') ->
     exists o l', seq_next next l resp = Some (o, l') /\ forall i, o = Some i -> i < n).
  { induction l as [|[ids s] l IH]; intros resp Hids Hl; simpl.
    - eexists; eexists; split; [reflexivity|discriminate].
    - destruct (Hl ids s l eq_refl) as [(o & s' & E & Ho) Hrest]. rewrite E. destruct o as [r|].
      + destruct (nth_error ids r) as [i|] eqn:Ei; [|apply nth_error_None in Ei; specialize (Ho r eq_refl); lia].
        eexists; eexists; split; [reflexivity|]. intros i0 Hi0. injection Hi0 as <-. apply (Hids ids s); simpl; auto. eapply nth_error_In; eauto.
      + apply IH.
        * intros ids' s2 Hi. apply (Hids ids' s2). simpl. auto.
        * intros ids' s2 rest ->. split; [apply Hrest; simpl; auto|]. intros. apply Hrest. simpl. auto. }
  intros H st resp Hh. destruct (seq_hist _ _ _ _ Hh) as [(-> & -> & ->)|(pre & Hs & ids & s0 & s & rest & h & -> & -> & Hpre & Hh0 & Hv & ->)].
  - apply Hgo; [intros; eapply Hsub; eauto|]. intros ids s rest ->. split.
    + destruct (Hsub ids s) as [Hs _]; [simpl; auto|]. destruct (Hs [] s None) as (o & s' & E & Ho); [constructor|]. eauto.
    + intros ids' s' Hin. destruct (Hsub ids' s') as [Hs _]; [simpl; auto|]. destruct (Hs [] s' None) as (o & s2 & E & Ho); [constructor|]. eauto.
  - apply Hgo.
    + intros ids' s' [Hi|Hi]; [injection Hi as <- <-; apply (Hsub ids s0)|apply (Hsub ids' s')]; apply in_app_iff; simpl; auto.
    + intros ids' s' rest' E. injection E as <- <- <-. split.
      * destruct (Hsub ids s0) as [Hs0 _]; [apply in_app_iff; simpl; auto|]. eapply Hs0; eauto.
      * intros ids' s2 Hin. destruct (Hsub ids' s2) as [Hs2 _]; [apply in_app_iff; simpl; auto|]. destruct (Hs2 [] s2 None) as (o & s3 & E & Ho); [constructor|]. eauto.
Qed.
End Seq.

Lemma Forall2_len {A B} (R : A -> B -> Prop) l l' : Forall2 R l l' -> length l = length l'.
Proof. induction 1; simpl; auto. Qed.

(** ** Positions in a concatenation *)

Definition off {A} (c : nat) (Ls : list (list A)) : nat := length (concat (firstn c Ls)).

Lemma off_S {A} c (Ls : list (list A)) L : nth_error Ls c = Some L -> off (S c) Ls = off c Ls + length L.
Proof.
  revert c. induction Ls as [|M Ls IH]; intros [|c] E; simpl in E; try discriminate.
  - injection E as <-. unfold off. simpl. rewrite app_nil_r. lia.
  - specialize (IH c E). unfold off in *. change (firstn (S (S c)) (M :: Ls)) with (M :: firstn (S c) Ls). change (firstn (S c) (M :: Ls)) with (M :: firstn c Ls).
    rewrite !concat_cons, !app_length. lia.
Qed.
Lemma off_mono {A} c c' (Ls : list (list A)) : c <= c' -> off c Ls <= off c' Ls.
Proof.
  revert c c'. induction Ls as [|M Ls IH]; intros c c' Hle; unfold off; [now rewrite !firstn_nil|].
  destruct c as [|c], c' as [|c']; simpl; try lia. rewrite !app_length. specialize (IH c c'). unfold off in IH. lia.
Qed.
Lemma concat_pos {A} (Ls : list (list A)) k x : nth_error (concat Ls) k = Some x ->
  exists c L j, nth_error Ls c = Some L /\ nth_error L j = Some x /\ k = off c Ls + j.
Proof.
  revert k. induction Ls as [|M Ls IH]; intros k E; [destruct k; discriminate|]. simpl in E.
  destruct (lt_dec k (length M)) as [Hlt|Hge].
  - rewrite nth_error_app1 in E by auto. exists 0, M, k. auto.
  - rewrite nth_error_app2 in E by lia. destruct (IH _ E) as (c & L & j & H1 & H2 & H3). exists (S c), L, j. split; auto. split; auto.
    unfold off in *. simpl. rewrite app_length. lia.
Qed.
Lemma concat_nth {A} (Ls : list (list A)) c L j x : nth_error Ls c = Some L -> nth_error L j = Some x -> nth_error (concat Ls) (off c Ls + j) = Some x.
Proof.
  revert c. induction Ls as [|M Ls IH]; intros [|c] E Ej; simpl in E; try discriminate.
  - injection E as ->. unfold off. simpl. rewrite nth_error_app1; auto. apply nth_error_Some. congruence.
  - specialize (IH c E Ej). unfold off in *. simpl. rewrite app_length. rewrite nth_error_app2 by lia. rewrite <- IH. f_equal. lia.
Qed.
Lemma off_order {A} (Ls : list (list A)) c c' L L' j j' : nth_error Ls c = Some L -> nth_error Ls c' = Some L' ->
  j < length L -> j' < length L' -> off c Ls + j <= off c' Ls + j' -> c < c' \/ (c = c' /\ j <= j').
Proof.
  intros E E' Hj Hj' Hle. destruct (lt_eq_lt_dec c c') as [[?| ->]|Hlt]; [auto|right; lia|].
  pose proof (off_S _ _ _ E'). pose proof (off_mono (S c') c Ls Hlt). lia.
Qed.

(** ** Every rule is finally quiet *)

Definition quiet (n : nat) (E : nat -> nat -> Prop) (H : list (nat * bool)) : Prop :=
  forall i, i < n -> exists l b, nth_error H l = Some (i, b) /\
    forall k j, l <= k -> nth_error H k = Some (j, true) -> ~ E j i.

Lemma rr_quiet rules H E : stops rr_next (rr_new rules) H -> quiet (length rules) E H.
Proof.
  intros Hs i Hi. destruct (rr_stops rules H Hs i Hi) as (l & Hl & Hq). exists l, false. split; auto.
  intros k j Hk Hj. specialize (Hq k (j, true) Hk Hj). discriminate.
Qed.

Lemma nth_relabel g h j : nth_error (relabel g h) j = option_map (fun rb => (nth (fst rb) g 0, snd rb)) (nth_error h j).
Proof. unfold relabel. apply nth_error_map. Qed.

Lemma seq_quiet n E (groups : list (list nat)) (Hs : list (list (nat * bool))) :
  Forall2 (fun g h' => exists h, h' = relabel g h /\ (forall r b, In (r, b) h -> r < length g) /\
     quiet (length g) (fun a b => E (nth a g 0) (nth b g 0)) h) groups Hs ->
  (forall i, i < n -> exists c g, nth_error groups c = Some g /\ In i g) ->
  (forall c c' g g' u v, nth_error groups c = Some g -> nth_error groups c' = Some g' -> In u g -> In v g' -> E u v -> c <= c') ->
  quiet n E (concat Hs).
Proof.
  intros HF Hcov Htopo i Hi. destruct (Hcov i Hi) as (c & g & Hg & Hin). destruct (In_nth g i 0 Hin) as (t & Ht & Et).
  assert (HFn : forall c g, nth_error groups c = Some g -> exists h', nth_error Hs c = Some h' /\ exists h, h' = relabel g h /\ (forall r b, In (r, b) h -> r < length g) /\
     quiet (length g) (fun a b => E (nth a g 0) (nth b g 0)) h).
  { clear - HF. induction HF as [|g0 h0 gs hs Hx HF IH]; intros [|c] g E0; simpl in E0; try discriminate.
    - injection E0 as <-. exists h0. auto.
    - apply IH in E0. auto. }
  assert (HFl : forall c h', nth_error Hs c = Some h' -> exists g, nth_error groups c = Some g).
  { intros c0 h0 E0. assert (c0 < length groups). { rewrite (Forall2_len _ _ _ HF). apply nth_error_Some. congruence. }
    destruct (nth_error groups c0) eqn:E1; [eauto|]. apply nth_error_None in E1. lia. }
  destruct (HFn c g Hg) as (h' & Hh' & h & -> & Hv & Hq). destruct (Hq t Ht) as (l0 & b & Hl0 & Hl0q).
  exists (off c Hs + l0), b. split.
  { eapply concat_nth; eauto. rewrite nth_relabel, Hl0. simpl. now rewrite Et. }
  intros k j Hk Hj Hej. destruct (concat_pos _ _ _ Hj) as (c' & L & j' & Hc' & Hj' & ->).
  destruct (HFl c' L Hc') as (g' & Hg'). destruct (HFn c' g' Hg') as (L' & HL' & h2 & -> & Hv2 & Hq2). rewrite Hc' in HL'. injection HL' as ->.
  assert (Hlt : l0 < length (relabel g h)). { unfold relabel. rewrite map_length. apply nth_error_Some. congruence. }
  assert (Hlt' : j' < length (relabel g' h2)) by (apply nth_error_Some; congruence).
  rewrite nth_relabel in Hj'. destruct (nth_error h2 j') as [[r b2]|] eqn:E2; [|discriminate]. simpl in Hj'. injection Hj' as Er Eb.
  assert (Hr : r < length g') by (apply (Hv2 r b2); eapply nth_error_In; eauto).
  destruct (off_order Hs c c' _ _ l0 j' Hh' Hc' Hlt Hlt' Hk) as [Hcc|[-> Hle]].
  - assert (c' <= c); [|lia]. apply (Htopo c' c g' g j i); auto. rewrite <- Er. now apply nth_In.
  - assert (g' = g) by congruence. subst g'. rewrite Hc' in Hh'. injection Hh' as Hh'.
    assert (Hmap : option_map (fun rb => (nth (fst rb) g 0, snd rb)) (nth_error h j') = Some (j, true)).
    { rewrite <- nth_relabel, <- Hh', nth_relabel, E2. simpl. now rewrite Er, Eb. }
    destruct (nth_error h j') as [[r' b']|] eqn:E3; [|discriminate]. simpl in Hmap. injection Hmap as Er' Eb'. subst b'.
    apply (Hl0q j' r' Hle E3). now rewrite Er', Et.
Qed.
