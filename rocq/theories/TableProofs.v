From Coq Require Import List Arith ZArith Bool Lia Sorted Permutation.
From Verif Require Import TableModel.
Import ListNotations.

(** ** normalize_range *)

Definition steps_sorted (l : list nat) := StronglySorted lt l.

Lemma ss_app_inv {A} (R : A -> A -> Prop) l1 l2 :
  StronglySorted R (l1 ++ l2) -> StronglySorted R l1 /\ StronglySorted R l2 /\
  (forall x y, In x l1 -> In y l2 -> R x y).
Proof.
  induction l1 as [|a l1 IH]; simpl; intros H.
  - repeat split; auto. constructor. intros x y [].
  - inversion H as [|? ? H1 H2]; subst. apply IH in H1. destruct H1 as (Ha & Hb & Hc).
    rewrite Forall_app in H2. destruct H2 as [H2 H3]. rewrite Forall_forall in H3.
    repeat split; auto.
    + constructor; auto.
    + intros x y [->|Hx] Hy; auto.
Qed.

(** After the start is set. *)
Lemma normalize_loop_set steps : forall index lo hi ns nl,
  steps_sorted steps ->
  exists k, normalize_loop steps index lo hi true ns nl = mkRange ns (nl + k) /\
    k <= length steps /\
    (forall j s, nth_error steps j = Some s -> (j < k <-> s < hi)).
Proof.
  induction steps as [|s rest IH]; intros index lo hi ns nl Hs; simpl.
  - exists 0. rewrite Nat.add_0_r. repeat split; auto. destruct j; discriminate. destruct j; discriminate.
  - inversion Hs as [|? ? Hs' Hf]; subst.
    destruct (Nat.leb_spec hi s).
    + exists 0. rewrite Nat.add_0_r. repeat split; try lia.
      intros Hj. destruct j as [|j]; simpl in *.
      * injection H0 as <-. lia.
      * apply nth_error_In in H0. rewrite Forall_forall in Hf. apply Hf in H0. lia.
    + destruct (IH (S index) lo hi ns (S nl) Hs') as (k & Hk & Hlen & Hj).
      exists (S k). rewrite Hk. split; [f_equal; lia|]. split; [lia|].
      intros j s0 Hn. destruct j as [|j]; simpl in Hn.
      * injection Hn as <-. lia.
      * rewrite <- (Hj j s0 Hn). lia.
Qed.

Lemma normalize_loop_unset steps : forall index lo hi,
  steps_sorted steps ->
  let r := normalize_loop steps index lo hi false 0 0 in
  (rg_len r = 0 /\ (forall s, In s steps -> ~ (lo <= s < hi))) \/
  (index <= rg_start r /\ rg_start r + rg_len r <= index + length steps /\
   forall j s, nth_error steps j = Some s ->
     (rg_start r <= index + j < rg_start r + rg_len r <-> lo <= s < hi)).
Proof.
  induction steps as [|s rest IH]; intros index lo hi Hs; simpl.
  - left. split; auto.
  - inversion Hs as [|? ? Hs' Hf]; subst. rewrite Forall_forall in Hf.
    destruct (Nat.leb_spec lo s); simpl.
    + destruct (Nat.leb_spec hi s); simpl.
      * left. split; auto. intros s0 [->|Hin]; [lia|]. apply Hf in Hin. lia.
      * destruct (normalize_loop_set rest (S index) lo hi index 1 Hs') as (k & Hk & Hlen & Hj).
        rewrite Hk. simpl. right. split; [lia|]. split; [lia|].
        intros j s0 Hn. destruct j as [|j]; simpl in Hn.
        -- injection Hn as <-. lia.
        -- pose proof (Hj j s0 Hn). apply nth_error_In in Hn. apply Hf in Hn. lia.
    + specialize (IH (S index) lo hi Hs').
      destruct IH as [[H1 H2]|(H1 & H2 & H3)].
      * left. split; auto. intros s0 [->|Hin]; [lia|]. auto.
      * right. split; [lia|]. split; [lia|].
        intros j s0 Hn. destruct j as [|j]; simpl in Hn.
        -- injection Hn as <-. lia.
        -- rewrite <- (H3 j s0 Hn). lia.
Qed.

Lemma normalize_spec h lo hi :
  steps_sorted (map fst (single h)) ->
  let r := normalize_range h lo hi in
  (rg_len r = 0 /\ (forall s id, In (s, id) (single h) -> ~ (lo <= s < hi))) \/
  (rg_start r + rg_len r <= length (single h) /\
   forall j s id, nth_error (single h) j = Some (s, id) ->
     (rg_start r <= j < rg_start r + rg_len r <-> lo <= s < hi)).
Proof.
  intros Hs r. destruct (normalize_loop_unset _ 0 lo hi Hs) as [[H1 H2]|(H1 & H2 & H3)].
  - left. split; auto. intros s id Hin. apply H2. change s with (fst (s, id)). now apply in_map.
  - right. rewrite map_length in H2. split; [exact H2|]. intros j s id Hn.
    apply (H3 j s). now rewrite (map_nth_error fst _ _ Hn).
Qed.

(** ** The cover loop *)

Definition iv_ok (nsingle : nat) (r : subtable_range) : Prop :=
  1 <= rg_len r /\ rg_start r + rg_len r <= nsingle.

Lemma inner_loop_spec l cs ts te best n b :
  inner_loop l cs ts te best = (n, b) ->
  n <= length l /\ (l <> [] -> 1 <= n) /\
  (b = best \/ exists iv id, b = Some (iv, id) /\ In (iv, id) l /\
     rg_start iv <= cs /\ ts <= rg_start iv /\ rg_end iv <= te).
Proof.
  revert best n b. induction l as [|[iv id] rest IH]; simpl; intros best n b H.
  - injection H as <- <-. repeat split; auto. congruence.
  - destruct (Nat.ltb_spec cs (rg_start iv)) as [Hlt|Hge].
    + injection H as <- <-. repeat split; auto; lia.
    + match type of H with (let '(_, _) := inner_loop _ _ _ _ ?b' in _) = _ =>
        set (best' := b') in H; assert (Hb' : best' = best \/ (best' = Some (iv, id) /\
            ts <= rg_start iv /\ rg_end iv <= te)) end.
      { unfold best'. destruct (Nat.ltb_spec (rg_start iv) ts); simpl; auto.
        destruct (Nat.ltb_spec te (rg_end iv)); simpl; auto.
        destruct best as [[b0 ?]|]; auto. destruct (rg_end b0 <? rg_end iv); auto. }
      clearbody best'.
      destruct (inner_loop rest cs ts te best') as [n' b''] eqn:E. injection H as <- <-.
      apply IH in E. destruct E as (Hn & _ & Hb). repeat split; [lia|lia|].
      destruct Hb as [->|(iv' & id' & -> & Hin & Hrest)].
      * destruct Hb' as [->|(-> & ? & ?)]; auto. right. exists iv, id. repeat split; auto.
      * right. exists iv', id'. intuition.
Qed.

(** What an id in the result of the loop stands for: the index range of singles it covers. *)
Inductive covers (h : handler) : table_id -> nat -> nat -> Prop :=
| cov_single i s id : nth_error (single h) i = Some (s, id) -> covers h id i i
| cov_comb iv id : In (iv, id) (combined h) -> covers h id (rg_start iv) (rg_end iv).

Lemma cover_loop_spec h ts te : te < length (single h) ->
  (forall iv id, In (iv, id) (combined h) -> iv_ok (length (single h)) iv) ->
  forall fuel cs ii,
  ts <= cs <= S te -> ii <= length (combined h) ->
  (length (combined h) - ii) + (if ii =? length (combined h) then S te - cs else S te) < fuel ->
  exists ids, cover_loop fuel h ts te cs ii = Some ids /\
    (forall id, In id ids -> exists a b, covers h id a b /\ ts <= a /\ b <= te) /\
    (forall i, cs <= i <= te -> exists id a b, In id ids /\ covers h id a b /\ ts <= a <= i /\ i <= b <= te).
Proof.
  intros Hte Hok. induction fuel as [|f IH]; intros cs ii Hcs Hii Hfuel; [lia|].
  cbn [cover_loop]. destruct (Nat.leb_spec cs te) as [Hle|Hgt].
  2:{ exists []. split; auto. split; [intros ? []|]. intros; lia. }
  destruct (inner_loop (skipn ii (combined h)) cs ts te None) as [n b] eqn:E.
  apply inner_loop_spec in E. destruct E as (Hn & Hn1 & Hb).
  rewrite skipn_length in Hn.
  assert (Hn2 : ii < length (combined h) -> 1 <= n).
  { intros Hlt. apply Hn1. intros Hnil. apply (f_equal (@length _)) in Hnil.
    rewrite skipn_length in Hnil. simpl in Hnil. lia. }
  destruct Hb as [->|(iv & id & -> & Hin & Hs1 & Hs2 & Hs3)].
  - destruct (nth_error (single h) cs) as [[s id]|] eqn:En.
    2:{ apply nth_error_None in En. lia. }
    destruct (IH (S cs) (ii + n)) as (ids & Hids & Hsound & Hcompl); try lia.
    { destruct (Nat.eqb_spec ii (length (combined h))); destruct (Nat.eqb_spec (ii + n) (length (combined h))); lia. }
    rewrite Hids. exists (id :: ids). split; [reflexivity|]. split.
    + intros id0 [<-|Hin]; [|auto]. exists cs, cs. split; [econstructor; eauto|lia].
    + intros i Hi. destruct (Nat.eq_dec i cs) as [->|].
      * exists id, cs, cs. split; [now left|]. split; [econstructor; eauto|lia].
      * destruct (Hcompl i) as (id0 & a & b & ? & ? & ?); [lia|].
        exists id0, a, b. split; [now right|]. auto.
  - assert (Hin' : In (iv, id) (combined h)).
    { rewrite <- (firstn_skipn ii (combined h)). apply in_or_app. now right. }
    assert (Hiv := Hok _ _ Hin'). destruct Hiv as [Hl1 Hl2].
    assert (Hlen : ii < length (combined h)).
    { destruct (Nat.lt_ge_cases ii (length (combined h))); auto.
      rewrite skipn_all2 in Hin by lia. destruct Hin. }
    specialize (Hn2 Hlen).
    assert (Hend : rg_end iv + 1 = rg_start iv + rg_len iv) by (unfold rg_end; lia).
    destruct (IH (rg_end iv + 1) (ii + n)) as (ids & Hids & Hsound & Hcompl); try lia.
    { destruct (Nat.eqb_spec ii (length (combined h))); destruct (Nat.eqb_spec (ii + n) (length (combined h))); lia. }
    rewrite Hids. exists (id :: ids). split; [reflexivity|]. split.
    + intros id0 [<-|Hin0]; [|auto]. exists (rg_start iv), (rg_end iv). split; [econstructor; eauto|lia].
    + intros i Hi. destruct (Nat.le_gt_cases (rg_end iv + 1) i).
      * destruct (Hcompl i) as (id0 & a & b & ? & ? & ?); [lia|].
        exists id0, a, b. split; [now right|]. auto.
      * exists id, (rg_start iv), (rg_end iv). split; [now left|]. split; [econstructor; eauto|lia].
Qed.

Lemma cover_range_spec h lo hi :
  steps_sorted (map fst (single h)) ->
  (forall iv id, In (iv, id) (combined h) -> iv_ok (length (single h)) iv) ->
  exists ids, cover_range h lo hi = Some ids /\
    (forall id, In id ids -> exists a b, covers h id a b /\ a <= b /\
        forall i s sid, a <= i <= b -> nth_error (single h) i = Some (s, sid) -> lo <= s < hi) /\
    (forall i s sid, nth_error (single h) i = Some (s, sid) -> lo <= s < hi ->
        exists id a b, In id ids /\ covers h id a b /\ a <= i <= b).
Proof.
  intros Hs Hok. unfold cover_range.
  destruct (single h) as [|x0 rest] eqn:Esingle.
  { exists []. split; auto. split; [intros ? []|]. intros i s sid Hn. destruct i; discriminate. }
  rewrite <- Esingle in *. clear x0 rest Esingle.
  pose proof (normalize_spec h lo hi Hs) as Hspec. cbv zeta in Hspec.
  set (r := normalize_range h lo hi) in *.
  destruct (Nat.eqb_spec (rg_len r) 0) as [Hz|Hnz].
  { exists []. split; auto. split; [intros ? []|]. intros i s sid Hn Hr.
    destruct Hspec as [[_ H2]|[H2 H3]].
    - exfalso. apply (H2 s sid). eapply nth_error_In; eauto. auto.
    - apply (H3 i s sid Hn) in Hr. lia. }
  destruct Hspec as [[H2 _]|[H2 H3]]; [lia|].
  assert (Hend : rg_end r = rg_start r + rg_len r - 1) by reflexivity.
  destruct (cover_loop_spec h (rg_start r) (rg_end r) ltac:(lia) Hok
              (S (length (combined h) + length (single h))) (rg_start r) 0)
    as (ids & Hids & Hsound & Hcompl); try lia.
  { destruct (Nat.eqb_spec 0 (length (combined h))); lia. }
  exists ids. split; [exact Hids|]. split.
  - intros id Hin. destruct (Hsound id Hin) as (a & b & Hcov & Ha & Hb).
    exists a, b. split; auto. split.
    { inversion Hcov; subst; [lia|]. apply Hok in H. destruct H. unfold rg_end in *. lia. }
    intros i s sid Hi Hn. apply (H3 i s sid Hn). lia.
  - intros i s sid Hn Hr. apply (H3 i s sid Hn) in Hr.
    destruct (Hcompl i) as (id & a & b & ? & ? & ?); [lia|].
    exists id, a, b. repeat split; auto; lia.
Qed.

(** ** Invariant *)

Definition row_union (l : list (list row)) (r : row) : Prop := exists t, In t l /\ In r t.

(** [hist p]: list of (step, rows) of predicate p *)
Record hinv (D : list (list row)) (h : handler) (hist : list (nat * list row)) : Prop := {
  hi_len : length (single h) = length hist;
  hi_single : forall i s id, nth_error (single h) i = Some (s, id) ->
     id < length D /\ exists rows, nth_error hist i = Some (s, rows) /\
       forall r, In r (nth id D []) <-> In r rows;
  hi_sorted : steps_sorted (map fst (single h));
  hi_comb : forall iv id, In (iv, id) (combined h) ->
     id < length D /\ iv_ok (length (single h)) iv /\
     forall r, In r (nth id D []) <->
       exists i s rows, rg_start iv <= i <= rg_end iv /\ nth_error hist i = Some (s, rows) /\ In r rows }.

Lemma hinv_covers D h hist id a b : hinv D h hist -> covers h id a b ->
  forall r, In r (nth id D []) <-> exists i s rows, a <= i <= b /\ nth_error hist i = Some (s, rows) /\ In r rows.
Proof.
  intros H Hc r. inversion Hc as [i s id' Hn|iv id' Hin]; subst.
  - destruct (hi_single _ _ _ H _ _ _ Hn) as [_ (rows & Hr & He)]. rewrite He. split.
    + intros Hin. exists b, s, rows. auto.
    + intros (i' & s' & rows' & Hi & Hn' & Hin). replace i' with b in * by lia. congruence.
  - destruct (hi_comb _ _ _ H _ _ Hin) as (_ & _ & He). apply He.
Qed.

Lemma hinv_cover D h hist lo hi : hinv D h hist ->
  exists ids, cover_range h lo hi = Some ids /\
   (forall id, In id ids -> id < length D) /\
   forall r, (exists id, In id ids /\ In r (nth id D [])) <->
             (exists s rows, In (s, rows) hist /\ lo <= s < hi /\ In r rows).
Proof.
  intros H.
  destruct (cover_range_spec h lo hi (hi_sorted _ _ _ H)) as (ids & Hids & Hsound & Hcompl).
  { intros iv id Hin. apply (hi_comb _ _ _ H) in Hin. tauto. }
  exists ids. split; auto. split.
  { intros id Hin. destruct (Hsound id Hin) as (a & b & Hcov & Hab).
    inversion Hcov; subst. eapply hi_single in H0; eauto. tauto. eapply hi_comb in H0; eauto. tauto. }
  assert (Hix : forall i s rows, nth_error hist i = Some (s, rows) -> exists sid, nth_error (single h) i = Some (s, sid)).
  { intros i s rows Hn.
    destruct (nth_error (single h) i) as [[s' id']|] eqn:En.
    - destruct (hi_single _ _ _ H _ _ _ En) as [_ (rows' & Hr & _)].
      rewrite Hn in Hr. injection Hr as <- <-. eauto.
    - apply nth_error_None in En. rewrite (hi_len _ _ _ H) in En. apply nth_error_None in En. congruence. }
  intros r. split.
  - intros (id & Hin & Hr). destruct (Hsound id Hin) as (a & b & Hcov & Hab & Hsteps).
    rewrite (hinv_covers D h hist id a b H Hcov) in Hr.
    destruct Hr as (i & s & rows & Hi & Hn & Hr). exists s, rows.
    split; [eapply nth_error_In; eauto|]. split; auto.
    destruct (Hix _ _ _ Hn) as [sid Hs]. eapply Hsteps; eauto.
  - intros (s & rows & Hin & Hs & Hr). apply In_nth_error in Hin. destruct Hin as [i Hn].
    destruct (Hix _ _ _ Hn) as [sid Hsn].
    destruct (Hcompl i s sid Hsn Hs) as (id & a & b & Hid & Hcov & Hi).
    exists id. split; auto. rewrite (hinv_covers D h hist id a b H Hcov). exists i, s, rows. auto.
Qed.

Lemma insert_stable_in x y l : In y (insert_stable x l) <-> y = x \/ In y l.
Proof.
  induction l as [|z r IH]; simpl.
  - intuition.
  - destruct (rg_leb (fst z) (fst x)); simpl; rewrite ?IH; intuition.
Qed.
Lemma sort_stable_in y l : In y (sort_stable l) <-> In y l.
Proof.
  unfold sort_stable.
  enough (forall acc, In y (fold_left (fun acc x => insert_stable x acc) l acc) <-> In y l \/ In y acc) as H.
  { rewrite H. simpl. tauto. }
  induction l as [|x r IH]; simpl; intros acc; [tauto|].
  rewrite IH, insert_stable_in. intuition.
Qed.

Lemma hinv_weaken D D' h hist : hinv D h hist ->
  (forall id, id < length D -> nth id D' [] = nth id D []) -> length D <= length D' -> hinv D' h hist.
Proof.
  intros H He Hl. constructor.
  - apply (hi_len _ _ _ H).
  - intros i s id Hn. destruct (hi_single _ _ _ H _ _ _ Hn) as [Hlt Hx]. split; [lia|].
    rewrite He by auto. exact Hx.
  - apply (hi_sorted _ _ _ H).
  - intros iv id Hin. destruct (hi_comb _ _ _ H _ _ Hin) as (Hlt & Hx & Hy). split; [lia|].
    rewrite He by auto. auto.
Qed.

Lemma nth_app_old (D : list (list row)) t id : id < length D -> nth id (D ++ [t]) [] = nth id D [].
Proof. intros. now rewrite app_nth1. Qed.

Lemma hinv_grow D t h hist : hinv D h hist -> hinv (D ++ [t]) h hist.
Proof.
  intros H. eapply hinv_weaken; eauto. intros; now apply nth_app_old. rewrite app_length; lia.
Qed.

Lemma ss_snoc l x : steps_sorted l -> (forall y, In y l -> y < x) -> steps_sorted (l ++ [x]).
Proof.
  unfold steps_sorted. induction l as [|a l IH]; simpl; intros H Hx.
  - repeat constructor.
  - inversion H; subst. constructor; auto. rewrite Forall_app. split; auto.
Qed.

Lemma hinv_add_single D h hist step rows rows' :
  hinv D h hist -> (forall r, In r rows' <-> In r rows) ->
  (forall s t, In (s, t) hist -> s < step) ->
  hinv (D ++ [rows']) (add_single_table h step (length D)) (hist ++ [(step, rows)]).
Proof.
  intros H Heq Hs. apply (hinv_grow D rows') in H. constructor; simpl.
  - rewrite !app_length. simpl. f_equal. apply (hi_len _ _ _ H).
  - intros i s id Hn. destruct (Nat.lt_ge_cases i (length (single h))) as [Hlt|Hge].
    + rewrite nth_error_app1 in Hn by auto. destruct (hi_single _ _ _ H _ _ _ Hn) as [Hl (rows0 & Hr & He)].
      split; auto. exists rows0. split; auto. rewrite nth_error_app1; auto. rewrite <- (hi_len _ _ _ H). auto.
    + rewrite nth_error_app2 in Hn by auto. destruct (i - length (single h)) as [|k] eqn:Ek; simpl in Hn.
      2:{ destruct k; discriminate. }
      injection Hn as <- <-. split; [rewrite app_length; simpl; lia|]. exists rows.
      rewrite nth_error_app2 by (rewrite <- (hi_len _ _ _ H); auto).
      rewrite <- (hi_len _ _ _ H), Ek. split; auto. intros r. rewrite app_nth2, Nat.sub_diag by lia. simpl. apply Heq.
  - rewrite map_app. apply ss_snoc; [apply (hi_sorted _ _ _ H)|].
    intros y Hy. apply in_map_iff in Hy. destruct Hy as ([s id] & <- & Hin). simpl.
    apply In_nth_error in Hin. destruct Hin as [i Hn].
    destruct (hi_single _ _ _ H _ _ _ Hn) as [_ (rows0 & Hr & _)]. eapply Hs. eapply nth_error_In; eauto.
  - intros iv id Hin. destruct (hi_comb _ _ _ H _ _ Hin) as (Hlt & [Hok1 Hok2] & He).
    split; auto. split.
    + split; auto. rewrite app_length. simpl. lia.
    + intros r. rewrite He. unfold rg_end. pose proof (hi_len _ _ _ H) as Hlen.
      split; intros (i & s & rows0 & Hi & Hn & Hr); exists i, s, rows0; repeat split; auto; try lia.
      * rewrite nth_error_app1; auto. lia.
      * rewrite nth_error_app1 in Hn; auto. lia.
Qed.

Lemma hinv_add_combined D h hist lo hi rows :
  hinv D h hist ->
  (forall r, In r rows <-> exists s t, In (s, t) hist /\ lo <= s < hi /\ In r t) ->
  hinv (D ++ [rows]) (add_combined_table h lo hi (length D)) hist.
Proof.
  intros H Hrows. apply (hinv_grow D rows) in H. unfold add_combined_table.
  pose proof (normalize_spec h lo hi (hi_sorted _ _ _ H)) as Hn. cbv zeta in Hn.
  set (cv := normalize_range h lo hi) in *.
  destruct (Nat.leb_spec (rg_len cv) 1) as [Hle|Hgt]; [exact H|].
  destruct Hn as [[Hz _]|[Hb Hix]]; [lia|].
  constructor; simpl; try apply H.
  intros iv id Hin. rewrite sort_stable_in, in_app_iff in Hin. destruct Hin as [Hin|[Heq|[]]].
  - apply (hi_comb _ _ _ H _ _ Hin).
  - injection Heq as <- <-. split; [rewrite app_length; simpl; lia|].
    split; [split; lia|]. intros r. rewrite app_nth2, Nat.sub_diag by lia. simpl.
    rewrite Hrows. split.
    + intros (s & t & Hin & Hs & Hr). apply In_nth_error in Hin. destruct Hin as [i Hn].
      assert (Hsi : exists sid, nth_error (single h) i = Some (s, sid)).
      { destruct (nth_error (single h) i) as [[s' id']|] eqn:En.
        - destruct (hi_single _ _ _ H _ _ _ En) as [_ (rows' & Hr' & _)].
          rewrite Hn in Hr'. injection Hr' as <- <-. eauto.
        - apply nth_error_None in En. rewrite (hi_len _ _ _ H) in En. apply nth_error_None in En. congruence. }
      destruct Hsi as [sid Hsi]. apply (Hix i s sid Hsi) in Hs.
      exists i, s, t. unfold rg_end. repeat split; auto; lia.
    + intros (i & s & t & Hi & Hn & Hr). exists s, t. split; [eapply nth_error_In; eauto|]. split; auto.
      destruct (nth_error (single h) i) as [[s' id']|] eqn:En.
      * destruct (hi_single _ _ _ H _ _ _ En) as [_ (rows' & Hr' & _)]. rewrite Hn in Hr'. injection Hr' as <- <-.
        apply (Hix i s id' En). unfold rg_end in Hi. lia.
      * apply nth_error_None in En. rewrite (hi_len _ _ _ H) in En. apply nth_error_None in En. congruence.
Qed.

(** ** Manager invariant *)

Definition minv (m : manager) (hist : tag -> list (nat * list row)) : Prop :=
  forall p, match subtables m p with
            | Some h => hinv (db m) h (hist p)
            | None => hist p = []
            end.

Lemma minv_new : minv manager_new (fun _ => []).
Proof. intros p. reflexivity. Qed.

Lemma hinv_default D : hinv D handler_default [].
Proof.
  constructor; simpl; auto.
  - intros i s id Hn. destruct i; discriminate.
  - constructor.
  - intros iv id [].
Qed.

Lemma union_tables_in m ids r :
  In r (union_tables m ids) <-> exists id, In id ids /\ In r (contents m id).
Proof.
  unfold union_tables. rewrite nodup_In, in_concat. split.
  - intros (t & Ht & Hr). apply in_map_iff in Ht. destruct Ht as (id & <- & Hin). eauto.
  - intros (id & Hin & Hr). exists (contents m id). split; auto. now apply in_map.
Qed.

(** combine_tables on a good state: no panic, same history, right result. *)
Lemma combine_tables_spec m hist p lo hi : minv m hist ->
  exists m' res, combine_tables m p lo hi = Some (m', res) /\ minv m' hist /\
    (forall p', subtables m p' = None <-> subtables m' p' = None) /\
    (forall id, id < length (db m) -> contents m' id = contents m id) /\
    (forall p' h, subtables m p' = Some h -> exists h', subtables m' p' = Some h' /\ single h' = single h) /\
    arities m' = arities m /\
    match res with
    | Some id => forall r, In r (contents m' id) <-> exists s t, In (s, t) (hist p) /\ lo <= s < hi /\ In r t
    | None => forall s t r, In (s, t) (hist p) -> lo <= s < hi -> ~ In r t
    end.
Proof.
  intros H. unfold combine_tables. pose proof (H p) as Hp.
  destruct (subtables m p) as [h|] eqn:Eh.
  2:{ exists m, None. repeat split; auto; try tauto. eauto. rewrite Hp. intros ? ? ? []. }
  destruct (hinv_cover (db m) h (hist p) lo hi Hp) as (ids & Hids & Hlt & Hrows).
  rewrite Hids.
  assert (Hgen : forall rows, rows = union_tables m ids -> rows <> [] ->
     exists m' res, Some (let '(m', id) := register_table m rows in
              (mkManager (db m') (upd (subtables m') p (Some (add_combined_table h lo hi id)))
                              (arities m'), Some id)) = Some (m', res) /\ minv m' hist /\
    (forall p', subtables m p' = None <-> subtables m' p' = None) /\
    (forall id, id < length (db m) -> contents m' id = contents m id) /\
    (forall p' h, subtables m p' = Some h -> exists h', subtables m' p' = Some h' /\ single h' = single h) /\
    arities m' = arities m /\
    match res with
    | Some id => forall r, In r (contents m' id) <-> exists s t, In (s, t) (hist p) /\ lo <= s < hi /\ In r t
    | None => forall s t r, In (s, t) (hist p) -> lo <= s < hi -> ~ In r t
    end).
  { intros rows -> Hne. simpl. eexists _, _. split; [reflexivity|].
    assert (Hr : forall r, In r (union_tables m ids) <-> exists s t, In (s, t) (hist p) /\ lo <= s < hi /\ In r t).
    { intros r. rewrite union_tables_in. apply Hrows. }
    split; [|split; [|split; [|split; [|split]]]].
    - intros p'. simpl. unfold upd. destruct (Nat.eqb_spec p' p) as [->|Hne'].
      + apply hinv_add_combined; auto.
      + specialize (H p'). destruct (subtables m p'); auto. now apply hinv_grow.
    - intros p'. simpl. unfold upd. destruct (Nat.eqb_spec p' p) as [->|Hne']; [|tauto].
      rewrite Eh. split; discriminate.
    - intros id Hid. unfold contents. simpl. now apply nth_app_old.
    - intros p' h' Hs. simpl. unfold upd. destruct (Nat.eqb_spec p' p) as [->|Hne']; [|eauto].
      eexists; split; [reflexivity|]. unfold add_combined_table.
      destruct (rg_len _ <=? 1); simpl; congruence.
    - reflexivity.
    - intros r. unfold contents. simpl. rewrite app_nth2, Nat.sub_diag by lia. simpl. apply Hr. }
  assert (Hnone : union_tables m ids = [] -> forall s t r, In (s, t) (hist p) -> lo <= s < hi -> ~ In r t).
  { intros He s t r Hin Hs Hr. assert (Hu : In r (union_tables m ids)).
    { apply union_tables_in. apply Hrows. eauto. }
    rewrite He in Hu. destruct Hu. }
  destruct ids as [|id1 [|id2 ids']].
  - simpl in *. exists m, None. repeat split; auto; try tauto. eauto.
  - exists m, (Some id1). repeat split; auto; try tauto; eauto.
    + intros Hr. apply Hrows. exists id1. split; [now left|auto].
    + intros Hr. apply Hrows in Hr. destruct Hr as (id & [<-|[]] & Hr). auto.
  - destruct (union_tables m (id1 :: id2 :: ids')) as [|x l] eqn:Eu.
    + exists m, None. repeat split; auto; try tauto. eauto.
    + rewrite <- Eu. apply Hgen; [now rewrite Eu|rewrite Eu; discriminate].
Qed.

Lemma last_step_spec D h hist : hinv D h hist ->
  match last_step h with
  | None => hist = []
  | Some ls => forall s t, In (s, t) hist -> s <= ls
  end.
Proof.
  intros H. unfold last_step. pose proof (hi_sorted _ _ _ H) as Hs.
  destruct (rev (map fst (single h))) as [|s0 rs] eqn:E.
  - assert (E' : map fst (single h) = []) by (rewrite <- (rev_involutive (map fst (single h))), E; reflexivity).
    apply map_eq_nil in E'. pose proof (hi_len _ _ _ H) as Hl. rewrite E' in Hl. destruct hist; auto. discriminate.
  - assert (E' : map fst (single h) = rev rs ++ [s0]).
    { rewrite <- (rev_involutive (map fst (single h))), E. reflexivity. }
    rewrite E' in Hs. apply ss_app_inv in Hs. destruct Hs as (_ & _ & Hlt).
    intros s t Hin. apply In_nth_error in Hin. destruct Hin as [i Hn].
    destruct (nth_error (single h) i) as [[s' id']|] eqn:En.
    + destruct (hi_single _ _ _ H _ _ _ En) as [_ (rows' & Hr' & _)]. rewrite Hn in Hr'. injection Hr' as <- <-.
      apply nth_error_In in En. apply (in_map fst) in En. simpl in En. rewrite E' in En.
      apply in_app_or in En. destruct En as [En|[<-|[]]]; [|lia].
      specialize (Hlt s s0 En (or_introl eq_refl)). lia.
    + apply nth_error_None in En. rewrite (hi_len _ _ _ H) in En. apply nth_error_None in En. congruence.
Qed.

Lemma combine_predicate_spec m hist p : minv m hist ->
  exists m' res, combine_predicate m p = Some (m', res) /\ minv m' hist /\
    (forall p', subtables m p' = None <-> subtables m' p' = None) /\
    (forall p' h, subtables m p' = Some h -> exists h', subtables m' p' = Some h' /\ single h' = single h) /\
    (forall id, id < length (db m) -> contents m' id = contents m id) /\
    arities m' = arities m /\
    match res with
    | Some id => forall r, In r (contents m' id) <-> exists s t, In (s, t) (hist p) /\ In r t
    | None => forall s t r, In (s, t) (hist p) -> ~ In r t
    end.
Proof.
  intros H. unfold combine_predicate. pose proof (H p) as Hp.
  destruct (subtables m p) as [h|] eqn:Eh.
  2:{ exists m, None. repeat split; auto; try tauto; eauto. rewrite Hp. intros ? ? ? []. }
  pose proof (last_step_spec _ _ _ Hp) as Hls. destruct (last_step h) as [ls|].
  2:{ exists m, None. repeat split; auto; try tauto; eauto. rewrite Hls. intros ? ? ? []. }
  destruct (combine_tables_spec m hist p 0 (ls + 1) H) as (m' & res & E & H1 & H2 & H3 & H4 & H5 & H6).
  exists m', res. split; auto. split; auto. split; auto. split; auto. split; auto. split; auto.
  destruct res as [id|].
  - intros r. rewrite H6. split.
    + intros (s & t & Hin & _ & Hr). eauto.
    + intros (s & t & Hin & Hr). exists s, t. split; auto. split; auto. specialize (Hls s t Hin). lia.
  - intros s t r Hin. apply (H6 s t r Hin). specialize (Hls s t Hin). lia.
Qed.

Lemma minv_add m hist p step rows rows' m' :
  minv m hist -> (forall r, In r rows' <-> In r rows) ->
  (forall s t, In (s, t) (hist p) -> s < step) ->
  add_subtable (fst (register_table m rows')) p step (length (db m)) = Some m' ->
  minv m' (upd hist p (hist p ++ [(step, rows)])).
Proof.
  intros H Heq Hs Ha. unfold add_subtable, register_table in Ha. simpl in Ha.
  pose proof (H p) as Hp. destruct (subtables m p) as [h|] eqn:Eh; [|discriminate].
  injection Ha as <-. intros p'. simpl. unfold upd. destruct (Nat.eqb_spec p' p) as [->|Hne].
  - now apply hinv_add_single.
  - specialize (H p'). destruct (subtables m p'); auto. now apply hinv_grow.
Qed.
