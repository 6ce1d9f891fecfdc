(** Soundness and completeness of a run whose schedule satisfies the conditions S0-S2. *)
From Coq Require Import List Arith ZArith Bool Lia Permutation Sorted.
From Verif Require Import TableModel TableSpec TableProofs TableProofs2 EngineModel EngineSpec EngineProofs1 EngineProofs2 EngineProofs3 EngineProofs4 EngineProofs5 EngineProofs6 EngineProofs7 EngineProofs8.
Import ListNotations.

(** Schedule conditions on a history of (rule, response). *)
Definition uses_pos (r : rule) (p : tag) : Prop := exists xs, In (p, xs) (r_pos r).
Definition uses_neg (r : rule) (p : tag) : Prop := exists xs, In (p, xs) (r_neg r).
Definition derives (r : rule) (p : tag) : Prop := exists a, In a (r_head r) /\ fst a = p.

Definition S1 (pr : program) (H : list (nat * bool)) : Prop :=
  forall i ri, nth_error (p_rules pr) i = Some ri -> exists l b, nth_error H l = Some (i, b) /\
    forall k j rj p, l <= k -> nth_error H k = Some (j, true) -> nth_error (p_rules pr) j = Some rj ->
      derives rj p -> uses_pos ri p -> False.
Definition S2 (pr : program) (H : list (nat * bool)) : Prop :=
  forall k k' i j b b' ri rj p, k <= k' -> nth_error H k = Some (i, b) -> nth_error H k' = Some (j, b') ->
    nth_error (p_rules pr) i = Some ri -> nth_error (p_rules pr) j = Some rj -> derives rj p ->
    ~ uses_neg ri p /\ (r_agg ri <> None -> ~ uses_pos ri p).

Definition hist_of (H : list app_rec) : list (nat * bool) := map (fun a => (a_rule a, a_resp a)) H.

Lemma minimal (P : nat -> Prop) (dec : forall n, {P n} + {~ P n}) n : P n -> exists k, k <= n /\ P k /\ forall j, j < k -> ~ P j.
Proof.
  induction n as [n IH] using lt_wf_ind. intros Hn.
  assert (Hd : {exists j, j < n /\ P j} + {forall j, j < n -> ~ P j}).
  { clear - dec. induction n as [|n IHn]; [right; intros; lia|]. destruct IHn as [He|Hno].
    - left. destruct He as (j & ? & ?). exists j. split; auto; lia.
    - destruct (dec n) as [Hp|Hp]; [left; exists n; auto|right]. intros j Hj. destruct (Nat.eq_dec j n) as [->|]; auto. apply Hno. lia. }
  destruct Hd as [(j & Hj & Hp)|Hno]; [|exists n; auto].
  destruct (IH j Hj Hp) as (k & Hk & H1 & H2). exists k. split; auto. lia.
Qed.

Lemma nth_error_firstn {A} (l : list A) n k : k < n -> nth_error (firstn n l) k = nth_error l k.
Proof. revert n k. induction l as [|x l IH]; intros [|n] [|k] H; simpl; auto; try lia. apply IH. lia. Qed.

Section Run.
Context (pr : program) (Hwf : wf_program pr) (e : engine) (H : list app_rec) (ops : list op) (Inv : einv pr e H ops).

Let D := facts_at ops.
Let M : interp := result e.

Lemma M_facts p r : M p r <-> exists s, D p s r.
Proof. apply result_facts; apply Inv. Qed.

Lemma Hrd : rd_ok (manager_reader (e_manager e)) D.
Proof. apply manager_rd; apply Inv. Qed.

Lemma upto_M cur p r : upto D cur p r -> M p r.
Proof. intros (s & _ & Hd). apply M_facts. eauto. Qed.

(** A fact of a later step was derived by the rule applied at that step. *)
Lemma fact_step p s x : D p s x -> (s = 0 /\ edb pr p x) \/
  exists k a r, s = S k /\ nth_error H k = Some a /\ nth_error (p_rules pr) (a_rule a) = Some r /\ a_resp a = true /\
    ((p = sat_tag (a_rule a) /\ is_existential r = true) \/ derives r p).
Proof.
  intros Hd. destruct s as [|k]; [left; split; auto; now apply (i_edb _ _ _ _ Inv)|right].
  assert (Hk : k < length H).
  { destruct Hd as (t & rows & Hi & Ht & _). apply (i_bound _ _ _ _ Inv) in Hi. rewrite (i_step _ _ _ _ Inv) in Hi. lia. }
  destruct (nth_error H k) as [a|] eqn:Ea; [|apply nth_error_None in Ea; lia].
  destruct (i_apps _ _ _ _ Inv k a Ea) as (r & results & R1 & R2 & R3 & R4 & R5).
  exists k, a, r. repeat split; auto.
  - destruct (a_resp a) eqn:Er; auto. exfalso. apply (R5 eq_refl p x). now apply R4.
  - apply R4 in Hd. destruct Hd as (rows & Hi & _). destruct (x_heads _ _ _ _ _ _ _ _ _ R3 p rows Hi) as [?|(b & Hb & ->)]; auto.
    right. exists b. auto.
Qed.

Lemma user_fact_step p s x : user_tag p -> D p s x -> (s = 0 /\ edb pr p x) \/
  exists k a r, s = S k /\ nth_error H k = Some a /\ nth_error (p_rules pr) (a_rule a) = Some r /\ a_resp a = true /\ derives r p.
Proof.
  intros Hu Hd. destruct (fact_step p s x Hd) as [?|(k & a & r & H1 & H2 & H3 & H4 & [[H5 _]|H5])]; auto.
  - exfalso. now apply (Hu (a_rule a)).
  - right. exists k, a, r. auto.
Qed.

Lemma edb_user p x : edb pr p x -> user_tag p.
Proof. intros He. apply (wf_tags_edb pr Hwf). eapply edb_in_preds; eauto. Qed.

Lemma derives_user r p : In r (p_rules pr) -> derives r p -> user_tag p.
Proof. intros Hr (a & Ha & <-). now apply (proj2 (wf_tags_rules pr Hwf r Hr)). Qed.

Lemma body_user r p xs : In r (p_rules pr) -> In (p, xs) (r_pos r ++ r_neg r) -> user_tag p.
Proof. intros Hr Hi. eapply (proj1 (wf_tags_rules pr Hwf r Hr)); eauto. Qed.

(** The table of satisfied matches contains only satisfied matches. *)
Lemma sat_inv i r s f : nth_error (p_rules pr) i = Some r -> D (sat_tag i) s f -> sat_ok r i (upto D (S s)) f.
Proof.
  intros Hr Hd. destruct (fact_step _ _ _ Hd) as [[_ He]|(k & a & r' & -> & Ha & Hr' & _ & Hc)].
  { exfalso. apply (edb_user _ _ He i). reflexivity. }
  assert (Hi : a_rule a = i).
  { destruct Hc as [[Hc _]|Hc]; [unfold sat_tag in Hc; lia|].
    exfalso. apply (derives_user r' (sat_tag i)) with (i := i); auto. eapply nth_error_In; eauto. }
  destruct (i_apps _ _ _ _ Inv k a Ha) as (r2 & results & R1 & R2 & R3 & R4 & R5). rewrite Hi in *. rewrite Hr in R1. injection R1 as <-.
  apply R4 in Hd. destruct (x_sat _ _ _ _ _ _ _ _ _ R3 f Hd) as [_ (mu & E & Hh)]. exists mu. split; auto.
  intros b Hb Hex. destruct (Hh b Hb Hex) as [(s & Hs & Hs')|Hn].
  - exists s. split; auto.
  - exists (S k). split; auto. now apply R4.
Qed.

Lemma sat_upto i r cur f : nth_error (p_rules pr) i = Some r -> upto D cur (sat_tag i) f -> sat_ok r i (upto D cur) f.
Proof.
  intros Hr (s & Hs & Hd). destruct (sat_inv i r s f Hr Hd) as (mu & E & Hh). exists mu. split; auto.
  intros a Ha Hex. destruct (Hh a Ha Hex) as (t & Ht & Hd'). exists t. split; auto. lia.
Qed.

(** ** Predicates that are no longer derived *)

Context (HS1 : S1 pr (hist_of H)) (HS2 : S2 pr (hist_of H)).

Lemma hist_nth k a : nth_error H k = Some a -> nth_error (hist_of H) k = Some (a_rule a, a_resp a).
Proof. intros Ha. unfold hist_of. now rewrite (map_nth_error _ _ _ Ha). Qed.
Lemma hist_nth_inv k i b : nth_error (hist_of H) k = Some (i, b) -> exists a, nth_error H k = Some a /\ a_rule a = i /\ a_resp a = b.
Proof.
  unfold hist_of. rewrite nth_error_map. destruct (nth_error H k) as [a|]; [|discriminate]. simpl. intros E. injection E as <- <-. eauto.
Qed.

Lemma frozen k a r p s x : nth_error H k = Some a -> nth_error (p_rules pr) (a_rule a) = Some r ->
  uses_neg r p \/ (r_agg r <> None /\ uses_pos r p) -> D p s x -> s <= k.
Proof.
  intros Ha Hr Hu Hd.
  assert (Hup : user_tag p).
  { assert (In r (p_rules pr)) by (eapply nth_error_In; eauto).
    destruct Hu as [(xs & Hx)|[_ (xs & Hx)]]; eapply body_user; eauto; apply in_app_iff; eauto. }
  destruct (user_fact_step p s x Hup Hd) as [[-> _]|(k' & a' & r' & -> & Ha' & Hr' & _ & Hder)]; [lia|].
  destruct (le_dec k k') as [Hle|]; [|lia]. exfalso.
  destruct (HS2 k k' _ _ _ _ r r' p Hle (hist_nth _ _ Ha) (hist_nth _ _ Ha') Hr Hr' Hder) as [Q1 Q2].
  destruct Hu as [?|[? ?]]; tauto.
Qed.

Lemma matches_down r k a nu : nth_error H k = Some a -> nth_error (p_rules pr) (a_rule a) = Some r ->
  r_agg r <> None -> matches r M M nu <-> matches r (upto D (S k)) (upto D (S k)) nu.
Proof.
  intros Ha Hr Hag. split; intros [Q1 Q2 Q3]; constructor; auto.
  - intros p xs Hp. destruct (proj1 (M_facts _ _) (Q1 p xs Hp)) as (s & Hd). exists s. split; auto.
    apply Nat.lt_succ_r. eapply (frozen k a r p s _ Ha Hr); [right; split; auto; exists xs; auto|exact Hd].
  - intros p xs Hp (nu' & Hag' & Hm & Hno). apply (Q3 p xs Hp). exists nu'. split; auto. split; auto. eapply upto_M; eauto.
  - intros p xs Hp. eapply upto_M; eauto.
  - intros p xs Hp (nu' & Hag' & Hm & Hno). apply (Q3 p xs Hp). exists nu'. split; auto. split; auto.
    apply M_facts in Hm. destruct Hm as (s & Hd). exists s. split; auto.
    apply Nat.lt_succ_r. eapply (frozen k a r p s _ Ha Hr); [left; exists xs; auto|exact Hd].
Qed.

(** In an application of an aggregate rule that finds a match, all matches are found. *)
Lemma agg_matches r k a nu0 nu : nth_error H k = Some a -> nth_error (p_rules pr) (a_rule a) = Some r -> r_agg r <> None ->
  let last := last_app (firstn k H) (a_rule a) 1 0 in
  (last = 0 \/ new_match D r (S k) last nu0) -> new_match D r (S k) last nu <-> matches r M M nu.
Proof.
  intros Ha Hr Hag. cbv zeta. set (last := last_app (firstn k H) (a_rule a) 1 0). intros Hc.
  rewrite (matches_down r k a nu Ha Hr Hag). split; [intros [? _]; auto|]. intros Hm. split; auto.
  destruct (r_pos r) as [|[p xs] rest] eqn:Ep; [auto|right].
  assert (Hin : In (p, xs) (r_pos r)) by (rewrite Ep; simpl; auto).
  destruct (m_pos _ _ _ _ Hm p xs Hin) as (s & Hs & Hd). exists p, xs, s. rewrite <- Ep. split; auto. split; auto. split; auto.
  destruct last as [|l] eqn:El; [lia|]. destruct Hc as [Hc|[_ Hc]]; [discriminate|].
  rewrite Ep in Hc. destruct Hc as [Hc|(p' & xs' & s' & Hi' & Hs' & Hd')]; [discriminate|]. exfalso.
  rewrite <- Ep in Hi'. destruct (last_app_spec (firstn k H) (a_rule a)) as (_ & _ & Hla).
  destruct (Hla l El) as (b & Hb & Hbr & _).
  assert (Hlk : l < k). { assert (l < length (firstn k H)) by (apply nth_error_Some; congruence). rewrite firstn_length in *. lia. }
  rewrite nth_error_firstn in Hb by auto. rewrite <- Hbr in Hr.
  assert (s' <= l); [|lia]. eapply (frozen l b r p' s' _ Hb Hr); [right; split; auto; exists xs'; auto|exact Hd'].
Qed.

(** ** Completeness *)

Theorem closed_result : closed pr M.
Proof.
  split; [|split].
  - intros p r Hp. apply M_facts. exists 0. apply (i_edb _ _ _ _ Inv). left. auto.
  - intros p rows r Hp Hr. apply M_facts. exists 0. apply (i_edb _ _ _ _ Inv). right. eauto.
  - intros rl Hrl. destruct (In_nth_error _ _ Hrl) as (i & Hi). split.
    + intros nu Hm.
      destruct (HS1 i rl Hi) as (l & b & Hl & Hfin). destruct (hist_nth_inv _ _ _ Hl) as (al & Hal & Hri & _).
      set (P := fun k => (exists a, nth_error H k = Some a /\ a_rule a = i) /\ forall p xs, In (p, xs) (r_pos rl) -> upto D (S k) p (map nu xs)).
      assert (Pdec : forall k, {P k} + {~ P k}).
      { intros k. unfold P. destruct (nth_error H k) as [a|] eqn:Ea; [|right; intros [(a & ? & _) _]; discriminate].
        destruct (Nat.eq_dec (a_rule a) i) as [Ei|Ei]; [|right; intros [(a' & E' & Hx) _]; congruence].
        assert (Hd : {forall p xs, In (p, xs) (r_pos rl) -> upto D (S k) p (map nu xs)} + {~ forall p xs, In (p, xs) (r_pos rl) -> upto D (S k) p (map nu xs)}).
        { clear - Inv. induction (r_pos rl) as [|[p xs] l IH]; [left; intros ? ? []|].
          destruct (upto_dec _ D Hrd (S k) p (map nu xs)) as [Hu|Hu]; [|right; intros Hc; apply Hu, Hc; simpl; auto].
          destruct IH as [IH|IH]; [left|right].
          - intros p' xs' [Heq|Hin]; [injection Heq as <- <-; auto|auto].
          - intros Hc. apply IH. intros p' xs' Hin. apply Hc. simpl. auto. }
        destruct Hd as [Hd|Hd]; [left; split; eauto|right; tauto]. }
      assert (Pl : P l).
      { split; [eauto|]. intros p xs Hp. destruct (proj1 (M_facts _ _) (m_pos _ _ _ _ Hm p xs Hp)) as (s & Hd). exists s. split; auto.
        assert (Hup : user_tag p) by (apply (body_user rl p xs); auto; apply in_app_iff; auto).
        destruct (user_fact_step p s _ Hup Hd) as [[-> _]|(k' & a' & r' & -> & Ha' & Hr' & Hresp & Hder)]; [lia|].
        destruct (le_dec l k') as [Hle|]; [|lia]. exfalso.
        apply (Hfin k' (a_rule a') r' p Hle); auto; [|exists xs; auto]. rewrite <- Hresp. now apply hist_nth. }
      destruct (minimal P Pdec l Pl) as (k & _ & [(a & Ha & Hai) Hpos] & Hmin).
      destruct (i_apps _ _ _ _ Inv k a Ha) as (r & results & R1 & _ & R3 & R4 & _). rewrite Hai in *. rewrite Hi in R1. injection R1 as <-.
      assert (Hnm : new_match D rl (S k) (last_app (firstn k H) i 1 0) nu).
      { split.
        - destruct Hm as [Q1 Q2 Q3]. constructor; auto. intros p xs Hp (nu' & Hag & Hu & Hno). apply (Q3 p xs Hp). exists nu'. split; auto. split; auto. eapply upto_M; eauto.
        - assert (Hcase : r_pos rl = [] \/ exists p0 xs0, In (p0, xs0) (r_pos rl)).
          { clear. destruct (r_pos rl) as [|[p0 xs0] rest]; [auto|right; exists p0, xs0; simpl; auto]. }
          destruct Hcase as [Hcase|(p0 & xs0 & Hin0)]; [auto|right].
          destruct (last_app (firstn k H) i 1 0) as [|l'] eqn:El.
          + destruct (Hpos p0 xs0 Hin0) as (s & Hs & Hd). exists p0, xs0, s. repeat split; auto. lia.
          + destruct (last_app_spec (firstn k H) i) as (_ & _ & Hla). destruct (Hla l' El) as (c & Hc & Hci & _).
            assert (Hlk : l' < k). { assert (l' < length (firstn k H)) by (apply nth_error_Some; congruence). rewrite firstn_length in *. lia. }
            rewrite nth_error_firstn in Hc by auto.
            assert (Hex : exists p xs, In (p, xs) (r_pos rl) /\ ~ upto D (S l') p (map nu xs)).
            { assert (Hno : ~ forall p xs, In (p, xs) (r_pos rl) -> upto D (S l') p (map nu xs)).
              { intros Hall. apply (Hmin l' Hlk). split; [exists c; auto|exact Hall]. }
              clear - Hno Inv. induction (r_pos rl) as [|[p xs] ll IH]; [exfalso; apply Hno; intros ? ? []|].
              destruct (upto_dec _ D Hrd (S l') p (map nu xs)) as [Hu|Hu]; [|exists p, xs; simpl; auto].
              destruct IH as (p' & xs' & Hin & Hn); [|exists p', xs'; simpl; auto].
              intros Hc. apply Hno. intros p' xs' [Heq|Hin]; [injection Heq as <- <-; auto|auto]. }
            destruct Hex as (p & xs & Hin & Hn). destruct (Hpos p xs Hin) as (s & Hs & Hd). exists p, xs, s. split; auto. split; auto. split; auto.
            destruct (le_dec (S l') s); auto. exfalso. apply Hn. exists s. split; auto. lia. }
      destruct (x_complete _ _ _ _ _ _ _ _ _ R3) with (nu := nu) as (mu & Hmu & Hheads); auto.
      { intros f Hf. now apply sat_upto. }
      exists mu. split; auto. intros k' h Hk' Hagi. destruct (Hheads k' h Hk' Hagi) as [Hu|Hn]; [eapply upto_M; eauto|].
      apply M_facts. exists (S k). now apply R4.
    + intros ag k0 h mu Hra Hk0 (nu & z & Hm & (L & L1 & L2 & L3) & Hg & Hz & Ho).
      destruct (HS1 i rl Hi) as (l & b & Hl & _). destruct (hist_nth_inv _ _ _ Hl) as (al & Hal & Hri & _).
      assert (Hagn : r_agg rl <> None) by congruence.
      destruct (minimal (fun k => exists a, nth_error H k = Some a /\ a_rule a = i)) with (n := l) as (k & _ & (a & Ha & Hai) & Hmin).
      { intros k. destruct (nth_error H k) as [a|]; [|right; intros (? & ? & _); discriminate].
        destruct (Nat.eq_dec (a_rule a) i); [left; eauto|right; intros (? & E & ?); congruence]. }
      { eauto. }
      assert (Hlast : last_app (firstn k H) i 1 0 = 0).
      { destruct (last_app (firstn k H) i 1 0) as [|l'] eqn:El; auto. exfalso.
        destruct (last_app_spec (firstn k H) i) as (_ & _ & Hla). destruct (Hla l' El) as (c & Hc & Hci & _).
        assert (Hlk : l' < k). { assert (l' < length (firstn k H)) by (apply nth_error_Some; congruence). rewrite firstn_length in *. lia. }
        rewrite nth_error_firstn in Hc by auto. apply (Hmin l' Hlk). eauto. }
      destruct (i_apps _ _ _ _ Inv k a Ha) as (r & results & R1 & _ & R3 & R4 & _).
      assert (Er : r = rl) by (rewrite Hai in R1; congruence). subst r.
      assert (Hiff : forall nu', new_match D rl (S k) (last_app (firstn k H) (a_rule a) 1 0) nu' <-> matches rl M M nu').
      { intros nu'. apply (agg_matches rl k a nu nu'); auto. left. rewrite Hai. auto. }
      destruct (x_agg _ _ _ _ _ _ _ _ _ R3 ag k0 h mu Hra Hk0) as [Hu|Hn]; [|eapply upto_M; eauto|].
      * exists nu, z, L. split; [now apply Hiff|]. split; auto. split.
        { intros t. rewrite L2. split; intros (nu' & Q1 & Q2 & Q3); exists nu'; (split; [now apply Hiff|auto]). }
        auto.
      * apply M_facts. exists (S k). now apply R4.
Qed.

(** ** Soundness *)

Theorem sound_result p x : user_tag p -> M p x -> deriv pr M p x.
Proof.
  intros Hup Hm. apply M_facts in Hm. destruct Hm as (s & Hd). revert p x Hup Hd.
  induction s as [s IH] using lt_wf_ind. intros p x Hup Hd.
  destruct s as [|k].
  { apply (i_edb _ _ _ _ Inv) in Hd. destruct Hd as [Hd|(rows & Hd & Hr)]; [now apply d_fact|eapply d_import; eauto]. }
  destruct (user_fact_step p (S k) x Hup Hd) as [[? _]|(k' & a & r & Heq & Ha & Hr & _ & _)]; [discriminate|]. injection Heq as <-.
  destruct (i_apps _ _ _ _ Inv k a Ha) as (r' & results & R1 & _ & R3 & R4 & _). rewrite Hr in R1. injection R1 as <-.
  assert (Hin : In r (p_rules pr)) by (eapply nth_error_In; eauto).
  apply R4 in Hd. destruct (x_sound _ _ _ _ _ _ _ _ _ R3) as (W & _ & HX). destruct (HX p x Hd (Hup _)) as
    [(nu & mu & k0 & h & Q1 & Q2 & Q3 & Q4 & -> & -> & _)|(ag & mu & k0 & h & Q1 & Q2 & Q3 & -> & -> & _)].
  - destruct Q1 as [[P1 P2 P3] _]. eapply d_rule; eauto.
    + intros q xs Hq. destruct (P1 q xs Hq) as (s & Hs & Hd'). apply (IH s Hs); auto. apply (body_user r q xs); auto. apply in_app_iff. auto.
    + intros q xs Hq (nu' & Hag & Hm & Hno). apply (P3 q xs Hq). exists nu'. split; auto. split; auto. apply M_facts in Hm. destruct Hm as (s & Hd').
      exists s. split; auto. apply Nat.lt_succ_r. eapply (frozen k a r q s _ Ha Hr); [left; exists xs; auto|exact Hd'].
  - assert (Hagn : r_agg r <> None) by congruence.
    eapply d_agg; eauto. destruct Q3 as (nu & z & L & N1 & N2 & N3 & N4 & N5 & N6 & N7).
    assert (Hiff : forall nu', new_match D r (S k) (last_app (firstn k H) (a_rule a) 1 0) nu' <-> matches r M M nu').
    { intros nu'. apply (agg_matches r k a nu nu'); auto. }
    exists nu, z. split; [now apply Hiff|]. split.
    { exists L. split; auto. split; auto. intros t. rewrite N3. split; intros (nu' & P1 & P2 & P3); exists nu'; (split; [now apply Hiff|auto]). }
    auto.
Qed.

(** Without existential variables the result is perfect. *)
Theorem perfect_result : existential_free pr -> perfect pr M.
Proof.
  intros Hef p x. split.
  - intros Hm. apply sound_result; auto.
    apply M_facts in Hm. destruct Hm as (s & Hd). destruct (fact_step p s x Hd) as [[_ He]|(k & a & r & _ & _ & Hr & _ & [[_ Hx]|Hder])].
    + eapply edb_user; eauto.
    + rewrite Hef in Hx; [discriminate|]. eapply nth_error_In; eauto.
    + eapply derives_user; eauto. eapply nth_error_In; eauto.
  - destruct closed_result as (C1 & C2 & C3).
    induction 1 as [p r Hp|p rows r Hp Hr|rl nu mu k a Hrl _ IH Hops Hneg Hk Hag Hmu|rl ag mu k a Hrl Hra Hk Hav].
    + auto.
    + eauto.
    + destruct (C3 rl Hrl) as [Q1 _]. destruct (Q1 nu) as (mu' & Hmu' & Hh).
      { constructor; auto. }
      assert (Hnx : forall v, ~ is_ex rl v).
      { intros v (h & Hh' & Hv). assert (is_existential rl = true); [|rewrite Hef in H0; auto; discriminate].
        apply is_existential_spec. exists h. split; auto. intros Hc. rewrite Hc in Hv. destruct Hv. }
      rewrite (hterm_val_ext mu mu' (snd a)); [eapply Hh; eauto|].
      intros v _. rewrite Hmu, Hmu'; auto.
    + destruct (C3 rl Hrl) as [_ Q2]. eapply Q2; eauto.
Qed.
End Run.

(** ** The perfect model is unique *)

Lemma agg_head_val_iff rl ag M M' mu :
  (forall p xs, In (p, xs) (r_pos rl ++ r_neg rl) -> forall r, M p r <-> M' p r) ->
  agg_head_val rl ag M mu -> agg_head_val rl ag M' mu.
Proof.
  intros Hiff.
  assert (Hm : forall nu, matches rl M M nu <-> matches rl M' M' nu).
  { intros nu. split; intros [Q1 Q2 Q3]; constructor; auto.
    - intros p xs Hp. apply (Hiff p xs); auto. apply in_app_iff. auto.
    - intros p xs Hp (nu' & Ha & Hx). apply (Q3 p xs Hp). exists nu'. split; auto. split; [|apply Hx]. apply (Hiff p xs); [apply in_app_iff; auto|apply Hx].
    - intros p xs Hp. apply (Hiff p xs); auto. apply in_app_iff. auto.
    - intros p xs Hp (nu' & Ha & Hx). apply (Q3 p xs Hp). exists nu'. split; auto. split; [|apply Hx]. apply (Hiff p xs); [apply in_app_iff; auto|apply Hx]. }
  intros (nu & z & Q1 & (L & L1 & L2 & L3) & Q3). exists nu, z. split; [now apply Hm|]. split; auto.
  exists L. split; auto. split; auto. intros t. rewrite L2. split; intros (nu' & P1 & P2 & P3); exists nu'; (split; [now apply Hm|auto]).
Qed.

Theorem perfect_unique pr rank M M' : ranked pr rank -> perfect pr M -> perfect pr M' -> forall p r, M p r <-> M' p r.
Proof.
  intros Hrk HM HM'.
  assert (Hside : forall n M M', perfect pr M -> perfect pr M' ->
     (forall p, (forall j rj, nth_error (p_rules pr) j = Some rj -> derives rj p -> rank j < n) -> forall r, M p r <-> M' p r) ->
     forall p r, deriv pr M p r -> (forall j rj, nth_error (p_rules pr) j = Some rj -> derives rj p -> rank j < S n) -> M' p r).
  { clear M M' HM HM'. intros n M M' HM HM' IH p r Hd.
    induction Hd as [p r Hp|p rows r Hp Hr|rl nu mu k a Hrl Hpos IHd Hops Hneg Hk Hag Hmu|rl ag mu k a Hrl Hra Hk Hav]; intros Hlt; apply HM'.
    - now apply d_fact.
    - eapply d_import; eauto.
    - destruct (In_nth_error _ _ Hrl) as (i & Hi). assert (Ha : In a (r_head rl)) by (eapply nth_error_In; eauto).
      assert (Hri : rank i < S n) by (apply (Hlt i rl Hi); exists a; auto).
      eapply d_rule; eauto.
      + intros q xs Hq. apply HM'. apply (IHd q xs Hq). intros j rj Hj (b & Hb & Eb). subst q.
        destruct (Hrk i j rl rj b Hi Hj Hb) as [Q1 _]. destruct (Q1 xs Hq). lia.
      + intros q xs Hq (nu' & Ha' & Hm). apply (Hneg q xs Hq). exists nu'. split; auto. split; [|apply Hm]. apply IH; [|apply Hm].
        intros j rj Hj (b & Hb & Eb). subst q. destruct (Hrk i j rl rj b Hi Hj Hb) as [_ Q2]. specialize (Q2 xs Hq). lia.
    - destruct (In_nth_error _ _ Hrl) as (i & Hi). assert (Ha : In a (r_head rl)) by (eapply nth_error_In; eauto).
      assert (Hri : rank i < S n) by (apply (Hlt i rl Hi); exists a; auto).
      eapply d_agg; eauto. eapply agg_head_val_iff; [|exact Hav].
      intros q xs Hq r. apply IH. intros j rj Hj (b & Hb & Eb). subst q. destruct (Hrk i j rl rj b Hi Hj Hb) as [Q1 Q2].
      apply in_app_iff in Hq. destruct Hq as [Hq|Hq].
      + destruct (Q1 xs Hq) as [_ Q]. assert (rank j < rank i) by (apply Q; congruence). lia.
      + specialize (Q2 xs Hq). lia. }
  assert (Hall : forall n p, (forall j rj, nth_error (p_rules pr) j = Some rj -> derives rj p -> rank j < n) -> forall r, M p r <-> M' p r).
  { induction n as [|n IH]; intros p Hp r.
    - (* no rule derives p *)
      assert (Hx : forall N N', perfect pr N -> perfect pr N' -> N p r -> N' p r); [|split; [apply (Hx M M' HM HM')|apply (Hx M' M HM' HM)]].
      intros N N' HN HN' Hn. apply HN in Hn. apply HN'. destruct Hn as [p r Hf|p rows r Hf Hr|rl nu mu k a Hrl Hpos Hops Hneg Hk Hag Hmu|rl ag mu k a Hrl Hra Hk Hav].
      + now apply d_fact.
      + eapply d_import; eauto.
      + exfalso. destruct (In_nth_error _ _ Hrl) as (i & Hi). assert (rank i < 0); [|lia]. apply (Hp i rl Hi). exists a. split; auto. eapply nth_error_In; eauto.
      + exfalso. destruct (In_nth_error _ _ Hrl) as (i & Hi). assert (rank i < 0); [|lia]. apply (Hp i rl Hi). exists a. split; auto. eapply nth_error_In; eauto.
    - split; intros Hm.
      + apply (Hside n M M'); auto. now apply HM.
      + apply (Hside n M' M); auto; [|now apply HM']. intros q Hq r'. symmetry. auto. }
  intros p r. apply (Hall (S (list_max (map rank (seq 0 (length (p_rules pr))))))).
  intros j rj Hj _. apply Nat.lt_succ_r. assert (Hl : j < length (p_rules pr)) by (apply nth_error_Some; congruence).
  pose proof (proj1 (list_max_le (map rank (seq 0 (length (p_rules pr)))) _) (le_n _)) as Hm. rewrite Forall_forall in Hm.
  apply Hm. apply in_map. apply in_seq. lia.
Qed.
