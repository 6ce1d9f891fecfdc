(* Union of scans. *)
From Coq Require Import List ZArith Bool Lia Sorted.
From Verif Require Import ColumnModel ScanModel ScanSpec ColumnProofs ScanProofs ScanProofs2.
Import ListNotations.
Local Open Scope nat_scope.

Lemma opt_eqb_eq : forall a b, opt_eqb a b = true <-> a = b.
Proof.
  intros [a|] [b|]; cbn; split; try congruence.
  - intros H. apply Z.eqb_eq in H. congruence.
  - intros H. injection H as ->. apply Z.eqb_refl.
Qed.

Section Union.
Variable D : Z -> Prop.
Variable sc : scanner.
Variable R : state sc -> option Z -> list Z -> Prop.
Hypothesis HR : implements D sc true (fun _ _ => True) R.

(* only the sub scans in U count *)
Definition conform_on (U : nat -> Prop) (scans : list (state sc)) (cls : list (option Z * list Z)) : Prop :=
  length cls = length scans /\
  forall i s cl, U i -> nth_error scans i = Some s -> nth_error cls i = Some cl -> R s (fst cl) (snd cl).
Lemma conform_on_set : forall U scans cls i s cl, conform_on U scans cls -> R s (fst cl) (snd cl) ->
  conform_on U (set_nth i s scans) (set_nth i cl cls).
Proof.
  intros U scans cls i s cl [Hl H] Hs. split; [rewrite !set_nth_length; exact Hl|]. intros j s' cl' HU Hj Hj'.
  destruct (Nat.eq_dec i j) as [<-|Hn].
  - assert (Hi : i < length scans) by (rewrite <- (set_nth_length _ i s); apply nth_error_Some; congruence).
    rewrite set_nth_same in Hj by exact Hi. rewrite set_nth_same in Hj' by lia. congruence.
  - rewrite set_nth_other in Hj, Hj' by exact Hn. eapply H; eassumption.
Qed.
Lemma conform_on_get : forall U scans cls i, conform_on U scans cls -> U i -> i < length scans ->
  exists s cl, nth_error scans i = Some s /\ nth_error cls i = Some cl /\ R s (fst cl) (snd cl).
Proof.
  intros U scans cls i [Hl H] HU Hi. destruct (nth_error scans i) as [s|] eqn:Es; [|apply nth_error_None in Es; lia].
  destruct (nth_error cls i) as [cl|] eqn:Ec; [|apply nth_error_None in Ec; lia]. exists s, cl. split; [reflexivity|]. split; [reflexivity|]. eapply H; eassumption.
Qed.

(* the first value of the i-th list *)
Definition head_at (As : list (list Z)) (i : nat) : option Z :=
  match nth_error As i with Some A => hd_error A | None => None end.

(* visiting the sub scans in order; As lists what each of them has ahead after its visit *)
Lemma union_loop_ok : forall (U : nat -> Prop) (visit : nat -> state sc -> res (state sc * option Z)) (As : list (list Z)) active scans cls smallest next done,
  conform_on U scans cls -> (forall i, In i active -> U i) -> length As = length scans -> NoDup (done ++ active) ->
  (forall i, In i active -> i < length scans) ->
  (forall i s cl A, In i active -> nth_error scans i = Some s -> nth_error cls i = Some cl -> nth_error As i = Some A ->
     exists n s', (forall fuel, n <= fuel -> visit fuel s = Ok (s', hd_error A)) /\ R s' (hd_error A) (tl A)) ->
  (forall i cl A, In i done -> nth_error cls i = Some cl -> nth_error As i = Some A -> cl = (hd_error A, tl A)) ->
  (* next is the smallest of the values of the scans that are done, and smallest lists them *)
  (forall i v, In i done -> head_at As i = Some v -> exists w, next = Some w /\ (w <= v)%Z) ->
  (forall w, next = Some w -> exists i, In i done /\ head_at As i = Some w) ->
  smallest = filter (fun i => match next with Some _ => opt_eqb (head_at As i) next | None => false end) done ->
  exists n scans' cls' smallest' next',
    (forall fuel, n <= fuel -> union_loop sc (visit fuel) active scans smallest next = Ok (scans', smallest', next')) /\
    conform_on U scans' cls' /\ length scans' = length scans /\
    (forall i cl A, In i (done ++ active) -> nth_error cls' i = Some cl -> nth_error As i = Some A -> cl = (hd_error A, tl A)) /\
    (forall i v, In i (done ++ active) -> head_at As i = Some v -> exists w, next' = Some w /\ (w <= v)%Z) /\
    (forall w, next' = Some w -> exists i, In i (done ++ active) /\ head_at As i = Some w) /\
    smallest' = filter (fun i => match next' with Some _ => opt_eqb (head_at As i) next' | None => false end) (done ++ active).
Proof.
  intros U visit As. induction active as [|i active IH]; intros scans cls smallest next done Hc HUa HlA Hnd Hlt Hv Hdone Hmin Hex Hsm.
  - rewrite app_nil_r in *. exists 0, scans, cls, smallest, next. split; [intros; reflexivity|]. auto 10.
  - assert (Hi : i < length scans) by (apply Hlt; left; reflexivity).
    destruct (conform_on_get U _ _ i Hc (HUa i (or_introl eq_refl)) Hi) as (s & cl & Es & Ecl & Hs).
    destruct (nth_error As i) as [A|] eqn:EA; [|exfalso; apply nth_error_None in EA; lia].
    destruct (Hv i s cl A (or_introl eq_refl) Es Ecl EA) as (n1 & s' & Hvis & Hs').
    assert (Hhead : head_at As i = hd_error A) by (unfold head_at; rewrite EA; reflexivity).
    assert (Hni : ~ In i done /\ ~ In i active).
    { split; [|apply NoDup_remove_2 in Hnd; intros H; apply Hnd; apply in_or_app; auto]. apply NoDup_remove_2 in Hnd. intros H. apply Hnd. apply in_or_app. auto. }
    set (ns := match next with
        | None => (hd_error A, smallest)
        | Some x => match hd_error A with Some y => if (y <? x)%Z then (Some y, []) else (next, smallest) | None => (next, smallest) end
        end).
    set (sm' := if match fst ns with Some _ => opt_eqb (fst ns) (hd_error A) | None => false end then snd ns ++ [i] else snd ns).
    destruct Hni as [Hni1 Hni2]. assert (Hlen : length cls = length scans) by apply Hc.
    destruct (IH (set_nth i s' scans) (set_nth i (hd_error A, tl A) cls) sm' (fst ns) (done ++ [i])) as (n2 & sc' & cls' & sm & nx & H1 & H2 & H3 & H4 & H5 & H6 & H7).
    + apply conform_on_set; [exact Hc|exact Hs'].
    + intros j Hj. apply HUa. right. exact Hj.
    + rewrite set_nth_length. exact HlA.
    + rewrite <- app_assoc. exact Hnd.
    + intros j Hj. rewrite set_nth_length. apply Hlt. right. exact Hj.
    + intros j s0 cl0 A0 Hj Hs0 Hcl0 HA0. assert (i <> j) by (intros ->; contradiction).
      rewrite set_nth_other in Hs0, Hcl0 by assumption. eapply Hv; [right; exact Hj| | |]; eassumption.
    + intros j cl0 A0 Hj Hcl0 HA0. apply in_app_or in Hj. destruct Hj as [Hj|[<-|[]]].
      * rewrite set_nth_other in Hcl0 by (intros ->; contradiction). eapply Hdone; eassumption.
      * rewrite set_nth_same in Hcl0 by lia. congruence.
    + intros j v Hj Hjv. apply in_app_or in Hj. destruct Hj as [Hj|[<-|[]]].
      * destruct (Hmin j v Hj Hjv) as (w & Hw & Hle). unfold ns. rewrite Hw. destruct (hd_error A) as [y|]; [|exists w; split; [reflexivity|exact Hle]]. destruct (Z.ltb_spec y w); cbn; [exists y; split; [reflexivity|lia]|exists w; split; [reflexivity|exact Hle]].
      * rewrite Hhead in Hjv. unfold ns. rewrite Hjv. destruct next as [w|]; [|exists v; split; [reflexivity|lia]]. destruct (Z.ltb_spec v w); cbn; [exists v|exists w]; split; try reflexivity; lia.
    + intros w Hw. unfold ns in Hw. destruct next as [x|].
      * destruct (hd_error A) as [y|] eqn:Ey; [destruct (Z.ltb_spec y x)|]; cbn in Hw; injection Hw as <-.
        -- exists i. split; [apply in_or_app; right; left; reflexivity|congruence].
        -- destruct (Hex x eq_refl) as (j & Hj & Hjx). exists j. split; [apply in_or_app; left; exact Hj|exact Hjx].
        -- destruct (Hex x eq_refl) as (j & Hj & Hjx). exists j. split; [apply in_or_app; left; exact Hj|exact Hjx].
      * cbn in Hw. exists i. split; [apply in_or_app; right; left; reflexivity|congruence].
    + rewrite filter_app. cbn [filter]. rewrite Hhead. unfold sm', ns. destruct next as [x|].
      * destruct (hd_error A) as [y|] eqn:Ey; [destruct (Z.ltb_spec y x) as [Hyx|Hyx]|]; cbn [fst snd].
        -- replace (opt_eqb (Some y) (Some y)) with true by (symmetry; apply opt_eqb_eq; reflexivity).
           assert (E : filter (fun i0 => opt_eqb (head_at As i0) (Some y)) done = []).
           { apply incl_l_nil. intros j Hj. apply filter_In in Hj. destruct Hj as [Hj Hjy]. apply opt_eqb_eq in Hjy. destruct (Hmin j y Hj Hjy) as (w & Hw & Hle). injection Hw as <-. lia. }
           rewrite E. reflexivity.
        -- rewrite Hsm. destruct (opt_eqb (Some x) (Some y)) eqn:Eq.
           ++ apply opt_eqb_eq in Eq. injection Eq as ->. replace (opt_eqb (Some y) (Some y)) with true by (symmetry; apply opt_eqb_eq; reflexivity). reflexivity.
           ++ destruct (opt_eqb (Some y) (Some x)) eqn:Eq2; [|rewrite app_nil_r; reflexivity]. apply opt_eqb_eq in Eq2. rewrite Eq2 in Eq. assert (opt_eqb (Some x) (Some x) = true) by (apply opt_eqb_eq; reflexivity). congruence.
        -- rewrite Hsm. cbn. rewrite app_nil_r. reflexivity.
      * cbn [fst snd]. assert (E0 : smallest = []). { rewrite Hsm. clear. induction done; [reflexivity|exact IHdone]. } rewrite E0.
        destruct (hd_error A) as [y|] eqn:Ey.
        -- replace (opt_eqb (Some y) (Some y)) with true by (symmetry; apply opt_eqb_eq; reflexivity).
           assert (E : filter (fun i0 => opt_eqb (head_at As i0) (Some y)) done = []).
           { apply incl_l_nil. intros j Hj. apply filter_In in Hj. destruct Hj as [Hj Hjy]. apply opt_eqb_eq in Hjy. destruct (Hmin j y Hj Hjy) as (w & Hw & Hle). discriminate. }
           rewrite E. reflexivity.
        -- rewrite app_nil_r. clear. induction done; [reflexivity|exact IHdone].
    + rewrite <- app_assoc in H4, H5, H6, H7. rewrite set_nth_length in H3. cbn [app] in H4, H5, H6, H7.
      exists (Nat.max n1 n2), sc', cls', sm, nx. split; [|auto 10].
      intros fuel Hf. cbn [union_loop]. assert (E : index scans i = Ok s) by (apply index_Ok; exact Es). rewrite E. cbn [bind]. rewrite Hvis by lia. cbn [bind fst snd].
      fold ns. rewrite (surjective_pairing ns). fold sm'. apply H1. lia.
Qed.

Definition union_rel (Fs : list (list Z)) (act : list nat) (u : union sc) (c : option Z) (l : list Z) : Prop :=
  increasing (ahead c l) /\ u_value _ u = c /\ u_active _ u = act /\
  NoDup (u_active _ u) /\ length Fs = length (u_scans _ u) /\ (forall i, In i (u_active _ u) -> i < length (u_scans _ u)) /\
  exists cls, conform_on (fun i => In i (u_active _ u)) (u_scans _ u) cls /\
    (forall i cl F, In i (u_active _ u) -> nth_error cls i = Some cl -> nth_error Fs i = Some F ->
       match c with
       | None => fst cl = None /\ (forall x, In x (snd cl) -> In x l) /\
                 (snd cl = F \/ l = [])
       | Some v => (fst cl = None -> snd cl = []) /\ (forall x, In x (ahead (fst cl) (snd cl)) <-> In x F /\ (v <= x)%Z)
       end) /\
    (forall x, In x (ahead c l) <-> exists i cl, In i (u_active _ u) /\ nth_error cls i = Some cl /\ In x (ahead (fst cl) (snd cl))).

Lemma union_ask_ok : forall Fs act q u c l, (forall F, In F Fs -> increasing F) -> union_rel Fs act u c l -> admissible D q -> exists enough u',
  (forall fuel, enough <= fuel -> ask (union_scanner sc) q fuel u = Ok (u', hd_error (after q c l))) /\
  union_report Fs u' (hd_error (after q c l)) /\
  union_rel Fs act u' (hd_error (after q c l)) (tl (after q c l)).
Proof.
  intros Fs act q u c l HF (Hinc & Hval & Hact & Hnd & HlF & Hlt & cls & Hc & Hst & Hset) Hq.
  set (scans := u_scans _ u) in *. set (active := u_active _ u) in *.
  set (visit := fun fuel s => match q with
     | RNext => bind (s_current sc s) (fun c => if opt_eqb c (u_value _ u) then s_next sc fuel s else Ok (s, c))
     | RSeek v => s_seek sc fuel v s end).
  (* what is ahead of a sub scan after its visit *)
  set (ahead_after := fun cl : option Z * list Z =>
     match q with
     | RNext => if opt_eqb (fst cl) c then snd cl else ahead (fst cl) (snd cl)
     | RSeek v => from v (ahead (fst cl) (snd cl))
     end).
  set (As := map ahead_after cls).
  assert (Hlen : length cls = length scans) by apply Hc.
  assert (HAin : forall i cl, In i active -> nth_error cls i = Some cl -> increasing (ahead_after cl)).
  { intros i cl Hia Hcl. destruct (conform_on_get _ _ _ i Hc Hia) as (s & cl0 & Es & Ecl & Hs); [rewrite <- Hlen; apply nth_error_Some; congruence|].
    assert (cl0 = cl) by congruence. subst cl0. pose proof (i_increasing _ _ _ _ _ HR _ _ _ Hs) as Hi. unfold ahead_after. destruct q as [|w].
    - destruct (opt_eqb (fst cl) c); [|exact Hi]. destruct (fst cl); [apply increasing_cons in Hi; apply Hi|exact Hi].
    - apply from_increasing, Hi. }
  destruct (union_loop_ok (fun i => In i active) visit As active scans cls [] None []) as (n & sc' & cls' & sm & nx & H1 & H2 & H3 & H4 & H5 & H6 & H7).
  - exact Hc.
  - intros i Hi. exact Hi.
  - unfold As. rewrite map_length. exact Hlen.
  - exact Hnd.
  - exact Hlt.
  - intros i s cl A Hi Hs Hcl HA. unfold As in HA. rewrite nth_error_map, Hcl in HA. cbn in HA. injection HA as <-.
    pose proof (proj2 Hc i s cl Hi Hs Hcl) as Hr. unfold visit, ahead_after. destruct q as [|w].
    + pose proof (i_current _ _ _ _ _ HR s _ _ Hr (or_introl eq_refl)) as Hcu. rewrite Hval. destruct (opt_eqb (fst cl) c) eqn:Eq.
      * destruct (i_ask _ _ _ _ _ HR s _ _ RNext Hr I) as (n & s' & Ha & _ & Hr'). exists n, s'. split; [|exact Hr']. intros fuel Hf. rewrite Hcu. cbn [bind]. rewrite Eq. apply Ha, Hf.
      * exists 0, s. split.
        { intros fuel _. rewrite Hcu. cbn [bind]. rewrite Eq. f_equal. f_equal. destruct (fst cl) as [y|] eqn:Ey; [reflexivity|].
          destruct (nth_error Fs i) as [F|] eqn:EF; [|exfalso; apply nth_error_None in EF; specialize (Hlt i Hi); lia].
          specialize (Hst i cl F Hi Hcl EF). destruct c as [v|]; [|cbn in Eq; discriminate]. destruct Hst as [Hst _]. rewrite Hst by exact Ey. reflexivity. }
        destruct (fst cl) as [y|] eqn:Ey; [exact Hr|].
        destruct (nth_error Fs i) as [F|] eqn:EF; [|exfalso; apply nth_error_None in EF; specialize (Hlt i Hi); lia].
        specialize (Hst i cl F Hi Hcl EF). destruct c as [v|]; [|cbn in Eq; discriminate]. destruct Hst as [Hst _]. specialize (Hst Ey). cbn [ahead]. rewrite Hst in *. exact Hr.
    + destruct (i_ask _ _ _ _ _ HR s _ _ (RSeek w) Hr Hq) as (n & s' & Ha & _ & Hr'). exists n, s'. split; [exact Ha|exact Hr'].
  - intros i cl A [].
  - intros i v [].
  - intros w Hw. discriminate.
  - reflexivity.
  - cbn [app] in H4, H5, H6, H7.
    set (l' := after q c l). assert (Hl' : increasing l') by (apply after_increasing, Hinc).
    (* the union of what is ahead *)
    assert (Hmem : forall x, In x l' <-> exists i A, In i active /\ nth_error As i = Some A /\ In x A).
    { intros x. split.
      - intros Hx. assert (Hxa : In x (ahead c l)) by (eapply after_ahead; exact Hx). apply Hset in Hxa. destruct Hxa as (i & cl & Hi & Hcl & Hxc).
        exists i, (ahead_after cl). split; [exact Hi|]. split; [unfold As; rewrite nth_error_map, Hcl; reflexivity|]. unfold ahead_after. destruct q as [|w].
        + destruct (opt_eqb (fst cl) c) eqn:Eq; [|exact Hxc]. apply opt_eqb_eq in Eq. rewrite Eq in Hxc. destruct c as [v|]; [|exact Hxc].
          destruct Hxc as [->|Hxc]; [|exact Hxc]. unfold l' in Hx. cbn in Hx. apply increasing_cons in Hinc. destruct Hinc as [_ Hlt']. specialize (Hlt' _ Hx). lia.
        + apply from_In in Hx; [|exact Hinc]. apply from_In; [|tauto]. pose proof (proj2 Hc i). destruct (conform_on_get _ _ _ i Hc Hi (Hlt i Hi)) as (s & cl0 & Es & Ecl & Hs).
          assert (cl0 = cl) by congruence. subst cl0. apply (i_increasing _ _ _ _ _ HR _ _ _ Hs).
      - intros (i & A & Hi & HA & Hx). unfold As in HA. rewrite nth_error_map in HA. destruct (nth_error cls i) as [cl|] eqn:Ecl; [|discriminate]. injection HA as <-.
        destruct (conform_on_get _ _ _ i Hc Hi (Hlt i Hi)) as (s & cl0 & Es & Ecl0 & Hs). assert (cl0 = cl) by congruence. subst cl0.
        pose proof (i_increasing _ _ _ _ _ HR _ _ _ Hs) as Hsi. unfold ahead_after in Hx. unfold l'. destruct q as [|w].
        + cbn [after]. destruct c as [v|].
          * assert (Hxa : In x (ahead (Some v) l)). { apply Hset. exists i, cl. split; [exact Hi|]. split; [exact Ecl|]. destruct (opt_eqb (fst cl) (Some v)); [|exact Hx]. destruct (fst cl); [right|]; exact Hx. }
            destruct Hxa as [->|Hxa]; [|exact Hxa]. exfalso. destruct (opt_eqb (fst cl) (Some x)) eqn:Eq.
            -- apply opt_eqb_eq in Eq. rewrite Eq in Hsi. apply increasing_cons in Hsi. destruct Hsi as [_ Hs2]. specialize (Hs2 _ Hx). lia.
            -- destruct (fst cl) as [y|] eqn:Ey.
               ++ assert (Hy : In y (ahead (Some x) l)) by (apply Hset; exists i, cl; rewrite Ey; split; [exact Hi|split; [exact Ecl|left; reflexivity]]).
                  destruct Hx as [->|Hx]; [apply Bool.not_true_iff_false in Eq; apply Eq, opt_eqb_eq; reflexivity|].
                  apply increasing_cons in Hsi. destruct Hsi as [_ Hs2]. specialize (Hs2 _ Hx). destruct Hy as [->|Hy]; [lia|]. apply increasing_cons in Hinc. destruct Hinc as [_ Hi2]. specialize (Hi2 _ Hy). lia.
               ++ destruct (nth_error Fs i) as [F|] eqn:EF; [|exfalso; apply nth_error_None in EF; specialize (Hlt i Hi); lia].
                  specialize (Hst i cl F Hi Ecl EF). destruct Hst as [Hst _]. rewrite Hst in Hx by exact Ey. exact Hx.
          * apply (proj2 (Hset x)). exists i, cl. split; [exact Hi|]. split; [exact Ecl|]. destruct (fst cl) as [y|]; cbn in Hx |- *; exact Hx.
        + cbn [after]. apply from_In; [exact Hinc|]. apply from_In in Hx; [|exact Hsi]. split; [|tauto]. apply Hset. exists i, cl. tauto. }
    assert (HAt : forall i A, In i active -> nth_error As i = Some A -> increasing A).
    { intros i A Hia HA. unfold As in HA. rewrite nth_error_map in HA. destruct (nth_error cls i) as [cl|] eqn:Ecl; [|discriminate]. injection HA as <-. eapply HAin; [exact Hia|exact Ecl]. }
    assert (Hhd : nx = hd_error l').
    { destruct nx as [w|].
      - symmetry. destruct (H6 w eq_refl) as (i & Hi & Hw). unfold head_at in Hw. destruct (nth_error As i) as [A|] eqn:EA; [|discriminate].
        apply hd_is; [exact Hl'| |].
        + apply Hmem. exists i, A. split; [exact Hi|]. split; [exact EA|]. apply hd_In, Hw.
        + intros y Hy. apply Hmem in Hy. destruct Hy as (j & B & Hj & HB & HyB). destruct B as [|z B]; [destruct HyB|].
          assert (Hz : head_at As j = Some z) by (unfold head_at; rewrite HB; reflexivity). destruct (H5 j z Hj Hz) as (w' & Hw' & Hle). injection Hw' as <-.
          pose proof (hd_least (z :: B) z y (HAt _ _ Hj HB) eq_refl HyB). lia.
      - destruct l' as [|y l0] eqn:El; [reflexivity|]. exfalso. destruct (proj1 (Hmem y) (or_introl eq_refl)) as (j & B & Hj & HB & HyB). destruct B as [|z B]; [destruct HyB|].
        assert (Hz : head_at As j = Some z) by (unfold head_at; rewrite HB; reflexivity). destruct (H5 j z Hj Hz) as (w' & Hw' & _). discriminate. }
    (* where the lists stand relative to Fs *)
    assert (HAF : forall i A F v, In i active -> nth_error As i = Some A -> nth_error Fs i = Some F -> nx = Some v ->
       forall x, In x A <-> In x F /\ (v <= x)%Z).
    { intros i A F v Hi HA HFi Hv x. pose proof HA as HA'. unfold As in HA. rewrite nth_error_map in HA. destruct (nth_error cls i) as [cl|] eqn:Ecl; [|discriminate]. injection HA as HA.
      destruct (conform_on_get _ _ _ i Hc Hi (Hlt i Hi)) as (s & cl0 & Es & Ecl0 & Hs). assert (cl0 = cl) by congruence. subst cl0.
      pose proof (i_increasing _ _ _ _ _ HR _ _ _ Hs) as Hsi. pose proof (Hst i cl F Hi Ecl HFi) as Hsti.
      rewrite Hv in Hhd. symmetry in Hhd. assert (Hge : forall x, In x A -> (v <= x)%Z).
      { intros y Hy. eapply hd_least; [exact Hl'|exact Hhd|]. apply Hmem. exists i, A. auto. }
      assert (HvA : In v l') by (apply hd_In; exact Hhd).
      assert (Hsub : In x F -> (v <= x)%Z -> In x (ahead (fst cl) (snd cl)) /\ (match c with Some u0 => (u0 <= v)%Z | None => True end)).
      { intros Hx Hle. destruct c as [u0|].
        - destruct Hsti as [_ Hsti]. assert (Hu : (u0 <= v)%Z). { unfold l' in HvA. apply after_ahead in HvA. eapply hd_least; [exact Hinc|reflexivity|exact HvA]. }
          split; [|exact Hu]. apply Hsti. split; [exact Hx|lia].
        - destruct Hsti as (Hn & _ & [HsF|El]); [split; [rewrite Hn, HsF; exact Hx|exact I]|]. exfalso. unfold l' in HvA. apply after_ahead in HvA. rewrite El in HvA. destruct HvA. }
      split.
      - intros Hx. split; [|apply Hge, Hx]. assert (Hxa : In x (ahead (fst cl) (snd cl))).
        { rewrite <- HA in Hx. unfold ahead_after in Hx. destruct q as [|w]; [|eapply from_Sub; exact Hx]. destruct (opt_eqb (fst cl) c); [|exact Hx]. destruct (fst cl); [right|]; exact Hx. }
        destruct c as [u0|]; [apply Hsti; exact Hxa|]. destruct Hsti as (Hn & Hsl & [HsF|El]); [rewrite Hn, HsF in Hxa; exact Hxa|].
        rewrite Hn in Hxa. apply Hsl in Hxa. rewrite El in Hxa. destruct Hxa.
      - intros [Hx Hle]. destruct (Hsub Hx Hle) as [Hxa Hu]. rewrite <- HA. unfold ahead_after. destruct q as [|w].
        + destruct (opt_eqb (fst cl) c) eqn:Eq; [|exact Hxa]. apply opt_eqb_eq in Eq. rewrite Eq in Hxa. destruct c as [u0|]; [|exact Hxa].
          destruct Hxa as [->|Hxa]; [|exact Hxa]. exfalso. assert (v = x) by lia. subst x. unfold l' in HvA. cbn in HvA. apply increasing_cons in Hinc. destruct Hinc as [_ Hi2]. specialize (Hi2 _ HvA). lia.
        + apply from_In; [exact Hsi|]. split; [exact Hxa|]. unfold l' in HvA. cbn in HvA. apply from_In in HvA; [|exact Hinc]. lia. }
    exists n, (mk_union _ sc' active sm nx). rewrite <- Hhd. split; [|split].
    + intros fuel Hf. specialize (H1 fuel Hf). unfold visit in H1. destruct q as [|w]; cbn [ask union_scanner s_next s_seek]; unfold union_next, union_seek, union_with; fold active scans; [|change (fun s : state sc => s_seek sc fuel w s) with (s_seek sc fuel w) in H1]; rewrite H1; reflexivity.
    + unfold union_report. cbn [u_smallest u_active]. destruct nx as [v|].
      * split; [rewrite H7; apply NoDup_filter, Hnd|]. intros i. rewrite H7, filter_In, opt_eqb_eq. split; intros [Hi Hv]; (split; [exact Hi|]).
        -- unfold head_at in Hv. destruct (nth_error As i) as [A|] eqn:EA; [|discriminate].
           destruct (nth_error Fs i) as [F|] eqn:EF; [|exfalso; apply nth_error_None in EF; specialize (Hlt i Hi); lia].
           exists F. split; [reflexivity|]. apply (HAF i A F v Hi EA EF eq_refl v). apply hd_In, Hv.
        -- destruct Hv as (F & HFi & HvF). unfold head_at. destruct (nth_error As i) as [A|] eqn:EA; [|exfalso; apply nth_error_None in EA; unfold As in EA; rewrite map_length in EA; specialize (Hlt i Hi); lia].
           apply hd_is; [eapply HAt; [exact Hi|exact EA]|apply (HAF i A F v Hi EA HFi eq_refl v); split; [exact HvF|lia]|]. intros y Hy. apply (HAF i A F v Hi EA HFi eq_refl y) in Hy. lia.
      * rewrite H7. clear. induction active; [reflexivity|exact IHactive].
    + unfold union_rel. cbn [u_value u_active u_scans]. split; [rewrite Hhd, ahead_split; exact Hl'|]. split; [reflexivity|]. split; [exact Hact|]. split; [exact Hnd|]. split; [lia|]. split; [intros i Hi; rewrite H3; apply Hlt, Hi|].
      exists cls'. split; [exact H2|].
      assert (Hget : forall i cl, In i active -> nth_error cls' i = Some cl -> exists A, nth_error As i = Some A /\ cl = (hd_error A, tl A)).
      { intros i cl Hi Hcl. destruct (nth_error As i) as [A|] eqn:EA; [|exfalso; apply nth_error_None in EA; unfold As in EA; rewrite map_length in EA; specialize (Hlt i Hi); lia].
        exists A. split; [reflexivity|]. eapply H4; eassumption. }
      split.
      * intros i cl F Hi Hcl HFi. destruct (Hget i cl Hi Hcl) as (A & HA & ->). cbn [fst snd]. destruct nx as [v|].
        -- split; [intros Hn; apply hd_none in Hn; rewrite Hn; reflexivity|]. intros x. rewrite ahead_split. apply (HAF i A F v Hi HA HFi eq_refl x).
        -- destruct A as [|z A].
           ++ cbn. split; [reflexivity|]. split; [intros x []|]. right. symmetry in Hhd. apply hd_none in Hhd. rewrite Hhd. reflexivity.
           ++ exfalso. destruct (H5 i z Hi) as (w & Hw & _); [unfold head_at; rewrite HA; reflexivity|discriminate].
      * intros x. rewrite Hhd, ahead_split. rewrite Hmem. split.
        -- intros (i & A & Hi & HA & Hx). destruct (nth_error cls' i) as [cl|] eqn:Ecl.
           ++ exists i, cl. split; [exact Hi|]. split; [exact Ecl|]. destruct (Hget i cl Hi Ecl) as (A' & HA' & ->). cbn. rewrite ahead_split. congruence.
           ++ exfalso. apply nth_error_None in Ecl. destruct H2 as [H2 _]. specialize (Hlt i Hi). lia.
        -- intros (i & cl & Hi & Hcl & Hx). destruct (Hget i cl Hi Hcl) as (A & HA & ->). cbn in Hx. rewrite ahead_split in Hx. eauto.
Qed.

Lemma union_implements : forall Fs act, (forall F, In F Fs -> increasing F) -> implements D (union_scanner sc) true (union_report Fs) (union_rel Fs act).
Proof.
  intros Fs act HF. constructor.
  - intros u c l H. apply H.
  - intros u c l x (Hinc & Hval & Hact & Hnd & HlF & Hlt & cls & Hc & Hst & Hset) Hx. apply Hset in Hx. destruct Hx as (i & cl & Hi & Hcl & Hx).
    destruct (conform_on_get _ _ _ i Hc Hi (Hlt i Hi)) as (s & cl0 & Es & Ecl0 & Hs). assert (cl0 = cl) by congruence. subst cl0. apply (i_domain _ _ _ _ _ HR _ _ _ x Hs Hx).
  - intros u c l (_ & Hval & _) _. cbn. rewrite Hval. reflexivity.
  - intros u c l q Hu Hq. apply union_ask_ok; assumption.
Qed.

Lemma union_initial : forall scans Fs active l, length Fs = length scans -> NoDup active -> (forall i, In i active -> i < length scans) ->
  (forall i s F, nth_error scans i = Some s -> nth_error Fs i = Some F -> R s None F) ->
  increasing l -> (forall x, In x l <-> exists i F, In i active /\ nth_error Fs i = Some F /\ In x F) ->
  union_rel Fs active (union_new sc scans active) None l.
Proof.
  intros scans Fs active l Hlen Hnd Hlt Hr Hinc Hset. unfold union_rel, union_new. cbn. do 6 (split; [assumption || reflexivity|]).
  exists (map (fun F => (None, F)) Fs). split; [|split].
  - split; [rewrite map_length; exact Hlen|]. intros i s cl _ Hi Hcl. rewrite nth_error_map in Hcl. destruct (nth_error Fs i) as [F|] eqn:EF; [|discriminate]. injection Hcl as <-. eapply Hr; eassumption.
  - intros i cl F Hi Hcl HFi. rewrite nth_error_map, HFi in Hcl. injection Hcl as <-. cbn. split; [reflexivity|]. split; [|left; reflexivity]. intros x Hx. apply Hset. eauto.
  - intros x. rewrite Hset. split.
    + intros (i & F & Hi & HFi & Hx). exists i, (None, F). rewrite nth_error_map, HFi. auto.
    + intros (i & cl & Hi & Hcl & Hx). rewrite nth_error_map in Hcl. destruct (nth_error Fs i) as [F|] eqn:EF; [|discriminate]. injection Hcl as <-. cbn in Hx. eauto.
Qed.
End Union.
