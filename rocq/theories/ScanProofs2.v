(* Join of scans. *)
From Coq Require Import List ZArith Bool Lia Sorted.
From Verif Require Import ColumnModel ScanModel ScanSpec ColumnProofs ScanProofs.
Import ListNotations.
Local Open Scope nat_scope.

Section Join.
Variable D : Z -> Prop.
Variable sc : scanner.
Variable b : bool.
Variable R : state sc -> option Z -> list Z -> Prop.
Hypothesis HR : implements D sc b (fun _ _ => True) R.

Definition in_all (Fs : list (list Z)) (x : Z) : Prop := forall F, In F Fs -> In x F.

(* what is ahead of a sub scan agrees with its list, from m on *)
Definition agree_from (m : Z) (cls : list (option Z * list Z)) (Fs : list (list Z)) : Prop :=
  length cls = length Fs /\
  forall i cl F, nth_error cls i = Some cl -> nth_error Fs i = Some F ->
    forall x, (m <= x)%Z -> (In x (ahead (fst cl) (snd cl)) <-> In x F).

(* distance to the active scan, going backwards *)
Definition behind (n active i : nat) : nat := if i <=? active then active - i else active + n - i.

Lemma behind_next : forall n active i, active < n -> i < n ->
  let active' := (active + 1) mod n in
  active' < n /\ (i = active' \/ behind n active' i = S (behind n active i)).
Proof.
  intros n active i Ha Hi active'.
  assert (E : active' = if active + 1 =? n then 0 else active + 1).
  { unfold active'. destruct (Nat.eqb_spec (active + 1) n) as [->|Hn]; [apply Nat.mod_same; lia|apply Nat.mod_small; lia]. }
  rewrite E. unfold behind. destruct (Nat.eqb_spec (active + 1) n); split; try lia.
  - destruct (Nat.eq_dec i 0); [left; exact e0|right]. destruct (Nat.leb_spec i 0); [lia|]. destruct (Nat.leb_spec i active); lia.
  - destruct (Nat.eq_dec i (active + 1)); [left; exact e|right]. destruct (Nat.leb_spec i (active + 1)); destruct (Nat.leb_spec i active); lia.
Qed.
Lemma behind_lt : forall n active i, active < n -> i < n -> behind n active i < n.
Proof. intros n active i H1 H2. unfold behind. destruct (Nat.leb_spec i active); lia. Qed.

Definition larger (m : Z) (Fs : list (list Z)) : nat := length (filter (fun x => (m <? x)%Z) (concat Fs)).
Lemma larger_lt : forall m m' Fs F, In F Fs -> In m' F -> (m < m')%Z -> larger m' Fs < larger m Fs.
Proof.
  intros m m' Fs F HF Hm Hlt. unfold larger.
  assert (G : forall l, length (filter (fun x => (m' <? x)%Z) l) <= length (filter (fun x => (m <? x)%Z) l)).
  { induction l as [|a l IH]; [reflexivity|]. cbn. destruct (Z.ltb_spec m' a), (Z.ltb_spec m a); cbn; lia. }
  assert (G2 : forall l, In m' l -> length (filter (fun x => (m' <? x)%Z) l) < length (filter (fun x => (m <? x)%Z) l)).
  { induction l as [|a l IH]; intros Hin; [destruct Hin|]. cbn. destruct Hin as [->|Hin].
    - rewrite Z.ltb_irrefl. destruct (Z.ltb_spec m m'); [|lia]. cbn. specialize (G l). lia.
    - specialize (IH Hin). destruct (Z.ltb_spec m' a), (Z.ltb_spec m a); cbn; lia. }
  apply G2. apply in_concat. eauto.
Qed.

Lemma nth_set_cls : forall (cls : list (option Z * list Z)) i j cl x, i < length cls -> nth_error (set_nth i cl cls) j = Some x ->
  (i = j /\ x = cl) \/ (i <> j /\ nth_error cls j = Some x).
Proof.
  intros cls i j cl x Hi H. destruct (Nat.eq_dec i j) as [->|Hn]; [left|right].
  - rewrite set_nth_same in H by exact Hi. split; congruence.
  - rewrite set_nth_other in H by exact Hn. auto.
Qed.

Lemma next_loop_ok : forall measure Fs low scans cls active m k,
  all_conform sc R scans cls -> agree_from m cls Fs ->
  active < length scans -> 1 <= k -> k <= length scans ->
  (low <= m)%Z -> (forall x, (low <= x)%Z -> in_all Fs x -> (m <= x)%Z) ->
  D m ->
  (forall i cl, nth_error cls i = Some cl -> behind (length scans) active i < k -> fst cl = Some m) ->
  length scans * larger m Fs + (length scans - k) < measure ->
  exists enough scans' active' o cls',
    (forall fuel, enough <= fuel -> next_loop sc fuel scans active m k = Ok (scans', active', o)) /\
    length scans' = length scans /\ all_conform sc R scans' cls' /\ active' < length scans /\
    match o with
    | Some v => (low <= v)%Z /\ in_all Fs v /\ (forall x, (low <= x)%Z -> in_all Fs x -> (v <= x)%Z) /\
        (forall i cl, nth_error cls' i = Some cl -> fst cl = Some v) /\ agree_from v cls' Fs
    | None => nth_error cls' active' = Some (None, []) /\ (forall x, (low <= x)%Z -> ~ in_all Fs x)
    end.
Proof.
  induction measure as [|measure IH]; intros Fs low scans cls active m k Hc Ha Hact Hk1 Hkn Hlow Hmin HD Hat Hm; [lia|].
  destruct (Nat.eq_dec k (length scans)) as [Ek|Hk].
  - exists 0, scans, active, (Some m), cls. split.
    { intros fuel _. destruct fuel; cbn [next_loop]; rewrite Ek, Nat.eqb_refl; reflexivity. }
    split; [reflexivity|]. split; [exact Hc|]. split; [exact Hact|].
    assert (Hall : forall i cl, nth_error cls i = Some cl -> fst cl = Some m).
    { intros i cl Hi. apply (Hat i cl Hi). rewrite Ek. apply behind_lt; [exact Hact|]. destruct Hc as [Hl _]. rewrite <- Hl. apply nth_error_Some. congruence. }
    split; [exact Hlow|]. split; [|split; [exact Hmin|split; [exact Hall|exact Ha]]].
    intros F HF. apply In_nth_error in HF. destruct HF as [i Hi]. destruct Ha as [Hl Ha].
    destruct (nth_error cls i) as [cl|] eqn:Ec; [|exfalso; apply nth_error_None in Ec; assert (i < length Fs) by (apply nth_error_Some; congruence); lia].
    apply (Ha i cl F Ec Hi m ltac:(lia)). rewrite (Hall i cl Ec). left. reflexivity.
  - set (a' := (active + 1) mod length scans).
    assert (Ha' : a' < length scans) by (apply Nat.mod_upper_bound; lia).
    destruct (all_conform_get sc R scans cls a' Hc Ha') as (s & cl & Es & Ecl & Hs).
    pose proof (i_increasing _ _ _ _ _ HR _ _ _ Hs) as Hinc.
    destruct (i_ask _ _ _ _ _ HR s (fst cl) (snd cl) (RSeek m) Hs HD) as (n1 & s' & Hask & _ & Hs'). cbn [after] in Hask, Hs'.
    set (rest := from m (ahead (fst cl) (snd cl))) in *.
    assert (Hrin : increasing rest) by (apply from_increasing, Hinc).
    set (cl' := (hd_error rest, tl rest)).
    assert (Hc' : all_conform sc R (set_nth a' s' scans) (set_nth a' cl' cls)) by (apply all_conform_set; [exact Hc|exact Hs']).
    assert (Hlen : length cls = length scans) by apply Hc.
    destruct (nth_error Fs a') as [F|] eqn:EF; [|exfalso; apply nth_error_None in EF; destruct Ha as [Hl _]; lia].
    assert (HF : In F Fs) by (eapply nth_error_In; exact EF).
    assert (HrF : forall x, In x rest <-> In x F /\ (m <= x)%Z).
    { intros x. unfold rest. rewrite from_In by exact Hinc. destruct Ha as [_ Ha]. split; intros [H1 H2]; (split; [|exact H2]); eapply (Ha a' cl F Ecl EF x H2); exact H1. }
    assert (Hagree : forall m', (m <= m')%Z -> agree_from m' (set_nth a' cl' cls) Fs).
    { intros m' Hm'. split; [rewrite set_nth_length; apply Ha|]. intros i c0 F0 Hi HFi x Hx. apply nth_set_cls in Hi; [|lia].
      destruct Hi as [[<- ->]|[Hn Hi]].
      - assert (F0 = F) by congruence. subst F0. unfold cl'. cbn [fst snd]. rewrite ahead_split, HrF. intuition lia.
      - destruct Ha as [_ Ha]. apply (Ha i c0 F0 Hi HFi). lia. }
    destruct (hd_error rest) as [v|] eqn:Eh.
    + assert (Hv : In v F /\ (m <= v)%Z) by (apply HrF, hd_In, Eh). destruct Hv as [HvF Hmv].
      assert (HvD : D v). { apply (i_domain _ _ _ _ _ HR _ _ _ v Hs). eapply from_Sub. apply hd_In. exact Eh. }
      destruct (Z.eqb_spec v m) as [->|Hne].
      * destruct (IH Fs low (set_nth a' s' scans) (set_nth a' cl' cls) a' m (k + 1)) as (n2 & sc' & ac' & o & cls' & H1 & H2 & H3 & H4 & H5);
          try assumption; rewrite ?set_nth_length; try lia.
        -- apply Hagree. lia.
        -- intros i c0 Hi Hb. apply nth_set_cls in Hi; [|lia]. destruct Hi as [[<- ->]|[Hn Hi]]; [reflexivity|].
           assert (Hil : i < length scans) by (rewrite <- Hlen; apply nth_error_Some; congruence).
           destruct (behind_next (length scans) active i Hact Hil) as [_ [Heq|Heq]]; [fold a' in Heq; congruence|]. fold a' in Heq. apply (Hat i c0 Hi). lia.
        -- exists (S (Nat.max n1 n2)), sc', ac', o, cls'. rewrite set_nth_length in H2, H4. split; [|auto].
           intros fuel Hf. destruct fuel as [|fuel]; [lia|]. cbn [next_loop]. destruct (Nat.eqb_spec k (length scans)); [lia|]. fold a'.
           assert (E : index scans a' = Ok s) by (apply index_Ok; exact Es). rewrite E. cbn [bind].
           specialize (Hask fuel ltac:(lia)). cbn [ask] in Hask. rewrite Hask. cbn [bind fst snd]. rewrite Z.eqb_refl. apply H1. lia.
      * assert (Hlt : (m < v)%Z) by lia. pose proof (larger_lt m v Fs F HF HvF Hlt) as Hl.
        destruct (IH Fs low (set_nth a' s' scans) (set_nth a' cl' cls) a' v 1) as (n2 & sc' & ac' & o & cls' & H1 & H2 & H3 & H4 & H5);
          try assumption; rewrite ?set_nth_length; try lia.
        -- apply Hagree. lia.
        -- intros x Hx1 Hx2. assert (Hin : In x rest) by (apply HrF; split; [apply Hx2, HF|apply Hmin; assumption]). eapply hd_least; eassumption.
        -- intros i c0 Hi Hb. apply nth_set_cls in Hi; [|lia]. destruct Hi as [[<- ->]|[Hn Hi]]; [first [reflexivity|exact Eh]|].
           assert (Hil : i < length scans) by (rewrite <- Hlen; apply nth_error_Some; congruence).
           destruct (behind_next (length scans) active i Hact Hil) as [_ [Heq|Heq]]; [fold a' in Heq; congruence|]. fold a' in Heq. lia.
        -- apply Nat.lt_le_trans with (length scans * larger m Fs + (length scans - k)); [|lia].
           assert (length scans * larger v Fs + length scans <= length scans * larger m Fs) by nia. lia.
        -- exists (S (Nat.max n1 n2)), sc', ac', o, cls'. rewrite set_nth_length in H2, H4. split; [|auto].
           intros fuel Hf. destruct fuel as [|fuel]; [lia|]. cbn [next_loop]. destruct (Nat.eqb_spec k (length scans)); [lia|]. fold a'.
           assert (E : index scans a' = Ok s) by (apply index_Ok; exact Es). rewrite E. cbn [bind].
           specialize (Hask fuel ltac:(lia)). cbn [ask] in Hask. rewrite Hask. cbn [bind fst snd]. destruct (Z.eqb_spec v m); [lia|]. apply H1. lia.
    + assert (Er : rest = []) by (apply hd_none, Eh).
      exists (S n1), (set_nth a' s' scans), a', None, (set_nth a' cl' cls). split; [|split; [|split; [exact Hc'|split; [exact Ha'|split]]]].
      * intros fuel Hf. destruct fuel as [|fuel]; [lia|]. cbn [next_loop]. destruct (Nat.eqb_spec k (length scans)); [lia|]. fold a'.
        assert (E : index scans a' = Ok s) by (apply index_Ok; exact Es). rewrite E. cbn [bind].
        specialize (Hask fuel ltac:(lia)). cbn [ask] in Hask. rewrite Hask. reflexivity.
      * apply set_nth_length.
      * rewrite set_nth_same by lia. unfold cl'. rewrite Er. reflexivity.
      * intros x Hx1 Hx2. assert (Hin : In x rest) by (apply HrF; split; [apply Hx2, HF|apply Hmin; assumption]). rewrite Er in Hin. exact Hin.
Qed.

Definition join_rel (j : join sc) (c : option Z) (l : list Z) : Prop :=
  increasing (ahead c l) /\ j_value _ j = c /\ j_active _ j < length (j_scans _ j) /\
  exists cls, all_conform sc R (j_scans _ j) cls /\
    (((forall i cl, nth_error cls i = Some cl -> fst cl = c) /\
      (forall x, In x l <-> forall i cl, nth_error cls i = Some cl -> In x (snd cl))) \/
     (c = None /\ l = [] /\ nth_error cls (j_active _ j) = Some (None, []))).

(* the common part of next and seek: the sub scan that was asked first *)
Lemma join_finish_ok : forall q j c l, join_rel j c l -> admissible D q -> exists enough j',
  (forall fuel, enough <= fuel ->
     bind (index (j_scans _ j) (j_active _ j)) (fun s => join_finish sc fuel j (ask sc q fuel s)) = Ok (j', hd_error (after q c l))) /\
  join_rel j' (hd_error (after q c l)) (tl (after q c l)).
Proof.
  intros q j c l (Hinc & Hval & Hact & cls & Hc & Hst) Hq.
  destruct (all_conform_get sc R _ _ _ Hc Hact) as (s & cl & Es & Ecl & Hs).
  assert (E : index (j_scans _ j) (j_active _ j) = Ok s) by (apply index_Ok; exact Es). rewrite E. cbn [bind].
  destruct (i_ask _ _ _ _ _ HR s (fst cl) (snd cl) q Hs Hq) as (n1 & s' & Hask & _ & Hs').
  set (rest := after q (fst cl) (snd cl)) in *.
  pose proof (i_increasing _ _ _ _ _ HR _ _ _ Hs) as Hsinc.
  assert (Hrin : increasing rest) by (apply after_increasing, Hsinc).
  set (act := j_active _ j) in *. set (scans := j_scans _ j) in *.
  set (cl' := (hd_error rest, tl rest)).
  assert (Hlen : length cls = length scans) by apply Hc.
  assert (Hc' : all_conform sc R (set_nth act s' scans) (set_nth act cl' cls)) by (apply all_conform_set; [exact Hc|exact Hs']).
  (* the result is nothing and stays so *)
  assert (Hdone : after q c l = [] -> forall scans' active' cls', length scans' = length scans -> all_conform sc R scans' cls' -> active' < length scans ->
     nth_error cls' active' = Some (None, []) ->
     join_rel (mk_join _ scans' active' None) (hd_error (after q c l)) (tl (after q c l))).
  { intros E0 scans' active' cls' H1 H2 H3 H4. rewrite E0. cbn. split; [apply increasing_nil|]. split; [reflexivity|]. split; [cbn; lia|].
    exists cls'. split; [exact H2|]. right. auto. }
  destruct Hst as [[Hall Hset]|(-> & -> & Hend)].
  - (* what is ahead of the join is what is ahead of all sub scans *)
    assert (Hlall : forall x, In x (ahead c l) <-> forall i cl, nth_error cls i = Some cl -> In x (ahead (fst cl) (snd cl))).
    { intros x. split.
      - intros Hx i c0 Hi. rewrite (Hall i c0 Hi). destruct c as [v|]; cbn in Hx |- *; [destruct Hx as [->|Hx]; [left; reflexivity|right]|]; eapply Hset; eassumption.
      - intros H. pose proof (H act cl Ecl) as H0. rewrite (Hall _ _ Ecl) in H0. destruct c as [v|]; cbn in H0 |- *.
        + destruct H0 as [->|H0]; [left; reflexivity|]. right. apply Hset. intros i c0 Hi. specialize (H i c0 Hi). rewrite (Hall _ _ Hi) in H. destruct H as [->|H]; [|exact H].
          exfalso. rewrite (Hall _ _ Ecl) in Hsinc. cbn in Hsinc. apply increasing_cons in Hsinc. destruct Hsinc as [_ Hlt]. specialize (Hlt _ H0). lia.
        + apply Hset. intros i c0 Hi. specialize (H i c0 Hi). rewrite (Hall _ _ Hi) in H. exact H. }
    set (l' := after q c l).
    assert (Hl'inc : increasing l') by (apply after_increasing, Hinc).
    set (Fs := map (fun cl => ahead (fst cl) (snd cl)) cls).
    assert (Hin_all : forall x, in_all Fs x <-> In x (ahead c l)).
    { intros x. rewrite Hlall. unfold in_all, Fs. split.
      - intros H i c0 Hi. apply H. apply in_map_iff. exists c0. split; [reflexivity|]. eapply nth_error_In; exact Hi.
      - intros H F HF. apply in_map_iff in HF. destruct HF as (c0 & <- & Hc0). apply In_nth_error in Hc0. destruct Hc0 as [i Hi]. eapply H; exact Hi. }
    (* when there is a first value *)
    destruct (hd_error rest) as [v|] eqn:Eh.
    + assert (Hvrest : In v rest) by (apply hd_In, Eh).
      assert (HvD : D v). { apply (i_domain _ _ _ _ _ HR _ _ _ v Hs). eapply after_ahead; exact Hvrest. }
      (* membership in l' and rest, from v on *)
      assert (Hl'v : forall x, In x l' -> (v <= x)%Z).
      { intros x Hx. eapply hd_least; [exact Hrin|exact Eh|]. unfold l' in Hx. unfold rest. destruct q as [|w]; cbn [after] in *.
        - apply Hset with (i := act); assumption.
        - apply from_In in Hx; [|exact Hinc]. apply from_In; [exact Hsinc|]. destruct Hx as [Hx Hw]. split; [|exact Hw]. apply (proj1 (Hlall x) Hx act cl Ecl). }
      assert (Hl'mem : forall x, (v <= x)%Z -> (In x l' <-> in_all Fs x)).
      { intros x Hx. rewrite Hin_all. unfold l'. split; [apply after_ahead|]. intros Hxa. destruct q as [|w]; cbn [after] in *.
        - destruct c as [u|]; [|exact Hxa]. destruct Hxa as [->|Hxa]; [|exact Hxa]. exfalso.
          rewrite (Hall _ _ Ecl) in Hsinc. cbn in Hsinc. apply increasing_cons in Hsinc. destruct Hsinc as [_ Hlt]. specialize (Hlt v Hvrest). lia.
        - apply from_In; [exact Hinc|]. split; [exact Hxa|]. unfold rest in Hvrest. apply from_In in Hvrest; [|exact Hsinc]. lia. }
      destruct (next_loop_ok (S (length scans * larger v Fs + (length scans - 1))) Fs v (set_nth act s' scans) (set_nth act cl' cls) act v 1) as (n2 & sc' & ac' & o & cls' & H1 & H2 & H3 & H4 & H5);
        rewrite ?set_nth_length; try assumption; try lia.
      { split; [rewrite set_nth_length; unfold Fs; rewrite map_length; reflexivity|]. intros i c0 F Hi HF x Hx.
        unfold Fs in HF. rewrite nth_error_map in HF. apply nth_set_cls in Hi; [|lia]. destruct Hi as [[<- ->]|[Hn Hi]].
        - rewrite Ecl in HF. cbn in HF. injection HF as <-. unfold cl'. cbn [fst snd]. rewrite <- Eh, ahead_split. split; [apply after_ahead|].
          intros Hxa. unfold rest. destruct q as [|w]; cbn [after] in *.
          + destruct (fst cl) as [u|]; [|exact Hxa]. destruct Hxa as [->|Hxa]; [|exact Hxa]. exfalso. cbn in Hsinc. apply increasing_cons in Hsinc.
            destruct Hsinc as [_ Hlt]. specialize (Hlt v Hvrest). lia.
          + apply from_In; [exact Hsinc|]. split; [exact Hxa|]. unfold rest in Hvrest. apply from_In in Hvrest; [|exact Hsinc]. lia.
        - rewrite Hi in HF. cbn in HF. injection HF as <-. reflexivity. }
      { intros i c0 Hi Hb. apply nth_set_cls in Hi; [|lia]. destruct Hi as [[<- ->]|[Hn Hi]]; [first [reflexivity|exact Eh]|]. exfalso.
        assert (Hil : i < length scans) by (rewrite <- Hlen; apply nth_error_Some; congruence). unfold behind in Hb. destruct (Nat.leb_spec i act); lia. }
      rewrite set_nth_length in H2, H4.
      assert (Hrun : forall fuel, Nat.max n1 n2 <= fuel -> join_finish sc fuel j (ask sc q fuel s) = Ok (mk_join _ sc' ac' o, o)).
      { intros fuel Hf. unfold join_finish. rewrite Hask by lia. cbn [bind fst snd]. fold scans act. rewrite H1 by lia. reflexivity. }
      destruct o as [w|].
      * destruct H5 as (Hw1 & Hw2 & Hw3 & Hw4 & Hw5 & Hw6).
        assert (Hh : hd_error l' = Some w).
        { apply hd_is; [exact Hl'inc|apply Hl'mem; assumption|]. intros y Hy. pose proof (Hl'v y Hy). apply Hw3; [assumption|]. apply Hl'mem; assumption. }
        exists (Nat.max n1 n2), (mk_join _ sc' ac' (Some w)). fold l'. rewrite Hh. split; [exact Hrun|]. split.
        { rewrite <- Hh, ahead_split. exact Hl'inc. }
        split; [reflexivity|]. split; [cbn; lia|]. exists cls'. cbn. split; [exact H3|]. left. split; [exact Hw4|].
        intros x. rewrite (tl_In l' w x Hl'inc Hh). split.
        -- intros [Hx Hlt] i c0 Hi. assert (Hif : exists F, nth_error Fs i = Some F).
           { destruct (nth_error Fs i) as [F|] eqn:EF; [eauto|]. apply nth_error_None in EF. assert (i < length cls') by (apply nth_error_Some; congruence). lia. }
           destruct Hif as (F & HF). assert (Hxa : In x (ahead (fst c0) (snd c0))).
           { apply (Hw6 i c0 F Hi HF x ltac:(lia)). apply (proj1 (Hl'mem x (Hl'v x Hx)) Hx). eapply nth_error_In; exact HF. }
           rewrite (Hw4 i c0 Hi) in Hxa. destruct Hxa as [->|Hxa]; [lia|exact Hxa].
        -- intros H. assert (Hlt : (w < x)%Z).
           { destruct (all_conform_get sc R _ _ ac' H3 ltac:(lia)) as (s2 & c2 & Es2 & Ec2 & Hs2). pose proof (i_increasing _ _ _ _ _ HR _ _ _ Hs2) as Hi2.
             rewrite (Hw4 _ _ Ec2) in Hi2. apply increasing_cons in Hi2. apply Hi2. eapply H. exact Ec2. }
           split; [|exact Hlt]. apply Hl'mem; [lia|]. intros F HF. apply In_nth_error in HF. destruct HF as [i HF].
           destruct (nth_error cls' i) as [c0|] eqn:Ei; [|exfalso; apply nth_error_None in Ei; assert (i < length Fs) by (apply nth_error_Some; congruence); lia].
           apply (Hw6 i c0 F Ei HF x ltac:(lia)). rewrite (Hw4 i c0 Ei). right. eapply H. exact Ei.
      * destruct H5 as (Hw1 & Hw2). assert (E0 : l' = []).
        { destruct l' as [|y l0] eqn:El; [reflexivity|]. exfalso. assert (Hy : In y (y :: l0)) by (left; reflexivity). apply (Hw2 y (Hl'v y Hy)). apply Hl'mem; [apply Hl'v, Hy|exact Hy]. }
        exists (Nat.max n1 n2), (mk_join _ sc' ac' None). split; [intros fuel Hf; rewrite (Hrun fuel Hf); change (after q c l) with l'; rewrite E0; reflexivity|]. apply (Hdone E0 sc' ac' cls'); assumption.
    + assert (E0 : l' = []).
      { apply hd_none in Eh. destruct l' as [|y l0] eqn:El; [reflexivity|]. exfalso. assert (Hy : In y l') by (rewrite El; left; reflexivity).
        assert (Hyr : In y rest); [|rewrite Eh in Hyr; exact Hyr]. unfold l' in Hy. unfold rest. destruct q as [|w]; cbn [after] in *.
        - apply Hset with (i := act); assumption.
        - apply from_In in Hy; [|exact Hinc]. apply from_In; [exact Hsinc|]. destruct Hy as [Hy Hw]. split; [|exact Hw]. apply (proj1 (Hlall y) Hy act cl Ecl). }
      exists n1, (mk_join _ (set_nth act s' scans) act None). split.
      * intros fuel Hf. unfold join_finish. rewrite Hask by lia. change (after q c l) with l'. rewrite E0. reflexivity.
      * apply (Hdone E0 _ act (set_nth act cl' cls)); [apply set_nth_length|exact Hc'|exact Hact|]. rewrite set_nth_same by lia. unfold cl'. apply hd_none in Eh. rewrite Eh. reflexivity.
  - assert (Ecl0 : cl = (None, [])) by congruence. assert (Er : rest = []) by (unfold rest; rewrite Ecl0; destruct q; reflexivity).
    assert (E0 : after q None [] = []) by (destruct q; reflexivity).
    exists n1, (mk_join _ (set_nth act s' scans) act None). split.
    + intros fuel Hf. unfold join_finish. rewrite Hask by lia. rewrite Er, E0. reflexivity.
    + apply (Hdone E0 _ act (set_nth act cl' cls)); [apply set_nth_length|exact Hc'|exact Hact|]. rewrite set_nth_same by lia. unfold cl'. rewrite Er. reflexivity.
Qed.

Lemma join_implements : implements D (join_scanner sc) true (fun _ _ => True) join_rel.
Proof.
  constructor.
  - intros j c l H. apply H.
  - intros j c l x (Hinc & Hval & Hact & cls & Hc & Hst) Hx. destruct (all_conform_get sc R _ _ _ Hc Hact) as (s & cl & Es & Ecl & Hs).
    destruct Hst as [[Hall Hset]|(-> & -> & _)]; [|destruct Hx]. apply (i_domain _ _ _ _ _ HR _ _ _ x Hs). rewrite (Hall _ _ Ecl).
    destruct c as [v|]; cbn in Hx |- *; [destruct Hx as [->|Hx]; [left; reflexivity|right]|]; eapply Hset; eassumption.
  - intros j c l (_ & Hval & _) _. cbn. rewrite Hval. reflexivity.
  - intros j c l q Hj Hq. destruct (join_finish_ok q j c l Hj Hq) as (n & j' & H1 & H2). exists n, j'. split; [|split; [exact I|exact H2]].
    intros fuel Hf. specialize (H1 fuel Hf). destruct q; exact H1.
Qed.

Lemma join_initial : forall scans ls l, scans <> [] -> length ls = length scans ->
  (forall i s F, nth_error scans i = Some s -> nth_error ls i = Some F -> R s None F) ->
  increasing l -> (forall x, In x l <-> forall F, In F ls -> In x F) -> join_rel (join_new sc scans) None l.
Proof.
  intros scans ls l Hne Hlen Hr Hinc Hset. unfold join_rel, join_new. cbn. split; [exact Hinc|]. split; [reflexivity|]. split; [destruct scans; [congruence|cbn; lia]|].
  exists (map (fun F => (None, F)) ls). split.
  - split; [rewrite map_length; exact Hlen|]. intros i s cl Hi Hcl. rewrite nth_error_map in Hcl. destruct (nth_error ls i) as [F|] eqn:EF; [|discriminate]. injection Hcl as <-. eapply Hr; eassumption.
  - left. split.
    + intros i cl Hcl. rewrite nth_error_map in Hcl. destruct (nth_error ls i); [|discriminate]. injection Hcl as <-. reflexivity.
    + intros x. rewrite Hset. split.
      * intros H i cl Hcl. rewrite nth_error_map in Hcl. destruct (nth_error ls i) as [F|] eqn:EF; [|discriminate]. injection Hcl as <-. apply H. eapply nth_error_In; exact EF.
      * intros H F HF. apply In_nth_error in HF. destruct HF as [i HF]. apply (H i (None, F)). rewrite nth_error_map, HF. reflexivity.
Qed.
End Join.
