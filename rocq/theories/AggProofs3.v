(* The processors of aggregation, and the groups of a sorted list of rows. *)
From Coq Require Import List ZArith Bool Lia Arith Sorted.
From Verif Require Import ColumnModel ScanModel TrieModel TrieSpec TrieProofs1 TrieProofs3 AggModel AggSpec AggProofs2.
From Verif Require IntModel.
Import ListNotations.
Local Open Scope nat_scope.

(* ---------- processors ---------- *)

Lemma stype_eqb_eq : forall s t, stype_eqb s t = true <-> s = t.
Proof. intros s t. unfold stype_eqb. rewrite Nat.eqb_eq. split; [intros H; destruct s, t; cbn in H; congruence|congruence]. Qed.
Lemma value_ltb_spec : forall v w, value_ltb v w = true <-> value_lt v w.
Proof.
  intros v w. unfold value_ltb, value_lt. rewrite orb_true_iff, andb_true_iff, Nat.ltb_lt, Z.ltb_lt, stype_eqb_eq. reflexivity.
Qed.
Lemma value_total : forall v w : value, ~ value_lt v w -> ~ value_lt w v -> v = w.
Proof.
  intros [s x] [t y] H1 H2. unfold value_lt in *. cbn [fst snd] in *. assert (E : order s = order t) by lia.
  assert (s = t) by (destruct s, t; cbn in E; congruence). subst t. f_equal. assert (~ (x < y)%Z) by tauto. assert (~ (y < x)%Z) by tauto. lia.
Qed.

Section Processors.
Variable F : floats.

Fixpoint writes (p : processor) (vs : list value) : res processor :=
  match vs with [] => Ok p | v :: vs' => bind (processor_write F p v) (fun p => writes p vs') end.

Lemma writes_count : forall vs k, (0 <= k)%Z -> (k + Z.of_nat (length vs) <= IntModel.i64_max)%Z -> writes (PCount k) vs = Ok (PCount (k + Z.of_nat (length vs))).
Proof.
  induction vs as [|v vs IH]; intros k H1 H2; cbn [writes length] in *; [do 2 f_equal; lia|]. cbn [processor_write]. unfold checked_i64, IntModel.fits.
  assert (E : ((IntModel.i64_min <=? k + 1) && (k + 1 <=? IntModel.i64_max))%Z = true).
  { apply andb_true_iff. split; apply Z.leb_le; [unfold IntModel.i64_min; lia|lia]. }
  rewrite E. cbn [bind]. rewrite IH by lia. do 2 f_equal. lia.
Qed.
Lemma writes_min : forall vs w, exists w', writes (PMin (Some w)) vs = Ok (PMin (Some w')) /\ In w' (w :: vs) /\ forall u, In u (w :: vs) -> ~ value_lt u w'.
Proof.
  induction vs as [|v vs IH]; intros w; cbn [writes]; [exists w; repeat split; [left; reflexivity|]; intros u [<-|[]]; apply value_lt_irrefl|].
  cbn [processor_write bind]. destruct (value_ltb v w) eqn:E; destruct (IH (if value_ltb v w then v else w)) as (w' & E' & Hin & Hm); rewrite E in *; exists w'; (split; [exact E'|]).
  - apply value_ltb_spec in E. split; [right; exact Hin|]. intros u [<-|Hu]; [|exact (Hm u Hu)]. intros H. apply (Hm v (or_introl eq_refl)). eapply value_lt_trans; eassumption.
  - assert (N : ~ value_lt v w) by (intros H; apply value_ltb_spec in H; congruence). split; [destruct Hin as [->|Hin]; cbn; auto|].
    intros u [<-|[<-|Hu]]; [apply Hm; left; reflexivity| |apply Hm; right; exact Hu]. intros H. destruct (value_ltb w' w) eqn:E2.
    + apply value_ltb_spec in E2. apply N. eapply value_lt_trans; eassumption.
    + assert (N2 : ~ value_lt w' w) by (intros H2; apply value_ltb_spec in H2; congruence). pose proof (Hm w (or_introl eq_refl)) as N3. rewrite (value_total _ _ N2 N3) in H. tauto.
Qed.
Lemma writes_max : forall vs w, exists w', writes (PMax (Some w)) vs = Ok (PMax (Some w')) /\ In w' (w :: vs) /\ forall u, In u (w :: vs) -> ~ value_lt w' u.
Proof.
  induction vs as [|v vs IH]; intros w; cbn [writes]; [exists w; repeat split; [left; reflexivity|]; intros u [<-|[]]; apply value_lt_irrefl|].
  cbn [processor_write bind]. destruct (value_ltb w v) eqn:E; destruct (IH (if value_ltb w v then v else w)) as (w' & E' & Hin & Hm); rewrite E in *; exists w'; (split; [exact E'|]).
  - apply value_ltb_spec in E. split; [right; exact Hin|]. intros u [<-|Hu]; [|exact (Hm u Hu)]. intros H. apply (Hm v (or_introl eq_refl)). eapply value_lt_trans; eassumption.
  - assert (N : ~ value_lt w v) by (intros H; apply value_ltb_spec in H; congruence). split; [destruct Hin as [->|Hin]; cbn; auto|].
    intros u [<-|[<-|Hu]]; [apply Hm; left; reflexivity| |apply Hm; right; exact Hu]. intros H. destruct (value_ltb w w') eqn:E2.
    + apply value_ltb_spec in E2. apply N. eapply value_lt_trans; eassumption.
    + assert (N2 : ~ value_lt w w') by (intros H2; apply value_ltb_spec in H2; congruence). pose proof (Hm w (or_introl eq_refl)) as N3. rewrite <- (value_total _ _ N2 N3) in H. tauto.
Qed.

Fixpoint adds (add : Z -> Z -> option Z) (cur : option Z) (l : list Z) : res (option Z) :=
  match l with [] => Ok cur | x :: l' => bind (add_to add cur x) (fun c => adds add c l') end.
Lemma adds_total : forall add l s s', total add s l = Some s' -> adds add (Some s) l = Ok (Some s').
Proof.
  induction l as [|x l IH]; intros s s' H; cbn [total adds add_to] in *; [congruence|]. destruct (add s x); [|discriminate]. cbn [bind]. apply IH, H.
Qed.
Lemma adds_sums : forall add l s, sums add l s -> adds add None l = Ok (Some s).
Proof. intros add [|x l] s H; cbn [sums] in H; [destruct H|]. cbn [adds add_to bind]. apply adds_total, H. Qed.
Lemma writes_sum : forall vs a b c a' b' c', adds (add32 F) a (f32s vs) = Ok a' -> adds checked_i64 b (ints vs) = Ok b' -> adds (add64 F) c (f64s vs) = Ok c' ->
  writes (PSum a b c) vs = Ok (PSum a' b' c').
Proof.
  unfold f32s, ints, f64s. induction vs as [|[t x] vs IH]; intros a b c a' b' c' Ha Hb Hc; cbn [filter map adds writes fst] in *; [congruence|].
  cbn [processor_write]. destruct t; cbn [fst snd stype_eqb order Nat.eqb filter map] in *; try (cbn [bind]; apply IH; assumption).
  - cbn [map adds snd] in Hb. destruct (add_to checked_i64 b x) as [y| |]; cbn [bind] in *; try discriminate. apply IH; assumption.
  - cbn [map adds snd] in Ha. destruct (add_to (add32 F) a x) as [y| |]; cbn [bind] in *; try discriminate. apply IH; assumption.
  - cbn [map adds snd] in Hc. destruct (add_to (add64 F) c x) as [y| |]; cbn [bind] in *; try discriminate. apply IH; assumption.
Qed.

Theorem processor_ok : forall a vs v, vs <> [] -> aggregated F a vs v -> exists p, writes (processor_new a) vs = Ok p /\ processor_finish F p = Ok (Some v).
Proof.
  intros a vs v Hne H. destruct a; cbn [aggregated processor_new] in *.
  - destruct H as [H1 H2]. destruct vs as [|w vs]; [congruence|]. cbn [writes processor_write bind]. destruct (writes_min vs w) as (w' & E & Hin & Hm). eexists. split; [exact E|].
    cbn [processor_finish]. do 2 f_equal. apply value_total; [apply H2, Hin|apply Hm, H1].
  - destruct H as [H1 H2]. destruct vs as [|w vs]; [congruence|]. cbn [writes processor_write bind]. destruct (writes_max vs w) as (w' & E & Hin & Hm). eexists. split; [exact E|].
    cbn [processor_finish]. do 2 f_equal. apply value_total; [apply Hm, H1|apply H2, Hin].
  - destruct (f64s vs) as [|d ds] eqn:Ed.
    + destruct H as [(Ef & s & Hs & ->)|(Ei & s & Hs & ->)]; eexists; (split; [apply writes_sum; [rewrite ?Ef|rewrite ?Ei|rewrite Ed; reflexivity]; first [apply adds_sums; exact Hs|reflexivity]|reflexivity]).
    + destruct H as (s & si & s' & Hs & Hi & Hf & ->).
      assert (Hb : exists b, adds checked_i64 None (ints vs) = Ok b /\ match b with Some i => must_add F s (int_to_64 F i) = Ok si | None => si = s end).
      { destruct (ints vs) as [|i is]; [exists None; auto|]. destruct Hi as (i' & H1 & H2). exists (Some i'). split; [apply adds_sums, H1|unfold must_add; rewrite H2; reflexivity]. }
      assert (Ha : exists b, adds (add32 F) None (f32s vs) = Ok b /\ match b with Some f => must_add F si (f32_to_64 F f) = Ok s' | None => s' = si end).
      { destruct (f32s vs) as [|i is]; [exists None; auto|]. destruct Hf as (i' & H1 & H2). exists (Some i'). split; [apply adds_sums, H1|unfold must_add; rewrite H2; reflexivity]. }
      destruct Hb as (b & Eb & Hb). destruct Ha as (a & Ea & Ha). eexists. split; [apply writes_sum; [exact Ea|exact Eb|rewrite Ed; apply adds_sums; exact Hs]|].
      cbn [processor_finish]. destruct b; [rewrite Hb|subst si]; cbn [bind]; destruct a; [rewrite Ha|subst s'|rewrite Ha|subst s']; reflexivity.
  - destruct H as [-> H]. eexists. split; [apply writes_count; lia|]. reflexivity.
Qed.
End Processors.

(* ---------- groups ---------- *)

Lemma firstn_firstn_le : forall (m g : nat) (r : row), g <= m -> firstn g (firstn m r) = firstn g r.
Proof. intros m g r H. rewrite firstn_firstn. f_equal. lia. Qed.

Lemma row_lt_firstn : forall m x y, row_lt x y -> row_lt (firstn m x) (firstn m y) \/ firstn m x = firstn m y.
Proof.
  induction m as [|m IH]; intros [|v x] [|w y] H; cbn [row_lt firstn] in *; try tauto. destruct H as [H|[-> H]]; [auto|].
  destruct (IH x y H) as [H1|H1]; [auto|right; congruence].
Qed.
Lemma row_lt_firstn_lt : forall m k x y, m <= k -> row_lt (firstn m x) (firstn m y) -> row_lt (firstn k x) (firstn k y).
Proof.
  induction m as [|m IH]; intros [|k] [|v x] [|w y] Hk H; cbn [row_lt firstn] in *; try tauto; try lia. destruct H as [H|[-> H]]; [auto|]. right. split; [reflexivity|]. apply IH; [lia|exact H].
Qed.

Section Groups.
Variables n m g : nat.
Hypothesis Hmn : m <= n.
Hypothesis Hgm : g <= m.
Definition table (l : list row) : Prop := StronglySorted row_lt l /\ forall x, In x l -> length x = n.

Lemma table_tail : forall x l, table (x :: l) -> table l.
Proof. intros x l [H1 H2]. inversion H1; subst. split; [assumption|intros y Hy; apply H2; right; exact Hy]. Qed.
Lemma skip_like_spec : forall k x l, k <= n -> table (x :: l) -> exists sib, l = sib ++ skip_like k x l /\ (forall y, In y sib -> firstn k y = firstn k x) /\
  (forall y, In y (skip_like k x l) -> row_lt (firstn k x) (firstn k y)) /\ table (skip_like k x l).
Proof.
  intros k x l Hk. induction l as [|y l IH]; intros T; cbn [skip_like].
  - exists []. split; [reflexivity|]. split; [intros y []|]. split; [intros y []|apply (table_tail _ _ T)].
  - pose proof (proj2 T x (or_introl eq_refl)) as Lx. pose proof (proj2 T y (or_intror (or_introl eq_refl))) as Ly.
    destruct (Nat.leb_spec k (differs x y)) as [H|H].
    + destruct IH as (sib & E & H1 & H2 & H3).
      { destruct T as [T1 T2]. inversion T1 as [|? ? T3 T4]; subst. inversion T3; subst. inversion T4; subst. split; [constructor; assumption|]. intros z [<-|Hz]; apply T2; cbn; auto. }
      exists (y :: sib). split; [cbn; congruence|]. split; [|auto]. intros z [<-|Hz]; [|auto]. symmetry. apply differs_prefix; [unfold row in *; lia|unfold row in *; lia|exact H].
    + exists []. split; [reflexivity|]. split; [intros z []|]. split; [|apply (table_tail _ _ T)].
      assert (N : firstn k x <> firstn k y) by (intros E; apply differs_prefix in E; [lia|unfold row in *; lia|unfold row in *; lia]).
      destruct T as [T1 _]. inversion T1 as [|? ? T3 T4]; subst. inversion T4 as [|? ? Hxy T5]; subst. destruct (row_lt_firstn k x y Hxy) as [Hlt|Hlt]; [|congruence].
      intros z [<-|Hz]; [exact Hlt|]. inversion T3 as [|? ? T6 T7]; subst. pose proof (proj1 (Forall_forall _ _) T7 z Hz) as Hyz.
      destruct (row_lt_firstn k y z Hyz) as [E|E]; [eapply row_lt_trans; eassumption|rewrite <- E; exact Hlt].
Qed.

(* the rows visited from x on, up to the next group *)
Inductive visit : row -> list row -> list row -> option (row * list row) -> Prop :=
| visit_end : forall x l, skip_like m x l = [] -> visit x l [x] None
| visit_stop : forall x l y l', skip_like m x l = y :: l' -> differs x y < g -> visit x l [x] (Some (y, l'))
| visit_more : forall x l y l' reps left, skip_like m x l = y :: l' -> g <= differs x y -> visit y l' reps left -> visit x l (x :: reps) left.

Lemma skip_like_len : forall x l, length (skip_like m x l) <= length l.
Proof. induction l as [|y l IH]; cbn [skip_like]; [lia|]. destruct (m <=? differs x y); cbn [length]; lia. Qed.
Lemma visit_exists : forall N x l, length l < N -> exists reps left, visit x l reps left /\ match left with Some (y, l') => length l' < length l | None => True end.
Proof.
  induction N as [|N IH]; intros x l Hl; [lia|]. pose proof (skip_like_len x l) as Hs. destruct (skip_like m x l) as [|y l'] eqn:E.
  - exists [x], None. split; [apply visit_end, E|exact I].
  - cbn [length] in Hs. destruct (Nat.lt_ge_cases (differs x y) g) as [H|H].
    + exists [x], (Some (y, l')). split; [apply visit_stop; assumption|lia].
    + destruct (IH y l' ltac:(lia)) as (reps & left & Hv & Hlt). exists (x :: reps), left. split; [eapply visit_more; eassumption|]. destruct left as [[z l'']|]; [lia|exact I].
Qed.
Definition left_rows (left : option (row * list row)) : list row := match left with Some (y, l) => y :: l | None => [] end.

Lemma visit_spec : forall x l reps left, visit x l reps left -> table (x :: l) ->
  exists pre, x :: l = pre ++ left_rows left /\ table (left_rows left) /\ (exists reps', reps = x :: reps') /\
    (forall y, In y reps -> In y pre) /\ (forall y, In y pre -> firstn g y = firstn g x /\ exists c, In c reps /\ firstn m c = firstn m y) /\
    StronglySorted row_lt (map (firstn m) reps) /\ (forall y, In y (left_rows left) -> row_lt (firstn g x) (firstn g y)).
Proof.
  induction 1 as [x l E|x l y l' E Hd|x l y l' reps left E Hd Hv IH]; intros T; destruct (skip_like_spec m x l Hmn T) as (sib & El & H1 & H2 & H3); rewrite E in *.
  - exists (x :: sib). split; [rewrite El at 1; cbn; rewrite !app_nil_r; reflexivity|]. split; [exact H3|]. split; [eauto|].
    split; [intros y [<-|[]]; left; reflexivity|]. split; [|split; [repeat constructor|intros y []]].
    intros y Hy. assert (Em : firstn m y = firstn m x) by (destruct Hy as [<-|Hy]; auto). split; [|exists x; cbn; auto].
    rewrite <- (firstn_firstn_le m g y Hgm), <- (firstn_firstn_le m g x Hgm). congruence.
  - exists (x :: sib). cbn [left_rows]. split; [rewrite El at 1; reflexivity|]. split; [exact H3|]. split; [eauto|].
    split; [intros z [<-|[]]; left; reflexivity|]. split; [|split; [repeat constructor|]].
    + intros z Hy. assert (Em : firstn m z = firstn m x) by (destruct Hy as [<-|Hy]; auto). split; [|exists x; cbn; auto].
      rewrite <- (firstn_firstn_le m g z Hgm), <- (firstn_firstn_le m g x Hgm). congruence.
    + assert (Hlt : row_lt (firstn g x) (firstn g y)).
      { pose proof (H2 y (or_introl eq_refl)) as Hm'. destruct (row_lt_firstn g _ _ Hm') as [Hx|Hx]; rewrite !firstn_firstn_le in Hx by exact Hgm; [exact Hx|].
        apply differs_prefix in Hx; [lia| |]; rewrite ?(proj2 T x (or_introl eq_refl)), ?(proj2 H3 y (or_introl eq_refl)); lia. }
      intros z [<-|Hz]; [exact Hlt|]. destruct H3 as [H3 _]. inversion H3 as [|? ? T3 T4]; subst. pose proof (proj1 (Forall_forall _ _) T4 z Hz) as Hyz.
      destruct (row_lt_firstn g y z Hyz) as [Ez|Ez]; [eapply row_lt_trans; eassumption|rewrite <- Ez; exact Hlt].
  - destruct (IH H3) as (pre & E1 & T1 & (reps' & ->) & R1 & R2 & R3 & R4).
    assert (Eg : firstn g y = firstn g x).
    { symmetry. apply differs_prefix; [|rewrite (proj2 T x (or_introl eq_refl)); lia|exact Hd]. rewrite (proj2 T x (or_introl eq_refl)), (proj2 H3 y (or_introl eq_refl)). reflexivity. }
    exists (x :: sib ++ pre). split; [rewrite El at 1; rewrite E1; cbn; rewrite app_assoc; reflexivity|]. split; [exact T1|]. split; [eauto|].
    split; [intros z [<-|Hz]; [left; reflexivity|right; apply in_or_app; right; apply R1, Hz]|]. split; [|split].
    + intros z Hz. assert (Hz' : firstn m z = firstn m x \/ In z pre) by (destruct Hz as [<-|Hz]; [auto|apply in_app_or in Hz; destruct Hz as [Hz|Hz]; auto]). destruct Hz' as [Em|Hz'].
      * split; [|exists x; cbn; auto]. rewrite <- (firstn_firstn_le m g z Hgm), <- (firstn_firstn_le m g x Hgm). congruence.
      * destruct (R2 z Hz') as (Ez & c & Hc & Ec). split; [congruence|]. exists c. split; [right; exact Hc|exact Ec].
    + cbn [map]. constructor; [exact R3|]. apply Forall_forall. intros c Hc. change (In c (map (firstn m) (y :: reps'))) in Hc. apply in_map_iff in Hc. destruct Hc as (z & <- & Hz).
      apply H2. rewrite E1. apply in_or_app. left. apply R1, Hz.
    + intros z Hz. rewrite <- Eg. apply R4, Hz.
Qed.

(* all groups *)
Inductive groups : row -> list row -> list (row * list row) -> Prop :=
| groups_last : forall x l reps, visit x l reps None -> groups x l [(firstn g x, reps)]
| groups_more : forall x l reps y l' gs, visit x l reps (Some (y, l')) -> groups y l' gs -> groups x l ((firstn g x, reps) :: gs).

Lemma groups_exists : forall N x l, length l < N -> exists gs, groups x l gs.
Proof.
  induction N as [|N IH]; intros x l Hl; [lia|]. destruct (visit_exists _ x l (Nat.lt_succ_diag_r _)) as (reps & [[y l']|] & Hv & Hlt).
  - destruct (IH y l' ltac:(lia)) as (gs & Hg). eexists. eapply groups_more; eassumption.
  - eexists. eapply groups_last, Hv.
Qed.

Lemma firstn_same_len : forall (x : row), length x = n -> length (firstn m x) = m /\ length (firstn g x) = g.
Proof. intros x H. rewrite !firstn_length. unfold row in *. lia. Qed.

Lemma groups_spec : forall x l gs, groups x l gs -> table (x :: l) ->
  (forall grp reps, In (grp, reps) gs -> length grp = g /\ reps <> [] /\ combinations m (fun r => In r (x :: l)) grp (map (firstn m) reps)) /\
  StronglySorted row_lt (map fst gs) /\ (forall r, In r (x :: l) -> In (firstn g r) (map fst gs)).
Proof.
  assert (Hone : forall x l reps left pre, table (x :: l) -> x :: l = pre ++ left_rows left -> (exists reps', reps = x :: reps') ->
    (forall y, In y reps -> In y pre) -> (forall y, In y pre -> firstn g y = firstn g x /\ exists c, In c reps /\ firstn m c = firstn m y) ->
    StronglySorted row_lt (map (firstn m) reps) -> (forall y, In y (left_rows left) -> row_lt (firstn g x) (firstn g y)) ->
    length (firstn g x) = g /\ reps <> [] /\ combinations m (fun r => In r (x :: l)) (firstn g x) (map (firstn m) reps)).
  { intros x l reps left pre T El (reps' & Er) R1 R2 R3 R4. destruct (firstn_same_len x (proj2 T x (or_introl eq_refl))) as [L1 L2]. split; [exact L2|]. split; [rewrite Er; discriminate|].
    split; [exact R3|]. intros c. rewrite in_map_iff, L2. split.
    - intros (r & <- & Hr). assert (Hin : In r (x :: l)) by (rewrite El; apply in_or_app; left; apply R1, Hr). split; [apply firstn_same_len, (proj2 T), Hin|].
      split; [|eauto]. rewrite firstn_firstn_le by exact Hgm. apply R2, R1, Hr.
    - intros (_ & Hc & r & Hr & <-). rewrite firstn_firstn_le in Hc by exact Hgm. rewrite El in Hr. apply in_app_or in Hr. destruct Hr as [Hr|Hr].
      + destruct (R2 r Hr) as (_ & c & Hc' & E). eauto.
      + exfalso. specialize (R4 r Hr). rewrite Hc in R4. exact (row_lt_irrefl _ R4). }
  induction 1 as [x l reps Hv|x l reps y l' gs Hv Hg IH]; intros T; destruct (visit_spec _ _ _ _ Hv T) as (pre & El & Tl & Er & R1 & R2 & R3 & R4); pose proof (Hone _ _ _ _ _ T El Er R1 R2 R3 R4) as H0.
  - split; [intros grp rs [Eq|[]]; injection Eq as <- <-; exact H0|]. cbn [map fst]. split; [repeat constructor|].
    intros r Hr. left. cbn [left_rows] in El. rewrite app_nil_r in El. rewrite El in Hr. symmetry. apply R2, Hr.
  - cbn [left_rows] in *. destruct (IH Tl) as (I1 & I2 & I3).
    assert (Hgs : forall grp, In grp (map fst gs) -> exists r, In r (y :: l') /\ firstn g r = grp).
    { intros grp Hgrp. apply in_map_iff in Hgrp. destruct Hgrp as ([grp' rs] & <- & Hin). destruct (I1 _ _ Hin) as (Hl & Hne & _ & Hc). cbn [fst].
      destruct rs as [|c rs]; [congruence|]. destruct (proj1 (Hc (firstn m c)) (or_introl eq_refl)) as (_ & E & r & Hr & Er'). exists r. split; [exact Hr|].
      rewrite <- Er' in E. rewrite Hl, firstn_firstn_le in E by exact Hgm. exact E. }
    split; [|split].
    + intros grp rs [Eq|Hin]; [injection Eq as <- <-; exact H0|]. destruct (I1 _ _ Hin) as (Hl & Hne & Hs & Hc). split; [exact Hl|]. split; [exact Hne|]. split; [exact Hs|].
      intros c. rewrite Hc. split; intros (H1 & H2 & r & H3 & H4); (split; [exact H1|]); (split; [exact H2|]); exists r; (split; [|exact H4]).
      * rewrite El. apply in_or_app. right. exact H3.
      * rewrite El in H3. apply in_app_or in H3. destruct H3 as [H3|H3]; [|exact H3]. exfalso.
        destruct (Hgs grp) as (r' & Hr' & Er''). { apply in_map_iff. exists (grp, rs). auto. }
        specialize (R4 r' Hr'). rewrite Er'' in R4. destruct (R2 r H3) as [Ex _]. rewrite Hl, <- H4, firstn_firstn_le in H2 by exact Hgm. rewrite <- Ex, H2 in R4. exact (row_lt_irrefl _ R4).
    + cbn [map fst]. constructor; [exact I2|]. apply Forall_forall. intros grp Hgrp. destruct (Hgs grp Hgrp) as (r & Hr & <-). apply R4, Hr.
    + intros r Hr. rewrite El in Hr. apply in_app_or in Hr. cbn [map fst]. destruct Hr as [Hr|Hr]; [left; symmetry; apply R2, Hr|right; apply I3, Hr].
Qed.
End Groups.
