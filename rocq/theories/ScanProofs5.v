(* Filters, constants, and scans of columns. *)
From Coq Require Import List ZArith Bool Lia Sorted.
From Verif Require Import ColumnModel ColumnSpec ScanModel ScanSpec ColumnProofs ColumnProofs2 ColumnProofs3 ColumnProofs4 ColumnProps ScanProofs ScanProofs3.
Import ListNotations.
Local Open Scope nat_scope.

(* ---------- filter ---------- *)

Lemma filter_increasing : forall keep l, increasing l -> increasing (filter keep l).
Proof.
  intros keep. induction l as [|a l IH]; intros H; cbn [filter]; [exact H|]. apply increasing_cons in H. destruct H as [H1 H2].
  destruct (keep a); [|apply IH, H1]. apply increasing_cons. split; [apply IH, H1|]. intros y Hy. apply filter_In in Hy. apply H2, Hy.
Qed.
Lemma from_filter : forall keep v l, increasing l -> from v (filter keep l) = filter keep (from v l).
Proof.
  intros keep v l H. apply increasing_ext.
  - apply from_increasing, filter_increasing, H.
  - apply filter_increasing, from_increasing, H.
  - intros x. rewrite from_In by (apply filter_increasing, H). rewrite !filter_In, from_In by exact H. tauto.
Qed.

Section Filter.
Variable D : Z -> Prop.
Variable sc : scanner.
Variable b : bool.
Variable R : state sc -> option Z -> list Z -> Prop.
Hypothesis HR : implements D sc b (fun _ _ => True) R.
Variable keep : Z -> bool.

Definition filter_rel (f : filter_scan sc) (c : option Z) (l : list Z) : Prop :=
  exists lm, R (f_scan _ f) c lm /\ l = filter keep lm /\
    match c with Some v => keep v = true /\ f_value _ f = c | None => True end.

Lemma find_next_ok : forall lm s c, R s c lm -> exists n s' o lm',
  (forall fuel, n <= fuel -> find_next sc keep fuel s = Ok (s', o)) /\
  R s' o lm' /\ o = hd_error (filter keep lm) /\ filter keep lm' = tl (filter keep lm) /\
  match o with Some v => keep v = true | None => True end.
Proof.
  induction lm as [|m lm IH]; intros s c Hr; destruct (i_ask _ _ _ _ _ HR s c _ RNext Hr I) as (n & s' & Hnx & _ & Hr'); cbn [after ask hd_error tl] in Hnx, Hr'.
  - exists (S n), s', None, []. split; [|auto]. intros fuel Hf. destruct fuel as [|fuel]; [lia|]. cbn [find_next]. rewrite Hnx by lia. reflexivity.
  - cbn [filter]. destruct (keep m) eqn:Ek.
    + exists (S n), s', (Some m), lm. split; [|auto]. intros fuel Hf. destruct fuel as [|fuel]; [lia|]. cbn [find_next]. rewrite Hnx by lia. cbn [bind fst snd]. rewrite Ek. reflexivity.
    + destruct (IH s' _ Hr') as (n2 & s2 & o & lm' & H1 & H2 & H3 & H4 & H5). exists (S (Nat.max n n2)), s2, o, lm'. split; [|auto].
      intros fuel Hf. destruct fuel as [|fuel]; [lia|]. cbn [find_next]. rewrite Hnx by lia. cbn [bind fst snd]. rewrite Ek. apply H1. lia.
Qed.

Lemma filter_implements : implements D (filter_scanner sc keep) false (fun _ _ => True) filter_rel.
Proof.
  constructor.
  - intros f c l (lm & Hr & -> & Hc). pose proof (i_increasing _ _ _ _ _ HR _ _ _ Hr) as Hi. destruct c as [v|]; cbn [ahead] in *; [|apply filter_increasing, Hi].
    apply increasing_cons in Hi. apply increasing_cons. split; [apply filter_increasing, Hi|]. intros y Hy. apply filter_In in Hy. apply Hi, Hy.
  - intros f c l x (lm & Hr & -> & Hc) Hx. apply (i_domain _ _ _ _ _ HR _ _ _ x Hr). destruct c as [v|]; cbn [ahead] in *; [destruct Hx as [->|Hx]; [left; reflexivity|right]|]; eapply filter_In, Hx.
  - intros f c l (lm & Hr & -> & Hc) [H|H]; [discriminate|]. destruct c as [v|]; [|contradiction]. cbn. destruct Hc as [_ Hc]. rewrite Hc. reflexivity.
  - intros f c l q (lm & Hr & -> & Hc) Hq. destruct q as [|v]; cbn [ask after filter_scanner s_next s_seek].
    + destruct (find_next_ok lm _ _ Hr) as (n & s' & o & lm' & H1 & H2 & H3 & H4 & H5). exists n, (mk_filter _ s' o). split; [|split; [exact I|]].
      * intros fuel Hf. unfold filter_next. rewrite H1 by exact Hf. cbn [bind fst snd]. rewrite <- H3. reflexivity.
      * exists lm'. rewrite <- H3. cbn [f_scan f_value]. split; [exact H2|]. split; [symmetry; exact H4|]. destruct o; auto.
    + pose proof (i_increasing _ _ _ _ _ HR _ _ _ Hr) as Hi.
      assert (E : from v (ahead c (filter keep lm)) = filter keep (from v (ahead c lm))).
      { rewrite <- from_filter by exact Hi. f_equal. destruct c as [w|]; cbn [ahead filter]; [|reflexivity]. destruct Hc as [Hc _]. rewrite Hc. reflexivity. }
      rewrite E. destruct (i_ask _ _ _ _ _ HR _ _ _ (RSeek v) Hr Hq) as (n & s' & Hsk & _ & Hr'). cbn [after ask] in Hsk, Hr'. set (rest := from v (ahead c lm)) in *.
      destruct rest as [|m rest]; cbn [hd_error tl] in Hsk, Hr'.
      * exists n, (mk_filter _ s' (f_value _ f)). split; [|split; [exact I|]].
        -- intros fuel Hf. unfold filter_seek. rewrite Hsk by exact Hf. reflexivity.
        -- cbn. exists []. auto.
      * cbn [filter]. destruct (keep m) eqn:Ek.
        -- exists n, (mk_filter _ s' (Some m)). split; [|split; [exact I|]].
           ++ intros fuel Hf. unfold filter_seek. rewrite Hsk by exact Hf. cbn [bind fst snd]. rewrite Ek. reflexivity.
           ++ cbn [hd_error tl]. exists rest. auto.
        -- destruct (find_next_ok rest _ _ Hr') as (n2 & s2 & o & lm' & H1 & H2 & H3 & H4 & H5). exists (Nat.max n n2), (mk_filter _ s2 o). split; [|split; [exact I|]].
           ++ intros fuel Hf. unfold filter_seek. rewrite Hsk by lia. cbn [bind fst snd]. rewrite Ek. rewrite H1 by lia. cbn [bind fst snd]. rewrite <- H3. reflexivity.
           ++ exists lm'. rewrite <- H3. cbn [f_scan f_value]. split; [exact H2|]. split; [symmetry; exact H4|]. destruct o; auto.
Qed.

End Filter.

(* ---------- filter for a constant ---------- *)

Section FilterConstant.
Variable D : Z -> Prop.
Variable sc : scanner.
Variable b : bool.
Variable R : state sc -> option Z -> list Z -> Prop.
Hypothesis HR : implements D sc b (fun _ _ => True) R.
Variable k : Z.
Hypothesis Hk : D k.

Definition fc_rel (f : filter_constant sc) (c : option Z) (l : list Z) : Prop :=
  match c_phase _ f with
  | Start => exists lm, R (c_scan _ f) None lm /\ c = None /\ l = filter (fun x => (x =? k)%Z) lm
  | Value => c = Some k /\ l = [] /\ exists lm, R (c_scan _ f) c lm
  | End => c = None /\ l = []
  end.

Lemma filter_one : forall l, increasing l -> filter (fun x => (x =? k)%Z) l = if in_dec Z.eq_dec k l then [k] else [].
Proof.
  intros l H. apply increasing_ext; [apply filter_increasing, H| |].
  - destruct (in_dec Z.eq_dec k l); repeat constructor.
  - intros x. rewrite filter_In, Z.eqb_eq. destruct (in_dec Z.eq_dec k l); cbn; split; intuition congruence.
Qed.

(* the search for the constant, started from a state with values at most k behind it *)
Lemma fc_start : forall s c lm, R s c lm -> exists n s', forall fuel, n <= fuel ->
  fc_next sc k fuel (mk_fc _ s Start) = Ok (s', if in_dec Z.eq_dec k (ahead c lm) then Some k else None) /\
  fc_rel s' (if in_dec Z.eq_dec k (ahead c lm) then Some k else None) [].
Proof.
  intros s c lm Hr. pose proof (i_increasing _ _ _ _ _ HR _ _ _ Hr) as Hi.
  destruct (i_ask _ _ _ _ _ HR _ _ _ (RSeek k) Hr Hk) as (n & s' & Hsk & _ & Hr'). cbn [after ask] in Hsk, Hr'. set (rest := from k (ahead c lm)) in *.
  assert (Hrest : forall x, In x rest <-> In x (ahead c lm) /\ (k <= x)%Z) by (intros x; apply from_In, Hi).
  destruct (in_dec Z.eq_dec k (ahead c lm)) as [Hin|Hin].
  - assert (Eh : hd_error rest = Some k) by (apply hd_is; [apply from_increasing, Hi|apply Hrest; split; [exact Hin|lia]|intros y Hy; apply Hrest in Hy; lia]).
    rewrite Eh in Hsk, Hr'. exists n, (mk_fc _ s' Value). intros fuel Hf. split; [|cbn; eauto].
    unfold fc_next. cbn [c_phase c_scan]. rewrite Hsk by exact Hf. cbn [bind fst snd]. rewrite (proj2 (opt_eqb_eq _ _) eq_refl). reflexivity.
  - exists n, (mk_fc _ s' End). intros fuel Hf. split; [|cbn; auto].
    unfold fc_next. cbn [c_phase c_scan]. rewrite Hsk by exact Hf. cbn [bind fst snd]. destruct (opt_eqb (hd_error rest) (Some k)) eqn:Eo; [|reflexivity].
    exfalso. apply opt_eqb_eq in Eo. apply hd_In in Eo. apply Hrest in Eo. apply Hin, Eo.
Qed.

Lemma fc_implements : implements D (filter_constant_scanner sc k) true (fun _ _ => True) fc_rel.
Proof.
  constructor.
  - intros [s [| |]] c l H; cbn in H.
    + destruct H as (lm & Hr & -> & ->). apply filter_increasing. apply (i_increasing _ _ _ _ _ HR _ _ _ Hr).
    + destruct H as (-> & -> & _). repeat constructor.
    + destruct H as (-> & ->). constructor.
  - intros [s [| |]] c l x H Hx; cbn in H.
    + destruct H as (lm & Hr & -> & ->). cbn [ahead] in Hx. apply filter_In in Hx. apply (i_domain _ _ _ _ _ HR _ _ _ x Hr). apply Hx.
    + destruct H as (-> & -> & _). destruct Hx as [<-|[]]. exact Hk.
    + destruct H as (-> & ->). destruct Hx.
  - intros [s [| |]] c l H _; cbn in H |- *.
    + destruct H as (lm & Hr & -> & ->). reflexivity.
    + destruct H as (-> & -> & lm & Hr). apply (i_current _ _ _ _ _ HR _ _ _ Hr). right. discriminate.
    + destruct H as (-> & ->). reflexivity.
  - assert (Emp : forall f, fc_rel f None [] -> c_phase _ f = End -> forall q, exists enough s',
      (forall fuel, enough <= fuel -> ask (filter_constant_scanner sc k) q fuel f = Ok (s', None)) /\ True /\ fc_rel s' None []).
    { intros [s p] Hf Hp q. cbn in Hp. subst p. exists 0, (mk_fc _ s End). split; [|split; [exact I|exact Hf]]. intros fuel _. destruct q as [|v]; cbn [ask]; [reflexivity|]. cbn. unfold fc_seek. cbn [c_phase c_scan]. destruct (k <? v)%Z; reflexivity. }
    intros [s [| |]] c l q H Hq; cbn in H.
    + destruct H as (lm & Hr & -> & ->). pose proof (i_increasing _ _ _ _ _ HR _ _ _ Hr) as Hi. cbn [ahead] in Hi.
      destruct (fc_start s None lm Hr) as (n & s' & Hst). cbn [ahead] in Hst. rewrite filter_one by exact Hi.
      destruct q as [|v]; cbn [after ahead].
      * exists n, s'. split; [|split; [exact I|]].
        -- intros fuel Hf. destruct (Hst fuel Hf) as [E _]. cbn [ask filter_constant_scanner s_next]. rewrite E. destruct (in_dec Z.eq_dec k lm); reflexivity.
        -- destruct (Hst n (Nat.le_refl _)) as [_ Hrel]. destruct (in_dec Z.eq_dec k lm); exact Hrel.
      * destruct (Z.ltb_spec k v) as [Hlt|Hge].
        -- assert (E : from v (if in_dec Z.eq_dec k lm then [k] else []) = []) by (destruct (in_dec Z.eq_dec k lm); cbn [from]; [rewrite (proj2 (Z.ltb_lt k v) Hlt)|]; reflexivity).
           rewrite E. cbn [hd_error tl]. exists 0, (mk_fc _ s End). split; [|split; [exact I|cbn; auto]]. intros fuel _. cbn [ask filter_constant_scanner s_seek]. unfold fc_seek. rewrite (proj2 (Z.ltb_lt k v) Hlt). reflexivity.
        -- assert (E : from v (if in_dec Z.eq_dec k lm then [k] else []) = (if in_dec Z.eq_dec k lm then [k] else [])) by (destruct (in_dec Z.eq_dec k lm); cbn [from]; [rewrite (proj2 (Z.ltb_ge k v) Hge)|]; reflexivity).
           rewrite E. exists n, s'. split; [|split; [exact I|]].
           ++ intros fuel Hf. destruct (Hst fuel Hf) as [E' _]. cbn [ask filter_constant_scanner s_seek]. unfold fc_seek. rewrite (proj2 (Z.ltb_ge k v) Hge). cbn [c_phase c_scan]. rewrite E'. destruct (in_dec Z.eq_dec k lm); reflexivity.
           ++ destruct (Hst n (Nat.le_refl _)) as [_ Hrel]. destruct (in_dec Z.eq_dec k lm); exact Hrel.
    + destruct H as (-> & -> & lm & Hr). destruct q as [|v]; cbn [after ahead hd_error tl].
      * exists 0, (mk_fc _ s End). split; [intros; reflexivity|]. split; [exact I|cbn; auto].
      * cbn [from]. destruct (Z.ltb_spec k v) as [Hlt|Hge]; cbn [hd_error tl].
        -- exists 0, (mk_fc _ s End). split; [|split; [exact I|cbn; auto]]. intros fuel _. cbn [ask filter_constant_scanner s_seek]. unfold fc_seek. rewrite (proj2 (Z.ltb_lt k v) Hlt). reflexivity.
        -- destruct (fc_start s _ lm Hr) as (n & s' & Hst). cbn [ahead] in Hst. exists n, s'. destruct (in_dec Z.eq_dec k (k :: lm)) as [_|Hf]; [|exfalso; apply Hf; left; reflexivity].
           split; [|split; [exact I|apply (Hst n (Nat.le_refl _))]]. intros fuel Hf. cbn [ask filter_constant_scanner s_seek]. unfold fc_seek. rewrite (proj2 (Z.ltb_ge k v) Hge). cbn [c_phase c_scan]. apply (Hst fuel Hf).
    + destruct H as (-> & ->). assert (E : after q None [] = []) by (destruct q; reflexivity). rewrite E. cbn [hd_error tl]. apply Emp; [cbn; auto|reflexivity].
Qed.
End FilterConstant.

(* ---------- constants ---------- *)

Definition constant_rel (s : constant_scan) (c : option Z) (l : list Z) : Prop :=
  match k_value s, k_phase s with
  | None, _ => c = None /\ l = []
  | Some v, Start => c = None /\ l = [v]
  | Some v, Value => c = Some v /\ l = []
  | Some v, End => c = None /\ l = []
  end.

Lemma constant_implements : forall (D : Z -> Prop), implements D constant_scanner true (fun _ _ => True)
  (fun s c l => constant_rel s c l /\ forall v, k_value s = Some v -> D v).
Proof.
  intros D. constructor.
  - intros [[v|] [| |]] c l [H _]; cbn in H; destruct H as [-> ->]; repeat constructor.
  - intros [[v|] [| |]] c l x [H HD] Hx; cbn in H; destruct H as [-> ->]; cbn in Hx; try tauto; destruct Hx as [<-|[]]; apply HD; reflexivity.
  - intros [[v|] [| |]] c l [H _] _; cbn in H |- *; destruct H as [-> ->]; reflexivity.
  - intros [[v|] p] c l q [H HD] _; cbn [k_value] in HD.
    + destruct q as [|w].
      * exists 0. destruct p; cbn in H; destruct H as [-> ->]; (eexists; split; [intros; reflexivity|split; [exact I|split; [cbn; auto|exact HD]]]).
      * cbn [ask constant_scanner s_seek]. unfold constant_seek. cbn [k_value k_phase after].
        destruct p; cbn in H; destruct H as [-> ->]; cbn [ahead from]; exists 0; try (destruct (v <? w)%Z); (eexists; split; [intros; reflexivity|split; [exact I|split; [cbn; auto|exact HD]]]).
    + exists 0. assert (c = None /\ l = []) as [-> ->] by (destruct p; exact H).
      clear H; destruct q as [|w]; destruct p; (eexists; split; [intros; reflexivity|split; [exact I|split; [cbn; auto|exact HD]]]).
Qed.

(* ---------- pass, either ---------- *)

Lemma pass_implements : forall D sc b P R, implements D sc b P R -> implements D (pass_scanner sc) b P R.
Proof. intros D sc b P R H. destruct H. constructor; assumption. Qed.

Lemma either_implements : forall D A B b RA RB, implements D A b (fun _ _ => True) RA -> implements D B b (fun _ _ => True) RB ->
  implements D (either_scanner A B) b (fun _ _ => True) (fun s => match s with inl x => RA x | inr y => RB y end).
Proof.
  intros D A B b RA RB HA HB. constructor.
  - intros [s|s] c l H; [apply (i_increasing _ _ _ _ _ HA _ _ _ H)|apply (i_increasing _ _ _ _ _ HB _ _ _ H)].
  - intros [s|s] c l x H; [apply (i_domain _ _ _ _ _ HA _ _ _ x H)|apply (i_domain _ _ _ _ _ HB _ _ _ x H)].
  - intros [s|s] c l H; [apply (i_current _ _ _ _ _ HA _ _ _ H)|apply (i_current _ _ _ _ _ HB _ _ _ H)].
  - intros [s|s] c l q H Hq.
    + destruct (i_ask _ _ _ _ _ HA _ _ _ q H Hq) as (n & s' & E & _ & Hr). exists n, (inl s'). split; [|split; [exact I|exact Hr]].
      intros fuel Hf. specialize (E fuel Hf). destruct q as [|v]; cbn [ask either_scanner s_next s_seek] in *; rewrite E; reflexivity.
    + destruct (i_ask _ _ _ _ _ HB _ _ _ q H Hq) as (n & s' & E & _ & Hr). exists n, (inr s'). split; [|split; [exact I|exact Hr]].
      intros fuel Hf. specialize (E fuel Hf). destruct q as [|v]; cbn [ask either_scanner s_next s_seek] in *; rewrite E; reflexivity.
Qed.

(* ---------- columns ---------- *)

Lemma from_skip : forall v l, from v l = skipn (smaller_prefix v l) l.
Proof. intros v. induction l as [|x l IH]; cbn [from smaller_prefix]; [reflexivity|]. destruct (x <? v)%Z; [exact IH|reflexivity]. Qed.
Lemma smaller_prefix_le : forall v l, smaller_prefix v l <= length l.
Proof. intros v. induction l as [|x l IH]; cbn [smaller_prefix length]; [lia|]. destruct (x <? v)%Z; lia. Qed.
Lemma slice_length : forall data a b, b <= length data -> length (slice data a b) = b - a.
Proof. intros data a b H. unfold slice. rewrite firstn_length, skipn_length. lia. Qed.
Lemma skipn_skipn' : forall A n m (l : list A), skipn n (skipn m l) = skipn (m + n) l.
Proof. intros A n m. induction m as [|m IH]; intros l; [reflexivity|]. destruct l as [|x l]; [cbn; destruct n; reflexivity|]. cbn. apply IH. Qed.
Lemma slice_skip : forall data a b n, skipn n (slice data a b) = slice data (a + n) b.
Proof.
  intros data a b n. unfold slice. rewrite skipn_firstn_comm, skipn_skipn'. f_equal. lia.
Qed.
Lemma increasing_sorted : forall l, increasing l -> Sorted Z.le l.
Proof.
  intros l H. apply StronglySorted_Sorted in H. induction H as [|x l H IH Hh]; constructor; [exact IH|]. destruct Hh; constructor. lia.
Qed.
Lemma skipn_increasing : forall n l, increasing l -> increasing (skipn n l).
Proof. induction n as [|n IH]; intros l H; [exact H|]. destruct l as [|x l]; [exact H|]. cbn. apply IH. apply increasing_cons in H. apply H. Qed.

Section ColumnScanner.
Variable k : kind.
Variable data : list Z.
Hypothesis Hk : debug k = false \/ vmin k = 0%Z.

Definition next_pos (c : cursor) : nat := match cat c with None => ca c | Some p => Nat.min (p + 1) (cb c) end.
Definition column_rel (s : cscan) (c : option Z) (l : list Z) : Prop :=
  exists cur, crep k data s cur /\ ca cur <= cb cur /\ cb cur <= length data /\ increasing (slice data (ca cur) (cb cur)) /\
    (forall x, In x (slice data (ca cur) (cb cur)) -> of_type k x) /\
    (forall p, cat cur = Some p -> ca cur <= p <= cb cur) /\
    (forall x, In x data -> of_type k x) /\
    c = value data cur /\ l = slice data (next_pos cur) (cb cur).

Definition here (c : cursor) : nat := match cat c with None => ca c | Some p => p end.
Lemma column_ahead : forall cur, ca cur <= cb cur -> cb cur <= length data -> (forall p, cat cur = Some p -> ca cur <= p <= cb cur) ->
  ahead (value data cur) (slice data (next_pos cur) (cb cur)) = slice data (here cur) (cb cur).
Proof.
  intros [a b [p|]] Hab Hb Hp; cbn [ca cb cat here next_pos] in *; [|reflexivity]. specialize (Hp p eq_refl). unfold value, position. cbn [cat cb].
  destruct (Nat.ltb_spec p b) as [Hlt|Hge].
  - destruct (nth_error data p) as [x|] eqn:Ex; [|apply nth_error_None in Ex; lia]. rewrite Nat.min_l by lia. rewrite (slice_cons data p b x) by (lia || exact Ex). reflexivity.
  - assert (p = b) by lia. subst p. rewrite Nat.min_r by lia. reflexivity.
Qed.
Lemma value_slice : forall a b p, a <= p -> p <= b -> b <= length data ->
  value data (mk_cursor a b (Some p)) = hd_error (slice data p b) /\
  slice data (Nat.min (p + 1) b) b = tl (slice data p b).
Proof.
  intros a b p Ha Hp Hb. unfold value, position. cbn [cat cb]. destruct (Nat.ltb_spec p b) as [Hlt|Hge].
  - destruct (nth_error data p) as [x|] eqn:Ex; [|apply nth_error_None in Ex; lia]. rewrite Nat.min_l by lia. rewrite (slice_cons data p b x) by (lia || exact Ex). auto.
  - assert (p = b) by lia. subst p. rewrite Nat.min_r by lia. rewrite slice_empty. auto.
Qed.

Lemma column_implements : implements (of_type k) (column_scanner k) true (fun _ _ => True) column_rel.
Proof.
  constructor.
  - intros s c l (cur & Hrep & Hab & Hb & Hinc & Hty & Hp & Hall & -> & ->). rewrite column_ahead by assumption.
    assert (E : slice data (here cur) (cb cur) = skipn (here cur - ca cur) (slice data (ca cur) (cb cur))).
    { rewrite slice_skip. f_equal. unfold here. destruct (cat cur) as [p|]; [specialize (Hp p eq_refl)|]; lia. }
    rewrite E. apply skipn_increasing, Hinc.
  - intros s c l x (cur & Hrep & Hab & Hb & Hinc & Hty & Hp & Hall & -> & ->) Hx. rewrite column_ahead in Hx by assumption. apply Hall.
    unfold slice in Hx. assert (Hx2 : In x (skipn (here cur) data)) by (rewrite <- (firstn_skipn (cb cur - here cur) (skipn (here cur) data)); apply in_or_app; left; exact Hx).
    rewrite <- (firstn_skipn (here cur) data). apply in_or_app. right. exact Hx2.
  - intros s c l (cur & Hrep & Hab & Hb & Hinc & Hty & Hp & Hall & -> & ->) _. apply (crep_observe k data s cur Hrep).
  - intros s c l q (cur & Hrep & Hab & Hb & Hinc & Hty & Hp & Hall & -> & ->) Hq. exists 0.
    destruct q as [|v].
    + destruct (crep_step k data s cur Next Hrep I ltac:(discriminate)) as (s' & E & Hr). cbn [step perform returns] in E, Hr. fold (next_pos cur) in E, Hr.
      assert (Hnp : ca cur <= next_pos cur <= cb cur) by (unfold next_pos; destruct (cat cur) as [p|]; [specialize (Hp p eq_refl)|]; lia).
      destruct (value_slice (ca cur) (cb cur) (next_pos cur) ltac:(lia) ltac:(lia) Hb) as [V1 V2].
      exists s'. cbn [after]. split; [|split; [exact I|]].
      * intros fuel _. cbn [ask column_scanner s_next]. destruct (cnext k s) as [[s0 o]| |]; try discriminate. cbn [bind fst snd] in E. rewrite <- V1. injection E as -> ->; reflexivity.
      * exists (mk_cursor (ca cur) (cb cur) (Some (next_pos cur))). cbn [ca cb cat]. do 5 (split; [assumption|]). split; [intros p [= <-]; lia|]. split; [exact Hall|]. unfold next_pos at 2. cbn [cat ca cb]. split; [symmetry; exact V1|symmetry; exact V2].
    + assert (Hperm : permitted data (Seek v) cur) by (cbn; apply increasing_sorted, Hinc).
      assert (Hsk : forall w, Seek v = Seek w -> seekable k w data).
      { intros w [= <-]. split; [apply in_kind_iff, Hq|]. destruct Hk as [E|E]; [left; exact E|right]. intros x Hx Hlt. apply in_kind_iff. specialize (Hall x Hx). unfold of_type in Hall. cbn in Hq. unfold of_type in Hq. lia. }
      destruct (crep_step k data s cur (Seek v) Hrep Hperm Hsk) as (s' & E & Hr). cbn [step perform returns] in E, Hr. fold (here cur) in E, Hr.
      set (r := here cur + smaller_prefix v (slice data (here cur) (cb cur))) in *.
      assert (Hh : ca cur <= here cur <= cb cur) by (unfold here; destruct (cat cur) as [p|]; [specialize (Hp p eq_refl)|]; lia).
      assert (Hrr : ca cur <= r <= cb cur). { pose proof (smaller_prefix_le v (slice data (here cur) (cb cur))) as H. rewrite slice_length in H by exact Hb. unfold r. lia. }
      destruct (value_slice (ca cur) (cb cur) r ltac:(lia) ltac:(lia) Hb) as [V1 V2].
      cbn [after]. rewrite column_ahead by assumption. rewrite from_skip, slice_skip. fold r.
      exists s'. split; [|split; [exact I|]].
      * intros fuel _. cbn [ask column_scanner s_seek]. destruct (cseek k v s) as [[s0 o]| |]; try discriminate. cbn [bind fst snd] in E. rewrite <- V1. injection E as -> ->. reflexivity.
      * exists (mk_cursor (ca cur) (cb cur) (Some r)). cbn [ca cb cat]. do 5 (split; [assumption|]). split; [intros p [= <-]; lia|]. split; [exact Hall|]. unfold next_pos. cbn [cat ca cb]. split; [symmetry; exact V1|symmetry; exact V2].
Qed.

Lemma column_initial : forall s a b, crep k data s (mk_cursor a b None) -> a <= b -> b <= length data -> increasing (slice data a b) ->
  (forall x, In x data -> of_type k x) -> column_rel s None (slice data a b).
Proof.
  intros s a b H Hab Hb Hinc Hty. exists (mk_cursor a b None). cbn [ca cb cat]. do 4 (split; [assumption|]). split; [|split; [discriminate|split; [exact Hty|split; reflexivity]]].
  intros x Hx. apply Hty. unfold slice in Hx. assert (Hx2 : In x (skipn a data)) by (rewrite <- (firstn_skipn (b - a) (skipn a data)); apply in_or_app; left; exact Hx).
  rewrite <- (firstn_skipn a data). apply in_or_app. right. exact Hx2.
Qed.
End ColumnScanner.
