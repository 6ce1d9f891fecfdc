(* Vector scans refine the cursor of ColumnSpec.v. *)
From Coq Require Import List ZArith Bool Lia Sorted.
From Verif Require Import ColumnModel ColumnSpec.
Import ListNotations.
Local Open Scope nat_scope.

Lemma index_Ok : forall A (l : list A) i a, index l i = Ok a <-> nth_error l i = Some a.
Proof. intros. unfold index. destruct (nth_error l i); split; congruence. Qed.

Lemma index_lt : forall A (l : list A) i, i < length l -> exists a, index l i = Ok a /\ nth_error l i = Some a.
Proof.
  intros A l i H. apply nth_error_Some in H. unfold index. destruct (nth_error l i) as [a|]; [eauto|congruence].
Qed.

Lemma nth_skipn : forall A n (l : list A) i, nth_error (skipn n l) i = nth_error l (n + i).
Proof. induction n as [|n IH]; intros l i; [reflexivity|]. destruct l; [destruct i; reflexivity|]. apply IH. Qed.

Lemma nth_firstn : forall A n (l : list A) i, i < n -> nth_error (firstn n l) i = nth_error l i.
Proof.
  induction n as [|n IH]; intros l i H; [lia|]. destruct l; [destruct i; reflexivity|]. destruct i; [reflexivity|].
  cbn. apply IH. lia.
Qed.

Lemma slice_length : forall data a b, a <= b <= length data -> length (slice data a b) = b - a.
Proof. intros data a b H. unfold slice. rewrite firstn_length, skipn_length. lia. Qed.

Lemma slice_nth : forall data a b i, a + i < b -> nth_error (slice data a b) i = nth_error data (a + i).
Proof. intros data a b i H. unfold slice. rewrite nth_firstn by lia. apply nth_skipn. Qed.

(* sorted: by positions *)
Lemma sorted_nth : forall l, Sorted Z.le l -> forall i j x y, i <= j -> nth_error l i = Some x -> nth_error l j = Some y -> (x <= y)%Z.
Proof.
  intros l H. apply Sorted_StronglySorted in H; [|intros x y z; lia].
  induction H as [|a l Hs IH Hf]; intros i j x y Hij Hx Hy; [destruct i; discriminate|].
  destruct i, j; cbn in Hx, Hy; try lia.
  - assert (x = y) by congruence. lia.
  - injection Hx as <-. rewrite Forall_forall in Hf. apply Hf. eapply nth_error_In; eassumption.
  - eapply (IH i j); [lia| |]; eassumption.
Qed.

Definition sorted_on (data : list Z) (a b : nat) : Prop :=
  forall i j x y, a <= i -> i <= j -> j < b -> nth_error data i = Some x -> nth_error data j = Some y -> (x <= y)%Z.

Lemma sorted_slice : forall data a b, Sorted Z.le (slice data a b) -> sorted_on data a b.
Proof.
  intros data a b H i j x y Ha Hij Hb Hx Hy.
  apply (sorted_nth _ H (i - a) (j - a)); [lia| |]; rewrite slice_nth by lia.
  - replace (a + (i - a)) with i by lia. exact Hx.
  - replace (a + (j - a)) with j by lia. exact Hy.
Qed.

(* the position reached by seek: characterisation *)
Lemma smaller_prefix_spec : forall v l n, n <= length l ->
  (forall i x, i < n -> nth_error l i = Some x -> (x < v)%Z) ->
  (forall x, nth_error l n = Some x -> (v <= x)%Z) -> smaller_prefix v l = n.
Proof.
  intros v l. induction l as [|y l IH]; intros n Hn Hs Hg; cbn [length] in Hn.
  - assert (n = 0) by lia. subst n. reflexivity.
  - cbn [smaller_prefix]. destruct n as [|n].
    + specialize (Hg y eq_refl). destruct (Z.ltb_spec y v); [lia|reflexivity].
    + pose proof (Hs 0 y ltac:(lia) eq_refl). destruct (Z.ltb_spec y v); [|lia]. f_equal. apply IH.
      * lia.
      * intros i x Hi Hx. apply (Hs (S i)); [lia|exact Hx].
      * intros x Hx. apply Hg, Hx.
Qed.

Lemma seek_position : forall data v p b q, b <= length data -> p <= q -> q <= b ->
  (forall i x, p <= i -> i < q -> nth_error data i = Some x -> (x < v)%Z) ->
  (forall x, q < b -> nth_error data q = Some x -> (v <= x)%Z) ->
  p + smaller_prefix v (slice data p b) = q.
Proof.
  intros data v p b q Hb Hpq Hqb Hs Hg. rewrite (smaller_prefix_spec v _ (q - p)); [lia| | |].
  - rewrite slice_length; lia.
  - intros i x Hi Hx. rewrite slice_nth in Hx by lia. apply (Hs (p + i)); [lia|lia|exact Hx].
  - intros x Hx. destruct (Nat.eq_dec q b) as [->|Hn].
    + exfalso. assert (nth_error (slice data p b) (b - p) <> None) as Hn by congruence.
      apply nth_error_Some in Hn. rewrite slice_length in Hn; lia.
    + rewrite slice_nth in Hx by lia. replace (p + (q - p)) with q in Hx by lia. apply Hg; [lia|exact Hx].
Qed.

(* ---------- vector ---------- *)

Lemma vhalve_spec : forall col v fuel lo up, up < length col -> lo <= up -> up - lo < fuel ->
  (exists x, nth_error col up = Some x /\ (v <= x)%Z) ->
  exists lo' up', vhalve col v fuel lo up = Ok (lo', up') /\ lo <= lo' /\ lo' <= up' /\ up' <= up /\
    (exists x, nth_error col up' = Some x /\ (v <= x)%Z) /\
    (lo' = lo \/ exists x, lo < lo' /\ nth_error col (lo' - 1) = Some x /\ (x < v)%Z).
Proof.
  intros col v fuel. induction fuel as [|fuel IH]; intros lo up Hup Hle Hf Htop; [lia|].
  cbn [vhalve]. destruct (Nat.leb_spec 10 (up - lo)) as [H10|H10].
  2:{ exists lo, up. repeat split; try lia; auto. }
  set (mid := (lo + up) / 2).
  assert (Hmid : lo < mid < up).
  { unfold mid. pose proof (Nat.div_mod (lo + up) 2 ltac:(lia)). pose proof (Nat.mod_upper_bound (lo + up) 2 ltac:(lia)). lia. }
  destruct (index_lt _ col mid) as (x & Hx & Hnx); [lia|]. rewrite Hx. cbn [bind].
  destruct (Z.ltb_spec x v) as [Hlt|Hge].
  - destruct (IH (mid + 1) up) as (lo' & up' & E & H1 & H2 & H3 & H4 & H5); [lia|lia|lia|exact Htop|].
    exists lo', up'. split; [exact E|]. repeat split; try lia; [exact H4|]. right. destruct H5 as [->|(y & Hy1 & Hy2 & Hy3)].
    + exists x. split; [lia|]. replace (mid + 1 - 1) with mid by lia. auto.
    + exists y. split; [lia|]. auto.
  - destruct (IH lo mid) as (lo' & up' & E & H1 & H2 & H3 & H4 & H5); [lia|lia|lia|eauto|].
    exists lo', up'. split; [exact E|]. repeat split; try lia; [exact H4|exact H5].
Qed.

Lemma vscan_up_spec : forall col v fuel pos up, up < length col -> pos <= up -> up - pos < fuel ->
  (exists x, nth_error col up = Some x /\ (v <= x)%Z) ->
  exists p, vscan_up col v fuel pos up = Ok p /\ pos <= p <= up /\
    (forall i x, pos <= i -> i < p -> nth_error col i = Some x -> (x < v)%Z) /\
    (exists x, nth_error col p = Some x /\ (v <= x)%Z).
Proof.
  intros col v fuel. induction fuel as [|fuel IH]; intros pos up Hup Hle Hf Htop; [lia|].
  cbn [vscan_up]. destruct (Nat.leb_spec pos up); [|lia].
  destruct (index_lt _ col pos) as (x & Hx & Hnx); [lia|]. rewrite Hx. cbn [bind].
  destruct (Z.ltb_spec x v) as [Hlt|Hge].
  - assert (pos <> up). { intros ->. destruct Htop as (y & Hy & Hvy). assert (x = y) by congruence. lia. }
    destruct (IH (pos + 1) up) as (p & E & H1 & H2 & H3); [lia|lia|lia|exact Htop|].
    exists p. split; [exact E|]. repeat split; try lia; [|exact H3].
    intros i y Hi1 Hi2 Hy. destruct (Nat.eq_dec i pos) as [->|Hne]; [assert (x = y) by congruence; lia|]. apply (H2 i); [lia|lia|exact Hy].
  - exists pos. repeat split; try lia; eauto.
Qed.

(* the scan is at the cursor; behind the end it may be anywhere behind the end *)
Definition vrep (data : list Z) (s : vscan) (c : cursor) : Prop :=
  vcol s = data /\ vstart s = ca c /\ vend s = cb c /\ ca c <= cb c <= length data /\
  match cat c with
  | None => vpos s = None
  | Some p =>
      ca c <= p <= cb c /\
      (p < cb c -> vpos s = Some p) /\
      (p = cb c -> match vpos s with None => ca c = cb c | Some q => cb c <= q end)
  end.

Lemma vobserve : forall data s c, vrep data s c -> vcurrent s = Ok (value data c) /\ vposition s = position c.
Proof.
  intros data s c (Hc & Hs & He & Hb & Hp). unfold vcurrent, vposition, value, position.
  destruct (cat c) as [p|].
  - destruct Hp as (Hr & H1 & H2). destruct (Nat.ltb_spec p (cb c)) as [Hlt|Hge].
    + rewrite (H1 Hlt). rewrite He. destruct (Nat.ltb_spec p (cb c)); [|lia].
      destruct (index_lt _ data p) as (x & Hx & Hnx); [lia|]. rewrite Hc, Hx, Hnx. auto.
    + specialize (H2 ltac:(lia)). destruct (vpos s) as [q|]; [|auto]. rewrite He.
      destruct (Nat.ltb_spec q (cb c)); [lia|auto].
  - rewrite Hp. auto.
Qed.

Lemma vnext_rep : forall data s c, vrep data s c ->
  exists s', vnext s = Ok (s', value data (step data Next c)) /\ vrep data s' (step data Next c).
Proof.
  intros data s c (Hc & Hs & He & Hb & Hp). unfold vnext.
  set (q := match vpos s with Some p => p + 1 | None => vstart s end).
  set (c' := step data Next c). assert (Hrep : vrep data (mk_vscan (vcol s) (Some q) (vstart s) (vend s)) c').
  { unfold c', step, vrep. cbn. repeat (split; [assumption || lia|]). unfold q. destruct (cat c) as [p|].
    - destruct Hp as (Hr & H1 & H2). destruct (Nat.eq_dec p (cb c)) as [->|Hne].
      + specialize (H2 eq_refl). split; [lia|]. split; [lia|]. intros _. destruct (vpos s); lia.
      + rewrite H1 by lia. split; [lia|]. split; [intros; f_equal; lia|lia].
    - rewrite Hp. split; [lia|]. split; [intros; f_equal; lia|lia]. }
  exists (mk_vscan (vcol s) (Some q) (vstart s) (vend s)). split; [|exact Hrep].
  destruct (vobserve _ _ _ Hrep) as [Hv _]. unfold vcurrent in Hv. cbn [vpos vend vcol] in Hv.
  destruct (q <? vend s).
  - destruct (index (vcol s) q); cbn [bind] in Hv |- *; congruence.
  - congruence.
Qed.

Lemma value_at : forall data a b p x, p < b -> nth_error data p = Some x -> value data (mk_cursor a b (Some p)) = Some x.
Proof. intros data a b p x H Hx. unfold value, position. cbn [ca cb cat]. destruct (Nat.ltb_spec p b); [exact Hx|lia]. Qed.
Lemma value_end : forall data a b, value data (mk_cursor a b (Some b)) = None.
Proof. intros data a b. unfold value, position. cbn [ca cb cat]. rewrite Nat.ltb_irrefl. reflexivity. Qed.

Ltac vfin := unfold vrep; cbn [ca cb cat vcol vpos vstart vend];
  repeat (split; [assumption || lia || (intros; reflexivity)|]); try lia; try (intros _; match goal with s : vscan |- _ => destruct (vpos s) end; lia).

Lemma vseek_rep : forall data s c v, vrep data s c -> permitted data (Seek v) c ->
  exists s', vseek v s = Ok (s', value data (step data (Seek v) c)) /\ vrep data s' (step data (Seek v) c).
Proof.
  intros data s c v (Hc & Hs & He & Hb & Hp) Hperm. apply sorted_slice in Hperm.
  cbn [step]. set (p := match cat c with None => ca c | Some p => p end).
  assert (Hpr : ca c <= p <= cb c) by (unfold p; destruct (cat c); [apply Hp|lia]).
  assert (Hpos : (p < cb c -> match vpos s with Some q => q | None => vstart s end = p) /\
                 (p = cb c -> cb c <= match vpos s with Some q => q | None => vstart s end)).
  { unfold p. destruct (cat c) as [p'|].
    - destruct Hp as (_ & H1 & H2). split; [intros H; rewrite H1 by exact H; reflexivity|].
      intros H. specialize (H2 H). destruct (vpos s); [exact H2|rewrite Hs; lia].
    - rewrite Hp, Hs. split; [reflexivity|lia]. }
  unfold vseek. rewrite He, Hc. set (pos := match vpos s with Some q => q | None => vstart s end) in *.
  (* the position reached *)
  assert (Hfin : forall q (Hq : p <= q <= cb c) (H1 : forall i x, p <= i -> i < q -> nth_error data i = Some x -> (x < v)%Z)
      (H2 : forall x, q < cb c -> nth_error data q = Some x -> (v <= x)%Z), p + smaller_prefix v (slice data p (cb c)) = q).
  { intros q Hq H1 H2. apply seek_position; [lia|lia|lia|exact H1|exact H2]. }
  destruct (Nat.eqb_spec (cb c) 0) as [E0|E0].
  { exists s. assert (p = 0) by lia. rewrite (Hfin (cb c)); [|lia|intros; lia|intros; lia]. rewrite value_end. split; [reflexivity|].
    vfin. }
  destruct (Nat.ltb_spec (cb c - 1) pos) as [Hover|Hin].
  { assert (p = cb c) by (destruct (Nat.eq_dec p (cb c)); [assumption|destruct Hpos as [Hpos _]; lia]).
    rewrite (Hfin (cb c)); [|lia|intros; lia|intros; lia]. eexists. rewrite value_end. split; [reflexivity|].
    vfin. }
  assert (Hlt : p < cb c) by (destruct (Nat.eq_dec p (cb c)); [destruct Hpos as [_ Hpos]; lia|lia]).
  assert (Epos : pos = p) by (apply Hpos; exact Hlt). rewrite Epos in *.
  destruct (index_lt _ data (cb c - 1)) as (top & Ht & Htn); [lia|]. rewrite Ht. cbn [bind].
  destruct (Z.ltb_spec top v) as [Htop|Htop].
  { rewrite (Hfin (cb c)); [|lia| |intros; lia].
    2:{ intros i x H1 H2 Hx. pose proof (Hperm i (cb c - 1) x top ltac:(lia) ltac:(lia) ltac:(lia) Hx Htn). lia. }
    eexists. rewrite value_end. split; [reflexivity|].
    vfin. }
  destruct (index_lt _ data p) as (here & Hh & Hhn); [lia|]. rewrite Hh. cbn [bind].
  destruct (Z.leb_spec v here) as [Hhere|Hhere].
  { rewrite (Hfin p); [|lia|intros; lia|intros x _ Hx; assert (x = here) by congruence; lia].
    eexists. rewrite (value_at _ _ _ _ here Hlt Hhn). split; [reflexivity|].
    vfin. }
  destruct (vhalve_spec data v (cb c - 1 - p + 1) p (cb c - 1)) as (lo & up & Elu & H1 & H2 & H3 & H4 & H5); [lia|lia|lia|eauto|].
  rewrite Elu. cbn [bind fst snd].
  destruct (vscan_up_spec data v (cb c - 1 - p + 1) lo up) as (q & Eq & Hq & Hs1 & (x & Hx & Hvx)); [lia|lia|lia|exact H4|].
  rewrite Eq. cbn [bind]. destruct (Nat.ltb_spec up q); [lia|].
  assert (Ex : index data q = Ok x) by (apply index_Ok; exact Hx). rewrite Ex. cbn [bind].
  rewrite (Hfin q); [|lia| |intros y _ Hy; assert (x = y) by congruence; lia].
  2:{ intros i y Hi1 Hi2 Hy. destruct (Nat.lt_ge_cases i lo) as [Hilo|Hilo]; [|apply (Hs1 i); assumption].
      destruct H5 as [->|(z & Hz1 & Hz2 & Hz3)]; [lia|].
      pose proof (Hperm i (lo - 1) y z ltac:(lia) ltac:(lia) ltac:(lia) Hy Hz2). lia. }
  eexists. rewrite (value_at _ _ _ _ x) by (lia || exact Hx). split; [reflexivity|].
  vfin.
Qed.

Lemma vnew_rep : forall data, vrep data (vnew data) (mk_cursor 0 (length data) None).
Proof. intros data. unfold vrep, vnew. cbn. repeat split; lia. Qed.
Lemma vreset_rep : forall data s c, vrep data s c -> vrep data (vreset s) (step data Reset c).
Proof. intros data s c (Hc & Hs & He & Hb & Hp). unfold vrep, vreset, step. cbn. tauto. Qed.
Lemma vnarrow_rep : forall data s c a b, vrep data s c -> a <= b <= length data ->
  exists s', vnarrow a b s = Ok s' /\ vrep data s' (step data (Narrow a b) c).
Proof.
  intros data s c a b (Hc & Hs & He & Hb & Hp) H. unfold vnarrow. rewrite Hc.
  destruct (Nat.leb_spec b (length data)); [|lia]. eexists. split; [reflexivity|]. unfold vrep, step. cbn [ca cb cat vcol vpos vstart vend].
  repeat (split; [reflexivity || assumption || lia|]). reflexivity.
Qed.
