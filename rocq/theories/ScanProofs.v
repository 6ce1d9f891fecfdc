(* Scans as relations between states and lists. *)
From Coq Require Import List ZArith Bool Lia Sorted.
From Verif Require Import ColumnModel ScanModel ScanSpec ColumnProofs.
Import ListNotations.
Local Open Scope nat_scope.

(* ---------- sorted lists ---------- *)

Lemma increasing_cons : forall x l, increasing (x :: l) <-> increasing l /\ forall y, In y l -> (x < y)%Z.
Proof.
  intros x l. unfold increasing. split.
  - intros H. inversion H as [|? ? Hs Hf]. subst. rewrite Forall_forall in Hf. auto.
  - intros [H1 H2]. constructor; [exact H1|]. apply Forall_forall. exact H2.
Qed.
Lemma increasing_nil : increasing [].
Proof. constructor. Qed.

Lemma increasing_ext : forall l m, increasing l -> increasing m -> (forall x, In x l <-> In x m) -> l = m.
Proof.
  induction l as [|a l IH]; intros m Hl Hm He.
  - destruct m as [|b m]; [reflexivity|]. exfalso. apply (He b). left. reflexivity.
  - destruct m as [|b m]; [exfalso; apply (He a); left; reflexivity|].
    apply increasing_cons in Hl, Hm. destruct Hl as [Hl1 Hl2], Hm as [Hm1 Hm2].
    assert (a = b).
    { destruct (proj1 (He a) (or_introl eq_refl)) as [->|Ha]; [reflexivity|]. destruct (proj2 (He b) (or_introl eq_refl)) as [->|Hb]; [reflexivity|].
      specialize (Hl2 _ Hb). specialize (Hm2 _ Ha). lia. }
    subst b. f_equal. apply IH; [exact Hl1|exact Hm1|]. intros x. split; intros Hx.
    + destruct (proj1 (He x) (or_intror Hx)) as [->|Hx']; [|exact Hx']. specialize (Hl2 _ Hx). lia.
    + destruct (proj2 (He x) (or_intror Hx)) as [->|Hx']; [|exact Hx']. specialize (Hm2 _ Hx). lia.
Qed.

Lemma from_In : forall v l x, increasing l -> (In x (from v l) <-> In x l /\ (v <= x)%Z).
Proof.
  intros v. induction l as [|a l IH]; intros x H; cbn [from]; [cbn; tauto|].
  apply increasing_cons in H. destruct H as [H1 H2]. destruct (Z.ltb_spec a v) as [Hlt|Hge].
  - rewrite (IH x H1). cbn. split; [tauto|]. intros [[->|Hx] Hv]; [lia|tauto].
  - split; [|tauto]. intros Hx. split; [exact Hx|]. destruct Hx as [->|Hx]; [lia|]. specialize (H2 _ Hx). lia.
Qed.
Lemma from_increasing : forall v l, increasing l -> increasing (from v l).
Proof.
  intros v. induction l as [|a l IH]; intros H; cbn [from]; [exact H|]. destruct (a <? v)%Z; [|exact H]. apply IH. apply increasing_cons in H. apply H.
Qed.
Lemma from_Sub : forall v l x, In x (from v l) -> In x l.
Proof. intros v. induction l as [|a l IH]; intros x; cbn [from]; [tauto|]. destruct (a <? v)%Z; [|tauto]. intros H. right. apply IH, H. Qed.

Lemma ahead_split : forall l, ahead (hd_error l) (tl l) = l.
Proof. destruct l; reflexivity. Qed.
Lemma hd_least : forall l x y, increasing l -> hd_error l = Some x -> In y l -> (x <= y)%Z.
Proof.
  intros [|a l] x y H Hh Hy; [destruct Hy|]. cbn in Hh. injection Hh as <-. apply increasing_cons in H. destruct Hy as [->|Hy]; [lia|]. destruct H as [_ H]. specialize (H _ Hy). lia.
Qed.
Lemma hd_In : forall (l : list Z) x, hd_error l = Some x -> In x l.
Proof. intros [|a l] x H; [discriminate|]. injection H as ->. left. reflexivity. Qed.
Lemma hd_is : forall l x, increasing l -> In x l -> (forall y, In y l -> (x <= y)%Z) -> hd_error l = Some x.
Proof.
  intros [|a l] x H Hx Hy; [destruct Hx|]. cbn. f_equal. apply increasing_cons in H. destruct H as [_ H].
  destruct Hx as [->|Hx]; [reflexivity|]. specialize (H _ Hx). specialize (Hy a (or_introl eq_refl)). lia.
Qed.
Lemma tl_In : forall l x y, increasing l -> hd_error l = Some x -> (In y (tl l) <-> In y l /\ (x < y)%Z).
Proof.
  intros [|a l] x y H Hh; [discriminate|]. injection Hh as ->. apply increasing_cons in H. destruct H as [_ H]. cbn. split.
  - intros Hy. split; [right; exact Hy|apply H, Hy].
  - intros [[->|Hy] Hlt]; [lia|exact Hy].
Qed.
Lemma tl_increasing : forall l, increasing l -> increasing (tl l).
Proof. intros [|a l] H; [exact H|]. apply increasing_cons in H. apply H. Qed.
Lemma hd_none : forall l : list Z, hd_error l = None -> l = [].
Proof. intros [|a l] H; [reflexivity|discriminate]. Qed.

Lemma after_increasing : forall q c l, increasing (ahead c l) -> increasing (after q c l).
Proof.
  intros [|v] c l H; cbn [after].
  - destruct c; [apply increasing_cons in H; apply H|exact H].
  - apply from_increasing, H.
Qed.
Lemma after_ahead : forall q c l x, In x (after q c l) -> In x (ahead c l).
Proof. intros [|v] c l x H; cbn [after] in H; [destruct c; [right; exact H|exact H]|]. eapply from_Sub, H. Qed.

(* ---------- conformance relations ---------- *)

Definition admissible (D : Z -> Prop) (q : request) : Prop := match q with RNext => True | RSeek v => D v end.

Record implements (D : Z -> Prop) (sc : scanner) (strict : bool) (P : state sc -> option Z -> Prop)
    (R : state sc -> option Z -> list Z -> Prop) : Prop := {
  i_increasing : forall s c l, R s c l -> increasing (ahead c l);
  i_domain : forall s c l x, R s c l -> In x (ahead c l) -> D x;
  i_current : forall s c l, R s c l -> strict = true \/ c <> None -> s_current sc s = Ok c;
  i_ask : forall s c l q, R s c l -> admissible D q -> exists enough s',
    (forall fuel, enough <= fuel -> ask sc q fuel s = Ok (s', hd_error (after q c l))) /\
    P s' (hd_error (after q c l)) /\
    R s' (hd_error (after q c l)) (tl (after q c l)) }.

Lemma implements_answers : forall D sc strict P R, implements D sc strict P R -> forall h s c l, R s c l ->
  (forall v, In (RSeek v) h -> D v) -> answers sc strict P s c l h.
Proof.
  intros D sc strict P R HI. induction h as [|q h IH]; intros s c l Hr Hd; cbn [answers]; (split; [intros Hs; eapply i_current; eassumption|]); [exact I|].
  destruct (i_ask _ _ _ _ _ HI s c l q Hr) as (n & s' & H1 & HP & H2); [destruct q as [|v]; [exact I|apply Hd; left; reflexivity]|].
  exists n, s'. split; [exact H1|]. split; [exact HP|]. apply IH; [exact H2|]. intros v Hv. apply Hd. right. exact Hv.
Qed.
Lemma implements_lists : forall D sc strict P R s l, implements D sc strict P R -> R s None l -> lists_with D sc strict P s l.
Proof.
  intros D sc strict P R s l HI Hr. split; [exact (i_increasing _ _ _ _ _ HI _ _ _ Hr)|]. split; [intros x Hx; eapply (i_domain _ _ _ _ _ HI); eassumption|].
  intros h Hh. eapply implements_answers; eassumption.
Qed.

(* the largest conformance relation *)
Definition conforms (D : Z -> Prop) (sc : scanner) (strict : bool) (s : state sc) (c : option Z) (l : list Z) : Prop :=
  increasing (ahead c l) /\ (forall x, In x (ahead c l) -> D x) /\
  forall h, (forall v, In (RSeek v) h -> D v) -> answers sc strict (fun _ _ => True) s c l h.

Lemma conforms_implements : forall D sc strict, implements D sc strict (fun _ _ => True) (conforms D sc strict).
Proof.
  intros D sc strict. constructor.
  - intros s c l H. apply H.
  - intros s c l x H. apply H.
  - intros s c l H Hs. destruct H as (_ & _ & H). destruct (H [] ltac:(intros v [])) as [H1 _]. apply H1, Hs.
  - intros s c l q (Hi & Hd & H) Hq.
    destruct (H [q]) as [_ (n & s' & H1 & _ & _)]. { intros v [->|[]]. exact Hq. }
    exists n, s'. split; [exact H1|]. split; [exact I|]. unfold conforms. rewrite ahead_split. split; [apply after_increasing, Hi|].
    split; [intros x Hx; eapply Hd, after_ahead, Hx|]. intros h Hh. destruct (H (q :: h)) as [_ (n' & s'' & H1' & _ & H2')].
    { intros v [->|Hv]; [exact Hq|apply Hh, Hv]. }
    assert (s'' = s'). { pose proof (H1 (Nat.max n n') ltac:(lia)). pose proof (H1' (Nat.max n n') ltac:(lia)). congruence. }
    subst s''. exact H2'.
Qed.
Lemma lists_conforms : forall D sc strict s l, lists D sc strict s l -> conforms D sc strict s None l.
Proof. intros D sc strict s l H. exact H. Qed.

(* more permissive: a strict scan is also a scan *)
Lemma strict_weaken : forall D sc s l, lists D sc true s l -> lists D sc false s l.
Proof.
  intros D sc s l H. apply lists_conforms in H. apply (implements_lists D sc false _ (conforms D sc true)); [|exact H].
  pose proof (conforms_implements D sc true) as HI. constructor; try apply HI. intros s0 c l0 H0 _. apply (i_current _ _ _ _ _ HI _ _ _ H0). left. reflexivity.
Qed.

(* ---------- vectors of scans ---------- *)

Lemma set_nth_length : forall A i (x : A) l, length (set_nth i x l) = length l.
Proof. intros A i x l. revert i. induction l as [|a l IH]; intros [|i]; cbn; auto. Qed.
Lemma set_nth_same : forall A i (x : A) l, i < length l -> nth_error (set_nth i x l) i = Some x.
Proof. intros A i x l. revert i. induction l as [|a l IH]; intros [|i] H; cbn in *; try lia; [reflexivity|apply IH; lia]. Qed.
Lemma set_nth_other : forall A i j (x : A) l, i <> j -> nth_error (set_nth i x l) j = nth_error l j.
Proof. intros A i j x l. revert i j. induction l as [|a l IH]; intros [|i] [|j] H; cbn; try reflexivity; try lia. apply IH. lia. Qed.

(* the sub scans with their current values and lists, by index *)
Definition all_conform (sc : scanner) (R : state sc -> option Z -> list Z -> Prop) (scans : list (state sc)) (cls : list (option Z * list Z)) : Prop :=
  length cls = length scans /\
  forall i s cl, nth_error scans i = Some s -> nth_error cls i = Some cl -> R s (fst cl) (snd cl).

Lemma all_conform_set : forall sc R scans cls i s cl, all_conform sc R scans cls -> R s (fst cl) (snd cl) ->
  all_conform sc R (set_nth i s scans) (set_nth i cl cls).
Proof.
  intros sc R scans cls i s cl [Hl H] Hs. split; [rewrite !set_nth_length; exact Hl|]. intros j s' cl' Hj Hj'.
  destruct (Nat.eq_dec i j) as [<-|Hn].
  - assert (Hi : i < length scans) by (rewrite <- (set_nth_length _ i s); apply nth_error_Some; congruence).
    rewrite set_nth_same in Hj by exact Hi. rewrite set_nth_same in Hj' by lia. congruence.
  - rewrite set_nth_other in Hj, Hj' by exact Hn. eapply H; eassumption.
Qed.

Lemma all_conform_get : forall sc R scans cls i, all_conform sc R scans cls -> i < length scans ->
  exists s cl, nth_error scans i = Some s /\ nth_error cls i = Some cl /\ R s (fst cl) (snd cl).
Proof.
  intros sc R scans cls i [Hl H] Hi. destruct (nth_error scans i) as [s|] eqn:Es; [|apply nth_error_None in Es; lia].
  destruct (nth_error cls i) as [cl|] eqn:Ec; [|apply nth_error_None in Ec; lia]. exists s, cl. split; [reflexivity|]. split; [reflexivity|]. eapply H; eassumption.
Qed.
