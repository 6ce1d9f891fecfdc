(* The invariant of stored tables. *)
From Coq Require Import List ZArith Bool Arith Lia Permutation.
From Verif Require Import ColumnModel ScanModel TrieModel TrieSpec TrieScanSpec OpModel OpSpec ProjModel ProjSpec StoreModel StoreSpec StoreProofs1.
From Verif Require PermModel PermProofs PermProps.
Import ListNotations.
Local Open Scope nat_scope.

(* ---------- maps ---------- *)
Section Maps.
Context {K V : Type} (eqb : K -> K -> bool).
Lemma find_key_in : forall k (m : list (K * V)) v, find_key eqb k m = Some v -> exists k', In (k', v) m /\ eqb k k' = true.
Proof.
  intros k. induction m as [|[k' v'] m IH]; intros v E; cbn in E; [discriminate|]. destruct (eqb k k') eqn:Ek.
  - injection E as <-. exists k'. split; [left; reflexivity|exact Ek].
  - destruct (IH v E) as (k2 & H & E2). exists k2. split; [right; exact H|exact E2].
Qed.
Lemma find_key_some : forall k (m : list (K * V)) k' v, In (k', v) m -> eqb k k' = true -> find_key eqb k m <> None.
Proof.
  intros k. induction m as [|[k' v'] m IH]; intros k2 v Hin E; [destruct Hin|]. cbn. destruct (eqb k k') eqn:Ek; [discriminate|].
  destruct Hin as [Hin|Hin]; [injection Hin as -> ->; congruence|]. exact (IH k2 v Hin E).
Qed.
Lemma put_key_in : forall k v (m : list (K * V)) k' v', In (k', v') (put_key eqb k v m) -> In (k', v') m \/ v' = v.
Proof.
  intros k v. induction m as [|[k1 v1] m IH]; intros k' v' H; cbn in H.
  - destruct H as [H|[]]. injection H as <- <-. right; reflexivity.
  - destruct (eqb k k1).
    + destruct H as [H|H]; [injection H as <- <-; right; reflexivity|left; right; exact H].
    + destruct H as [H|H]; [left; left; exact H|]. destruct (IH k' v' H) as [H'|H']; [left; right; exact H'|right; exact H'].
Qed.
(* adding a new key *)
Lemma put_key_new : forall k v (m : list (K * V)), find_key eqb k m = None -> put_key eqb k v m = m ++ [(k, v)].
Proof.
  intros k v. induction m as [|[k1 v1] m IH]; intros E; cbn in *; [reflexivity|]. destruct (eqb k k1); [discriminate|]. rewrite IH by exact E. reflexivity.
Qed.
Lemma find_key_app : forall k (m m' : list (K * V)), find_key eqb k (m ++ m') = match find_key eqb k m with Some v => Some v | None => find_key eqb k m' end.
Proof. intros k m m'. induction m as [|[k1 v1] m IH]; cbn; [reflexivity|]. destruct (eqb k k1); [reflexivity|exact IH]. Qed.
End Maps.
Lemma find_put_nat : forall V k k' (v : V) m, find_key Nat.eqb k (put_key Nat.eqb k' v m) = if k =? k' then Some v else find_key Nat.eqb k m.
Proof.
  intros V k k' v. induction m as [|[k1 v1] m IH]; cbn; [reflexivity|]. destruct (Nat.eqb_spec k' k1) as [->|N]; cbn.
  - destruct (Nat.eqb_spec k k1); reflexivity.
  - rewrite IH. destruct (Nat.eqb_spec k k1) as [->|N1]; [|reflexivity]. destruct (Nat.eqb_spec k1 k'); [congruence|reflexivity].
Qed.
Lemma find_filter_nat : forall V k b (m : list (nat * V)), find_key Nat.eqb k (filter (fun e => fst e <? b) m) = if k <? b then find_key Nat.eqb k m else None.
Proof.
  intros V k b. induction m as [|[k1 v1] m IH]; [cbn [filter find_key]; destruct (k <? b); reflexivity|]. cbn [filter fst]. destruct (Nat.ltb_spec k1 b) as [H|H]; cbn [find_key].
  - rewrite IH. destruct (Nat.eqb_spec k k1) as [->|N]; [|reflexivity]. destruct (Nat.ltb_spec k1 b); [reflexivity|lia].
  - rewrite IH. destruct (Nat.eqb_spec k k1) as [->|N]; [|reflexivity]. destruct (Nat.ltb_spec k1 b); [lia|reflexivity].
Qed.
Lemma find_map_nat : forall V W k (f : V -> W) (m : list (nat * V)), find_key Nat.eqb k (map (fun e => (fst e, f (snd e))) m) = option_map f (find_key Nat.eqb k m).
Proof. intros V W k f. induction m as [|[k1 v1] m IH]; cbn; [reflexivity|]. destruct (k =? k1); [reflexivity|exact IH]. Qed.

(* ---------- storage ---------- *)
Definition stored (n : nat) (Q : row -> Prop) (st : storage) : Prop :=
  match st with
  | InMemory tr => good_trie n Q tr
  | FromSources srcs => 0 < n /\ exists Q', gives n srcs Q' /\ forall r, length r = n -> (Q' r <-> Q r)
  | SEmpty => False
  end.
Lemma stored_iff : forall n P Q st, (forall r, length r = n -> (P r <-> Q r)) -> stored n P st -> stored n Q st.
Proof.
  intros n P Q [|tr|srcs] H HS; cbn in *; [exact HS|exact (good_iff n P Q tr H HS)|].
  destruct HS as (Hn & Q' & HG & HQ). split; [exact Hn|]. exists Q'. split; [exact HG|]. intros r Hl. rewrite (HQ r Hl). apply H, Hl.
Qed.
Lemma provide_gives : forall n srcs, (forall s, In s srcs -> src_arity s = n /\ exists rows, src_rows s = Some rows /\ Forall (fun r => length r = n) rows) ->
  exists all, provide_all srcs = Some all /\ Forall (fun r => length r = n) all /\ forall r, In r all <-> exists s rows, In s srcs /\ src_rows s = Some rows /\ In r rows.
Proof.
  intros n. induction srcs as [|s srcs IH]; intros H; cbn [provide_all].
  - exists []. split; [reflexivity|]. split; [constructor|]. intros r. split; [intros []|intros (s & rows & [] & _)].
  - destruct (H s (or_introl eq_refl)) as (_ & rows & Es & Hr). rewrite Es. destruct IH as (more & -> & Hm & Hin); [intros s' Hs'; apply H; right; exact Hs'|].
    exists (rows ++ more). split; [reflexivity|]. split; [apply Forall_app; auto|]. intros r. rewrite in_app_iff, Hin. split.
    + intros [Hin'|(s' & rows' & H1 & H2 & H3)]; [exists s, rows|exists s', rows']; cbn [In]; auto.
    + intros (s' & rows' & [<-|H1] & H2 & H3); [left; congruence|right; exists s', rows'; auto].
Qed.
Lemma storage_trie_good : forall n Q st, stored n Q st -> exists tr, storage_trie st = Ok (InMemory tr, Some tr) /\ good_trie n Q tr.
Proof.
  intros n Q [|tr|srcs] HS; cbn in HS; [destruct HS|exists tr; split; [reflexivity|exact HS]|].
  destruct HS as (Hn & Q' & (Hne & Hs & HQ') & HQ). destruct (provide_gives n srcs Hs) as (all & Ep & Hl & Hin).
  destruct (written_good n all Hn Hl) as (tr & Ew & HG). exists tr. split.
  - unfold storage_trie, load_sources. destruct srcs as [|s srcs]; [congruence|]. destruct (Hs s (or_introl eq_refl)) as [Ea _].
    assert (Ef : forallb (fun s' => src_arity s' =? src_arity s) (s :: srcs) = true).
    { apply forallb_forall. intros s' Hs'. rewrite Ea. apply Nat.eqb_eq. apply (Hs s' Hs'). }
    rewrite Ef, Ep, Ea, Ew. reflexivity.
  - refine (good_iff n _ _ tr _ HG). intros r Hr. rewrite Hin, <- HQ'. apply HQ, Hr.
Qed.
Lemma storage_arity_good : forall n Q st, stored n Q st -> storage_arity st = Ok n.
Proof.
  intros n Q [|tr|[|s srcs]] HS; cbn in HS; [destruct HS|cbn; rewrite (proj1 HS); reflexivity| |].
  - destruct HS as (_ & Q' & (H & _) & _). congruence.
  - destruct HS as (_ & Q' & (_ & H & _) & _). cbn. rewrite (proj1 (H s (or_introl eq_refl))). reflexivity.
Qed.

(* ---------- the invariant ---------- *)
Record minv (cat : catalog) (m : manager) : Prop := {
  m_direct : forall id n P, nth_error cat id = Some (n, P, None) -> find_key Nat.eqb id (reference_map m) = None /\
    exists om, find_key Nat.eqb id (storage_map m) = Some om /\ om <> [] /\
      forall o sid, In (o, sid) om -> permutes n o /\ exists st, nth_error (stored_tables m) sid = Some st /\ stored n (rearranged n o P) st;
  m_ref : forall id n P p, nth_error cat id = Some (n, P, Some p) -> exists id0 P0, id0 < id /\ find_key Nat.eqb id (storage_map m) = None /\ find_key Nat.eqb id (reference_map m) = Some (id0, p) /\
    nth_error cat id0 = Some (n, P0, None) /\ permutes n p /\ forall r, length r = n -> (P r <-> rearranged n p P0 r);
  m_skeys : forall id, length cat <= id -> find_key Nat.eqb id (storage_map m) = None;
  m_rkeys : forall id, length cat <= id -> find_key Nat.eqb id (reference_map m) = None }.
Record inv (cat : catalog) (db : database) : Prop := {
  i_manager : minv cat (db_manager db);
  i_current : db_current db = length cat;
  i_arity : forall id, find_key Nat.eqb id (db_arities db) = option_map (fun e => fst (fst e)) (nth_error cat id) }.
(* the tables below k stay available *)
Record ext (k : nat) (m m' : manager) : Prop := {
  e_tables : length (stored_tables m) <= length (stored_tables m');
  e_orders : forall id om o sid, id < k -> find_key Nat.eqb id (storage_map m) = Some om -> In (o, sid) om ->
    exists om', find_key Nat.eqb id (storage_map m') = Some om' /\ In (o, sid) om';
  e_refs : forall id, id < k -> find_key Nat.eqb id (reference_map m') = find_key Nat.eqb id (reference_map m) }.

Lemma ext_refl : forall k m, ext k m m.
Proof. intros k m. split; eauto. Qed.
Lemma ext_trans : forall k k' m1 m2 m3, k <= k' -> ext k m1 m2 -> ext k' m2 m3 -> ext k m1 m3.
Proof.
  intros k k' m1 m2 m3 Hk [A1 A2 A3] [B1 B2 B3]. split; [lia| |].
  - intros id om o sid Hid E Hin. destruct (A2 id om o sid Hid E Hin) as (om' & E' & Hin'). apply (B2 id om' o sid); [lia|assumption..].
  - intros id Hid. rewrite B3 by lia. apply A3, Hid.
Qed.

(* find_order in a map of orders *)
Lemma find_order_in : forall n om o sid, permutes n o -> (forall o' sid', In (o', sid') om -> permutes n o') -> find_order o om = Some sid ->
  exists o', In (o', sid) om /\ forall i, PermModel.get o i = PermModel.get o' i.
Proof.
  intros n om o sid Ho Hom E. destruct (find_key_in _ _ _ _ E) as (o' & Hin & Eq). exists o'. split; [exact Hin|].
  apply PermProps.C16_equality; [apply Ho|apply (Hom o' sid Hin)|exact Eq].
Qed.
Lemma find_order_some : forall n om o sid, (forall o' sid', In (o', sid') om -> permutes n o') -> In (o, sid) om -> exists sid', find_order o om = Some sid'.
Proof.
  intros n om o sid Hom Hin. destruct (find_order o om) as [sid'|] eqn:E; [eauto|]. exfalso.
  apply (find_key_some PermModel.perm_eqb o om o sid Hin); [|exact E]. pose proof (Hom o sid Hin) as H. apply (PermProps.C16_equality o o); [apply H|apply H|reflexivity].
Qed.

(* ---------- loading ---------- *)
Lemma rearranged_ext : forall n p q P s, (forall i, PermModel.get p i = PermModel.get q i) -> (rearranged n p P s <-> rearranged n q P s).
Proof.
  intros n p q P s G. split; intros (r & Hl & HP & Ha); exists r; (split; [exact Hl|]; split; [exact HP|]).
  - exact (arranged_ext p q r s G Ha).
  - exact (arranged_ext q p r s (fun i => eq_sym (G i)) Ha).
Qed.

Lemma set_nth_spec : forall (l : list storage) i x, i < length l -> exists l', PermModel.set_nth l i x = Some l' /\ length l' = length l /\
  forall j, nth_error l' j = if j =? i then Some x else nth_error l j.
Proof.
  intros l i x H. destruct (PermProofs.set_nth_some _ l i x H) as (l' & E & Hl & Hg). exists l'. split; [exact E|]. split; [exact Hl|]. exact Hg.
Qed.
Lemma load_good : forall cat m n Q sid st, minv cat m -> nth_error (stored_tables m) sid = Some st -> stored n Q st ->
  exists m' tr, load m sid = Ok (m', Some tr) /\ stored_trie m' sid = Ok tr /\ good_trie n Q tr /\ minv cat m' /\
    storage_map m' = storage_map m /\ reference_map m' = reference_map m /\ length (stored_tables m') = length (stored_tables m).
Proof.
  intros cat m n Q sid st HI Es HS. destruct (storage_trie_good n Q st HS) as (tr & Et & HG).
  assert (Hlt : sid < length (stored_tables m)) by (apply nth_error_Some; congruence).
  destruct (set_nth_spec (stored_tables m) sid (InMemory tr) Hlt) as (ts & Ets & Hl & Hg).
  exists (mk_manager ts (storage_map m) (reference_map m)), tr. unfold load, index, set_storage. rewrite Es. cbn [bind]. rewrite Et. cbn [bind fst snd]. rewrite Ets. cbn [must bind].
  split; [reflexivity|]. split. { unfold stored_trie, index. cbn [stored_tables]. rewrite Hg, Nat.eqb_refl. reflexivity. }
  split; [exact HG|]. split; [|repeat split; auto]. destruct HI as [I1 I2 I3 I4]. split; cbn [storage_map reference_map stored_tables]; [|exact I2|exact I3|exact I4].
  intros id n' P' Ec. destruct (I1 id n' P' Ec) as (Hr & om & Eo & Hne & Hom). split; [exact Hr|]. exists om. split; [exact Eo|]. split; [exact Hne|].
  intros o' sid' Hin. destruct (Hom o' sid' Hin) as (Hp & st' & Es' & HS'). split; [exact Hp|]. rewrite Hg. destruct (Nat.eqb_spec sid' sid) as [->|N]; [|exists st'; auto].
  rewrite Es in Es'. injection Es' as <-. exists (InMemory tr). split; [reflexivity|]. destruct (storage_trie_good _ _ _ HS') as (tr' & Et' & HG'). rewrite Et in Et'. injection Et' as <-. exact HG'.
Qed.
