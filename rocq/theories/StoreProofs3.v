(* Every call keeps the invariant and answers from the catalog. *)
From Coq Require Import List ZArith Bool Arith Lia Permutation.
From Verif Require Import ColumnModel ScanModel TrieModel TrieSpec TrieScanSpec OpModel OpSpec ProjModel ProjSpec StoreModel StoreSpec StoreProofs1 StoreProofs2.
From Verif Require PermModel PermProofs PermProps.
Import ListNotations.
Local Open Scope nat_scope.

Lemma closest_in : forall orders order, orders <> [] -> exists c, closest_order orders order = Some c /\ In c orders.
Proof.
  intros orders order H. unfold closest_order.
  set (f := fun best o => match best with None => Some o | Some b => if distance o order <? distance b order then Some o else Some b end).
  assert (G : forall l b, exists c, fold_left f l (Some b) = Some c /\ (c = b \/ In c l)).
  { induction l as [|o l IH]; intros b; cbn [fold_left]; [exists b; auto|]. unfold f at 2. destruct (distance o order <? distance b order).
    - destruct (IH o) as (c & E & [->|Hc]); [exists o|exists c]; cbn [In]; auto.
    - destruct (IH b) as (c & E & [->|Hc]); [exists b|exists c]; cbn [In]; auto. }
  destruct orders as [|o l]; [congruence|]. cbn [fold_left]. destruct (G l o) as (c & E & Hc). exists c. split; [exact E|]. cbn [In]. destruct Hc; auto.
Qed.

(* a new table, or a new order of one, whose storage is set at once *)
Definition added (m : manager) (id : nat) (o : perm) (st : storage) : manager :=
  mk_manager (stored_tables m ++ [st])
    (put_key Nat.eqb id (match find_key Nat.eqb id (storage_map m) with Some om => om | None => [] end ++ [(o, length (stored_tables m))]) (storage_map m))
    (reference_map m).
Lemma set_nth_last : forall (l : list storage) x y, PermModel.set_nth (l ++ [x]) (length l) y = Some (l ++ [y]).
Proof. induction l as [|z l IH]; intros x y; cbn; [reflexivity|]. rewrite IH. reflexivity. Qed.
Lemma add_storage_new : forall m id o st, find_key Nat.eqb id (reference_map m) = None ->
  (forall om, find_key Nat.eqb id (storage_map m) = Some om -> find_order o om = None) ->
  bind (add_storage m id o) (fun ms => bind (set_storage (fst ms) (snd ms) st) (fun m' => Ok (m', snd ms))) = Ok (added m id o st, length (stored_tables m)).
Proof.
  intros m id o st Hr Ho. unfold add_storage, resolve_reference, added. rewrite Hr. cbn [bind fst snd]. destruct (find_key Nat.eqb id (storage_map m)) as [om|] eqn:E.
  - rewrite (Ho om eq_refl). cbn [bind fst snd]. unfold set_storage. cbn [stored_tables storage_map reference_map]. rewrite set_nth_last. cbn [must bind].
    rewrite (put_key_new PermModel.perm_eqb o (length (stored_tables m)) om) by apply (Ho om eq_refl). reflexivity.
  - cbn [bind fst snd]. unfold set_storage. cbn [stored_tables storage_map reference_map]. rewrite set_nth_last. cbn [must bind]. reflexivity.
Qed.
Lemma nth_tables : forall (l : list storage) st sid x, nth_error l sid = Some x -> nth_error (l ++ [st]) sid = Some x.
Proof. intros l st sid x H. rewrite nth_error_app1; [exact H|]. apply nth_error_Some. congruence. Qed.
Lemma added_ext : forall k m id o st, ext k m (added m id o st).
Proof.
  intros k m id o st. split.
  - unfold added. cbn [stored_tables]. rewrite app_length. lia.
  - intros id' om o' sid Hid E Hin. unfold added. cbn [storage_map]. rewrite find_put_nat. destruct (Nat.eqb_spec id' id) as [->|N].
    + rewrite E. eexists. split; [reflexivity|]. apply in_or_app. left. exact Hin.
    + exists om. auto.
  - reflexivity.
Qed.
(* another order of a table in the catalog *)
Lemma added_order_inv : forall cat m id n P o st, minv cat m -> nth_error cat id = Some (n, P, None) -> permutes n o -> stored n (rearranged n o P) st ->
  minv cat (added m id o st).
Proof.
  intros cat m id n P o st [I1 I2 I3 I4] Ec Ho HS. split; unfold added; cbn [storage_map reference_map stored_tables]; [| | |exact I4].
  - intros id' n' P' Ec'. destruct (I1 id' n' P' Ec') as (Hr & om & Eo & Hne & Hom). split; [exact Hr|]. rewrite find_put_nat. destruct (Nat.eqb_spec id' id) as [->|N].
    + rewrite Ec in Ec'. injection Ec' as <- <-. rewrite Eo. eexists. split; [reflexivity|]. split; [destruct om; discriminate|]. intros o' sid Hin. apply in_app_or in Hin. destruct Hin as [Hin|[Hin|[]]].
      * destruct (Hom o' sid Hin) as (Hp & st' & Es & HS'). split; [exact Hp|]. exists st'. split; [apply nth_tables, Es|exact HS'].
      * injection Hin as <- <-. split; [exact Ho|]. exists st. split; [rewrite nth_error_app2, Nat.sub_diag by lia; reflexivity|exact HS].
    + exists om. split; [exact Eo|]. split; [exact Hne|]. intros o' sid Hin. destruct (Hom o' sid Hin) as (Hp & st' & Es & HS'). split; [exact Hp|]. exists st'. split; [apply nth_tables, Es|exact HS'].
  - intros id' n' P' p Ec'. destruct (I2 id' n' P' p Ec') as (id0 & P0 & H1 & H2 & H3). exists id0, P0. split; [exact H1|]. split; [|exact H3].
    rewrite find_put_nat. destruct (Nat.eqb_spec id' id) as [->|N]; [congruence|exact H2].
  - intros id' Hid. rewrite find_put_nat. destruct (Nat.eqb_spec id' id) as [->|N]; [|apply I3, Hid]. assert (id < length cat) by (apply nth_error_Some; congruence). lia.
Qed.
Lemma nth_snoc_cases : forall A (l : list A) x i y, nth_error (l ++ [x]) i = Some y -> nth_error l i = Some y \/ (i = length l /\ y = x).
Proof.
  intros A l x i y H. destruct (Nat.lt_ge_cases i (length l)) as [L|L]; [left; rewrite nth_error_app1 in H by exact L; exact H|].
  rewrite nth_error_app2 in H by exact L. destruct (i - length l) as [|k] eqn:E; [|destruct k; discriminate]. injection H as <-. right. split; [lia|reflexivity].
Qed.
Lemma nth_cat_snoc : forall A (l : list A) x i y, nth_error l i = Some y -> nth_error (l ++ [x]) i = Some y.
Proof. intros A l x i y H. rewrite nth_error_app1; [exact H|]. apply nth_error_Some. congruence. Qed.
(* a new table *)
Lemma added_table_inv : forall cat m n P o st, minv cat m -> permutes n o -> stored n (rearranged n o P) st ->
  minv (cat ++ [(n, P, None)]) (added m (length cat) o st).
Proof.
  intros cat m n P o st [I1 I2 I3 I4] Ho HS. split; unfold added; cbn [storage_map reference_map stored_tables].
  - intros id' n' P' Ec'. rewrite find_put_nat. apply nth_snoc_cases in Ec'. destruct Ec' as [Ec'|[-> Ec']].
    + destruct (I1 id' n' P' Ec') as (Hr & om & Eo & Hne & Hom). split; [exact Hr|]. assert (id' < length cat) by (apply nth_error_Some; congruence).
      destruct (Nat.eqb_spec id' (length cat)); [lia|]. exists om. split; [exact Eo|]. split; [exact Hne|]. intros o' sid Hin. destruct (Hom o' sid Hin) as (Hp & st' & Es & HS').
      split; [exact Hp|]. exists st'. split; [apply nth_tables, Es|exact HS'].
    + injection Ec' as -> ->. split; [apply I4; lia|]. rewrite Nat.eqb_refl, (I3 (length cat)) by lia. eexists. split; [reflexivity|]. split; [discriminate|].
      intros o' sid [Hin|[]]. injection Hin as <- <-. split; [exact Ho|]. exists st. split; [rewrite nth_error_app2, Nat.sub_diag by lia; reflexivity|exact HS].
  - intros id' n' P' p Ec'. apply nth_snoc_cases in Ec'. destruct Ec' as [Ec'|[_ Ec']]; [|discriminate]. destruct (I2 id' n' P' p Ec') as (id0 & P0 & H1 & H1' & H2 & H3 & H4).
    exists id0, P0. split; [exact H1|]. split. { assert (id' < length cat) by (apply nth_error_Some; congruence). rewrite find_put_nat. destruct (Nat.eqb_spec id' (length cat)); [lia|exact H1']. }
    split; [exact H2|]. split; [apply nth_cat_snoc, H3|exact H4].
  - intros id' Hid. rewrite app_length in Hid. cbn in Hid. rewrite find_put_nat. destruct (Nat.eqb_spec id' (length cat)); [lia|]. apply I3. lia.
  - intros id' Hid. rewrite app_length in Hid. cbn in Hid. apply I4. lia.
Qed.
(* a new reference *)
Lemma reference_inv : forall cat m n P p id0 P0, minv cat m -> nth_error cat id0 = Some (n, P0, None) -> permutes n p ->
  (forall r, length r = n -> (P r <-> rearranged n p P0 r)) ->
  let m' := mk_manager (stored_tables m) (storage_map m) (put_key Nat.eqb (length cat) (id0, p) (reference_map m)) in
  minv (cat ++ [(n, P, Some p)]) m' /\ ext (length cat) m m'.
Proof.
  intros cat m n P p id0 P0 [I1 I2 I3 I4] Ec Hp HP m'. assert (H0 : id0 < length cat) by (apply nth_error_Some; congruence). split; [split|split]; unfold m'; cbn [storage_map reference_map stored_tables].
  - intros id' n' P' Ec'. apply nth_snoc_cases in Ec'. destruct Ec' as [Ec'|[_ Ec']]; [|discriminate]. destruct (I1 id' n' P' Ec') as (Hr & H). split; [|exact H].
    assert (id' < length cat) by (apply nth_error_Some; congruence). rewrite find_put_nat. destruct (Nat.eqb_spec id' (length cat)); [lia|exact Hr].
  - intros id' n' P' p' Ec'. rewrite find_put_nat. apply nth_snoc_cases in Ec'. destruct Ec' as [Ec'|[-> Ec']].
    + destruct (I2 id' n' P' p' Ec') as (id1 & P1 & H1 & H1' & H2 & H3 & H4). assert (id' < length cat) by (apply nth_error_Some; congruence).
      destruct (Nat.eqb_spec id' (length cat)); [lia|]. exists id1, P1. split; [exact H1|]. split; [exact H1'|]. split; [exact H2|]. split; [apply nth_cat_snoc, H3|exact H4].
    + injection Ec' as -> -> ->. rewrite Nat.eqb_refl. exists id0, P0. split; [exact H0|]. split; [apply I3; lia|]. split; [reflexivity|]. split; [apply nth_cat_snoc, Ec|auto].
  - intros id' Hid. rewrite app_length in Hid. cbn in Hid. apply I3. lia.
  - intros id' Hid. rewrite app_length in Hid. cbn in Hid. rewrite find_put_nat. destruct (Nat.eqb_spec id' (length cat)); [lia|]. apply I4. lia.
  - lia.
  - intros id' om o sid _ E Hin. exists om. auto.
  - intros id' Hid. rewrite find_put_nat. destruct (Nat.eqb_spec id' (length cat)); [lia|reflexivity].
Qed.

(* ---------- reading ---------- *)
Section Read.
Variable shuffle : list perm -> list perm.
Hypothesis shuffles : forall l, Permutation l (shuffle l).

Lemma trie_id_direct : forall cat m id n P o, minv cat m -> nth_error cat id = Some (n, P, None) -> permutes n o ->
  exists enough m' sid tr, (forall fuel id' o', enough <= fuel -> resolve_reference m id' o' = Ok (id, o) -> trie_id shuffle fuel m id' o' = Ok (m', Some sid)) /\
    stored_trie m' sid = Ok tr /\ good_trie n (rearranged n o P) tr /\ minv cat m' /\ forall k, ext k m m'.
Proof.
  intros cat m id n P o HI Ec Ho. destruct (m_direct _ _ HI id n P Ec) as (Hr & om & Eo & Hne & Hom).
  assert (Hperm : forall o' sid', In (o', sid') om -> permutes n o') by (intros o' sid' Hin; apply (Hom o' sid' Hin)).
  destruct (find_order o om) as [sid|] eqn:Ef.
  - destruct (find_order_in n om o sid Ho Hperm Ef) as (o' & Hin & Hoo). destruct (Hom o' sid Hin) as (_ & st & Es & HS).
    destruct (load_good cat m n (rearranged n o' P) sid st HI Es HS) as (m' & tr & El & Et & HG & HI' & Hsm & Hrm & Hlen).
    exists 0, m', sid, tr. split. { intros fuel id1 o1 _ Er. unfold trie_id. rewrite Er. cbn [bind fst snd]. rewrite Eo, Ef, El. reflexivity. }
    split; [exact Et|]. split. { refine (good_iff n _ _ tr _ HG). intros r _. apply rearranged_ext. intros i. symmetry. apply Hoo. }
    split; [exact HI'|]. intros k. split; [lia| |]. { intros id' om' o1 sid1 _ E1 Hin1. rewrite Hsm. eauto. } { intros id' _. rewrite Hrm. reflexivity. }
  - assert (Hne' : shuffle (map fst om) <> []).
    { intros E. pose proof (shuffles (map fst om)) as HP. rewrite E in HP. apply Permutation_sym, Permutation_nil in HP. destruct om; [congruence|discriminate]. }
    destruct (closest_in _ o Hne') as (c & Ecl & Hc). apply (Permutation_in _ (Permutation_sym (shuffles (map fst om)))) in Hc. apply in_map_iff in Hc. destruct Hc as ([c' sid0] & Ec' & Hc). cbn in Ec'. subst c'.
    destruct (find_order_some n om c sid0 Hperm Hc) as (sid & Efc). destruct (find_order_in n om c sid (Hperm c sid0 Hc) Hperm Efc) as (c' & Hin & Hcc).
    destruct (Hom c' sid Hin) as (Hc' & st & Es & HS).
    destruct (load_good cat m n (rearranged n c' P) sid st HI Es HS) as (m' & tr & El & Et & HG & HI' & Hsm & Hrm & Hlen).
    assert (HG' : good_trie n (rearranged n c P) tr). { refine (good_iff n _ _ tr _ HG). intros r _. apply rearranged_ext. intros i. symmetry. apply Hcc. }
    destruct (reorder_good c o n P tr (Hperm c sid0 Hc) Ho HG') as (p & Ep & Hid & Hnid).
    assert (Hext : forall k, ext k m m').
    { intros k. split; [lia| |]. { intros id' om' o1 sid1 _ E1 Hin1. rewrite Hsm. eauto. } { intros id' _. rewrite Hrm. reflexivity. } }
    destruct (PermModel.choice_is_identity (pj_choice p)) eqn:Ei.
    + exists 0, m', sid, tr. split. { intros fuel id1 o1 _ Er. unfold trie_id. rewrite Er. cbn [bind fst snd]. rewrite Eo, Ef, Ecl. cbn [must bind]. rewrite Efc. cbn [must bind].
        unfold index. rewrite Es. cbn [bind]. rewrite (storage_arity_good _ _ _ HS). cbn [bind]. rewrite Ep. cbn [bind]. rewrite El. cbn [bind snd fst]. rewrite Ei. reflexivity. }
      split; [exact Et|]. split; [apply Hid; reflexivity|]. split; [exact HI'|exact Hext].
    + destruct (Hnid eq_refl) as (en & tr' & Ea & HGt).
      assert (Hadd : add_trie m' id o tr' = Ok (added m' id o (InMemory tr'), length (stored_tables m'))).
      { unfold add_trie. apply add_storage_new; [rewrite Hrm; exact Hr|]. intros om'. rewrite Hsm, Eo. intros E. injection E as <-. exact Ef. }
      exists en, (added m' id o (InMemory tr')), (length (stored_tables m')), tr'. split.
      { intros fuel id1 o1 Hf Er. unfold trie_id. rewrite Er. cbn [bind fst snd]. rewrite Eo, Ef, Ecl. cbn [must bind]. rewrite Efc. cbn [must bind].
        unfold index. rewrite Es. cbn [bind]. rewrite (storage_arity_good _ _ _ HS). cbn [bind]. rewrite Ep. cbn [bind]. rewrite El. cbn [bind snd fst]. rewrite Ei, (Ea fuel Hf). cbn [bind]. rewrite Hadd. reflexivity. }
      split. { unfold stored_trie, index, added. cbn [stored_tables]. rewrite nth_error_app2, Nat.sub_diag by lia. reflexivity. }
      split; [exact HGt|]. split; [apply (added_order_inv cat m' id n P o (InMemory tr') HI' Ec Ho HGt)|].
      intros k. apply (ext_trans k k m m'); [lia|apply Hext|apply added_ext].
Qed.
Lemma trie_id_read : forall cat m id n P ref o, minv cat m -> nth_error cat id = Some (n, P, ref) -> answered n o ref ->
  exists enough m' sid tr, (forall fuel, enough <= fuel -> trie_id shuffle fuel m id o = Ok (m', Some sid)) /\
    stored_trie m' sid = Ok tr /\ good_trie n (rearranged n o P) tr /\ minv cat m' /\ forall k, ext k m m'.
Proof.
  intros cat m id n P [p|] o HI Ec [Ho Hcomm].
  - destruct (m_ref _ _ HI id n P p Ec) as (id0 & P0 & Hlt & _ & Er & Ec0 & Hp & HP). destruct (permutes_chain n o p Ho Hp) as (r & Ech & Hr & Hg).
    destruct (trie_id_direct cat m id0 n P0 r HI Ec0 Hr) as (en & m' & sid & tr & E & Et & HG & HI' & Hext). exists en, m', sid, tr.
    split. { intros fuel Hf. apply (E fuel id o Hf). unfold resolve_reference. rewrite Er, Ech. reflexivity. }
    split; [exact Et|]. split; [|auto]. refine (good_iff n _ _ tr _ HG). intros t Hlt'.
    (* the two orders commute *)
    assert (G : forall i, PermModel.get r i = PermModel.get o (PermModel.get p i)) by (intros i; rewrite Hg; apply (Hcomm p eq_refl)).
    split.
    + intros (s & Hls & HPs & Ha). destruct (arranged_exists n p s Hp Hls) as (s' & Hls' & Hs'). exists s'. split; [exact Hls'|]. split.
      * apply HP; [exact Hls'|]. exists s. auto.
      * apply (arranged_chain n p o r s s' t Hp Ho G Hls Hs'), Ha.
    + intros (s' & Hls' & HPs & Ha). apply HP in HPs; [|exact Hls']. destruct HPs as (s & Hls & HPs & Hs'). exists s. split; [exact Hls|]. split; [exact HPs|].
      apply (arranged_chain n p o r s s' t Hp Ho G Hls Hs'), Ha.
  - destruct (trie_id_direct cat m id n P o HI Ec Ho) as (en & m' & sid & tr & E & Et & HG & HI' & Hext). exists en, m', sid, tr. split; [|auto].
    intros fuel Hf. apply (E fuel id o Hf). unfold resolve_reference. rewrite (proj1 (m_direct _ _ HI id n P Ec)). reflexivity.
Qed.
Lemma table_trie_read : forall cat db id n P ref o, inv cat db -> nth_error cat id = Some (n, P, ref) -> answered n o ref ->
  exists enough db' tr, (forall fuel, enough <= fuel -> table_trie shuffle fuel db id o = Ok (db', Some tr)) /\
    good_trie n (rearranged n o P) tr /\ inv cat db' /\ forall k, ext k (db_manager db) (db_manager db').
Proof.
  intros cat db id n P ref o [I1 I2 I3] Ec Ho. destruct (trie_id_read cat _ id n P ref o I1 Ec Ho) as (en & m' & sid & tr & E & Et & HG & HI' & Hext).
  exists en, (with_manager db m'), tr. split. { intros fuel Hf. unfold table_trie. rewrite (E fuel Hf). cbn [bind snd fst]. rewrite Et. reflexivity. }
  split; [exact HG|]. split; [split; [exact HI'|exact I2|exact I3]|exact Hext].
Qed.

(* ---------- histories ---------- *)
Lemma arity_put : forall cat db (e : nat * (row -> Prop) * option perm), inv cat db -> forall id,
  find_key Nat.eqb id (put_key Nat.eqb (db_current db) (fst (fst e)) (db_arities db)) = option_map (fun e => fst (fst e)) (nth_error (cat ++ [e]) id).
Proof.
  intros cat db e [_ Ic Ia] id. rewrite find_put_nat, Ic. destruct (Nat.eqb_spec id (length cat)) as [->|N].
  - rewrite nth_error_app2, Nat.sub_diag by lia. reflexivity.
  - rewrite Ia. destruct (Nat.lt_ge_cases id (length cat)) as [L|L]; [rewrite nth_error_app1 by exact L; reflexivity|].
    rewrite (proj2 (nth_error_None cat id)) by lia. rewrite (proj2 (nth_error_None (cat ++ [e]) id)) by (rewrite app_length; cbn; lia). reflexivity.
Qed.
Lemma step_inv : forall cat db cat' db', inv cat db -> step shuffle cat db cat' db' ->
  inv cat' db' /\ ext (length cat) (db_manager db) (db_manager db') /\ exists more, cat' = cat ++ more.
Proof.
  intros cat db cat' db' HI HS. pose proof HI as [I1 I2 I3]. destruct HS as [cat db n Q o tr db' id HG Ho E|cat db n Q o srcs db1 id db' Hn Hg Ho E1 E|cat db ex n P ref p q db1 id db' Ec Hp Hq E1 E|cat db id o n P ref en db' tr Ec Ho E].
  - unfold register_add_trie, register_table in E. cbn [db_manager] in E. unfold add_trie in E. rewrite I2 in E.
    rewrite add_storage_new in E; [|apply (m_rkeys _ _ I1); lia|intros om; rewrite (m_skeys _ _ I1) by lia; discriminate]. cbn [bind fst] in E. injection E as <- <-.
    split; [split|split]; cbn [with_manager db_manager db_current db_arities].
    + apply added_table_inv; [exact I1|exact Ho|]. cbn [stored]. refine (good_iff n _ _ tr _ HG). intros s Hs. symmetry. apply rearranged_as; assumption.
    + rewrite app_length. cbn. lia.
    + rewrite <- I2, (proj1 HG). apply (arity_put cat db (n, arranged_as n o Q, None) HI).
    + apply added_ext.
    + eauto.
  - unfold register_table in E1. injection E1 as <- <-. unfold db_add_sources in E. cbn [db_manager] in E. unfold add_sources in E. rewrite I2 in E.
    rewrite add_storage_new in E; [|apply (m_rkeys _ _ I1); lia|intros om; rewrite (m_skeys _ _ I1) by lia; discriminate]. cbn [bind fst] in E. injection E as <-.
    split; [split|split]; cbn [with_manager db_manager db_current db_arities].
    + apply added_table_inv; [exact I1|exact Ho|]. cbn [stored]. split; [exact Hn|]. exists Q. split; [exact Hg|]. intros s Hs. symmetry. apply rearranged_as; assumption.
    + rewrite app_length. cbn. lia.
    + rewrite <- I2. apply (arity_put cat db (n, arranged_as n o Q, None) HI).
    + apply added_ext.
    + eauto.
  - unfold register_table in E1. injection E1 as <- <-. unfold db_add_reference in E. cbn [db_manager] in E. unfold add_reference in E.
    assert (R : exists id0 P0, nth_error cat id0 = Some (n, P0, None) /\ permutes n q /\ (forall r, length r = n -> (rearranged n p P r <-> rearranged n q P0 r)) /\
      db' = with_manager (mk_database (db_manager db) (put_key Nat.eqb (db_current db) n (db_arities db)) (S (db_current db)))
        (mk_manager (stored_tables (db_manager db)) (storage_map (db_manager db)) (put_key Nat.eqb (length cat) (id0, q) (reference_map (db_manager db))))).
    { destruct ref as [p0|].
      - destruct (m_ref _ _ I1 ex n P p0 Ec) as (id0 & P0 & _ & _ & Er & Ec0 & Hp0 & HP). rewrite Er, Hq in E. cbn [must bind] in E. injection E as <-. rewrite I2.
        destruct (permutes_chain n p0 p Hp0 Hp) as (q' & Eq' & Hq' & G). rewrite Hq in Eq'. injection Eq' as <-. exists id0, P0. split; [exact Ec0|]. split; [exact Hq'|]. split; [|reflexivity].
        intros r Hr. split.
        + intros (s & Hs & HPs & Ha). apply HP in HPs; [|exact Hs]. destruct HPs as (u & Hu & HPu & Hua). exists u. split; [exact Hu|]. split; [exact HPu|].
          apply (arranged_chain n p0 p q u s r Hp0 Hp G Hu Hua), Ha.
        + intros (u & Hu & HPu & Ha). destruct (arranged_exists n p0 u Hp0 Hu) as (s & Hs & Hua). exists s. split; [exact Hs|]. split; [apply HP; [exact Hs|]; exists u; auto|].
          apply (arranged_chain n p0 p q u s r Hp0 Hp G Hu Hua), Ha.
      - destruct (m_direct _ _ I1 ex n P Ec) as (Er & _). rewrite Er in E. cbn [bind] in E. injection E as <-. subst q. rewrite I2. exists ex, P. split; [exact Ec|]. split; [exact Hp|]. split; [reflexivity|reflexivity]. }
    destruct R as (id0 & P0 & Ec0 & Hq' & HP & ->). destruct (reference_inv cat (db_manager db) n (rearranged n p P) q id0 P0 I1 Ec0 Hq' HP) as [R1 R2].
    split; [split|split]; cbn [with_manager db_manager db_current db_arities].
    + exact R1.
    + rewrite app_length. cbn. lia.
    + apply (arity_put cat db (n, rearranged n p P, Some q) HI).
    + exact R2.
    + eauto.
  - destruct (table_trie_read cat db id n P ref o HI Ec Ho) as (en' & db2 & tr2 & E2 & _ & HI2 & Hext). specialize (E (max en en') ltac:(lia)). rewrite E2 in E by lia. injection E as <- <-.
    split; [exact HI2|]. split; [apply Hext|]. exists []. rewrite app_nil_r. reflexivity.
Qed.
Lemma delete_inv : forall cat db more db', inv cat db -> inv (cat ++ more) db' -> ext (length cat) (db_manager db) (db_manager db') ->
  inv cat (delete_from db' (current_id db)) /\ ext (length cat) (db_manager db) (db_manager (delete_from db' (current_id db))).
Proof.
  intros cat db more db' [I1 I2 I3] [J1 J2 J3] [X1 X2 X3]. set (len := length (stored_tables (db_manager db))).
  assert (Hcat : forall id e, nth_error cat id = Some e -> nth_error (cat ++ more) id = Some e) by (intros id e H; rewrite nth_error_app1; [exact H|apply nth_error_Some; congruence]).
  assert (Hsid : forall id n P om o sid, nth_error cat id = Some (n, P, None) -> find_key Nat.eqb id (storage_map (db_manager db)) = Some om -> In (o, sid) om -> sid < len).
  { intros id n P om o sid Ec E Hin. destruct (m_direct _ _ I1 id n P Ec) as (_ & om' & E' & _ & Hom). rewrite E in E'. injection E' as <-. destruct (Hom o sid Hin) as (_ & st & Es & _).
    apply nth_error_Some. congruence. }
  assert (Hfind : forall id, find_key Nat.eqb id (storage_map (db_manager (delete_from db' (current_id db)))) =
    if id <? length cat then option_map (filter (fun os : perm * nat => snd os <? len)) (find_key Nat.eqb id (storage_map (db_manager db'))) else None).
  { intros id. unfold delete_from, current_id, delete_tables_from. cbn [db_manager storage_map fst snd]. rewrite I2. fold len.
    rewrite (find_map_nat _ _ id (filter (fun os : perm * nat => snd os <? len))). rewrite find_filter_nat. destruct (id <? length cat); reflexivity. }
  assert (Hrefs : forall id, find_key Nat.eqb id (reference_map (db_manager (delete_from db' (current_id db)))) =
    if id <? length cat then find_key Nat.eqb id (reference_map (db_manager db')) else None).
  { intros id. unfold delete_from, current_id, delete_tables_from. cbn [db_manager reference_map fst snd]. rewrite I2. apply find_filter_nat. }
  assert (Htab : forall sid, sid < len -> nth_error (stored_tables (db_manager (delete_from db' (current_id db)))) sid = nth_error (stored_tables (db_manager db')) sid).
  { intros sid Hs. unfold delete_from, current_id, delete_tables_from. cbn [db_manager stored_tables fst snd]. fold len.
    rewrite <- (firstn_skipn len (stored_tables (db_manager db'))) at 2. rewrite nth_error_app1; [reflexivity|]. rewrite firstn_length. fold len in X1. lia. }
  split; [split; [split|..]|split].
  - intros id n P Ec. assert (Hid : id < length cat) by (apply nth_error_Some; congruence). rewrite Hrefs, Hfind. destruct (Nat.ltb_spec id (length cat)); [|lia].
    destruct (m_direct _ _ J1 id n P (Hcat _ _ Ec)) as (Hr & om & E & _ & Hom). split; [exact Hr|]. rewrite E. cbn [option_map]. eexists. split; [reflexivity|]. split.
    + destruct (m_direct _ _ I1 id n P Ec) as (_ & om0 & E0 & Hne0 & _). destruct om0 as [|[o0 sid0] om0]; [congruence|].
      destruct (X2 id _ o0 sid0 Hid E0 (or_introl eq_refl)) as (om' & E' & Hin). rewrite E in E'. injection E' as <-.
      intros Hnil. assert (Hin' : In (o0, sid0) (filter (fun os : perm * nat => snd os <? len) om)).
      { apply filter_In. split; [exact Hin|]. apply Nat.ltb_lt. cbn. apply (Hsid id n P _ o0 sid0 Ec E0 (or_introl eq_refl)). }
      rewrite Hnil in Hin'. destruct Hin'.
    + intros o sid Hin. apply filter_In in Hin. destruct Hin as [Hin Hlt]. apply Nat.ltb_lt in Hlt. cbn in Hlt. destruct (Hom o sid Hin) as (Hp & st & Es & HS). split; [exact Hp|].
      exists st. rewrite (Htab sid Hlt). auto.
  - intros id n P p Ec. assert (Hid : id < length cat) by (apply nth_error_Some; congruence). rewrite Hrefs. destruct (Nat.ltb_spec id (length cat)); [|lia]. rewrite X3 by exact Hid.
    destruct (m_ref _ _ I1 id n P p Ec) as (id0 & P0 & H1 & _ & H3). exists id0, P0. split; [exact H1|]. split; [|exact H3].
    rewrite Hfind. destruct (Nat.ltb_spec id (length cat)); [|lia]. destruct (m_ref _ _ J1 id n P p (Hcat _ _ Ec)) as (_ & _ & _ & -> & _). reflexivity.
  - intros id Hid. rewrite Hfind. destruct (Nat.ltb_spec id (length cat)); [lia|reflexivity].
  - intros id Hid. rewrite Hrefs. destruct (Nat.ltb_spec id (length cat)); [lia|reflexivity].
  - exact I2.
  - intros id. unfold delete_from, current_id. cbn [db_arities fst]. rewrite I2, find_filter_nat. destruct (Nat.ltb_spec id (length cat)) as [L|L].
    + rewrite J3, nth_error_app1 by exact L. reflexivity.
    + rewrite (proj2 (nth_error_None cat id)) by exact L. reflexivity.
  - unfold delete_from, current_id, delete_tables_from. cbn [db_manager stored_tables fst snd]. rewrite firstn_length. fold len in X1 |- *. lia.
  - intros id om o sid Hid E Hin. destruct (X2 id om o sid Hid E Hin) as (om' & E' & Hin'). rewrite Hfind. destruct (Nat.ltb_spec id (length cat)); [|lia]. rewrite E'. cbn [option_map].
    eexists. split; [reflexivity|]. apply filter_In. split; [exact Hin'|]. apply Nat.ltb_lt. cbn.
    destruct (nth_error cat id) as [[[n P] [p|]]|] eqn:Ec; [|exact (Hsid id n P om o sid Ec E Hin)|apply nth_error_None in Ec; lia].
    (* a reference has no storage *)
    exfalso. destruct (m_ref _ _ I1 id n P p Ec) as (id0 & P0 & _ & Es & _). congruence.
  - intros id Hid. rewrite Hrefs. destruct (Nat.ltb_spec id (length cat)); [|lia]. apply X3, Hid.
Qed.
Lemma later_inv : forall cat0 db0 cat db, later shuffle cat0 db0 cat db -> inv cat0 db0 ->
  inv cat db /\ ext (length cat0) (db_manager db0) (db_manager db) /\ exists more, cat = cat0 ++ more.
Proof.
  induction 1 as [cat0 db0|cat0 db0 cat db cat' db' _ IH HS|cat0 db0 cat db cat' db' _ IH1 _ IH2]; intros HI.
  - split; [exact HI|]. split; [apply ext_refl|]. exists []. rewrite app_nil_r. reflexivity.
  - destruct (IH HI) as (H1 & H2 & more & ->). destruct (step_inv _ _ _ _ H1 HS) as (H3 & H4 & more' & ->). split; [exact H3|].
    split; [refine (ext_trans _ _ _ _ _ _ H2 H4); rewrite app_length; lia|]. exists (more ++ more'). symmetry. apply app_assoc.
  - destruct (IH1 HI) as (H1 & H2 & more & ->). destruct (IH2 H1) as (H3 & H4 & more' & ->). destruct (delete_inv _ _ _ _ H1 H3 H4) as [H5 H6]. split; [exact H5|].
    split; [refine (ext_trans _ _ _ _ _ _ H2 H6); rewrite app_length; lia|]. exists more. reflexivity.
Qed.
Lemma empty_inv : inv [] database_default.
Proof. split; [split|..]; cbn; try reflexivity; intros []; cbn; try discriminate; reflexivity. Qed.
End Read.
