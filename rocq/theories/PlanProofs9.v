(* Plans that are built, loading the tables of a plan, and registering its results. *)
From Coq Require Import List ZArith Bool Lia Arith Permutation Sorted Wf_nat.
From Verif Require Import ColumnModel ScanModel ScanSpec TrieModel TrieSpec TrieScanSpec TrieProofs3 OpModel OpSpec OpProofs3 OpProofs8 ProjModel ProjSpec ProjProofs1 ProjProofs2 ProjProofs3 ProjProofs4 ProjProofs5 StoreModel StoreSpec StoreProofs1 StoreProofs2 StoreProofs3 StoreProps PlanModel PlanSpec PlanProofs1 PlanProofs2 PlanProofs3 PlanProofs5.
From Verif Require PermModel PermProps PermProofs.
Import ListNotations.
Local Open Scope nat_scope.

(* ---------- plans ---------- *)
Record binv (pl : plan) : Prop := {
  b_distinct : NoDup (map on_node (pl_outs pl));
  b_range : forall nd, In nd (map on_node (pl_outs pl)) -> nd < length (pl_nodes pl);
  b_subs : forall i n s, nth_error (pl_nodes pl) i = Some n -> In s (subnodes (nd_op n)) -> s < length (pl_nodes pl);
  b_projects : forall i s ms, nth_error (pl_nodes pl) i = Some (mk_node (PProject s) ms) -> In i (map on_node (pl_outs pl));
  b_required : forall on s ms, In on (pl_outs pl) -> nth_error (pl_nodes pl) (on_node on) = Some (mk_node (PProject s) ms) -> on_required on = false }.
Lemma upgrade_nodes : forall outs nd res, map on_node (upgrade_out outs nd res) = map on_node outs.
Proof. induction outs as [|on outs IH]; intros nd res; [reflexivity|]. cbn. destruct (on_node on =? nd); cbn; [destruct res; reflexivity|rewrite IH; reflexivity]. Qed.
Lemma upgrade_in : forall outs nd res on, In on (upgrade_out outs nd res) -> exists on', In on' outs /\ on_node on' = on_node on /\ on_required on' = on_required on.
Proof.
  induction outs as [|x outs IH]; intros nd res on H; [destruct H|]. cbn in H. destruct (on_node x =? nd).
  - destruct H as [<-|H]; [|exists on; split; [right; exact H|auto]]. exists x. split; [left; reflexivity|]. destruct res; auto.
  - destruct H as [<-|H]; [exists x; split; [left; reflexivity|auto]|]. destruct (IH nd res on H) as (on' & H1 & H2). exists on'. split; [right; exact H1|exact H2].
Qed.
Lemma push_node_inv : forall pl op ms, binv pl -> (forall s, In s (subnodes op) -> s < length (pl_nodes pl)) -> (forall s, op <> PProject s) -> binv (fst (push_node pl op ms)).
Proof.
  intros pl op ms [H1 H2 H3 H4 H5] Hs Hp. split; cbn [push_node fst pl_nodes pl_outs].
  - exact H1.
  - intros nd Hnd. rewrite app_length. specialize (H2 nd Hnd). lia.
  - intros i n s E Hin. rewrite app_length. apply nth_snoc in E. destruct E as [[_ E]|[_ ->]]; [specialize (H3 i n s E Hin)|specialize (Hs s Hin)]; lia.
  - intros i s ms' E. apply nth_snoc in E. destruct E as [[_ E]|[_ E]]; [apply (H4 i s ms' E)|]. injection E as E _. exfalso. apply (Hp s). congruence.
  - intros on s ms' Hin E. apply nth_snoc in E. destruct E as [[_ E]|[_ E]]; [apply (H5 on s ms' Hin E)|]. injection E as E _. exfalso. apply (Hp s). congruence.
Qed.
Lemma push_out_inv : forall pl nd res rq, binv pl -> nd < length (pl_nodes pl) -> binv (push_out_node pl nd res rq).
Proof.
  intros pl nd res rq [H1 H2 H3 H4 H5] Hnd. unfold push_out_node. destruct (find_out (pl_outs pl) nd) as [on|] eqn:E; split; cbn [pl_nodes pl_outs]; rewrite ?upgrade_nodes; try assumption.
  - intros on' s ms Hin Es. apply upgrade_in in Hin. destruct Hin as (on0 & Hin & En & <-). rewrite <- En in Es. apply (H5 on0 s ms Hin Es).
  - rewrite map_app. apply (Permutation_NoDup (Permutation_app_comm [nd] _)). cbn. constructor; [|exact H1].
    intros Hin. apply in_map_iff in Hin. destruct Hin as (on & En & Hin). apply (find_out_none pl nd E). exists on. auto.
  - intros x Hx. rewrite map_app in Hx. apply in_app_or in Hx. destruct Hx as [Hx|[<-|[]]]; [apply H2, Hx|exact Hnd].
  - intros i s ms Ei. rewrite map_app. apply in_or_app. left. apply (H4 i s ms Ei).
  - intros on s ms Hin Es. apply in_app_or in Hin. destruct Hin as [Hin|[<-|[]]]; [apply (H5 on s ms Hin Es)|]. cbn [on_node on_required] in *. exfalso.
    specialize (H4 nd s ms Es). apply in_map_iff in H4. destruct H4 as (on & En & Hin). apply (find_out_none pl nd E). exists on. auto.
Qed.
Lemma set_node_inv : forall pl nd n n' pl', binv pl -> nth_error (pl_nodes pl) nd = Some n -> set_node pl nd n' = Ok pl' ->
  (forall s, In s (subnodes (nd_op n')) -> s < length (pl_nodes pl)) -> (forall s, nd_op n' = PProject s <-> nd_op n = PProject s) -> binv pl'.
Proof.
  intros pl nd n n' pl' [H1 H2 H3 H4 H5] En E Hs Hp. unfold set_node in E. destruct (PermProofs.set_nth_some _ (pl_nodes pl) nd n') as (ns & Es & Hl & Hn); [apply nth_error_Some; congruence|].
  rewrite Es in E. cbn [must bind] in E. injection E as <-.
  assert (Hpr : forall i s ms, nth_error ns i = Some (mk_node (PProject s) ms) -> exists ms', nth_error (pl_nodes pl) i = Some (mk_node (PProject s) ms')).
  { intros i s ms Ei. rewrite Hn in Ei. destruct (Nat.eqb_spec i nd) as [->|N]; [|eauto]. injection Ei as ->. destruct n as [op ms0]. cbn in Hp. assert (op = PProject s) by (apply Hp; reflexivity). subst op. eauto. }
  split; cbn [pl_nodes pl_outs]; rewrite ?Hl; try assumption.
  - intros i m s Ei Hin. rewrite Hn in Ei. destruct (i =? nd); [injection Ei as <-; apply Hs, Hin|apply (H3 i m s Ei Hin)].
  - intros i s ms Ei. destruct (Hpr i s ms Ei) as (ms' & E'). apply (H4 i s ms' E').
  - intros on s ms Hin Ei. destruct (Hpr _ s ms Ei) as (ms' & E'). apply (H5 on s ms' Hin E').
Qed.
Lemma markers_range : forall pl nd ms, node_markers pl nd = Ok ms -> nd < length (pl_nodes pl).
Proof. intros pl nd ms H. unfold node_markers, index in H. apply nth_error_Some. destruct (nth_error (pl_nodes pl) nd); [discriminate|cbn in H; discriminate]. Qed.
Lemma all_markers_range : forall pl subs mss, map_res (node_markers pl) subs = Ok mss -> forall s, In s subs -> s < length (pl_nodes pl).
Proof. intros pl subs mss H s Hs. apply map_res_inv in H. destruct (Forall2_in_l _ _ _ _ _ _ H Hs) as (ms & _ & E). eapply markers_range, E. Qed.
Lemma built_inv : forall pl, built_plan pl -> binv pl.
Proof.
  intros pl H. induction H as [|pl ms id o _ IH|pl ms subs _ IH Hs|pl ms subs pl' nd _ IH E|pl main subs pl' nd _ IH Hs E|pl ms sub pl' nd _ IH E|pl sub ms _ IH Hs|pl nd sub pl' _ IH Hs E|pl nd ms pl' _ IH E|pl nd _ IH Hn|pl nd _ IH Hn|pl nd o _ IH Hn].
  - split; cbn.
    + constructor.
    + intros nd [].
    + intros [|i] n s E; discriminate.
    + intros [|i] s ms E; discriminate.
    + intros on s ms [].
  - apply push_node_inv; [exact IH|intros s []|discriminate].
  - apply push_node_inv; [exact IH|exact Hs|discriminate].
  - unfold union in E. destruct (map_res (node_markers pl) subs) as [mss| |] eqn:Em; try discriminate. cbn [bind] in E. destruct (forallb _ mss); [|discriminate]. injection E as <- _.
    apply (push_node_inv pl (PUnion subs) ms IH); [apply (all_markers_range _ _ _ Em)|discriminate].
  - unfold subtract in E. destruct (node_markers pl main) as [ms| |] eqn:Em; try discriminate. cbn [bind] in E. injection E as <- _.
    apply (push_node_inv pl (PSubtract main subs) ms IH); [intros s [<-|Hs']; [eapply markers_range, Em|apply Hs, Hs']|discriminate].
  - unfold projectreorder in E. destruct (node_markers pl sub) as [sms| |] eqn:Em; try discriminate. cbn [bind] in E. match type of E with (if ?b then _ else _) = _ => destruct b end; [|discriminate]. cbn [push_node] in E. injection E as <- _.
    pose proof (markers_range _ _ _ Em) as Hr. destruct IH as [H1 H2 H3 H4 H5]. unfold write_temporary, push_out_node. cbn [pl_outs pl_nodes].
    assert (Efo : find_out (pl_outs pl) (length (pl_nodes pl)) = None).
    { destruct (find_out (pl_outs pl) (length (pl_nodes pl))) as [on|] eqn:Ef; [|reflexivity]. exfalso. apply find_out_spec in Ef. destruct Ef as [Hin En].
      assert (on_node on < length (pl_nodes pl)) by (apply H2, List.in_map, Hin). lia. }
    rewrite Efo. split; cbn [pl_outs pl_nodes].
    + rewrite map_app. apply (Permutation_NoDup (Permutation_app_comm [length (pl_nodes pl)] _)). cbn. constructor; [|exact H1]. intros Hin. specialize (H2 _ Hin). lia.
    + intros nd' Hx. rewrite map_app in Hx. rewrite app_length. cbn [length]. apply in_app_or in Hx. destruct Hx as [Hx|[<-|[]]]; [specialize (H2 nd' Hx); lia|cbn; lia].
    + intros i n s Ei Hin. rewrite app_length. cbn [length]. apply nth_snoc in Ei. destruct Ei as [[_ Ei]|[_ ->]]; [specialize (H3 i n s Ei Hin); lia|]. destruct Hin as [<-|[]]. lia.
    + intros i s ms' Ei. rewrite map_app. apply in_or_app. apply nth_snoc in Ei. destruct Ei as [[_ Ei]|[-> _]]; [left; apply (H4 i s ms' Ei)|right; left; reflexivity].
    + intros on s ms' Hin Ei. apply in_app_or in Hin. destruct Hin as [Hin|[<-|[]]]; [|reflexivity]. apply nth_snoc in Ei. destruct Ei as [[_ Ei]|[Ei _]]; [apply (H5 on s ms' Hin Ei)|].
      exfalso. assert (on_node on < length (pl_nodes pl)) by (apply H2, List.in_map, Hin). lia.
  - apply push_node_inv; [exact IH|intros s [<-|[]]; exact Hs|discriminate].
  - unfold add_subnode in E. destruct (index (pl_nodes pl) nd) as [n| |] eqn:Ei; try discriminate. cbn [bind] in E. assert (En : nth_error (pl_nodes pl) nd = Some n) by (unfold index in Ei; destruct (nth_error (pl_nodes pl) nd); congruence).
    destruct n as [op ms]. cbn [nd_op nd_markers] in E. destruct op as [id o|subs|subs|m subs|s|s]; try discriminate.
    + eapply set_node_inv; [exact IH|exact En|exact E| |cbn; split; discriminate]. cbn [nd_op subnodes]. intros s Hin. apply in_app_or in Hin. destruct Hin as [Hin|[<-|[]]]; [|exact Hs]. apply (b_subs pl IH nd _ s En). exact Hin.
    + destruct (map_res (node_markers pl) subs) as [mss| |]; try discriminate. cbn [bind] in E. destruct (node_markers pl sub) as [ms1| |]; try discriminate. cbn [bind] in E. destruct (forallb _ mss); [|discriminate].
      eapply set_node_inv; [exact IH|exact En|exact E| |cbn; split; discriminate]. cbn [nd_op subnodes]. intros s Hin. apply in_app_or in Hin. destruct Hin as [Hin|[<-|[]]]; [|exact Hs]. apply (b_subs pl IH nd _ s En). exact Hin.
  - unfold set_markers in E. destruct (index (pl_nodes pl) nd) as [n| |] eqn:Ei; try discriminate. cbn [bind] in E. assert (En : nth_error (pl_nodes pl) nd = Some n) by (unfold index in Ei; destruct (nth_error (pl_nodes pl) nd); congruence).
    eapply set_node_inv; [exact IH|exact En|exact E| |cbn; intros s; split; auto]. cbn [nd_op]. intros s Hin. apply (b_subs pl IH nd n s En Hin).
  - apply push_out_inv; assumption.
  - apply push_out_inv; assumption.
  - apply push_out_inv; assumption.
Qed.
Lemma find_distinct : forall outs on, NoDup (map on_node outs) -> In on outs -> find_out outs (on_node on) = Some on.
Proof.
  induction outs as [|x outs IH]; intros on Hn Hin; [destruct Hin|]. cbn [map] in Hn. inversion Hn as [|? ? N Hn']; subst. unfold find_out. cbn [find]. destruct Hin as [->|Hin]; [rewrite Nat.eqb_refl; reflexivity|].
  destruct (Nat.eqb_spec (on_node x) (on_node on)) as [E|_]; [exfalso; apply N; rewrite E; apply List.in_map, Hin|]. apply IH; assumption.
Qed.
Theorem built_outs : forall pl, built_plan pl -> outs_ok pl.
Proof.
  intros pl H. apply built_inv in H. destruct H as [H1 H2 H3 H4 H5]. split.
  - intros on Hin. apply find_distinct; assumption.
  - intros on Hin. apply H2, List.in_map, Hin.
  - intros nd s (op & ms & Hn & Hs). apply (H3 nd _ s Hn Hs).
  - intros nd (s & ms & Hn). specialize (H4 nd s ms Hn). apply in_map_iff in H4. destruct H4 as (on & E & Hin). exists on. auto.
  - intros on Hin (s & ms & Hn). apply (H5 on s ms Hin Hn).
Qed.

(* ---------- loading ---------- *)
Section Load.
Variable shuffle : list perm -> list perm.
Hypothesis SH : shuffles shuffle.

Definition keeps (m m' : manager) : Prop := forall sid tr, stored_trie m sid = Ok tr -> stored_trie m' sid = Ok tr.
Lemma load_keeps : forall m sid m' o, load m sid = Ok (m', o) -> keeps m m' /\ storage_map m' = storage_map m /\ reference_map m' = reference_map m /\ length (stored_tables m') = length (stored_tables m).
Proof.
  intros m sid m' o E. unfold load in E. unfold index in E. destruct (nth_error (stored_tables m) sid) as [st|] eqn:Es; [|discriminate]. cbn [bind] in E.
  destruct (storage_trie st) as [[st' o']| |] eqn:Et; try discriminate. cbn [bind fst snd] in E. unfold set_storage in E.
  destruct (set_nth_spec (stored_tables m) sid st') as (l & El & Hl & Hn); [apply nth_error_Some; congruence|]. rewrite El in E. cbn [must bind] in E. injection E as <- <-. split; [|cbn; auto].
  intros j tr Hj. unfold stored_trie, index in *. cbn [stored_tables]. rewrite Hn. destruct (Nat.eqb_spec j sid) as [->|N]; [|exact Hj]. rewrite Es in Hj. cbn [bind] in Hj |- *.
  destruct st as [|srcs|tr0]; cbn in Hj; try discriminate. cbn in Et. injection Et as <- <-. exact Hj.
Qed.
Lemma trie_id_keeps : forall cat m id n P o fuel m' x, minv cat m -> nth_error cat id = Some (n, P, None) -> trie_id shuffle fuel m id o = Ok (m', x) -> keeps m m'.
Proof.
  intros cat m id n P o fuel m' x HI Hc E. destruct (m_direct cat m HI id n P Hc) as (Hr & om & Hom & _ & _). unfold trie_id in E. unfold resolve_reference in E. rewrite Hr in E. cbn [bind fst snd] in E. rewrite Hom in E.
  destruct (find_order o om) as [sid|] eqn:Ef.
  - destruct (load m sid) as [[m1 o1]| |] eqn:El; try discriminate. cbn [bind fst snd] in E. injection E as <- <-. apply (load_keeps _ _ _ _ El).
  - destruct (closest_order _ o) as [cl|]; [|discriminate]. cbn [must bind] in E. destruct (find_order cl om) as [sid|]; [|discriminate]. cbn [must bind] in E.
    destruct (index (stored_tables m) sid) as [st| |]; try discriminate. cbn [bind] in E. destruct (storage_arity st) as [k| |]; try discriminate. cbn [bind] in E.
    destruct (from_reordering cl o k) as [p| |]; try discriminate. cbn [bind] in E. destruct (load m sid) as [[m1 o1]| |] eqn:El; try discriminate. cbn [bind fst snd] in E.
    destruct (load_keeps _ _ _ _ El) as (K1 & K2 & K3 & K4). destruct o1 as [tr|]; [|injection E as <- <-; exact K1].
    destruct (PermModel.choice_is_identity (pj_choice p)); [injection E as <- <-; exact K1|].
    destruct (apply_operation generic fuel p (partial_iterator tr)) as [tr'| |]; try discriminate. cbn [bind] in E. unfold add_trie in E.
    rewrite (add_storage_new m1 id o (InMemory tr')) in E; [|rewrite K3; exact Hr|rewrite K2, Hom; intros om' K; injection K as <-; exact Ef]. cbn [bind fst snd] in E. injection E as <- <-.
    intros j t Hj. apply K1 in Hj. unfold stored_trie, index in *. unfold added. cbn [stored_tables]. destruct (nth_error (stored_tables m1) j) as [st1|] eqn:Ej; [|discriminate]. rewrite (nth_tables _ _ _ _ Ej). exact Hj.
Qed.
Lemma collect_ok : forall cat tables db, history shuffle cat db -> (forall id o, In (id, o) tables -> exists n P, nth_error cat id = Some (n, P, None) /\ permutes n o) ->
  exists enough m' loaded, (forall fuel, enough <= fuel -> collect_tries shuffle fuel (db_manager db) tables = Ok (m', Some loaded)) /\
    history shuffle cat (with_manager db m') /\ keeps (db_manager db) m' /\
    forall i id o n P, nth_error tables i = Some (id, o) -> nth_error cat id = Some (n, P, None) ->
      exists sid tr, nth_error loaded i = Some sid /\ stored_trie m' sid = Ok tr /\ good_trie n (rearranged n o P) tr.
Proof.
  intros cat. induction tables as [|[id o] tables IH]; intros db HH Ht.
  { exists 0, (db_manager db), []. split; [reflexivity|]. split; [destruct db; exact HH|]. split; [intros sid tr H; exact H|intros [|i] id o n P E; discriminate]. }
  destruct (Ht id o (or_introl eq_refl)) as (n & P & Hc & Hp). pose proof (history_inv shuffle cat db SH HH) as HI.
  assert (Han : answered n o None) by (split; [exact Hp|intros p K; discriminate]).
  destruct (trie_id_read shuffle SH cat (db_manager db) id n P None o (i_manager _ _ HI) Hc Han) as (en & m1 & sid & tr & E1 & Est & Hg & _).
  assert (HH1 : history shuffle cat (with_manager db m1)).
  { eapply l_step; [exact HH|]. eapply (s_read shuffle cat db id o n P None en (with_manager db m1) (Some tr) Hc Han). intros fuel Hf. unfold table_trie. rewrite (E1 fuel Hf). cbn [bind fst snd]. rewrite Est. reflexivity. }
  assert (K1 : keeps (db_manager db) m1) by (apply (trie_id_keeps cat (db_manager db) id n P o en m1 (Some sid) (i_manager _ _ HI) Hc (E1 en (le_n en)))).
  destruct (IH (with_manager db m1) HH1) as (en2 & m2 & loaded & E2 & HH2 & K2 & HL); [intros id' o' Hin; apply Ht; right; exact Hin|]. cbn [with_manager db_manager] in E2, K2.
  exists (max en en2), m2, (sid :: loaded). split; [|split; [exact HH2|split]].
  - intros fuel Hf. cbn [collect_tries]. rewrite E1 by lia. cbn [bind fst snd]. rewrite E2 by lia. reflexivity.
  - intros j t Hj. apply K2, K1, Hj.
  - intros [|i] id' o' n' P' Ei Hc'; cbn [nth_error] in *; [|apply (HL i id' o' n' P' Ei Hc')]. injection Ei as <- <-. rewrite Hc in Hc'. injection Hc' as <- <-. exists sid, tr. split; [reflexivity|]. split; [apply K2, Est|exact Hg].
Qed.

(* ---------- registering ---------- *)
Lemma holds_exists : forall n P tr, holds n P tr -> trie_is_empty tr = false -> exists r, length r = n /\ P r.
Proof.
  intros n P tr H E. pose proof H as (H1 & _). unfold leaf in H1. unfold trie_is_empty in E. rewrite E in H1. destruct n as [|n].
  - exists []. split; [reflexivity|]. destruct H1 as (types & tau & _ & K). apply K; [reflexivity|exact I].
  - destruct (collect_reads (S n) P generic true _ 0 (Nat.lt_0_succ n) H1) as (en & out & _ & [_ T2] & _). destruct (map fst out) as [|r rs] eqn:Eo.
    + exfalso. assert (K : trie_is_empty tr = true); [|unfold trie_is_empty in K; congruence]. apply (holds_rows (S n) P tr H). intros r Hr HP. destruct (T2 r) as [_ K]. apply K. split; [lia|]. exists []. rewrite app_nil_r. auto.
    + exists r. destruct (proj1 (T2 r) (or_introl eq_refl)) as (Hl & q & Hq & HP). apply length_zero_iff_nil in Hq. subst q. rewrite app_nil_r in HP. split; [lia|exact HP].
Qed.
Lemma holds_registers : forall n P tr, holds n P tr -> trie_is_empty tr = false -> good_trie n P tr.
Proof.
  intros n P tr H E. destruct (holds_exists n P tr H E) as (r & Hr & HP). pose proof H as (H1 & H2 & _). unfold leaf in H1. unfold trie_is_empty in E. rewrite E in H1. split; [|split; [exact H|]].
  - destruct H1 as (types & tau & (_ & R & Hs & HR) & _). apply (e_arity _ _ _ _ _ _ Hs _ _ HR).
  - intros Hn. split; [apply H2; [exact Hn|exists r; auto]|exact H1].
Qed.

Section Register.
Variable pl : plan.
Variable A : nat -> nat.
Variable M : nat -> row -> Prop.
Hypothesis OO : outs_ok pl.
Definition found_ok (k : nat) (cat : catalog) (found : list (nat * nat)) : Prop := forall nd id, find_key Nat.eqb nd found = Some id ->
  exists o, permanent pl nd o /\ ~ without_rows A M nd /\ k <= id /\ nth_error cat id = Some (A nd, arranged_as (A nd) o (M nd), None).
Lemma register_ok : forall k results cat db found, history shuffle cat db -> k <= length cat -> found_ok k cat found ->
  (forall o nd tr, In (Permanent o, nd, tr) results -> permanent pl nd o /\ permutes (A nd) o /\ exists t, tr = Some t /\ holds (A nd) (M nd) t) ->
  exists db' found' cat', register_results db results found = Ok (db', found') /\ history shuffle (cat ++ cat') db' /\ found_ok k (cat ++ cat') found' /\
    (forall nd, find_key Nat.eqb nd found <> None -> find_key Nat.eqb nd found' <> None) /\
    (forall o nd tr, In (Permanent o, nd, tr) results -> ~ without_rows A M nd -> find_key Nat.eqb nd found' <> None).
Proof.
  intros k. induction results as [|[[res nd] tr] results IH]; intros cat db found HH Hk Hf Hr.
  { exists db, found, []. rewrite app_nil_r. split; [reflexivity|]. split; [exact HH|]. split; [exact Hf|]. split; [auto|intros o nd tr []]. }
  assert (Hr' : forall o nd tr, In (Permanent o, nd, tr) results -> permanent pl nd o /\ permutes (A nd) o /\ exists t, tr = Some t /\ holds (A nd) (M nd) t) by (intros o nd' tr' Hin; apply Hr; right; exact Hin).
  destruct res as [|o].
  { destruct (IH cat db found HH Hk Hf Hr') as (db' & found' & cat' & E & H1 & H2 & H3 & H4). exists db', found', cat'. split; [exact E|]. split; [exact H1|]. split; [exact H2|]. split; [exact H3|].
    intros o nd' tr' [K|K]; [discriminate|apply (H4 o nd' tr' K)]. }
  destruct (Hr o nd tr (or_introl eq_refl)) as (Hp & Ho & t & -> & Ht). cbn [register_results must bind]. destruct (trie_is_empty t) eqn:Et.
  { destruct (IH cat db found HH Hk Hf Hr') as (db' & found' & cat' & E & H1 & H2 & H3 & H4). exists db', found', cat'. split; [exact E|]. split; [exact H1|]. split; [exact H2|]. split; [exact H3|].
    intros o' nd' tr' [K|K]; [|apply (H4 o' nd' tr' K)]. injection K as <- <- <-. intros N. exfalso. apply N. intros r. apply (proj1 (holds_rows _ _ _ Ht) Et). }
  destruct (proj1 (C39_register shuffle cat db SH HH) (A nd) (M nd) o t (holds_registers _ _ _ Ht Et) Ho) as (db1 & E1 & HH1). rewrite E1. cbn [bind fst snd].
  destruct (IH (cat ++ [(A nd, arranged_as (A nd) o (M nd), None)]) db1 (put_key Nat.eqb nd (length cat) found) HH1) as (db' & found' & cat' & E & H1 & H2 & H3 & H4).
  - rewrite app_length. lia.
  - intros x id Hx. rewrite find_put_nat in Hx. destruct (Nat.eqb_spec x nd) as [->|N].
    + injection Hx as <-. exists o. split; [exact Hp|]. split; [|split; [exact Hk|rewrite nth_error_app2, Nat.sub_diag by lia; reflexivity]].
      intros N. destruct (holds_exists _ _ _ Ht Et) as (r & Hl & HP). apply (N r Hl HP).
    + destruct (Hf x id Hx) as (o' & K1 & K2 & K3 & K4). exists o'. split; [exact K1|]. split; [exact K2|]. split; [exact K3|]. rewrite nth_error_app1; [exact K4|]. apply nth_error_Some. congruence.
  - exact Hr'.
  - rewrite <- app_assoc in H1, H2. eexists db', found', _. split; [exact E|]. split; [exact H1|]. split; [exact H2|]. split.
    + intros x Hx. apply H3. rewrite find_put_nat. destruct (x =? nd); [discriminate|exact Hx].
    + intros o' nd' tr' [K|K] N; [|apply (H4 o' nd' tr' K N)]. injection K as <- <- <-. apply H3. rewrite find_put_nat, Nat.eqb_refl. discriminate.
Qed.
End Register.
End Load.
