(* From plans to series: the trees of the outputs. *)
From Coq Require Import List ZArith Bool Lia Arith Permutation Sorted Wf_nat.
From Verif Require Import ColumnModel ScanModel ScanSpec TrieModel TrieSpec TrieScanSpec TrieProofs3 OpModel OpSpec OpProofs3 ProjModel ProjSpec ProjProofs1 ProjProofs2 ProjProofs3 ProjProofs4 ProjProofs5 StoreModel StoreSpec StoreProofs1 StoreProofs2 PlanModel PlanSpec PlanProofs1 PlanProofs2 PlanProofs3 PlanProofs5 PlanProofs6.
From Verif Require PermModel PermProps PermProofs.
Import ListNotations.
Local Open Scope nat_scope.

Section Trees.
Variable cat : catalog.
Variable pl : plan.
Variable A : nat -> nat.
Variable M : nat -> row -> Prop.
Hypothesis OO : outs_ok pl.
Hypothesis SP : sound_plan cat pl A.
Hypothesis ME : means cat pl A M.
Variable rank : nat -> nat.
Hypothesis RK : forall nd s, sub_of pl nd s -> rank s < rank nd.

Notation pinv := (pinv cat pl A M).
Notation grows := (grows rank).
Notation rows_of := (rows_of A M).
Notation arr nd order := (rearranged (A nd) order (M nd)).
Notation node_ok := (node_ok cat pl A M rank).

Record tree_res (st : pstate) (G : list (nat * perm)) (due : list nat) (nd root : nat) (order : perm) (st' : pstate) (c : nat) (G' : list (nat * perm)) (R' : list nat) : Prop := {
  tr_inv : pinv st' G' R' (due ++ [c]);
  tr_grows : forall root', nd <> root' -> grows nd root' st G st' G';
  tr_entry : exists o', nth_error G' c = Some (nd, o') /\ forall i, PermModel.get o' i = PermModel.get order i;
  tr_root : exists e, nth_error (ps_trees st') c = Some e /\ In root (snd e);
  tr_map : in_map st' nd }.

Lemma finished_grows : forall nd root root' st0 G0 st G rt order on, grows nd nd st0 G0 st G -> nd <> root' -> length G = length (ps_trees st) ->
  grows nd root' st0 G0 (finished pl st root rt nd order on) (G ++ [(nd, order)]).
Proof.
  intros nd root root' st0 G0 st G rt order on H Hn HL. split.
  - destruct (g_trees _ _ _ _ _ _ _ H) as (more & -> & K). exists (more ++ [(nd, order)]). split; [symmetry; apply app_assoc|]. intros g Hg. apply in_app_or in Hg. destruct Hg as [Hg|[<-|[]]]; [|right; auto].
    destruct (K g Hg) as [K1|[_ K1]]; [left; exact K1|congruence].
  - apply (g_loaded _ _ _ _ _ _ _ H).
  - intros c e E. destruct (g_roots _ _ _ _ _ _ _ H c e E) as (e' & E' & K). exists e'. split; [|exact K]. cbn [finished ps_trees]. rewrite nth_error_app1; [exact E'|]. apply nth_error_Some. congruence.
  - intros x Hx. apply in_map_finished. right. apply (g_map _ _ _ _ _ _ _ H), Hx.
Qed.
Lemma snoc_last : forall X (l : list X) x, nth_error (l ++ [x]) (length l) = Some x.
Proof. intros X l x. rewrite nth_error_app2, Nat.sub_diag by lia. reflexivity. Qed.
Lemma finished_entry : forall st root rt nd order on, exists e, nth_error (ps_trees (finished pl st root rt nd order on)) (length (ps_trees st)) = Some e /\ In root (snd e).
Proof. intros. exists (new_tree rt nd order on, columns pl nd, [root]). split; [apply snoc_last|left; reflexivity]. Qed.

(* there is a tree already *)
Lemma tree_again : forall nd root order st G R due on tables, find_out (pl_outs pl) nd = Some on -> nd < length (pl_nodes pl) -> wanted pl nd order -> permutes (A nd) order -> output pl root -> within pl root nd ->
  pinv st G R due -> find_key Nat.eqb nd (ps_map st) = Some tables -> exists st' c G' R',
    (forall fuel, execution_tree (S fuel) pl root on order st = Ok (st', c)) /\ tree_res st G due nd root order st' c G' R'.
Proof.
  intros nd root order st G R due on tables Hon Hlt Hwa Hpe Hro Hwi HI Hf. destruct HI as [HS HD].
  pose proof (s_map _ _ _ _ _ _ HS nd) as Hm. rewrite Hf in Hm. destruct Hm as (oc & c & -> & Ec).
  assert (Hec : exists e, nth_error (ps_trees st) c = Some e). { destruct (nth_error (ps_trees st) c) as [e|] eqn:E; [eauto|]. apply nth_error_None in E. rewrite <- (s_length _ _ _ _ _ _ HS) in E. apply nth_error_None in E. congruence. }
  destruct Hec as (e & Ee). pose proof (s_tree _ _ _ _ _ _ HS c e (nd, oc) Ee Ec) as HT.
  pose proof (to_wanted _ _ _ _ _ _ _ _ _ HT) as Hwc. pose proof (to_permutes _ _ _ _ _ _ _ _ _ HT) as Hpc. cbn [fst snd] in Hwc, Hpc.
  assert (Hout : output pl nd) by (apply find_out_spec in Hon; exists on; exact Hon). destruct (find_out_spec _ _ _ Hon) as [Hin Enode].
  destruct (use_ok cat pl A M st G R due c e root (nd, oc)) as (trees & Eu & [HS1 HD1] & Hr & Hg); [split; assumption|exact Ee|exact Ec|exact Hro|exact Hwi|].
  destruct (node_of pl nd Hlt) as (op & ms & Hn). destruct (markers_of pl nd op ms Hn) as [Emk Ecol].
  assert (Hfit : permutes (length ms) oc /\ permutes (length ms) order /\ (length ms = A nd \/ forall i, PermModel.get oc i = PermModel.get order i)).
  { destruct (sp_typed _ _ _ SP nd op ms Hn) as [[->|Hl] _]; [|rewrite Hl; auto].
    pose proof (sp_unnamed _ _ _ SP nd oc Hout Hwc Ecol) as I1. pose proof (sp_unnamed _ _ _ SP nd order Hout Hwa Ecol) as I2.
    split; [apply identical_permutes; [apply Hpc|exact I1]|]. split; [apply identical_permutes; [apply Hpe|exact I2]|]. right. intros i. rewrite I1, I2. reflexivity. }
  destruct Hfit as (F1 & F2 & F3). destruct (reorder_rows oc order (length ms) F1 F2) as (v & p & Ep & HP & Hlv & Hb & Hrows & Hid).
  set (st1 := mk_pstate trees (ps_map st) (ps_loaded st)) in *.
  assert (Hg1 : forall root', grows nd root' st G st1 G).
  { intros root'. split; [exists []; rewrite app_nil_r; split; [reflexivity|intros g []]|exists []; rewrite app_nil_r; reflexivity|exact Hg|auto]. }
  destruct (PermModel.choice_is_identity (pj_choice p)) eqn:Eid.
  - exists st1, c, G, R. split; [|split].
    + intros fuel. cbn [execution_tree]. rewrite Enode, Emk. cbn [bind]. rewrite Hf. cbn [closest_entry fold_left must bind fst snd]. rewrite Ep. cbn [bind]. rewrite Eu. cbn [bind]. rewrite Eid. reflexivity.
    + split; assumption.
    + intros root' _. apply Hg1.
    + exists oc. split; [exact Ec|]. apply Hid. reflexivity.
    + exact Hr.
    + unfold in_map. cbn [st1 ps_map]. rewrite Hf. discriminate.
  - assert (Hdiff : exists o', wanted pl nd o' /\ ~ identical o').
    { destruct (PermModel.is_identity oc) eqn:I1.
      - exists order. split; [exact Hwa|]. intros I2. assert (false = true); [|discriminate]. apply Hid. intros i. rewrite I2. apply PermProps.C16_is_identity, I1.
      - exists oc. split; [exact Hwc|]. intros I2. apply PermProps.C16_is_identity in I2. congruence. }
    assert (Hl : length ms = A nd) by (destruct F3 as [F3|F3]; [exact F3|]; apply Hid in F3; discriminate). rewrite Hl in *.
    set (rt := RProject p (TComputed c)).
    assert (HS2 : static cat pl A M (finished pl st1 root rt nd order on) (G ++ [(nd, order)])).
    { apply append_static; try assumption.
      - apply (rc_project cat _ _ p (TComputed c) (A nd) (arr nd oc) v).
        + eapply c_computed; [|apply same_refl]. rewrite nth_error_map, Ec. reflexivity.
        + exact HP.
        + exact Hb.
        + exact Hlv.
        + apply same_sym, Hrows.
      - intros p' o' K. injection K as <- <-. split; [right; exact Hdiff|]. rewrite Eid. discriminate.
      - intros Hpr. exfalso. destruct Hdiff as (o' & Hw' & Hn'). apply Hn'. apply (sp_orders _ _ _ SP nd o' Hpr Hw').
      - intros y Hy Hoy _. apply (s_closed _ _ _ _ _ _ HS1 nd y); try assumption. unfold in_map. cbn [st1 ps_map]. rewrite Hf. discriminate. }
    exists (finished pl st1 root rt nd order on), (length trees), (G ++ [(nd, order)]), (R ++ [c]). split; [|split].
    + intros fuel. cbn [execution_tree]. rewrite Enode, Emk. cbn [bind]. rewrite Hf. cbn [closest_entry fold_left must bind fst snd]. rewrite Hl, Ep. cbn [bind]. rewrite Eu. cbn [bind]. rewrite Eid. rewrite <- Ecol. reflexivity.
    + split; [exact HS2|]. cbn [finished ps_trees st1]. apply (append_dynamic pl A M trees G R due rt nd order on root); [apply (s_length _ _ _ _ _ _ HS1)|exact HD1].
    + intros root' Hn'. apply finished_grows; [apply Hg1|exact Hn'|apply (s_length _ _ _ _ _ _ HS1)].
    + exists order. split; [|reflexivity]. replace (length trees) with (length G) by apply (s_length _ _ _ _ _ _ HS1). apply snoc_last.
    + exact (finished_entry st1 root rt nd order on).
    + apply in_map_finished. left. reflexivity.
Qed.

(* there is no tree yet *)
Definition node_root_ok (nd : nat) : Prop := forall order st G R due, nd < length (pl_nodes pl) -> wanted pl nd order -> permutes (A nd) order -> output pl nd -> pinv st G R due ->
  exists st' rt G' R', (forall fuel, 3 * rank nd + 1 <= fuel -> execution_node fuel pl nd nd order st = Ok (st', rt)) /\ node_res cat pl A M rank st G due nd nd order st' rt G' R'.
Lemma node_root : forall nd, node_ok nd -> node_root_ok nd.
Proof.
  intros nd H order st G R due Hlt Hwa Hpe Ho HI. destruct (H nd order st G R due Hlt Hwa Hpe Ho (wi_root pl nd) HI) as (st' & rt & G' & R' & E & K). rewrite Nat.eqb_refl in E. exists st', rt, G', R'. auto.
Qed.
Lemma tree_first : forall nd root order st G R due on, node_root_ok nd -> find_out (pl_outs pl) nd = Some on -> nd < length (pl_nodes pl) -> wanted pl nd order -> permutes (A nd) order -> output pl root -> within pl root nd ->
  pinv st G R due -> find_key Nat.eqb nd (ps_map st) = None -> exists st' c G' R',
    (forall fuel, 3 * rank nd + 1 <= fuel -> execution_tree (S fuel) pl root on order st = Ok (st', c)) /\ tree_res st G due nd root order st' c G' R'.
Proof.
  intros nd root order st G R due on IH Hon Hlt Hwa Hpe Hro Hwi HI Hf.
  assert (Hout : output pl nd) by (apply find_out_spec in Hon; exists on; exact Hon). destruct (find_out_spec _ _ _ Hon) as [Hin Enode].
  destruct (node_of pl nd Hlt) as (op & ms & Hn). destruct (markers_of pl nd op ms Hn) as [Emk Ecol].
  destruct (IH order st G R due Hlt Hwa Hpe Hout HI) as (st1 & rt & G1 & R1 & E1 & N1).
  destruct (nr_inv _ _ _ _ _ _ _ _ _ _ _ _ _ _ _ N1) as [HS1 HD1]. pose proof (nr_grows _ _ _ _ _ _ _ _ _ _ _ _ _ _ _ N1) as Gr1. pose proof (s_length _ _ _ _ _ _ HS1) as HL1.
  assert (Hnew : forall r o, nth_error G1 r <> Some (nd, o)).
  { intros r o E. destruct (g_trees _ _ _ _ _ _ _ Gr1) as (more & -> & K). destruct (Nat.lt_ge_cases r (length G)) as [Hr|Hr].
    - rewrite nth_error_app1 in E by exact Hr. pose proof (s_map _ _ _ _ _ _ (proj1 HI) nd) as Hm. rewrite Hf in Hm. apply (Hm r o E).
    - rewrite nth_error_app2 in E by exact Hr. destruct (K (nd, o)) as [K1|[_ K1]]; [eapply nth_error_In; exact E|cbn in K1; lia|congruence]. }
  assert (HPR : projection_root pl nd rt).
  { intros p o ->. destruct (nr_project _ _ _ _ _ _ _ _ _ _ _ _ _ _ _ N1 p o eq_refl) as (_ & s & ms0 & Hn0 & _ & K). split; [left; exists s, ms0; exact Hn0|]. intros Hc. exists s, ms0. auto. }
  assert (HST : forall st2, ps_map st2 = ps_map st1 -> ps_loaded st2 = ps_loaded st1 -> static cat pl A M st2 G1 -> static cat pl A M (finished pl st2 root rt nd order on) (G1 ++ [(nd, order)])).
  { intros st2 Em El HS2. apply append_static; try assumption.
    - rewrite El. apply (nr_computes _ _ _ _ _ _ _ _ _ _ _ _ _ _ _ N1).
    - intros _. exact Hnew.
    - intros y Hy Hoy Hyn. unfold in_map. rewrite Em. apply (nr_map _ _ _ _ _ _ _ _ _ _ _ _ _ _ _ N1 y Hy Hoy Hyn). }
  assert (HTR : forall st2 R2 trees, ps_trees st2 = trees -> ps_map st2 = ps_map st1 -> ps_loaded st2 = ps_loaded st1 -> static cat pl A M st2 G1 -> grows nd nd st1 G1 st2 G1 ->
    dynamic A (trees ++ [(new_tree rt nd order on, columns pl nd, [root])]) (G1 ++ [(nd, order)]) R2 (due ++ [length trees]) ->
    tree_res st G due nd root order (finished pl st2 root rt nd order on) (length trees) (G1 ++ [(nd, order)]) R2).
  { intros st2 R2 trees Et Em El HS2 Hg HD2. pose proof (s_length _ _ _ _ _ _ HS2) as HL2. split.
    - split; [apply HST; assumption|]. cbn [finished ps_trees]. rewrite Et. exact HD2.
    - intros root' Hn'. apply finished_grows; [eapply grows_trans; [exact Gr1|exact Hg]|exact Hn'|exact HL2].
    - exists order. split; [|reflexivity]. rewrite <- Et, <- HL2. apply snoc_last.
    - rewrite <- Et. apply finished_entry.
    - apply in_map_finished. left. reflexivity. }
  assert (Hplain : tree_res st G due nd root order (finished pl st1 root rt nd order on) (length (ps_trees st1)) (G1 ++ [(nd, order)]) (R1 ++ root_refs rt)).
  { apply HTR; try reflexivity; [exact HS1|apply grows_refl|]. apply (append_dynamic pl A M); [exact HL1|exact HD1]. }
  assert (Hsimple : (forall p c, rt = RProject p (TComputed c) -> exists e, nth_error (ps_trees st1) c = Some e /\ is_permanent (t_result (T e)) = true) ->
    forall fuel, 3 * rank nd + 1 <= fuel -> execution_tree (S fuel) pl root on order st = Ok (finished pl st1 root rt nd order on, length (ps_trees st1))).
  { intros Hc fuel Hfu. cbn [execution_tree]. rewrite Enode, Emk. cbn [bind]. rewrite Hf. rewrite (E1 fuel Hfu). cbn [bind fst snd]. rewrite <- Ecol.
    destruct rt as [o|p o]; [reflexivity|]. destruct o as [i|c|bs subs|subs|maps subs]; try reflexivity. destruct (Hc p c eq_refl) as (e & Ee & Hp). unfold index. rewrite Ee. cbn [bind]. unfold T in Hp. rewrite Hp. reflexivity. }
  destruct rt as [o|p o]; [exists (finished pl st1 root (ROp o) nd order on), (length (ps_trees st1)), (G1 ++ [(nd, order)]), (R1 ++ root_refs (ROp o)); split; [apply Hsimple; intros p c K; discriminate|exact Hplain]|].
  assert (Hcase : (exists c, o = TComputed c) \/ forall c, o <> TComputed c) by (destruct o; try (right; intros; discriminate); left; eauto).
  destruct Hcase as [(c & ->)|Hno].
  2:{ exists (finished pl st1 root (RProject p o) nd order on), (length (ps_trees st1)), (G1 ++ [(nd, order)]), (R1 ++ root_refs (RProject p o)). split; [|exact Hplain]. apply Hsimple. intros p' c K. injection K as _ K. congruence. }
  destruct (nr_project _ _ _ _ _ _ _ _ _ _ _ _ _ _ _ N1 p (TComputed c) eq_refl) as (_ & s & ms0 & Hn0 & Hov & _). destruct (Hov c eq_refl) as (x & ox & Hx & Egx).
  assert (Hec : exists e, nth_error (ps_trees st1) c = Some e). { destruct (nth_error (ps_trees st1) c) as [e|] eqn:E; [eauto|]. apply nth_error_None in E. rewrite <- HL1 in E. apply nth_error_None in E. congruence. }
  destruct Hec as (e & Ee). pose proof (s_tree _ _ _ _ _ _ HS1 c e (x, ox) Ee Egx) as HT.
  destruct (is_permanent (t_result (T e))) eqn:Eperm.
  { exists (finished pl st1 root (RProject p (TComputed c)) nd order on), (length (ps_trees st1)), (G1 ++ [(nd, order)]), (R1 ++ root_refs (RProject p (TComputed c))). split; [|exact Hplain].
    apply Hsimple. intros p' c' K. injection K as <- <-. exists e. auto. }
  destruct (sp_below _ _ _ SP nd s ms0 x Hn0 Hx) as [Hall Hkeep]. pose proof (to_wanted _ _ _ _ _ _ _ _ _ HT) as Hwx. cbn [fst snd] in Hwx. pose proof (Hall ox Hwx) as Hix.
  destruct (to_out _ _ _ _ _ _ _ _ _ HT) as (onx & Eonx & Hres & _). cbn [fst snd] in Eonx, Hres. rewrite (proj2 (PermProps.C16_is_identity ox) Hix) in Hres.
  assert (Hk : 0 < A x /\ ~ projecting pl x).
  { destruct Hkeep as [(oo & rq & Hperm)|Hk]; [|exact Hk]. exfalso. pose proof (oo_distinct pl OO _ Hperm) as K. cbn [on_node] in K. rewrite Eonx in K. injection K as ->. rewrite Hres in Eperm. discriminate. }
  assert (Hop : exists o0, t_root (T e) = ROp o0).
  { destruct (t_root (T e)) as [o0|p0 o0] eqn:Er; [eauto|]. exfalso. destruct (to_project _ _ _ _ _ _ _ _ _ HT p0 o0 Er) as [[K|(o' & K1 & K2)] _]; [apply Hk, K|apply K2, Hall, K1]. }
  assert (Hte : t_result (T e) = Temporary) by (destruct (t_result (T e)); [reflexivity|discriminate]).
  assert (Hrq : on_required on = false) by (apply (oo_required pl OO on Hin); rewrite Enode; exists s, ms0; exact Hn0).
  destruct (depend_ok cat pl A M st1 G1 R1 due c e (x, ox) p nd order on root HS1 HD1 Ee Egx Hop Hte (proj1 Hk) Hrq) as (trees & Eu & HS2 & Hl2 & HD2 & Hg).
  exists (finished pl (mk_pstate trees (ps_map st1) (ps_loaded st1)) root (RProject p (TComputed c)) nd order on), (length trees), (G1 ++ [(nd, order)]), R1. split.
  - intros fuel Hfu. cbn [execution_tree]. rewrite Enode, Emk. cbn [bind]. rewrite Hf. rewrite (E1 fuel Hfu). cbn [bind fst snd]. unfold index. rewrite Ee. cbn [bind]. unfold T in Eperm. rewrite Eperm. rewrite Eu. cbn [bind]. rewrite <- Ecol. reflexivity.
  - apply HTR; try reflexivity; [exact HS2| |exact HD2]. split; [exists []; rewrite app_nil_r; split; [reflexivity|intros g []]|exists []; rewrite app_nil_r; reflexivity|exact Hg|auto].
Qed.

Lemma tree_all : forall nd root order st G R due on, node_root_ok nd -> find_out (pl_outs pl) nd = Some on -> nd < length (pl_nodes pl) -> wanted pl nd order -> permutes (A nd) order -> output pl root -> within pl root nd ->
  pinv st G R due -> exists st' c G' R',
    (forall fuel, 3 * rank nd + 2 <= fuel -> execution_tree fuel pl root on order st = Ok (st', c)) /\ tree_res st G due nd root order st' c G' R'.
Proof.
  intros nd root order st G R due on IH Hon Hlt Hwa Hpe Hro Hwi HI. destruct (find_key Nat.eqb nd (ps_map st)) as [tables|] eqn:Hf.
  - destruct (tree_again nd root order st G R due on tables Hon Hlt Hwa Hpe Hro Hwi HI Hf) as (st' & c & G' & R' & E & H). exists st', c, G', R'. split; [|exact H]. intros [|fuel] Hfu; [lia|apply E].
  - destruct (tree_first nd root order st G R due on IH Hon Hlt Hwa Hpe Hro Hwi HI Hf) as (st' & c & G' & R' & E & H). exists st', c, G', R'. split; [|exact H]. intros [|fuel] Hfu; [lia|apply E; lia].
Qed.

Theorem nodes_ok : forall nd, node_ok nd.
Proof.
  intros nd. remember (rank nd) as k eqn:Ek. revert nd Ek. induction k as [k IH] using lt_wf_ind. intros nd ->.
  assert (IHs : forall s, sub_of pl nd s -> node_ok s) by (intros s Hs; apply (IH (rank s) (RK nd s Hs) s eq_refl)).
  assert (Hroot : forall root order st G R due, nd < length (pl_nodes pl) -> wanted pl nd order -> permutes (A nd) order -> output pl root -> within pl root nd -> (nd = root \/ ~ output pl nd) ->
    pinv st G R due -> exists st' rt G' R', (forall fuel, 3 * rank nd + 1 <= fuel -> execution_node fuel pl root nd order st = Ok (st', rt)) /\ node_res cat pl A M rank st G due nd root order st' rt G' R').
  { intros root order st G R due Hlt Hwa Hpe Hro Hwi Hd HI. destruct (body_ok cat pl A M OO SP ME rank RK nd root order st G R due IHs Hlt Hwa Hpe Hro Hwi Hd HI) as (st' & rt & G' & R' & E & H).
    exists st', rt, G', R'. split; [|exact H]. intros [|fuel] Hfu; [lia|apply E; lia]. }
  assert (Hoff : forall root order st G R due, nd < length (pl_nodes pl) -> wanted pl nd order -> permutes (A nd) order -> output pl root -> within pl root nd -> nd = root -> pinv st G R due ->
    exists st' rt G' R', (forall fuel, (if nd =? root then 3 * rank nd + 1 else 3 * rank nd + 3) <= fuel -> execution_node fuel pl root nd order st = Ok (st', rt)) /\ node_res cat pl A M rank st G due nd root order st' rt G' R').
  { intros root order st G R due Hlt Hwa Hpe Hro Hwi Hd HI. destruct (Hroot root order st G R due Hlt Hwa Hpe Hro Hwi (or_introl Hd) HI) as (st' & rt & G' & R' & E & H). exists st', rt, G', R'. split; [|exact H].
    intros fuel Hfu. apply E. destruct (nd =? root); lia. }
  intros root order st G R due Hlt Hwa Hpe Hro Hwi HI. destruct (Nat.eq_dec nd root) as [Hd|Hd]; [apply (Hoff root order st G R due); assumption|].
  destruct (find_out (pl_outs pl) nd) as [on|] eqn:Hon.
  2:{ destruct (Hroot root order st G R due Hlt Hwa Hpe Hro Hwi (or_intror (find_out_none pl nd Hon)) HI) as (st' & rt & G' & R' & E & H). exists st', rt, G', R'. split; [|exact H]. intros fuel Hfu. apply E. destruct (nd =? root); lia. }
  assert (Hself : exists on', In on' (pl_outs pl) /\ on_node on' = nd) by (apply find_out_spec in Hon; eauto).
  assert (Htree : exists st' c G' R', (forall fuel, 3 * rank nd + 2 <= fuel -> execution_tree fuel pl root on order st = Ok (st', c)) /\ tree_res st G due nd root order st' c G' R').
  { apply (tree_all nd root order st G R due on); try assumption. intros order0 st0 G0 R0 due0 Hlt0 Hwa0 Hpe0 Ho0 HI0. apply (Hroot nd order0 st0 G0 R0 due0 Hlt0 Hwa0 Hpe0 Ho0 (wi_root pl nd) (or_introl eq_refl) HI0). }
  destruct Htree as (st' & c & G' & R' & E & H). pose proof (tr_inv _ _ _ _ _ _ _ _ _ _ H) as HI'. destruct (tr_entry _ _ _ _ _ _ _ _ _ _ H) as (o' & Ec & Hg).
  exists st', (ROp (TComputed c)), G', R'. split; [|split].
  - intros fuel Hfu. rewrite (proj2 (Nat.eqb_neq _ _) Hd) in Hfu. destruct fuel as [|fuel]; [lia|]. cbn [execution_node]. rewrite (proj2 (Nat.eqb_neq _ _) Hd), Hon. rewrite E by lia. reflexivity.
  - exact HI'.
  - apply (tr_grows _ _ _ _ _ _ _ _ _ _ H root Hd).
  - apply rc_op. eapply c_computed; [rewrite nth_error_map, Ec; reflexivity|]. cbn [fst snd]. intros r Hr. apply rearranged_ext. intros i. symmetry. apply Hg.
  - intros p o K. discriminate.
  - intros c' K _. injection K as <-. exists nd, o'. split; [apply ov_output, Hself|exact Ec].
  - intros y Hy Hoy _. apply (s_closed _ _ _ _ _ _ (proj1 HI') nd y); [apply (tr_map _ _ _ _ _ _ _ _ _ _ H)|exact Hy|exact Hoy].
Qed.
End Trees.
