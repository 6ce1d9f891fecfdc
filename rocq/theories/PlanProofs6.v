(* From plans to series: the nodes. *)
From Coq Require Import List ZArith Bool Lia Arith Permutation Sorted.
From Verif Require Import ColumnModel ScanModel ScanSpec TrieModel TrieSpec TrieScanSpec TrieProofs3 OpModel OpSpec OpProofs3 ProjModel ProjSpec ProjProofs1 ProjProofs2 ProjProofs3 ProjProofs4 ProjProofs5 StoreModel StoreSpec StoreProofs1 StoreProofs2 PlanModel PlanSpec PlanProofs1 PlanProofs2 PlanProofs3 PlanProofs5.
From Verif Require PermModel PermProps PermProofs.
Import ListNotations.
Local Open Scope nat_scope.

Lemma map_res_each : forall X Y (f : X -> res Y) (P : X -> Y -> Prop) l, (forall x, In x l -> exists y, f x = Ok y /\ P x y) ->
  exists L : list (X * Y), l = map fst L /\ map_res f l = Ok (map snd L) /\ forall x y, In (x, y) L -> P x y.
Proof.
  intros X Y f P. induction l as [|x l IH]; intros H; [exists []; repeat split; intros x y []|].
  destruct (H x (or_introl eq_refl)) as (y & Ey & Py). destruct IH as (L & -> & E & HL); [intros x' Hx; apply H; right; exact Hx|].
  exists ((x, y) :: L). split; [reflexivity|]. split; [cbn [map_res map fst snd]; rewrite Ey; cbn [bind]; rewrite E; reflexivity|].
  intros a b [K|K]; [injection K as <- <-; exact Py|apply HL, K].
Qed.
Lemma permute_nil : forall p, permutes 0 p -> PermModel.permute p (@nil marker) = Some [].
Proof.
  intros p H. destruct (PermProps.C16_permute _ p (@nil marker) (proj1 H) (proj2 H)) as (w & E & Hl & _). destruct w; [exact E|discriminate].
Qed.
Lemma permute_identical : forall p (v : list marker), PermProps.built p -> identical p -> PermModel.permute p v = Some v.
Proof.
  intros p v Hb Hi. destruct (PermProps.C16_permute _ p v Hb) as (w & E & Hl & Hn & _); [intros i _; apply Hi|]. rewrite E. f_equal. apply nth_list_ext. intros i. rewrite <- (Hn i), Hi. reflexivity.
Qed.
Lemma identical_permutes : forall p n, PermProps.built p -> identical p -> permutes n p.
Proof. intros p n Hb Hi. split; [exact Hb|]. intros i _. apply Hi. Qed.
(* rearranged rows, one by one *)
Lemma rearranged_at : forall n p P r r', permutes n p -> length r = n -> arranged p r r' -> (rearranged n p P r' <-> P r).
Proof.
  intros n p P r r' Hp Hl Ha. split.
  - intros (r0 & Hl0 & HP & Ha0). assert (length r' = n) by (destruct Ha; unfold row in *; lia). rewrite <- (arranged_inj n p r0 r r' Hp H Ha0 Ha). exact HP.
  - intros HP. exists r. auto.
Qed.
Lemma position_entry_some : forall e l i, position_entry e l = Some i -> exists e', nth_error l i = Some e' /\ entry_eqb e e' = true.
Proof.
  intros e l. induction l as [|x l IH]; intros i H; cbn in H; [discriminate|]. destruct (entry_eqb e x) eqn:E; [injection H as <-; exists x; auto|].
  destruct (position_entry e l) as [k|]; [|discriminate]. injection H as <-. apply IH. reflexivity.
Qed.

Section Nodes.
Variable cat : catalog.
Variable pl : plan.
Variable A : nat -> nat.
Variable M : nat -> row -> Prop.
Hypothesis OO : outs_ok pl.
Hypothesis SP : sound_plan cat pl A.
Hypothesis ME : means cat pl A M.
Variable rank : nat -> nat.
Hypothesis RK : forall nd s, sub_of pl nd s -> rank s < rank nd.

Notation pinv := (pinv cat pl A M).
Notation grows := (grows rank).
Notation rows_of := (rows_of A M).
Notation arr nd order := (rearranged (A nd) order (M nd)).

Record node_res (st : pstate) (G : list (nat * perm)) (due : list nat) (nd root : nat) (order : perm) (st' : pstate) (rt : tree_root) (G' : list (nat * perm)) (R' : list nat) : Prop := {
  nr_inv : pinv st' G' R' (due ++ root_refs rt);
  nr_grows : grows nd root st G st' G';
  nr_computes : root_computes cat (ps_loaded st') (map rows_of G') rt (A nd) (arr nd order);
  nr_project : forall p o, rt = RProject p o -> nd = root /\ exists s ms, node_is pl nd (PProject s) ms /\
    (forall c, o = TComputed c -> exists x o', over pl s x /\ nth_error G' c = Some (x, o')) /\ (PermModel.choice_is_identity (pj_choice p) = true -> columns pl s = ms);
  nr_over : forall c, rt = ROp (TComputed c) -> nd <> root -> exists x o', over pl nd x /\ nth_error G' c = Some (x, o');
  nr_map : forall y, reach pl nd y -> output pl y -> y <> root -> in_map st' y }.
Definition node_ok (nd : nat) : Prop := forall root order st G R due, nd < length (pl_nodes pl) -> wanted pl nd order -> permutes (A nd) order -> output pl root -> within pl root nd ->
  pinv st G R due -> exists st' rt G' R',
    (forall fuel, (if nd =? root then 3 * rank nd + 1 else 3 * rank nd + 3) <= fuel -> execution_node fuel pl root nd order st = Ok (st', rt)) /\
    node_res st G due nd root order st' rt G' R'.

Definition sub_call (fuel root : nat) (x : nat * perm) (st : pstate) : res (pstate * op_tree) :=
  bind (execution_node fuel pl root (fst x) (snd x) st) (fun r => bind (as_operation (snd r)) (fun o => Ok (fst r, o))).
Record sub_fits (nd : nat) (x : nat * perm) : Prop := { sf_sub : sub_of pl nd (fst x); sf_wanted : wanted pl (fst x) (snd x); sf_permutes : permutes (A (fst x)) (snd x) }.
Record subs_res (st : pstate) (G : list (nat * perm)) (due : list nat) (nd root : nat) (l : list (nat * perm)) (st' : pstate) (os : list op_tree) (G' : list (nat * perm)) (R' : list nat) : Prop := {
  sr_inv : pinv st' G' R' (due ++ flat_map refs os);
  sr_grows : grows nd root st G st' G';
  sr_computes : Forall2 (fun x o => computes cat (ps_loaded st') (map rows_of G') o (A (fst x)) (arr (fst x) (snd x))) l os;
  sr_over : Forall2 (fun x o => forall c, o = TComputed c -> exists y o', over pl (fst x) y /\ nth_error G' c = Some (y, o')) l os;
  sr_map : forall x y, In x l -> reach pl (fst x) y -> output pl y -> y <> root -> in_map st' y }.
Lemma subs_ok : forall nd root, (forall s, sub_of pl nd s -> node_ok s) -> output pl root -> within pl root nd -> (nd = root \/ ~ output pl nd) ->
  forall l st G R due, (forall x, In x l -> sub_fits nd x) -> pinv st G R due -> exists st' os G' R',
    (forall fuel, 3 * rank nd <= fuel -> map_state (sub_call fuel root) l st = Ok (st', os)) /\ subs_res st G due nd root l st' os G' R'.
Proof.
  intros nd root IH Ho Hw Hd. induction l as [|x l IHl]; intros st G R due Hl HI.
  { exists st, [], G, R. split; [reflexivity|]. split.
    - cbn. rewrite app_nil_r. exact HI.
    - apply grows_refl.
    - constructor.
    - constructor.
    - intros x y []. }
  destruct (Hl x (or_introl eq_refl)) as [Hs Hwa Hpe]. pose proof (RK nd (fst x) Hs) as Hr. pose proof (within_rank pl rank RK root nd Hw) as Hr'.
  assert (Hne : fst x <> root) by (intros E; rewrite E in *; lia).
  destruct (IH (fst x) Hs root (snd x) st G R due) as (st1 & rt & G1 & R1 & E1 & N1); try assumption.
  { apply (oo_subs pl OO nd), Hs. }
  { eapply wi_sub; eassumption. }
  destruct rt as [o|p o]; [|exfalso; destruct (nr_project _ _ _ _ _ _ _ _ _ _ N1 p o eq_refl) as [K _]; congruence].
  destruct (IHl st1 G1 R1 (due ++ refs o)) as (st2 & os & G2 & R2 & E2 & N2); [intros y Hy; apply Hl; right; exact Hy|apply (nr_inv _ _ _ _ _ _ _ _ _ _ N1)|].
  pose proof (sr_grows _ _ _ _ _ _ _ _ _ _ N2) as Gr2.
  exists st2, (o :: os), G2, R2. split; [|split].
  - intros fuel Hf. cbn [map_state]. unfold sub_call at 1. rewrite E1 by (rewrite (proj2 (Nat.eqb_neq _ _) Hne); lia). cbn [bind snd as_operation fst]. rewrite (E2 fuel Hf). reflexivity.
  - cbn [flat_map]. rewrite app_assoc. apply (sr_inv _ _ _ _ _ _ _ _ _ _ N2).
  - eapply grows_trans; [|exact Gr2]. eapply grows_sub; [exact RK|exact Hs|apply (nr_grows _ _ _ _ _ _ _ _ _ _ N1)].
  - constructor; [|apply (sr_computes _ _ _ _ _ _ _ _ _ _ N2)]. pose proof (nr_computes _ _ _ _ _ _ _ _ _ _ N1) as K. inversion K; subst. eapply grows_computes; [exact Gr2|assumption].
  - constructor; [|apply (sr_over _ _ _ _ _ _ _ _ _ _ N2)]. intros c ->. destruct (nr_over _ _ _ _ _ _ _ _ _ _ N1 c eq_refl Hne) as (y & o' & Hy & E). exists y, o'. split; [exact Hy|]. eapply grows_nth; eassumption.
  - intros x' y [<-|Hx'] Hy Hoy Hyn; [|apply (sr_map _ _ _ _ _ _ _ _ _ _ N2 x' y Hx' Hy Hoy Hyn)]. apply (g_map _ _ _ _ _ _ _ Gr2), (nr_map _ _ _ _ _ _ _ _ _ _ N1 y Hy Hoy Hyn).
Qed.

(* another loaded table *)
Lemma load_pinv : forall st G R due id o n P, pinv st G R due -> nth_error cat id = Some (n, P, None) -> permutes n o ->
  pinv (mk_pstate (ps_trees st) (ps_map st) (ps_loaded st ++ [(id, o)])) G R due.
Proof.
  intros st G R due id o n P [HS HD] Hc Hp. split; [|exact HD]. destruct HS as [K1 K2 K3 K4 K5 K6]. split; try assumption.
  - cbn [ps_trees ps_loaded]. intros r e g Er Eg. destruct (K2 r e g Er Eg) as [T1 T2 T3 T4 T5 T6 T7 T8]. split; try assumption.
    pose proof (root_ext cat (ps_loaded st) (firstn r (map rows_of G)) [(id, o)] [] _ _ _ T7) as T9. rewrite app_nil_r in T9. exact T9.
  - cbn [ps_loaded]. intros id' o' Hin. apply in_app_or in Hin. destruct Hin as [Hin|[E|[]]]; [apply (K6 id' o' Hin)|]. injection E as <- <-. eauto.
Qed.
Lemma markers_of : forall nd op ms, node_is pl nd op ms -> node_markers pl nd = Ok ms /\ columns pl nd = ms.
Proof. intros nd op ms H. unfold node_markers, columns, index, node_is in *. rewrite H. cbn. auto. Qed.
Lemma node_of : forall nd, nd < length (pl_nodes pl) -> exists op ms, node_is pl nd op ms.
Proof. intros nd H. apply nth_error_Some in H. unfold node_is. destruct (nth_error (pl_nodes pl) nd) as [[op ms]|]; [eauto|congruence]. Qed.
Lemma node_columns : forall nd, nd < length (pl_nodes pl) -> node_markers pl nd = Ok (columns pl nd).
Proof. intros nd H. destruct (node_of nd H) as (op & ms & E). destruct (markers_of nd op ms E) as [-> ->]. reflexivity. Qed.
Lemma subs_columns : forall subs, (forall s, In s subs -> s < length (pl_nodes pl)) -> map_res (node_markers pl) subs = Ok (map (columns pl) subs).
Proof. intros subs H. apply map_res_ok. intros s Hs. apply node_columns, H, Hs. Qed.
Lemma reach_inv : forall nd op ms y, node_is pl nd op ms -> reach pl nd y -> y = nd \/ exists s, In s (subnodes op) /\ reach pl s y.
Proof.
  intros nd op ms y Hn H. destruct H as [x|x s y Hs H]; [left; reflexivity|]. right. destruct Hs as (op' & ms' & Hn' & Hin). unfold node_is in *. rewrite Hn in Hn'. injection Hn' as <- <-. exists s. auto.
Qed.
Lemma aligned_subs : forall subs ms', (forall s, In s subs -> s < length (pl_nodes pl) /\ named pl A s /\ incl (columns pl s) ms') ->
  exists L : list (nat * (list marker * perm)), subs = map fst L /\ map_res (fun sms => align sms ms') (map (columns pl) subs) = Ok (map snd L) /\
    forall s l p, In (s, (l, p)) L -> permutes (length (columns pl s)) p /\ PermModel.permute p (columns pl s) = Some l /\ subsequence l ms'.
Proof.
  induction subs as [|s subs IH]; intros ms' H; [exists []; split; [reflexivity|split; [reflexivity|intros s l p []]]|].
  destruct (H s (or_introl eq_refl)) as (Hs & Hna & Hi). destruct (align_ok (columns pl s) ms' (proj2 Hna) Hi) as (l & p & E & Hp & Hpe & Hsu).
  destruct (IH ms') as (L & -> & EL & HL); [intros s' Hs'; apply H; right; exact Hs'|].
  exists ((s, (l, p)) :: L). split; [reflexivity|]. split.
  - cbn [map map_res fst snd]. rewrite E. cbn [bind]. rewrite EL. reflexivity.
  - intros s' l' p' [K|K]; [injection K as <- <- <-; auto|apply (HL s' l' p' K)].
Qed.
Lemma combine_map : forall (L : list (nat * (list marker * perm))), combine (map fst L) (map snd (map snd L)) = map (fun x => (fst x, snd (snd x))) L.
Proof. induction L as [|[s [l p]] L IH]; [reflexivity|]. cbn [map fst snd combine]. rewrite IH. reflexivity. Qed.
Lemma Forall2_map_l : forall X Y Z (f : X -> Y) (R : Y -> Z -> Prop) l k, Forall2 R (map f l) k -> Forall2 (fun x z => R (f x) z) l k.
Proof. intros X Y Z f R. induction l as [|x l IH]; intros k H; inversion H; subst; constructor; auto. Qed.
Lemma Forall2_back : forall X Y (R : X -> Y -> Prop) l k, Forall2 R l k -> Forall2 (fun y x => R x y) k l.
Proof. intros X Y R l k H. induction H; constructor; auto. Qed.
Lemma Forall2_map_r : forall X Y Z (f : X -> Y) (R : Z -> Y -> Prop) k l, Forall2 (fun z x => R z (f x)) k l -> Forall2 R k (map f l).
Proof. intros X Y Z f R k l H. induction H; cbn; constructor; auto. Qed.

(* the columns of the node, arranged *)
Lemma arranged_columns : forall nd op ms order, node_is pl nd op ms -> permutes (A nd) order ->
  exists ms', (match ms with [] => Ok [] | _ => must (PermModel.permute order ms) end) = Ok ms' /\ (length ms = A nd -> PermModel.permute order ms = Some ms').
Proof.
  intros nd op ms order Hn Hp. destruct (sp_typed _ _ _ SP nd op ms Hn) as [[->|Hl] _].
  - exists []. split; [reflexivity|]. cbn. intros E. apply permute_nil. rewrite E. exact Hp.
  - destruct (PermProps.C16_permute _ order ms (proj1 Hp)) as (w & E & Hlw & _); [rewrite Hl; apply Hp|]. exists w. split; [|intros _; exact E].
    destruct ms as [|x ms]; [|rewrite E; reflexivity]. destruct w; [reflexivity|discriminate].
Qed.

Lemma body_ok : forall nd root order st G R due, (forall s, sub_of pl nd s -> node_ok s) -> nd < length (pl_nodes pl) -> wanted pl nd order -> permutes (A nd) order -> output pl root ->
  within pl root nd -> (nd = root \/ ~ output pl nd) -> pinv st G R due -> exists st' rt G' R',
    (forall fuel, 3 * rank nd <= fuel -> execution_node (S fuel) pl root nd order st = Ok (st', rt)) /\ node_res st G due nd root order st' rt G' R'.
Proof.
  intros nd root order st G R due IH Hlt Hwa Hpe Hro Hwi Hd HI.
  assert (Hcond : (if nd =? root then None else find_out (pl_outs pl) nd) = None).
  { destruct (Nat.eqb_spec nd root) as [->|N]; [reflexivity|]. destruct Hd as [->|Hd]; [congruence|]. destruct (find_out (pl_outs pl) nd) as [on|] eqn:E; [|reflexivity].
    exfalso. apply Hd. apply find_out_spec in E. exists on. exact E. }
  destruct (node_of nd Hlt) as (op & ms & Hn). destruct (sp_typed _ _ _ SP nd op ms Hn) as [Hms Hty]. pose proof (ME nd op ms Hn) as Hme.
  destruct (arranged_columns nd op ms order Hn Hpe) as (ms' & Ems & Hms').
  assert (Hix : index (pl_nodes pl) nd = Ok (mk_node op ms)) by (unfold index; unfold node_is in Hn; rewrite Hn; reflexivity).
  assert (Hself : forall y, output pl y -> y <> root -> y <> nd) by (intros y Hy Hyr ->; destruct Hd; congruence).
  assert (Hlen : length ms = A nd -> NoDup ms -> NoDup ms' /\ length ms' = A nd /\ forall x, In x ms' <-> In x ms).
  { intros Hl Hnd. destruct (permute_NoDup order ms ms') as (K1 & K2 & K3); [rewrite Hl; exact Hpe|apply Hms', Hl|exact Hnd|]. rewrite <- Hl. auto. }
  destruct op as [id fo|subs|subs|main subs|s|s].
  - (* fetch *)
    destruct Hty as ((P & Hc) & Hfo). destruct (permutes_chain (A nd) fo order Hfo Hpe) as (lo & Elo & Hlo & Hglo).
    assert (Hrows : same_rows (A nd) (arr nd order) (rearranged (A nd) lo P)).
    { intros r Hr. rewrite (rearranged_iff (A nd) order (M nd) (rearranged (A nd) fo P) r).
      - apply rearranged_chain; assumption.
      - intros q Hq. rewrite (Hme q Hq). split; [|intros K; exists (A nd), P, None; auto]. intros (n & P' & ref & Hc' & K). rewrite Hc in Hc'. injection Hc' as <- <- <-. exact K. }
    destruct (position_entry (id, lo) (ps_loaded st)) as [i|] eqn:Epos.
    + pose proof (position_entry_some _ _ _ Epos) as ([id' lo'] & Ei & Eeq). unfold entry_eqb in Eeq. cbn [fst snd] in Eeq. apply andb_true_iff in Eeq. destruct Eeq as [E1 E2]. apply Nat.eqb_eq in E1. subst id'.
      destruct (s_loaded _ _ _ _ _ _ (proj1 HI) id lo') as (n' & P' & Hc' & Hp'); [eapply nth_error_In; exact Ei|]. rewrite Hc in Hc'. injection Hc' as <- <-.
      exists st, (ROp (TLoad i)), G, R. split; [|split].
      * intros fuel Hf. cbn [execution_node]. rewrite Hcond, Hix. cbn [bind nd_markers nd_op]. rewrite Ems. cbn [bind]. rewrite Elo. cbn [must bind]. rewrite Epos. reflexivity.
      * cbn. rewrite app_nil_r. exact HI.
      * apply grows_refl.
      * apply rc_op. apply (c_load cat _ _ i id lo' (A nd) P); try assumption. eapply same_trans; [exact Hrows|]. intros r Hr. apply rearranged_ext. apply PermProps.C16_equality; [apply Hlo|apply Hp'|exact E2].
      * intros p o K. discriminate.
      * intros c K. discriminate.
      * intros y Hy Hoy Hyr. destruct (reach_inv nd _ _ y Hn Hy) as [->|(s & [] & _)]. exfalso. apply (Hself nd Hoy Hyr eq_refl).
    + exists (mk_pstate (ps_trees st) (ps_map st) (ps_loaded st ++ [(id, lo)])), (ROp (TLoad (length (ps_loaded st)))), G, R. split; [|split].
      * intros fuel Hf. cbn [execution_node]. rewrite Hcond, Hix. cbn [bind nd_markers nd_op]. rewrite Ems. cbn [bind]. rewrite Elo. cbn [must bind]. rewrite Epos. reflexivity.
      * cbn [root_refs refs]. rewrite app_nil_r. eapply load_pinv; eassumption.
      * split.
        -- exists []. rewrite app_nil_r. split; [reflexivity|intros g []].
        -- exists [(id, lo)]. reflexivity.
        -- intros c e E. exists e. split; [exact E|apply incl_refl].
        -- auto.
      * apply rc_op. apply (c_load cat _ _ _ id lo (A nd) P); try assumption. cbn [ps_loaded]. rewrite nth_error_app2, Nat.sub_diag by lia. reflexivity.
      * intros p o K. discriminate.
      * intros c K. discriminate.
      * intros y Hy Hoy Hyr. destruct (reach_inv nd _ _ y Hn Hy) as [->|(s & [] & _)]. exfalso. apply (Hself nd Hoy Hyr eq_refl).
  - (* join *)
    destruct Hty as (Hl & Hnd & Hne & Hcov & Hsubs). destruct (Hlen Hl Hnd) as (Hnd' & Hl' & Hin'). specialize (Hms' Hl).
    assert (Hsub : forall s, In s subs -> sub_of pl nd s) by (intros s Hs; exists (PJoin subs), ms; split; [exact Hn|exact Hs]).
    destruct (aligned_subs subs ms') as (L & EL & Eal & HL).
    { intros s Hs. split; [apply (oo_subs pl OO nd), Hsub, Hs|]. destruct (Hsubs s Hs) as [K1 K2]. split; [exact K1|]. intros x Hx. apply Hin', K2, Hx. }
    assert (HLs : forall x, In x L -> In (fst x) subs) by (intros x Hx; rewrite EL; exact (List.in_map fst L x Hx)).
    destruct (subs_ok nd root IH Hro Hwi Hd (map (fun x => (fst x, snd (snd x))) L) st G R due) as (st1 & os & G1 & R1 & E1 & N1); [|exact HI|].
    { intros y Hy. apply in_map_iff in Hy. destruct Hy as ([s [l p]] & <- & Hx). cbn [fst snd]. destruct (HL s l p Hx) as (K1 & K2 & K3). split; cbn [fst snd].
      - apply Hsub, (HLs _ Hx).
      - eapply w_join; try eassumption. apply (HLs _ Hx).
      - destruct (Hsubs s (HLs _ Hx)) as [[K _] _]. rewrite <- K. exact K1. }
    set (Ts := map (fun x : nat * (list marker * perm) => (fst (snd x), arr (fst x) (snd (snd x)))) L).
    assert (HTs : map fst Ts = map fst (map snd L)) by (unfold Ts; rewrite !map_map; reflexivity).
    assert (HTin : forall T, In T Ts -> exists s l p, In (s, (l, p)) L /\ T = (l, arr s p)).
    { intros T0 HT. unfold Ts in HT. apply in_map_iff in HT. destruct HT as ([s [l p]] & <- & Hx). exists s, l, p. auto. }
    destruct (join_bindings_exist ms' (map fst (map snd L)) Hnd') as (bs & Ebs).
    { intros l Hli. rewrite map_map in Hli. apply in_map_iff in Hli. destruct Hli as ([s [l' p]] & <- & Hx). apply (HL s l' p Hx). }
    { intros x Hx. apply Hin' in Hx. destruct (Hcov x Hx) as (s & Hs & Hxs). rewrite EL in Hs. apply in_map_iff in Hs. destruct Hs as ([s' [l p]] & Es & HxL). cbn in Es. subst s'.
      exists l. split; [rewrite map_map; apply in_map_iff; exists (s, (l, p)); auto|]. destruct (HL s l p HxL) as (K1 & K2 & _).
      destruct (permute_NoDup p (columns pl s) l K1 K2) as (_ & _ & K3); [apply (Hsubs s (HLs _ HxL))|]. apply K3, Hxs. }
    exists st1, (ROp (TJoin bs os)), G1, R1. split; [|split].
    + intros fuel Hf. cbn [execution_node]. rewrite Hcond, Hix. cbn [bind nd_markers nd_op]. rewrite Ems. cbn [bind]. rewrite (subs_columns subs) by (intros s Hs; apply (oo_subs pl OO nd), Hsub, Hs). cbn [bind].
      rewrite Eal. cbn [bind]. rewrite EL at 1. rewrite combine_map. specialize (E1 fuel Hf). unfold sub_call in E1. rewrite E1. cbn [bind fst snd]. rewrite Ebs. reflexivity.
    + apply (sr_inv _ _ _ _ _ _ _ _ _ _ N1).
    + apply (sr_grows _ _ _ _ _ _ _ _ _ _ N1).
    + apply rc_op. apply (c_join cat _ _ ms' Ts).
      * symmetry. exact Hl'.
      * intros K. unfold Ts in K. apply map_eq_nil in K. subst L. rewrite EL in Hne. apply Hne. reflexivity.
      * rewrite HTs. exact Ebs.
      * intros T0 HT. destruct (HTin T0 HT) as (s & l & p & Hx & ->). cbn [fst]. apply subsequence_incl, (HL s l p Hx).
      * unfold Ts. apply Forall2_map_r, Forall2_back. pose proof (Forall2_map_l _ _ _ _ _ _ _ (sr_computes _ _ _ _ _ _ _ _ _ _ N1)) as K. cbn beta in K.
        eapply Forall2_change; [exact K|]. intros [s [l p]] o Hx Hc. cbn [fst snd] in *. destruct (HL s l p Hx) as (K1 & K2 & _).
        destruct (permute_NoDup p (columns pl s) l K1 K2) as (_ & K3 & _); [apply (Hsubs s (HLs _ Hx))|]. rewrite K3. destruct (Hsubs s (HLs _ Hx)) as [[-> _] _]. exact Hc.
      * intros r' Hr'. destruct (arranged_back (A nd) order r' Hpe Hr') as (r & Hr & Hrr). rewrite (rearranged_at (A nd) order (M nd) r r' Hpe Hr Hrr). rewrite (Hme r Hr).
        assert (HP : forall s l p, In (s, (l, p)) L -> ((exists q, part_of ms r (columns pl s) q /\ M s q) <-> exists q, part_of ms' r' l q /\ arr s p q)).
        { intros s l p Hx. destruct (HL s l p Hx) as (K1 & K2 & _). destruct (Hsubs s (HLs _ Hx)) as [[K3 _] _]. rewrite <- K3. apply (parts_arranged order ms ms' r r' p (columns pl s) l (M s)); try assumption; [unfold row in *; lia|rewrite Hl; exact Hpe]. }
        split.
        -- intros H T0 HT. destruct (HTin T0 HT) as (s & l & p & Hx & ->). cbn [fst snd]. apply (HP s l p Hx), H, (HLs _ Hx).
        -- intros H s Hs. rewrite EL in Hs. apply in_map_iff in Hs. destruct Hs as ([s' [l p]] & Es & Hx). cbn in Es. subst s'. apply (HP s l p Hx). apply (H (l, arr s p)). unfold Ts. apply in_map_iff. exists (s, (l, p)). auto.
    + intros p o K. discriminate.
    + intros c K. discriminate.
    + intros y Hy Hoy Hyr. destruct (reach_inv nd _ _ y Hn Hy) as [->|(s & Hs & Hsy)]; [exfalso; apply (Hself nd Hoy Hyr eq_refl)|]. cbn [subnodes] in Hs. rewrite EL in Hs. apply in_map_iff in Hs. destruct Hs as ([s' [l p]] & Es & Hx). cbn in Es. subst s'.
      apply (sr_map _ _ _ _ _ _ _ _ _ _ N1 (s, p) y); try assumption. apply in_map_iff. exists (s, (l, p)). auto.
  - (* union *)
    assert (Hsub : forall s, In s subs -> sub_of pl nd s) by (intros s Hs; exists (PUnion subs), ms; split; [exact Hn|exact Hs]).
    destruct (subs_ok nd root IH Hro Hwi Hd (map (fun s => (s, order)) subs) st G R due) as (st1 & os & G1 & R1 & E1 & N1); [|exact HI|].
    { intros y Hy. apply in_map_iff in Hy. destruct Hy as (s & <- & Hx). split; cbn [fst snd]; [apply Hsub, Hx|eapply w_union; eassumption|rewrite (Hty s Hx); exact Hpe]. }
    exists st1, (ROp (TUnion os)), G1, R1. split; [|split].
    + intros fuel Hf. cbn [execution_node]. rewrite Hcond, Hix. cbn [bind nd_markers nd_op]. rewrite Ems. cbn [bind]. specialize (E1 fuel Hf). unfold sub_call in E1. rewrite E1. reflexivity.
    + apply (sr_inv _ _ _ _ _ _ _ _ _ _ N1).
    + apply (sr_grows _ _ _ _ _ _ _ _ _ _ N1).
    + apply rc_op. apply (c_union cat _ _ (A nd) (map (fun s => arr s order) subs)).
      * apply Forall2_map_r, Forall2_back. pose proof (Forall2_map_l _ _ _ _ _ _ _ (sr_computes _ _ _ _ _ _ _ _ _ _ N1)) as K. cbn beta in K.
        eapply Forall2_change; [exact K|]. intros s o Hx Hc. cbn [fst snd] in *. rewrite (Hty s Hx) in *. exact Hc.
      * intros r' Hr'. destruct (arranged_back (A nd) order r' Hpe Hr') as (r & Hr & Hrr). rewrite (rearranged_at (A nd) order (M nd) r r' Hpe Hr Hrr). rewrite (Hme r Hr). split.
        -- intros (s & Hs & K). exists (arr s order). split; [apply in_map_iff; exists s; auto|]. rewrite (Hty s Hs). exists r. auto.
        -- intros (P & HP & K). apply in_map_iff in HP. destruct HP as (s & <- & Hs). exists s. split; [exact Hs|]. rewrite (Hty s Hs) in K. apply (rearranged_at (A nd) order (M s) r r' Hpe Hr Hrr), K.
    + intros p o K. discriminate.
    + intros c K. discriminate.
    + intros y Hy Hoy Hyr. destruct (reach_inv nd _ _ y Hn Hy) as [->|(s & Hs & Hsy)]; [exfalso; apply (Hself nd Hoy Hyr eq_refl)|].
      apply (sr_map _ _ _ _ _ _ _ _ _ _ N1 (s, order) y); try assumption. apply in_map_iff. exists s. auto.
  - (* subtract *)
    destruct Hty as (HAm & Hl & Hnd & Hsubs). destruct (Hlen Hl Hnd) as (Hnd' & Hl' & Hin'). specialize (Hms' Hl).
    assert (Hsub : forall s, In s subs -> sub_of pl nd s) by (intros s Hs; exists (PSubtract main subs), ms; split; [exact Hn|right; exact Hs]).
    assert (Hmain : sub_of pl nd main) by (exists (PSubtract main subs), ms; split; [exact Hn|left; reflexivity]).
    destruct (aligned_subs subs ms') as (L & EL & Eal & HL).
    { intros s Hs. split; [apply (oo_subs pl OO nd), Hsub, Hs|]. destruct (Hsubs s Hs) as [K1 K2]. split; [exact K1|]. intros x Hx. apply Hin', K2, Hx. }
    assert (HLs : forall x, In x L -> In (fst x) subs) by (intros x Hx; rewrite EL; exact (List.in_map fst L x Hx)).
    destruct (subs_ok nd root IH Hro Hwi Hd ((main, order) :: map (fun x => (fst x, snd (snd x))) L) st G R due) as (st1 & os & G1 & R1 & E1 & N1); [|exact HI|].
    { intros y [<-|Hy]; [split; cbn [fst snd]; [exact Hmain|eapply w_main; eassumption|rewrite HAm; exact Hpe]|].
      apply in_map_iff in Hy. destruct Hy as ([s [l p]] & <- & Hx). cbn [fst snd]. destruct (HL s l p Hx) as (K1 & K2 & K3). split; cbn [fst snd].
      - apply Hsub, (HLs _ Hx).
      - eapply w_subtract; try eassumption. apply (HLs _ Hx).
      - destruct (Hsubs s (HLs _ Hx)) as [[K _] _]. rewrite <- K. exact K1. }
    set (Ts := map (fun x : nat * (list marker * perm) => (fst (snd x), arr (fst x) (snd (snd x)))) L).
    assert (HTs : map fst Ts = map fst (map snd L)) by (unfold Ts; rewrite !map_map; reflexivity).
    assert (HTin : forall T, In T Ts -> exists s l p, In (s, (l, p)) L /\ T = (l, arr s p)).
    { intros T0 HT. unfold Ts in HT. apply in_map_iff in HT. destruct HT as ([s [l p]] & <- & Hx). exists s, l, p. auto. }
    destruct (map_res_each _ _ (layer_map ms') (fun _ _ => True) (map fst (map snd L))) as (Lm & ELm & Emp & _).
    { intros l Hli. rewrite map_map in Hli. apply in_map_iff in Hli. destruct Hli as ([s [l' p]] & <- & Hx). cbn [fst snd]. destruct (layer_map_exists l' ms') as (mp & Emp); [apply (HL s l' p Hx)|exact Hnd'|]. exists mp. auto. }
    pose proof (sr_computes _ _ _ _ _ _ _ _ _ _ N1) as HCs. inversion HCs as [|x0 o0 l0 os0 HC0 HCs' Ex Eo]; subst x0 l0 os. cbn [fst snd] in HC0.
    exists st1, (ROp (TSubtract (map snd Lm) (o0 :: os0))), G1, R1. split; [|split].
    + intros fuel Hf. cbn [execution_node]. rewrite Hcond, Hix. cbn [bind nd_markers nd_op]. rewrite Ems. cbn [bind]. rewrite (subs_columns subs) by (intros s Hs; apply (oo_subs pl OO nd), Hsub, Hs). cbn [bind].
      rewrite Eal. cbn [bind]. rewrite EL at 1. rewrite combine_map. specialize (E1 fuel Hf). unfold sub_call in E1. rewrite E1. cbn [bind fst snd]. rewrite Emp. reflexivity.
    + apply (sr_inv _ _ _ _ _ _ _ _ _ _ N1).
    + apply (sr_grows _ _ _ _ _ _ _ _ _ _ N1).
    + apply rc_op. apply (c_subtract cat _ _ ms' (arr main order) o0 Ts).
      * symmetry. exact Hl'.
      * rewrite HAm in HC0 |- *. exact HC0.
      * unfold Ts. apply Forall2_map_r, Forall2_back. pose proof (Forall2_map_l _ _ _ _ _ _ _ HCs') as K. cbn beta in K.
        eapply Forall2_change; [exact K|]. intros [s [l p]] o Hx Hc. cbn [fst snd] in *. destruct (HL s l p Hx) as (K1 & K2 & _).
        destruct (permute_NoDup p (columns pl s) l K1 K2) as (_ & K3 & _); [apply (Hsubs s (HLs _ Hx))|]. rewrite K3. destruct (Hsubs s (HLs _ Hx)) as [[-> _] _]. exact Hc.
      * rewrite HTs. exact Emp.
      * intros T0 HT. destruct (HTin T0 HT) as (s & l & p & Hx & ->). cbn [fst]. eapply subsequence_NoDup; [apply (HL s l p Hx)|exact Hnd'].
      * intros r' Hr'. destruct (arranged_back (A nd) order r' Hpe Hr') as (r & Hr & Hrr). rewrite (rearranged_at (A nd) order (M nd) r r' Hpe Hr Hrr). rewrite (Hme r Hr).
        assert (HP : forall s l p, In (s, (l, p)) L -> ((exists q, part_of ms r (columns pl s) q /\ M s q) <-> exists q, part_of ms' r' l q /\ arr s p q)).
        { intros s l p Hx. destruct (HL s l p Hx) as (K1 & K2 & _). destruct (Hsubs s (HLs _ Hx)) as [[K3 _] _]. rewrite <- K3. apply (parts_arranged order ms ms' r r' p (columns pl s) l (M s)); try assumption; [unfold row in *; lia|rewrite Hl; exact Hpe]. }
        rewrite HAm, (rearranged_at (A nd) order (M main) r r' Hpe Hr Hrr). split; intros (H0 & H); (split; [exact H0|]).
        -- intros T0 HT. destruct (HTin T0 HT) as (s & l & p & Hx & ->). cbn [fst snd]. intros K. apply (H s (HLs _ Hx)), (HP s l p Hx), K.
        -- intros s Hs. rewrite EL in Hs. apply in_map_iff in Hs. destruct Hs as ([s' [l p]] & Es & Hx). cbn in Es. subst s'. intros K. apply (H (l, arr s p)); [unfold Ts; apply in_map_iff; exists (s, (l, p)); auto|]. apply (HP s l p Hx), K.
    + intros p o K. discriminate.
    + intros c K. discriminate.
    + intros y Hy Hoy Hyr. destruct (reach_inv nd _ _ y Hn Hy) as [->|(s & [<-|Hs] & Hsy)]; [exfalso; apply (Hself nd Hoy Hyr eq_refl)| |].
      * apply (sr_map _ _ _ _ _ _ _ _ _ _ N1 (main, order) y); try assumption. left. reflexivity.
      * rewrite EL in Hs. apply in_map_iff in Hs. destruct Hs as ([s' [l p]] & Es & Hx). cbn in Es. subst s'.
        apply (sr_map _ _ _ _ _ _ _ _ _ _ N1 (s, p) y); try assumption. right. apply in_map_iff. exists (s, (l, p)). auto.
  - (* project *)
    destruct Hty as (Hl & Hnd & (Hls & Hnds) & Hi). assert (Hpr : projecting pl nd) by (exists s, ms; exact Hn). pose proof (oo_projects pl OO nd Hpr) as Hond.
    assert (Enr : nd = root) by (destruct Hd as [Hd|Hd]; [exact Hd|contradiction]).
    pose proof (sp_orders _ _ _ SP nd order Hpr Hwa) as Hid.
    assert (Ems' : ms' = ms) by (specialize (Hms' Hl); rewrite (permute_identical order ms (proj1 Hpe) Hid) in Hms'; congruence). subst ms'.
    assert (Hsub : sub_of pl nd s) by (exists (PProject s), ms; split; [exact Hn|left; reflexivity]).
    destruct (subs_ok nd root IH Hro Hwi Hd [(s, order)] st G R due) as (st1 & os & G1 & R1 & E1 & N1); [|exact HI|].
    { intros y [<-|[]]. split; cbn [fst snd]; [exact Hsub|eapply w_project; eassumption|apply identical_permutes; [apply Hpe|exact Hid]]. }
    pose proof (sr_computes _ _ _ _ _ _ _ _ _ _ N1) as HCs. inversion HCs as [|x0 o0 l0 os0 HC0 HCs' Ex Eo]; subst x0 l0 os. inversion HCs'; subst os0. cbn [fst snd] in HC0. clear HCs HCs'.
    pose proof (sr_over _ _ _ _ _ _ _ _ _ _ N1) as HO. inversion HO as [|x0 o1 l0 os0 HO0 _ Ex Eo]; subst x0 o1 l0 os0. cbn [fst] in HO0. clear HO.
    destruct (project_new_ok ms (columns pl s) Hnd Hi Hnds) as (v & p & Ep & HP & Hv & Hlv & Hb).
    exists st1, (RProject p o0), G1, R1. split; [|split].
    + intros fuel Hf. cbn [execution_node]. rewrite Hcond, Hix. cbn [bind nd_markers nd_op]. rewrite Ems. cbn [bind]. specialize (E1 fuel Hf). cbn [map_state] in E1. unfold sub_call in E1. cbn [fst snd] in E1 |- *.
      destruct (execution_node fuel pl root s order st) as [[sa ra]| |]; cbn [bind fst snd] in E1 |- *; try discriminate. destruct (as_operation ra); cbn [bind fst snd] in E1 |- *; try discriminate. injection E1 as -> ->.
      rewrite (node_columns s) by (apply (oo_subs pl OO nd), Hsub). cbn [bind]. rewrite Ep. reflexivity.
    + pose proof (sr_inv _ _ _ _ _ _ _ _ _ _ N1) as K. cbn [flat_map] in K. rewrite app_nil_r in K. exact K.
    + apply (sr_grows _ _ _ _ _ _ _ _ _ _ N1).
    + apply (rc_project cat _ _ p o0 (length (columns pl s)) (arr s order) v).
      * rewrite Hls. exact HC0.
      * exact HP.
      * exact Hb.
      * unfold marker in *. lia.
      * intros r Hr. rewrite (rearranged_identical (A nd) order (M nd) r Hid Hr), (Hme r Hr). rewrite (projection_projected (columns pl s) ms (arr s order) v Hv). unfold projection.
        split; intros (q & Hq & K1 & K2); exists q; (split; [exact Hq|]; split; [|exact K2]); apply (rearranged_identical (A s) order (M s) q Hid); try assumption; unfold row, marker in *; lia.
    + intros p' o' K. injection K as <- <-. split; [exact Enr|]. exists s, ms. split; [exact Hn|]. split; [exact HO0|]. intros K.
      unfold project_new in Ep. destruct (length (columns pl s) <? length ms); [discriminate|]. destruct (PermProps.C16_choice _ Nat.eqb Nat.eqb_eq (columns pl s) ms Hnds Hnd Hi) as (ch & w & Ech & _ & Hch & _).
      rewrite Ech in Ep. cbn [must bind] in Ep. unfold checked in Ep. destruct (choice_valid ch); cbn [bind] in Ep; [|discriminate]. injection Ep as <-. cbn [pj_choice] in K. apply Hch, K.
    + intros c K. discriminate.
    + intros y Hy Hoy Hyr. destruct (reach_inv nd _ _ y Hn Hy) as [->|(s' & [<-|[]] & Hsy)]; [exfalso; apply (Hself nd Hoy Hyr eq_refl)|].
      apply (sr_map _ _ _ _ _ _ _ _ _ _ N1 (s, order) y); try assumption. left. reflexivity.
  - (* rename *)
    assert (Hsub : sub_of pl nd s) by (exists (PRename s), ms; split; [exact Hn|left; reflexivity]).
    pose proof (RK nd s Hsub) as Hr. pose proof (within_rank pl rank RK root nd Hwi) as Hr'. assert (Hne : s <> root) by (intros E; rewrite E in *; lia).
    destruct (IH s Hsub root order st G R due) as (st1 & rt & G1 & R1 & E1 & N1); try assumption.
    { apply (oo_subs pl OO nd), Hsub. }
    { eapply w_rename; eassumption. }
    { rewrite Hty. exact Hpe. }
    { eapply wi_sub; eassumption. }
    destruct rt as [o|p o]; [|exfalso; destruct (nr_project _ _ _ _ _ _ _ _ _ _ N1 p o eq_refl) as [K _]; congruence].
    exists st1, (ROp o), G1, R1. split; [|split].
    + intros fuel Hf. cbn [execution_node]. rewrite Hcond, Hix. cbn [bind nd_markers nd_op]. rewrite Ems. cbn [bind]. apply E1. rewrite (proj2 (Nat.eqb_neq _ _) Hne). lia.
    + apply (nr_inv _ _ _ _ _ _ _ _ _ _ N1).
    + eapply grows_sub; [exact RK|exact Hsub|apply (nr_grows _ _ _ _ _ _ _ _ _ _ N1)].
    + eapply root_same; [|rewrite <- Hty; apply (nr_computes _ _ _ _ _ _ _ _ _ _ N1)]. intros r Hr0. rewrite Hty. apply rearranged_iff. intros q Hq. apply (Hme q Hq).
    + intros p o' K. discriminate.
    + intros c K Hnr. destruct (nr_over _ _ _ _ _ _ _ _ _ _ N1 c K Hne) as (x & o' & Hx & E). exists x, o'. split; [|exact E]. eapply ov_rename; try eassumption. destruct Hd; [congruence|assumption].
    + intros y Hy Hoy Hyr. destruct (reach_inv nd _ _ y Hn Hy) as [->|(s' & [<-|[]] & Hsy)]; [exfalso; apply (Hself nd Hoy Hyr eq_refl)|]. apply (nr_map _ _ _ _ _ _ _ _ _ _ N1 y Hsy Hoy Hyr).
Qed.
End Nodes.
