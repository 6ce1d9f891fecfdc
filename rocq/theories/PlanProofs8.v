(* From plans to series: the series of a plan. *)
From Coq Require Import List ZArith Bool Lia Arith Permutation Sorted Wf_nat.
From Verif Require Import ColumnModel ScanModel ScanSpec TrieModel TrieSpec TrieScanSpec TrieProofs3 OpModel OpSpec OpProofs3 ProjModel ProjSpec ProjProofs1 ProjProofs2 ProjProofs3 ProjProofs4 ProjProofs5 StoreModel StoreSpec StoreProofs1 StoreProofs2 PlanModel PlanSpec PlanProofs1 PlanProofs2 PlanProofs3 PlanProofs4 PlanProofs5 PlanProofs6 PlanProofs7.
From Verif Require PermModel PermProps PermProofs.
Import ListNotations.
Local Open Scope nat_scope.

Lemma Forall2_nth : forall X Y (R : X -> Y -> Prop) l k i, Forall2 R l k ->
  (forall x, nth_error l i = Some x -> exists y, nth_error k i = Some y /\ R x y) /\ (forall y, nth_error k i = Some y -> exists x, nth_error l i = Some x /\ R x y).
Proof.
  intros X Y R l k i H. revert i. induction H as [|x y l k Hxy _ IH]; intros [|i]; cbn; [split; intros z K; discriminate|split; intros z K; discriminate| |apply IH].
  split; intros z K; injection K as <-; eauto.
Qed.
Lemma Forall2_len : forall X Y (R : X -> Y -> Prop) l k, Forall2 R l k -> length l = length k.
Proof. intros X Y R l k H. induction H; cbn; congruence. Qed.

Section Series.
Variable cat : catalog.
Variable pl : plan.
Variable A : nat -> nat.
Variable M : nat -> row -> Prop.
Hypothesis OO : outs_ok pl.
Hypothesis SP : sound_plan cat pl A.
Hypothesis ME : means cat pl A M.

Notation pinv := (pinv cat pl A M).
Notation rows_of := (rows_of A M).
Notation arr nd order := (rearranged (A nd) order (M nd)).

Record later (st : pstate) (G : list (nat * perm)) (st' : pstate) (G' : list (nat * perm)) : Prop := {
  l_nth : forall c g, nth_error G c = Some g -> nth_error G' c = Some g;
  l_roots : forall c e, nth_error (ps_trees st) c = Some e -> exists e', nth_error (ps_trees st') c = Some e' /\ incl (snd e) (snd e');
  l_map : forall x, in_map st x -> in_map st' x }.
Definition made (st : pstate) (G : list (nat * perm)) (due : list nat) (nd : nat) : Prop :=
  exists c e o, In c due /\ nth_error G c = Some (nd, o) /\ identical o /\ nth_error (ps_trees st) c = Some e /\ In nd (snd e) /\ in_map st nd.
Lemma made_later : forall st G st' G' due due' nd, later st G st' G' -> incl due due' -> made st G due nd -> made st' G' due' nd.
Proof.
  intros st G st' G' due due' nd H Hi (c & e & o & H1 & H2 & H3 & H4 & H5 & H6). destruct (l_roots _ _ _ _ H c e H4) as (e' & E' & K). exists c, e', o.
  split; [apply Hi, H1|]. split; [apply (l_nth _ _ _ _ H), H2|]. split; [exact H3|]. split; [exact E'|]. split; [apply K, H5|apply (l_map _ _ _ _ H), H6].
Qed.
Lemma outs_loop : forall outs st G R due, (forall on, In on outs -> In on (pl_outs pl) /\ is_permanent (on_result on) = true) -> pinv st G R due ->
  exists enough st' cs G' R', (forall fuel, enough <= fuel -> map_state (fun out st => execution_tree fuel pl (on_node out) out PermModel.perm_default st) outs st = Ok (st', cs)) /\
    pinv st' G' R' (due ++ cs) /\ later st G st' G' /\ forall on, In on outs -> made st' G' (due ++ cs) (on_node on).
Proof.
  destruct (sp_acyclic _ _ _ SP) as (rank & RK).
  induction outs as [|on outs IH]; intros st G R due Hl HI.
  { exists 0, st, [], G, R. split; [reflexivity|]. rewrite app_nil_r. split; [exact HI|]. split; [split; [auto| |auto]|intros on []]. intros c e E. exists e. split; [exact E|apply incl_refl]. }
  destruct (Hl on (or_introl eq_refl)) as [Hin Hp].
  assert (Hperm : exists o, permanent pl (on_node on) o). { destruct on as [nd [|o] rq]; [discriminate|]. exists o, rq. exact Hin. }
  destruct Hperm as (po & Hperm). assert (Hout : output pl (on_node on)) by (exists on; auto).
  destruct (tree_all cat pl A M OO SP rank (on_node on) (on_node on) PermModel.perm_default st G R due on) as (st1 & c & G1 & R1 & E1 & H1); try assumption.
  { apply node_root. apply nodes_ok; assumption. }
  { apply (oo_distinct pl OO on Hin). }
  { apply (oo_range pl OO on Hin). }
  { eapply w_output. exact Hperm. }
  { apply permutes_default. }
  { apply wi_root. }
  destruct (IH st1 G1 R1 (due ++ [c])) as (en & st2 & cs & G2 & R2 & E2 & HI2 & L2 & H2); [intros on' Hon'; apply Hl; right; exact Hon'|apply (tr_inv _ _ _ _ _ _ _ _ _ _ _ _ _ _ _ H1)|].
  assert (Hg : grows rank (on_node on) (S (on_node on)) st G st1 G1) by (apply (tr_grows _ _ _ _ _ _ _ _ _ _ _ _ _ _ _ H1); lia).
  exists (max (3 * rank (on_node on) + 2) en), st2, (c :: cs), G2, R2. rewrite <- app_assoc in HI2, H2. cbn [app] in HI2, H2. split; [|split; [exact HI2|split]].
  - intros fuel Hf. cbn [map_state]. rewrite E1 by lia. cbn [bind fst snd]. rewrite E2 by lia. reflexivity.
  - split.
    + intros x g E. apply (l_nth _ _ _ _ L2). eapply grows_nth; eassumption.
    + intros x e E. destruct (g_roots _ _ _ _ _ _ _ Hg x e E) as (e1 & Ee1 & I1). destruct (l_roots _ _ _ _ L2 x e1 Ee1) as (e2 & Ee2 & I2). exists e2. split; [exact Ee2|]. intros y Hy. apply I2, I1, Hy.
    + intros x Hx. apply (l_map _ _ _ _ L2), (g_map _ _ _ _ _ _ _ Hg), Hx.
  - intros on' [<-|Hon']; [|apply (H2 on' Hon')]. apply (made_later st1 G1 st2 G2 [c] _ _ L2); [intros x [<-|[]]; apply in_or_app; right; left; reflexivity|].
    destruct (tr_entry _ _ _ _ _ _ _ _ _ _ _ _ _ _ _ H1) as (o & Ec & Ho). destruct (tr_root _ _ _ _ _ _ _ _ _ _ _ _ _ _ _ H1) as (e & Ee & Hr). exists c, e, o.
    split; [left; reflexivity|]. split; [exact Ec|]. split; [intros i; rewrite Ho; destruct i; reflexivity|]. split; [exact Ee|]. split; [exact Hr|apply (tr_map _ _ _ _ _ _ _ _ _ _ _ _ _ _ _ H1)].
Qed.
Lemma initial_pinv : pinv (mk_pstate [] [] []) [] [] [].
Proof.
  split; split; cbn [ps_trees ps_map ps_loaded].
  - reflexivity.
  - intros [|r] e g E; discriminate.
  - intros nd. cbn. intros [|r] o; discriminate.
  - intros nd [|r] r' o o' _ E; discriminate.
  - intros x y Hx. unfold in_map in Hx. cbn in Hx. congruence.
  - intros id o [].
  - intros c [].
  - intros [|c] e E; discriminate.
  - intros [|c] e E; discriminate.
  - intros [|c] e E; discriminate.
  - intros [|c] e g E; discriminate.
  - intros [|c] e r ch E; discriminate.
Qed.
Lemma wanted_needed : forall nd o, wanted pl nd o -> needed pl nd.
Proof.
  intros nd o H. induction H as [nd o Hp|nd o subs ms ms' s o' l _ IH Hn _ Hs _ _ _|nd o subs ms s _ IH Hn Hs|nd o main subs ms _ IH Hn|nd o main subs ms ms' s o' l _ IH Hn _ Hs _ _ _|nd o s ms _ IH Hn|nd o s ms _ IH Hn].
  - eapply n_output. exact Hp.
  - eapply n_sub; [exact IH|]. eexists _, _. split; [exact Hn|exact Hs].
  - eapply n_sub; [exact IH|]. eexists _, _. split; [exact Hn|exact Hs].
  - eapply n_sub; [exact IH|]. eexists _, _. split; [exact Hn|left; reflexivity].
  - eapply n_sub; [exact IH|]. eexists _, _. split; [exact Hn|right; exact Hs].
  - eapply n_sub; [exact IH|]. eexists _, _. split; [exact Hn|left; reflexivity].
  - eapply n_sub; [exact IH|]. eexists _, _. split; [exact Hn|left; reflexivity].
Qed.
Lemma reach_trans : forall x y z, reach pl x y -> reach pl y z -> reach pl x z.
Proof. intros x y z H. induction H as [x|x s y Hs _ IH]; intros K; [exact K|]. eapply re_sub; [exact Hs|apply IH, K]. Qed.
Lemma needed_reach : forall nd, needed pl nd -> exists p o, permanent pl p o /\ reach pl p nd.
Proof.
  intros nd H. induction H as [nd o Hp|nd s _ (p & o & Hp & Hr) Hs]; [exists nd, o; split; [exact Hp|apply re_refl]|].
  exists p, o. split; [exact Hp|]. eapply reach_trans; [exact Hr|]. eapply re_sub; [exact Hs|apply re_refl].
Qed.

Definition cutt (e : tree * list marker * list nat) : tree :=
  mk_tree (t_root (T e)) (t_result (T e)) (t_id (T e)) (t_dependents (T e)) (t_used (T e)) (compute_cut_layer (snd (fst e)) (concat (map (columns pl) (snd e)))) (t_required (T e)).
Lemma cut_trees : forall trees : list (tree * list marker * list nat), (forall e, In e trees -> forall x, In x (snd e) -> output pl x) -> exists ts, map_res (cut_tree pl) trees = Ok ts /\ Forall2 (fun e t => t = cutt e) trees ts.
Proof.
  induction trees as [|e trees IH]; intros H; [exists []; split; [reflexivity|constructor]|].
  destruct IH as (ts & E & F); [intros e' He'; apply H; right; exact He'|].
  assert (Er : root_markers pl (snd e) = Ok (concat (map (columns pl) (snd e)))).
  { unfold root_markers. rewrite (map_res_ok _ _ _ (columns pl)); [reflexivity|]. intros x Hx. destruct (find_output pl OO x (H e (or_introl eq_refl) x Hx)) as (on & Eon). rewrite Eon. cbn [must bind].
    destruct (find_out_spec _ _ _ Eon) as [Hin <-]. apply node_columns, (oo_range pl OO on Hin). }
  eexists. split; [cbn [map_res]; unfold cut_tree at 1; rewrite Er; cbn [bind]; rewrite E; reflexivity|]. constructor; [reflexivity|exact F].
Qed.

(* what is known about the trees of a series *)
Record made_series (se : series) (G : list (nat * perm)) : Prop := {
  ms_ok : series_ok cat (loaded_tries se) (map rows_of G) (series_trees se);
  ms_tree : forall r t g, nth_error (series_trees se) r = Some t -> nth_error G r = Some g ->
    t_id t = fst g /\ permutes (A (fst g)) (snd g) /\ needed pl (fst g) /\
    exists on, find_out (pl_outs pl) (fst g) = Some on /\ t_result t = (if PermModel.is_identity (snd g) then on_result on else Temporary) /\ t_required t = on_required on;
  ms_used : forall r t o, nth_error (series_trees se) r = Some t -> t_result t = Permanent o -> 0 < t_used t;
  ms_permanent : forall nd o, permanent pl nd o -> exists r o', nth_error G r = Some (nd, o') /\ identical o';
  ms_needed : forall nd, needed pl nd -> output pl nd -> exists r o', nth_error G r = Some (nd, o');
  ms_loaded : forall id o, In (id, o) (loaded_tries se) -> exists n P, nth_error cat id = Some (n, P, None) /\ permutes n o }.
Theorem finalize_ok : exists enough se G, (forall fuel, enough <= fuel -> finalize fuel pl = Ok se) /\ made_series se G.
Proof.
  destruct (outs_loop (filter (fun out => is_permanent (on_result out)) (pl_outs pl)) _ _ _ _ (fun on H => proj1 (filter_In _ _ _) H) initial_pinv) as (en & st & cs & G & R & E & [HS HD] & _ & Hmade). cbn [app] in HD, Hmade.
  pose proof (s_length _ _ _ _ _ _ HS) as HL.
  assert (HG : forall r e, nth_error (ps_trees st) r = Some e -> exists g, nth_error G r = Some g /\ tree_ok cat pl A M (ps_loaded st) (map rows_of G) e g r).
  { intros r e Er. assert (Hr : r < length G) by (rewrite HL; apply nth_error_Some; congruence). apply nth_error_Some in Hr. destruct (nth_error G r) as [g|] eqn:Eg; [|congruence]. exists g. split; [reflexivity|]. apply (s_tree _ _ _ _ _ _ HS r e g Er Eg). }
  assert (Hperm : forall nd o, permanent pl nd o -> made st G cs nd).
  { intros nd o (rq & Hp). apply (Hmade (mk_out nd (Permanent o) rq)). apply filter_In. split; [exact Hp|reflexivity]. }
  destruct (cut_trees (ps_trees st)) as (ts & Ets & F).
  { intros e He x Hx. apply In_nth_error in He. destruct He as (r & Er). destruct (HG r e Er) as (g & _ & HT). apply (to_roots _ _ _ _ _ _ _ _ _ HT), Hx. }
  assert (Hts : forall r t, nth_error ts r = Some t -> exists e, nth_error (ps_trees st) r = Some e /\ t = cutt e) by (intros r t Et; apply (proj2 (Forall2_nth _ _ _ _ _ r F)), Et).
  assert (Hst : forall r e, nth_error (ps_trees st) r = Some e -> exists t, nth_error ts r = Some t /\ t = cutt e) by (intros r e Ee; apply (proj1 (Forall2_nth _ _ _ _ _ r F)), Ee).
  assert (Hlen : length ts = length (ps_trees st)) by (symmetry; apply (Forall2_len _ _ _ _ _ F)).
  exists en, (mk_series (ps_loaded st) ts), G. split.
  { intros fuel Hf. unfold finalize, finalize_trees. rewrite (E fuel Hf). cbn [bind fst]. rewrite Ets. reflexivity. }
  split; cbn [loaded_tries series_trees].
  - split.
    + rewrite map_length, HL, Hlen. reflexivity.
    + intros r t Et. destruct (Hts r t Et) as (e & Ee & ->). destruct (HG r e Ee) as (g & Eg & HT). exists (A (fst g)), (arr (fst g) (snd g)). split; [rewrite nth_error_map, Eg; reflexivity|]. apply (to_computes _ _ _ _ _ _ _ _ _ HT).
    + intros r t Et. destruct (Hts r t Et) as (e & Ee & ->). cbn [cutt t_root]. destruct (d_refs _ _ _ _ _ HD r e Ee) as [(c & ec & ch & Ec & Hc)|Hr].
      * left. destruct (Hst c ec Ec) as (tc & Etc & ->). exists c. eexists _, ch. split; [exact Etc|exact Hc].
      * right. intros c Hc. assert (Hin : In c (R ++ cs)) by (apply in_or_app; left; apply Hr, Hc). pose proof (d_bound _ _ _ _ _ HD c Hin) as Hb. apply nth_error_Some in Hb. destruct (nth_error (ps_trees st) c) as [ec|] eqn:Ec; [|congruence].
        destruct (Hst c ec Ec) as (tc & Etc & ->). eexists. split; [exact Etc|]. cbn [cutt t_used]. pose proof (d_used _ _ _ _ _ HD c ec Ec). apply (count_occ_In Nat.eq_dec) in Hin. lia.
    + intros c tc n Q Etc EC Hd. destruct (Hts c tc Etc) as (e & Ee & ->). destruct (HG c e Ee) as (g & Eg & HT). rewrite nth_error_map, Eg in EC. injection EC as <- <-. destruct (d_deps _ _ _ _ _ HD c e g Ee Eg Hd) as (K1 & _ & K2). auto.
    + intros c tc Etc Hu. destruct (Hts c tc Etc) as (e & Ee & ->). apply (d_zero _ _ _ _ _ HD c e Ee Hu).
    + intros c tc r ch Etc Hin. destruct (Hts c tc Etc) as (e & Ee & ->). destruct (d_dep _ _ _ _ _ HD c e r ch Ee Hin) as (Hlt & e' & p & Er & K1 & K2 & K3). split; [exact Hlt|].
      destruct (Hst r e' Er) as (t & Et & ->). eexists _, p. split; [exact Et|]. auto.
    + intros r t p o Et Er Hid. destruct (Hts r t Et) as (e & Ee & ->). destruct (HG r e Ee) as (g & Eg & HT). cbn [cutt t_root t_cut] in *.
      destruct (to_project _ _ _ _ _ _ _ _ _ HT p o Er) as [_ K]. destruct (K Hid) as (s & ms & Hn & Hcol). rewrite (to_markers _ _ _ _ _ _ _ _ _ HT). destruct (markers_of pl _ _ _ Hn) as [_ ->].
      unfold compute_cut_layer. destruct (rev ms) as [|y l] eqn:Erev; [reflexivity|]. cbn [cut_loop]. assert (Ems : ms = rev l ++ [y]) by (rewrite <- (rev_involutive ms), Erev; reflexivity).
      assert (Hy : In y (concat (map (columns pl) (snd e)))).
      { assert (Hpr : projecting pl (fst g)) by (exists s, ms; exact Hn).
        assert (Hcase : (exists po, permanent pl (fst g) po) \/ forall po, ~ permanent pl (fst g) po).
        { destruct (to_out _ _ _ _ _ _ _ _ _ HT) as (on & Eon & _). destruct (find_out_spec _ _ _ Eon) as [Hin En]. destruct on as [nd res rq]. cbn in En. destruct res as [|po].
          - right. intros po (rq' & Hp). pose proof (oo_distinct pl OO _ Hp) as K'. cbn [on_node] in K'. rewrite Eon in K'. discriminate.
          - left. exists po, rq. rewrite <- En. exact Hin. }
        destruct Hcase as [(po & Hp)|Hnp].
        - destruct (Hperm _ _ Hp) as (c & e' & o' & _ & Ec & _ & Ee' & Hroot & _). destruct g as [nd og]. cbn [fst] in *.
          assert (c = r) by (apply (s_unique _ _ _ _ _ _ HS nd c r o' og Hpr Ec Eg)). subst c. rewrite Ee in Ee'. injection Ee' as <-.
          apply in_concat. exists (columns pl nd). split; [apply List.in_map, Hroot|]. destruct (markers_of pl _ _ _ Hn) as [_ ->]. rewrite Ems. apply in_or_app. right. left. reflexivity.
        - destruct (to_roots _ _ _ _ _ _ _ _ _ HT) as [Hne Hroots]. destruct (snd e) as [|x roots]; [congruence|]. destruct (Hroots x (or_introl eq_refl)) as [Hox Hwx].
          cbn [map concat]. apply in_or_app. left. apply (sp_kept _ _ _ SP (fst g) s ms (rev l) y x); assumption. }
      replace (existsb (Nat.eqb y) (concat (map (columns pl) (snd e)))) with true; [reflexivity|]. symmetry. apply existsb_exists. exists y. split; [exact Hy|apply Nat.eqb_refl].
  - intros r t g Et Eg. destruct (Hts r t Et) as (e & Ee & ->). pose proof (s_tree _ _ _ _ _ _ HS r e g Ee Eg) as HT. cbn [cutt t_id t_result t_required]. split; [apply (to_id _ _ _ _ _ _ _ _ _ HT)|].
    split; [apply (to_permutes _ _ _ _ _ _ _ _ _ HT)|]. split; [eapply wanted_needed, (to_wanted _ _ _ _ _ _ _ _ _ HT)|apply (to_out _ _ _ _ _ _ _ _ _ HT)].
  - intros r t o Et Hres. destruct (Hts r t Et) as (e & Ee & ->). cbn [cutt t_result t_used] in *. destruct (HG r e Ee) as (g & Eg & _). destruct (t_used (T e)) as [|u] eqn:Eu; [|lia].
    destruct (d_deps _ _ _ _ _ HD r e g Ee Eg (d_zero _ _ _ _ _ HD r e Ee Eu)) as (_ & K & _). congruence.
  - intros nd o Hp. destruct (Hperm nd o Hp) as (c & e & o' & _ & Ec & Hi & _). exists c, o'. auto.
  - intros nd Hnd Ho. destruct (needed_reach nd Hnd) as (p & o & Hp & Hr). destruct (Hperm p o Hp) as (c & e & o' & _ & _ & _ & _ & _ & Hm).
    pose proof (s_closed _ _ _ _ _ _ HS p nd Hm Hr Ho) as Hin. unfold in_map in Hin. pose proof (s_map _ _ _ _ _ _ HS nd) as K. destruct (find_key Nat.eqb nd (ps_map st)) as [tables|]; [|congruence].
    destruct K as (ox & r & _ & Er). exists r, ox. exact Er.
  - apply (s_loaded _ _ _ _ _ _ HS).
Qed.
End Series.
