(** The query of a trace does not panic, and its rows are matches. *)
From Coq Require Import List Arith ZArith Bool Lia Permutation.
From Verif Require Import TableModel EngineModel EngineSpec EngineProofs1 EngineProofs2 EngineProofs3 TraceModel TraceSpec TraceProofs1.
Import ListNotations.

(** Facts about the scheduling of operations that [body_node] and [trace_query] share. *)
Record scheduled (r : rule) (vs : list var) (fns : list (var * expr)) (fs ops2 : list oper) (negs : list (atom * list oper * list var)) : Prop := {
  sc_bound : forall v, In v vs <-> bound r v;
  sc_vs : vs = restrict (r_order r) (atom_vars (r_pos r)) ++ map fst fns;
  sc_ok : fun_ok (restrict (r_order r) (atom_vars (r_pos r))) fns;
  sc_body : forall o, body_op r o <-> (exists v e, o = OEq v e /\ In (v, e) fns) \/ In o fs;
  sc_fs : forall o, In o fs -> incl (op_vars o) vs;
  sc_left : forall o, In o ops2 <-> In o (r_ops r) /\ ~ body_op r o;
  sc_neg_op : forall xs o, neg_op r xs o <-> In o ops2 /\ incl (op_vars o) (vs ++ xs);
  sc_negs : forall a ffs pv, In (a, ffs, pv) negs -> In a (r_neg r) /\ (exists v, In v (snd a) /\ In v vs) /\
       (forall o, In o ffs <-> In o ops2 /\ incl (op_vars o) (vs ++ snd a)) /\
       pv = filter (fun v => memv v (snd a)) vs;
  sc_all : forall a, In a (r_neg r) -> (exists v, In v (snd a) /\ In v vs) -> exists ffs pv, In (a, ffs, pv) negs }.

Lemma scheduling r : incl (atom_vars (r_pos r)) (r_order r) ->
  (forall i j p xs q ys v, nth_error (r_neg r) i = Some (p, xs) -> nth_error (r_neg r) j = Some (q, ys) ->
     i <> j -> In v xs -> In v ys -> bound r v) ->
  exists vs fns ops1, gen_function (restrict (r_order r) (atom_vars (r_pos r))) (r_ops r) = Some (vs, fns, ops1) /\
  let '(fs, ops2) := gen_filter vs ops1 in
  let '(negs, _, _) := gen_negation vs (r_neg r) ops2 in scheduled r vs fns fs ops2 negs.
Proof.
  intros Hoincl Hloc.
  destruct (gen_function_spec (restrict (r_order r) (atom_vars (r_pos r))) (r_ops r)) as (vs & fns & ops1 & Eg & F1 & F2 & F3 & F4).
  pose proof (gen_function_bound r (r_order r) vs fns ops1 Hoincl Eg) as Hb.
  exists vs, fns, ops1. split; auto.
  destruct (gen_filter vs ops1) as [fs ops2] eqn:Ef. destruct (gen_filter_spec _ _ _ _ Ef) as (P1 & P2 & P3).
  destruct (gen_negation vs (r_neg r) ops2) as [[negs rest] ops3] eqn:En.
  destruct (gen_negation_spec _ _ _ _ _ _ En) as (N0 & N1 & N2 & N3).
  { intros i k [p xs] [q ys] v Hi Hk Hik Hv1 Hv2. apply Hb. apply (Hloc i k p xs q ys v); auto. }
  { intros o Ho. apply P3 in Ho. tauto. }
  assert (Hbody : forall o, body_op r o <-> (exists v e, o = OEq v e /\ In (v, e) fns) \/ In o fs).
  { intros o. split.
    - intros [Ho Hob]. apply (Permutation_in _ F3), in_app_iff in Ho. destruct Ho as [Ho|Ho].
      + apply in_map_iff in Ho. destruct Ho as ([v e] & <- & Ho). left. exists v, e. auto.
      + right. apply P2. split; auto. intros v Hv. apply Hb. auto.
    - intros [(v & e & -> & Hin)|Hin].
      + split. { apply (Permutation_in _ (Permutation_sym F3)), in_app_iff. left. apply in_map_iff. exists (v, e). auto. }
        assert (Hx : forall vs0 fs0, fun_ok vs0 fs0 -> In (v, e) fs0 -> incl (v :: e_vars e) (vs0 ++ map fst fs0)).
        { clear. intros vs0 fs0. revert vs0. induction fs0 as [|[w f] fs0 IH]; simpl; intros vs0 H Hi; [tauto|].
          destruct H as (H1 & H2 & H3). destruct Hi as [Heq|Hi].
          - injection Heq as -> ->. intros x [<-|Hx]; apply in_app_iff; simpl; auto.
          - specialize (IH _ H3 Hi). rewrite <- app_assoc in IH. exact IH. }
        intros w Hw. apply Hb. rewrite F1. apply (Hx _ _ F2 Hin). exact Hw.
      + apply P2 in Hin. destruct Hin as [Hin Hincl]. split.
        { apply (Permutation_in _ (Permutation_sym F3)), in_app_iff. auto. }
        intros w Hw. apply Hb. auto. }
  assert (Hleft : forall o, In o ops2 <-> In o (r_ops r) /\ ~ body_op r o).
  { intros o. rewrite P3. split.
    + intros [Ho Hni]. split. { apply (Permutation_in _ (Permutation_sym F3)), in_app_iff. auto. }
      intros [_ Hc]. apply Hni. intros v Hv. apply Hb. auto.
    + intros [Ho Hnb]. assert (Hni : ~ incl (op_vars o) vs).
      { intros Hc. apply Hnb. split; auto. intros w Hw. apply Hb. auto. }
      split; auto. apply (Permutation_in _ F3), in_app_iff in Ho. destruct Ho as [Ho|Ho]; auto.
      exfalso. apply Hnb. apply Hbody. left. apply in_map_iff in Ho. destruct Ho as ([v e] & <- & Ho). exists v, e. auto. }
  constructor; auto.
  - intros o Ho. now apply P2.
  - intros xs o. rewrite Hleft. unfold neg_op, incl. split.
    + intros (T1 & T2 & T3). split; auto. intros w Hw. apply in_app_iff. destruct (T3 w Hw) as [?|?]; auto. left. now apply Hb.
    + intros ((T1 & T2) & T3). split; auto. split; auto. intros w Hw. specialize (T3 w Hw). apply in_app_iff in T3.
      destruct T3 as [Hq|Hq]; auto. left. now apply Hb.
Qed.

Lemma body_executable rd r cur last x : wf_rule r -> body_node rd r cur last = Some x -> executable r.
Proof.
  intros Hwf H. destruct (scheduling r) as (vs & fns & ops1 & Eg & Hs); [apply (wf_order r Hwf)|apply (wf_neg_local r Hwf)|].
  unfold body_node in H. destruct (seminaive_node rd true (r_pos r) (r_order r) cur last) as [j|] eqn:Ej; [|discriminate].
  rewrite Eg in H. destruct (gen_filter vs ops1) as [fs ops2]. destruct (gen_negation vs (r_neg r) ops2) as [[negs rest] ops3].
  destruct (filter_node (fun_node (nvars j) fns (nrows j)) fs) as [nf|] eqn:Ef; [|discriminate].
  destruct (negation_node rd nf negs cur last) as [n|] eqn:En; [|discriminate].
  assert (Hv : nvars (fun_node (nvars j) fns (nrows j)) = vs).
  { rewrite fun_node_vars, (seminaive_vars _ _ _ _ _ _ _ Ej). symmetry. apply (sc_vs _ _ _ _ _ _ Hs). }
  constructor.
  - intros p xs o Hp Ho. destruct (sc_all _ _ _ _ _ _ Hs (p, xs) Hp) as (ffs & pv & Hin).
    { destruct (wf_neg r Hwf p xs Hp) as (v & Hv1 & Hv2). exists v. split; auto. now apply (sc_bound _ _ _ _ _ _ Hs). }
    unfold negation_node in En. match type of En with option_map _ (mapM ?f negs) = _ => set (F := f) in En end.
    destruct (mapM F negs) as [subs|] eqn:E; [|discriminate]. destruct (mapM_forall _ _ _ E) as [E1 _].
    destruct (E1 _ Hin) as (s & Es & _). unfold F in Es.
    assert (Ha : exists na, atom_node rd (p, xs) RAll cur last = Some na /\ nvars na = xs).
    { destruct (atom_node rd (p, xs) RAll cur last) as [na|] eqn:Ea; [|discriminate]. exists na. split; auto. unfold atom_node in Ea. simpl in Ea.
      destruct (rd p 0 cur); [|discriminate]. injection Ea as <-. reflexivity. }
    destruct Ha as (na & Ea & Hna). rewrite Ea in Es. destruct (filter_node na ffs) as [nf'|] eqn:Enf; [|discriminate].
    assert (Hof : In o ffs). { apply (sc_negs _ _ _ _ _ _ Hs _ _ _ Hin). now apply (sc_neg_op _ _ _ _ _ _ Hs) in Ho. }
    destruct (proj2 (filter_node_some na ffs)) as [->|[_ Hi]]; [eauto|destruct Hof|]. rewrite <- Hna. now apply Hi.
  - intros e He Hev. assert (Hf : In (OFilter e) fs).
    { assert (Hbo : body_op r (OFilter e)) by (split; auto; simpl; rewrite Hev; intros w []).
      apply (sc_body _ _ _ _ _ _ Hs) in Hbo. destruct Hbo as [(v & e' & Heq & _)|?]; [discriminate|auto]. }
    destruct (proj2 (filter_node_some (fun_node (nvars j) fns (nrows j)) fs)) as [->|[Hne _]]; [eauto|destruct Hf|]. rewrite Hv in Hne.
    destruct vs as [|v vs]; [tauto|]. exists v. apply (sc_bound _ _ _ _ _ _ Hs). now left.
Qed.

Section Query.
Context (rd : reader) (D : tag -> nat -> row -> Prop) (Hrd : rd_ok rd D).
Context (r : rule) (Hwf : wf_rule r) (Ht : traceable r) (Hex : executable r) (g : assignment).
Context (Hg : forall v z, In (v, z) g -> clean r v).
Let rt := grounded r g.

Theorem trace_query_spec step : exists n vars, trace_query rd r g step = Some (n, vars) /\ wfn n /\
  (forall v, In v (nvars n) <-> bound rt v) /\
  (exists new, nvars n = restrict (r_order r) (atom_vars (r_pos r)) ++ new) /\ vars = restrict (r_order r) (nvars n) /\
  forall nu, msat nu n <-> matches rt (upto D step) (upto D step) nu.
Proof.
  destruct (wf_order r Hwf) as [Hond Hoincl].
  assert (Hloc : forall i j p xs q ys v, nth_error (r_neg rt) i = Some (p, xs) -> nth_error (r_neg rt) j = Some (q, ys) ->
     i <> j -> In v xs -> In v ys -> bound rt v).
  { intros i j p xs q ys v Hi Hj Hij Hx Hy. apply bound_up. apply (wf_neg_local r Hwf i j p xs q ys v); auto. }
  destruct (scheduling rt Hoincl Hloc) as (vs & fns & ops1 & Eg & Hs). unfold trace_query.
  change (r_ops r ++ map ground_op g) with (r_ops rt). change (r_order rt) with (r_order r) in *. change (r_pos rt) with (r_pos r) in *. change (r_neg rt) with (r_neg r) in *.
  rewrite Eg. destruct (gen_filter vs ops1) as [fs ops2]. destruct (gen_negation vs (r_neg r) ops2) as [[negs rest] ops3].
  destruct (variant_node_spec rd D Hrd (r_pos r) (map (fun _ => ROld) (r_pos r)) (r_order r) step step) as (j & Ej & J1 & J2 & J3); auto.
  { intros [p xs] Ha. apply (wf_atoms r Hwf p). apply in_app_iff. auto. }
  { now rewrite map_length. }
  assert (J4 : forall nu, msat nu j <-> forall p xs, In (p, xs) (r_pos r) -> upto D step p (map nu xs)).
  { intros nu. rewrite J3. split.
    - intros H p xs Hp. destruct (combine_in_l (r_pos r) (map (fun _ => ROld) (r_pos r))) with (x := (p, xs)) as (u & Hu); auto; [now rewrite map_length|].
      assert (u = ROld) as ->. { apply in_combine_r in Hu. apply in_map_iff in Hu. destruct Hu as (? & <- & _). reflexivity. }
      destruct (H _ _ Hu) as (s & Hr & Hd). exists s. unfold in_range in Hr. simpl in Hr. split; [lia|exact Hd].
    - intros H [p xs] u Hu. assert (u = ROld) as ->. { apply in_combine_r in Hu. apply in_map_iff in Hu. destruct Hu as (? & <- & _). reflexivity. }
      apply in_combine_l in Hu. destruct (H _ _ Hu) as (s & Hr & Hd). exists s. unfold in_range. simpl. split; [lia|exact Hd]. }
  assert (Wj : wfn (mkNode (nvars j) (nrows j))) by (destruct j; exact J2).
  assert (F2' : fun_ok (nvars j) fns) by (rewrite J1; apply (sc_ok _ _ _ _ _ _ Hs)).
  destruct (fun_node_spec fns (nvars j) (nrows j) Wj F2') as (Q1 & Q2 & Q3).
  assert (Hvs0 : nvars (fun_node (nvars j) fns (nrows j)) = vs). { rewrite fun_node_vars, J1. symmetry. apply (sc_vs _ _ _ _ _ _ Hs). }
  destruct (proj1 (filter_node_some (fun_node (nvars j) fns (nrows j)) fs)) as (nf & Efn).
  { rewrite Hvs0. destruct fs as [|o fs]; [left; reflexivity|]. right. split; [|apply (sc_fs _ _ _ _ _ _ Hs)].
    assert (Ho : body_op rt o) by (apply (sc_body _ _ _ _ _ _ Hs); right; now left).
    pose proof (sc_fs _ _ _ _ _ _ Hs o (or_introl eq_refl)) as Hi. intros ->. destruct o as [v e|e].
    - destruct (Hi v). simpl. auto.
    - assert (He : e_vars e = []) by (simpl in Hi; now apply incl_l_nil).
      destruct Ho as [Ho _]. simpl in Ho. apply in_app_iff in Ho. destruct Ho as [Ho|Ho].
      + destruct (ex_filter r Hex e Ho He) as (v & Hv). apply (bound_up r g) in Hv. apply (sc_bound _ _ _ _ _ _ Hs) in Hv. destruct Hv.
      + apply in_map_iff in Ho. destruct Ho as (x & Heq & _). discriminate. }
  assert (Hne : r_pos r <> []) by apply (tb_pos r Ht).
  destruct (r_pos r) as [|a0 pos] eqn:Epos; [tauto|]. rewrite <- Epos in *. rewrite Ej, Efn.
  destruct (filter_spec _ _ _ Efn Q2) as (R1 & R2 & R3 & R4).
  assert (Hvs : nvars nf = vs) by now rewrite R1.
  assert (Hsome : exists n1, negation_node rd nf negs step step = Some n1).
  { unfold negation_node. match goal with |- exists n1, option_map _ (mapM ?f negs) = _ => set (F := f) end.
    assert (Hall : forall x, In x negs -> exists y, F x = Some y).
    { intros [[[p xs] ffs] pv] Hin. destruct (sc_negs _ _ _ _ _ _ Hs _ _ _ Hin) as (Ha & _ & Hfs & ->). unfold F.
      destruct (atom_node_spec rd D Hrd (p, xs) RAll step step) as (na & Ena & A1 & _); [apply (wf_atoms r Hwf p); apply in_app_iff; auto|]. rewrite Ena.
      destruct (proj1 (filter_node_some na ffs)) as (m & Em).
      { destruct ffs as [|o ffs]; [left; reflexivity|]. right. rewrite A1.
        assert (Hno : forall o', In o' (o :: ffs) -> neg_op r xs o').
        { intros o' Ho'. apply Hfs in Ho'. apply (sc_neg_op _ _ _ _ _ _ Hs) in Ho'. now apply (neg_op_same r Hwf Ht g Hg p) in Ho'. }
        split; [|intros o' Ho'; apply (ex_neg r Hex p xs o' Ha (Hno o' Ho'))]. intros Hx. simpl in Hx.
        destruct (wf_neg r Hwf p xs Ha) as (v & Hv & _). rewrite Hx in Hv. destruct Hv. }
      simpl fst. simpl snd. rewrite Em. apply project_some. intros v Hv. apply filter_In in Hv.
      assert (Env : nvars m = nvars na). { unfold filter_node in Em. destruct ffs; [congruence|]. destruct (nvars na); [discriminate|]. destruct (forallb _ _); [|discriminate]. injection Em as <-. reflexivity. }
      rewrite Env, A1. simpl. destruct Hv as [_ Hv]. now apply memv_in. }
    clear - Hall. induction negs as [|x negs IH]; simpl; [eauto|].
    destruct (Hall x (or_introl eq_refl)) as (y & ->). destruct IH as (n1 & En); [intros z Hz; apply Hall; now right|].
    destruct (mapM F negs) as [ys|]; [|discriminate]. simpl. eauto. }
  destruct Hsome as (n1 & Enn). rewrite Enn. simpl. exists n1, (restrict (r_order r) vs).
  destruct (negation_node_spec rd D Hrd nf vs negs (r_neg r) ops2 step step n1) as (S1 & S2 & S3); auto.
  { intros [p xs] Ha. apply (wf_atoms r Hwf p). apply in_app_iff. auto. }
  { apply (sc_negs _ _ _ _ _ _ Hs). }
  { apply (sc_all _ _ _ _ _ _ Hs). }
  split; auto. split; auto. split; [intros v; rewrite S1; apply (sc_bound _ _ _ _ _ _ Hs)|]. split; [exists (map fst fns); rewrite S1; apply (sc_vs _ _ _ _ _ _ Hs)|].
  split; [now rewrite S1|].
  assert (Hshare : forall a, In a (r_neg r) -> exists v, In v (snd a) /\ In v vs).
  { intros [p xs] Ha. destruct (wf_neg r Hwf p xs Ha) as (v & Hv & Hbv). exists v. split; auto. apply (sc_bound _ _ _ _ _ _ Hs). now apply bound_up. }
  intros nu. rewrite S3, R4, Q3.
  assert (Hj : msat nu (mkNode (nvars j) (nrows j)) <-> msat nu j) by (destruct j; tauto).
  rewrite Hj, J4. clear Hj. split.
  - intros [[[Hp Hf] Hfs] Hneg]. constructor.
    + exact Hp.
    + intros o Ho. apply (sc_body _ _ _ _ _ _ Hs) in Ho. destruct Ho as [(v & e & -> & Hi)|Hi]; auto. simpl. auto.
    + intros p xs Hin (nu' & Hag & Hm & Hno). apply (Hneg (p, xs) Hin (Hshare _ Hin)).
      exists nu'. split; [|split; auto].
      * intros v Hv. apply Hag. now apply (sc_bound _ _ _ _ _ _ Hs).
      * intros o Ho Hi. apply Hno. apply (sc_neg_op _ _ _ _ _ _ Hs). auto.
  - intros [Hp Ho Hn]. split; [split; [split|]|].
    + exact Hp.
    + intros v e Hin. apply (Ho (OEq v e)). apply (sc_body _ _ _ _ _ _ Hs). eauto.
    + intros o Hin. apply Ho. apply (sc_body _ _ _ _ _ _ Hs). auto.
    + intros [p xs] Hin _ (nu' & Hag & Hm & Hno). apply (Hn p xs Hin). exists nu'. split; [|split; auto].
      * intros v Hv. apply Hag. now apply (sc_bound _ _ _ _ _ _ Hs).
      * intros o Hoo. apply (sc_neg_op _ _ _ _ _ _ Hs) in Hoo. apply Hno; tauto.
Qed.
End Query.
