(** Proofs: planning succeeds for rules with one factor. *)
From Coq Require Import List Arith ZArith Bool Lia Permutation.
From Verif Require Import TableModel EngineModel EngineSpec EngineProofs1 EngineProofs2 EngineProofs3 StageModel StageSpec StageProofs1 StageProofs2 StageProofs3.
Import ListNotations.

Lemma mapM_some {A B} (f : A -> option B) l : (forall x, In x l -> exists y, f x = Some y) -> exists ys, mapM f l = Some ys.
Proof.
  induction l as [|x l IH]; intros H; simpl; [eauto|]. destruct (H x) as (y & ->); [simpl; auto|].
  destruct IH as (ys & ->); [intros z Hz; apply H; simpl; auto|]. eauto.
Qed.
Lemma filter_some n fs : nvars n <> [] -> (forall o, In o fs -> incl (op_vars o) (nvars n)) -> exists n', filter_node n fs = Some n' /\ nvars n' = nvars n.
Proof.
  intros Hn Ho. assert (E : forallb (fun o => inclb (op_vars o) (nvars n)) fs = true) by (apply forallb_forall; intros x Hx; apply inclb_incl; auto).
  unfold filter_node. destruct fs as [|o fs]; [exists n; auto|]. rewrite E.
  destruct (nvars n) as [|v vs] eqn:Ev; [contradiction|]. eexists. split; [reflexivity|]. reflexivity.
Qed.

Section Some.
Context (rd : reader) (D : tag -> nat -> row -> Prop) (Hrd : rd_ok rd D).

Lemma ffn_some vs ops negs cur last n :
  wfn n -> nvars n = vs -> vs <> [] -> (forall a, In a negs -> NoDup (snd a)) ->
  (forall i j a b v, nth_error negs i = Some a -> nth_error negs j = Some b -> i <> j -> In v (snd a) -> In v (snd b) ->
     (exists w, In w (snd a) /\ clo vs ops w) -> (exists w, In w (snd b) /\ clo vs ops w) -> clo vs ops v) ->
  (forall a o, In a negs -> (exists w, In w (snd a) /\ clo vs ops w) -> In o ops -> (exists w, In w (op_vars o) /\ ~ clo vs ops w) ->
     (forall w, In w (op_vars o) -> clo vs ops w \/ In w (snd a)) -> incl (op_vars o) (snd a)) ->
  exists g ops' kept n', gen_ffn vs ops negs = Some (g, ops', kept) /\ ffn_node rd g n cur last = Some n'.
Proof.
  intros Hw Hv Hne Hnd Hloc Hflt. unfold gen_ffn.
  destruct (gen_function_spec vs ops) as (vs' & fns & ops1 & Ef & F1 & F2 & F3 & F4). rewrite Ef.
  pose proof (gen_function_clo _ _ _ _ _ Ef) as Hclo. pose proof (gen_function_holds _ _ _ _ _ Ef) as Hholds.
  destruct (gen_filter vs' ops1) as [fs ops2] eqn:Efi. destruct (gen_filter_spec _ _ _ _ Efi) as (P1 & P2 & P3).
  rewrite gen_negation_filter. destruct (gen_negation vs' (filter (shares vs') negs) ops2) as [[l rest] ops3] eqn:En.
  assert (Sh : forall a, shares vs' a = true <-> exists w, In w (snd a) /\ clo vs ops w).
  { intros a. rewrite shares_spec. split; intros (w & H1 & H2); exists w; split; auto; now apply Hclo. }
  destruct (gen_negation_spec _ _ _ _ _ _ En) as (N0 & N1 & N2 & N3).
  { intros i j a b v Hi Hj Hij Ha Hb. destruct (nth_filter _ _ _ _ _ _ Hi Hj Hij) as (i' & j' & K1 & K2 & K3).
    apply Hclo. apply (Hloc i' j' a b v K1 K2 K3 Ha Hb); apply Sh.
    - apply nth_error_In, filter_In in Hi. tauto.
    - apply nth_error_In, filter_In in Hj. tauto. }
  { intros o Ho. apply P3 in Ho. tauto. }
  assert (Hx : exists n', ffn_node rd (vs', fns, fs, l) n cur last = Some n'); [|destruct Hx as (n' & Hx); exists (vs', fns, fs, l); eauto]. unfold ffn_node.
  assert (Wn : wfn (mkNode (nvars n) (nrows n))) by (destruct n; exact Hw).
  assert (F2' : fun_ok (nvars n) fns) by now rewrite Hv.
  destruct (fun_node_spec fns (nvars n) (nrows n) Wn F2') as (Q1 & Q2 & Q3).
  assert (Hvs : nvars (fun_node (nvars n) fns (nrows n)) = vs') by (rewrite Q1, Hv; symmetry; exact F1).
  assert (Hne' : vs' <> []) by (rewrite F1; destruct vs; [contradiction|discriminate]).
  destruct (filter_some (fun_node (nvars n) fns (nrows n)) fs) as (nf & -> & Hnf).
  { now rewrite Hvs. } { intros o Ho. rewrite Hvs. apply P2 in Ho. tauto. }
  unfold negation_node.
  match goal with |- exists n', option_map _ (mapM ?f l) = Some n' => destruct (mapM_some f l) as (ys & ->); [|cbn; eauto] end.
  intros [[a gs] pv] Hx. destruct (N1 a gs pv Hx) as (Ha & Hsh & Hgs & ->). apply filter_In in Ha. destruct Ha as [Ha Hs]. apply Sh in Hs.
  destruct (atom_node_spec rd D Hrd a RAll cur last (Hnd a Ha)) as (na & -> & A1 & A2 & A3).
  destruct (filter_some na gs) as (ng & -> & Hng).
  { rewrite A1. destruct Hs as (w & Hwx & _). intros E. rewrite E in Hwx. destruct Hwx. }
  { rewrite A1. intros o Ho. apply Hgs in Ho. destruct Ho as [Ho Hi]. apply P3 in Ho. destruct Ho as [Ho Hni].
    apply Hflt; auto.
    - apply (Permutation_in _ (Permutation_sym F3)), in_app_iff. auto.
    - destruct (existsb (fun w => negb (memv w vs')) (op_vars o)) eqn:Ex.
      + apply existsb_exists in Ex. destruct Ex as (w & H1 & H2). exists w. split; auto. rewrite <- Hclo. now apply memv_false, negb_true_iff.
      + exfalso. apply Hni. intros w Hw0. destruct (memv w vs') eqn:Em; [now apply memv_in|].
        exfalso. rewrite <- not_true_iff_false in Ex. apply Ex, existsb_exists. exists w. now rewrite Em.
    - intros w Hw0. specialize (Hi w Hw0). apply in_app_iff in Hi. rewrite <- Hclo. exact Hi. }
  apply project_some. rewrite Hng, A1. intros v Hv0. apply filter_In in Hv0. destruct Hv0 as [_ Hm]. now apply memv_in.
Qed.
End Some.

Section One.
Context (rd : reader) (D : tag -> nat -> row -> Prop) (Hrd : rd_ok rd D).
Context (r : irule) (G : good_body r) (cur last : nat) (Hle : last <= cur) (imported : list node -> tag -> list row).

Lemma import_join_some imp order n pimp nimp : wfn n -> NoDup order -> (forall a, In a (pimp ++ nimp) -> NoDup (snd a)) ->
  (forall v, In v order <-> In v (nvars n) \/ In v (atom_vars pimp)) ->
  exists j, import_join imp order n pimp (map (fun a => (a, [])) nimp) = Some j.
Proof.
  intros Hw Ho Hnd Hord. unfold import_join. destruct (join_nodes_some order (n :: map (import_node imp) pimp)) as (j & ->).
  - intros m [<-|Hm]; auto. apply in_map_iff in Hm. destruct Hm as (a & <- & Ha). apply import_node_spec, Hnd, in_app_iff. auto.
  - intros v. rewrite Hord. split.
    + intros [Hv|Hv]; [exists n; simpl; auto|]. apply in_flat_map in Hv. destruct Hv as (a & Ha & Hv). exists (import_node imp a). split; auto.
      right. now apply in_map.
    + intros (m & [<-|Hm] & Hv); auto. apply in_map_iff in Hm. destruct Hm as (a & <- & Ha). right. apply in_flat_map. exists a. auto.
  - assert (Hsub : exists ss, mapM (fun x : atom * list oper => match filter_node (import_node imp (fst x)) (snd x) with
       | None => None | Some nf => project (filter (fun v => memv v (snd (fst x))) order) nf end) (map (fun a => (a, [])) nimp) = Some ss).
    { apply mapM_some. intros x Hx. apply in_map_iff in Hx. destruct Hx as (a & <- & Ha). cbn [fst snd filter_node]. apply project_some.
      cbn [nvars import_node]. intros v Hv. apply filter_In in Hv. destruct Hv as [_ Hv]. now apply memv_in. }
    destruct Hsub as (ss & E). destruct (map (fun a => (a, [])) nimp) as [|x l]; [eauto|]. rewrite E. cbn. eauto.
Qed.

Theorem one_factor_plans : one_factor r -> (forall p xs o, In (p, xs) (i_neg r) -> neg_op (plain r) xs o -> incl (op_vars o) xs) ->
  exists x, import_body rd imported r cur last = Some x.
Proof.
  intros O Hloc. unfold import_body. rewrite (partition_none r G).
  destruct (g_order r G) as [Ond Oin].
  destruct (linked_one (i_pos r) _ (fold_parts (i_pos r))) as (pv & l & Ep & Pl).
  { apply (o_pos r O). } { intros [p xs] Ha. apply (o_nonempty r O p xs Ha). } { apply (o_linked r O). }
  rewrite Ep. cbn [map snd factor_nodes length].
  assert (Hl : l <> []). { intros ->. apply Permutation_nil in Pl. apply (o_pos r O Pl). }
  assert (Hav : forall v, In v (atom_vars l) <-> In v (atom_vars (i_pos r))).
  { intros v. unfold atom_vars. rewrite !in_flat_map. split; intros (a & Ha & Hv); exists a; split; auto;
      [apply (Permutation_in _ Pl) | apply (Permutation_in _ (Permutation_sym Pl))]; auto. }
  assert (Oinl : incl (atom_vars l) (i_order r)).
  { intros v Hv. apply Oin. rewrite atom_vars_app, in_app_iff. left. now apply Hav. }
  destruct (seminaive_spec rd D Hrd true l (i_order r) cur last) as (j & Ej & J1 & J2 & J3); auto.
  { intros [p xs] Ha. apply (g_atoms r G p). apply in_app_iff. left. apply (Permutation_in _ Pl Ha). }
  rewrite Ej.
  assert (C1 : forall v, clo (restrict (i_order r) (atom_vars l)) (i_ops r) v <-> bound (inner r) v).
  { intros v. rewrite bound_inner. apply clo_ext. intros w. rewrite restrict_all by exact Oinl. apply Hav. }
  assert (Loc : forall i k (a b : atom) v, nth_error (i_neg r) i = Some a -> nth_error (i_neg r) k = Some b -> i <> k -> In v (snd a) -> In v (snd b) -> bound (plain r) v).
  { intros i k [p xs] [q ys] v Hi Hk Hne Ha Hb. apply (g_local r G i k p xs q ys v); auto. }
  assert (Negs : forall (a : atom), In a (i_neg r) -> NoDup (snd a)).
  { intros [p xs] Ha. apply (g_atoms r G p), in_app_iff. right. apply in_app_iff. auto. }
  assert (Loc1 : forall i j (a b : atom) v, nth_error (i_neg r) i = Some a -> nth_error (i_neg r) j = Some b -> i <> j -> In v (snd a) -> In v (snd b) ->
     (exists w, In w (snd a) /\ clo (restrict (i_order r) (atom_vars l)) (i_ops r) w) ->
     (exists w, In w (snd b) /\ clo (restrict (i_order r) (atom_vars l)) (i_ops r) w) -> clo (restrict (i_order r) (atom_vars l)) (i_ops r) v).
  { intros i k [p xs] [q ys] v Hi Hk Hne Ha Hb (w & Hw & Hcw) _. rewrite C1 in *. apply (o_neg r O p xs (nth_error_In _ _ Hi)); eauto. }
  assert (Fl : forall p xs o, In (p, xs) (i_neg r) -> In o (i_ops r) -> (exists w, In w (op_vars o) /\ ~ bound (plain r) w) ->
     (forall w, In w (op_vars o) -> bound (plain r) w \/ In w xs) -> incl (op_vars o) xs).
  { intros p xs o Ha Ho (w & Hw & Hnw) Hv. apply (Hloc p xs o Ha). split; auto. split; auto. intros [_ Hb]. auto. }
  destruct (ffn_some rd D Hrd (restrict (i_order r) (atom_vars l)) (i_ops r) (i_neg r) cur last j) as (g1 & ops1 & negs1 & n1 & Eg1 & En1); auto.
  { assert (Hx : exists v, In v (atom_vars l)).
    { destruct l as [|[p xs] l']; [contradiction|].
      assert (Hx : xs <> []) by (apply (o_nonempty r O p xs); apply (Permutation_in _ Pl); simpl; auto).
      destruct xs as [|v xs]; [contradiction|]. exists v. simpl. auto. }
    destruct Hx as (v & Hv). apply (restrict_all (i_order r)) in Hv; auto. intros E. rewrite E in Hv. destruct Hv. }
  { intros [p xs] o Ha (w0 & Hw0 & Hb0) Ho (w & Hw & Hnw) Hv. cbn [snd] in *. apply (Fl p xs o Ha Ho).
    - exists w. split; auto. intros Hbp. apply Hnw. destruct (Hv w Hw) as [?|Hx]; auto. apply C1. apply (o_neg r O p xs Ha); auto.
      exists w0. split; auto. now apply C1.
    - intros x Hx. destruct (Hv x Hx) as [Hc|?]; auto. left. apply inner_plain. now apply C1. }
  rewrite Eg1, En1. change (1 =? 1) with true. cbv iota. cbn [map fst].
  destruct (ffn_spec rd D Hrd _ (i_ops r) (i_neg r) cur last j g1 ops1 negs1 n1 J2 J1) as (F1 & F2 & F3 & F4 & F5 & F6); auto.
  rewrite negated_none.
  2:{ intros [p xs] o Ha Ho Hi. apply F5 in Ho. destruct Ho as (Ho & (w & Hw & Hnw) & _). apply Hnw, C1. apply (o_nimp r O p xs o Ha Ho Hi w Hw). }
  assert (Esj : is_single_join [FAtoms l] = true).
  { unfold is_single_join. destruct l; [contradiction|reflexivity]. }
  rewrite Esj. set (order := restrict (i_order r) (fst (fst (fst g1)) ++ atom_vars (i_pimp r))).
  assert (Hord : forall v, In v order <-> bound (inner r) v \/ In v (atom_vars (i_pimp r))).
  { intros v. unfold order. rewrite restrict_in, in_app_iff, <- F2, F3, C1. split; [tauto|]. intros Hv. split; auto. apply Oin.
    destruct Hv as [Hv|Hv]; [apply (o_computed r O v Hv)|]. rewrite atom_vars_app, in_app_iff. auto. }
  assert (NDo : NoDup order) by (apply NoDup_filter; exact Ond).
  assert (Hnd2 : forall a, In a (i_pimp r ++ i_nimp r) -> NoDup (snd a)).
  { intros [p xs] Ha. apply (g_atoms r G p), in_app_iff. right. apply in_app_iff. auto. }
  destruct (import_join_some (imported [n1]) order n1 (i_pimp r) (i_nimp r) F1 NDo Hnd2) as (j2 & Ej2).
  { intros v. rewrite Hord, F3, C1. reflexivity. }
  rewrite Ej2.
  destruct (import_join_spec (imported [n1]) order n1 (i_pimp r) (i_nimp r) j2 F1 NDo Hnd2) as (K1 & K2 & K3); auto.
  { intros [p xs] Ha v Hv. apply Hord. pose proof (g_nimp r G p xs Ha v Hv) as Hx. rewrite atom_vars_app, in_app_iff in Hx.
    destruct Hx as [Hx|Hx]; auto. left. apply bound_inner. now left. }
  assert (C2 : forall v, clo order ops1 v -> bound (plain r) v).
  { induction 1 as [v Hv|v e Hi _ IH].
    + apply Hord in Hv. destruct Hv as [Hv|Hv]; [now apply inner_plain|]. apply bound_plain. left. rewrite atom_vars_app, in_app_iff. auto.
    + apply F5 in Hi. destruct Hi as [Hi _]. rewrite bound_plain in *. eright; [exact Hi|]. intros w Hw. apply bound_plain. auto. }
  assert (Shr : forall a : atom, (exists w, In w (snd a) /\ clo (restrict (i_order r) (atom_vars l)) (i_ops r) w) <-> exists w, In w (snd a) /\ bound (inner r) w).
  { intros a. split; intros (w & H1 & H2); exists w; split; auto; now apply C1. }
  assert (C2' : forall v, bound (plain r) v -> clo order ops1 v).
  { intros v. rewrite bound_plain. induction 1 as [v Hv|v e Hi Hw IH].
    - left. apply Hord. rewrite atom_vars_app, in_app_iff in Hv. destruct Hv as [Hv|Hv]; auto. left. apply bound_inner. now left.
    - destruct (inner_dec r v) as [Hv|Hv]; [left; apply Hord; auto|]. eright; [|exact IH]. apply F5. split; auto. split.
      + exists v. split; [now left|]. now rewrite C1.
      + intros [p xs] Ha Hsh. exists v. split; [now left|]. rewrite C1. split; auto. intros Hx. apply Hv.
        apply (o_neg r O p xs Ha (proj1 (Shr (p, xs)) Hsh)); auto. apply bound_plain. eright; eauto. }
  destruct (ffn_some rd D Hrd order ops1 negs1 cur last j2) as (g2 & ops2 & negs2 & n2 & Eg2 & En2); auto.
  { intros E. destruct (i_pos r) as [|[p xs] ps] eqn:Ei; [apply (o_pos r O Ei)|].
    assert (Hx : xs <> []) by (apply (o_nonempty r O p xs); rewrite Ei; simpl; auto). destruct xs as [|v xs]; [contradiction|].
    assert (Hv : In v order). { apply Hord. left. apply bound_inner. left. rewrite Ei. simpl. auto. } rewrite E in Hv. destruct Hv. }
  { intros a Ha. apply F4 in Ha. apply Negs. tauto. }
  { intros i k a b v Hi Hk Hne Ha Hb _ _. apply C2'.
    assert (Nf : negs1 = filter (fun a => negb (shares (fst (fst (fst g1))) a)) (i_neg r)).
    { clear - Eg1. unfold gen_ffn in Eg1. destruct (gen_function _ _) as [[[vs' fns] o1]|]; [|discriminate].
      destruct (gen_filter vs' o1) as [fs o2]. rewrite gen_negation_filter in Eg1.
      destruct (gen_negation vs' _ o2) as [[x y] z]. injection Eg1 as <- <- <-. reflexivity. }
    rewrite Nf in Hi, Hk. destruct (nth_filter _ _ _ _ _ _ Hi Hk Hne) as (i' & k' & Q1 & Q2 & Q3). apply (Loc i' k' a b v); auto. }
  { intros [p xs] o Ha Hsh Ho (w & Hw & Hnw) Hv. apply F4 in Ha. destruct Ha as [Ha _]. apply F5 in Ho. destruct Ho as [Ho _]. cbn [snd] in *.
    apply (Fl p xs o Ha Ho).
    - exists w. split; auto.
    - intros x Hx. destruct (Hv x Hx) as [Hc|?]; auto. }
  rewrite Eg2, En2. cbn [option_map]. eauto.
Qed.
End One.
