(* Proofs about the filter operator. *)
From Coq Require Import List Arith Bool Lia.
From Verif Require Import ExprModel ExprSpec ExprProofs.
Import ListNotations.

Section Proofs.
Context (L : language).
Notation value := (val L).
Notation tree := (tree L).

Lemma existsb_eqb_in : forall (l : list nat) m, existsb (Nat.eqb m) l = true <-> In m l.
Proof.
  intros l m. rewrite existsb_exists. split.
  - intros (x & Hx & E). apply Nat.eqb_eq in E. subst. exact Hx.
  - intros H. exists m. rewrite Nat.eqb_refl. auto.
Qed.

Lemma sem_ext : forall env env' (t : tree),
  (forall r, In r (references t) -> env r = env' r) -> sem env t = sem env' t.
Proof.
  intros env env' t. induction t as [c|r|f t IH|f l r IHl IHr|f a b c IHa IHb IHc|f ts IH]
    using tree_induction; intros H; cbn [sem references] in *.
  - reflexivity.
  - apply H. left. reflexivity.
  - rewrite (IH H). reflexivity.
  - rewrite IHl, IHr by (intros; apply H, in_or_app; auto). reflexivity.
  - rewrite IHa, IHb, IHc by (intros; apply H; rewrite !in_app_iff; auto). reflexivity.
  - replace (map (sem env) ts) with (map (sem env') ts); [reflexivity|].
    apply map_ext_in. intros t Ht. symmetry. rewrite Forall_forall in IH.
    apply IH; [exact Ht|]. intros r Hr. apply H, in_flat_map. eauto.
Qed.

(* the environment of a row *)
Definition lookup (r : nat) (ks : list nat) (vs : list value) : option value :=
  match find_index r ks with Some i => nth_error vs i | None => None end.

Lemma lookup_column_value : forall (table : list nat) row r v, NoDup table ->
  lookup r table row = Some v <-> column_value table row r v.
Proof.
  intros table row r v Hnd. unfold lookup, column_value. split.
  - destruct (find_index r table) as [i|] eqn:E; [|discriminate]. apply find_index_spec in E. eauto.
  - intros (i & Hi & Hv). destruct (find_index r table) as [j|] eqn:E.
    + apply find_index_spec in E. rewrite (nth_error_NoDup _ table j i r Hnd E Hi). exact Hv.
    + apply find_index_none in E. exfalso. apply E. eapply nth_error_In, Hi.
Qed.

Lemma lookup_filter : forall (p : nat -> bool) r (l : list (nat * value)), p r = true ->
  lookup r (map fst (filter (fun x => p (fst x)) l)) (map snd (filter (fun x => p (fst x)) l)) =
  lookup r (map fst l) (map snd l).
Proof.
  intros p r l Hp. induction l as [|[k v] l IH]; [reflexivity|]. unfold lookup in *. cbn.
  destruct (k =? r) eqn:E.
  - apply Nat.eqb_eq in E. subst. rewrite Hp. cbn. rewrite Nat.eqb_refl. reflexivity.
  - destruct (p k); cbn; [rewrite E|].
    + destruct (find_index r (map fst (filter (fun x => p (fst x)) l))),
        (find_index r (map fst l)); cbn in *; exact IH.
    + rewrite IH. destruct (find_index r (map fst l)); reflexivity.
Qed.

Lemma find_index_app_l : forall (l l' : list nat) r, In r l -> find_index r (l ++ l') = find_index r l.
Proof.
  induction l as [|x l IH]; intros l' r H; [destruct H|]. cbn.
  destruct (x =? r) eqn:E; [reflexivity|]. destruct H as [->|H]; [rewrite Nat.eqb_refl in E; discriminate|].
  rewrite IH by exact H. reflexivity.
Qed.

Lemma find_index_app_r : forall (l l' : list nat) r, ~ In r l ->
  find_index r (l ++ l') = option_map (Nat.add (length l)) (find_index r l').
Proof.
  induction l as [|x l IH]; intros l' r H; cbn.
  - destruct (find_index r l'); reflexivity.
  - destruct (x =? r) eqn:E; [apply Nat.eqb_eq in E; subst; exfalso; apply H; left; reflexivity|].
    rewrite IH by (intros Hin; apply H; right; exact Hin). destruct (find_index r l'); reflexivity.
Qed.

Lemma lookup_app_l : forall (ks ks' : list nat) vs vs' r, In r ks -> length ks = length vs ->
  lookup r (ks ++ ks') (vs ++ vs') = lookup r ks vs.
Proof.
  intros ks ks' vs vs' r H Hlen. unfold lookup. rewrite find_index_app_l by exact H.
  destruct (find_index r ks) as [i|] eqn:E; [|reflexivity]. apply find_index_spec in E.
  rewrite nth_error_app1; [reflexivity|]. rewrite <- Hlen. apply nth_error_Some. congruence.
Qed.

Lemma lookup_app_r : forall (ks ks' : list nat) vs vs' r, ~ In r ks -> length ks = length vs ->
  lookup r (ks ++ ks') (vs ++ vs') = lookup r ks' vs'.
Proof.
  intros ks ks' vs vs' r H Hlen. unfold lookup. rewrite find_index_app_r by exact H.
  destruct (find_index r ks') as [i|]; [|reflexivity]. cbn.
  rewrite nth_error_app2 by lia. f_equal. lia.
Qed.

(* appending "this" to the reference map changes nothing *)
Lemma build_this : forall m refmap (t : tree),
  build (Some m) (refmap ++ [m]) t = build (Some m) refmap t.
Proof.
  intros m refmap t. induction t as [c|r|f t IH|f l r IHl IHr|f a b c IHa IHb IHc|f ts IH]
    using tree_induction.
  - reflexivity.
  - cbn [build]. destruct (m =? r) eqn:E; [reflexivity|].
    destruct (in_dec Nat.eq_dec r refmap) as [Hin|Hout].
    + rewrite find_index_app_l by exact Hin. reflexivity.
    + rewrite find_index_app_r by exact Hout. cbn. rewrite E. cbn.
      destruct (find_index r refmap) as [i|] eqn:Ei; [|reflexivity].
      exfalso. apply Hout. apply find_index_spec in Ei. eapply nth_error_In, Ei.
  - cbn [build]. rewrite IH. reflexivity.
  - cbn [build]. rewrite IHl, IHr. reflexivity.
  - cbn [build]. rewrite IHa, IHb, IHc. reflexivity.
  - rewrite !build_nar. replace (build_list L (Some m) (refmap ++ [m]) ts)
      with (build_list L (Some m) refmap ts); [reflexivity|].
    induction IH as [|t ts Ht _ IHts]; [reflexivity|]. cbn [build_list].
    rewrite Ht. fold (build_list L (Some m) refmap). fold (build_list L (Some m) (refmap ++ [m])).
    rewrite IHts. reflexivity.
Qed.

Lemma compile_this : forall debug m refmap (t : tree),
  compile debug (Some m) (refmap ++ [m]) t = compile debug (Some m) refmap t.
Proof. intros. unfold compile. rewrite build_this. reflexivity. Qed.

(* ---------- grouping ---------- *)

Lemma find_last_some : forall (table : list nat) (f : tree) m, find_last_reference table f = Some m ->
  In m table /\ In m (references f) /\
  forall before after, NoDup table -> table = before ++ m :: after ->
    forall r, In r (references f) -> ~ In r after.
Proof.
  intros table f m H. unfold find_last_reference in H.
  pose proof (find_some _ _ H) as [Hin He]. apply existsb_eqb_in in He.
  split; [apply in_rev; exact Hin|]. split; [exact He|].
  intros before after Hnd -> r Hr Ha. rewrite rev_app_distr in H. cbn [rev] in H.
  rewrite <- app_assoc in H.
  assert (Hf : forall (l l' : list nat) p x, find p (l ++ l') = Some x ->
            (exists y, In y l /\ p y = true) -> In x l).
  { clear. induction l as [|z l IH]; intros l' p x H (y & Hy & Hp); [destruct Hy|]. cbn in H.
    destruct (p z) eqn:E; [injection H as <-; left; reflexivity|]. right.
    destruct Hy as [->|Hy]; [congruence|]. eapply IH; eauto. }
  apply Hf in H.
  - apply in_rev in H. apply NoDup_remove_2 in Hnd. apply Hnd, in_or_app. right. exact H.
  - exists r. split; [apply in_rev in Ha; exact Ha|]. apply existsb_eqb_in. exact Hr.
Qed.

Lemma find_last_none : forall (table : list nat) (f : tree), find_last_reference table f = None ->
  forall r, In r (references f) -> In r table -> False.
Proof.
  intros table f H r Hr Ht. unfold find_last_reference in H.
  pose proof (find_none _ _ H r (proj1 (in_rev _ _) Ht)) as Hn.
  apply (proj2 (existsb_eqb_in _ _)) in Hr. cbn in Hn. congruence.
Qed.

Lemma marker_in : forall first table (f : tree), In first table -> In (filter_marker table first f) table.
Proof.
  intros first table f H. unfold filter_marker.
  destruct (find_last_reference table f) as [m|] eqn:E; [|exact H]. apply find_last_some in E. apply E.
Qed.

(* references of a filter of the group of m *)
Lemma marker_references : forall first (before after : list nat) m (f : tree),
  NoDup (before ++ m :: after) ->
  (forall r, In r (references f) -> In r (before ++ m :: after)) ->
  filter_marker (before ++ m :: after) first f = m ->
  forall r, In r (references f) -> In r before \/ r = m.
Proof.
  intros first before after m f Hnd Hsub Hm r Hr. unfold filter_marker in Hm.
  destruct (find_last_reference (before ++ m :: after) f) as [x|] eqn:E.
  - subst x. apply find_last_some in E. destruct E as (_ & _ & Hlast).
    specialize (Hlast before after Hnd eq_refl r Hr). specialize (Hsub r Hr).
    apply in_app_iff in Hsub. destruct Hsub as [H|[<-|H]]; auto. contradiction.
  - exfalso. eapply find_last_none; eauto.
Qed.

Lemma conjunction_references : forall (g : list tree) r,
  In r (references (boolean_conjunction g)) <-> exists f, In f g /\ In r (references f).
Proof.
  intros g r. destruct g as [|f [|f' g]]; cbn [boolean_conjunction references].
  - split; [intros []|intros (f & [] & _)].
  - split; [intros H; exists f; split; [left; reflexivity|exact H]|].
    intros (f' & [->|[]] & H). exact H.
  - rewrite in_flat_map. reflexivity.
Qed.

Lemma collect_in : forall (l : list (option value)) vs, collect l = Some vs ->
  forall o, In o l -> exists v, o = Some v /\ In v vs.
Proof.
  induction l as [|[v|] l IH]; intros vs H o Ho; cbn in H; try discriminate; [destruct Ho|].
  destruct (collect l) as [vs'|]; [|discriminate]. injection H as <-.
  destruct Ho as [<-|Ho]; [exists v; split; [reflexivity|left; reflexivity]|].
  destruct (IH vs' eq_refl o Ho) as (w & -> & Hw). exists w. split; [reflexivity|right; exact Hw].
Qed.

Lemma collect_in_inv : forall (l : list (option value)) vs, collect l = Some vs ->
  forall v, In v vs -> In (Some v) l.
Proof.
  induction l as [|[v|] l IH]; intros vs H w Hw; cbn in H; try discriminate.
  - injection H as <-. destruct Hw.
  - destruct (collect l) as [vs'|]; [|discriminate]. injection H as <-.
    destruct Hw as [<-|Hw]; [left; reflexivity|right; eauto].
Qed.

Lemma collect_none : forall (l : list (option value)), collect l = None -> In None l.
Proof.
  induction l as [|[v|] l IH]; intros H; cbn in H; [discriminate| |left; reflexivity].
  destruct (collect l); [discriminate|]. right. apply IH. reflexivity.
Qed.

Definition sat (env : nat -> option value) (f : tree) : Prop :=
  exists v, sem env f = Some v /\ truth L v = Some true.

Lemma conjunction_sat : lawful L -> forall env (g : list tree),
  sat env (boolean_conjunction g) <-> forall f, In f g -> sat env f.
Proof.
  intros HL env g. destruct g as [|f [|f' g]].
  - split; [intros _ f []|]. intros _. exists (of_bool L true). split; [reflexivity|]. apply true_law, HL.
  - cbn [boolean_conjunction]. split; [intros H f0 [<-|[]]; exact H|]. intros H. apply H. left. reflexivity.
  - cbn [boolean_conjunction]. remember (f :: f' :: g) as l. clear Heql. unfold sat at 1. cbn [sem].
    split.
    + intros (v & Hv & Ht) x Hx. destruct (collect (map (sem env) l)) as [vs|] eqn:E; [|discriminate].
      assert (Hall : forall v, In v vs -> truth L v = Some true).
      { apply (conj_law L HL). exists v. auto. }
      destruct (collect_in _ _ E (sem env x)) as (w & Hw & Hin); [apply in_map, Hx|].
      exists w. auto.
    + intros H. destruct (collect (map (sem env) l)) as [vs|] eqn:E.
      * assert (Hall : forall v, In v vs -> truth L v = Some true).
        { intros v Hv. pose proof (collect_in_inv _ _ E v Hv) as Hin. apply in_map_iff in Hin.
          destruct Hin as (x & Hx & Hxin). destruct (H x Hxin) as (w & Hw & Ht). congruence. }
        apply (conj_law L HL) in Hall. destruct Hall as (w & Hw & Ht). eauto.
      * apply collect_none in E. apply in_map_iff in E. destruct E as (x & Hx & Hin).
        destruct (H x Hin) as (w & Hw & _). congruence.
Qed.

Lemma no_empty_conjunction : forall (g : list tree),
  (forall f, In f g -> no_empty_application f) -> no_empty_application (boolean_conjunction g).
Proof.
  intros [|f [|f' g]] H; cbn [boolean_conjunction no_empty_application].
  - exact I.
  - apply H. left. reflexivity.
  - split; [discriminate|]. remember (f :: f' :: g) as l. clear Heql. induction l as [|x l IH]; cbn; [exact I|].
    split; [apply H; left; reflexivity|]. apply IH. intros y Hy. apply H. right. exact Hy.
Qed.

Lemma special_constant_sat : lawful L -> forall env (f : tree) c, special_filter f = FConstant c ->
  forall m, (forall r, In r (references f) -> r = m) -> forall v, env m = Some v ->
  sat env f <-> veqb L v c = true.
Proof.
  intros HL env f c Hs m Hr v Hv. unfold special_filter in Hs.
  destruct f as [| | |g [k|r| | | |] [k'|r'| | | |] | |]; try discriminate;
    destruct (is_equals L g) eqn:Eg; try discriminate; injection Hs as ->.
  - assert (r' = m) as -> by (apply Hr; left; reflexivity).
    unfold sat. cbn [sem]. rewrite Hv. destruct (equals_law L HL g c v Eg) as (u & Hu & Ht).
    rewrite (veqb_sym L HL). rewrite <- Ht, Hu.
    split; [intros (w & Hw & H); injection Hw as <-; exact H|eauto].
  - assert (r = m) as -> by (apply Hr; left; reflexivity).
    unfold sat. cbn [sem]. rewrite Hv. destruct (equals_law L HL g v c Eg) as (u & Hu & Ht).
    rewrite <- Ht, Hu. split; [intros (w & Hw & H); injection Hw as <-; exact H|eauto].
Qed.

(* ---------- the operator ---------- *)

Section Filter.
Context (HL : lawful L) (debug : bool) (table : list nat) (first : nat) (filters : list tree).
Context (Hnd : NoDup table).
Context (Hrefs : forall f, In f filters -> forall r, In r (references f) -> In r table).
Context (Hne : debug = true -> forall f, In f filters -> no_empty_application f).

Notation refd := (filter_referenced table first filters).


Lemma special_filter_group : forall (f : tree) c, special_filter f = FConstant c ->
  exists r, forall r', In r' (references f) <-> r' = r.
Proof.
  intros f c Hs. unfold special_filter in Hs.
  destruct f as [| | |g [k|r| | | |] [k'|r'| | | |] | |]; try discriminate;
    destruct (is_equals L g); try discriminate; eexists; intros x; cbn; split; eauto;
    intros [H|[]]; symmetry; exact H.
Qed.

Lemma group_references : forall before m todo, table = before ++ m :: todo ->
  forall f, In f (filter_group table first filters m) ->
  forall r, In r (references f) -> In r before \/ r = m.
Proof.
  intros before m todo Ht f Hf r Hr. unfold filter_group in Hf. apply filter_In in Hf.
  destruct Hf as [Hf Hm]. apply Nat.eqb_eq in Hm. pose proof (Hrefs f Hf) as Hsub.
  pose proof Hnd as Hn. rewrite Ht in Hm, Hsub, Hn.
  eapply marker_references; [exact Hn|exact Hsub|exact Hm|exact Hr].
Qed.

Lemma assignment_some : forall m F, assignment table first filters m = Some F ->
  F = boolean_conjunction (filter_group table first filters m) /\ filter_group table first filters m <> [].
Proof.
  intros m F H. unfold assignment in H. destruct (filter_group table first filters m) as [|f g]; [discriminate|].
  injection H as <-. split; [reflexivity|discriminate].
Qed.

Lemma assignment_none : forall m, assignment table first filters m = None ->
  filter_group table first filters m = [].
Proof.
  intros m H. unfold assignment in H. destruct (filter_group table first filters m); [reflexivity|discriminate].
Qed.

Lemma assignment_references : forall before m todo F, table = before ++ m :: todo ->
  assignment table first filters m = Some F ->
  forall r, In r (references F) -> r = m \/ (In r before /\ refd r = true).
Proof.
  intros before m todo F Ht HF r Hr. pose proof (assignment_some m F HF) as [HFe _].
  destruct (Nat.eq_dec r m) as [->|Hneq]; [left; reflexivity|right].
  split.
  - rewrite HFe in Hr. apply conjunction_references in Hr. destruct Hr as (f & Hf & Hr).
    destruct (group_references before m todo Ht f Hf r Hr); [assumption|contradiction].
  - unfold filter_referenced. apply existsb_exists. exists m. split.
    + rewrite Ht. apply in_or_app. right. left. reflexivity.
    + rewrite HF. apply existsb_exists. exists r. split; [exact Hr|]. rewrite Nat.eqb_refl.
      replace (r =? m) with false by (symmetry; apply Nat.eqb_neq; exact Hneq). reflexivity.
Qed.

Lemma assignment_no_empty : forall m F, assignment table first filters m = Some F ->
  debug = true -> no_empty_application F.
Proof.
  intros m F HF Hd. apply assignment_some in HF. destruct HF as [-> _].
  apply no_empty_conjunction. intros f Hf. apply Hne; [exact Hd|]. unfold filter_group in Hf.
  apply filter_In in Hf. apply Hf.
Qed.

Lemma referenced_fresh : forall before m todo, table = before ++ m :: todo ->
  existsb (Nat.eqb m) (filter refd before) = false.
Proof.
  intros before m todo Ht. destruct (existsb (Nat.eqb m) (filter refd before)) eqn:E; [|reflexivity].
  exfalso. apply existsb_eqb_in, filter_In in E. pose proof Hnd as Hn. rewrite Ht in Hn.
  apply NoDup_remove_2 in Hn. apply Hn, in_or_app. left. apply E.
Qed.

Lemma refmap_step : forall before m,
  (if refd m then filter refd before ++ [m] else filter refd before) = filter refd (before ++ [m]).
Proof.
  intros before m. rewrite filter_app. cbn. destruct (refd m); [reflexivity|]. rewrite app_nil_r. reflexivity.
Qed.

Lemma compile_assignment : forall before m todo F, table = before ++ m :: todo ->
  assignment table first filters m = Some F ->
  compile debug (Some m) (filter refd (before ++ [m])) F = compile debug (Some m) (filter refd before) F.
Proof.
  intros before m todo F Ht HF. rewrite <- refmap_step. destruct (refd m); [apply compile_this|reflexivity].
Qed.

Lemma filter_columns_exists : forall todo before, table = before ++ todo ->
  exists cols, filter_columns debug table first filters todo (filter refd before) = Ok cols.
Proof.
  induction todo as [|m todo IH]; intros before Ht; [eexists; reflexivity|].
  cbn [filter_columns]. rewrite (referenced_fresh before m todo Ht), andb_true_r, refmap_step.
  destruct (IH (before ++ [m])) as [cols Hcols]; [rewrite <- app_assoc; exact Ht|].
  rewrite Hcols. destruct (assignment table first filters m) as [F|] eqn:EA; [|eexists; reflexivity].
  destruct (special_filter F) as [|c]; [|eexists; reflexivity].
  destruct (compile_exists L debug (Some m) (filter refd before) F) as [p Hp].
  - intros r Hr. destruct (assignment_references before m todo F Ht EA r Hr) as [->|[H1 H2]];
      [left; reflexivity|right; apply filter_In; auto].
  - apply (assignment_no_empty m F EA).
  - rewrite (compile_assignment before m todo F Ht EA), Hp. eexists. reflexivity.
Qed.

(* the values collected so far *)
Definition collected (before : list nat) (rb : list value) : list value :=
  map snd (filter (fun x => refd (fst x)) (combine before rb)).

Lemma combine_snoc : forall (before : list nat) (rb : list value) m v, length rb = length before ->
  combine (before ++ [m]) (rb ++ [v]) = combine before rb ++ [(m, v)].
Proof.
  induction before as [|b l IH]; intros [|x rb] m v H; cbn in *; try discriminate; [reflexivity|].
  f_equal. apply IH. lia.
Qed.

Lemma map_fst_combine : forall (before : list nat) (rb : list value), length rb = length before ->
  map fst (combine before rb) = before.
Proof.
  induction before as [|b l IH]; intros [|x rb] H; cbn in *; try discriminate; [reflexivity|].
  f_equal. apply IH. lia.
Qed.

Lemma map_snd_combine : forall (before : list nat) (rb : list value), length rb = length before ->
  map snd (combine before rb) = rb.
Proof.
  induction before as [|b l IH]; intros [|x rb] H; cbn in *; try discriminate; [reflexivity|].
  f_equal. apply IH. lia.
Qed.

Lemma map_fst_filter : forall (p : nat -> bool) (l : list (nat * value)),
  map fst (filter (fun x => p (fst x)) l) = filter p (map fst l).
Proof.
  intros p l. induction l as [|[k v] l IH]; [reflexivity|]. cbn. destruct (p k); cbn; rewrite IH; reflexivity.
Qed.

Lemma collected_step : forall before rb m v, length rb = length before ->
  (if refd m then collected before rb ++ [v] else collected before rb) =
  collected (before ++ [m]) (rb ++ [v]).
Proof.
  intros before rb m v H. unfold collected. rewrite combine_snoc by exact H. rewrite filter_app, map_app.
  cbn. destruct (refd m); cbn; [reflexivity|]. rewrite app_nil_r. reflexivity.
Qed.

Lemma collected_lookup : forall before rb r, length rb = length before -> refd r = true ->
  lookup r (filter refd before) (collected before rb) = lookup r before rb.
Proof.
  intros before rb r Hl Hr. unfold collected.
  rewrite <- (map_fst_combine before rb Hl) at 1. rewrite <- map_fst_filter, lookup_filter by exact Hr.
  rewrite map_fst_combine, map_snd_combine by exact Hl. reflexivity.
Qed.

Lemma collected_length : forall before rb, length rb = length before ->
  length (collected before rb) = length (filter refd before).
Proof.
  intros before rb H. unfold collected. rewrite map_length, <- (map_length fst), map_fst_filter,
    map_fst_combine by exact H. reflexivity.
Qed.

Lemma filter_row_spec : forall todo before rb row cols, table = before ++ todo ->
  length rb = length before -> length row = length todo ->
  filter_columns debug table first filters todo (filter refd before) = Ok cols ->
  exists b, filter_row cols row (collected before rb) = Ok b /\
    (b = true <-> forall m f, In m todo -> In f (filter_group table first filters m) ->
                  sat (fun r => lookup r table (rb ++ row)) f).
Proof.
  induction todo as [|m todo IH]; intros before rb row cols Ht Hrb Hrow Hc.
  { cbn in Hc. injection Hc as <-. destruct row; [|discriminate]. exists true. split; [reflexivity|].
    split; [intros _ m f []|reflexivity]. }
  destruct row as [|v row]; [discriminate|]. cbn [length] in Hrow. apply Nat.succ_inj in Hrow.
  cbn [filter_columns] in Hc.
  rewrite (referenced_fresh before m todo Ht), andb_true_r, refmap_step in Hc.
  set (env := fun r => lookup r table (rb ++ v :: row)).
  assert (Hmb : ~ In m before).
  { pose proof Hnd as Hn. rewrite Ht in Hn. apply NoDup_remove_2 in Hn. intros H. apply Hn, in_or_app.
    left. exact H. }
  assert (Hem : env m = Some v).
  { unfold env. rewrite Ht, lookup_app_r by (auto). unfold lookup. cbn. rewrite Nat.eqb_refl. reflexivity. }
  (* the columns after this one *)
  assert (HIH : forall cols', filter_columns debug table first filters todo (filter refd (before ++ [m])) = Ok cols' ->
     exists b, filter_row cols' row (if refd m then collected before rb ++ [v] else collected before rb) = Ok b /\
     (b = true <-> forall m f, In m todo -> In f (filter_group table first filters m) -> sat env f)).
  { intros cols' Hc'. rewrite collected_step by exact Hrb.
    destruct (IH (before ++ [m]) (rb ++ [v]) row cols') as (b & Hb & Hiff);
      [rewrite <- app_assoc; exact Ht|rewrite !app_length, Hrb; reflexivity|exact Hrow|exact Hc'|].
    exists b. split; [exact Hb|]. rewrite Hiff, <- app_assoc. reflexivity. }
  destruct (assignment table first filters m) as [F|] eqn:EA.
  - assert (Hsat : sat env F <-> forall f, In f (filter_group table first filters m) -> sat env f).
    { destruct (assignment_some m F EA) as [-> _]. apply (conjunction_sat HL). }
    assert (Hgoal : forall b : bool, (b = true <-> forall m f, In m todo ->
        In f (filter_group table first filters m) -> sat env f) ->
        sat env F ->
        (b = true <-> forall m0 f, In m0 (m :: todo) -> In f (filter_group table first filters m0) -> sat env f)).
    { intros b Hiff HF. rewrite Hiff. split.
      - intros H m0 f [<-|Hm0] Hf; [apply Hsat; assumption|eauto].
      - intros H m0 f Hm0 Hf. eapply H; [right; exact Hm0|exact Hf]. }
    assert (Hfail : ~ sat env F ->
        (false = true <-> forall m0 f, In m0 (m :: todo) -> In f (filter_group table first filters m0) -> sat env f)).
    { intros HF. split; [discriminate|]. intros H. exfalso. apply HF, Hsat. intros f Hf.
      apply (H m f); [left; reflexivity|exact Hf]. }
    destruct (special_filter F) as [|c] eqn:ES.
    + rewrite (compile_assignment before m todo F Ht EA) in Hc.
      destruct (compile debug (Some m) (filter refd before) F) as [p|] eqn:Ep; cbn [bind] in Hc; [|discriminate].
      destruct (filter_columns debug table first filters todo (filter refd (before ++ [m]))) as [cols'|] eqn:Ec;
        cbn [bind] in Hc; [|discriminate].
      injection Hc as <-. cbn [filter_row]. destruct (HIH cols' eq_refl) as (b & Hb & Hiff).
      assert (Hev : evaluate p (collected before rb) (Some v) [] = Ok (sem env F)).
      { rewrite (compile_evaluate L debug (Some m) (Some v) (filter refd before) (collected before rb) F p Ep)
          by (rewrite collected_length by exact Hrb; lia).
        f_equal. apply sem_ext. intros r Hr. unfold env_of, is_this. destruct (m =? r) eqn:E.
        - apply Nat.eqb_eq in E. subst r. symmetry. exact Hem.
        - apply Nat.eqb_neq in E.
          destruct (assignment_references before m todo F Ht EA r Hr) as [->|[H1 H2]]; [congruence|].
          change (lookup r (filter refd before) (collected before rb) = env r).
          rewrite collected_lookup by assumption. unfold env. rewrite Ht, lookup_app_l by auto. reflexivity. }
      unfold evaluate_bool. rewrite Hev. destruct (sem env F) as [w|] eqn:Ew.
      * destruct (truth L w) as [[|]|] eqn:Et.
        -- exists b. split; [exact Hb|]. apply Hgoal; [exact Hiff|]. exists w. auto.
        -- exists false. split; [reflexivity|]. apply Hfail. intros (w' & Hw & Htr). congruence.
        -- exists false. split; [reflexivity|]. apply Hfail. intros (w' & Hw & Htr). congruence.
      * exists false. split; [reflexivity|]. apply Hfail. intros (w' & Hw & Htr). congruence.
    + destruct (filter_columns debug table first filters todo (filter refd (before ++ [m]))) as [cols'|] eqn:Ec;
        cbn [bind] in Hc; [|discriminate].
      injection Hc as <-. cbn [filter_row]. destruct (HIH cols' eq_refl) as (b & Hb & Hiff).
      assert (Hone : forall r, In r (references F) -> r = m).
      { destruct (special_filter_group F c ES) as [r Hr]. intros r' Hr'. apply Hr in Hr'. subst r'.
        destruct (assignment_some m F EA) as [HF Hg].
        destruct (filter_group table first filters m) as [|f g] eqn:Eg; [congruence|].
        assert (Hf : In f (filter_group table first filters m)) by (rewrite Eg; left; reflexivity).
        unfold filter_group in Hf. apply filter_In in Hf. destruct Hf as [Hfi Hm].
        apply Nat.eqb_eq in Hm. unfold filter_marker in Hm.
        destruct (find_last_reference table f) as [x|] eqn:Ex.
        - apply find_last_some in Ex. subst x. destruct Ex as (_ & Hmf & _).
          assert (In m (references F)) as Hm2.
          { rewrite HF. apply conjunction_references. exists f. split; [left; reflexivity|exact Hmf]. }
          apply Hr in Hm2. congruence.
        - (* no reference in f: then F is not f, so F is a conjunction, not an equality *)
          exfalso. destruct g as [|f' g].
          + cbn [boolean_conjunction] in HF. subst F.
            assert (Hin : In r (references f)) by (apply Hr; reflexivity).
            eapply find_last_none; [exact Ex|exact Hin|]. apply (Hrefs f Hfi r Hin).
          + subst F. discriminate ES. }
      pose proof (special_constant_sat HL env F c ES m Hone v Hem) as Hk.
      destruct (veqb L v c) eqn:Ev.
      * exists b. split; [exact Hb|]. apply Hgoal; [exact Hiff|]. apply Hk. reflexivity.
      * exists false. split; [reflexivity|]. apply Hfail. intros H. apply Hk in H. discriminate.
  - cbn [bind] in Hc.
    destruct (filter_columns debug table first filters todo (filter refd (before ++ [m]))) as [cols'|] eqn:Ec;
      cbn [bind] in Hc; [|discriminate].
    injection Hc as <-. cbn [filter_row]. destruct (HIH cols' eq_refl) as (b & Hb & Hiff).
    exists b. split; [exact Hb|]. rewrite Hiff. split.
    + intros H m0 f [<-|Hm0] Hf; [|eauto]. rewrite (assignment_none m EA) in Hf. destruct Hf.
    + intros H m0 f Hm0 Hf. eapply H; [right; exact Hm0|exact Hf].
Qed.

End Filter.

Lemma sat_passes : forall (table : list nat) row (f : tree), NoDup table ->
  sat (fun r => lookup r table row) f <-> passes table row f.
Proof.
  intros table row f Hnd. unfold sat, passes. split; intros (v & Hv & Ht); exists v; (split; [|exact Ht]).
  - apply (sem_denotes L (column_value table row) (fun r => lookup r table row)); [|exact Hv].
    intros r _ w. apply lookup_column_value, Hnd.
  - apply (sem_denotes L (column_value table row) (fun r => lookup r table row)); [|exact Hv].
    intros r _ w. apply lookup_column_value, Hnd.
Qed.

Theorem filter_correct : lawful L -> forall debug (table : list nat) (filters : list tree),
  table <> [] -> NoDup table ->
  (forall f, In f filters -> forall r, In r (references f) -> In r table) ->
  (debug = true -> forall f, In f filters -> no_empty_application f) ->
  exists cols, filter_new debug table filters = Ok cols /\
    forall row, length row = length table -> exists b, filter_row cols row [] = Ok b /\
      (b = true <-> forall f, In f filters -> passes table row f).
Proof.
  intros HL debug table filters Hn Hnd Hrefs Hne. destruct table as [|first rest]; [congruence|].
  unfold filter_new. set (table := first :: rest) in *.
  destruct (filter_columns_exists debug table first filters Hnd Hrefs Hne table [] eq_refl) as [cols Hc].
  exists cols. split; [exact Hc|]. intros row Hrow.
  destruct (filter_row_spec HL debug table first filters Hnd Hrefs table [] [] row cols eq_refl eq_refl Hrow Hc)
    as (b & Hb & Hiff).
  exists b. split; [exact Hb|]. rewrite Hiff. cbn [app]. split.
  - intros H f Hf. apply sat_passes; [exact Hnd|].
    apply (H (filter_marker table first f) f).
    + apply marker_in. left. reflexivity.
    + unfold filter_group. apply filter_In. split; [exact Hf|]. apply Nat.eqb_refl.
  - intros H m f _ Hf. apply sat_passes; [exact Hnd|]. apply H. unfold filter_group in Hf.
    apply filter_In in Hf. apply Hf.
Qed.

End Proofs.
Arguments lookup {L}. Arguments sat {L}.
