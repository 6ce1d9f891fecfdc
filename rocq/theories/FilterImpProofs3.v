(** C43: the table of an import with a pushed rule. *)
From Coq Require Import List Arith ZArith Bool Lia Permutation.
From Verif Require Import TableModel EngineModel EngineSpec EngineProofs1 EngineProofs3 NormModel NormSpec FilterImpModel FilterImpSpec FilterImpProofs1 FilterImpProofs2.
Import ListNotations.

Lemma bound_vs nr xs fns rest : atom_vars (r_pos nr) = xs -> Permutation (r_ops nr) (map to_op fns ++ rest) ->
  (forall v e, In (OEq v e) rest -> In v (xs ++ map fst fns) \/ ~ incl (e_vars e) (xs ++ map fst fns)) ->
  forall v, bound nr v -> In v (xs ++ map fst fns).
Proof.
  intros Hx Hp Hr v Hb. induction Hb as [v Hv|v e Hin _ IH].
  - rewrite Hx in Hv. apply in_app_iff. auto.
  - apply (Permutation_in _ Hp), in_app_iff in Hin. destruct Hin as [Hin|Hin].
    + apply in_map_iff in Hin. destruct Hin as ([v' e'] & E & Hin). unfold to_op in E. simpl in E. injection E as -> ->. apply in_app_iff. right. apply in_map_iff. exists (v, e). auto.
    + destruct (Hr v e Hin) as [H|H]; auto. exfalso. apply H. exact IH.
Qed.

Lemma into_pattern_spec nr p q xs hs : r_pos nr = [(p, xs)] -> r_head nr = [(q, hs)] -> hs <> [] ->
  (forall o v, In o (r_ops nr) -> In v (op_vars o) -> bound nr v) -> (forall v, In v (head_vars nr) -> bound nr v) ->
  exists fns fs, into_pattern nr = Some (Some (pat xs hs fns fs (head_vars nr ++ flat_map op_vars (r_ops nr)))) /\
    fun_ok xs fns /\ Permutation (r_ops nr) (map to_op fns ++ fs) /\ forall v, bound nr v -> In v (xs ++ map fst fns).
Proof.
  intros Hpos Hhead Hne Hops Hhv. assert (Hx : atom_vars (r_pos nr) = xs) by (rewrite Hpos; unfold atom_vars; simpl; apply app_nil_r).
  destruct (gen_function_spec xs (r_ops nr)) as (vs & fns & rest & Eg & -> & Hok & Hperm & Hrest).
  pose proof (bound_vs nr xs fns rest Hx Hperm Hrest) as Hbv.
  assert (Ef : fst (gen_filter (xs ++ map fst fns) rest) = rest).
  { unfold gen_filter. assert (Ha : forall o, In o rest -> inclb (op_vars o) (xs ++ map fst fns) = true).
    { intros o Ho. apply inclb_incl. intros v Hv. apply Hbv. apply (Hops o); auto. apply (Permutation_in _ (Permutation_sym Hperm)), in_app_iff. auto. }
    clear - Ha. induction rest as [|o rest IH]; simpl; auto. rewrite (Ha o) by (now left). destruct (partition _ rest) as [a b]. simpl in *. f_equal. apply IH. intros o' Ho'. apply Ha. now right. }
  exists fns, rest. split; [|auto]. unfold into_pattern. rewrite Hx, Hhead, Hpos, Eg. cbn [fst]. rewrite Ef.
  assert (Eh : forallb (fun h => match h with HVar v | HEx v => memv v (xs ++ map fst fns) | HConst _ => true end) hs = true).
  { apply forallb_forall. intros h Hh. assert (Hi : incl (hterm_vars h) (head_vars nr)). { intros v Hv. unfold head_vars. rewrite Hhead. simpl. rewrite app_nil_r. unfold hatom_vars. simpl. apply in_flat_map. eauto. }
    destruct h as [v|v|c]; auto; apply memv_In, Hbv, Hhv, Hi; simpl; auto. }
  rewrite Eh. unfold pat. destruct rest; destruct hs; try tauto; reflexivity.
Qed.

(** ** Records *)
Definition noskip (fs : list fmt) : Prop := forall f, In f fs -> is_skip f = false.
Definition total_at (ks : list bool) (fs : list fmt) : Prop :=
  forall n, nth_error ks n = Some false -> exists f, nth_error fs n = Some (FParse f) /\ forall z, f z <> None.

Lemma skip_formats_total fs : forall ks, length ks = length fs -> exists fs', skip_formats fs ks = Some fs'.
Proof. induction fs as [|f fs IH]; intros [|b ks] H; simpl in *; try discriminate; eauto. destruct (IH ks) as (fs' & ->); [lia|]. simpl. eauto. Qed.
Lemma skip_formats_skips fs : forall ks fs', skip_formats fs ks = Some fs' -> length ks = length fs -> noskip fs -> map is_skip fs' = map negb ks.
Proof.
  induction fs as [|f fs IH]; intros [|b ks] fs' H Hl Hn; simpl in *; try discriminate; [now injection H as <-|]. destruct (skip_formats fs ks) as [l|] eqn:E; [|discriminate]. injection H as <-. simpl.
  rewrite (IH ks l E) by (try lia; intros g Hg; apply Hn; now right). destruct b; simpl; auto. f_equal. apply Hn. now left.
Qed.
Lemma skip_formats_input fs' ks : map is_skip fs' = map negb ks -> input_columns fs' = count_true ks.
Proof.
  unfold input_columns, count_true. revert ks. induction fs' as [|f fs' IH]; intros [|b ks] H; simpl in *; try discriminate; auto. injection H as H1 H2. specialize (IH ks H2). rewrite H1.
  destruct b; simpl; auto.
Qed.
Lemma skip_all_true fs : forall ks, length ks = length fs -> (forall b, In b ks -> b = true) -> skip_formats fs ks = Some fs.
Proof.
  induction fs as [|f fs IH]; intros [|b ks] H Hb; simpl in *; try discriminate; auto. rewrite IH by (try lia; auto). simpl. now rewrite (Hb b) by auto.
Qed.
Lemma read_length fs : forall rec y, noskip fs -> read_record fs rec = Some y -> length y = length fs.
Proof.
  induction fs as [|f fs IH]; intros [|z rec] y Hn H; simpl in *; try discriminate; [now injection H as <-|destruct f; discriminate|].
  destruct f as [g|]; [|specialize (Hn FSkip (or_introl eq_refl)); discriminate]. destruct (g z); [|discriminate]. destruct (read_record fs rec) as [r|] eqn:E; [|discriminate]. injection H as <-. simpl. f_equal. apply (IH rec); auto. intros f Hf. apply Hn. now right.
Qed.
Lemma read_kept fs : forall ks fs' rec, skip_formats fs ks = Some fs' -> length ks = length fs -> noskip fs -> total_at ks fs ->
  read_record fs' rec = option_map (kept ks) (read_record fs rec).
Proof.
  induction fs as [|f fs IH]; intros [|b ks] fs' rec H Hl Hn Ht; simpl in *; try discriminate.
  - injection H as <-. destruct rec; reflexivity.
  - destruct (skip_formats fs ks) as [l|] eqn:E; [|discriminate]. injection H as <-.
    destruct f as [g|]; [|specialize (Hn FSkip (or_introl eq_refl)); discriminate].
    assert (IH' : forall rec, read_record l rec = option_map (kept ks) (read_record fs rec)).
    { intros rec'. apply IH; auto. - intros f Hf. apply Hn. now right. - intros n Hk. destruct (Ht (S n)) as (f & Hf & Hz); auto. exists f. auto. }
    destruct rec as [|z rec]; simpl; [destruct b; reflexivity|]. destruct b; simpl.
    + rewrite IH'. destruct (g z); [|reflexivity]. destruct (read_record fs rec); reflexivity.
    + rewrite IH'. destruct (Ht 0 eq_refl) as (f & Hf & Hz). simpl in Hf. injection Hf as ->. specialize (Hz z). destruct (f z); [|tauto]. destruct (read_record fs rec); reflexivity.
Qed.
Lemma kept_all {A} ks : forall l : list A, length ks = length l -> (forall b, In b ks -> b = true) -> kept ks l = l.
Proof. induction ks as [|b ks IH]; intros [|x l] H Hb; simpl in *; try discriminate; auto. rewrite (Hb b) by auto. now rewrite IH by (try lia; auto). Qed.

(** ** Tables *)
Lemma plain_rows fs : forall recs buf out, (forall rec y, In rec recs -> read_record fs rec = Some y -> length y = out) ->
  exists rows, read_records fs [] out buf recs = Some rows /\ forall x, In x rows <-> exists rec, In rec recs /\ read_record fs rec = Some x.
Proof.
  induction recs as [|rec recs IH]; intros buf out Ho; simpl.
  - exists []. split; auto. intros x. split; [intros []|intros (rec & [] & _)].
  - destruct (read_record fs rec) as [vals|] eqn:E.
    + destruct (IH (vals ++ skipn (length vals) buf) out) as (rows & -> & Hrows); [intros rec' y' H1 H2; apply (Ho rec' y'); [now right|auto]|].
      eexists. split; [reflexivity|]. intros x. cbn [In]. rewrite Hrows.
      rewrite <- (Ho rec vals (or_introl eq_refl) E), firstn_app, firstn_all, Nat.sub_diag. simpl firstn. rewrite app_nil_r. split.
      * intros [<-|(rec' & H1 & H2)]; [exists rec|exists rec']; auto.
      * intros (rec' & [<-|H1] & H2); [left; congruence|right; eauto].
    + destruct (IH buf out) as (rows & -> & Hrows); [intros rec' y' H1 H2; apply (Ho rec' y'); [now right|auto]|].
      exists rows. split; auto. intros x. rewrite Hrows. split; [intros (rec' & H1 & H2); exists rec'; auto|]. intros (rec' & [<-|H1] & H2); [congruence|eauto].
Qed.
Lemma plain_table q b fs recs ks : map is_skip fs = map negb ks -> (forall rec y, read_record fs rec = Some y -> length y = count_true ks) ->
  exists rows, import_table (mkImport q b fs recs []) = Some rows /\ forall x, In x rows <-> exists rec, In rec recs /\ read_record fs rec = Some x.
Proof.
  intros Hk Hl. unfold import_table. cbn [i_rules i_formats i_records patterns_of mapo option_map flat_map output_columns]. rewrite (skip_formats_input fs ks Hk).
  apply plain_rows. eauto.
Qed.

Section Pushed.
Context (nr : rule) (p q : tag) (xs : list var) (hs : list hterm).
Context (Hpos : r_pos nr = [(p, xs)]) (Hhead : r_head nr = [(q, hs)]) (Hnd : NoDup xs) (Hne : hs <> []).
Context (Hops : forall o v, In o (r_ops nr) -> In v (op_vars o) -> bound nr v).
Context (Hhv : forall v, In v (head_vars nr) -> bound nr v) (Hpl : plain_operations nr).
Context (ks : list bool) (fs fs' : list fmt).
Context (Hks : length ks = length xs) (Hfs : length fs = length xs) (Hnsk : noskip fs) (Htot : total_at ks fs) (Hskip : skip_formats fs ks = Some fs').
Context (Hun : forall n v, nth_error ks n = Some false -> nth_error xs n = Some v -> ~ occurs nr v).

Lemma pushed_rows fns flt : fun_ok xs fns -> Permutation (r_ops nr) (map to_op fns ++ flt) -> (forall v, bound nr v -> In v (xs ++ map fst fns)) ->
  forall l recs buf, length buf = max (count_true ks) (length hs) ->
  exists rows, read_records fs' [pat xs hs fns flt l] (length hs) buf recs = Some rows /\
    forall x, In x rows <-> exists rec y nu, In rec recs /\ read_record fs rec = Some y /\ fires nr xs hs nu y x.
Proof.
  intros Hok Hperm Hbv l. induction recs as [|rec recs IH]; intros buf Hb; cbn [read_records].
  - exists []. split; auto. intros x. split; [intros []|intros (rec & y & nu & [] & _)].
  - rewrite (read_kept fs ks fs' rec Hskip) by (auto; lia). destruct (read_record fs rec) as [y|] eqn:E; simpl option_map; cbv iota.
    + assert (Hy : length y = length xs) by (rewrite (read_length fs rec y Hnsk E); auto).
      pose proof (kept_length ks y ltac:(lia)) as Hkl.
      rewrite (skip_formats_skips fs ks fs' Hskip ltac:(lia) Hnsk).
      assert (Hlen : length (kept ks y ++ skipn (length (kept ks y)) buf) = length buf) by (rewrite app_length, skipn_length; lia).
      destruct (pattern_row nr p q xs hs Hpos Hhead Hnd Hops Hhv Hpl fns flt Hok Hperm Hbv ks Hks Hun l y (skipn (length (kept ks y)) buf) Hy ltac:(lia)) as (buf' & b & Em & Hl' & Ht & Hf).
      unfold match_and_transform. rewrite Em.
      destruct (IH buf') as (rows & -> & Hrows); [lia|]. eexists. split; [reflexivity|]. intros x. destruct b.
      * destruct (Ht eq_refl) as ((nu & Hnu) & Huniq). cbn [In]. rewrite Hrows. split.
        -- intros [<-|(rec' & y' & nu' & H1 & H2 & H3)]; [exists rec, y, nu|exists rec', y', nu']; auto.
        -- intros (rec' & y' & nu' & [<-|H1] & H2 & H3); [|right; eauto 8]. left. rewrite E in H2. injection H2 as <-. symmetry. eapply Huniq; eauto.
      * rewrite Hrows. split; [intros (rec' & y' & nu' & H1 & H2 & H3); exists rec', y', nu'; auto|].
        intros (rec' & y' & nu' & [<-|H1] & H2 & H3); [|eauto 8]. exfalso. rewrite E in H2. injection H2 as <-. eapply Hf; eauto.
    + destruct (IH buf Hb) as (rows & -> & Hrows). exists rows. split; auto. intros x. rewrite Hrows. split; [intros (rec' & y' & nu' & H1 & H2 & H3); exists rec', y', nu'; auto|].
      intros (rec' & y' & nu' & [<-|H1] & H2 & H3); [congruence|eauto 8].
Qed.

Lemma pushed_table r b recs : normalize r = Some nr ->
  exists rows, import_table (mkImport q b fs' recs [r]) = Some rows /\
    forall x, In x rows <-> exists rec y nu, In rec recs /\ read_record fs rec = Some y /\ fires nr xs hs nu y x.
Proof.
  intros En. destruct (into_pattern_spec nr p q xs hs Hpos Hhead Hne Hops Hhv) as (fns & flt & Ep & Hok & Hperm & Hbv).
  unfold import_table, patterns_of. cbn [i_rules i_formats i_records mapo]. rewrite En, Ep. cbn [option_map flat_map app]. unfold output_columns. cbn [pt_out pat].
  assert (El : (length hs =? 0) = false) by (apply Nat.eqb_neq; destruct hs; simpl; [tauto|lia]). rewrite El.
  rewrite (skip_formats_input fs' ks) by (apply (skip_formats_skips fs ks fs' Hskip ltac:(lia) Hnsk)).
  apply pushed_rows; auto. apply repeat_length.
Qed.

(** The rule is dropped because it is a projection. *)
Lemma dropped_table b recs : r_ops nr = [] -> hs = map HVar (kept ks xs) ->
  exists rows, import_table (mkImport q b fs' recs []) = Some rows /\
    forall x, In x rows <-> exists rec y nu, In rec recs /\ read_record fs rec = Some y /\ fires nr xs hs nu y x.
Proof.
  intros Eo Eh. destruct (plain_table q b fs' recs ks) as (rows & E & Hr).
  - apply (skip_formats_skips fs ks fs' Hskip ltac:(lia) Hnsk).
  - intros rec y Hy. rewrite (read_kept fs ks fs' rec Hskip) in Hy by (auto; lia). destruct (read_record fs rec) as [y0|] eqn:E; [|discriminate]. injection Hy as <-. apply kept_length. rewrite (read_length fs rec y0 Hnsk E). lia.
  - exists rows. split; auto. intros x. rewrite Hr.
    assert (Hkm : forall (nu : var -> Z), kept ks (map nu xs) = map nu (kept ks xs)).
    { intros nu. clear. revert ks. induction xs as [|v l IH]; intros [|[] k]; simpl; auto; now rewrite IH. }
    split.
    + intros (rec & H1 & H2). rewrite (read_kept fs ks fs' rec Hskip) in H2 by (auto; lia). destruct (read_record fs rec) as [y0|] eqn:E0; [|discriminate]. injection H2 as <-.
      assert (Hy : length y0 = length xs) by (rewrite (read_length fs rec y0 Hnsk E0); auto).
      exists rec, y0, (val_of xs y0). split; auto. split; auto. unfold fires. rewrite val_of_map by auto. split; auto. split; [rewrite Eo; intros o []|].
      rewrite Eh, map_map. change (map (fun x => hterm_val (val_of xs y0) (HVar x)) (kept ks xs)) with (map (val_of xs y0) (kept ks xs)). rewrite <- (Hkm (val_of xs y0)), val_of_map by auto. reflexivity.
    + intros (rec & y0 & nu & H1 & H2 & (F1 & F2 & F3)). exists rec. split; auto. rewrite (read_kept fs ks fs' rec Hskip) by (auto; lia). rewrite H2. simpl. f_equal. rewrite <- F1, Hkm, F3, Eh, map_map. reflexivity.
Qed.
End Pushed.
