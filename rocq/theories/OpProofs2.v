(* The join of tries explores the intersection, layer by layer. *)
From Coq Require Import List ZArith Bool Lia Arith Sorted.
From Verif Require Import ColumnModel ColumnSpec ColumnProofs ScanModel ScanSpec ScanProofs ScanProofs2 TrieModel TrieScanSpec OpModel OpProofs1.
Import ListNotations.
Local Open Scope nat_scope.

Notation binding := (list (nat * nat)).
(* the relation takes part in a layer *)
Definition takes (i : nat) (bk : binding) : bool := existsb (fun ic => fst ic =? i) bk.
Lemma takes_In : forall i bk, takes i bk = true <-> In i (map fst bk).
Proof.
  intros i bk. unfold takes. rewrite existsb_exists, in_map_iff. split.
  - intros (x & Hx & E). apply Nat.eqb_eq in E. eauto.
  - intros (x & E & Hx). exists x. split; [exact Hx|apply Nat.eqb_eq, E].
Qed.
Definition uses (i : nat) (bs : list binding) : nat := length (filter (takes i) bs).
(* the values of a row for the columns of a relation *)
Fixpoint chosen (i : nat) (bs : list binding) (p : row) : row :=
  match bs, p with
  | bk :: bs', v :: p' => if takes i bk then v :: chosen i bs' p' else chosen i bs' p'
  | _, _ => []
  end.

Record wf_bindings (m : nat) (N : nat -> nat) (bs : list binding) : Prop := {
  wb_layer : forall k bk, nth_error bs k = Some bk -> bk <> [] /\ NoDup (map fst bk) /\
    forall ic, In ic bk -> fst ic < m /\ snd ic = uses (fst ic) (firstn k bs);
  wb_arity : forall i, i < m -> N i = uses i bs }.

Lemma uses_firstn_S : forall i bs k bk, nth_error bs k = Some bk ->
  uses i (firstn (S k) bs) = uses i (firstn k bs) + (if takes i bk then 1 else 0).
Proof.
  intros i bs. induction bs as [|a bs IH]; intros [|k] bk H; cbn in H; try discriminate.
  - injection H as ->. unfold uses. cbn. destruct (takes i bk); reflexivity.
  - specialize (IH k bk H). unfold uses in *. cbn [firstn filter]. cbn [firstn filter] in IH. destruct (takes i a); cbn [length]; rewrite IH; lia.
Qed.
Lemma uses_firstn_le : forall i bs k, uses i (firstn k bs) <= uses i bs.
Proof.
  intros i bs. induction bs as [|a bs IH]; intros [|k]; unfold uses in *; cbn [firstn filter length]; try lia.
  destruct (takes i a); cbn [length]; specialize (IH k); lia.
Qed.
Lemma chosen_snoc : forall i bs p v bk, nth_error bs (length p) = Some bk ->
  chosen i bs (p ++ [v]) = chosen i bs p ++ (if takes i bk then [v] else []).
Proof.
  intros i bs. induction bs as [|a bs IH]; intros [|w p] v bk H; cbn in H; try discriminate.
  - injection H as ->. cbn [app chosen]. destruct (takes i bk); [|destruct bs; reflexivity]. destruct bs; reflexivity.
  - cbn [app chosen]. rewrite (IH p v bk H). destruct (takes i a); reflexivity.
Qed.
Lemma chosen_length : forall i bs p, length p <= length bs -> length (chosen i bs p) = uses i (firstn (length p) bs).
Proof.
  intros i bs. induction bs as [|a bs IH]; intros [|v p] H; cbn in *; try lia; try reflexivity.
  unfold uses in *. cbn [filter]. destruct (takes i a); cbn [length]; rewrite (IH p) by lia; reflexivity.
Qed.

Section Join.
Variable sub : triescan.
Variable b : bool.
Variable m : nat.
Variable N : nat -> nat.
Variable Ty : nat -> nat -> list stype.
Variable Tau : nat -> tree.
Variable R : nat -> tstate sub -> list frame -> Prop.
Hypothesis HS : forall i, i < m -> simulates (N i) (Ty i) (Tau i) sub b (R i).
Hypothesis HP : forall i, i < m -> proper (N i) (Ty i) (Tau i).
Variable bs : list binding.
Hypothesis HB : wf_bindings m N bs.
Notation n := (length bs).

(* the tree of the join *)
Definition join_tree : tree := fun p t =>
  match nth_error bs (length p) with
  | Some (ic :: rest) =>
      filter (fun z => forallb (fun jc => existsb (Z.eqb z) (Tau (fst jc) (chosen (fst jc) bs p) t)) rest)
        (Tau (fst ic) (chosen (fst ic) bs p) t)
  | _ => []
  end.
Lemma join_tree_In : forall p t z bk, nth_error bs (length p) = Some bk ->
  (In z (join_tree p t) <-> forall ic, In ic bk -> In z (Tau (fst ic) (chosen (fst ic) bs p) t)).
Proof.
  intros p t z bk E. unfold join_tree. rewrite E. destruct (wb_layer _ _ _ HB _ _ E) as [Hne _]. destruct bk as [|ic rest]; [congruence|].
  rewrite filter_In, forallb_forall. split.
  - intros [H1 H2] jc [<-|Hj]; [exact H1|]. specialize (H2 _ Hj). apply existsb_exists in H2. destruct H2 as (y & Hy & Ey). apply Z.eqb_eq in Ey. subst. exact Hy.
  - intros H. split; [apply H; left; reflexivity|]. intros jc Hj. apply existsb_exists. exists z. split; [apply H; right; exact Hj|apply Z.eqb_refl].
Qed.
Lemma filter_incr : forall (f : Z -> bool) l, increasing l -> increasing (filter f l).
Proof.
  intros f l H. induction H as [|x l H IH Hf]; cbn; [constructor|]. destruct (f x); [|exact IH]. constructor; [exact IH|].
  apply Forall_forall. intros y Hy. apply filter_In in Hy. rewrite Forall_forall in Hf. apply Hf, Hy.
Qed.
Lemma chosen_short : forall k bk ic p, nth_error bs k = Some bk -> In ic bk -> length p = k -> length (chosen (fst ic) bs p) < N (fst ic).
Proof.
  intros k bk ic p E Hic Hp. destruct (wb_layer _ _ _ HB _ _ E) as (_ & _ & H). destruct (H ic Hic) as [Hm Hc].
  assert (Hk : k < n) by (apply nth_error_Some; congruence).
  rewrite chosen_length by lia. rewrite (wb_arity _ _ _ HB _ Hm), Hp.
  pose proof (uses_firstn_S (fst ic) bs k bk E) as E1. pose proof (uses_firstn_le (fst ic) bs (S k)) as E2.
  assert (Ht : takes (fst ic) bk = true) by (apply takes_In, in_map, Hic). rewrite Ht in E1. lia.
Qed.
Lemma join_tree_increasing : forall p t, length p < n -> increasing (join_tree p t).
Proof.
  intros p t Hp. unfold join_tree. destruct (nth_error bs (length p)) as [[|ic rest]|] eqn:E; [constructor| |constructor]. apply filter_incr.
  destruct (wb_layer _ _ _ HB _ _ E) as (_ & _ & H). destruct (H ic (or_introl eq_refl)) as [Hm Hc].
  apply (p_increasing _ _ _ (HP _ Hm)). eapply chosen_short; [exact E|left; reflexivity|reflexivity].
Qed.

(* a layer of the join: marks = active scan and current value *)
Definition mark_ok (bk : binding) (mk : nat * option Z) (p : nat -> option (option Z * list Z)) (c : option Z) (l : list Z) : Prop :=
  snd mk = c /\ increasing (ahead c l) /\ fst mk < length bk /\
  (forall i cl, p i = Some cl -> increasing (ahead (fst cl) (snd cl))) /\
  (((forall i cl, p i = Some cl -> fst cl = c) /\ (forall x, In x l <-> forall i cl, p i = Some cl -> In x (snd cl))) \/
   (c = None /\ l = [] /\ exists ic, nth_error bk (fst mk) = Some ic /\ p (fst ic) = Some (None, []))).
Definition layer_ok (marks : list (stype -> nat * option Z)) (k : nat) (f : frame) (p : part) : Prop :=
  f_type f = fst p /\ exists bk mk, nth_error bs k = Some bk /\ nth_error marks k = Some mk /\
    (forall i, snd p i = None <-> takes i bk = false) /\ mark_ok bk (mk (fst p)) (snd p) (f_current f) (snd f).

Variable types : list (list stype).

Definition join_state (j : tjoin sub) (fs : list frame) : Prop :=
  tj_bindings _ j = bs /\ tj_types _ j = types /\ tj_layer _ j = layer_of fs /\ length (tj_marks _ j) = n /\
  exists st, subs_at sub m R (tj_subs _ j) st /\ layers (layer_ok (tj_marks _ j)) 0 fs st.

Lemma layers_ctx_length : forall marks fs k st i, layers (layer_ok marks) k fs st ->
  uses i (firstn k bs) + length (ctx i st) = uses i (firstn (k + length fs) bs).
Proof.
  intros marks. induction fs as [|f fs IH]; intros k [|p st] i H; cbn [layers] in H; try tauto.
  - cbn. rewrite !Nat.add_0_r. reflexivity.
  - destruct H as [(Ht & bk & mk & E & Em & Hp & Hmk) H]. specialize (IH (S k) st i H). change (ctx i (p :: st)) with (part_frame i p ++ ctx i st). cbn [length]. rewrite app_length.
    replace (k + S (length fs)) with (S k + length fs) by lia. rewrite <- IH, (uses_firstn_S i bs k bk E). unfold part_frame.
    specialize (Hp i). destruct (snd p i) as [[c l]|] eqn:Ep; destruct (takes i bk) eqn:Et; cbn [length]; try lia.
    + destruct Hp as [_ Hp]. specialize (Hp eq_refl). discriminate.
    + destruct Hp as [Hp _]. specialize (Hp eq_refl). discriminate.
Qed.
Lemma layers_path : forall marks fs k st i, layers (layer_ok marks) k fs st -> on_values fs ->
  on_values (ctx i st) /\ path (ctx i st) = chosen i (skipn k bs) (path fs).
Proof.
  intros marks. induction fs as [|f fs IH]; intros k [|p st] i H Ho; cbn [layers] in H; try tauto.
  - split; [intros f []|]. cbn. destruct (skipn k bs); reflexivity.
  - destruct H as [(Ht & bk & mk & E & Em & Hp & Hmk) H].
    destruct (IH (S k) st i H) as [IH1 IH2]; [intros g Hg; apply Ho; right; exact Hg|].
    assert (Hf : f_current f <> None) by (apply Ho; left; reflexivity).
    destruct Hmk as (_ & _ & _ & _ & [[Hc _]|(Hc & _)]); [|congruence].
    assert (Es : skipn k bs = bk :: skipn (S k) bs).
    { clear - E. revert bs E. induction k as [|k IHk]; intros [|a l] E; cbn in *; try discriminate; [congruence|]. apply IHk, E. }
    rewrite Es. cbn [path map chosen]. unfold ctx. cbn [flat_map]. fold (ctx i st). unfold part_frame. specialize (Hp i).
    destruct (snd p i) as [[c l]|] eqn:Ep; destruct (takes i bk) eqn:Et.
    + specialize (Hc _ _ Ep). cbn in Hc. split.
      * intros g [<-|Hg]; [cbn; congruence|apply IH1, Hg].
      * cbn [app map]. change (f_value (fst p, c, l) :: path (ctx i st) = f_value f :: chosen i (skipn (S k) bs) (path fs)). rewrite IH2. f_equal.
        unfold f_value. cbn [f_type f_current fst snd]. rewrite Ht. f_equal. subst c. reflexivity.
    + destruct Hp as [_ Hp]. specialize (Hp eq_refl). discriminate.
    + destruct Hp as [Hp _]. specialize (Hp eq_refl). discriminate.
    + cbn [app]. split; [exact IH1|exact IH2].
Qed.

Lemma layer_ok_marks : forall marks marks' k f p, nth_error marks' k = nth_error marks k -> layer_ok marks k f p -> layer_ok marks' k f p.
Proof. intros marks marks' k f p E (Ht & bk & mk & E1 & E2 & H). split; [exact Ht|]. exists bk, mk. rewrite E. auto. Qed.

Lemma join_down_ok : forall s fs t, join_state s fs -> on_values fs -> length fs < n ->
  exists s', tjoin_down sub t s = Ok s' /\ join_state s' (fs ++ [(t, None, join_tree (path fs) t)]).
Proof.
  intros s fs t (Eb & Et & El & Em & st & Hs & HL) Ho Hn.
  assert (Ebel : below (tj_layer _ s) = length fs). { rewrite El. unfold layer_of, below. destruct fs; cbn [length]; lia. }
  destruct (nth_error bs (length fs)) as [bk|] eqn:E; [|apply nth_error_None in E; lia].
  destruct (wb_layer _ _ _ HB _ _ E) as (Hne & Hnd & Hbk).
  pose proof (layers_length _ _ _ _ HL) as Hlen.
  set (p := fun i => if takes i bk then Some (@None Z, Tau i (chosen i bs (path fs)) t) else None).
  destruct (fold_change sub m R (ts_down sub t) (map fst bk) (tj_subs _ s) (fun i => ctx i st) (fun i => ctx i (st ++ [(t, p)]))) as (subs' & E' & Hl' & H').
  - apply Hs.
  - exact Hnd.
  - intros i Hi. apply in_map_iff in Hi. destruct Hi as (ic & <- & Hic). apply Hbk, Hic.
  - apply Hs.
  - intros i x Hi Hx. pose proof Hi as Hi'. apply in_map_iff in Hi. destruct Hi as (ic & <- & Hic). destruct (Hbk ic Hic) as [Hm Hc].
    destruct (layers_path _ _ _ _ (fst ic) HL Ho) as [Hon Hpath].
    destruct (e_down _ _ _ _ _ _ (HS _ Hm) x _ t Hx Hon) as (x' & Ex & Hx').
    + pose proof (layers_ctx_length _ _ _ _ (fst ic) HL) as EL. cbn [firstn Nat.add] in EL. unfold uses at 1 in EL. cbn [filter length Nat.add] in EL. rewrite EL.
      pose proof (chosen_short _ _ _ (path fs) E Hic (map_length _ _)) as Hsh. rewrite chosen_length in Hsh by (unfold path; rewrite map_length; lia). unfold path in Hsh. rewrite map_length in Hsh. exact Hsh.
    + exists x'. split; [exact Ex|]. rewrite ctx_last. unfold part_frame, p. cbn [snd fst]. assert (Ht : takes (fst ic) bk = true) by (apply takes_In, Hi'). rewrite Ht.
      rewrite Hpath in Hx'. cbn [skipn] in Hx'. exact Hx'.
  - intros i Hi. rewrite ctx_last. unfold part_frame, p. cbn [snd fst]. destruct (takes i bk) eqn:Eti; [apply takes_In in Eti; tauto|]. apply app_nil_r.
  - destruct (nth_error (tj_marks _ s) (length fs)) as [mk|] eqn:Emk; [|apply nth_error_None in Emk; lia].
    eexists. split.
    + unfold tjoin_down. rewrite Ebel, Eb. assert (Ei : index bs (length fs) = Ok bk) by (apply index_Ok; exact E). rewrite Ei. cbn [bind]. rewrite E'. cbn [bind].
      assert (Ei2 : index (tj_marks _ s) (length fs) = Ok mk) by (apply index_Ok; exact Emk). rewrite Ei2. cbn [bind]. reflexivity.
    + split; [reflexivity|]. split; [exact Et|]. split; [cbn; unfold layer_of; destruct fs; cbn; [reflexivity|]; rewrite app_length; cbn; f_equal; lia|].
      cbn [tj_marks]. rewrite set_nth_length. split; [exact Em|]. exists (st ++ [(t, p)]). split; [split; [exact Hl'|exact H']|].
      apply layers_snoc.
      * eapply layers_weaken; [|exact HL]. intros j f q Hj1 Hj2. apply layer_ok_marks. apply set_nth_other. lia.
      * cbn [Nat.add]. split; [reflexivity|]. exists bk, (upd t (0, None) mk). split; [exact E|]. split; [apply set_nth_same; lia|].
        split. { intros i. unfold p. cbn [snd]. destruct (takes i bk); split; congruence. }
        unfold mark_ok, upd. cbn [fst snd f_current]. assert (Ett : stype_eqb t t = true) by (destruct t; reflexivity). rewrite Ett. cbn [fst snd].
        split; [reflexivity|]. split; [cbn; apply join_tree_increasing; unfold path; rewrite map_length; lia|]. split; [destruct bk; [congruence|cbn; lia]|]. split.
        { intros i cl Hcl. unfold p in Hcl. destruct (takes i bk) eqn:Eti; [|discriminate]. injection Hcl as <-. cbn.
          apply takes_In, in_map_iff in Eti. destruct Eti as (ic & <- & Hic). apply (p_increasing _ _ _ (HP _ (proj1 (Hbk _ Hic)))).
          eapply chosen_short; [exact E|exact Hic|apply map_length]. }
        left. split.
        { intros i cl Hcl. unfold p in Hcl. destruct (takes i bk); [|discriminate]. injection Hcl as <-. reflexivity. }
        intros x. cbn [snd]. rewrite (join_tree_In (path fs) t x bk) by (unfold path; rewrite map_length; exact E). split.
        { intros H i cl Hcl. unfold p in Hcl. destruct (takes i bk) eqn:Eti; [|discriminate]. injection Hcl as <-. cbn.
          apply takes_In, in_map_iff in Eti. destruct Eti as (ic & <- & Hic). apply H, Hic. }
        { intros H ic Hic. apply (H (fst ic) (None, Tau (fst ic) (chosen (fst ic) bs (path fs)) t)). unfold p.
          assert (Eti : takes (fst ic) bk = true) by (apply takes_In, in_map, Hic). rewrite Eti. reflexivity. }
Qed.

Lemma join_up_ok : forall s fs f, join_state s (fs ++ [f]) -> exists s', tjoin_up sub s = Ok s' /\ join_state s' fs.
Proof.
  intros s fs f (Eb & Et & El & Em & st0 & Hs & HL). apply layers_unsnoc in HL. destruct HL as (st & [ty p] & -> & HL & Hok). cbn [Nat.add] in Hok.
  destruct Hok as (Ht & bk & mk & E & Emk & Hp & Hmk). cbn [fst snd] in *.
  destruct (wb_layer _ _ _ HB _ _ E) as (Hne & Hnd & Hbk).
  assert (Elay : tj_layer _ s = Some (length fs)). { rewrite El. unfold layer_of. destruct fs; cbn; [reflexivity|]. rewrite app_length. cbn. f_equal. lia. }
  destruct (fold_change sub m R (ts_up sub) (map fst bk) (tj_subs _ s) (fun i => ctx i (st ++ [(ty, p)])) (fun i => ctx i st)) as (subs' & E' & Hl' & H').
  - apply Hs.
  - exact Hnd.
  - intros i Hi. apply in_map_iff in Hi. destruct Hi as (ic & <- & Hic). apply Hbk, Hic.
  - apply Hs.
  - intros i x Hi Hx. assert (Hm : i < m). { apply in_map_iff in Hi. destruct Hi as (ic & <- & Hic). apply Hbk, Hic. }
    rewrite ctx_last in Hx. unfold part_frame in Hx. cbn [fst snd] in Hx. apply takes_In in Hi. destruct (p i) as [[c l]|] eqn:Ep.
    + destruct (e_up _ _ _ _ _ _ (HS _ Hm) _ _ _ Hx) as (x' & Ex & Hx'). eauto.
    + apply Hp in Ep. congruence.
  - intros i Hi. rewrite ctx_last. unfold part_frame. cbn [fst snd]. destruct (p i) as [[c l]|] eqn:Ep; [|rewrite app_nil_r; reflexivity].
    exfalso. apply Hi, takes_In. destruct (takes i bk) eqn:Eti; [reflexivity|]. apply Hp in Eti. congruence.
  - eexists. split.
    + unfold tjoin_up. rewrite Elay, Eb. assert (Ei : index bs (length fs) = Ok bk) by (apply index_Ok; exact E). rewrite Ei. cbn [bind]. rewrite E'. cbn [bind]. reflexivity.
    + split; [reflexivity|]. split; [exact Et|]. cbn. split; [unfold above, layer_of; destruct fs; cbn; [reflexivity|]; f_equal; lia|]. split; [exact Em|].
      exists st. split; [split; [exact Hl'|exact H']|exact HL].
Qed.

Lemma join_ask_ok : forall q s (fs : list frame) t c l, join_state s (fs ++ [(t, c, l)]) ->
  exists enough s', let l' := after q c l in
    (forall fuel, enough <= fuel -> ts_ask (join_trie sub) q fuel (length fs) t s = Ok (s', hd_error l')) /\
    join_state s' (fs ++ [(t, hd_error l', tl l')]).
Proof.
  intros q s fs t c l (Eb & Et & El & Em & st0 & Hs & HL). apply layers_unsnoc in HL. destruct HL as (st & [ty p] & -> & HL & Hok). cbn [Nat.add] in Hok.
  destruct Hok as (Ht & bk & mk & E & Emk & Hp & Hmk). cbn in Ht. subst ty. cbn [fst snd] in *. cbn [f_current fst snd] in Hmk.
  destruct (wb_layer _ _ _ HB _ _ E) as (Hne & Hnd & Hbk).
  destruct Hmk as (Hv & Hinc & Hact & Hpi & Hcase).
  assert (Hsub : length (tj_subs _ s) = m) by apply Hs.
  destruct (borrow_all sub m (tj_subs _ s) bk Hsub) as (scans & Esc & Emap & Hget). { intros ic Hic. apply Hbk, Hic. }
  assert (Hcol : forall ic, In ic bk -> snd ic = length (ctx (fst ic) st)).
  { intros ic Hic. pose proof (layers_ctx_length _ _ _ _ (fst ic) HL) as EL. cbn [firstn Nat.add] in EL. unfold uses at 1 in EL. cbn [filter length Nat.add] in EL. rewrite EL. apply Hbk, Hic. }
  assert (Hpart : forall ic, In ic bk -> exists cl, p (fst ic) = Some cl).
  { intros ic Hic. destruct (p (fst ic)) as [cl|] eqn:Ep; [eauto|]. apply Hp in Ep. assert (takes (fst ic) bk = true) by (apply takes_In, in_map, Hic). congruence. }
  set (cls := map (fun ic => match p (fst ic) with Some cl => cl | None => (None, []) end) bk).
  assert (Hclp : forall i ic cl, nth_error bk i = Some ic -> nth_error cls i = Some cl -> p (fst ic) = Some cl).
  { intros i ic cl Hi Hcl. unfold cls in Hcl. rewrite nth_error_map, Hi in Hcl. cbn in Hcl. destruct (Hpart ic (nth_error_In _ _ Hi)) as [cl0 Ecl0]. rewrite Ecl0 in Hcl. congruence. }
  assert (Hbl : length scans = length bk) by (rewrite <- Emap, map_length; reflexivity).
  assert (Hcl_len : length cls = length bk) by (unfold cls; apply map_length).
  set (j := mk_join (sub_column sub t) scans (fst (mk t)) (snd (mk t))).
  assert (HJ : join_rel (sub_column sub t) (col_rel sub m R st t) j c l).
  { split; [exact Hinc|]. split; [exact Hv|]. split; [cbn; lia|]. exists cls. split.
    - split; [cbn; lia|]. intros i x cl Hx Hcl. cbn in Hx.
      assert (Hxi : nth_error bk i = Some (fst x)). { rewrite <- Emap. rewrite nth_error_map, Hx. reflexivity. }
      pose proof (Hclp _ _ _ Hxi Hcl) as Epx. pose proof (nth_error_In _ _ Hxi) as HIn. pose proof (Hget x (nth_error_In _ _ Hx)) as Hgx.
      split; [apply (Hpi _ _ Epx)|]. split; [apply Hbk, HIn|]. split; [apply Hcol, HIn|].
      destruct Hs as [_ Hs]. specialize (Hs _ _ Hgx). rewrite ctx_last in Hs. unfold part_frame in Hs. cbn [fst snd] in Hs. rewrite Epx in Hs.
      destruct cl as [c0 l0]. cbn [fst snd]. exact Hs.
    - destruct Hcase as [[Hc1 Hc2]|(Hc1 & Hc2 & ic & Hc3 & Hc4)]; [left|right].
      + split.
        * intros i cl Hcl. destruct (nth_error bk i) as [ic|] eqn:Ebi; [|apply nth_error_None in Ebi; assert (i < length cls) by (apply nth_error_Some; congruence); lia].
          apply (Hc1 (fst ic)), (Hclp _ _ _ Ebi Hcl).
        * intros x. rewrite Hc2. split.
          -- intros H i cl Hcl. destruct (nth_error bk i) as [ic|] eqn:Ebi; [|apply nth_error_None in Ebi; assert (i < length cls) by (apply nth_error_Some; congruence); lia].
             apply (H (fst ic)), (Hclp _ _ _ Ebi Hcl).
          -- intros H i cl Hcl. assert (Hti : takes i bk = true). { destruct (takes i bk) eqn:Eti; [reflexivity|]. apply Hp in Eti. congruence. }
             apply takes_In, in_map_iff in Hti. destruct Hti as (ic & <- & Hic). apply In_nth_error in Hic. destruct Hic as [k Hk].
             apply (H k). unfold cls. rewrite nth_error_map, Hk. cbn. rewrite Hcl. reflexivity.
      + split; [exact Hc1|]. split; [exact Hc2|]. cbn. unfold cls. rewrite nth_error_map, Hc3. cbn. rewrite Hc4. reflexivity. }
  destruct (i_ask _ _ _ _ _ (join_implements _ _ _ _ (col_implements sub b m N Ty Tau R HS st t)) j c l q HJ) as (en & j' & Hask & _ & HJ'). { destruct q; exact I. }
  set (l' := after q c l) in *.
  exists en. eexists. split.
  - intros fuel Hf. specialize (Hask fuel Hf).
    assert (G : ts_ask (join_trie sub) q fuel (length fs) t s = tjoin_ask sub (fun sc => ask sc q fuel) (length fs) t s) by (destruct q; reflexivity).
    rewrite G. unfold tjoin_ask. rewrite Eb. assert (Ei : index bs (length fs) = Ok bk) by (apply index_Ok; exact E). rewrite Ei. cbn [bind].
    rewrite Esc. cbn [bind]. assert (Ei2 : index (tj_marks _ s) (length fs) = Ok mk) by (apply index_Ok; exact Emk). rewrite Ei2. cbn [bind].
    fold j. rewrite Hask. cbn [bind fst snd]. reflexivity.
  - pose proof (join_keeps (sub_column sub t) (nat * nat) fst (column_keeps sub t) q en j j' _ (Hask en (le_n _))) as Hk. cbn [j_scans j] in Hk.
    assert (Hk' : map fst (j_scans _ j') = bk) by exact (eq_trans Hk Emap). clear Hk.
    assert (Hki : map (fun s : nat * nat * tstate sub => fst (fst s)) (j_scans _ j') = map fst bk) by exact (eq_trans (eq_sym (map_map _ _ _)) (f_equal (map fst) Hk')).
    destruct HJ' as (Hinc' & Hv' & Hact' & cls' & [Hcl' Hall'] & Hcase').
    assert (Hbl' : length (j_scans _ j') = length bk) by (pose proof (f_equal (@length _) Hk') as E0; rewrite map_length in E0; exact E0).
    set (p' := fun i => assoc i (combine (map fst bk) cls')).
    assert (Hlc : length (map fst bk) = length cls') by (rewrite map_length; lia).
    assert (Hnd' : NoDup (map fst (combine (map fst bk) cls'))) by (rewrite combine_fst by exact Hlc; exact Hnd).
    assert (Hp' : forall i, p' i = None <-> takes i bk = false).
    { intros i. unfold p'. rewrite assoc_none, combine_fst by exact Hlc. rewrite <- takes_In. destruct (takes i bk); split; congruence. }
    assert (Hp'k : forall i cl, p' i = Some cl <-> exists k ic, nth_error bk k = Some ic /\ fst ic = i /\ nth_error cls' k = Some cl).
    { intros i cl. unfold p'. rewrite assoc_in by exact Hnd'. split.
      - intros H. apply combine_In in H. destruct H as (k & H1 & H2). rewrite nth_error_map in H1. destruct (nth_error bk k) as [ic|] eqn:Ek; [|discriminate]. injection H1 as H1. exists k, ic. auto.
      - intros (k & ic & H1 & <- & H2). eapply combine_nth; [|exact H2]. rewrite nth_error_map, H1. reflexivity. }
    cbn [tj_bindings tj_types tj_layer tj_marks tj_subs]. unfold join_state. cbn [tj_bindings tj_types tj_layer tj_marks tj_subs].
    split; [reflexivity|]. split; [exact Et|]. split; [rewrite El; unfold layer_of; destruct fs; cbn; [reflexivity|]; rewrite !app_length; reflexivity|].
    rewrite set_nth_length. split; [exact Em|]. exists (st ++ [(t, p')]). split.
    + split; [rewrite give_back_length; exact Hsub|]. intros i x Hx. rewrite ctx_last. unfold part_frame. cbn [fst snd].
      destruct (p' i) as [[c0 l0]|] eqn:Ep'.
      * apply Hp'k in Ep'. destruct Ep' as (k & ic & Ek & <- & Ecl).
        destruct (nth_error (j_scans _ j') k) as [sj|] eqn:Esj; [|apply nth_error_None in Esj; assert (k < length bk) by (apply nth_error_Some; congruence); exfalso; lia].
        assert (Efst : fst sj = ic). { pose proof (eq_ind _ (fun L => nth_error L k = Some (fst sj)) (map_nth_error fst _ _ Esj) _ Hk') as E0. cbn beta in E0. pose proof (eq_trans (eq_sym Ek) E0) as E1. injection E1 as E1. symmetry. exact E1. }
        pose proof (Hall' _ _ _ Esj Ecl) as (Hq1 & Hq2 & Hq3 & Hq4).
        assert (Esx : x = snd sj).
        { assert (G : nth_error (give_back sub (j_scans _ j') (tj_subs _ s)) (fst (fst sj)) = Some (snd sj)).
          { apply give_back_in; [|eapply nth_error_In; exact Esj|rewrite Hsub; exact Hq2].
            exact (eq_ind_r (fun L => NoDup L) Hnd Hki). }
          rewrite Efst in G. congruence. }
        subst x. rewrite <- Efst. exact Hq4.
      * rewrite app_nil_r. apply Hp' in Ep'. assert (Hni : ~ In i (map fst bk)) by (rewrite <- takes_In; congruence).
        rewrite give_back_other in Hx by exact (eq_ind_r (fun L => ~ In i L) Hni Hki).
        destruct Hs as [_ Hs]. specialize (Hs _ _ Hx). rewrite ctx_last in Hs. unfold part_frame in Hs. cbn [fst snd] in Hs.
        apply Hp in Ep'. rewrite Ep', app_nil_r in Hs. exact Hs.
    + apply layers_snoc.
      * eapply layers_weaken; [|exact HL]. intros k f q0 Hk1 Hk2. apply layer_ok_marks. apply set_nth_other. lia.
      * cbn [Nat.add]. split; [reflexivity|]. exists bk. eexists. split; [exact E|]. split; [apply set_nth_same; apply nth_error_Some; congruence|].
        split; [exact Hp'|]. unfold mark_ok, upd. cbn [fst snd f_current]. assert (Ett : stype_eqb t t = true) by (destruct t; reflexivity). rewrite Ett. cbn [fst snd].
        split; [exact Hv'|]. split; [exact Hinc'|]. split; [rewrite <- Hbl'; exact Hact'|]. split.
        { intros i cl Hi. apply Hp'k in Hi. destruct Hi as (k & ic & Ek & <- & Ecl).
          destruct (nth_error (j_scans _ j') k) as [sj|] eqn:Esj; [|apply nth_error_None in Esj; assert (k < length bk) by (apply nth_error_Some; congruence); exfalso; lia].
          apply (Hall' _ _ _ Esj Ecl). }
        destruct Hcase' as [[Hc1 Hc2]|(Hc1 & Hc2 & Hc3)]; [left|right].
        -- split.
           ++ intros i cl Hi. apply Hp'k in Hi. destruct Hi as (k & ic & Ek & <- & Ecl). apply (Hc1 _ _ Ecl).
           ++ intros x. rewrite Hc2. split.
              ** intros H i cl Hi. apply Hp'k in Hi. destruct Hi as (k & ic & Ek & <- & Ecl). apply (H _ _ Ecl).
              ** intros H k cl Hcl. destruct (nth_error bk k) as [ic|] eqn:Ebk; [|apply nth_error_None in Ebk; assert (k < length cls') by (apply nth_error_Some; congruence); rewrite map_length in Hlc; lia].
                 apply (H (fst ic)). apply Hp'k. eauto.
        -- split; [exact Hc1|]. split; [exact Hc2|]. destruct (nth_error bk (j_active _ j')) as [ic|] eqn:Ebk; [|apply nth_error_None in Ebk; exfalso; lia].
           exists ic. split; [reflexivity|]. apply Hp'k. eauto.
Qed.

Lemma join_current_ok : forall s (fs : list frame) t c l (gs : list frame), join_state s (fs ++ (t, c, l) :: gs) ->
  ts_current (join_trie sub) (length fs) t s = Ok c.
Proof.
  intros s fs t c l gs (Eb & Et & El & Em & st & Hs & HL). apply layers_mid in HL. destruct HL as (p & Ht & bk & mk & E & Emk & Hp & Hmk).
  cbn [Nat.add] in *. cbn [ts_current join_trie]. assert (Ei : index (tj_marks _ s) (length fs) = Ok mk) by (apply index_Ok; exact Emk). rewrite Ei. cbn [bind].
  destruct Hmk as (Hv & _). cbn in Ht. rewrite <- Ht in Hv. rewrite Hv. reflexivity.
Qed.

Lemma join_simulates : length types = n -> simulates n (fun k => match nth_error types k with Some l => l | None => [] end) join_tree (join_trie sub) true join_state.
Proof.
  intros Htl. constructor.
  - intros s fs (Eb & _). cbn. rewrite Eb. reflexivity.
  - intros s fs k (Eb & Et & _) Hk. cbn. rewrite Et. reflexivity.
  - intros s fs (Eb & Et & El & Em & st & Hs & HL). split; [|exact El].
    destruct (Nat.le_gt_cases (length fs) n) as [H|H]; [exact H|]. exfalso.
    destruct (nth_error fs n) as [f|] eqn:Ef; [|apply nth_error_None in Ef; lia]. apply nth_error_split in Ef. destruct Ef as (l1 & l2 & -> & Hl1).
    apply layers_mid in HL. destruct HL as (p & Ht & bk & mk & E & _). cbn in E. assert (length l1 < n) by (apply nth_error_Some; congruence). lia.
  - apply join_up_ok.
  - apply join_down_ok.
  - apply join_ask_ok.
  - intros s fs t c l gs H _. eapply join_current_ok, H.
Qed.

(* ---------- the possible types ---------- *)

Lemma join_new_ok : forall subs, length subs = m -> (forall i s, nth_error subs i = Some s -> R i s []) ->
  exists j, tjoin_new sub bs subs = Ok j /\ tj_types _ j = map (fun bk => filter (fun t => forallb (fun ic => existsb (stype_eqb t) (Ty (fst ic) (snd ic))) bk) all_types) bs /\
    (tj_types _ j = types -> join_state j []).
Proof.
  intros subs Hl Hs.
  assert (HM : forall bk L, (forall ic, In ic bk -> fst ic < m /\ snd ic < N (fst ic)) ->
    fold_res (fun l ic => bind (index subs (fst ic)) (fun s => Ok (filter (fun t => existsb (stype_eqb t) (ts_types sub s (snd ic))) l))) L bk =
    Ok (filter (fun t => forallb (fun ic => existsb (stype_eqb t) (Ty (fst ic) (snd ic))) bk) L)).
  { induction bk as [|ic bk IH]; intros L Hbk; cbn [fold_res].
    - cbn. f_equal. symmetry. induction L as [|t L IHL]; [reflexivity|]. cbn. f_equal. exact IHL.
    - destruct (Hbk ic (or_introl eq_refl)) as [Hi Hc]. destruct (nth_error subs (fst ic)) as [s|] eqn:Es; [|apply nth_error_None in Es; lia].
      assert (Ei : index subs (fst ic) = Ok s) by (apply index_Ok; exact Es). rewrite Ei. cbn [bind].
      rewrite (e_types _ _ _ _ _ _ (HS _ Hi) _ _ _ (Hs _ _ Es) Hc). rewrite IH by (intros; apply Hbk; right; assumption). f_equal.
      cbn [forallb]. clear. induction L as [|t L IHL]; [reflexivity|]. cbn [filter]. destruct (existsb (stype_eqb t) (Ty (fst ic) (snd ic))); cbn [filter andb]; [destruct (forallb _ bk)|]; rewrite IHL; reflexivity. }
  assert (HM2 : map_res (meet_types sub subs) bs = Ok (map (fun bk => filter (fun t => forallb (fun ic => existsb (stype_eqb t) (Ty (fst ic) (snd ic))) bk) all_types) bs)).
  { assert (G : forall bs', (forall bk, In bk bs' -> In bk bs) -> map_res (meet_types sub subs) bs' = Ok (map (fun bk => filter (fun t => forallb (fun ic => existsb (stype_eqb t) (Ty (fst ic) (snd ic))) bk) all_types) bs')).
    { induction bs' as [|bk bs' IH]; intros Hin; [reflexivity|]. cbn [map_res map]. unfold meet_types at 1. rewrite HM.
      - cbn [bind]. rewrite IH by (intros; apply Hin; right; assumption). reflexivity.
      - intros ic Hic. destruct (In_nth_error _ _ (Hin bk (or_introl eq_refl))) as [k Ek]. destruct (wb_layer _ _ _ HB _ _ Ek) as (_ & _ & H). destruct (H ic Hic) as [H1 H2].
        split; [exact H1|]. rewrite H2, (wb_arity _ _ _ HB _ H1). pose proof (uses_firstn_S (fst ic) bs k bk Ek) as E1. pose proof (uses_firstn_le (fst ic) bs (S k)) as E2.
        assert (Ht : takes (fst ic) bk = true) by (apply takes_In, in_map, Hic). rewrite Ht in E1. lia. }
    apply G. auto. }
  unfold tjoin_new. rewrite HM2. cbn [bind]. eexists. split; [reflexivity|]. split; [reflexivity|]. intros Et.
  split; [reflexivity|]. split; [exact Et|]. split; [reflexivity|]. cbn. split; [apply map_length|]. exists []. split; [split; [exact Hl|]|exact I].
  intros i s Hi. cbn. apply Hs, Hi.
Qed.
Definition join_types : list (list stype) := map (fun bk => filter (fun t => forallb (fun ic => existsb (stype_eqb t) (Ty (fst ic) (snd ic))) bk) all_types) bs.
Lemma all_types_sorted : StronglySorted (fun s t => order s < order t) all_types.
Proof. repeat constructor. Qed.
Lemma filter_types_sorted : forall f l, StronglySorted (fun s t => order s < order t) l -> StronglySorted (fun s t => order s < order t) (filter f l).
Proof.
  intros f l H. induction H as [|x l H IH Hf]; cbn; [constructor|]. destruct (f x); [|exact IH]. constructor; [exact IH|].
  apply Forall_forall. intros y Hy. apply filter_In in Hy. rewrite Forall_forall in Hf. apply Hf, Hy.
Qed.
Lemma join_proper : proper n (fun k => match nth_error join_types k with Some l => l | None => [] end) join_tree.
Proof.
  constructor.
  - intros p t Hp. apply join_tree_increasing, Hp.
  - intros p t Hp Hne. destruct (nth_error bs (length p)) as [bk|] eqn:E; [|apply nth_error_None in E; lia].
    unfold join_types. rewrite nth_error_map, E. cbn [option_map]. apply filter_In. split; [destruct t; cbn; tauto|]. apply forallb_forall. intros ic Hic.
    apply existsb_exists. exists t. split; [|destruct t; reflexivity].
    destruct (wb_layer _ _ _ HB _ _ E) as (_ & _ & H). destruct (H ic Hic) as [H1 H2].
    assert (Elen : length (chosen (fst ic) bs p) = snd ic) by (rewrite chosen_length by lia; congruence).
    rewrite <- Elen. apply (p_types _ _ _ (HP _ H1)); [eapply chosen_short; [exact E|exact Hic|reflexivity]|].
    destruct (join_tree p t) as [|z zs] eqn:Ez; [congruence|]. assert (Hz : In z (join_tree p t)) by (rewrite Ez; left; reflexivity).
    rewrite (join_tree_In p t z bk E) in Hz. specialize (Hz ic Hic). intros En. rewrite En in Hz. destruct Hz.
  - intros k Hk. unfold join_types. rewrite nth_error_map. destruct (nth_error bs k) as [bk|]; cbn [option_map]; [|constructor]. apply filter_types_sorted, all_types_sorted.
Qed.
End Join.
